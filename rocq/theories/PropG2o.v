(** * Saved files: C38 *)
From Coq Require Import QArith Qabs String Ascii Permutation.
From Verif Require Import Prelude Num NumText Keys KMap Geometry Factors Solver TextSpec G2o G2oSpec TextProofs G2oProofs.
Local Open Scope nat_scope.

(** ** C38 *)
(** The file, cut into lines and words, has one vertex line for each pose or point (2D poses, 3D
    poses, 2D points, 3D points, each in key order) and then one edge line for each between factor,
    in graph order; keys are exact, numbers shown with six significant digits.  In 3D edges the
    diagonal blocks of the information matrix are exchanged. *)
Theorem C38_file_contents : forall g est ls, write_g2o g est = Ok ls tt ->
  read_lines (file_text ls) = ls /\
  exists lv le, ls = lv ++ le /\ Forall2 vertex_line lv (by_kind est) /\ Forall2 (edge_line half_permuted) le (edges_of g) /\
    Permutation (by_kind est) (estimated est).
Proof. exact g2o_file. Qed.
Print Assumptions C38_file_contents.

Theorem C38_succeeds_iff_gaussian : forall g est,
  (exists ls, write_g2o g est = Ok ls tt) <->
  Forall (fun e => exists R, e_noise e = GGauss (if e_dim3 e then 6 else 3) R) (edges_of g).
Proof. exact g2o_ok_iff. Qed.
Print Assumptions C38_succeeds_iff_gaussian.

(** If a between factor has another noise model, the file is left incomplete. *)
Theorem C38_exception : forall g est ls e, write_g2o g est = Throw ls e ->
  e = InvalidArgument /\ exists es1 b es2 le, edges_of g = es1 ++ b :: es2 /\ e_noise b = GNotGauss /\
    ls = vertices est ++ le /\ Forall2 (edge_line half_permuted) le es1.
Proof. exact g2o_throw. Qed.
Print Assumptions C38_exception.

(** Reading the matrices back from the file: with the loader that exchanges the diagonal blocks
    every entry comes back (to six digits); with a loader that permutes rows and columns, the off
    diagonal blocks come back transposed. *)
Theorem C38_information_roundtrip : forall g est ls, write_g2o g est = Ok ls tt ->
  Forall2 (fun l e => e_dim3 e = true -> exists R, e_noise e = GGauss 6 R /\ (finite (information 6 R) ->
    exists qs, info_words l = Some qs /\ forall i j, i < 6 -> j < 6 ->
      (exists q v, load_half qs i j = Some q /\ dval (information 6 R i j) = Some v /\ near q v) /\
      (exists q v, load_permuted qs i j = Some q /\
         dval (information 6 R (if Bool.eqb (i <? 3) (j <? 3) then i else other i) (if Bool.eqb (i <? 3) (j <? 3) then j else other j)) = Some v /\ near q v)))
    (skipn (length (estimated est)) (read_lines (file_text ls))) (edges_of g).
Proof. exact g2o_roundtrip. Qed.
Print Assumptions C38_information_roundtrip.

Theorem C38_information_symmetric : forall n R i j, information n R i j = information n R j i.
Proof. exact information_sym. Qed.
Print Assumptions C38_information_symmetric.

(** Keys are written exactly. *)
Theorem C38_keys_exact : forall n, read_nat (nat_text n) = Some n.
Proof. exact read_nat_text. Qed.
Print Assumptions C38_keys_exact.

(** Every number is written to six significant digits. *)
Theorem C38_numbers_six_digits : forall x v, dval x = Some v ->
  exists q, read_num (num_text x) = Some q /\ (Qabs (q - v) <= (5 # 1000000) * Qabs v)%Q /\
    forall m e, (Z.abs m < 10 ^ 6)%Z -> (v == inject_Z m * (10 # 1) ^ e)%Q -> (q == v)%Q.
Proof. exact text_close. Qed.
Print Assumptions C38_numbers_six_digits.

(** Infinities and not-a-numbers are written as words that are no numerals, and can be told apart. *)
Theorem C38_not_finite : forall x, dval x = None ->
  In (num_text x) ["inf"; "-inf"; "nan"]%string /\ read_num (num_text x) = None /\
  forall y, num_text x = num_text y -> dval y = None -> x = y.
Proof.
  intros [ | s | | ] H; try discriminate H; try destruct s; (split; [cbn; auto|]); (split; [reflexivity|]);
    intros [ | t | | ] E H'; try discriminate H'; try destruct t; (reflexivity || discriminate E).
Qed.
Print Assumptions C38_not_finite.

(** The solver model's test for the exception is right. *)
Theorem C38_solver_logging : forall O (emb : factor O -> gfactor), renders emb -> forall g est,
  exists ls, write_g2o (map (option_map emb) g) est = if g2o_throws g then Throw ls InvalidArgument else Ok ls tt.
Proof. exact g2o_solver. Qed.
Print Assumptions C38_solver_logging.

(** *** Example *)
Definition dz (z : Z) : double := dofZ z.
Definition diag (d : nat -> Z) : matrix := fun i j => if i =? j then dz (d i) else dzero.
(** Unit matrix with one entry off the diagonal blocks. *)
Definition skew : matrix := fun i j => if (i =? 0) && (j =? 4) then dz 2 else diag (fun i => Z.of_nat i + 1)%Z i j.
Definition g_example : ggraph :=
  [Some GOtherFactor; None;
   Some (GBetween2 1%N 2%N (dz 1) (dlit (-1) 2) (dlit 1 3) (GGauss 3 (diag (fun _ => 10%Z))));
   Some (GBetween3 3%N 4%N (dz 1) (dz 2) (dz 3) dzero dzero dzero (dz 1) (GGauss 6 skew))].
Definition v_example : gvalues :=
  [(1%N, GPoint3 (dz 1) (dz 2) (dz 1234567)); (2%N, GPose2 dzero dzero (dlit 15 10)); (3%N, GOtherValue);
   (6989586621679009793%N, GPose3 (dz 1) dzero dzero dzero dzero dzero (dz 1))].
Example C38_example : match write_g2o g_example v_example with Ok ls _ => ls | _ => [] end = map (fun s => cut " "%char s)
  ["VERTEX_SE2 2 0 0 1.5";
   "VERTEX_SE3:QUAT 6989586621679009793 1 0 0 0 0 0 1";
   "VERTEX_TRACKXYZ 1 1 2 1.23457e+06";
   "EDGE_SE2 1 2 1 -0.5 0.333333 100 0 0 100 0 100";
   "EDGE_SE3:QUAT 3 4 1 2 3 0 0 0 1 16 0 0 0 2 0 29 0 0 0 0 36 0 0 0 1 0 0 4 0 9"]%string.
Proof. vm_compute. reflexivity. Qed.

(** *** What fails *)

(** The matrix written is not the one the format requires: entry [(0, 4)] relates the translation
    along [x] to the rotation about [y], but holds the entry for rotation about [x] and translation
    along [y]. *)
Theorem C38_block_exchange_refuted : exists g est ls e R, write_g2o g est = Ok ls tt /\ edges_of g = [e] /\
  e_noise e = GGauss 6 R /\ finite (information 6 R) /\ ~ Forall2 (edge_line permuted) ls [e].
Proof.
  set (e := Edge true 3%N 4%N [dz 1; dz 2; dz 3; dzero; dzero; dzero; dz 1] (GGauss 6 skew)).
  exists [Some (GBetween3 3%N 4%N (dz 1) (dz 2) (dz 3) dzero dzero dzero (dz 1) (GGauss 6 skew))], [].
  assert (E : exists ls, write_g2o [Some (GBetween3 3%N 4%N (dz 1) (dz 2) (dz 3) dzero dzero dzero (dz 1) (GGauss 6 skew))] [] = Ok ls tt /\
     map (fun l => nth 14 l ""%string) ls = ["2"%string]) by (eexists; split; [vm_compute; reflexivity|reflexivity]).
  destruct E as (ls & E1 & E2). exists ls, e, skew. split; [exact E1|]. split; [reflexivity|]. split; [reflexivity|]. split.
  - assert (F : forallb (fun i => forallb (fun j => match dval (information 6 skew i j) with Some _ => true | None => false end) (seq 0 6)) (seq 0 6) = true)
      by (vm_compute; reflexivity).
    assert (Z : forall i j, 6 <= i -> information 6 skew i j = information 6 skew 6 j).
    { intros i j Hi. do 6 (destruct i as [|i]; [lia|]). reflexivity. }
    intros i j.
    assert (I : exists i', i' <= 6 /\ information 6 skew i j = information 6 skew i' j).
    { destruct (le_lt_dec 6 i); [exists 6; auto|exists i; split; auto; lia]. }
    destruct I as (i' & Hi' & ->).
    assert (J : exists j', j' <= 6 /\ information 6 skew i' j = information 6 skew i' j').
    { destruct (le_lt_dec 6 j); [exists 6; split; auto; rewrite (information_sym 6 skew i' j), Z, information_sym by auto; auto|exists j; split; auto; lia]. }
    destruct J as (j' & Hj' & ->). clear F Z E1 E2.
    do 7 (destruct i' as [|i']; [do 7 (destruct j' as [|j']; [vm_compute; discriminate|]); lia|]). lia.
  - intro F. inversion F as [|l ? ? ? (R & HR & kw & xw & El & HK & HX) HN]; subst. inversion HN; subst.
    cbn [e_dim3 e e_noise] in HR. injection HR as <-. cbn [map] in E2. injection E2 as E2. 
    inversion HK as [|? ? ? ? _ HK1]; subst. inversion HK1 as [|? ? ? ? _ HK2]; subst. inversion HK2; subst. clear HK HK1 HK2.
    assert (HW : nth_error xw 11 = Some "2"%string).
    { apply G2oProofs.Forall2_length in HX. cbn [app nth] in E2.
      rewrite (nth_error_nth' xw ""%string); [congruence|]. rewrite HX. vm_compute. lia. }
    assert (HS : forall n w, nth_error xw n = Some w -> forall x, nth_error (e_meas e ++ map (fun p => permuted (information 6 skew) (fst p) (snd p)) (positions 6)) n = Some x -> shows w x).
    { intros n w H1 x' H2. destruct (Forall2_nth _ _ _ HX n x') as (w' & W1 & W2); [exact H2|]. congruence. }
    specialize (HS 11 _ HW dzero eq_refl). clear - HS. destruct HS as (q & Q1 & Q2 & _).
    vm_compute in Q1. injection Q1 as <-. vm_compute in Q2. apply Q2. reflexivity.
Qed.
Print Assumptions C38_block_exchange_refuted.

(** Reading does not give the original: two different information matrices, one file. *)
Definition one_and_a_bit : double := dadd (dz 1) (dlit 1 1073741824).
Definition bit_graph (x : double) : ggraph :=
  [Some (GBetween3 1%N 2%N dzero dzero dzero dzero dzero dzero (dz 1) (GGauss 6 (fun i j => if i =? j then x else dzero)))].
Theorem C38_exact_roundtrip_refuted : exists g g' ls a b R R',
  write_g2o g [] = Ok ls tt /\ write_g2o g' [] = Ok ls tt /\ edges_of g = [Edge true 1%N 2%N a (GGauss 6 R)] /\
  edges_of g' = [Edge true 1%N 2%N b (GGauss 6 R')] /\ information 6 R 0 0 <> information 6 R' 0 0.
Proof.
  exists (bit_graph (dz 1)), (bit_graph one_and_a_bit).
  eexists. exists [dzero; dzero; dzero; dzero; dzero; dzero; dz 1], [dzero; dzero; dzero; dzero; dzero; dzero; dz 1], (fun i j => if i =? j then dz 1 else dzero), (fun i j => if i =? j then one_and_a_bit else dzero).
  split; [vm_compute; reflexivity|]. split; [vm_compute; reflexivity|]. split; [reflexivity|]. split; [reflexivity|].
  vm_compute. discriminate.
Qed.
Print Assumptions C38_exact_roundtrip_refuted.

(** The hypothesis of [C38_solver_logging] is met, for any pose type. *)
Definition emb2 (O : tops) (f : factor O) : gfactor :=
  match f with
  | FBetween b => GBetween2 (b_from b) (b_to b) (dz 1) dzero dzero (match b_noise b with Gauss _ => GGauss 3 (diag (fun _ => 1%Z)) | NonGauss => GNotGauss end)
  | _ => GOtherFactor
  end.
Example C38_renders_example : forall O, renders (emb2 O).
Proof.
  intros O f. destruct f as [b|k x|k t|ks t]; try reflexivity. eexists. split; [reflexivity|].
  destruct b as [a c m nm]. cbn [b_noise e_noise e_dim3]. destruct nm; eauto.
Qed.
