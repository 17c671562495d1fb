(** * What [writeG2o] writes: proofs *)
From Coq Require Import QArith Qabs String Ascii Permutation.
From Verif Require Import Prelude Num NumText Keys KMap Geometry Factors Solver TextSpec TextProofs G2o G2oSpec.
Local Open Scope nat_scope.

(** ** Words contain neither blanks nor line feeds *)

Definition clean_char (c : ascii) : bool := negb (Ascii.eqb c " ") && negb (Ascii.eqb c (ascii_of_nat 10)).
Fixpoint clean (s : string) : bool := match s with EmptyString => true | String c s' => clean_char c && clean s' end.

Lemma clean_app a b : clean (append a b) = clean a && clean b.
Proof. induction a as [|c a IH]; cbn [append clean]; auto. rewrite IH, andb_assoc. auto. Qed.

Lemma clean_digits l : Forall is_digit l -> clean (text_of l) = true.
Proof.
  induction 1 as [|d l Hd _ IH]; auto. unfold text_of. cbn [map string_of_list_ascii clean].
  change (string_of_list_ascii (map digit l)) with (text_of l). rewrite IH, andb_true_r.
  pose proof (digit_of_digit _ Hd) as X. unfold clean_char.
  destruct (Ascii.eqb_spec (digit d) " ") as [E|_]; [rewrite E in X; discriminate X|].
  destruct (Ascii.eqb_spec (digit d) (ascii_of_nat 10)) as [E|_]; [rewrite E in X; discriminate X|]. auto.
Qed.

Lemma clean_frac l : Forall is_digit l -> clean (frac_text l) = true.
Proof. intro H. destruct l as [|d l]; auto. unfold frac_text. cbn [clean]. rewrite clean_digits; auto. Qed.

Lemma digits_sub n l : Forall is_digit l -> Forall is_digit (firstn n l) /\ Forall is_digit (skipn n l).
Proof. intro H. rewrite <- (firstn_skipn n l) in H. apply Forall_app in H. auto. Qed.

Lemma clean_body a b : clean (body a b) = true.
Proof.
  unfold body. destruct (six a b) as [d x]. pose proof (digits_digit 6 d) as H.
  destruct ((-4 <=? x) && (x <? 6))%Z; [destruct (0 <=? x)%Z|].
  - destruct (digits_sub (Z.to_nat (x + 1)) _ H). rewrite clean_app, clean_digits, clean_frac; auto. apply strip_digit; auto.
  - rewrite clean_app. rewrite clean_digits; [|repeat constructor; lia]. apply clean_frac. apply Forall_app. split; [|apply strip_digit; auto].
    apply Forall_forall. intros y Hy. apply repeat_spec in Hy. subst. unfold is_digit. lia.
  - destruct (digits_sub 1 _ H). rewrite !clean_app, clean_digits, clean_frac; auto; [|apply strip_digit; auto].
    unfold exp_text. cbn [clean]. rewrite clean_digits by apply digits_digit. destruct (x <? 0)%Z; auto.
Qed.

Lemma clean_num x : clean (num_text x) = true.
Proof.
  destruct x as [s|s| |s m e]; [destruct s; reflexivity|destruct s; reflexivity|reflexivity|].
  rewrite num_text_finite, clean_app, clean_body. destruct s; auto.
Qed.

Lemma clean_nat n : clean (nat_text n) = true.
Proof. apply clean_digits, digits_digit. Qed.

(** ** Cutting *)

Fixpoint lacks (sep : ascii) (s : string) : bool :=
  match s with EmptyString => true | String c s' => negb (Ascii.eqb c sep) && lacks sep s' end.

Lemma cut_word sep w : lacks sep w = true -> cut sep w = [w].
Proof.
  induction w as [|c w IH]; auto. cbn. destruct (Ascii.eqb c sep); cbn; [discriminate|]. intro H. rewrite (IH H). auto.
Qed.

Lemma cut_sep sep w s : lacks sep w = true -> cut sep (append w (String sep s)) = w :: cut sep s.
Proof.
  induction w as [|c w IH]; cbn.
  - intros _. rewrite Ascii.eqb_refl. auto.
  - destruct (Ascii.eqb c sep); cbn; [discriminate|]. intro H. rewrite (IH H). auto.
Qed.

Lemma cut_blanks l : l <> [] -> forallb (lacks " ") l = true -> cut " " (String.concat " " l) = l.
Proof.
  induction l as [|w l IH]; [congruence|]. intros _ H. cbn in H. apply andb_true_iff in H. destruct H as [H1 H2].
  destruct l as [|w' l].
  - cbn. apply cut_word; auto.
  - change (String.concat " " (w :: w' :: l)) with (append w (String " " (String.concat " " (w' :: l)))).
    rewrite cut_sep by auto. rewrite IH; auto. discriminate.
Qed.

Lemma lacks_app sep a b : lacks sep (append a b) = lacks sep a && lacks sep b.
Proof. induction a as [|c a IH]; cbn [append lacks]; auto. rewrite IH, andb_assoc. auto. Qed.

Lemma lacks_concat sep l : sep <> " "%char -> forallb (lacks sep) l = true -> lacks sep (String.concat " " l) = true.
Proof.
  intro Hs. induction l as [|w l IH]; auto. intro H. cbn in H. apply andb_true_iff in H. destruct H as [H1 H2].
  destruct l as [|w' l]; auto.
  change (String.concat " " (w :: w' :: l)) with (append w (String " " (String.concat " " (w' :: l)))).
  rewrite lacks_app, H1. cbn [lacks andb]. rewrite (IH H2).
  destruct (Ascii.eqb_spec " " sep) as [E|_]; [congruence|]. auto.
Qed.

Lemma clean_lacks w : clean w = true -> lacks " " w = true /\ lacks (ascii_of_nat 10) w = true.
Proof.
  induction w as [|c w IH]; auto. cbn. unfold clean_char. rewrite !andb_true_iff. intros [[H1 H2] H3].
  destruct (IH H3). auto.
Qed.

Lemma cut_lines ls : forallb (lacks (ascii_of_nat 10)) ls = true ->
  cut (ascii_of_nat 10) (fold_right append EmptyString (map (fun l => append l newline) ls)) = ls ++ [EmptyString].
Proof.
  induction ls as [|l ls IH]; auto. cbn [forallb map fold_right app]. rewrite andb_true_iff. intros [H1 H2].
  rewrite append_assoc. unfold newline at 1. cbn [append]. rewrite cut_sep by auto. rewrite IH; auto.
Qed.

(** A file made of clean words is read as it was written. *)
Lemma read_file ls : Forall (fun l => l <> [] /\ forallb clean l = true) ls -> read_lines (file_text ls) = ls.
Proof.
  intro H. unfold read_lines, file_text.
  rewrite <- (map_map (String.concat " ") (fun s => append s newline)).
  rewrite cut_lines.
  - rewrite removelast_app by discriminate. cbn [removelast]. rewrite app_nil_r, map_map.
    rewrite <- (map_id ls) at 2. apply map_ext_in. intros l Hl. rewrite Forall_forall in H. destruct (H l Hl) as [H1 H2].
    apply cut_blanks; auto. apply forallb_forall. intros w Hw. rewrite forallb_forall in H2. apply clean_lacks; auto.
  - apply forallb_forall. intros s Hs. apply in_map_iff in Hs. destruct Hs as (l & <- & Hl).
    rewrite Forall_forall in H. destruct (H l Hl) as [H1 H2]. apply lacks_concat; [discriminate|].
    apply forallb_forall. intros w Hw. rewrite forallb_forall in H2. apply clean_lacks; auto.
Qed.

(** ** Words *)

Lemma shows_num x : shows (num_text x) x.
Proof.
  unfold shows. destruct (dval x) as [v|] eqn:E; [|apply text_none; auto].
  destruct (text_close x v E) as (q & H1 & H2 & H3). exists q. split; auto. split; auto.
Qed.

Lemma shows_nums xs : Forall2 shows (map num_text xs) xs.
Proof. induction xs; constructor; auto. apply shows_num. Qed.

Lemma says_line tag ks xs : says (tag :: map nat_text ks ++ map num_text xs) tag ks xs.
Proof.
  exists (map nat_text ks), (map num_text xs). split; auto. split; [|apply shows_nums].
  induction ks; constructor; auto. apply read_nat_text.
Qed.

Lemma clean_line tag ks xs : clean tag = true -> forallb clean (tag :: map nat_text ks ++ map num_text xs) = true.
Proof.
  intro H. cbn. rewrite H, forallb_app. cbn. apply andb_true_iff. split; apply forallb_forall; intros w Hw; apply in_map_iff in Hw; destruct Hw as (z & <- & _); [apply clean_nat|apply clean_num].
Qed.

(** ** Vertices *)

Definition written (e : key * gvalue) : line :=
  match kind_of (snd e) with
  | Some c => vertex_tag c :: map nat_text [fst e] ++ map num_text (coords (snd e))
  | None => []
  end.

Lemma vertices_by_kind est : vertices est = map written (by_kind est).
Proof.
  unfold vertices, by_kind. rewrite !map_app. f_equal; [|f_equal; [|f_equal]];
    (induction est as [|[k v] est IH]; auto; cbn [flat_map filter]; destruct v; cbn [vertex_se2 vertex_se3 vertex_xy vertex_xyz is_kind kind_of snd kind_eqb map app];
     rewrite IH; reflexivity).
Qed.

Lemma by_kind_kinds est : Forall (fun e => kind_of (snd e) <> None) (by_kind est).
Proof.
  apply Forall_forall. intros e H. unfold by_kind in H. rewrite !in_app_iff, !filter_In in H. unfold is_kind in H.
  destruct (kind_of (snd e)); [discriminate|]. intuition discriminate.
Qed.

Lemma by_kind_all est : Permutation (by_kind est) (estimated est).
Proof.
  induction est as [|[k v] est IH]; [constructor|]. unfold by_kind, estimated in *. cbn [filter].
  destruct v; cbn [is_kind kind_of snd kind_eqb]; auto.
  - cbn [app]. apply perm_skip. exact IH.
  - eapply Permutation_trans; [|apply perm_skip, IH]. apply Permutation_sym. cbn [app]. apply Permutation_middle.
  - eapply Permutation_trans; [|apply perm_skip, IH]. apply Permutation_sym. cbn [app].
    rewrite !(app_assoc (filter (is_kind SE2) est)). apply Permutation_middle.
  - eapply Permutation_trans; [|apply perm_skip, IH]. apply Permutation_sym. cbn [app].
    rewrite !(app_assoc (filter (is_kind SE2) est)), !(app_assoc (_ ++ _)). apply Permutation_middle.
Qed.

(** ** Edges *)

Lemma dmul_comm x y : dmul x y = dmul y x.
Proof.
  unfold dmul, SFmul. destruct x as [s|s| |s m e], y as [s'|s'| |s' m' e']; auto; try (rewrite xorb_comm; auto; fail).
  rewrite xorb_comm, Pos.mul_comm, Z.add_comm. auto.
Qed.

Lemma dot_comm xs ys : dot xs ys = dot ys xs.
Proof.
  assert (G : forall xs ys acc, dot_from acc xs ys = dot_from acc ys xs).
  { clear. induction xs as [|x xs IH]; intros [|y ys] acc; auto. cbn. rewrite dmul_comm. apply IH. }
  destruct xs, ys; auto. cbn. rewrite dmul_comm. apply G.
Qed.

Lemma information_sym n R i j : information n R i j = information n R j i.
Proof. apply dot_comm. Qed.

Lemma gram_information n R i j : 0 < n -> gram n R i j = information n R i j.
Proof.
  destruct n as [|n]; [lia|]. intros _. unfold gram, information, column, dot. cbn [seq map]. rewrite Nat.sub_succ, Nat.sub_0_r.
  generalize (dmul (R 0 i) (R 0 j)) as acc. generalize 1 as k. clear.
  induction n as [|n IH]; intros k acc; auto. cbn [seq map fold_left dot_from]. apply IH.
Qed.

Lemma upper_positions M : upper 6 M = map (fun p => M (fst p) (snd p)) (positions 6) /\
  upper 3 M = map (fun p => M (fst p) (snd p)) (positions 3).
Proof. split; reflexivity. Qed.
Lemma info_positions M : map (fun p => info_g2o M (fst p) (snd p)) (positions 6) = map (fun p => half_permuted M (fst p) (snd p)) (positions 6).
Proof. reflexivity. Qed.

Lemma upper_se3 R : upper 6 (info_g2o (gram 6 R)) = map (fun p => half_permuted (information 6 R) (fst p) (snd p)) (positions 6).
Proof.
  rewrite (proj1 (upper_positions _)), info_positions. apply map_ext. intros [i j]. cbn [fst snd]. unfold half_permuted.
  destruct (Bool.eqb _ _); apply gram_information; lia.
Qed.
Lemma upper_se2 R : upper 3 (gram 3 R) = map (fun p => information 3 R (fst p) (snd p)) (positions 3).
Proof. rewrite (proj2 (upper_positions _)). apply map_ext. intros [i j]. apply gram_information. lia. Qed.

Definition edge_text (e : gedge) (R : matrix) : line :=
  (if e_dim3 e then "EDGE_SE3:QUAT" else "EDGE_SE2")%string :: map nat_text [e_from e; e_to e] ++
    map num_text (e_meas e ++ map (fun p => (if e_dim3 e then half_permuted (information 6 R) else information 3 R) (fst p) (snd p))
                                 (positions (if e_dim3 e then 6 else 3))).

(** One edge. *)
Definition put_edge (e : gedge) (out : list line) : outcome (list line) unit :=
  match e_noise e with
  | GNoModel => Undef NullDeref
  | GNotGauss => Throw out InvalidArgument
  | GGauss d R => if d =? (if e_dim3 e then 6 else 3) then Ok (out ++ [edge_text e R]) tt else Undef EigenMismatch
  end.
Fixpoint put_edges (es : list gedge) (out : list line) : outcome (list line) unit :=
  match es with [] => Ok out tt | e :: es' => obind (put_edge e out) (fun o _ => put_edges es' o) end.

Lemma write_edge_put f out : write_edge f out = match edges_of [f] with e :: _ => put_edge e out | [] => Ok out tt end.
Proof.
  destruct f as [[a b x y th nm|a b x y z qx qy qz qw nm|]|]; [| |reflexivity|reflexivity];
    unfold put_edge; cbn [edges_of flat_map app write_edge e_noise e_dim3];
    (destruct nm as [d R| |]; [|reflexivity|reflexivity]); cbn [edge_info]; (destruct (d =? _); [|reflexivity]).
  - rewrite upper_se2. unfold edge_text. cbn [e_dim3 e_from e_to e_meas]. rewrite map_app. reflexivity.
  - rewrite upper_se3. unfold edge_text. cbn [e_dim3 e_from e_to e_meas]. rewrite map_app. reflexivity.
Qed.

Lemma write_edges_put g : forall out, write_edges g out = put_edges (edges_of g) out.
Proof.
  induction g as [|f g IH]; intro out; auto. cbn [write_edges].
  rewrite write_edge_put.
  destruct f as [[a b x y th nm|a b x y z qx qy qz qw nm|]|]; cbn [edges_of flat_map app put_edges obind]; try apply IH.
  all: unfold put_edge; cbn [e_noise e_dim3]; destruct nm as [d R| |]; auto; destruct (d =? _); auto; cbn [obind]; apply IH.
Qed.

(** ** The whole file *)

Definition gaussian (e : gedge) : Prop := exists R, e_noise e = GGauss (if e_dim3 e then 6 else 3) R.

Lemma put_edges_ok es : forall out ls, put_edges es out = Ok ls tt ->
  exists le, ls = out ++ le /\ Forall2 (fun l e => exists R, e_noise e = GGauss (if e_dim3 e then 6 else 3) R /\ l = edge_text e R) le es.
Proof.
  induction es as [|e es IH]; intros out ls H; cbn [put_edges] in H.
  - inversion H; subst. exists []. rewrite app_nil_r. auto.
  - unfold put_edge in H. destruct (e_noise e) as [d R| |] eqn:E; try discriminate H.
    destruct (Nat.eqb_spec d (if e_dim3 e then 6 else 3)) as [Ed|]; [|discriminate H]. cbn [obind] in H.
    apply IH in H. destruct H as (le & -> & HF). exists (edge_text e R :: le). split; [rewrite <- app_assoc; auto|].
    constructor; auto. exists R. rewrite E, Ed. auto.
Qed.

Lemma put_edges_total es : Forall gaussian es -> forall out, exists ls, put_edges es out = Ok ls tt.
Proof.
  induction 1 as [|e es [R HR] _ IH]; intro out; cbn [put_edges]; [eauto|].
  unfold put_edge. rewrite HR, Nat.eqb_refl. cbn [obind]. apply IH.
Qed.

Lemma edge_text_line e R : e_noise e = GGauss (if e_dim3 e then 6 else 3) R -> edge_line half_permuted (edge_text e R) e.
Proof.
  intro H. exists R. split; auto. unfold edge_text. destruct (e_dim3 e); apply says_line.
Qed.

Lemma clean_edge e R : edge_text e R <> [] /\ forallb clean (edge_text e R) = true.
Proof. split; [discriminate|]. apply clean_line. destruct (e_dim3 e); reflexivity. Qed.

Lemma written_line e : kind_of (snd e) <> None -> vertex_line (written e) e /\ written e <> [] /\ forallb clean (written e) = true.
Proof.
  intro H. unfold vertex_line, written. destruct (kind_of (snd e)) as [c|]; [|congruence].
  split; [apply says_line|]. split; [discriminate|]. apply clean_line. destruct c; reflexivity.
Qed.

Lemma Forall2_map_l {A B} (f : A -> B) (P : B -> A -> Prop) l : Forall (fun a => P (f a) a) l -> Forall2 P (map f l) l.
Proof. induction 1; constructor; auto. Qed.

(** Line by line, in the order of the format, in the words of the file. *)
Theorem g2o_file g est ls : write_g2o g est = Ok ls tt ->
  read_lines (file_text ls) = ls /\
  exists lv le, ls = lv ++ le /\ Forall2 vertex_line lv (by_kind est) /\ Forall2 (edge_line half_permuted) le (edges_of g) /\
    Permutation (by_kind est) (estimated est).
Proof.
  unfold write_g2o. rewrite write_edges_put, vertices_by_kind. intro H.
  apply put_edges_ok in H. destruct H as (le & -> & HF). split.
  - apply read_file. apply Forall_app. split.
    + apply Forall_forall. intros l Hl. apply in_map_iff in Hl. destruct Hl as (e & <- & He).
      pose proof (by_kind_kinds est) as K. rewrite Forall_forall in K. apply written_line; auto.
    + clear - HF. induction HF as [|l e le es (R & _ & ->) _ IH]; constructor; auto. apply clean_edge.
  - exists (map written (by_kind est)), le. split; auto. split; [|split; [|apply by_kind_all]].
    + apply Forall2_map_l. eapply Forall_impl; [|apply by_kind_kinds]. intros e He. apply written_line; auto.
    + clear - HF. induction HF as [|l e le es (R & HR & ->) _ IH]; constructor; auto. apply edge_text_line; auto.
Qed.

(** It succeeds exactly when all between factors have Gaussian models of the right dimension. *)
Theorem g2o_ok_iff g est : (exists ls, write_g2o g est = Ok ls tt) <-> Forall gaussian (edges_of g).
Proof.
  unfold write_g2o. rewrite write_edges_put. split.
  - intros [ls H]. apply put_edges_ok in H. destruct H as (le & _ & HF).
    clear - HF. induction HF as [|l e le es (R & HR & _) _ IH]; constructor; auto. exists R. auto.
  - intro H. apply put_edges_total. auto.
Qed.

Lemma edges_app g1 g2 : edges_of (g1 ++ g2) = edges_of g1 ++ edges_of g2.
Proof. apply flat_map_app. Qed.

Lemma put_edges_throw es : forall out ls e, put_edges es out = Throw ls e ->
  e = InvalidArgument /\ exists es1 b es2, es = es1 ++ b :: es2 /\ put_edges es1 out = Ok ls tt /\ e_noise b = GNotGauss.
Proof.
  induction es as [|b es IH]; intros out ls e H; cbn [put_edges] in H; [discriminate|].
  destruct (put_edge b out) as [o1 []|o1 e1|] eqn:E; cbn [obind] in H.
  - apply IH in H. destruct H as (-> & es1 & b' & es2 & -> & H1 & H2). split; auto.
    exists (b :: es1), b', es2. split; auto. split; auto. cbn [put_edges]. rewrite E. exact H1.
  - inversion H; subst. unfold put_edge in E. destruct (e_noise b) as [d R| |] eqn:EN; try discriminate E.
    + destruct (d =? _); discriminate E.
    + inversion E; subst. split; auto. exists [], b, es. auto.
  - discriminate.
Qed.

(** When it throws, the file holds the vertices and the edges before the offending factor. *)
Theorem g2o_throw g est ls e : write_g2o g est = Throw ls e ->
  e = InvalidArgument /\ exists es1 b es2 le, edges_of g = es1 ++ b :: es2 /\ e_noise b = GNotGauss /\
    ls = vertices est ++ le /\ Forall2 (edge_line half_permuted) le es1.
Proof.
  unfold write_g2o. rewrite write_edges_put. intro H. apply put_edges_throw in H.
  destruct H as (-> & es1 & b & es2 & E & H1 & H2). split; auto. apply put_edges_ok in H1. destruct H1 as (le & -> & HF).
  exists es1, b, es2, le. repeat split; auto.
  clear - HF. induction HF as [|l e le es (R & HR & ->) _ IH]; constructor; auto. apply edge_text_line; auto.
Qed.

(** ** Reading the matrix back *)

Lemma skipn_words {A} n (a : A) l1 l2 : length l1 = n -> skipn (S n) (a :: l1 ++ l2) = l2.
Proof. intro H. cbn [skipn]. rewrite skipn_app, H, Nat.sub_diag, skipn_all2 by lia. auto. Qed.

Definition finite (M : matrix) : Prop := forall i j, dval (M i j) <> None.

Lemma shows_all xw xs : Forall2 shows xw xs -> (forall x, In x xs -> dval x <> None) ->
  exists qs, all_some (map read_num xw) = Some qs /\ Forall2 (fun q x => exists v, dval x = Some v /\ near q v) qs xs.
Proof.
  induction 1 as [|w x xw xs H _ IH]; intro HF; [exists []; split; auto|].
  destruct IH as (qs & E & HQ); [intros; apply HF; right; auto|]. unfold shows in H.
  destruct (dval x) as [v|] eqn:EV; [|elim (HF x); [left; auto|auto]]. destruct H as (q & H1 & H2).
  exists (q :: qs). cbn [map all_some]. rewrite H1, E. split; auto. constructor; eauto.
Qed.

Lemma Forall2_nth {A B} (P : A -> B -> Prop) l l' : Forall2 P l l' -> forall n b, nth_error l' n = Some b ->
  exists a, nth_error l n = Some a /\ P a b.
Proof. induction 1; intros [|n] b0 E; try discriminate; cbn in *; [inversion E; subst; eauto|auto]. Qed.

Lemma Forall2_length {A B} (P : A -> B -> Prop) l l' : Forall2 P l l' -> length l = length l'.
Proof. induction 1; cbn; congruence. Qed.

Lemma rank_positions i j : i <= j -> j < 6 -> nth_error (positions 6) (rank6 i j) = Some (i, j).
Proof.
  intros H1 H2. assert (C : In i (seq 0 6) /\ In j (seq 0 6)) by (rewrite !in_seq; lia).
  destruct C as [C1 C2]. cbn in C1, C2.
  repeat (destruct C1 as [<-|C1]; [repeat (destruct C2 as [<-|C2]; [try lia; reflexivity|]); destruct C2|]). destruct C1.
Qed.

(** What a line [l] for a 3D factor with information matrix [info] gives back. *)
Lemma info_read M l e : e_dim3 e = true -> length (e_meas e) = 7 ->
  forall R, e_noise e = GGauss 6 R -> edge_line M l e -> finite (M (information 6 R)) ->
  exists qs, info_words l = Some qs /\ forall i j, i <= j -> j < 6 ->
    exists q v, nth_error qs (rank6 i j) = Some q /\ dval (M (information 6 R) i j) = Some v /\ near q v.
Proof.
  intros H3 HL R HN (R' & HN' & HS) HF. rewrite H3 in *. rewrite HN in HN'. inversion HN'; subst R'.
  destruct HS as (kw & xw & -> & HK & HX).
  apply Forall2_length in HK as LK. cbn in LK.
  apply Forall2_app_inv_r in HX. destruct HX as (mw & iw & HM & HI & ->).
  apply Forall2_length in HM as LM. rewrite HL in LM.
  unfold info_words. rewrite app_assoc. rewrite skipn_words by (rewrite app_length; lia).
  destruct (shows_all _ _ HI) as (qs & E & HQ).
  { intros x Hx. apply in_map_iff in Hx. destruct Hx as (p & <- & _). apply HF. }
  exists qs. split; auto. intros i j H1 H2.
  destruct (Forall2_nth _ _ _ HQ (rank6 i j) (M (information 6 R) i j)) as (q & Q1 & v & Q2 & Q3).
  { rewrite nth_error_map, rank_positions by auto. reflexivity. }
  exists q, v. auto.
Qed.

Lemma edges_shape g e : In e (edges_of g) -> length (e_meas e) = (if e_dim3 e then 7 else 3).
Proof.
  unfold edges_of. rewrite in_flat_map. intros (f & _ & H).
  destruct f as [[a b x y th nm|a b x y z qx qy qz qw nm|]|]; cbn in H; destruct H as [<-|[]] || destruct H; reflexivity.
Qed.

Lemma half_finite M : finite M -> finite (half_permuted M).
Proof. intros H i j. unfold half_permuted. destruct (Bool.eqb _ _); apply H. Qed.

Lemma other_lt i : i < 6 -> other i < 6.
Proof. unfold other. destruct (Nat.ltb_spec i 3); lia. Qed.
Lemma other_other i : i < 6 -> other (other i) = i.
Proof. unfold other. intro H. destruct (Nat.ltb_spec i 3). - destruct (Nat.ltb_spec (i + 3) 3); lia. - destruct (Nat.ltb_spec (i - 3) 3); lia. Qed.
Lemma other_side i : i < 6 -> (other i <? 3) = negb (i <? 3).
Proof.
  unfold other. intro H. destruct (Nat.ltb_spec i 3); cbn [negb]; [apply Nat.ltb_ge|apply Nat.ltb_lt]; lia.
Qed.

(** [filled] gives both triangles. *)
Lemma filled_read M qs : (forall i j, M i j = M j i) ->
  (forall i j, i <= j -> j < 6 -> exists q v, nth_error qs (rank6 i j) = Some q /\ dval (M i j) = Some v /\ near q v) ->
  forall i j, i < 6 -> j < 6 -> exists q v, filled qs i j = Some q /\ dval (M i j) = Some v /\ near q v.
Proof.
  intros HS H i j Hi Hj. unfold filled. destruct (Nat.leb_spec i j); [apply H; auto|]. rewrite HS. apply H; lia.
Qed.

Lemma half_sym M : (forall i j, M i j = M j i) -> forall i j, half_permuted M i j = half_permuted M j i.
Proof. intros H i j. unfold half_permuted. destruct (i <? 3), (j <? 3); cbn; apply H. Qed.

(** With the loader that exchanges the diagonal blocks the matrix comes back. *)
Theorem g2o_roundtrip g est ls : write_g2o g est = Ok ls tt ->
  Forall2 (fun l e => e_dim3 e = true -> exists R, e_noise e = GGauss 6 R /\ (finite (information 6 R) ->
    exists qs, info_words l = Some qs /\ forall i j, i < 6 -> j < 6 ->
      (exists q v, load_half qs i j = Some q /\ dval (information 6 R i j) = Some v /\ near q v) /\
      (exists q v, load_permuted qs i j = Some q /\
         dval (information 6 R (if Bool.eqb (i <? 3) (j <? 3) then i else other i) (if Bool.eqb (i <? 3) (j <? 3) then j else other j)) = Some v /\ near q v)))
    (skipn (length (estimated est)) (read_lines (file_text ls))) (edges_of g).
Proof.
  intro H. destruct (g2o_file g est ls H) as (-> & lv & le & -> & HV & HE & HP).
  apply Forall2_length in HV. apply Permutation_length in HP. rewrite skipn_app, <- HP, <- HV, Nat.sub_diag, skipn_all. cbn [app skipn].
  assert (HG : Forall (fun e => length (e_meas e) = (if e_dim3 e then 7 else 3)) (edges_of g)) by (apply Forall_forall; apply edges_shape).
  clear - HE HG. induction HE as [|l e le es Hl _ IH]; [constructor|]. inversion HG as [|? ? G1 G2]; subst. constructor; auto. clear IH G2 HG.
  intro H3. pose proof Hl as Hl'. destruct Hl as (R & HN & _). rewrite H3 in *. exists R. split; auto. intro HF.
  destruct (info_read half_permuted l e H3 G1 R HN Hl' (half_finite _ HF)) as (qs & HQ & HR).
  exists qs. split; auto. intros i j Hi Hj.
  pose proof (filled_read _ qs (half_sym _ (information_sym 6 R)) HR) as HF'.
  assert (HH : forall i j, i < 6 -> j < 6 -> Bool.eqb (i <? 3) (j <? 3) = true -> half_permuted (information 6 R) (other i) (other j) = information 6 R i j).
  { clear. intros i j Hi Hj HB. unfold half_permuted. rewrite !other_side by auto.
    replace (Bool.eqb (negb (i <? 3)) (negb (j <? 3))) with true by (destruct (i <? 3), (j <? 3); auto). rewrite !other_other by auto. auto. }
  split.
  - unfold load_half. destruct (Bool.eqb (i <? 3) (j <? 3)) eqn:B.
    + destruct (HF' (other i) (other j)) as (q & v & Q); auto using other_lt. rewrite HH in Q by auto. eauto.
    + destruct (HF' i j) as (q & v & Q); auto. unfold half_permuted in Q. rewrite B in Q. eauto.
  - unfold load_permuted. destruct (HF' (other i) (other j)) as (q & v & Q); auto using other_lt.
    destruct (Bool.eqb (i <? 3) (j <? 3)) eqn:B.
    + rewrite HH in Q by auto. eauto.
    + unfold half_permuted in Q. rewrite !other_side in Q by auto.
      replace (Bool.eqb (negb (i <? 3)) (negb (j <? 3))) with false in Q by (destruct (i <? 3), (j <? 3); auto; discriminate). eauto.
Qed.

(** ** Logging in the solver model *)

Lemma edges_cons f g : edges_of (f :: g) = edges_of [f] ++ edges_of g.
Proof. unfold edges_of. cbn [flat_map]. rewrite app_nil_r. auto. Qed.

Lemma put_edges_app es1 : forall es2 out, put_edges (es1 ++ es2) out = obind (put_edges es1 out) (fun o _ => put_edges es2 o).
Proof.
  induction es1 as [|e es1 IH]; intros es2 out; auto. cbn [app put_edges]. destruct (put_edge e out); cbn [obind]; auto.
Qed.

Theorem g2o_solver O (emb : factor O -> gfactor) : renders emb -> forall g est,
  exists ls, write_g2o (map (option_map emb) g) est = if g2o_throws g then Throw ls InvalidArgument else Ok ls tt.
Proof.
  intros HR g est. unfold write_g2o. rewrite write_edges_put. generalize (vertices est) as out.
  induction g as [|f g IH]; intro out; [exists out; reflexivity|].
  cbn [map]. rewrite edges_cons, put_edges_app. destruct f as [f|]; [|apply IH]. cbn [option_map]. pose proof (HR f) as H.
  destruct f as [b|k x|k t|ks t]; try (rewrite H; cbn [put_edges obind]; apply IH).
  destruct H as (e & -> & H). cbn [put_edges obind]. unfold put_edge. cbn [g2o_throws existsb].
  destruct (b_noise b); cbn [orb].
  - destruct H as [R ->]. rewrite Nat.eqb_refl. cbn [obind]. apply IH.
  - rewrite H. cbn [obind]. exists out. reflexivity.
Qed.
