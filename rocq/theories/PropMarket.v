(** * Properties C51-C53: graphs read from files *)
From Coq Require Import String Ascii.
From Verif Require Import Prelude Num Clique MatrixMarket MarketSpec MarketProofs.
Local Open Scope string_scope.

(** ** C51 *)
Theorem C51_well_formed_file_graph : forall number conn kind scheme pattern comments n es files name fuel,
  well_formed kind scheme pattern comments n es ->
  files (name ++ ".mtx") = Some (file_text kind scheme pattern comments n es) ->
  (List.length comments + List.length es + 2 < fuel)%nat ->
  exists o, read_graph number fuel files (name ++ ".mtx") conn gio_new = Val (o, true) /\
    List.length (o_vs o) = (n + 1)%nat /\
    (forall v, (v < n)%nat -> NoDup (part (o_vs o) (o_es o) v) /\
       (forall w, In w (part (o_vs o) (o_es o) v) <-> exists b, w = Z.of_nat b /\ linked number conn pattern es v b)) /\
    (if pattern then o_vals o = [] else
       List.length (o_vals o) = List.length (o_es o) /\
       forall v b x, (v < n)%nat -> In (Z.of_nat b, x) (combine (part (o_vs o) (o_es o) v) (part (o_vs o) (o_vals o) v)) ->
         link_value number conn pattern es v b = Some x) /\
    exists g l, to_graph o = Some g /\ max_clique g 0 [] = Val (List.length l, l) /\
      max_clique_in n (linked number conn pattern es) l /\
      exists k data, max_clique_heu g [] = Val (k, data) /\
        (n = 0%nat /\ k = (-1)%Z \/
         exists picks, picks <> [] /\ k = Z.of_nat (List.length picks) /\ clique_in n (linked number conn pattern es) picks).
Proof.
  intros number conn kind scheme pattern comments n es files name fuel W HF HL.
  unfold read_graph. rewrite (extension_app name "mtx" eq_refl). cbn [String.eqb Ascii.eqb Bool.eqb]. rewrite HF.
  exact (file_graph number conn W HL).
Qed.
Print Assumptions C51_well_formed_file_graph.

(** A toy reading of numerals: the first digit. *)
Definition first_digit (s : string) : double :=
  match s with String c _ => match digit_value c with Some d => dofZ d | None => dzero end | _ => dzero end.

(** Four vertices, a triangle given with a repeated edge, a loop and an entry below the threshold. *)
Definition es1 : list entry :=
  [Entry 1 2 "5"; Entry 2 1 "7"; Entry 3 3 "9"; Entry 2 3 "4"; Entry 4 1 "1"; Entry 1 3 "8"].

Example C51_example :
  well_formed "Real" "general" false [" a comment"; ""] 4 es1 /\
  file_text "Real" "general" false [" a comment"; ""] 4 es1 =
    ("%%MatrixMarket matrix coordinate Real general" ++ nl ++ "% a comment" ++ nl ++ "%" ++ nl ++ "4 4 6" ++ nl ++
     "1 2 5" ++ nl ++ "2 1 7" ++ nl ++ "3 3 9" ++ nl ++ "2 3 4" ++ nl ++ "4 1 1" ++ nl ++ "1 3 8" ++ nl) /\
  read_market first_digit 20 (Some (file_text "Real" "general" false [" a comment"; ""] 4 es1)) (dofZ 2) gio_new =
    Val (Gio [0; 2; 4; 6; 6] [1; 2; 0; 2; 1; 0]%Z (map dofZ [5; 8; 5; 4; 4; 8]%Z) (Some 2%Z), true) /\
  max_clique (Graph [0; 2; 4; 6; 6] [1; 2; 0; 2; 1; 0] 2) 0 [] = Val (3, [1; 0; 2]).
Proof.
  split; [|repeat split; vm_compute; reflexivity].
  assert (V : forall s, forallb (fun c => (33 <=? nat_of_ascii c) && (nat_of_ascii c <=? 126))%nat (list_ascii_of_string s) = true -> chars visible s).
  { induction s as [|c s IH]; cbn [list_ascii_of_string forallb chars]; auto. rewrite !andb_true_iff, !Nat.leb_le. unfold visible. intros ((A & B) & C). split; auto. }
  split.
  - split; [discriminate|]. apply V. reflexivity.
  - split; [discriminate|]. apply V. reflexivity.
  - cbn. lia.
  - split; [discriminate|]. cbn. intros ([H|H] & _); [discriminate|]. cbn in H. lia.
  - repeat constructor; cbn; repeat split; discriminate.
  - reflexivity.
  - reflexivity.
  - cbn [In es1]. intros e H. repeat destruct H as [<-|H]; try tauto; cbn [e_row e_col e_text];
      (split; [lia|split; [lia|intros _; split; [discriminate|apply V; reflexivity]]]).
Qed.

(** ** C52 *)
Theorem C52_any_file_tidy : forall number fuel text conn o,
  read_market number fuel (Some text) conn gio_new = Val (o, true) ->
  (1 <= List.length (o_vs o))%nat /\
  (o_vals o = [] \/ List.length (o_vals o) = List.length (o_es o)) /\
  forall v, (v < List.length (o_vs o) - 1)%nat ->
    NoDup (part (o_vs o) (o_es o) v) /\ ~ In (Z.of_nat v) (part (o_vs o) (o_es o) v) /\
    (forall w, (w < List.length (o_vs o) - 1)%nat -> In (Z.of_nat w) (part (o_vs o) (o_es o) v) ->
       In (Z.of_nat v) (part (o_vs o) (o_es o) w)) /\
    forall w x, In (w, x) (combine (part (o_vs o) (o_es o) v) (part (o_vs o) (o_vals o) v)) ->
      dlt conn x = true /\
      ((0 <= w < Z.of_nat (List.length (o_vs o) - 1))%Z ->
       In (Z.of_nat v, x) (combine (part (o_vs o) (o_es o) (Z.to_nat w)) (part (o_vs o) (o_vals o) (Z.to_nat w)))).
Proof. exact any_file_tidy. Qed.
Print Assumptions C52_any_file_tidy.

Theorem C52_in_range_searchable : forall number fuel text conn o,
  read_market number fuel (Some text) conn gio_new = Val (o, true) ->
  (forall e, In e (o_es o) -> (0 <= e < Z.of_nat (List.length (o_vs o) - 1))%Z) ->
  exists g l, to_graph o = Some g /\ max_clique g 0 [] = Val (List.length l, l) /\
    max_clique_in (List.length (o_vs o) - 1) (fun v w => In (Z.of_nat w) (part (o_vs o) (o_es o) v)) l /\
    exists k data, max_clique_heu g [] = Val (k, data) /\
      ((List.length (o_vs o) - 1 = 0)%nat /\ k = (-1)%Z \/
       exists picks, picks <> [] /\ k = Z.of_nat (List.length picks) /\
         clique_in (List.length (o_vs o) - 1) (fun v w => In (Z.of_nat w) (part (o_vs o) (o_es o) v)) picks).
Proof. exact any_file_searchable. Qed.
Print Assumptions C52_in_range_searchable.

(** Both theorems apply to a file that is not well formed: an index left over from the line before (which makes the edge 1-3), empty and
    missing lines. *)
Definition odd_file : string :=
  "%%MatrixMarket matrix coordinate PATTERN symmetric" ++ nl ++ "3 3 9" ++ nl ++ "1 2" ++ nl ++ "" ++ nl ++ "3" ++ nl ++ "x y" ++ nl ++ "2 3 oops".
Example C52_example :
  read_market first_digit 20 (Some odd_file) dzero gio_new =
    Val (Gio [0; 2; 4; 6] [1; 2; 0; 2; 0; 1]%Z [] (Some 2%Z), true).
Proof. vm_compute. reflexivity. Qed.

(** Refuted: a file may be accepted although its entries lie outside the matrix, and then the
    search leaves its arrays. *)
Definition outside_file : string :=
  "%%MatrixMarket matrix coordinate pattern symmetric" ++ nl ++ "2 2 2" ++ nl ++ "1 2" ++ nl ++ "1 9" ++ nl.
Theorem C52_accepted_files_searchable_refuted : exists text o g,
  read_market first_digit 20 (Some text) dzero gio_new = Val (o, true) /\ to_graph o = Some g /\
  max_clique g 0 [] = Bad OutOfBounds /\ max_clique_heu g [] = Bad OutOfBounds.
Proof.
  exists outside_file, (Gio [0; 2; 3] [1; 8; 0]%Z [] (Some 2%Z)), (Graph [0; 2; 3] [1; 8; 0] 2).
  repeat split; vm_compute; reflexivity.
Qed.
Print Assumptions C52_accepted_files_searchable_refuted.

(** Refuted: a ".gr" file is reported as read although it is not even opened, whatever is on disk;
    the maximum degree the searches start from has not been stored. *)
Theorem C52_gr_files_read_refuted : forall number fuel files name conn,
  read_graph number fuel files (name ++ ".gr") conn gio_new = Val (gio_new, true) /\ to_graph gio_new = None.
Proof.
  intros. unfold read_graph. rewrite (extension_app name "gr" eq_refl). split; reflexivity.
Qed.
Print Assumptions C52_gr_files_read_refuted.

(** Reading appends: offsets are shifted, neighbours are not. *)
Theorem C52_second_reading_appends : forall number fuel text conn o o1,
  read_market number fuel (Some text) conn gio_new = Val (o1, true) ->
  exists o2, read_market number fuel (Some text) conn o = Val (o2, true) /\
    o_vs o2 = (o_vs o ++ map (fun k => (List.length (o_es o) + k)%nat) (o_vs o1))%list /\
    o_es o2 = (o_es o ++ o_es o1)%list /\ o_vals o2 = (o_vals o ++ o_vals o1)%list.
Proof. exact read_again. Qed.
Print Assumptions C52_second_reading_appends.

(** So an object that is read into twice no longer holds the graph of the file. *)
Theorem C52_reading_twice_refuted : exists text o1 o2,
  read_market first_digit 20 (Some text) dzero gio_new = Val (o1, true) /\
  read_market first_digit 20 (Some text) dzero o1 = Val (o2, true) /\
  List.length (o_vs o1) = 4 /\ List.length (o_vs o2) = 8 /\
  (exists v w, (v < 7)%nat /\ (w < 7)%nat /\ In (Z.of_nat w) (part (o_vs o2) (o_es o2) v) /\
     ~ In (Z.of_nat v) (part (o_vs o2) (o_es o2) w)).
Proof.
  eexists odd_file, _, _. split; [vm_compute; reflexivity|]. split; [vm_compute; reflexivity|].
  split; [reflexivity|]. split; [reflexivity|]. exists 4, 1. split; [lia|]. split; [lia|].
  vm_compute. split; [auto|]. intros [H|[H|[]]]; discriminate.
Qed.
Print Assumptions C52_reading_twice_refuted.

(** ** C53 *)
(** Every way in which reading can go wrong. *)
Theorem C53_causes : forall number fuel text conn o u,
  read_market number fuel (Some text) conn o = Bad u ->
  (u = OutOfBounds /\ (256 <= String.length (cstr (hd "" (lines text))))%nat) \/
  (u = OutOfFuel /\ (no_header text \/ (fuel < List.length (lines text))%nat)) \/
  (u = Uninitialised /\ takes_values (hd "" (lines text)) = Some true) \/
  u = IntOverflow.
Proof. exact read_bad_causes. Qed.
Print Assumptions C53_causes.

(** A file with an acceptable banner is read forever exactly if only comments follow. *)
Theorem C53_endless_iff : forall number text conn o b rest,
  lines text = b :: rest -> (String.length (cstr b) < 256)%nat -> takes_values b <> None ->
  no_header text <-> forall fuel, read_market number fuel (Some text) conn o = Bad OutOfFuel.
Proof. exact endless. Qed.
Print Assumptions C53_endless_iff.

Fixpoint times (n : nat) (s : string) : string := match n with O => "" | S n' => s ++ times n' s end.

(** Refuted: four files for which reading is not defined, for any amount of fuel from 3 on. *)
Theorem C53_reading_is_defined_refuted :
  (exists text, forall fuel, read_market first_digit fuel (Some text) dzero gio_new = Bad OutOfBounds) /\
  (exists text, forall fuel, read_market first_digit fuel (Some text) dzero gio_new = Bad OutOfFuel) /\
  (exists text, forall fuel, read_market first_digit (3 + fuel) (Some text) dzero gio_new = Bad Uninitialised) /\
  (exists text, forall fuel, read_market first_digit (3 + fuel) (Some text) dzero gio_new = Bad IntOverflow).
Proof.
  split; [|split; [|split]].
  - exists ("%%MatrixMarket matrix coordinate real " ++ times 250 "x"). intro fuel. vm_compute. reflexivity.
  - exists ("%%MatrixMarket matrix coordinate real general" ++ nl ++ "% the end"). intro fuel.
    apply (@endless first_digit _ dzero gio_new "%%MatrixMarket matrix coordinate real general" ["% the end"]).
    + reflexivity.
    + cbn. lia.
    + vm_compute. discriminate.
    + unfold no_header. cbn. constructor; [|constructor]. eexists. reflexivity.
  - exists ("%%MatrixMarket matrix coordinate real general" ++ nl ++ "2 2 1" ++ nl ++ "1 2" ++ nl). intro fuel. vm_compute. reflexivity.
  - exists ("%%MatrixMarket matrix coordinate pattern general" ++ nl ++ "2 2 1" ++ nl ++ "-2147483648 1" ++ nl). intro fuel. vm_compute. reflexivity.
Qed.
Print Assumptions C53_reading_is_defined_refuted.
