(** * Poses, covariances and random errors used as examples and witnesses *)
From Coq Require Import ZArith QArith Qcanon Bool List Lia.
From Verif Require Import Prelude Num Keys KMap UMap Geometry Factors Clique Pcm Params Solver Grid
  HistSpec Scenes Lie LiePoses LieSpec LieProofs LieCov LiePd LieInv.
Local Open Scope nat_scope.

(** Poses that do not turn, quarter turns. *)
Definition at2 (x y : Q) : pose2 := exist _ (SE2 (K := qs) (Q2Qc 1) (Q2Qc 0) (Q2Qc x) (Q2Qc y)) eq_refl.
Definition quarter2 (x y : Q) : pose2 := exist _ (SE2 (K := qs) (Q2Qc 0) (Q2Qc 1) (Q2Qc x) (Q2Qc y)) eq_refl.
Definition at3 (x y z : Q) : pose3 :=
  exist (fun p => unit3 p = true) (SE3 (K := qs) mone ((Q2Qc x, (Q2Qc y, (Q2Qc z, tt))) : cvec qs 3)) eq_refl.

(** Logarithms: right for poses that do not turn; for others the translation and about the right angle
    ([11/7] for a quarter turn in the plane). *)
Definition log2 (p : pose2) (i : nat) : Qc :=
  match i with 0 => e_x (proj1_sig p) | 1 => e_y (proj1_sig p) | 2 => (e_s (proj1_sig p) * Q2Qc (11 # 7))%Qc | _ => Q2Qc 0 end.
Definition log3 (p : pose3) (i : nat) : Qc :=
  let R := get (e_R (proj1_sig p)) in
  match i with
  | 0 => Qcminus (R 2 1) (R 1 2) | 1 => Qcminus (R 0 2) (R 2 0) | 2 => Qcminus (R 1 0) (R 0 1)
  | 3 => at_ (e_t (proj1_sig p)) 0 | 4 => at_ (e_t (proj1_sig p)) 1 | 5 => at_ (e_t (proj1_sig p)) 2 | _ => Q2Qc 0 end.
Definition N2 : numerics pose2 := Numerics log2 xinv.
Definition N3 : numerics pose3 := Numerics log3 xinv.

Lemma log2_ok : logs2 (logmap N2).
Proof.
  split; intros p [H1 H2]; cbn [logmap N2 log2]; [|auto]. rewrite H2. repeat split; auto. apply Qcmult_0_l.
Qed.
Lemma log3_ok : logs3 (logmap N3).
Proof.
  split.
  - intros p i H Hi. unfold shift3 in H. cbn [logmap N3]. unfold log3. rewrite H.
    destruct i as [|[|[|]]]; try lia; split; reflexivity.
  - intros p i H Hi. unfold turn3 in H. cbn [logmap N3]. unfold log3.
    destruct i as [|[|[|]]]; try lia; cbn [Nat.add]; apply H; lia.
Qed.

(** Diagonal matrices. *)
Definition diag (l : list Q) : mat xs (length l) :=
  @tab xs (length l) (fun i j => if i =? j then Some (Q2Qc (nth i l 0%Q)) else Some (Q2Qc 0)).
Lemma diag_finite l : finite (diag l).
Proof. intros i j Hi Hj. unfold diag. rewrite get_tab by auto. destruct (i =? j); discriminate. Qed.
Lemma diag_symmetric l : symmetric (diag l).
Proof.
  intros i j Hi Hj. unfold diag. rewrite !get_tab by auto. rewrite (Nat.eqb_sym j i).
  destruct (i =? j) eqn:E; auto. apply Nat.eqb_eq in E. subst. reflexivity.
Qed.
Lemma diag_pd l : llt (length l) (get (diag l)) = true -> pd (diag l).
Proof. apply llt_pd; [apply diag_finite|apply diag_symmetric]. Qed.
Lemma diag_form l u : form (diag l) u = qsum (length l) (fun i => Q2Qc (nth i l 0%Q) * (u i * u i))%Qc.
Proof.
  unfold form. change (@ksum qs) with qsum. apply qsum_ext. intros i Hi.
  transitivity (qsum (length l) (fun j => if i =? j then (Q2Qc (nth i l 0%Q) * (u i * u i))%Qc else Q2Qc 0)).
  - apply qsum_ext. intros j Hj. unfold diag. rewrite get_tab by auto. destruct (i =? j) eqn:E; cbn [num].
    + apply Nat.eqb_eq in E. subst. ring.
    + ring.
  - revert Hi. generalize (Q2Qc (nth i l 0%Q) * (u i * u i))%Qc. generalize (length l). clear. intro n. revert i.
    induction n as [|n IH]; intros i q Hi; [lia|]. rewrite qsum_S. destruct i as [|i]; cbn [Nat.eqb].
    + rewrite qsum_0. ring.
    + rewrite (IH i q) by lia. ring.
Qed.
Lemma qsum_sq_nonneg n : forall f u : nat -> Qc, (forall i, (Q2Qc 0 <= f i)%Qc) -> (Q2Qc 0 <= qsum n (fun i => f i * (u i * u i))%Qc)%Qc.
Proof.
  induction n as [|n IH]; intros f u HN; [apply Qcle_refl|]. rewrite qsum_S. apply qc_add_nonneg.
  - apply qc_mul_nonneg; [apply HN|apply qc_sq_nonneg].
  - apply (IH (fun i => f (S i)) (fun i => u (S i))). intro i. apply HN.
Qed.
Lemma diag_psd l : Forall (fun q => (0 <= q)%Q) l -> psd (diag l).
Proof.
  intro H. split; [apply diag_finite|]. split; [apply diag_symmetric|]. intro u. rewrite diag_form.
  assert (HN : forall i, (Q2Qc 0 <= Q2Qc (nth i l 0%Q))%Qc).
  { intro i. unfold Qcle, Q2Qc; cbn [this]. rewrite Qred_correct.
    destruct (Nat.lt_ge_cases i (length l)) as [Hi|Hi].
    - rewrite Qred_correct. rewrite Forall_forall in H. apply H. apply nth_In. exact Hi.
    - rewrite nth_overflow by auto. rewrite Qred_correct. apply Qle_refl. }
  exact (qsum_sq_nonneg (length l) (fun i => Q2Qc (nth i l 0%Q)) u HN).
Qed.

(** Errors along the axes: [+-3] in each direction, so that the covariance is [diag l]. *)
Definition axes (n : nat) (l : list Q) : dist (cvec qs n) :=
  let e i s := vtab n (fun j => if i =? j then Q2Qc s else Q2Qc 0) : cvec qs n in
  let w i := Q2Qc (nth i l 0%Q / 18) in
  ((Q2Qc 1 - qsum n (fun i => w i + w i))%Qc, vtab n (fun _ => Q2Qc 0) : cvec qs n) ::
  flat_map (fun i => [(w i, e i 3%Q); (w i, e i (-3)%Q)]) (seq 0 n).
Definition centredb {n} (d : dist (cvec qs n)) : bool :=
  Qc_eq_bool (mean (fun _ => Q2Qc 1) d) (Q2Qc 1) &&
  forallb (fun i => Qc_eq_bool (mean (fun e => coord e i) d) (Q2Qc 0)) (seq 0 n).
Definition coversb {n} (c : mat xs n) (d : dist (cvec qs n)) : bool :=
  forallb (fun i => forallb (fun j => match get c i j with Some q => Qc_eq_bool q (mean (fun e => coord e i * coord e j)%Qc d) | None => false end)
    (seq 0 n)) (seq 0 n).
Lemma centredb_ok n (d : dist (cvec qs n)) : centredb d = true -> centred d.
Proof.
  intro H. apply andb_true_iff in H. destruct H as [H1 H2]. split; [apply Qc_eq_bool_correct; exact H1|].
  intros i Hi. rewrite forallb_forall in H2. apply Qc_eq_bool_correct. apply H2. apply in_seq. lia.
Qed.
Lemma coversb_ok n (c : mat xs n) d : coversb c d = true -> covers c d.
Proof.
  intros H i j Hi Hj. unfold coversb in H. rewrite forallb_forall in H. specialize (H i ltac:(apply in_seq; lia)).
  rewrite forallb_forall in H. specialize (H j ltac:(apply in_seq; lia)). cbv beta in H.
  destruct (get c i j) as [q|]; [|discriminate H]. f_equal. apply Qc_eq_bool_correct. exact H.
Qed.
Definition differ {n} (c c' : mat xs n) (i j : nat) : bool :=
  match get c i j, get c' i j with Some q, Some q' => negb (Qc_eq_bool q q') | _, _ => false end.
Lemma differ_ok n (c c' : mat xs n) i j : differ c c' i j = true -> c <> c'.
Proof.
  intros H E. subst c'. unfold differ in H. destruct (get c i j) as [q|]; [|discriminate H].
  destruct (Qc_eq_bool q q) eqn:E; [discriminate H|]. unfold Qc_eq_bool in E. destruct (Qc_eq_dec q q); congruence.
Qed.
Definition ones3 : list Q := [1; 1; 1]%Q.
Definition ones6 : list Q := [1; 1; 1; 1; 1; 1]%Q.
Definition moves6 : list Q := [0; 0; 0; 1; 1; 1]%Q.
