(** * Poses as elements of the two groups, and the four PCM instances *)
From Coq Require Import ZArith QArith Qcanon Ring Bool List Lia Eqdep_dec.
From Verif Require Import Prelude Num Keys KMap Geometry Lie LieProofs.
Set Implicit Arguments.
Local Open Scope nat_scope.

(** ** The rational numbers are a ring; the poses are closed under the operations *)
Lemma qs_ring : ring_theory (@k0 qs) k1 kadd kmul ksub (@kopp qs) eq.
Proof.
  constructor; cbn [k_t qs k0 k1 kadd kmul ksub]; unfold kopp; cbn [ksub qs k0]; intros.
  - apply Qcplus_0_l.
  - apply Qcplus_comm.
  - apply Qcplus_assoc.
  - apply Qcmult_1_l.
  - apply Qcmult_comm.
  - apply Qcmult_assoc.
  - apply Qcmult_plus_distr_l.
  - unfold Qcminus. rewrite Qcplus_0_l. reflexivity.
  - unfold Qcminus. rewrite Qcplus_0_l. apply Qcplus_opp_r.
Qed.

Lemma Qceqb x y : Qc_eq_bool x y = true <-> x = y.
Proof.
  split; [apply Qc_eq_bool_correct|]. intros ->. unfold Qc_eq_bool. destruct (Qc_eq_dec y y); congruence.
Qed.
Lemma mat_eqb_eq n (A B : mat qs n) : mat_eqb A B = true <-> A = B.
Proof.
  unfold mat_eqb. split.
  - intro H. apply mext. intros i j Hi Hj. rewrite forallb_forall in H.
    assert (I : In i (seq 0 n)) by (apply in_seq; lia). apply H in I. rewrite forallb_forall in I.
    apply Qceqb. apply I. apply in_seq; lia.
  - intros ->. apply forallb_forall. intros i _. apply forallb_forall. intros j _. apply Qceqb. reflexivity.
Qed.

Definition circle (p : se2 qs) : Prop := (e_c p * e_c p + e_s p * e_s p = 1)%Qc.
Lemma unit2_iff p : unit2 p = true <-> circle p.
Proof. apply Qceqb. Qed.
Definition rotation (R : mat qs 3) : Prop := mmul R (mtr R) = mone /\ mmul (mtr R) R = mone /\ det3 R = @k1 qs.
Lemma unit3_iff p : unit3 p = true <-> rotation (e_R p).
Proof.
  unfold unit3, rotation. rewrite !andb_true_iff, !mat_eqb_eq. rewrite Qceqb. tauto.
Qed.

Lemma circle_id : circle (@se2_id qs).
Proof. unfold circle. cbn [se2_id e_c e_s k1 k0 qs]. ring. Qed.
Lemma circle_comp a b : circle a -> circle b -> circle (se2_comp a b).
Proof.
  unfold circle. destruct a as [c1 s1 x1 y1], b as [c2 s2 x2 y2]. cbn [se2_comp e_c e_s kadd kmul ksub qs k_t] in *. intros H1 H2.
  transitivity ((c1 * c1 + s1 * s1) * (c2 * c2 + s2 * s2))%Qc; [ring|]. rewrite H1, H2. ring.
Qed.
Lemma circle_inv a : circle a -> circle (se2_inv a).
Proof.
  unfold circle. destruct a as [c1 s1 x1 y1]. cbn [se2_inv e_c e_s kadd kmul ksub qs k_t k0] in *. intros <-. ring.
Qed.

Lemma det3_mul (A B : mat qs 3) : det3 (mmul A B) = (det3 A * det3 B)%Qc.
Proof.
  destruct A as [[a [b [c []]]] [[d [e [f []]]] [[g [h [l []]]] []]]], B as [[a' [b' [c' []]]] [[d' [e' [f' []]]] [[g' [h' [l' []]]] []]]].
  cbv [det3 mmul tab get vget vtab ksum fst snd kadd kmul ksub qs k_t k0]. ring.
Qed.
Lemma det3_tr (A : mat qs 3) : det3 (mtr A) = det3 A.
Proof.
  destruct A as [[a [b [c []]]] [[d [e [f []]]] [[g [h [l []]]] []]]].
  cbv [det3 mtr tab get vget vtab fst snd kadd kmul ksub qs k_t k0]. ring.
Qed.
Lemma rotation_id : rotation mone.
Proof.
  unfold rotation. rewrite mtr_one, !(mmul_one_l qs_ring). split; [auto|split; [auto|]].
  cbv [det3 mone tab get vget vtab fst snd Nat.eqb kadd kmul ksub qs k_t k0 k1]. ring.
Qed.
Lemma rotation_mul A B : rotation A -> rotation B -> rotation (mmul A B).
Proof.
  intros (A1 & A2 & A3) (B1 & B2 & B3). unfold rotation. rewrite (mtr_mul qs_ring). split; [|split].
  - rewrite <- (mmul_assoc qs_ring), (mmul_assoc qs_ring 3 B), B1, (mmul_one_l qs_ring). exact A1.
  - rewrite <- (mmul_assoc qs_ring), (mmul_assoc qs_ring 3 (mtr A)), A2, (mmul_one_l qs_ring). exact B2.
  - rewrite det3_mul. cbn [k_t qs k1] in *. rewrite A3, B3. cbn [k1 qs]. ring.
Qed.
Lemma rotation_tr A : rotation A -> rotation (mtr A).
Proof. intros (A1 & A2 & A3). unfold rotation. rewrite mtr_tr, det3_tr. auto. Qed.

Lemma sig_eq A (f : A -> bool) (a b : { x | f x = true }) : proj1_sig a = proj1_sig b -> a = b.
Proof.
  destruct a as [a Ha], b as [b Hb]. cbn. intro E. subst b. f_equal. apply UIP_dec. apply bool_dec.
Qed.

(** ** [Pose2] *)
Definition p2_id : pose2 := exist _ se2_id (proj2 (unit2_iff _) circle_id).
Definition p2_comp (a b : pose2) : pose2 :=
  exist _ (se2_comp (proj1_sig a) (proj1_sig b))
    (proj2 (unit2_iff _) (circle_comp (proj1 (unit2_iff _) (proj2_sig a)) (proj1 (unit2_iff _) (proj2_sig b)))).
Definition p2_inv (a : pose2) : pose2 :=
  exist _ (se2_inv (proj1_sig a)) (proj2 (unit2_iff _) (circle_inv (proj1 (unit2_iff _) (proj2_sig a)))).

(** ** [Pose3] *)
Definition p3_id : pose3 := exist _ se3_id (proj2 (unit3_iff se3_id) rotation_id).
Definition p3_comp (a b : pose3) : pose3 :=
  exist _ (se3_comp (proj1_sig a) (proj1_sig b))
    (proj2 (unit3_iff (se3_comp _ _)) (rotation_mul (proj1 (unit3_iff _) (proj2_sig a)) (proj1 (unit3_iff _) (proj2_sig b)))).
Definition p3_inv (a : pose3) : pose3 :=
  exist _ (se3_inv (proj1_sig a)) (proj2 (unit3_iff (se3_inv _)) (rotation_tr (proj1 (unit3_iff _) (proj2_sig a)))).

(** What is not computed here: logarithms and inverse matrices. *)
Record numerics (P : Type) := Numerics { logmap : P -> nat -> Qc; minv : nat -> (nat -> nat -> xq) -> nat -> nat -> xq }.

(** [Rot2::dimension] is 1, [Point2] has 2 components, [Pose2::dimension] is 3; [Pose3]: 3, 3, 6. *)
Definition geom2 (N : numerics pose2) : geom :=
  @lie_geom pose2 p2_id p2_comp p2_inv 3 1 2 (fun p => se2_ad (proj1_sig p)) (logmap N) (minv N).
Definition geom3 (N : numerics pose3) : geom :=
  @lie_geom pose3 p3_id p3_comp p3_inv 6 3 3 (fun p => se3_ad (proj1_sig p)) (logmap N) (minv N).

(** Pcm.h:1167-1170. *)
Definition pcm2d (N : numerics pose2) (pp : pcm_params) : tops := cov_ops (geom2 N) pp.
Definition pcm3d (N : numerics pose3) (pp : pcm_params) : tops := cov_ops (geom3 N) pp.
Definition pcm_simple2d (N : numerics pose2) (pp : pcm_params) : tops := node_ops (geom2 N) pp.
Definition pcm_simple3d (N : numerics pose3) (pp : pcm_params) : tops := node_ops (geom3 N) pp.
