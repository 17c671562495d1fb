(** * The two pose types are groups acting on covariances *)
From Coq Require Import ZArith QArith Qcanon Ring Bool List Lia Eqdep_dec.
From Verif Require Import Prelude Num Keys KMap Geometry AlgProofs Lie LieProofs LiePoses LieSpec.
Set Implicit Arguments.
Local Open Scope nat_scope.

Lemma geom2_group N : pose_group (geom2 N).
Proof.
  constructor; cbn [geom2 lie_geom g_pose g_comp g_id g_inv]; intros; apply sig_eq; cbn [p2_comp p2_id p2_inv proj1_sig].
  - apply (se2_assoc qs_ring).
  - apply (se2_id_l qs_ring).
  - apply (se2_inv_l qs_ring). apply (proj1 (unit2_iff _)). exact (proj2_sig a).
Qed.
Lemma geom3_group N : pose_group (geom3 N).
Proof.
  constructor; cbn [geom3 lie_geom g_pose g_comp g_id g_inv]; intros; apply sig_eq; cbn [p3_comp p3_id p3_inv proj1_sig].
  - apply (se3_assoc qs_ring).
  - apply (se3_id_l qs_ring).
  - apply (se3_inv_l qs_ring). apply (proj1 (unit3_iff _) (proj2_sig a)).
Qed.

Lemma pose3_cof (p : pose3) : cof (e_R (proj1_sig p)) = e_R (proj1_sig p).
Proof. destruct (proj1 (unit3_iff _) (proj2_sig p)) as (A & B & C). apply (cof_rot qs_ring); auto. Qed.

(** ** Matrices without NaN *)
Lemma ksum_some n : forall f : nat -> Qc, @ksum xs n (fun i => Some (f i)) = Some (@ksum qs n f).
Proof. induction n as [|n IH]; intro f; cbn [ksum]; [reflexivity|]. rewrite (IH (fun i => f (S i))). reflexivity. Qed.
Lemma get_lift n (A : mat qs n) i j : i < n -> j < n -> get (lift A) i j = Some (get A i j).
Proof. intros. unfold lift. apply get_tab; auto. Qed.

Ltac lentry := apply mext; intros i j Hi Hj; rewrite get_lift by auto; unfold madd, msub, mmul, mtr, mzero; rewrite ?get_tab by auto.
Lemma lift_add n (A B : mat qs n) : madd (lift A) (lift B) = lift (madd A B).
Proof. lentry. rewrite !get_lift by auto. reflexivity. Qed.
Lemma lift_sub n (A B : mat qs n) : msub (lift A) (lift B) = lift (msub A B).
Proof. lentry. rewrite !get_lift by auto. reflexivity. Qed.
Lemma lift_tr n (A : mat qs n) : mtr (lift A) = lift (mtr A).
Proof. lentry. rewrite !get_lift by auto. reflexivity. Qed.
Lemma lift_zero n : @mzero xs n = lift mzero.
Proof. lentry. reflexivity. Qed.
Lemma lift_mul n (A B : mat qs n) : mmul (lift A) (lift B) = lift (mmul A B).
Proof.
  lentry. rewrite (@ksum_ext xs n _ (fun k => Some (get A i k * get B k j)%Qc)); [apply (ksum_some n (fun k => get A i k * get B k j)%Qc)|].
  intros k Hk. rewrite !get_lift by auto. reflexivity.
Qed.
Lemma lift_inj n (A B : mat qs n) : lift A = lift B -> A = B.
Proof.
  intro H. apply mext. intros i j Hi Hj. assert (E : get (lift A) i j = get (lift B) i j) by (rewrite H; reflexivity).
  rewrite !get_lift in E by auto. injection E as E. exact E.
Qed.
Definition low {n} (c : mat xs n) : mat qs n := @tab qs n (fun i j => num (get c i j)).
Lemma finite_lift n (c : mat xs n) : finite c <-> c = lift (low c).
Proof.
  split.
  - intro H. apply mext. intros i j Hi Hj. rewrite get_lift by auto. unfold low. rewrite get_tab by auto.
    specialize (H i j Hi Hj). destruct (get c i j); cbn; congruence.
  - intros -> i j Hi Hj. rewrite get_lift by auto. discriminate.
Qed.
Lemma lift_finite n (A : mat qs n) : finite (lift A).
Proof. intros i j Hi Hj. rewrite get_lift by auto. discriminate. Qed.
Lemma low_lift n (A : mat qs n) : low (lift A) = A.
Proof. apply lift_inj. symmetry. apply finite_lift. apply lift_finite. Qed.

Section Act.
Variables (P : Type) (id : P) (comp : P -> P -> P) (inv : P -> P) (dim r t : nat) (ad : P -> mat qs dim).
Variables (lg : P -> nat -> Qc) (mi : nat -> (nat -> nat -> xq) -> nat -> nat -> xq).
Hypothesis ad_id : ad id = mone.
Hypothesis ad_comp : forall a b, ad (comp a b) = mmul (ad a) (ad b).

Lemma act_lift p A : act dim ad p (lift A) = lift (transport (ad p) A).
Proof. unfold act, transport. rewrite lift_tr, !lift_mul. reflexivity. Qed.

Lemma lie_cov_action : cov_action (@lie_geom P id comp inv dim r t ad lg mi) (@finite dim).
Proof.
  assert (L : forall c : mat xs dim, finite c -> exists A, c = lift A) by (intros c H; apply finite_lift in H; eauto).
  constructor; cbn [lie_geom g_cov g_pose g_cadd g_csub g_act g_czero g_comp g_id]; intros;
    repeat match goal with H : finite ?x |- _ => destruct (L x H) as [? ->]; clear H end;
    rewrite ?lift_zero, ?lift_add, ?lift_sub, ?act_lift, ?lift_add, ?lift_sub; try apply lift_finite; try f_equal.
  - apply (madd_assoc qs_ring).
  - apply (madd_comm qs_ring).
  - apply (madd_zero_l qs_ring).
  - apply (msub_add qs_ring).
  - rewrite ad_id. apply (transport_one qs_ring).
  - rewrite ad_comp. apply (transport_mul qs_ring).
  - apply (transport_add qs_ring).
  - apply (transport_zero qs_ring).
Qed.
End Act.

Lemma geom2_cov N : cov_action (geom2 N) (@finite 3).
Proof.
  apply lie_cov_action; [apply (se2_ad_id qs_ring)|]. intros a b. apply (se2_ad_comp qs_ring).
Qed.
Lemma geom3_cov N : cov_action (geom3 N) (@finite 6).
Proof.
  apply lie_cov_action; [apply (se3_ad_id qs_ring)|]. intros a b. apply (se3_ad_comp qs_ring). apply pose3_cof.
Qed.
