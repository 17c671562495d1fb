(** * Cholesky factorisation and positive definite covariances *)
From Coq Require Import ZArith QArith Qcanon Ring Field Bool List Lia Lqa.
From Verif Require Import Prelude Num Keys KMap Geometry Lie LieProofs LiePoses LieSpec LieCov.
Set Implicit Arguments.
Local Open Scope nat_scope.

(** ** Order on rational numbers *)
Lemma qc_add_pos a b : (0 < a -> 0 <= b -> 0 < a + b)%Qc.
Proof.
  unfold Qclt, Qcle, Qcplus, Q2Qc; cbn [this]. rewrite ?Qred_correct. intros. lra.
Qed.
Lemma qc_add_nonneg a b : (0 <= a -> 0 <= b -> 0 <= a + b)%Qc.
Proof. unfold Qclt, Qcle, Qcplus, Q2Qc; cbn [this]. rewrite ?Qred_correct. intros. lra. Qed.
Lemma qc_mul_pos a b : (0 < a -> 0 < b -> 0 < a * b)%Qc.
Proof. unfold Qclt, Qcle, Qcmult, Q2Qc; cbn [this]. rewrite ?Qred_correct. intros. nra. Qed.
Lemma qc_mul_nonneg a b : (0 <= a -> 0 <= b -> 0 <= a * b)%Qc.
Proof. unfold Qclt, Qcle, Qcmult, Q2Qc; cbn [this]. rewrite ?Qred_correct. intros. nra. Qed.
Lemma qc_sq_nonneg a : (0 <= a * a)%Qc.
Proof. unfold Qclt, Qcle, Qcmult, Q2Qc; cbn [this]. rewrite ?Qred_correct. nra. Qed.
Lemma qc_sq_pos a : (a <> 0 -> 0 < a * a)%Qc.
Proof.
  intro H. destruct (Qcle_lt_or_eq _ _ (qc_sq_nonneg a)) as [G|G]; auto.
  symmetry in G. apply Qcmult_integral in G. tauto.
Qed.
Lemma qc_lt_le a b : (a < b -> a <= b)%Qc.
Proof. apply Qclt_le_weak. Qed.
Lemma qc_opp_pos a : (0 < a -> - a <= 0)%Qc.
Proof. unfold Qclt, Qcle, Qcopp, Q2Qc; cbn [this]. rewrite ?Qred_correct. intros. lra. Qed.
Lemma qc_opp_nonneg a : (0 <= a -> - a <= 0)%Qc.
Proof. unfold Qclt, Qcle, Qcopp, Q2Qc; cbn [this]. rewrite ?Qred_correct. intros. lra. Qed.

Definition qsum (n : nat) (f : nat -> Qc) : Qc := @ksum qs n f.
Lemma qsum_S n f : qsum (S n) f = (f O + qsum n (fun i => f (S i)))%Qc.
Proof. reflexivity. Qed.
Lemma qsum_ext n (f g : nat -> Qc) : (forall i, i < n -> f i = g i) -> qsum n f = qsum n g.
Proof. exact (@ksum_ext qs n f g). Qed.
Lemma qsum_0 n : qsum n (fun _ => Q2Qc 0) = Q2Qc 0.
Proof. exact (ksum_0 qs_ring n). Qed.
Lemma qsum_add n f g : qsum n (fun i => f i + g i)%Qc = (qsum n f + qsum n g)%Qc.
Proof. exact (ksum_add qs_ring n f g). Qed.
Lemma qsum_sub n f g : qsum n (fun i => f i - g i)%Qc = (qsum n f - qsum n g)%Qc.
Proof. exact (ksum_sub qs_ring n f g). Qed.
Lemma qsum_mul_l n c f : qsum n (fun i => c * f i)%Qc = (c * qsum n f)%Qc.
Proof. exact (ksum_mul_l qs_ring n c f). Qed.
Lemma qsum_mul_r n c f : qsum n (fun i => f i * c)%Qc = (qsum n f * c)%Qc.
Proof. exact (ksum_mul_r qs_ring n c f). Qed.
Lemma qsum_swap n m f : qsum n (fun i => qsum m (fun j => f i j)) = qsum m (fun j => qsum n (fun i => f i j)).
Proof. exact (ksum_swap qs_ring n m f). Qed.

Definition qf (n : nat) (A : nat -> nat -> Qc) (u : nat -> Qc) : Qc :=
  qsum n (fun i => qsum n (fun j => u i * A i j * u j)%Qc).
Definition fsym (n : nat) (A : nat -> nat -> Qc) : Prop := forall i j, i < n -> j < n -> A i j = A j i.
Definition fpd (n : nat) (A : nat -> nat -> Qc) : Prop :=
  forall u, (exists i, i < n /\ u i <> Q2Qc 0) -> (0 < qf n A u)%Qc.
Definition schur (A : nat -> nat -> Qc) (i j : nat) : Qc := (A (S i) (S j) - A (S i) O * A (S j) O / A O O)%Qc.
Fixpoint lltq (n : nat) (A : nat -> nat -> Qc) : bool :=
  match n with
  | 0 => true
  | S m => (if Qclt_le_dec (Q2Qc 0) (A O O) then true else false) && lltq m (schur A)
  end.

Lemma llt_some n : forall A B, (forall i j, i < n -> j < n -> B i j = Some (A i j)) -> llt n B = lltq n A.
Proof.
  induction n as [|n IH]; intros A B H; [reflexivity|]. cbn [llt lltq]. rewrite (H 0 0) by lia. cbn [bad_pivot].
  destruct (Qclt_le_dec (Q2Qc 0) (A 0 0)); [|reflexivity]. cbn [negb andb]. apply IH. intros i j Hi Hj.
  rewrite !(H (S i)), !(H (S j)) by lia. reflexivity.
Qed.

Lemma qf_ext n A B u : (forall i j, i < n -> j < n -> A i j = B i j) -> qf n A u = qf n B u.
Proof.
  intro H. unfold qf. apply qsum_ext. intros i Hi. apply qsum_ext. intros j Hj. rewrite H by auto. reflexivity.
Qed.

(** Completing the square. *)
Lemma qf_schur n A u : fsym (S n) A -> A 0 0 <> Q2Qc 0 ->
  let s := qsum n (fun i => A (S i) O * u (S i))%Qc in
  qf (S n) A u = (A O O * (u O + s / A O O) * (u O + s / A O O) + qf n (schur A) (fun i => u (S i)))%Qc.
Proof.
  intros SY D s.
  assert (E1 : qf n (schur A) (fun i => u (S i)) =
    (qsum n (fun i => qsum n (fun j => u (S i) * A (S i) (S j) * u (S j))) - s * s / A O O)%Qc).
  { unfold qf, schur.
    transitivity (qsum n (fun i => (qsum n (fun j => u (S i) * A (S i) (S j) * u (S j)) - (A (S i) O * u (S i)) * (s / A O O))%Qc)).
    - apply qsum_ext. intros i Hi.
      transitivity (qsum n (fun j => (u (S i) * A (S i) (S j) * u (S j) - ((A (S i) O * u (S i)) / A O O) * (A (S j) O * u (S j)))%Qc)).
      + apply qsum_ext. intros j Hj. unfold Qcdiv. ring.
      + rewrite (qsum_sub n (fun j => u (S i) * A (S i) (S j) * u (S j))%Qc (fun j => ((A (S i) O * u (S i)) / A O O) * (A (S j) O * u (S j)))%Qc).
        rewrite (qsum_mul_l n ((A (S i) O * u (S i)) / A O O)%Qc (fun j => (A (S j) O * u (S j)))%Qc). fold s. unfold Qcdiv. ring.
    - rewrite (qsum_sub n (fun i => qsum n (fun j => u (S i) * A (S i) (S j) * u (S j)))%Qc (fun i => (A (S i) O * u (S i)) * (s / A O O))%Qc).
      rewrite (qsum_mul_r n (s / A O O)%Qc (fun i => (A (S i) O * u (S i)))%Qc). fold s. unfold Qcdiv. ring. }
  rewrite E1.
  assert (E2 : qf (S n) A u = (u O * A O O * u O + u O * s + (s * u O + qsum n (fun i => qsum n (fun j => u (S i) * A (S i) (S j) * u (S j)))))%Qc).
  { unfold qf. rewrite !qsum_S. f_equal.
    - f_equal. unfold s. rewrite <- (qsum_mul_l n (u O) (fun i => A (S i) O * u (S i))%Qc). apply qsum_ext. intros i Hi. rewrite (SY 0 (S i)) by lia. ring.
    - rewrite (@qsum_ext n _ (fun i => u (S i) * A (S i) O * u O + qsum n (fun j => u (S i) * A (S i) (S j) * u (S j)))%Qc) by (intros; apply qsum_S).
      rewrite (qsum_add n (fun i => u (S i) * A (S i) O * u O)%Qc (fun i => qsum n (fun j => u (S i) * A (S i) (S j) * u (S j)))%Qc). f_equal. unfold s.
      rewrite <- (qsum_mul_r n (u O) (fun i => A (S i) O * u (S i))%Qc). apply qsum_ext. intros i Hi. ring. }
  rewrite E2. field. exact D.
Qed.

Lemma schur_sym n A : fsym (S n) A -> fsym n (schur A).
Proof. intros H i j Hi Hj. unfold schur. rewrite (H (S i) (S j)) by lia. unfold Qcdiv. ring. Qed.

Lemma qf_zero n A u : (forall i, i < n -> u i = Q2Qc 0) -> qf n A u = Q2Qc 0.
Proof.
  intro H. unfold qf. transitivity (qsum n (fun _ => Q2Qc 0)); [|apply qsum_0]. apply qsum_ext. intros i Hi.
  transitivity (qsum n (fun _ => Q2Qc 0)); [|apply qsum_0]. apply qsum_ext. intros j Hj. rewrite (H i) by auto. ring.
Qed.

Lemma nonzero_dec n (u : nat -> Qc) : (exists i, i < n /\ u i <> Q2Qc 0) \/ (forall i, i < n -> u i = Q2Qc 0).
Proof.
  induction n as [|n IH]; [right; intros; lia|]. destruct IH as [(i & Hi & H)|H]; [left; exists i; auto|].
  destruct (Qc_eq_dec (u n) (Q2Qc 0)) as [E|E]; [right|left; exists n; auto].
  intros i Hi. destruct (Nat.eq_dec i n); [subst; auto|]. apply H. lia.
Qed.

Theorem lltq_pd n : forall A, fsym n A -> lltq n A = true <-> fpd n A.
Proof.
  induction n as [|n IH]; intros A SY.
  - split; auto. intros _ u (i & Hi & _). lia.
  - cbn [lltq]. pose proof (schur_sym SY) as SS. specialize (IH _ SS). split.
    + intro H. apply andb_true_iff in H. destruct H as [D H]. destruct (Qclt_le_dec (Q2Qc 0) (A 0 0)) as [D'|D']; [clear D|discriminate D].
      apply IH in H. assert (D : A 0 0 <> Q2Qc 0) by (intro E; rewrite E in D'; exact (Qclt_not_eq _ _ D' eq_refl)).
      intros u Hu. rewrite (qf_schur u SY D).
      set (s := qsum n (fun i => A (S i) O * u (S i))%Qc).
      destruct (nonzero_dec n (fun i => u (S i))) as [N|N].
      * rewrite Qcplus_comm. apply qc_add_pos; [apply H; auto|].
        rewrite <- Qcmult_assoc. apply qc_mul_nonneg; [apply qc_lt_le; auto|apply qc_sq_nonneg].
      * rewrite (qf_zero _ _ N). assert (s = Q2Qc 0) as ->.
        { unfold s. transitivity (qsum n (fun _ => Q2Qc 0)); [|apply qsum_0]. apply qsum_ext. intros i Hi. rewrite (N i Hi). apply Qcmult_0_r. }
        assert (U : u 0 <> Q2Qc 0).
        { destruct Hu as ([|i] & Hi & Hu); auto. exfalso. apply Hu. apply N. lia. }
        replace (A O O * (u O + Q2Qc 0 / A O O) * (u O + Q2Qc 0 / A O O) + Q2Qc 0)%Qc with (A O O * (u O * u O))%Qc.
        2:{ field. exact D. }
        apply qc_mul_pos; auto. apply qc_sq_pos; auto.
    + intro H.
      assert (D' : (0 < A O O)%Qc).
      { specialize (H (fun i => match i with 0 => Q2Qc 1 | _ => Q2Qc 0 end)).
        assert (P : (0 < qf (S n) A (fun i => match i with 0 => Q2Qc 1 | _ => Q2Qc 0 end))%Qc).
        { apply H. exists 0. split; [lia|]. discriminate. }
        replace (qf (S n) A (fun i => match i with 0 => Q2Qc 1 | _ => Q2Qc 0 end)) with (A O O) in P; [exact P|].
        unfold qf. rewrite qsum_S, qsum_S.
        assert (Z1 : qsum n (fun i => Q2Qc 1 * A O (S i) * Q2Qc 0)%Qc = Q2Qc 0).
        { transitivity (qsum n (fun _ => Q2Qc 0)); [|apply qsum_0]. apply qsum_ext. intros; apply Qcmult_0_r. }
        rewrite Z1.
        assert (Z2 : forall g : nat -> nat -> Qc, qsum n (fun i => qsum (S n) (fun j => Q2Qc 0 * A (S i) j * g i j)%Qc) = Q2Qc 0).
        { intro g. transitivity (qsum n (fun _ => Q2Qc 0)); [|apply qsum_0]. apply qsum_ext. intros i Hi.
          transitivity (qsum (S n) (fun _ => Q2Qc 0)); [|apply qsum_0]. apply qsum_ext. intros; ring. }
        rewrite (Z2 (fun _ j => match j with 0 => Q2Qc 1 | _ => Q2Qc 0 end)). ring. }
      assert (D : A 0 0 <> Q2Qc 0) by (intro E; rewrite E in D'; exact (Qclt_not_eq _ _ D' eq_refl)).
      destruct (Qclt_le_dec (Q2Qc 0) (A 0 0)) as [_|D'']; [|exfalso; exact (Qclt_not_le _ _ D' D'')].
      cbn [andb]. apply IH. intros u (i & Hi & Hu).
      set (s := qsum n (fun i => A (S i) O * u i)%Qc).
      set (w := fun i => match i with 0 => (- s / A O O)%Qc | S j => u j end).
      assert (P : (0 < qf (S n) A w)%Qc) by (apply H; exists (S i); split; [lia|exact Hu]).
      rewrite (qf_schur w SY D) in P. cbn [w] in P.
      replace (qsum n (fun i0 => A (S i0) O * u i0)%Qc) with s in P by reflexivity.
      replace (A O O * (- s / A O O + s / A O O) * (- s / A O O + s / A O O))%Qc with (Q2Qc 0) in P by (field; exact D).
      rewrite Qcplus_0_l in P. exact P.
Qed.

(** ** Covariance matrices *)
Theorem llt_pd n (c : mat xs n) : finite c -> symmetric c -> llt n (get c) = true <-> pd c.
Proof.
  intros F SY. rewrite (@llt_some n (fun i j => num (get c i j))).
  - rewrite lltq_pd. + unfold pd. split; [intro H; auto|intros (_ & _ & H); exact H].
    + intros i j Hi Hj. rewrite (SY i j) by auto. reflexivity.
  - intros i j Hi Hj. specialize (F i j Hi Hj). destruct (get c i j); [reflexivity|congruence].
Qed.

Lemma pd_psd n (c : mat xs n) : pd c -> psd c.
Proof.
  intros (F & SY & H). split; [auto|split; [auto|]]. intro u. destruct (nonzero_dec n u) as [N|N].
  - apply qc_lt_le. apply H. exact N.
  - change (form c u) with (qf n (fun i j => num (get c i j)) u). rewrite (qf_zero _ _ N). apply Qcle_refl.
Qed.

Lemma form_add n (c d : mat xs n) u : finite c -> finite d -> form (madd c d) u = (form c u + form d u)%Qc.
Proof.
  intros Fc Fd. unfold form. change (@ksum qs) with qsum. rewrite <- qsum_add. apply qsum_ext. intros i Hi.
  change (@ksum qs) with qsum. rewrite <- qsum_add. apply qsum_ext. intros j Hj. unfold madd. rewrite get_tab by auto.
  specialize (Fc i j Hi Hj). specialize (Fd i j Hi Hj). destruct (get c i j), (get d i j); try congruence. cbn. ring.
Qed.
Lemma finite_add n (c d : mat xs n) : finite c -> finite d -> finite (madd c d).
Proof.
  intros Fc Fd i j Hi Hj. unfold madd. rewrite get_tab by auto.
  specialize (Fc i j Hi Hj). specialize (Fd i j Hi Hj). destruct (get c i j), (get d i j); cbn; congruence.
Qed.
Lemma symmetric_add n (c d : mat xs n) : symmetric c -> symmetric d -> symmetric (madd c d).
Proof. intros Sc Sd i j Hi Hj. unfold madd. rewrite !get_tab by auto. rewrite (Sc i j), (Sd i j) by auto. reflexivity. Qed.
Lemma psd_add n (c d : mat xs n) : psd c -> psd d -> psd (madd c d).
Proof.
  intros (F1 & S1 & H1) (F2 & S2 & H2). split; [apply finite_add; auto|split; [apply symmetric_add; auto|]].
  intro u. rewrite form_add by auto. apply qc_add_nonneg; auto.
Qed.
Lemma pd_add_l n (c d : mat xs n) : pd c -> psd d -> pd (madd c d).
Proof.
  intros (F1 & S1 & H1) (F2 & S2 & H2). split; [apply finite_add; auto|split; [apply symmetric_add; auto|]].
  intros u Hu. rewrite form_add by auto. apply qc_add_pos; auto.
Qed.
Lemma pd_add_r n (c d : mat xs n) : psd c -> pd d -> pd (madd c d).
Proof.
  intros (F1 & S1 & H1) (F2 & S2 & H2). split; [apply finite_add; auto|split; [apply symmetric_add; auto|]].
  intros u Hu. rewrite form_add by auto. rewrite Qcplus_comm. apply qc_add_pos; auto.
Qed.
Lemma psd_zero n : psd (@mzero xs n).
Proof.
  split; [|split].
  - intros i j Hi Hj. unfold mzero. rewrite get_tab by auto. discriminate.
  - intros i j Hi Hj. unfold mzero. rewrite !get_tab by auto. reflexivity.
  - intro u. unfold form. change (@ksum qs) with qsum. replace (qsum n _) with (Q2Qc 0); [apply Qcle_refl|].
    symmetry. transitivity (qsum n (fun _ => Q2Qc 0)); [|apply qsum_0]. apply qsum_ext. intros i Hi.
    transitivity (qsum n (fun _ => Q2Qc 0)); [|apply qsum_0]. apply qsum_ext. intros j Hj.
    unfold mzero. rewrite get_tab by auto. cbn. ring.
Qed.

Definition tvec {n} (A : mat qs n) (u : nat -> Qc) (k : nat) : Qc := qsum n (fun i => u i * get A i k)%Qc.

Lemma form_lift_transport n (A B : mat qs n) u : form (lift (transport A B)) u = form (lift B) (tvec A u).
Proof.
  unfold form. change (@ksum qs) with qsum.
  transitivity (qsum n (fun i => qsum n (fun j => qsum n (fun k => qsum n (fun l => (u i * get A i k) * get B k l * (u j * get A j l))))))%Qc.
  { apply qsum_ext. intros i Hi. apply qsum_ext. intros j Hj. rewrite get_lift by auto. cbn [num].
    unfold transport, mmul at 1. rewrite get_tab by auto. change (@ksum qs) with qsum.
    rewrite <- qsum_mul_l, <- qsum_mul_r.
    transitivity (qsum n (fun l => qsum n (fun k => (u i * get A i k) * get B k l * (u j * get A j l))))%Qc; [|apply qsum_swap].
    apply qsum_ext. intros l Hl. unfold mmul, mtr. rewrite !get_tab by auto. change (@ksum qs) with qsum.
    change (@kmul qs) with Qcmult. rewrite <- qsum_mul_r, <- qsum_mul_l, <- qsum_mul_r.
    apply qsum_ext. intros k Hk. ring. }
  transitivity (qsum n (fun k => qsum n (fun l => qsum n (fun i => qsum n (fun j => (u i * get A i k) * get B k l * (u j * get A j l))))))%Qc.
  { transitivity (qsum n (fun i => qsum n (fun k => qsum n (fun l => qsum n (fun j => (u i * get A i k) * get B k l * (u j * get A j l))))))%Qc.
    { apply qsum_ext. intros i Hi. rewrite qsum_swap. apply qsum_ext. intros k Hk. apply qsum_swap. }
    rewrite qsum_swap. apply qsum_ext. intros k Hk. apply qsum_swap. }
  apply qsum_ext. intros k Hk. apply qsum_ext. intros l Hl. rewrite get_lift by auto. cbn [num]. unfold tvec.
  rewrite <- !qsum_mul_r. apply qsum_ext. intros i Hi. rewrite <- qsum_mul_l. reflexivity.
Qed.

Lemma tvec_inv n (A B : mat qs n) u i : mmul A B = mone -> i < n -> u i = qsum n (fun l => get B l i * tvec A u l)%Qc.
Proof.
  intros H Hi. symmetry.
  transitivity (qsum n (fun l => qsum n (fun k => u k * (get A k l * get B l i)))%Qc).
  { apply qsum_ext. intros l Hl. unfold tvec. rewrite <- qsum_mul_l. apply qsum_ext. intros; ring. }
  rewrite qsum_swap.
  transitivity (qsum n (fun k => u k * (if k =? i then Q2Qc 1 else Q2Qc 0))%Qc).
  { apply qsum_ext. intros k Hk. rewrite qsum_mul_l. f_equal.
    change (qsum n (fun i0 => (get A k i0 * get B i0 i)%Qc)) with (@ksum qs n (fun i0 => @kmul qs (get A k i0) (get B i0 i))).
    assert (E : get (mmul A B) k i = get (@mone qs n) k i) by (rewrite H; reflexivity).
    unfold mmul, mone in E. rewrite !get_tab in E by auto. exact E. }
  exact (@ksum_delta_r qs qs_ring n i u Hi).
Qed.

Lemma lift_symmetric n (A : mat qs n) : symmetric (lift A) <-> mtr A = A.
Proof.
  split; intro H.
  - apply mext. intros i j Hi Hj. unfold mtr. rewrite get_tab by auto. specialize (H j i Hj Hi).
    rewrite !get_lift in H by auto. congruence.
  - intros i j Hi Hj. rewrite !get_lift by auto. rewrite <- H at 1. unfold mtr. rewrite get_tab by auto. reflexivity.
Qed.
Lemma transport_symmetric n (A B : mat qs n) : mtr B = B -> mtr (transport A B) = transport A B.
Proof.
  intro H. unfold transport. rewrite (mtr_mul qs_ring), mtr_tr, (mtr_mul qs_ring), H, (mmul_assoc qs_ring). reflexivity.
Qed.
Lemma psd_transport n (A : mat qs n) c : psd c -> psd (lift (transport A (low c))).
Proof.
  intros (F & SY & H). pose proof (proj1 (@finite_lift n c) F) as E.
  split; [apply lift_finite|split].
  - apply lift_symmetric. apply transport_symmetric. apply lift_symmetric. rewrite <- E. exact SY.
  - intro u. rewrite form_lift_transport, <- E. apply H.
Qed.
Lemma pd_transport n (A B : mat qs n) c : mmul A B = mone -> pd c -> pd (lift (transport A (low c))).
Proof.
  intros AB (F & SY & H). pose proof (proj1 (@finite_lift n c) F) as E.
  split; [apply lift_finite|split].
  - apply lift_symmetric. apply transport_symmetric. apply lift_symmetric. rewrite <- E. exact SY.
  - intros u (i & Hi & Hu). rewrite form_lift_transport, <- E. apply H.
    destruct (nonzero_dec n (tvec A u)) as [N|N]; auto. exfalso. apply Hu. rewrite (@tvec_inv n A B u i AB Hi).
    transitivity (qsum n (fun _ => Q2Qc 0)); [|apply qsum_0]. apply qsum_ext. intros l Hl. rewrite (N l Hl). ring.
Qed.

(** A matrix whose first diagonal entry is not positive is refused. *)
Lemma llt_first n (c : mat xs (S n)) : psd c -> llt (S n) (get (msub mzero c)) = false.
Proof.
  intros (F & SY & H). cbn [llt].
  assert (E0 : get (msub mzero c) 0 0 = @ksub xs k0 (get c 0 0)) by (unfold msub, mzero; rewrite !get_tab by lia; reflexivity).
  rewrite E0.
  assert (D : exists q, get c 0 0 = Some q /\ (0 <= q)%Qc).
  { specialize (F 0 0). destruct (get c 0 0) as [q|] eqn:E; [|exfalso; apply F; lia || reflexivity]. exists q. split; auto.
    specialize (H (fun i => match i with 0 => Q2Qc 1 | _ => Q2Qc 0 end)).
    replace (form c (fun i => match i with 0 => Q2Qc 1 | _ => Q2Qc 0 end)) with q in H; [exact H|].
    unfold form. change (@ksum qs) with qsum. rewrite qsum_S, qsum_S. rewrite E. cbn [num].
    assert (Z1 : qsum n (fun i => Q2Qc 1 * num (get c O (S i)) * Q2Qc 0)%Qc = Q2Qc 0).
    { transitivity (qsum n (fun _ => Q2Qc 0)); [|apply qsum_0]. apply qsum_ext. intros; apply Qcmult_0_r. }
    rewrite Z1.
    assert (Z2 : forall g : nat -> nat -> Qc, qsum n (fun i => qsum (S n) (fun j => Q2Qc 0 * num (get c (S i) j) * g i j)%Qc) = Q2Qc 0).
    { intro g. transitivity (qsum n (fun _ => Q2Qc 0)); [|apply qsum_0]. apply qsum_ext. intros i Hi.
      transitivity (qsum (S n) (fun _ => Q2Qc 0)); [|apply qsum_0]. apply qsum_ext. intros; ring. }
    rewrite (Z2 (fun _ j => match j with 0 => Q2Qc 1 | _ => Q2Qc 0 end)). ring. }
  destruct D as (q & E & D). rewrite E. cbn [ksub xs xlift2 k0]. cbn [bad_pivot].
  destruct (Qclt_le_dec (Q2Qc 0) (Q2Qc 0 - q)) as [X|X]; [|reflexivity]. exfalso.
  apply (Qclt_not_le _ _ X). unfold Qcminus. rewrite Qcplus_0_l. apply qc_opp_nonneg. exact D.
Qed.
