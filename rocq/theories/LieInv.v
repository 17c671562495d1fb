(** * An inverse of symmetric matrices that can be computed *)
From Coq Require Import ZArith QArith Qcanon Field Ring Bool List Lia.
From Verif Require Import Prelude Num Keys KMap Geometry Lie LieProofs LiePoses LieSpec LieCov LiePd.
Set Implicit Arguments.
Local Open Scope nat_scope.

(** By the Schur complement of the first pivot (tables keep it fast). *)
Fixpoint sinv (n : nat) (A : nat -> nat -> Qc) : nat -> nat -> Qc :=
  match n with
  | 0 => fun _ _ => Q2Qc 0
  | S m =>
      let T := get (@tab qs m (sinv m (get (@tab qs m (schur A))))) in
      let w := fun i => qsum m (fun k => T i k * A (S k) O)%Qc in
      let z := fun j => qsum m (fun k => A (S k) O * T k j)%Qc in
      fun i j =>
        match i, j with
        | O, O => (/ A O O + qsum m (fun k => A (S k) O * w k) / (A O O * A O O))%Qc
        | O, S j => (- (z j) / A O O)%Qc
        | S i, O => (- (w i) / A O O)%Qc
        | S i, S j => T i j
        end
  end.

Lemma lltq_ext n : forall A B, (forall i j, i < n -> j < n -> A i j = B i j) -> lltq n A = lltq n B.
Proof.
  induction n as [|n IH]; intros A B H; cbn [lltq]; [reflexivity|]. rewrite (H 0 0) by lia. f_equal. apply IH.
  intros i j Hi Hj. unfold schur. rewrite (H (S i) (S j)), (H (S i) 0), (H (S j) 0), (H 0 0) by lia. reflexivity.
Qed.
Lemma sinv_right n : forall A, fsym n A -> lltq n A = true -> forall i j, i < n -> j < n ->
  qsum n (fun k => A i k * sinv n A k j)%Qc = if i =? j then Q2Qc 1 else Q2Qc 0.
Proof.
  induction n as [|n IH]; intros A SY HL i j Hi Hj; [lia|].
  cbn [lltq] in HL. apply andb_true_iff in HL. destruct HL as [D HL].
  destruct (Qclt_le_dec (Q2Qc 0) (A 0 0)) as [D'|D']; [clear D|discriminate D].
  assert (D : A 0 0 <> Q2Qc 0) by (intro E; rewrite E in D'; exact (Qclt_not_eq _ _ D' eq_refl)).
  set (T := get (@tab qs n (sinv n (get (@tab qs n (schur A)))))).
  assert (IH' : forall i j, i < n -> j < n -> qsum n (fun k => schur A i k * T k j)%Qc = if i =? j then Q2Qc 1 else Q2Qc 0).
  { intros i0 j0 Hi0 Hj0. rewrite <- (IH (get (@tab qs n (schur A)))); auto.
    - apply qsum_ext. intros k Hk. unfold T. rewrite !get_tab by auto. reflexivity.
    - intros a b Ha Hb. rewrite !get_tab by auto. apply (schur_sym SY); auto.
    - rewrite <- HL. apply lltq_ext. intros a b Ha Hb. rewrite get_tab by auto. reflexivity. }
  clear IH. rename IH' into IH. rewrite qsum_S. cbn [sinv]. fold T.
  set (b := fun k => A (S k) O) in *.
  set (w := fun i => qsum n (fun k => T i k * A (S k) O)%Qc).
  set (z := fun j => qsum n (fun k => A (S k) O * T k j)%Qc).
  set (q := qsum n (fun k => A (S k) O * w k)%Qc).
  assert (R : forall i, i < n -> forall f : nat -> Qc,
     qsum n (fun k => A (S i) (S k) * f k)%Qc = (qsum n (fun k => schur A i k * f k) + b i / A O O * qsum n (fun k => b k * f k))%Qc).
  { intros i0 Hi0 f. rewrite <- qsum_mul_l, <- qsum_add. apply qsum_ext. intros k Hk. unfold schur, b. field. exact D. }
  assert (W : forall i, i < n -> qsum n (fun k => schur A i k * w k)%Qc = b i).
  { intros i0 Hi0. transitivity (qsum n (fun l => (qsum n (fun k => schur A i0 k * T k l) * b l)%Qc)).
    - transitivity (qsum n (fun k => qsum n (fun l => schur A i0 k * T k l * b l)%Qc)).
      + apply qsum_ext. intros k Hk. unfold w. rewrite <- qsum_mul_l. apply qsum_ext. intros l Hl. unfold b. ring.
      + rewrite qsum_swap. apply qsum_ext. intros l Hl. rewrite <- qsum_mul_r. reflexivity.
    - rewrite (@qsum_ext n _ (fun l => (if i0 =? l then Q2Qc 1 else Q2Qc 0) * b l)%Qc) by (intros l Hl; rewrite IH by auto; reflexivity).
      clear - Hi0. revert i0 Hi0. generalize b. clear b. induction n as [|m IHm]; intros b i0 Hi0; [lia|]. rewrite qsum_S.
      destruct i0 as [|i0]; cbn [Nat.eqb].
      + rewrite (@qsum_ext m _ (fun _ => Q2Qc 0)) by (intros; apply Qcmult_0_l). rewrite qsum_0. ring.
      + rewrite (IHm (fun l => b (S l)) i0) by lia. ring. }
  destruct i as [|i], j as [|j]; cbn [Nat.eqb].
  - change (A O O * (/ A O O + q / (A O O * A O O)) + qsum n (fun k => A O (S k) * (- w k / A O O)) = Q2Qc 1)%Qc.
    rewrite (@qsum_ext n _ (fun k => (- / A O O) * (b k * w k))%Qc).
    2:{ intros k Hk. rewrite (SY 0 (S k)) by lia. unfold b. field. exact D. }
    rewrite qsum_mul_l. change (qsum n (fun k => b k * w k)%Qc) with q. field. exact D.
  - change (A O O * (- z j / A O O) + qsum n (fun k => A O (S k) * T k j) = Q2Qc 0)%Qc.
    rewrite (@qsum_ext n (fun k => A O (S k) * T k j)%Qc (fun k => b k * T k j)%Qc).
    2:{ intros k Hk. rewrite (SY 0 (S k)) by lia. reflexivity. }
    change (qsum n (fun k => b k * T k j)%Qc) with (z j). field. exact D.
  - change (A (S i) O * (/ A O O + q / (A O O * A O O)) + qsum n (fun k => A (S i) (S k) * (- w k / A O O)) = Q2Qc 0)%Qc.
    rewrite (@qsum_ext n _ (fun k => (- / A O O) * (A (S i) (S k) * w k))%Qc).
    2:{ intros k Hk. field. exact D. }
    rewrite qsum_mul_l, R by lia. rewrite W by lia. change (qsum n (fun k => b k * w k)%Qc) with q. unfold b. field. exact D.
  - change (A (S i) O * (- z j / A O O) + qsum n (fun k => A (S i) (S k) * T k j) = if i =? j then Q2Qc 1 else Q2Qc 0)%Qc.
    rewrite R by lia. rewrite IH by lia. change (qsum n (fun k => b k * T k j)%Qc) with (z j). unfold b. field. exact D.
Qed.

Definition xinv (n : nat) (A : nat -> nat -> xq) : nat -> nat -> xq :=
  fun i j => Some (get (@tab qs n (sinv n (fun i j => num (A i j)))) i j).
Theorem xinv_inverts : inverts xinv.
Proof.
  intros n A H. exists (@tab qs n (sinv n (fun i j => num (A i j)))). split; [reflexivity|].
  assert (SY : fsym n (fun i j => num (A i j))).
  { intros i j Hi Hj. destruct H as (_ & Y & _). specialize (Y i j Hi Hj). rewrite !get_tab in Y by auto. rewrite Y. reflexivity. }
  assert (HL : lltq n (fun i j => num (A i j)) = true).
  { apply (lltq_pd SY). intros u Hu. destruct H as (_ & _ & H). specialize (H u Hu). unfold form in H.
    unfold qf. erewrite qsum_ext; [exact H|]. intros i Hi. apply qsum_ext. intros j Hj. rewrite get_tab by auto. reflexivity. }
  apply (@mext qs n). intros i j Hi Hj. unfold mmul, mone. rewrite !get_tab by auto.
  change (@ksum qs n) with (qsum n). transitivity (qsum n (fun k => num (A i k) * sinv n (fun i j => num (A i j)) k j)%Qc); [|exact (sinv_right SY HL Hi Hj)]. apply qsum_ext. intros k Hk. rewrite !get_tab by auto. reflexivity.
Qed.
