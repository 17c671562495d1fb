(** * Matrices and rigid motions *)
From Coq Require Import ZArith QArith Qcanon Ring Bool List Lia Eqdep_dec.
From Verif Require Import Prelude Num Keys KMap Geometry Lie.
Set Implicit Arguments.
Local Open Scope nat_scope.

(** ** Vectors *)
Lemma vget_tab A (d : A) n : forall f i, i < n -> vget d (vtab n f) i = f i.
Proof.
  induction n as [|n IH]; intros f i H; [lia|]. destruct i; cbn [vtab vget fst snd]; [reflexivity|].
  rewrite IH by lia. reflexivity.
Qed.
Lemma vext A (d : A) n : forall u v : vec A n, (forall i, i < n -> vget d u i = vget d v i) -> u = v.
Proof.
  induction n as [|n IH]; intros u v H; [destruct u, v; reflexivity|].
  destruct u as [a u], v as [b v]. f_equal.
  - apply (H 0). lia.
  - apply IH. intros i Hi. apply (H (S i)). lia.
Qed.
Lemma vtab_ext A n : forall f g : nat -> A, (forall i, i < n -> f i = g i) -> vtab n f = vtab n g.
Proof.
  induction n as [|n IH]; intros f g H; [reflexivity|]. cbn [vtab]. f_equal; [apply H; lia|].
  apply IH. intros i Hi. apply H. lia.
Qed.

Section Any.
Variable K : scal.
Lemma get_tab n (f : nat -> nat -> K) i j : i < n -> j < n -> get (tab n f) i j = f i j.
Proof. intros. unfold get, tab. rewrite vget_tab by auto. apply vget_tab; auto. Qed.
Lemma mext n (A B : mat K n) : (forall i j, i < n -> j < n -> get A i j = get B i j) -> A = B.
Proof.
  intro H. apply (vext (vtab n (fun _ => k0))). intros i Hi. apply (vext k0). intros j Hj. apply (H i j); auto.
Qed.
Lemma tab_ext n (f g : nat -> nat -> K) : (forall i j, i < n -> j < n -> f i j = g i j) -> tab n f = tab n g.
Proof. intro H. unfold tab. apply vtab_ext. intros i Hi. apply vtab_ext. auto. Qed.
Lemma at_tab n (f : nat -> K) i : i < n -> at_ (n := n) (vtab n f : cvec K n) i = f i.
Proof. apply vget_tab. Qed.
Lemma cext n (u v : cvec K n) : (forall i, i < n -> at_ u i = at_ v i) -> u = v.
Proof. apply vext. Qed.
Lemma ksum_ext n : forall f g : nat -> K, (forall i, i < n -> f i = g i) -> ksum n f = ksum n g.
Proof.
  induction n as [|n IH]; intros f g H; [reflexivity|]. cbn [ksum]. rewrite (H 0) by lia. f_equal.
  apply IH. intros; apply H; lia.
Qed.
End Any.

(** ** Over a commutative ring *)
Section Ring.
Variable K : scal.
Definition kopp (x : K) : K := ksub k0 x.
Hypothesis RT : ring_theory (@k0 K) k1 kadd kmul ksub kopp eq.
Add Ring Kring : RT.
Notation "x + y" := (kadd x y). Notation "x * y" := (kmul x y). Notation "x - y" := (ksub x y).

Lemma ksum_0 n : ksum n (fun _ => @k0 K) = k0.
Proof. induction n as [|n IH]; cbn [ksum]; [reflexivity|]. rewrite IH. ring. Qed.
Lemma ksum_add n : forall f g : nat -> K, ksum n (fun i => f i + g i) = ksum n f + ksum n g.
Proof. induction n as [|n IH]; intros; cbn [ksum]; [ring|]. rewrite IH. ring. Qed.
Lemma ksum_sub n : forall f g : nat -> K, ksum n (fun i => f i - g i) = ksum n f - ksum n g.
Proof. induction n as [|n IH]; intros; cbn [ksum]; [ring|]. rewrite IH. ring. Qed.
Lemma ksum_mul_l n c : forall f : nat -> K, ksum n (fun i => c * f i) = c * ksum n f.
Proof. induction n as [|n IH]; intros; cbn [ksum]; [ring|]. rewrite IH. ring. Qed.
Lemma ksum_mul_r n c : forall f : nat -> K, ksum n (fun i => f i * c) = ksum n f * c.
Proof. induction n as [|n IH]; intros; cbn [ksum]; [ring|]. rewrite IH. ring. Qed.
Lemma ksum_swap n m : forall f : nat -> nat -> K,
  ksum n (fun i => ksum m (fun j => f i j)) = ksum m (fun j => ksum n (fun i => f i j)).
Proof.
  induction n as [|n IH]; intro f; cbn [ksum]; [symmetry; apply ksum_0|]. rewrite IH. symmetry. apply ksum_add.
Qed.
Lemma ksum_delta_l n : forall i (f : nat -> K), i < n -> ksum n (fun k => (if i =? k then k1 else k0) * f k) = f i.
Proof.
  induction n as [|n IH]; intros i f H; [lia|]. cbn [ksum]. destruct i as [|i]; cbn [Nat.eqb].
  - replace (ksum n (fun k => k0 * f (S k))) with (@k0 K); [ring|].
    rewrite (ksum_mul_l n k0 (fun k => f (S k))). ring.
  - rewrite (IH i (fun k => f (S k))) by lia. ring.
Qed.
Lemma ksum_delta_r n i (f : nat -> K) : i < n -> ksum n (fun k => f k * (if k =? i then k1 else k0)) = f i.
Proof.
  intro H. rewrite <- (@ksum_delta_l n i f H). apply ksum_ext. intros k _. rewrite (Nat.eqb_sym k i). ring.
Qed.

Ltac entry := apply mext; intros i j Hi Hj; unfold madd, msub, mmul, mtr, mzero, mone; rewrite ?get_tab by auto.

Lemma madd_assoc n (A B C : mat K n) : madd A (madd B C) = madd (madd A B) C.
Proof. entry. ring. Qed.
Lemma madd_comm n (A B : mat K n) : madd A B = madd B A.
Proof. entry. ring. Qed.
Lemma madd_zero_l n (A : mat K n) : madd mzero A = A.
Proof. entry. ring. Qed.
Lemma msub_add n (A B : mat K n) : msub (madd A B) A = B.
Proof. entry. ring. Qed.
Lemma mmul_assoc n (A B C : mat K n) : mmul A (mmul B C) = mmul (mmul A B) C.
Proof.
  entry.
  rewrite (@ksum_ext K n _ (fun k => ksum n (fun l => get A i k * (get B k l * get C l j)))).
  2:{ intros k Hk. rewrite get_tab by auto. rewrite <- ksum_mul_l. reflexivity. }
  rewrite ksum_swap. apply ksum_ext. intros l Hl. rewrite get_tab by auto.
  rewrite <- ksum_mul_r. apply ksum_ext. intros. ring.
Qed.
Lemma mmul_add_l n (A B C : mat K n) : mmul (madd A B) C = madd (mmul A C) (mmul B C).
Proof.
  entry. rewrite <- ksum_add. apply ksum_ext. intros k Hk. rewrite get_tab by auto. ring.
Qed.
Lemma mmul_add_r n (A B C : mat K n) : mmul A (madd B C) = madd (mmul A B) (mmul A C).
Proof.
  entry. rewrite <- ksum_add. apply ksum_ext. intros k Hk. rewrite get_tab by auto. ring.
Qed.
Lemma mmul_zero_r n (A : mat K n) : mmul A mzero = mzero.
Proof.
  entry. transitivity (ksum n (fun _ => @k0 K)); [|apply ksum_0]. apply ksum_ext. intros k Hk. rewrite get_tab by auto. ring.
Qed.
Lemma mmul_zero_l n (A : mat K n) : mmul mzero A = mzero.
Proof.
  entry. transitivity (ksum n (fun _ => @k0 K)); [|apply ksum_0]. apply ksum_ext. intros k Hk. rewrite get_tab by auto. ring.
Qed.
Lemma mmul_one_l n (A : mat K n) : mmul mone A = A.
Proof.
  entry. rewrite <- (@ksum_delta_l n i (fun k => get A k j)) by auto. apply ksum_ext. intros k Hk.
  rewrite get_tab by auto. reflexivity.
Qed.
Lemma mmul_one_r n (A : mat K n) : mmul A mone = A.
Proof.
  entry. rewrite <- (@ksum_delta_r n j (fun k => get A i k)) by auto. apply ksum_ext. intros k Hk.
  rewrite get_tab by auto. reflexivity.
Qed.
Lemma mtr_mul n (A B : mat K n) : mtr (mmul A B) = mmul (mtr B) (mtr A).
Proof.
  entry. apply ksum_ext. intros k Hk. rewrite !get_tab by auto. ring.
Qed.
Lemma mtr_add n (A B : mat K n) : mtr (madd A B) = madd (mtr A) (mtr B).
Proof. entry. reflexivity. Qed.
Lemma mtr_tr n (A : mat K n) : mtr (mtr A) = A.
Proof. entry. reflexivity. Qed.
Lemma mtr_one n : mtr (@mone K n) = mone.
Proof. entry. rewrite (Nat.eqb_sym j i). reflexivity. Qed.

Ltac ventry := apply cext; intros i Hi; unfold vadd, vneg, app; rewrite ?at_tab by auto.
Lemma vadd_assoc n (u v w : cvec K n) : vadd u (vadd v w) = vadd (vadd u v) w.
Proof. ventry. ring. Qed.
Lemma vadd_neg_l n (u : cvec K n) : vadd (vneg u) u = vtab n (fun _ => k0).
Proof. ventry. ring. Qed.
Lemma app_mul n (A B : mat K n) v : app (mmul A B) v = app A (app B v).
Proof.
  ventry.
  rewrite (@ksum_ext K n _ (fun k => ksum n (fun l => get A i l * (get B l k * at_ v k)))).
  2:{ intros k Hk. unfold mmul. rewrite get_tab by auto. rewrite <- ksum_mul_r. apply ksum_ext. intros; ring. }
  rewrite ksum_swap. apply ksum_ext. intros l Hl. rewrite at_tab by auto. apply ksum_mul_l.
Qed.
Lemma app_add n (A : mat K n) u v : app A (vadd u v) = vadd (app A u) (app A v).
Proof.
  ventry. rewrite <- ksum_add. apply ksum_ext. intros k Hk. rewrite at_tab by auto. ring.
Qed.
Lemma app_neg n (A : mat K n) u : app A (vneg u) = vneg (app A u).
Proof.
  ventry. transitivity (ksub k0 k1 * ksum n (fun k => get A i k * at_ u k)); [|ring].
  rewrite <- ksum_mul_l. apply ksum_ext. intros k Hk. rewrite at_tab by auto. ring.
Qed.
Lemma app_one n (v : cvec K n) : app mone v = v.
Proof.
  ventry. rewrite <- (@ksum_delta_l n i (fun k => at_ v k)) by auto. apply ksum_ext. intros k Hk.
  unfold mone. rewrite get_tab by auto. reflexivity.
Qed.
Lemma app_zero n (A : mat K n) : app A (vtab n (fun _ => k0)) = vtab n (fun _ => k0).
Proof.
  ventry. transitivity (ksum n (fun _ => @k0 K)); [|apply ksum_0]. apply ksum_ext. intros k Hk. rewrite at_tab by auto. ring.
Qed.
Lemma vadd_zero_l n (v : cvec K n) : vadd (vtab n (fun _ => k0)) v = v.
Proof. ventry. ring. Qed.

(** ** The group laws *)
Lemma se2_assoc (a b c : se2 K) : se2_comp a (se2_comp b c) = se2_comp (se2_comp a b) c.
Proof. destruct a as [c1 s1 x1 y1], b as [c2 s2 x2 y2], c as [c3 s3 x3 y3]. unfold se2_comp; cbn [e_c e_s e_x e_y]. f_equal; ring. Qed.
Lemma se2_id_l (a : se2 K) : se2_comp se2_id a = a.
Proof. destruct a as [c s x y]. unfold se2_comp, se2_id; cbn [e_c e_s e_x e_y]. f_equal; ring. Qed.
Lemma se2_inv_l (a : se2 K) : e_c a * e_c a + e_s a * e_s a = k1 -> se2_comp (se2_inv a) a = se2_id.
Proof.
  destruct a as [c s x y]. unfold se2_comp, se2_inv, se2_id; cbn [e_c e_s e_x e_y]. intro H.
  f_equal; try ring. transitivity (c * c + s * s); [ring|exact H].
Qed.

Lemma se3_assoc (a b c : se3 K) : se3_comp a (se3_comp b c) = se3_comp (se3_comp a b) c.
Proof.
  destruct a as [Ra ta], b as [Rb tb], c as [Rc tc]. unfold se3_comp; cbn [e_R e_t]. f_equal; [apply mmul_assoc|].
  rewrite app_add, app_mul, vadd_assoc. reflexivity.
Qed.
Lemma se3_id_l (a : se3 K) : se3_comp se3_id a = a.
Proof.
  destruct a as [R t]. unfold se3_comp, se3_id; cbn [e_R e_t]. rewrite mmul_one_l, app_one, vadd_zero_l. reflexivity.
Qed.
Lemma se3_inv_l (a : se3 K) : mmul (mtr (e_R a)) (e_R a) = mone -> se3_comp (se3_inv a) a = se3_id.
Proof.
  destruct a as [R t]. unfold se3_comp, se3_inv, se3_id; cbn [e_R e_t]. intros ->.
  rewrite vadd_neg_l. reflexivity.
Qed.

(** ** Adjoint maps *)
Ltac idx3 i := destruct i as [|[|[|i]]]; [| | |lia].
Ltac calc := unfold mmul, mtr, mone, app, vadd, vneg; rewrite ?get_tab by lia;
  cbn [ksum get tab vtab vget fst snd at_ Nat.eqb se2_ad se2_comp se2_inv se2_id skew e_c e_s e_x e_y].

Lemma se2_ad_id : se2_ad (@se2_id K) = mone.
Proof. apply mext; intros i j Hi Hj. unfold mone. rewrite get_tab by auto. idx3 i; idx3 j; cbn; try ring. Qed.
Lemma se2_ad_comp (a b : se2 K) : se2_ad (se2_comp a b) = mmul (se2_ad a) (se2_ad b).
Proof.
  destruct a as [c1 s1 x1 y1], b as [c2 s2 x2 y2].
  apply mext; intros i j Hi Hj. unfold mmul. rewrite get_tab by auto. idx3 i; idx3 j; cbn; ring.
Qed.

(** Matrix of cofactors. *)
Definition cof (A : mat K 3) : mat K 3 :=
  let a := get A in
  ((a 1 1 * a 2 2 - a 1 2 * a 2 1, (a 1 2 * a 2 0 - a 1 0 * a 2 2, (a 1 0 * a 2 1 - a 1 1 * a 2 0, tt))),
   ((a 0 2 * a 2 1 - a 0 1 * a 2 2, (a 0 0 * a 2 2 - a 0 2 * a 2 0, (a 0 1 * a 2 0 - a 0 0 * a 2 1, tt))),
    ((a 0 1 * a 1 2 - a 0 2 * a 1 1, (a 0 2 * a 1 0 - a 0 0 * a 1 2, (a 0 0 * a 1 1 - a 0 1 * a 1 0, tt))), tt))).

Lemma cof_tr (A : mat K 3) : mmul (cof A) (mtr A) = tab 3 (fun i j => if i =? j then det3 A else k0).
Proof.
  apply mext; intros i j Hi Hj. unfold mmul, mtr. rewrite !get_tab by auto.
  destruct A as [[a [b [c []]]] [[d [e [f []]]] [[g [h [l []]]] []]]].
  idx3 i; idx3 j; cbn; unfold det3; cbn; ring.
Qed.

Lemma cof_rot (R : mat K 3) : mmul (mtr R) R = mone -> det3 R = k1 -> cof R = R.
Proof.
  intros H D. rewrite <- (mmul_one_r 3 (cof R)), <- H, mmul_assoc, cof_tr, D. apply mmul_one_l.
Qed.

Lemma skew_app (R : mat K 3) t : mmul (skew (app R t)) R = mmul (cof R) (skew t).
Proof.
  apply mext; intros i j Hi Hj. unfold mmul, app. rewrite !get_tab by auto.
  destruct R as [[a [b [c []]]] [[d [e [f []]]] [[g [h [l []]]] []]]], t as [u [v [w []]]].
  idx3 i; idx3 j; cbn; ring.
Qed.
Lemma skew_add (s t : cvec K 3) : skew (vadd s t) = madd (skew s) (skew t).
Proof.
  apply mext; intros i j Hi Hj. unfold madd, vadd. rewrite !get_tab by auto.
  destruct s as [a [b [c []]]], t as [u [v [w []]]]. idx3 i; idx3 j; cbn; ring.
Qed.
Lemma skew_zero : skew (vtab 3 (fun _ => @k0 K)) = mzero.
Proof. apply mext; intros i j Hi Hj. unfold mzero. rewrite !get_tab by auto. idx3 i; idx3 j; cbn; ring. Qed.

Lemma ksum_split n m : forall f : nat -> K, ksum (Nat.add n m) f = ksum n f + ksum m (fun i => f (Nat.add n i)).
Proof.
  induction n as [|n IH]; intro f; cbn [Nat.add ksum]; [transitivity (k0 + ksum m f); [ring|reflexivity]|]. rewrite IH. ring.
Qed.

(** A matrix of four 3 by 3 blocks with a zero block at the upper right. *)
Definition lowblk (A B D : mat K 3) : mat K 6 :=
  tab 6 (fun i j => if i <? 3 then (if j <? 3 then get A i j else k0)
    else if j <? 3 then get B (Nat.sub i 3) j else get D (Nat.sub i 3) (Nat.sub j 3)).
Lemma lowblk_mul A B D A' B' D' : mmul (lowblk A B D) (lowblk A' B' D') = lowblk (mmul A A') (madd (mmul B A') (mmul D B')) (mmul D D').
Proof.
  apply mext; intros i j Hi Hj. unfold mmul at 1. rewrite get_tab by auto.
  rewrite (ksum_split 3 3).
  rewrite (@ksum_ext K 3 _ (fun k => (if i <? 3 then get A i k else get B (Nat.sub i 3) k) * (if j <? 3 then get A' k j else k0))).
  2:{ intros k Hk. unfold lowblk. rewrite !get_tab by lia. replace (k <? 3) with true by (symmetry; apply Nat.ltb_lt; lia).
      destruct (i <? 3), (j <? 3); reflexivity. }
  rewrite (@ksum_ext K 3 (fun k => get (lowblk A B D) i (Nat.add 3 k) * _)
    (fun k => (if i <? 3 then k0 else get D (Nat.sub i 3) k) * (if j <? 3 then get B' k j else get D' k (Nat.sub j 3)))).
  2:{ intros k Hk. unfold lowblk. rewrite !get_tab by lia. replace (Nat.add 3 k <? 3) with false by (symmetry; apply Nat.ltb_ge; lia).
      replace (Nat.sub (Nat.add 3 k) 3) with k by lia. destruct (i <? 3), (j <? 3); reflexivity. }
  unfold lowblk. rewrite !get_tab by auto. unfold madd, mmul.
  destruct (Nat.ltb_spec i 3), (Nat.ltb_spec j 3); rewrite ?get_tab by lia.
  - rewrite (ksum_mul_l 3 k0). ring.
  - rewrite (ksum_mul_r 3 k0), (ksum_mul_l 3 k0). ring.
  - reflexivity.
  - rewrite (ksum_mul_r 3 k0). ring.
Qed.
Lemma se3_ad_blocks (a : se3 K) : se3_ad a = lowblk (e_R a) (mmul (skew (e_t a)) (e_R a)) (e_R a).
Proof. reflexivity. Qed.

Lemma se3_ad_id : se3_ad (@se3_id K) = mone.
Proof.
  rewrite se3_ad_blocks. unfold se3_id; cbn [e_R e_t]. rewrite skew_zero, mmul_zero_l.
  apply mext; intros i j Hi Hj. unfold lowblk, mone, mzero. rewrite !get_tab by auto.
  destruct (Nat.ltb_spec i 3), (Nat.ltb_spec j 3); rewrite ?get_tab by lia; auto.
  - replace (i =? j) with false by (symmetry; apply Nat.eqb_neq; lia). auto.
  - replace (i =? j) with false by (symmetry; apply Nat.eqb_neq; lia). auto.
  - replace (Nat.sub i 3 =? Nat.sub j 3) with (i =? j); auto.
    destruct (Nat.eqb_spec i j), (Nat.eqb_spec (Nat.sub i 3) (Nat.sub j 3)); auto; lia.
Qed.
Lemma se3_ad_comp (a b : se3 K) : cof (e_R a) = e_R a -> se3_ad (se3_comp a b) = mmul (se3_ad a) (se3_ad b).
Proof.
  intro H. rewrite !se3_ad_blocks, lowblk_mul. destruct a as [Ra ta], b as [Rb tb].
  unfold se3_comp; cbn [e_R e_t] in *. f_equal.
  rewrite skew_add, mmul_add_l. f_equal; [rewrite mmul_assoc; reflexivity|].
  rewrite !mmul_assoc, skew_app, H. reflexivity.
Qed.

(** ** Transport of matrices *)
Definition transport {n} (A S : mat K n) : mat K n := mmul (mmul A S) (mtr A).
Lemma transport_one n (S : mat K n) : transport mone S = S.
Proof. unfold transport. rewrite mtr_one, mmul_one_r, mmul_one_l. reflexivity. Qed.
Lemma transport_mul n (A B S : mat K n) : transport (mmul A B) S = transport A (transport B S).
Proof. unfold transport. rewrite mtr_mul, !mmul_assoc. reflexivity. Qed.
Lemma transport_add n (A S T : mat K n) : transport A (madd S T) = madd (transport A S) (transport A T).
Proof. unfold transport. rewrite mmul_add_r, mmul_add_l. reflexivity. Qed.
Lemma transport_zero n (A : mat K n) : transport A mzero = mzero.
Proof. unfold transport. rewrite mmul_zero_r, mmul_zero_l. reflexivity. Qed.
End Ring.
Arguments transport {K n}. Arguments cof {K}.
