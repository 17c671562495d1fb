(** * First-order errors of products and inverses, and their covariances *)
From Coq Require Import ZArith QArith Qcanon Ring Bool List Lia.
From Verif Require Import Prelude Num Keys KMap Geometry Lie LieProofs LiePoses LieSpec LieCov LiePd.
Set Implicit Arguments.
Local Open Scope nat_scope.

(** ** Matrices of dual numbers *)
Definition dm {n} (A B : mat qs n) : mat dual n := @tab dual n (fun i j => (get A i j, get B i j)).
Definition dv {n} (u v : cvec qs n) : cvec dual n := (vtab n (fun i => (at_ u i, at_ v i)) : cvec dual n).

Lemma pair_sum n : forall f g : nat -> Qc, @ksum dual n (fun i => (f i, g i)) = (@ksum qs n f, @ksum qs n g).
Proof. induction n as [|n IH]; intros f g; cbn [ksum]; [reflexivity|]. rewrite (IH (fun i => f (S i)) (fun i => g (S i))). reflexivity. Qed.
Lemma dm_mul n (A B C D : mat qs n) : mmul (dm A B) (dm C D) = dm (mmul A C) (madd (mmul A D) (mmul B C)).
Proof.
  apply mext. intros i j Hi Hj. unfold mmul at 1. unfold dm at 3. rewrite !get_tab by auto.
  rewrite (@ksum_ext dual n _ (fun k => ((get A i k * get C k j)%Qc, (get A i k * get D k j + get B i k * get C k j)%Qc))).
  2:{ intros k Hk. unfold dm. rewrite !get_tab by auto. reflexivity. }
  rewrite pair_sum. unfold madd, mmul. rewrite !get_tab by auto. f_equal.
  exact (ksum_add qs_ring n (fun k => get A i k * get D k j)%Qc (fun k => get B i k * get C k j)%Qc).
Qed.
Lemma dm_tr n (A B : mat qs n) : mtr (dm A B) = dm (mtr A) (mtr B).
Proof. apply mext. intros i j Hi Hj. unfold mtr, dm. rewrite !get_tab by auto. reflexivity. Qed.
Lemma dm_app n (A B : mat qs n) u v : app (dm A B) (dv u v) = dv (app A u) (vadd (app A v) (app B u)).
Proof.
  apply cext. intros i Hi. unfold app at 1. unfold dv at 2. rewrite !at_tab by auto.
  rewrite (@ksum_ext dual n _ (fun k => ((get A i k * at_ u k)%Qc, (get A i k * at_ v k + get B i k * at_ u k)%Qc))).
  2:{ intros k Hk. unfold dm, dv. rewrite get_tab, at_tab by auto. reflexivity. }
  rewrite pair_sum. unfold vadd, app. rewrite !at_tab by auto. f_equal.
  exact (ksum_add qs_ring n (fun k => get A i k * at_ v k)%Qc (fun k => get B i k * at_ u k)%Qc).
Qed.
Lemma dv_add n (u v u' v' : cvec qs n) : vadd (dv u v) (dv u' v') = dv (vadd u u') (vadd v v').
Proof. apply cext. intros i Hi. unfold vadd, dv. rewrite !at_tab by auto. reflexivity. Qed.
Lemma dv_neg n (u v : cvec qs n) : vneg (dv u v) = dv (vneg u) (vneg v).
Proof. apply cext. intros i Hi. unfold vneg, dv. rewrite !at_tab by auto. reflexivity. Qed.
Lemma dm_inj n (A B C D : mat qs n) : dm A B = dm C D -> A = C /\ B = D.
Proof.
  intro H. split; apply mext; intros i j Hi Hj; assert (E : get (dm A B) i j = get (dm C D) i j) by (rewrite H; reflexivity);
    unfold dm in E; rewrite !get_tab in E by auto; congruence.
Qed.
Lemma dv_inj n (u v u' v' : cvec qs n) : dv u v = dv u' v' -> u = u' /\ v = v'.
Proof.
  intro H. split; apply cext; intros i Hi; assert (E : at_ (dv u v) i = at_ (dv u' v') i) by (rewrite H; reflexivity);
    unfold dv in E; rewrite !at_tab in E by auto; congruence.
Qed.

(** ** [Pose3] *)
Definition om (e : cvec qs 6) : cvec qs 3 := (vtab 3 (fun i => at_ e i) : cvec qs 3).
Definition ve (e : cvec qs 6) : cvec qs 3 := (vtab 3 (fun i => at_ e (3 + i)) : cvec qs 3).
Lemma om_ve (e f : cvec qs 6) : om e = om f -> ve e = ve f -> e = f.
Proof.
  intros H1 H2. apply cext. intros i Hi. destruct (le_lt_dec 3 i) as [G|G].
  - assert (E : at_ (ve e) (i - 3) = at_ (ve f) (i - 3)) by (rewrite H2; reflexivity).
    unfold ve in E. rewrite !at_tab in E by lia. replace (3 + (i - 3)) with i in E by lia. exact E.
  - assert (E : at_ (om e) i = at_ (om f) i) by (rewrite H1; reflexivity).
    unfold om in E. rewrite !at_tab in E by lia. exact E.
Qed.

Lemma sharp3_dm (p : se3 qs) : sharp3 p = SE3 (dm (e_R p) mzero) (dv (e_t p) (vtab 3 (fun _ => k0))).
Proof.
  unfold sharp3. f_equal.
Qed.
Lemma small3_dm (e : cvec qs 6) : small3 e = SE3 (dm mone (skew (om e))) (dv (vtab 3 (fun _ => k0)) (ve e)).
Proof.
  unfold small3. f_equal.
  apply (@mext dual 3). intros i j Hi Hj. unfold dm, mone. rewrite !get_tab by auto.
  destruct i as [|[|[|i]]]; [| | |lia]; (destruct j as [|[|[|j]]]; [| | |lia]); cbn; unfold eps, Qcminus; rewrite ?Qcplus_0_l; reflexivity.
Qed.
Lemma off3_dm p (e : cvec qs 6) : off3 p e = SE3 (dm (e_R p) (mmul (e_R p) (skew (om e)))) (dv (e_t p) (app (e_R p) (ve e))).
Proof.
  unfold off3. rewrite sharp3_dm, small3_dm. unfold se3_comp; cbn [e_R e_t]. rewrite dm_mul, dm_app, dv_add. f_equal; f_equal.
  - apply (mmul_one_r qs_ring).
  - rewrite (mmul_zero_l qs_ring). rewrite (madd_comm qs_ring). apply (madd_zero_l qs_ring).
  - rewrite (app_zero qs_ring). apply cext. intros i Hi. unfold vadd. rewrite !at_tab by auto. cbn [kadd qs k0 k_t]. apply Qcplus_0_r.
  - rewrite (app_zero qs_ring), (vadd_zero_l qs_ring). apply cext. intros i Hi. unfold vadd. rewrite !at_tab by auto. cbn [kadd qs k0 k_t]. apply Qcplus_0_r.
Qed.

Lemma skew_inj (u v : cvec qs 3) : skew u = skew v -> u = v.
Proof.
  intro H. destruct u as [a [b [c []]]], v as [a' [b' [c' []]]]. cbv [skew at_ vget fst snd] in H.
  injection H as H1 H2 H3 H4 H5 H6. subst. reflexivity.
Qed.
Lemma off3_inj p e f : rotation (e_R p) -> off3 p e = off3 p f -> e = f.
Proof.
  intros (R1 & R2 & _) H. rewrite !off3_dm in H.
  pose proof (f_equal (@e_R dual) H) as H1. pose proof (f_equal (@e_t dual) H) as H2. cbn [e_R e_t] in H1, H2. clear H. apply dm_inj in H1. apply dv_inj in H2.
  destruct H1 as [_ H1], H2 as [_ H2]. apply om_ve.
  - apply skew_inj. rewrite <- (mmul_one_l qs_ring 3 (skew (om e))), <- (mmul_one_l qs_ring 3 (skew (om f))), <- R2.
    rewrite <- !(mmul_assoc qs_ring), H1. reflexivity.
  - rewrite <- (app_one qs_ring 3 (ve e)), <- (app_one qs_ring 3 (ve f)), <- R2. rewrite !(app_mul qs_ring), H2. reflexivity.
Qed.

Lemma om_app A B D (e : cvec qs 6) : om (app (lowblk A B D) e) = app A (om e).
Proof.
  apply cext. intros i Hi. unfold om, app. rewrite !at_tab by lia. rewrite (ksum_split qs_ring 3 3).
  rewrite (@ksum_ext qs 3 (fun i0 => kmul (get (lowblk A B D) i (3 + i0)) _) (fun _ => k0)).
  - rewrite (ksum_0 qs_ring). transitivity (@ksum qs 3 (fun k => kmul (get (lowblk A B D) i k) (at_ e k))).
    + cbn [kadd qs k0 k_t]. apply Qcplus_0_r.
    + apply ksum_ext. intros k Hk. unfold lowblk. rewrite get_tab by lia.
      replace (i <? 3) with true by (symmetry; apply Nat.ltb_lt; lia). replace (k <? 3) with true by (symmetry; apply Nat.ltb_lt; lia).
      rewrite at_tab by auto. reflexivity.
  - intros k Hk. unfold lowblk. rewrite get_tab by lia. replace (i <? 3) with true by (symmetry; apply Nat.ltb_lt; lia).
    replace (3 + k <? 3) with false by (symmetry; apply Nat.ltb_ge; lia). cbn [kmul qs k0 k_t]. apply Qcmult_0_l.
Qed.
Lemma ve_app A B D (e : cvec qs 6) : ve (app (lowblk A B D) e) = vadd (app B (om e)) (app D (ve e)).
Proof.
  apply cext. intros i Hi. unfold ve at 1. unfold app at 1. unfold vadd. rewrite !at_tab by lia. rewrite (ksum_split qs_ring 3 3).
  f_equal; unfold app; rewrite at_tab by auto; apply ksum_ext; intros k Hk; unfold lowblk, om, ve; rewrite get_tab, at_tab by lia.
  - replace (3 + i <? 3) with false by (symmetry; apply Nat.ltb_ge; lia). replace (k <? 3) with true by (symmetry; apply Nat.ltb_lt; lia).
    replace (3 + i - 3) with i by lia. reflexivity.
  - replace (3 + i <? 3) with false by (symmetry; apply Nat.ltb_ge; lia). replace (3 + k <? 3) with false by (symmetry; apply Nat.ltb_ge; lia).
    replace (3 + i - 3) with i by lia. replace (3 + k - 3) with k by lia. reflexivity.
Qed.
Lemma om_add (e f : cvec qs 6) : om (vadd e f) = vadd (om e) (om f).
Proof. apply cext. intros i Hi. unfold om, vadd. rewrite !at_tab by lia. reflexivity. Qed.
Lemma ve_add (e f : cvec qs 6) : ve (vadd e f) = vadd (ve e) (ve f).
Proof. apply cext. intros i Hi. unfold ve, vadd. rewrite !at_tab by lia. reflexivity. Qed.
Lemma om_neg (e : cvec qs 6) : om (vneg e) = vneg (om e).
Proof. apply cext. intros i Hi. unfold om, vneg. rewrite !at_tab by lia. reflexivity. Qed.
Lemma ve_neg (e : cvec qs 6) : ve (vneg e) = vneg (ve e).
Proof. apply cext. intros i Hi. unfold ve, vneg. rewrite !at_tab by lia. reflexivity. Qed.

Lemma skew_swap (w t : cvec qs 3) : app (skew w) t = vneg (app (skew t) w).
Proof.
  apply cext. intros i Hi. destruct w as [a [b [c []]]], t as [u [v [x []]]].
  destruct i as [|[|[|i]]]; [| | |lia];
    cbv [app vneg skew at_ get vget vtab ksum fst snd kadd kmul ksub qs k_t k0]; ring.
Qed.
Lemma skew_rot (R : mat qs 3) w : rotation R -> mmul (skew w) R = mmul R (skew (app (mtr R) w)).
Proof.
  intros (R1 & R2 & R3). rewrite <- (cof_rot qs_ring R2 R3) at 2. rewrite <- (skew_app qs_ring), <- (app_mul qs_ring), R1, (app_one qs_ring).
  reflexivity.
Qed.

(** The error of a product. *)
Theorem off3_comp a b e f : rotation (e_R b) ->
  se3_comp (off3 a e) (off3 b f) = off3 (se3_comp a b) (vadd (app (se3_ad (se3_inv b)) e) f).
Proof.
  intros Rb. rewrite !off3_dm. unfold se3_comp; cbn [e_R e_t]. rewrite dm_mul, dm_app, dv_add.
  rewrite se3_ad_blocks, om_add, ve_add, om_app, ve_app. unfold se3_inv; cbn [e_R e_t]. f_equal; f_equal.
  - rewrite (skew_add qs_ring), (mmul_add_r qs_ring), (madd_comm qs_ring). rewrite (mmul_assoc qs_ring). f_equal.
    rewrite <- !(mmul_assoc qs_ring), (skew_rot _ Rb). reflexivity.
  - destruct Rb as (B1 & B2 & B3). rewrite !(app_add qs_ring), !(app_mul qs_ring).
    rewrite <- (app_mul qs_ring 3 (e_R b) (mtr (e_R b)) (ve e)), B1, (app_one qs_ring).
    set (x := app (e_R a) (ve e)). set (z := app (e_R a) (app (e_R b) (ve f))).
    replace (app (e_R a) (app (e_R b) (app (skew (vneg (app (mtr (e_R b)) (e_t b)))) (app (mtr (e_R b)) (om e)))))
      with (app (e_R a) (app (skew (om e)) (e_t b))).
    + apply cext. intros i Hi. unfold vadd. rewrite !at_tab by auto. cbn [kadd qs k_t]. ring.
    + f_equal. rewrite (skew_swap (om e)).
      assert (SN : forall t : cvec qs 3, skew (vneg t) = msub mzero (skew t)).
      { intro t. apply mext. intros i j Hi Hj. unfold msub, mzero, vneg. rewrite !get_tab by auto. destruct t as [u [v [w []]]].
        destruct i as [|[|[|i]]]; [| | |lia]; (destruct j as [|[|[|j]]]; [| | |lia]); cbv [skew at_ get vget vtab fst snd ksub qs k_t k0]; ring. }
      rewrite <- !(app_mul qs_ring).
      assert (E : mmul (e_R b) (mmul (skew (vneg (app (mtr (e_R b)) (e_t b)))) (mtr (e_R b))) = msub mzero (skew (e_t b))).
      { assert (RT : rotation (mtr (e_R b))) by (apply rotation_tr; split; auto).
        rewrite <- SN. rewrite <- (app_neg qs_ring).
        assert (X := skew_rot (app (mtr (e_R b)) (vneg (e_t b))) RT). rewrite X, mtr_tr.
        rewrite (mmul_assoc qs_ring), B1, (mmul_one_l qs_ring), <- (app_mul qs_ring), B1, (app_one qs_ring). reflexivity. }
      rewrite (mmul_assoc qs_ring) in E. rewrite E. apply cext. intros i Hi. unfold app, vneg. rewrite !at_tab by auto.
      rewrite (@ksum_ext qs 3 (fun k => kmul (get (msub mzero (skew (e_t b))) i k) _) (fun k => ksub k0 (kmul (get (skew (e_t b)) i k) (at_ (om e) k)))).
      * rewrite (ksum_sub qs_ring 3 (fun _ => k0)). rewrite (ksum_0 qs_ring). reflexivity.
      * intros k Hk. unfold msub, mzero. rewrite !get_tab by auto. cbn [kmul ksub qs k0 k_t]. ring.
Qed.

(** ** Dual numbers are a ring; inverses *)
Lemma dual_ring : ring_theory (@k0 dual) k1 kadd kmul ksub (@kopp dual) eq.
Proof.
  constructor; cbn [k_t dual k0 k1 kadd kmul ksub]; unfold kopp; cbn [ksub dual k0]; intros;
    repeat match goal with x : (Qc * Qc)%type |- _ => destruct x as [? ?] end; cbn [fst snd]; f_equal; ring.
Qed.

Lemma off3_orth a e : rotation (e_R a) -> mmul (mtr (e_R (off3 a e))) (e_R (off3 a e)) = mone.
Proof.
  intros (R1 & R2 & R3). rewrite off3_dm. cbn [e_R]. rewrite dm_tr, dm_mul, R2.
  replace (madd (mmul (mtr (e_R a)) (mmul (e_R a) (skew (om e)))) (mmul (mtr (mmul (e_R a) (skew (om e)))) (e_R a))) with (@mzero qs 3).
  - apply mext. intros i j Hi Hj. unfold dm, mone, mzero. rewrite !get_tab by auto. destruct (i =? j); reflexivity.
  - rewrite (mmul_assoc qs_ring), R2, (mmul_one_l qs_ring), (mtr_mul qs_ring), <- (mmul_assoc qs_ring), R2, (mmul_one_r qs_ring).
    destruct (om e) as [u [v [w []]]]. apply mext. intros i j Hi Hj. unfold madd, mzero, mtr. rewrite !get_tab by auto.
    destruct i as [|[|[|i]]]; [| | |lia]; (destruct j as [|[|[|j]]]; [| | |lia]); cbv [skew at_ get vget vtab fst snd ksub kadd qs k_t k0]; ring.
Qed.
Lemma off3_zero : off3 se3_id (vtab 6 (fun _ => k0) : cvec qs 6) = se3_id.
Proof.
  rewrite off3_dm. unfold se3_id; cbn [e_R e_t]. f_equal.
Qed.

Theorem off3_inv a e : rotation (e_R a) ->
  se3_inv (off3 a e) = off3 (se3_inv a) (vneg (app (se3_ad a) e)).
Proof.
  intro Ra. set (x := off3 a e). set (y := off3 (se3_inv a) (vneg (app (se3_ad a) e))).
  assert (XY : se3_comp x y = se3_id).
  { unfold x, y. rewrite off3_comp by (apply rotation_tr; exact Ra). rewrite <- off3_zero. f_equal.
    - (* group *)
      destruct Ra as (R1 & R2 & R3). destruct a as [R t]. unfold se3_comp, se3_inv, se3_id; cbn [e_R e_t] in *. f_equal; [exact R1|].
      rewrite (app_neg qs_ring), <- (app_mul qs_ring), R1, (app_one qs_ring). apply cext. intros i Hi. unfold vadd, vneg. rewrite !at_tab by auto.
      cbn [kadd ksub k0 qs k_t]. ring.
    - assert (E : se3_inv (se3_inv a) = a).
      { destruct Ra as (R1 & R2 & R3). destruct a as [R t]. unfold se3_inv; cbn [e_R e_t] in *. rewrite mtr_tr. f_equal.
        rewrite (app_neg qs_ring), <- (app_mul qs_ring), R1, (app_one qs_ring). apply cext. intros i Hi. unfold vneg. rewrite !at_tab by auto.
        cbn [kadd ksub k0 qs k_t]. ring. }
      rewrite E. apply cext. intros i Hi. unfold vadd, vneg. rewrite !at_tab by auto. cbn [kadd ksub k0 qs k_t]. ring. }
  assert (IX : se3_comp (se3_inv x) x = se3_id) by (apply (se3_inv_l dual_ring); apply off3_orth; exact Ra).
  rewrite <- (se3_id_l dual_ring y), <- IX, <- (se3_assoc dual_ring), XY.
  unfold se3_comp, se3_id; cbn [e_R e_t]. destruct (se3_inv x) as [R t]; cbn [e_R e_t].
  rewrite (mmul_one_r dual_ring), (app_zero dual_ring). f_equal. apply cext. intros i Hi. unfold vadd. rewrite !at_tab by auto.
  cbn [kadd dual k0 k_t fst snd]. destruct (at_ t i) as [p q]. cbn. f_equal; symmetry; apply Qcplus_0_r.
Qed.

(** ** [Pose2] *)
Lemma pair_eq (a b c d : Qc) : a = c -> b = d -> (a, b) = (c, d).
Proof. intros -> ->. reflexivity. Qed.
Lemma off2_eq p (e : cvec qs 3) : off2 p e =
  SE2 ((e_c p, (- e_s p * at_ e 2)%Qc) : dual) ((e_s p, (e_c p * at_ e 2)%Qc) : dual)
      ((e_x p, (e_c p * at_ e 0%nat - e_s p * at_ e 1%nat)%Qc) : dual) ((e_y p, (e_s p * at_ e 0%nat + e_c p * at_ e 1%nat)%Qc) : dual).
Proof.
  destruct p as [c s x y]. unfold off2, sharp2, small2, se2_comp, real, eps; cbn [e_c e_s e_x e_y kadd kmul ksub dual k_t k1 fst snd].
  f_equal; apply pair_eq; ring.
Qed.
Theorem off2_comp a b e f : circle b ->
  se2_comp (off2 a e) (off2 b f) = off2 (se2_comp a b) (vadd (app (se2_ad (se2_inv b)) e) f).
Proof.
  intro H. rewrite !off2_eq. destruct a as [c1 s1 x1 y1], b as [c2 s2 x2 y2].
  destruct e as [e0 [e1 [e2 []]]], f as [f0 [f1 [f2 []]]]. unfold circle in H. cbn [e_c e_s] in H.
  cbv [se2_comp se2_inv se2_ad vadd app at_ vget vtab get ksum e_c e_s e_x e_y kadd kmul ksub dual qs k_t k0 k1 fst snd].
  f_equal; apply pair_eq.
  - ring.
  - ring.
  - ring.
  - ring.
  - ring.
  - transitivity ((c1 * e0 - s1 * e1 - s1 * e2 * x2 - c1 * e2 * y2) * (c2 * c2 + s2 * s2)
      + ((c1 * c2 - s1 * s2) * f0 - (s1 * c2 + c1 * s2) * f1))%Qc; [rewrite H; ring|ring].
  - ring.
  - transitivity ((s1 * e0 + c1 * e1 + c1 * e2 * x2 - s1 * e2 * y2) * (c2 * c2 + s2 * s2)
      + ((s1 * c2 + c1 * s2) * f0 + (c1 * c2 - s1 * s2) * f1))%Qc; [rewrite H; ring|ring].
Qed.

Lemma off2_inj p e f : circle p -> off2 p e = off2 p f -> e = f.
Proof.
  intros H E. rewrite !off2_eq in E. destruct p as [c s x y]. unfold circle in H. cbn [e_c e_s e_x e_y] in *.
  destruct e as [e0 [e1 [e2 []]]], f as [f0 [f1 [f2 []]]]. cbv [at_ vget fst snd] in E.
  pose proof (f_equal (fun q : se2 dual => snd (@e_c dual q : Qc * Qc)) E) as E1. pose proof (f_equal (fun q : se2 dual => snd (@e_s dual q : Qc * Qc)) E) as E2.
  pose proof (f_equal (fun q : se2 dual => snd (@e_x dual q : Qc * Qc)) E) as E3. pose proof (f_equal (fun q : se2 dual => snd (@e_y dual q : Qc * Qc)) E) as E4.
  cbn [k_t qs e_c e_s e_x e_y snd] in *.
  assert (X0 : e0 = f0).
  { change (@eq Qc e0 f0). transitivity (c * (c * e0 - s * e1) + s * (s * e0 + c * e1))%Qc; [transitivity ((c * c + s * s) * e0)%Qc; [rewrite H; ring|ring]|].
    rewrite E3, E4. transitivity ((c * c + s * s) * f0)%Qc; [ring|rewrite H; ring]. }
  assert (X1 : e1 = f1).
  { change (@eq Qc e1 f1). transitivity (c * (s * e0 + c * e1) - s * (c * e0 - s * e1))%Qc; [transitivity ((c * c + s * s) * e1)%Qc; [rewrite H; ring|ring]|].
    rewrite E3, E4. transitivity ((c * c + s * s) * f1)%Qc; [ring|rewrite H; ring]. }
  assert (X2 : e2 = f2).
  { change (@eq Qc e2 f2). transitivity (c * (c * e2) - s * (- s * e2))%Qc; [transitivity ((c * c + s * s) * e2)%Qc; [rewrite H; ring|ring]|].
    rewrite E1, E2. transitivity ((c * c + s * s) * f2)%Qc; [ring|rewrite H; ring]. }
  subst. reflexivity.
Qed.
Theorem off2_inv a e : circle a -> se2_inv (off2 a e) = off2 (se2_inv a) (vneg (app (se2_ad a) e)).
Proof.
  intro H. rewrite !off2_eq. destruct a as [c s x y]. destruct e as [e0 [e1 [e2 []]]]. unfold circle in H. cbn [e_c e_s] in H.
  cbv [se2_inv se2_ad vneg app at_ vget vtab get ksum e_c e_s e_x e_y kadd kmul ksub dual qs k_t k0 k1 fst snd].
  f_equal; apply pair_eq; try ring.
  reflexivity.
Qed.

(** ** Moments *)
Section Moments.
Local Open Scope Qc_scope.
Lemma mean_ext A (f g : A -> Qc) d : (forall a, f a = g a) -> mean f d = mean g d.
Proof. intro H. induction d as [|[w a] d IH]; cbn [mean fold_right fst snd]; [reflexivity|]. fold (mean f d) (mean g d). rewrite H, IH. reflexivity. Qed.
Lemma mean_cons A (f : A -> Qc) w a d : mean f ((w, a) :: d) = w * f a + mean f d.
Proof. reflexivity. Qed.
Lemma mean_app A (f : A -> Qc) d d' : mean f (d ++ d') = mean f d + mean f d'.
Proof. induction d as [|[w a] d IH]; cbn [List.app]; [unfold mean at 2; cbn [fold_right]; ring|]. rewrite !mean_cons, IH. ring. Qed.
Lemma mean_add A (f g : A -> Qc) d : mean (fun a => f a + g a) d = mean f d + mean g d.
Proof. induction d as [|[w a] d IH]; [unfold mean; cbn [fold_right]; ring|]. rewrite !mean_cons, IH. ring. Qed.
Lemma mean_scale A (f : A -> Qc) c d : mean (fun a => c * f a) d = c * mean f d.
Proof. induction d as [|[w a] d IH]; [unfold mean; cbn [fold_right]; ring|]. rewrite !mean_cons, IH. ring. Qed.
Lemma mean_zero A (d : dist A) : mean (fun _ => Q2Qc 0) d = Q2Qc 0.
Proof. induction d as [|[w a] d IH]; [reflexivity|]. rewrite mean_cons, IH. ring. Qed.
Lemma mean_qsum A n : forall (f : nat -> A -> Qc) d, mean (fun a => qsum n (fun i => f i a)) d = qsum n (fun i => mean (f i) d).
Proof.
  induction n as [|n IH]; intros f d; [exact (mean_zero d)|].
  rewrite qsum_S. rewrite <- (IH (fun i => f (S i))), <- mean_add. apply mean_ext. intro a. apply qsum_S.
Qed.
Lemma mean_image A B (f : B -> Qc) (g : A -> B) d : mean f (image g d) = mean (fun a => f (g a)) d.
Proof. induction d as [|[w a] d IH]; [reflexivity|]. cbn [image map fst snd]. rewrite !mean_cons. fold (image g d). rewrite IH. reflexivity. Qed.
Lemma mean_pairs A B (f : A -> Qc) (g : B -> Qc) w a (d : dist B) :
  mean (fun p => f (fst p) * g (snd p)) (map (fun vb => (w * fst vb, (a, snd vb))) d) = w * f a * mean g d.
Proof. induction d as [|[v b] d IH]; [unfold mean; cbn [map fold_right]; ring|]. cbn [map fst snd]. rewrite !mean_cons, IH. cbn [fst snd]. ring. Qed.
Lemma mean_independent A B (f : A -> Qc) (g : B -> Qc) (d : dist A) (d' : dist B) :
  mean (fun p => f (fst p) * g (snd p)) (independent d d') = mean f d * mean g d'.
Proof.
  induction d as [|[w a] d IH]; [unfold mean at 1 2; cbn [independent flat_map fold_right]; ring|].
  unfold independent. cbn [flat_map fst snd]. rewrite mean_app, mean_pairs, mean_cons. fold (independent d d'). rewrite IH. ring.
Qed.
End Moments.

Definition moments {n} (d : dist (cvec qs n)) : mat qs n := @tab qs n (fun i j => mean (fun e => coord e i * coord e j)%Qc d).
Lemma covers_iff n (c : mat xs n) d : covers c d <-> c = lift (moments d).
Proof.
  split.
  - intro H. apply (@mext xs n). intros i j Hi Hj. rewrite H by auto. unfold lift, moments. rewrite !get_tab by auto. reflexivity.
  - intros -> i j Hi Hj. unfold lift, moments. rewrite !get_tab by auto. reflexivity.
Qed.

Section Propagation.
Variable n : nat.
Variable A : mat qs n.
Local Open Scope Qc_scope.
Lemma coord_app (e : cvec qs n) i : (i < n)%nat -> coord (app A e) i = qsum n (fun k => get A i k * coord e k).
Proof. intro H. unfold coord, app. rewrite at_tab by auto. reflexivity. Qed.
Lemma coord_add (e f : cvec qs n) i : (i < n)%nat -> coord (vadd e f) i = coord e i + coord f i.
Proof. intro H. unfold coord, vadd. rewrite at_tab by auto. reflexivity. Qed.
Lemma coord_neg (e : cvec qs n) i : (i < n)%nat -> coord (vneg e) i = - coord e i.
Proof. intro H. unfold coord, vneg. rewrite at_tab by auto. cbn [ksub k0 qs]. ring. Qed.
Lemma get_transport (M : mat qs n) i j : (i < n)%nat -> (j < n)%nat ->
  get (transport A M) i j = qsum n (fun k => qsum n (fun l => get A i k * get A j l * get M k l)).
Proof.
  intros Hi Hj. unfold transport. unfold mmul at 1. rewrite get_tab by auto.
  transitivity (qsum n (fun l => qsum n (fun k => get A i k * get A j l * get M k l))); [|apply qsum_swap].
  apply qsum_ext. intros l Hl. unfold mmul, mtr. rewrite !get_tab by auto. cbn [kmul qs].
  change (@ksum qs n (fun k => get A i k * get M k l)) with (qsum n (fun k => get A i k * get M k l)).
  rewrite <- qsum_mul_r. apply qsum_ext. intros k Hk. ring.
Qed.
Lemma mean_app_coord d i : centred d -> (i < n)%nat -> mean (fun e : cvec qs n => coord (app A e) i) d = Q2Qc 0.
Proof.
  intros [_ H] Hi. rewrite (mean_ext _ (fun e => qsum n (fun k => get A i k * coord e k))) by (intro; apply coord_app; auto).
  rewrite (mean_qsum n (fun k e => get A i k * coord e k)).
  transitivity (qsum n (fun _ => Q2Qc 0)); [|apply qsum_0]. apply qsum_ext. intros k Hk.
  rewrite mean_scale, H by auto. ring.
Qed.
Lemma moments_app (d : dist (cvec qs n)) i j : (i < n)%nat -> (j < n)%nat ->
  mean (fun e => coord (app A e) i * coord (app A e) j) d = get (transport A (moments d)) i j.
Proof.
  intros Hi Hj. rewrite get_transport by auto.
  rewrite (mean_ext _ (fun e => qsum n (fun k => qsum n (fun l => get A i k * get A j l * (coord e k * coord e l))))).
  2:{ intro e. rewrite !coord_app by auto. rewrite <- qsum_mul_r. apply qsum_ext. intros k Hk. rewrite <- qsum_mul_l. apply qsum_ext. intros l Hl. ring. }
  rewrite (mean_qsum n (fun k e => qsum n (fun l => get A i k * get A j l * (coord e k * coord e l)))). apply qsum_ext. intros k Hk.
  rewrite (mean_qsum n (fun l e => get A i k * get A j l * (coord e k * coord e l))). apply qsum_ext. intros l Hl.
  rewrite mean_scale. unfold moments. rewrite get_tab by auto. reflexivity.
Qed.
Lemma moments_sum (d d' : dist (cvec qs n)) : centred d -> centred d' ->
  moments (image (fun p => vadd (app A (fst p)) (snd p)) (independent d d')) = madd (transport A (moments d)) (moments d').
Proof.
  intros Hd Hd'. apply mext. intros i j Hi Hj. unfold moments at 1, madd. rewrite !get_tab by auto. rewrite mean_image.
  rewrite (mean_ext _ (fun p : cvec qs n * cvec qs n =>
     ((fun e => coord (app A e) i * coord (app A e) j) (fst p) * (fun _ => Q2Qc 1) (snd p)
      + (fun e => coord (app A e) i) (fst p) * (fun f => coord f j) (snd p))
     + ((fun e => coord (app A e) j) (fst p) * (fun f => coord f i) (snd p)
        + (fun _ => Q2Qc 1) (fst p) * (fun f => coord f i * coord f j) (snd p)))).
  2:{ intros [e f]. cbn [fst snd]. rewrite !coord_add by auto. ring. }
  rewrite !mean_add.
  rewrite (mean_independent (fun e : cvec qs n => coord (app A e) i * coord (app A e) j) (fun _ : cvec qs n => Q2Qc 1) d d').
  rewrite (mean_independent (fun e : cvec qs n => coord (app A e) i) (fun f : cvec qs n => coord f j) d d').
  rewrite (mean_independent (fun e : cvec qs n => coord (app A e) j) (fun f : cvec qs n => coord f i) d d').
  rewrite (mean_independent (fun _ : cvec qs n => Q2Qc 1) (fun f : cvec qs n => coord f i * coord f j) d d').
  rewrite moments_app, !mean_app_coord by auto.
  destruct Hd as [H1 _], Hd' as [H1' _]. rewrite H1, H1'. unfold moments. rewrite !get_tab by auto. cbn [kadd qs].
  match goal with |- ?a = ?b => change (@eq Qc a b) end. ring.
Qed.
Lemma moments_neg (d : dist (cvec qs n)) : moments (image (fun e => vneg (app A e)) d) = transport A (moments d).
Proof.
  apply mext. intros i j Hi Hj. rewrite <- moments_app by auto. unfold moments. rewrite !get_tab by auto. rewrite mean_image.
  apply mean_ext. intro e. rewrite !coord_neg by auto. ring.
Qed.
Lemma centred_sum (d d' : dist (cvec qs n)) : centred d -> centred d' ->
  centred (image (fun p => vadd (app A (fst p)) (snd p)) (independent d d')).
Proof.
  intros Hd Hd'. pose proof (fun i => @mean_app_coord d i Hd) as Z. destruct Hd as [H1 H0], Hd' as [H1' H0']. split.
  - rewrite mean_image. rewrite (mean_ext _ (fun p : cvec qs n * cvec qs n => (fun _ => Q2Qc 1) (fst p) * (fun _ => Q2Qc 1) (snd p))) by (intro; ring).
    rewrite (mean_independent (fun _ : cvec qs n => Q2Qc 1) (fun _ : cvec qs n => Q2Qc 1) d d'), H1, H1'. ring.
  - intros i Hi. rewrite mean_image. rewrite (mean_ext _ (fun p : cvec qs n * cvec qs n =>
     (fun e => coord (app A e) i) (fst p) * (fun _ => Q2Qc 1) (snd p) + (fun _ => Q2Qc 1) (fst p) * (fun f => coord f i) (snd p))).
    2:{ intros [e f]. cbn [fst snd]. rewrite coord_add by auto. ring. }
    rewrite mean_add.
    rewrite (mean_independent (fun e : cvec qs n => coord (app A e) i) (fun _ : cvec qs n => Q2Qc 1) d d').
    rewrite (mean_independent (fun _ : cvec qs n => Q2Qc 1) (fun f : cvec qs n => coord f i) d d').
    rewrite Z, H0', H1, H1' by auto. ring.
Qed.
End Propagation.

(** ** Random poses *)
Lemma image_image A B C (f : B -> C) (g : A -> B) d : image f (image g d) = image (fun a => f (g a)) d.
Proof. unfold image. rewrite map_map. reflexivity. Qed.
Lemma image_ext A B (f g : A -> B) d : (forall a, f a = g a) -> image f d = image g d.
Proof. intro H. unfold image. apply map_ext. intro a. rewrite H. reflexivity. Qed.
Lemma independent_image A B A' B' (f : A -> A') (g : B -> B') d d' :
  independent (image f d) (image g d') = image (fun p => (f (fst p), g (snd p))) (independent d d').
Proof.
  induction d as [|[w a] d IH]; [reflexivity|]. unfold independent in *. cbn [image map flat_map fst snd].
  fold (image f d). rewrite IH. unfold image. rewrite map_app, !map_map. reflexivity.
Qed.
Lemma both_image A B C A' B' (op : A' -> B' -> C) (f : A -> A') (g : B -> B') d d' :
  both op (image f d) (image g d') = image (fun p => op (f (fst p)) (g (snd p))) (independent d d').
Proof. unfold both. rewrite independent_image, image_image. reflexivity. Qed.
Lemma centred_neg n (A : mat qs n) d : centred d -> centred (image (fun e => vneg (app A e)) d).
Proof.
  intros [H1 H0]. split.
  - rewrite mean_image. exact H1.
  - intros i Hi. rewrite mean_image. rewrite (mean_ext _ (fun e : cvec qs n => (- Q2Qc 1 * coord (app A e) i)%Qc)).
    2:{ intro e. rewrite coord_neg by auto. ring. }
    rewrite mean_scale, mean_app_coord by (auto; split; auto). ring.
Qed.

Lemma covers_sum n (A : mat qs n) c c' (d d' : dist (cvec qs n)) : centred d -> centred d' -> covers c d -> covers c' d' ->
  covers (madd (mmul (mmul (lift A) c) (mtr (lift A))) c') (image (fun p => vadd (app A (fst p)) (snd p)) (independent d d')).
Proof.
  intros Hd Hd' C C'. apply covers_iff in C, C'. apply covers_iff. rewrite moments_sum by auto. subst c c'.
  unfold transport. rewrite lift_tr, !lift_mul, lift_add. reflexivity.
Qed.
Lemma covers_neg n (A : mat qs n) c (d : dist (cvec qs n)) : covers c d ->
  covers (mmul (mmul (lift A) c) (mtr (lift A))) (image (fun e => vneg (app A e)) d).
Proof. intro C. apply covers_iff in C. apply covers_iff. rewrite moments_neg. subst c. unfold transport. rewrite lift_tr, !lift_mul. reflexivity. Qed.

(** [m]'s matrix is the covariance of the random pose [D]. *)
Definition fits2 N (m : pcov (geom2 N)) (D : dist (se2 dual)) : Prop := random2 (proj1_sig (pc_pose m)) (pc_cov m) D.
Lemma random2_comp N (a b : pcov (geom2 N)) D D' : fits2 a D -> fits2 b D' -> fits2 (pc_comp a b) (both se2_comp D D').
Proof.
  intros (d & Hd & Cd & ->) (d' & Hd' & Cd' & ->).
  exists (image (fun p => vadd (app (se2_ad (se2_inv (proj1_sig (pc_pose b)))) (fst p)) (snd p)) (independent d d')).
  split; [apply centred_sum; auto|]. split.
  - exact (@covers_sum 3 (se2_ad (se2_inv (proj1_sig (pc_pose b)))) _ _ d d' Hd Hd' Cd Cd').
  - rewrite both_image, image_image. apply image_ext. intros [e f]. cbn [fst snd].
    apply off2_comp. apply unit2_iff. exact (proj2_sig (pc_pose b)).
Qed.
(** [m]'s matrix is the covariance of the random pose [D]. *)
Definition fits3 N (m : pcov (geom3 N)) (D : dist (se3 dual)) : Prop := random3 (proj1_sig (pc_pose m)) (pc_cov m) D.
Lemma random3_comp N (a b : pcov (geom3 N)) D D' : fits3 a D -> fits3 b D' -> fits3 (pc_comp a b) (both se3_comp D D').
Proof.
  intros (d & Hd & Cd & ->) (d' & Hd' & Cd' & ->).
  exists (image (fun p => vadd (app (se3_ad (se3_inv (proj1_sig (pc_pose b)))) (fst p)) (snd p)) (independent d d')).
  split; [apply centred_sum; auto|]. split.
  - exact (@covers_sum 6 (se3_ad (se3_inv (proj1_sig (pc_pose b)))) _ _ d d' Hd Hd' Cd Cd').
  - rewrite both_image, image_image. apply image_ext. intros [e f]. cbn [fst snd].
    apply off3_comp. apply unit3_iff. exact (proj2_sig (pc_pose b)).
Qed.
Lemma random2_inv N (a : pose2) (c : mat xs 3) D :
  random2 (proj1_sig a) c D -> random2 (proj1_sig (p2_inv a)) (g_act (geom2 N) a c) (image se2_inv D).
Proof.
  intros (d & Hd & Cd & ->). exists (image (fun e => vneg (app (se2_ad (proj1_sig a)) e)) d).
  split; [apply centred_neg; auto|]. split; [exact (covers_neg (se2_ad (proj1_sig a)) Cd)|].
  rewrite !image_image. apply image_ext. intro e. apply off2_inv. apply unit2_iff. exact (proj2_sig a).
Qed.
Lemma random3_inv N (a : pose3) (c : mat xs 6) D :
  random3 (proj1_sig a) c D -> random3 (proj1_sig (p3_inv a)) (g_act (geom3 N) a c) (image se3_inv D).
Proof.
  intros (d & Hd & Cd & ->). exists (image (fun e => vneg (app (se3_ad (proj1_sig a)) e)) d).
  split; [apply centred_neg; auto|]. split; [exact (covers_neg (se3_ad (proj1_sig a)) Cd)|].
  rewrite !image_image. apply image_ext. intro e. apply off3_inv. apply unit3_iff. exact (proj2_sig a).
Qed.

(** The distribution determines the matrix. *)
Lemma image_inj A B (f : A -> B) : (forall a b, f a = f b -> a = b) -> forall d d', image f d = image f d' -> d = d'.
Proof.
  intros I d. induction d as [|[w a] d IH]; intros [|[v b] d'] E; try discriminate; [reflexivity|].
  cbn [image map fst snd] in E. fold (image f d) (image f d') in E.
  pose proof (f_equal (@tl _) E) as E'. cbn [tl] in E'. rewrite (IH d' E').
  pose proof (f_equal (fun l => match l with (w, x) :: _ => Some (w, x) | [] => None end) E) as H. cbn in H.
  injection H as H1 H2. apply I in H2. subst. reflexivity.
Qed.
Lemma random2_cov (p : pose2) c c' D : random2 (proj1_sig p) c D -> random2 (proj1_sig p) c' D -> c = c'.
Proof.
  intros (d & _ & C & E) (d' & _ & C' & E'). rewrite E in E'.
  apply image_inj in E'; [|intros a b; apply off2_inj; apply unit2_iff; exact (proj2_sig p)]. subst d'.
  apply covers_iff in C, C'. congruence.
Qed.
Lemma random3_cov (p : pose3) c c' D : random3 (proj1_sig p) c D -> random3 (proj1_sig p) c' D -> c = c'.
Proof.
  intros (d & _ & C & E) (d' & _ & C' & E'). rewrite E in E'.
  apply image_inj in E'; [|intros a b; apply off3_inj; apply unit3_iff; exact (proj2_sig p)]. subst d'.
  apply covers_iff in C, C'. congruence.
Qed.

(** ** Chains of random motions *)
Lemma centred_point n : centred [(Q2Qc 1, vtab n (fun _ => Q2Qc 0) : cvec qs n)].
Proof.
  split; [unfold mean; cbn [fold_right fst snd]; ring|]. intros i Hi. unfold mean; cbn [fold_right fst snd].
  unfold coord. rewrite at_tab by auto. ring.
Qed.
Lemma covers_point n : covers (@mzero xs n) [(Q2Qc 1, vtab n (fun _ => Q2Qc 0) : cvec qs n)].
Proof.
  intros i j Hi Hj. unfold mzero. rewrite get_tab by auto. unfold mean; cbn [fold_right fst snd k0 xs].
  unfold coord. rewrite !at_tab by auto. reflexivity.
Qed.
Lemma random2_id N : fits2 (pc_default (geom2 N)) [(Q2Qc 1, @se2_id dual)].
Proof.
  exists [(Q2Qc 1, vtab 3 (fun _ => Q2Qc 0) : cvec qs 3)]. split; [apply centred_point|]. split; [exact (@covers_point 3)|].
  reflexivity.
Qed.
Lemma random3_id N : fits3 (pc_default (geom3 N)) [(Q2Qc 1, @se3_id dual)].
Proof.
  exists [(Q2Qc 1, vtab 6 (fun _ => Q2Qc 0) : cvec qs 6)]. split; [apply centred_point|]. split; [exact (@covers_point 6)|].
  exact (f_equal (fun x => [(Q2Qc 1, x)]) (eq_sym off3_zero)).
Qed.
Lemma random2_walk N (ds : list (pcov (geom2 N))) Ds : Forall2 (@fits2 N) ds Ds ->
  fits2 (fold_left (@pc_comp (geom2 N)) ds (pc_default (geom2 N))) (walk2 Ds).
Proof.
  unfold walk2. pose proof (random2_id N) as H. revert H. generalize [(Q2Qc 1, @se2_id dual)]. generalize (pc_default (geom2 N)).
  intros m D H F. revert m D H. induction F as [|x Dx ds Ds Hx F IH]; intros m D H; cbn [fold_left]; [exact H|].
  apply IH. apply random2_comp; auto.
Qed.
Lemma random3_walk N (ds : list (pcov (geom3 N))) Ds : Forall2 (@fits3 N) ds Ds ->
  fits3 (fold_left (@pc_comp (geom3 N)) ds (pc_default (geom3 N))) (walk3 Ds).
Proof.
  unfold walk3. pose proof (random3_id N) as H. revert H. generalize [(Q2Qc 1, @se3_id dual)]. generalize (pc_default (geom3 N)).
  intros m D H F. revert m D H. induction F as [|x Dx ds Ds Hx F IH]; intros m D H; cbn [fold_left]; [exact H|].
  apply IH. apply random3_comp; auto.
Qed.
