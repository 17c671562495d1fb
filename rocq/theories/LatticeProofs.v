(** * Poses on a grid: compositions and inverses are exact in double precision *)
From Coq Require Import ZArith Bool List Lia Ring.
From Verif Require Import Prelude Num Keys KMap Geometry Factors Lie LieProofs Floats PcmSpec AlgProofs LatticeSpec LatticeNum.
Set Implicit Arguments.
Local Open Scope Z_scope.

Lemma zs_ring : ring_theory (@k0 zs) k1 kadd kmul ksub (@kopp zs) eq.
Proof. constructor; cbn [k_t zs k0 k1 kadd kmul ksub]; unfold kopp; cbn [ksub zs k0]; intros; ring. Qed.

Lemma lim_big : 2 ^ 52 < lim.
Proof. reflexivity. Qed.

(** ** Numbers *)
Lemma num_0 k : is_num k 0 dzero.
Proof. left. reflexivity. Qed.
Lemma num_1 : is_num 0 1 done.
Proof. left. reflexivity. Qed.
Lemma is_zero k x : is_num k 0 x -> exists s, x = S754_zero s.
Proof. intros [->|[_ H]]; [exists false; reflexivity|exact H]. Qed.
Lemma is_one x : is_num 0 1 x -> x = done.
Proof. intros [->|[H _]]; [reflexivity|discriminate]. Qed.
(** A factor at most one in size. *)
Lemma num_turn k N a b x y : scale k -> Z.abs a <= 1 -> Z.abs b <= N -> N < lim -> is_num 0 a x -> is_num k b y ->
  is_num k (a * b) (dmul x y) /\ Z.abs (a * b) <= N.
Proof.
  intros Hk Ha Hb HN Hx Hy. pose proof lim_big. assert (Z.abs (a * b) <= N) by (rewrite Z.abs_mul; nia). split; auto. apply num_mul; auto; lia.
Qed.
Lemma num_plus k M N a b x y : scale k -> Z.abs a <= M -> Z.abs b <= N -> M + N < lim -> is_num k a x -> is_num k b y ->
  is_num k (a + b) (dadd x y) /\ Z.abs (a + b) <= M + N.
Proof. intros Hk Ha Hb HN Hx Hy. split; [apply num_add; auto; lia|lia]. Qed.
Lemma num_minus k M N a b x y : scale k -> Z.abs a <= M -> Z.abs b <= N -> M + N < lim -> is_num k a x -> is_num k b y ->
  is_num k (a - b) (dsub x y) /\ Z.abs (a - b) <= M + N.
Proof. intros Hk Ha Hb HN Hx Hy. split; [apply num_sub; auto; lia|lia]. Qed.
Lemma num_ksum k N (Hk : scale k) (HN : 0 <= N) n : forall (f : nat -> zs) (g : nat -> ds),
  (forall i, (i < n)%nat -> is_num k (f i) (g i) /\ Z.abs (f i) <= N) -> Z.of_nat n * N < lim ->
  is_num k (@ksum zs n f) (@ksum ds n g) /\ Z.abs (@ksum zs n f) <= Z.of_nat n * N.
Proof.
  induction n as [|n IH]; intros f g H B; cbn [ksum].
  - split; [apply num_0|cbn; lia].
  - assert (B' : Z.of_nat n * N < lim) by nia.
    destruct (IH (fun i => f (S i)) (fun i => g (S i)) (fun i Hi => H (S i) ltac:(lia)) B') as [I1 I2]. destruct (H 0%nat ltac:(lia)) as [H1 H2].
    destruct (@num_plus k N (Z.of_nat n * N) (f 0%nat) (@ksum zs n (fun i => f (S i))) (g 0%nat) (@ksum ds n (fun i => g (S i))) Hk H2 I2) as [R1 R2]; auto; [lia|].
    split; [exact R1|]. cbn [kadd zs]. lia.
Qed.

(** ** What is used of the two groups *)
Record laws (G : geom) (L : lattice G) := Laws {
  lw_id : la_t L; lw_inv : la_t L -> la_t L;
  lw_assoc : forall a b c, la_comp L a (la_comp L b c) = la_comp L (la_comp L a b) c;
  lw_id_l : forall a, la_comp L lw_id a = a;
  lw_id_r : forall a, la_comp L a lw_id = a;
  lw_rigid_comp : forall a b, la_rigid L a -> la_rigid L b -> la_rigid L (la_comp L a b);
  lw_rigid_inv : forall a, la_rigid L a -> la_rigid L (lw_inv a);
  lw_inv_l : forall a, la_rigid L a -> la_comp L (lw_inv a) a = lw_id;
  lw_inv_r : forall a, la_rigid L a -> la_comp L a (lw_inv a) = lw_id;
  lw_comp : forall M N a b p q, 0 <= M -> 0 <= N -> M + 3 * N < lim -> la_rigid L a -> la_rigid L b ->
    la_within L M a -> la_within L N b -> la_shows L p a -> la_shows L q b ->
    la_shows L (g_comp G p q) (la_comp L a b) /\ la_within L (M + 3 * N) (la_comp L a b);
  lw_inverse : forall N a p, 0 <= N -> 3 * N < lim -> la_rigid L a -> la_within L N a -> la_shows L p a ->
    la_shows L (g_inv G p) (lw_inv a) /\ la_within L (3 * N) (lw_inv a);
  lw_tsq : forall p, la_shows L p lw_id -> g_log_tsq G p = dzero;
  lw_rsq : forall p, la_shows L p lw_id -> g_log_rsq G p = dzero }.

(** ** Two dimensions *)
Section Two.
Variable k : Z.
Hypothesis Hk : scale k.
Lemma H0 : scale 0.
Proof. unfold scale. lia. Qed.

Lemma comp2 M N (a b : se2 zs) (p q : se2 ds) : 0 <= M -> 0 <= N -> M + 3 * N < lim -> la_rigid (lat2 k) a -> la_rigid (lat2 k) b ->
  la_within (lat2 k) M a -> la_within (lat2 k) N b -> shows2 k p a -> shows2 k q b ->
  shows2 k (se2_comp p q) (se2_comp a b) /\ la_within (lat2 k) (M + 3 * N) (se2_comp a b).
Proof.
  pose proof lim_big as LB. pose proof H0 as Z0.
  destruct a as [c s x y], b as [c' s' x' y'], p as [pc ps px py], q as [qc qs qx qy]. unfold shows2.
  cbn [lat2 la_rigid la_within se2_comp e_c e_s e_x e_y k_t zs ds kadd kmul ksub] in *.
  intros HM HN HB R R' [W1 W2] [W3 W4] (A1 & A2 & A3 & A4) (B1 & B2 & B3 & B4).
  assert (L1 : 1 < lim) by lia. assert (L2 : 1 + 1 < lim) by lia. assert (L3 : N < lim) by lia. assert (L4 : N + N < lim) by lia. assert (L5 : M + (N + N) < lim) by lia.
  assert (C1 : Z.abs c <= 1) by (clear - R R'; nia). assert (C2 : Z.abs s <= 1) by (clear - R R'; nia). assert (C3 : Z.abs c' <= 1) by (clear - R R'; nia). assert (C4 : Z.abs s' <= 1) by (clear - R R'; nia).
  destruct (@num_turn 0 1 c c' pc qc Z0 C1 C3 L1 A1 B1) as [T1 U1]. destruct (@num_turn 0 1 s s' ps qs Z0 C2 C4 L1 A2 B2) as [T2 U2].
  destruct (@num_turn 0 1 s c' ps qc Z0 C2 C3 L1 A2 B1) as [T3 U3]. destruct (@num_turn 0 1 c s' pc qs Z0 C1 C4 L1 A1 B2) as [T4 U4].
  destruct (@num_turn k N c x' pc qx Hk C1 W3 L3 A1 B3) as [T5 U5]. destruct (@num_turn k N s y' ps qy Hk C2 W4 L3 A2 B4) as [T6 U6].
  destruct (@num_turn k N s x' ps qx Hk C2 W3 L3 A2 B3) as [T7 U7]. destruct (@num_turn k N c y' pc qy Hk C1 W4 L3 A1 B4) as [T8 U8].
  destruct (@num_minus 0 1 1 _ _ _ _ Z0 U1 U2 L2 T1 T2) as [V1 _]. destruct (@num_plus 0 1 1 _ _ _ _ Z0 U3 U4 L2 T3 T4) as [V2 _].
  destruct (@num_minus k N N _ _ _ _ Hk U5 U6 L4 T5 T6) as [V3 P3]. destruct (@num_plus k N N _ _ _ _ Hk U7 U8 L4 T7 T8) as [V4 P4].
  destruct (@num_plus k M (N + N) _ _ _ _ Hk W1 P3 L5 A3 V3) as [V5 P5]. destruct (@num_plus k M (N + N) _ _ _ _ Hk W2 P4 L5 A4 V4) as [V6 P6].
  split; [split; [exact V1|split; [exact V2|split; [exact V5|exact V6]]]|clear - P5 P6 HN; lia].
Qed.
Lemma inv2 N (a : se2 zs) (p : se2 ds) : 0 <= N -> 3 * N < lim -> la_rigid (lat2 k) a -> la_within (lat2 k) N a -> shows2 k p a ->
  shows2 k (se2_inv p) (se2_inv a) /\ la_within (lat2 k) (3 * N) (se2_inv a).
Proof.
  pose proof lim_big as LB. pose proof H0 as Z0.
  destruct a as [c s x y], p as [pc ps px py]. unfold shows2.
  cbn [lat2 la_rigid la_within se2_inv e_c e_s e_x e_y k_t zs ds kadd kmul ksub k0] in *.
  intros HN HB R [W1 W2] (A1 & A2 & A3 & A4).
  assert (L1 : 0 + 1 < lim) by lia. assert (L3 : N < lim) by lia. assert (L4 : N + N < lim) by lia. assert (L5 : 0 + (N + N) < lim) by lia. assert (LZ : Z.abs 0 <= 0) by lia.
  assert (C1 : Z.abs c <= 1) by (clear - R; nia). assert (C2 : Z.abs s <= 1) by (clear - R; nia).
  destruct (@num_turn k N c x pc px Hk C1 W1 L3 A1 A3) as [T5 U5]. destruct (@num_turn k N s y ps py Hk C2 W2 L3 A2 A4) as [T6 U6].
  destruct (@num_turn k N s x ps px Hk C2 W1 L3 A2 A3) as [T7 U7]. destruct (@num_turn k N c y pc py Hk C1 W2 L3 A1 A4) as [T8 U8].
  destruct (@num_minus 0 0 1 0 s dzero ps Z0 LZ C2 L1 (num_0 0) A2) as [V1 _].
  destruct (@num_plus k N N _ _ _ _ Hk U5 U6 L4 T5 T6) as [V3 P3]. destruct (@num_minus k N N _ _ _ _ Hk U7 U8 L4 T7 T8) as [V4 P4].
  destruct (@num_minus k 0 (N + N) 0 _ dzero _ Hk LZ P3 L5 (num_0 k) V3) as [V5 P5].
  split; [split; [exact A1|split; [exact V1|split; [exact V5|exact V4]]]|clear - P5 P4 HN; lia].
Qed.
Lemma log2 (p : se2 ds) : shows2 k p se2_id -> g_log_tsq fgeom2 p = dzero /\ g_log_rsq fgeom2 p = dzero.
Proof.
  destruct p as [c s x y]. unfold shows2. cbn [se2_id e_c e_s e_x e_y zs k0 k1]. intros (A1 & A2 & A3 & A4).
  apply is_one in A1. apply is_zero in A2, A3, A4. destruct A2 as [b2 ->], A3 as [b3 ->], A4 as [b4 ->]. rewrite A1.
  destruct b2, b3, b4; split; vm_compute; reflexivity.
Qed.
Definition laws2 : laws (lat2 k).
Proof.
  refine (@Laws fgeom2 (lat2 k) (@se2_id zs) (@se2_inv zs) _ _ _ _ _ _ _ _ _ _ _); cbn [lat2 la_t la_comp la_rigid la_within].
  - intros. apply (se2_assoc zs_ring).
  - intros. apply (se2_id_l zs_ring).
  - intros [c s x y]. unfold se2_comp, se2_id. cbn. f_equal; ring.
  - intros [c s x y] [c' s' x' y']. cbn. intros H H'. transitivity ((c * c + s * s) * (c' * c' + s' * s')); [ring|]. rewrite H, H'. reflexivity.
  - intros [c s x y]. cbn. intros <-. ring.
  - intros a H. apply (se2_inv_l zs_ring). exact H.
  - intros [c s x y] H. unfold se2_comp, se2_inv, se2_id. cbn in *. f_equal; [rewrite <- H; ring|ring| |].
    + transitivity (x * (1 - (c * c + s * s))); [ring|rewrite H; ring].
    + transitivity (y * (1 - (c * c + s * s))); [ring|rewrite H; ring].
  - intros. apply comp2; auto.
  - intros. apply inv2; auto.
  - intros p H. apply (log2 H).
  - intros p H. apply (log2 H).
Defined.
End Two.

(** ** Three dimensions *)
Section Three.
Variable k : Z.
Hypothesis Hk : scale k.
Lemma row_le (R : mat zs 3) i j : mmul R (mtr R) = mone -> (i < 3)%nat -> (j < 3)%nat -> Z.abs (get R i j) <= 1.
Proof.
  intros E Hi Hj. assert (D : get (mmul R (mtr R)) i i = 1) by (rewrite E; unfold mone; rewrite get_tab, Nat.eqb_refl by auto; reflexivity).
  unfold mmul in D. rewrite get_tab in D by auto. cbn [ksum] in D. unfold mtr in D. rewrite !get_tab in D by (auto with arith || lia).
  cbn [kadd kmul zs k0 k_t] in D. destruct j as [|[|[|]]]; [nia|nia|nia|lia].
Qed.
Lemma app3 N (R : mat zs 3) (P : mat ds 3) (t : cvec zs 3) (u : cvec ds 3) :
  0 <= N -> 3 * N < lim -> (forall i j, (i < 3)%nat -> (j < 3)%nat -> Z.abs (get R i j) <= 1 /\ is_num 0 (get R i j) (get P i j)) ->
  (forall i, (i < 3)%nat -> Z.abs (at_ t i) <= N /\ is_num k (at_ t i) (at_ u i)) ->
  forall i, (i < 3)%nat -> Z.abs (at_ (app R t) i) <= 3 * N /\ is_num k (at_ (app R t) i) (at_ (app P u) i).
Proof.
  intros HN HB HR Ht i Hi. unfold app. rewrite !at_tab by auto. apply and_comm.
  apply (@num_ksum k N Hk HN 3 (fun j => kmul (get R i j) (at_ t j)) (fun j => kmul (get P i j) (at_ u j))); [|exact HB].
  intros j Hj. destruct (HR i j Hi Hj), (Ht j Hj). apply num_turn; auto. lia.
Qed.
Lemma comp3 M N (a b : se3 zs) (p q : se3 ds) : 0 <= M -> 0 <= N -> M + 3 * N < lim -> la_rigid (lat3 k) a -> la_rigid (lat3 k) b ->
  la_within (lat3 k) M a -> la_within (lat3 k) N b -> shows3 k p a -> shows3 k q b ->
  shows3 k (se3_comp p q) (se3_comp a b) /\ la_within (lat3 k) (M + 3 * N) (se3_comp a b).
Proof.
  pose proof lim_big as LB. intros HM HN HB [R1 R2] [R3 R4] W V [A1 A2] [B1 B2]. unfold shows3, se3_comp. cbn [lat3 la_within e_R e_t] in *.
  assert (T : forall i, (i < 3)%nat -> is_num k (at_ (vadd (e_t a) (app (e_R a) (e_t b))) i) (at_ (vadd (e_t p) (app (e_R p) (e_t q))) i) /\
              Z.abs (at_ (vadd (e_t a) (app (e_R a) (e_t b))) i) <= M + 3 * N).
  { intros i Hi. unfold vadd. rewrite !at_tab by auto.
    destruct (@app3 N (e_R a) (e_R p) (e_t b) (e_t q) HN ltac:(lia) (fun i j Hi Hj => conj (@row_le _ i j R1 Hi Hj) (A1 i j Hi Hj)) (fun i Hi => conj (V i Hi) (B2 i Hi)) i Hi) as [U1 U2].
    apply num_plus; auto. }
  split; [split|]; [|intros i Hi; apply T; auto|intros i Hi; apply T; auto].
  intros i j Hi Hj. unfold mmul. rewrite !get_tab by auto.
  apply (@num_ksum 0 1 H0 ltac:(lia) 3 (fun l => kmul (get (e_R a) i l) (get (e_R b) l j)) (fun l => kmul (get (e_R p) i l) (get (e_R q) l j))); [|reflexivity].
  intros l Hl. exact (@num_turn 0 1 _ _ _ _ H0 (@row_le _ i l R1 Hi Hl) (@row_le _ l j R3 Hl Hj) ltac:(reflexivity) (A1 i l Hi Hl) (B1 l j Hl Hj)).
Qed.
Lemma inv3 N (a : se3 zs) (p : se3 ds) : 0 <= N -> 3 * N < lim -> la_rigid (lat3 k) a -> la_within (lat3 k) N a -> shows3 k p a ->
  shows3 k (se3_inv p) (se3_inv a) /\ la_within (lat3 k) (3 * N) (se3_inv a).
Proof.
  pose proof lim_big as LB. intros HN HB [R1 R2] W [A1 A2]. unfold shows3, se3_inv. cbn [lat3 la_within e_R e_t] in *.
  assert (Q : forall i j, (i < 3)%nat -> (j < 3)%nat -> Z.abs (get (mtr (e_R a)) i j) <= 1 /\ is_num 0 (get (mtr (e_R a)) i j) (get (mtr (e_R p)) i j)).
  { intros i j Hi Hj. unfold mtr. rewrite !get_tab by auto. split; [apply row_le; auto|apply A1; auto]. }
  assert (T : forall i, (i < 3)%nat -> is_num k (at_ (vneg (app (mtr (e_R a)) (e_t a))) i) (at_ (vneg (app (mtr (e_R p)) (e_t p))) i) /\
              Z.abs (at_ (vneg (app (mtr (e_R a)) (e_t a))) i) <= 3 * N).
  { intros i Hi. unfold vneg. rewrite !at_tab by auto.
    destruct (@app3 N _ _ (e_t a) (e_t p) HN ltac:(lia) Q (fun i Hi => conj (W i Hi) (A2 i Hi)) i Hi) as [U1 U2].
    exact (@num_minus k 0 (3 * N) 0 _ dzero _ Hk ltac:(lia) U1 ltac:(lia) (num_0 k) U2). }
  split; [split|]; [apply Q|intros i Hi; apply T; auto|intros i Hi; apply T; auto].
Qed.

Lemma so3_log_one (R : mat ds 3) : (forall i j, (i < 3)%nat -> (j < 3)%nat -> is_num 0 (if Nat.eqb i j then 1 else 0) (get R i j)) ->
  exists b0 b1 b2, so3_log R = vec3 (S754_zero b0) (S754_zero b1) (S754_zero b2).
Proof.
  intro H.
  assert (D : forall i, (i < 3)%nat -> get R i i = done) by (intros i Hi; apply is_one; pose proof (H i i Hi Hi) as X; rewrite Nat.eqb_refl in X; exact X).
  assert (O : forall i j, (i < 3)%nat -> (j < 3)%nat -> i <> j -> exists s, get R i j = S754_zero s).
  { intros i j Hi Hj N. apply (@is_zero 0). pose proof (H i j Hi Hj) as X. apply Nat.eqb_neq in N. rewrite N in X. exact X. }
  unfold so3_log. rewrite (D 0%nat), (D 1%nat), (D 2%nat) by lia.
  destruct (O 2%nat 1%nat) as [s21 ->]; try lia. destruct (O 1%nat 2%nat) as [s12 ->]; try lia.
  destruct (O 0%nat 2%nat) as [s02 ->]; try lia. destruct (O 2%nat 0%nat) as [s20 ->]; try lia.
  destruct (O 1%nat 0%nat) as [s10 ->]; try lia. destruct (O 0%nat 1%nat) as [s01 ->]; try lia.
  set (c1 := dlt (SFabs (dadd (dadd (dadd done done) done) done)) (dlit 1 10000000000)). assert (E1 : c1 = false) by (vm_compute; reflexivity). rewrite E1.
  set (mg := if dlt _ (dlit (-1) 10000000) then _ else _).
  assert (E2 : exists m e, mg = S754_finite false m e) by (eexists; eexists; vm_compute; reflexivity). clearbody mg. destruct E2 as (m & e & ->).
  assert (Z : forall a b, exists s, dmul (S754_finite false m e) (dsub (S754_zero a) (S754_zero b)) = S754_zero s) by (intros [] []; eexists; reflexivity).
  destruct (Z s21 s12) as [b0 Q0], (Z s02 s20) as [b1 Q1], (Z s10 s01) as [b2 Q2]. exists b0, b1, b2.
  unfold vscale, vec3, at_. cbn [vtab vget fst snd]. rewrite Q0, Q1, Q2. reflexivity.
Qed.
Lemma log3 (p : se3 ds) : shows3 k p se3_id -> g_log_tsq fgeom3 p = dzero /\ g_log_rsq fgeom3 p = dzero.
Proof.
  intros [A B]. cbn [se3_id e_R e_t] in A, B.
  destruct (@so3_log_one (e_R p)) as (b0 & b1 & b2 & E).
  { intros i j Hi Hj. pose proof (A i j Hi Hj) as X. unfold mone in X. rewrite get_tab in X by auto. exact X. }
  assert (T : forall i, (i < 3)%nat -> exists s, at_ (e_t p) i = S754_zero s).
  { intros i Hi. apply (@is_zero k). pose proof (B i Hi) as X. rewrite at_tab in X by auto. exact X. }
  assert (Q : flog 6 se3_log p = [S754_zero b0; S754_zero b1; S754_zero b2; at_ (e_t p) 0%nat; at_ (e_t p) 1%nat; at_ (e_t p) 2%nat]).
  { unfold flog, se3_log. rewrite E. set (t := vnorm3 _). assert (ET : t = dzero) by (destruct b0, b1, b2; vm_compute; reflexivity). rewrite ET.
    replace (dlt dzero (dlit 1 10000000000)) with true by (vm_compute; reflexivity). reflexivity. }
  destruct (T 0%nat) as [s0 T0]; [lia|]. destruct (T 1%nat) as [s1 T1]; [lia|]. destruct (T 2%nat) as [s2 T2]; [lia|]. rewrite T0, T1, T2 in Q.
  unfold fgeom3, float_geom. cbn [g_log_tsq g_log_rsq]. rewrite Q. split; [destruct s0, s1, s2|destruct b0, b1, b2]; vm_compute; reflexivity.
Qed.
Definition laws3 : laws (lat3 k).
Proof.
  refine (@Laws fgeom3 (lat3 k) (@se3_id zs) (@se3_inv zs) _ _ _ _ _ _ _ _ _ _ _); cbn [lat3 la_t la_comp la_rigid la_within].
  - intros. apply (se3_assoc zs_ring).
  - intros. apply (se3_id_l zs_ring).
  - intros [R t]. unfold se3_comp, se3_id. cbn [e_R e_t]. rewrite (mmul_one_r zs_ring), (app_zero zs_ring). f_equal.
    apply cext. intros i Hi. unfold vadd. rewrite !at_tab by auto. cbn. ring.
  - intros [R t] [R' t']. unfold se3_comp. cbn [e_R]. intros [H1 H2] [H3 H4]. rewrite (mtr_mul zs_ring). split.
    + rewrite <- (mmul_assoc zs_ring), (mmul_assoc zs_ring 3 R'), H3, (mmul_one_l zs_ring). exact H1.
    + rewrite <- (mmul_assoc zs_ring), (mmul_assoc zs_ring 3 (mtr R)), H2, (mmul_one_l zs_ring). exact H4.
  - intros [R t]. unfold se3_inv. cbn [e_R]. rewrite mtr_tr. tauto.
  - intros a [_ H]. apply (se3_inv_l zs_ring). exact H.
  - intros [R t] [H _]. unfold se3_comp, se3_inv, se3_id. cbn [e_R e_t] in *. rewrite H. f_equal.
    rewrite (app_neg zs_ring), <- (app_mul zs_ring), H, (app_one zs_ring). apply cext. intros i Hi. unfold vadd, vneg. rewrite !at_tab by auto. cbn. ring.
  - intros. apply comp3; auto.
  - intros. apply inv3; auto.
  - intros p H. apply (log3 H).
  - intros p H. apply (log3 H).
Defined.
End Three.


Lemma right_laws G (L : lattice G) : right_angled L -> inhabited (laws L).
Proof. intros [k Hk|k Hk]; constructor; [exact (laws2 Hk)|exact (laws3 Hk)]. Qed.

(** ** Measurements and reference poses *)
Section World.
Variable G : geom.
Variable L : lattice G.
Variable W : laws L.
Variable X : key -> la_t L.
Variable F : N -> la_t L.
Hypothesis RW : rigid_world L X F.
Infix "@" := (la_comp L) (at level 40, left associativity).
Notation rigid := (la_rigid L).
Notation reach := LatticeSpec.reach.

(** [p] shows a step from [a] to [b]. *)
Definition leads (N : Z) (p : g_pose G) (a b : la_t L) : Prop :=
  exists z, la_shows L p z /\ rigid z /\ la_within L N z /\ a @ z = b.

Lemma cancel a x y : rigid a -> a @ x = a @ y -> x = y.
Proof.
  intros R E. rewrite <- (lw_id_l W x), <- (lw_id_l W y), <- (lw_inv_l W _ R), <- !(lw_assoc W), E. reflexivity.
Qed.
Lemma leads_comp M N p q a b c : 0 <= M -> 0 <= N -> M + 3 * N < lim -> leads M p a b -> leads N q b c -> leads (M + 3 * N) (g_comp G p q) a c.
Proof.
  intros HM HN HB (z & S1 & R1 & W1 & E1) (y & S2 & R2 & W2 & E2). destruct (@lw_comp G L W M N z y p q) as [S3 W3]; auto.
  exists (z @ y). repeat split; auto. apply (lw_rigid_comp W); auto. rewrite (lw_assoc W), E1. exact E2.
Qed.
Lemma leads_inv N p a b : 0 <= N -> 3 * N < lim -> leads N p a b -> leads (3 * N) (g_inv G p) b a.
Proof.
  intros HN HB (z & S1 & R1 & W1 & E1). destruct (@lw_inverse G L W N z p) as [S3 W3]; auto.
  exists (lw_inv W z). repeat split; auto. apply (lw_rigid_inv W); auto. rewrite <- E1, <- (lw_assoc W), (lw_inv_r W _ R1). apply (lw_id_r W).
Qed.
Lemma leads_between N p q f a b : 0 <= N -> 6 * N < lim -> rigid f -> leads N p f a -> leads N q f b -> leads (6 * N) (g_between G p q) a b.
Proof.
  intros HN HB Rf Hp Hq. unfold g_between. replace (6 * N)%Z with (3 * N + 3 * N)%Z by lia.
  apply leads_comp with f; [lia|lia|lia| |exact Hq]. apply leads_inv; auto. lia.
Qed.
Lemma leads_loop N p a : rigid a -> leads N p a a -> g_log_tsq G p = dzero /\ g_log_rsq G p = dzero.
Proof.
  intros R (z & S1 & R1 & W1 & E1). assert (z = lw_id W) by (apply (@cancel a _ _ R); rewrite E1, (lw_id_r W); reflexivity). subst z.
  split; [apply (lw_tsq W)|apply (lw_rsq W)]; auto.
Qed.

Lemma seen_leads pp (ref : N -> key -> t_T (node_ops G pp)) k0 : in_place L X F ref k0 ->
  leads reach (pn_pose (ref (chr k0) k0)) (lw_inv W (F (chr k0))) (X k0).
Proof.
  intros [H1 H2]. destruct RW as [RX RF]. exists (seen L X F k0). split; [exact H1|]. split; [apply (lw_rigid_comp W); auto|]. split; [exact H2|].
  unfold seen. rewrite (lw_assoc W), (lw_inv_l W _ (RF _)). apply (lw_id_l W).
Qed.
Lemma reach_48 : 0 <= reach /\ 48 * reach < lim.
Proof. split; [discriminate|reflexivity]. Qed.
Lemma rel_leads pp (ref : N -> key -> t_T (node_ops G pp)) a b : chr a = chr b -> in_place L X F ref a -> in_place L X F ref b ->
  leads (6 * reach) (pn_pose (sp_rel (O := node_ops G pp) ref (chr a) a b)) (X a) (X b).
Proof.
  intros E Ha Hb. pose proof reach_48. unfold sp_rel. rewrite E, N.eqb_refl. destruct RW as [RX RF].
  apply leads_between with (lw_inv W (F (chr b))); [lia|lia|apply (lw_rigid_inv W); auto| |apply seen_leads; auto].
  rewrite <- E. apply seen_leads; auto.
Qed.

Section Tests.
Variable pp : pcm_params.
Notation O := (node_ops G pp).
Variable ref : N -> key -> t_T O.
Notation bn := (bfactor (g_pose G) (g_cov G)).

Lemma meas_of f : with_cov G f -> true_meas L X f -> exists m, pn_of G f = Some m /\ leads reach (pn_pose m) (X (b_from f)) (X (b_to f)) /\ pn_node m = 1%Z.
Proof. intros [c E] H. unfold pn_of. rewrite E. eexists. split; [reflexivity|]. split; [exact H|reflexivity]. Qed.
Lemma loop_passes (e : pnode G) N a t r : rigid a -> leads N (pn_pose e) a a -> 0 < pn_node e < 2 ^ 53 -> dpositive t -> dpositive r ->
  dlt (pn_avg_trans e) t && dlt (pn_avg_rot e) r = true.
Proof.
  intros R H Hn Ht Hr. destruct (@leads_loop _ _ _ R H) as [Lt Lr]. unfold pn_avg_trans, pn_avg_rot. rewrite Lt, Lr, !zero_passes by auto. cbn [andb].
  destruct (pn_rot e); [apply zero_passes; auto|exact Hr].
Qed.
Lemma rel_nodes a b : chr a = chr b -> pn_node (sp_rel (O := O) ref (chr a) a b) = nodes ref a b.
Proof. intro E. unfold sp_rel. rewrite E, N.eqb_refl. unfold nodes. rewrite E. reflexivity. Qed.

Theorem odom_true f : with_cov G f -> true_meas L X f -> chr (b_from f) = chr (b_to f) -> in_place L X F ref (b_from f) -> in_place L X F ref (b_to f) ->
  nodes ref (b_from f) (b_to f) + 1 < 2 ^ 53 -> dpositive (pp_odom_trans pp) -> dpositive (pp_odom_rot pp) -> sp_odom_test (O := O) ref f = Some true.
Proof.
  intros HC HM E Hf Ht Hn Pt Pr. destruct (meas_of HC HM) as (m & M1 & M2 & M3). pose proof reach_48 as RB. destruct RW as [RX _].
  unfold sp_odom_test. change (t_of O f) with (pn_of G f). rewrite M1. f_equal.
  change (t_odom_ok O) with (@pn_odom_ok G pp). unfold pn_odom_ok.
  apply loop_passes with (N := (6 * reach + 3 * (3 * reach))%Z) (a := X (b_from f)); auto.
  - apply (@leads_comp (6 * reach) (3 * reach) _ _ (X (b_from f)) (X (b_to f)) (X (b_from f))); [lia|lia|lia|apply rel_leads; auto|apply leads_inv; auto; lia].
  - change (0 < pn_node (sp_rel (O := O) ref (chr (b_from f)) (b_from f) (b_to f)) + pn_node m < 2 ^ 53).
    rewrite rel_nodes, M3 by auto. unfold nodes in *. lia.
Qed.
Theorem pair_true f1 f2 : with_cov G f1 -> with_cov G f2 -> true_meas L X f1 -> true_meas L X f2 ->
  chr (b_from f1) = chr (b_from f2) -> chr (b_to f1) = chr (b_to f2) ->
  (forall k, In k [b_from f1; b_to f1; b_from f2; b_to f2] -> in_place L X F ref k) ->
  nodes ref (b_from f1) (b_from f2) + nodes ref (b_to f1) (b_to f2) + 2 < 2 ^ 53 ->
  dpositive (pp_dist_trans pp) -> dpositive (pp_dist_rot pp) -> sp_loop_test (O := O) ref f1 f2 = Some true.
Proof.
  intros HC1 HC2 HM1 HM2 E1 E2 HP Hn Pt Pr. destruct (meas_of HC1 HM1) as (m1 & M1 & L1 & N1). destruct (meas_of HC2 HM2) as (m2 & M2 & L2 & N2).
  pose proof reach_48 as RB. destruct RW as [RX _].
  rewrite (@loop_test_same O ref f1 f2 m1 m2 M1 M2 E1). f_equal. change (t_loop_ok O) with (@pn_loop_ok G pp). unfold pn_loop_ok.
  assert (Q1 : leads (6 * reach) (pn_pose (sp_rel (O := O) ref (chr (b_from f1)) (b_from f1) (b_from f2))) (X (b_from f1)) (X (b_from f2))) by (apply rel_leads; auto; apply HP; cbn; tauto).
  assert (Q2 : leads (6 * reach) (pn_pose (sp_rel (O := O) ref (chr (b_to f1)) (b_to f1) (b_to f2))) (X (b_to f1)) (X (b_to f2))) by (apply rel_leads; auto; apply HP; cbn; tauto).
  pose proof (@leads_comp (6 * reach) reach _ _ _ _ _ ltac:(lia) ltac:(lia) ltac:(lia) Q1 L2) as Q3.
  pose proof (@leads_inv (6 * reach + 3 * reach) _ _ _ ltac:(lia) ltac:(lia) Q3) as Q4.
  pose proof (@leads_comp (3 * (6 * reach + 3 * reach)) reach _ _ _ _ _ ltac:(lia) ltac:(lia) ltac:(lia) Q4 L1) as Q5.
  pose proof (@leads_comp (3 * (6 * reach + 3 * reach) + 3 * reach) (6 * reach) _ _ _ _ _ ltac:(lia) ltac:(lia) ltac:(lia) Q5 Q2) as Q6.
  eapply loop_passes; [apply (RX (b_to f2))|exact Q6| |auto|auto].
  change (0 < (pn_node (sp_rel (O := O) ref (chr (b_from f1)) (b_from f1) (b_from f2)) + pn_node m2) + pn_node m1 +
           pn_node (sp_rel (O := O) ref (chr (b_to f1)) (b_to f1) (b_to f2)) < 2 ^ 53).
  rewrite !rel_nodes, N1, N2 by auto. unfold nodes in *. lia.
Qed.
Theorem landmark_true f1 f2 : with_cov G f1 -> with_cov G f2 -> true_meas L X f1 -> true_meas L X f2 ->
  chr (b_from f1) = chr (b_from f2) -> b_to f1 = b_to f2 ->
  in_place L X F ref (b_from f1) -> in_place L X F ref (b_from f2) ->
  nodes ref (b_from f1) (b_from f2) + 2 < 2 ^ 53 ->
  dpositive (pp_dist_trans pp) -> dpositive (pp_dist_rot pp) -> sp_lm_test (O := O) ref f1 f2 = Some true.
Proof.
  intros HC1 HC2 HM1 HM2 E1 E2 P1 P2 Hn Pt Pr. destruct (meas_of HC1 HM1) as (m1 & M1 & L1 & N1). destruct (meas_of HC2 HM2) as (m2 & M2 & L2 & N2).
  pose proof reach_48 as RB. destruct RW as [RX _].
  unfold sp_lm_test. change (t_of O f1) with (pn_of G f1). change (t_of O f2) with (pn_of G f2). rewrite M1, M2. f_equal.
  change (t_loop_ok O) with (@pn_loop_ok G pp). unfold pn_loop_ok.
  assert (Q1 : leads (6 * reach) (pn_pose (sp_rel (O := O) ref (chr (b_from f1)) (b_from f1) (b_from f2))) (X (b_from f1)) (X (b_from f2))) by (apply rel_leads; auto).
  pose proof (@leads_comp (6 * reach) reach _ _ _ _ _ ltac:(lia) ltac:(lia) ltac:(lia) Q1 L2) as Q3.
  pose proof (@leads_inv (6 * reach + 3 * reach) _ _ _ ltac:(lia) ltac:(lia) Q3) as Q4.
  pose proof (@leads_comp (3 * (6 * reach + 3 * reach)) reach _ _ _ _ _ ltac:(lia) ltac:(lia) ltac:(lia) Q4 L1) as Q5. rewrite <- E2 in Q5.
  eapply loop_passes; [apply (RX (b_to f1))|exact Q5| |auto|auto].
  change (0 < (pn_node (sp_rel (O := O) ref (chr (b_from f1)) (b_from f1) (b_from f2)) + pn_node m2) + pn_node m1 < 2 ^ 53).
  rewrite !rel_nodes, N1, N2 by auto. unfold nodes in *. lia.
Qed.
End Tests.
End World.
