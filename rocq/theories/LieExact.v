(** * Noise-free measurements with positive definite covariances *)
From Coq Require Import ZArith QArith Qcanon Bool List Lia.
From Verif Require Import Prelude Num Keys KMap UMap Geometry Factors Clique Pcm Params Solver
  PcmSpec HistSpec PcmProofs TrajProofs AlgProofs TrajRel Lie LieProofs LiePoses LieSpec LieCov LiePd LieTraj.
Set Implicit Arguments.
Local Open Scope nat_scope.

(** ** Quadratic forms of the zero vector *)
Lemma xsum_zero n : forall f : nat -> xq, (forall i, i < n -> f i = Some (Q2Qc 0)) -> @ksum xs n f = Some (Q2Qc 0).
Proof.
  induction n as [|n IH]; intros f H; cbn [ksum]; [reflexivity|]. rewrite (H 0) by lia.
  rewrite (IH (fun i => f (S i))) by (intros; apply H; lia). reflexivity.
Qed.
Lemma qform_zero n v B : (forall i, i < n -> v i = Q2Qc 0) -> (forall i j, i < n -> j < n -> B i j <> None) ->
  qform n v B = Some (Q2Qc 0).
Proof.
  intros Hv HB. unfold qform. apply xsum_zero. intros i Hi. apply xsum_zero. intros j Hj. rewrite !Hv by auto.
  specialize (HB i j Hi Hj). destruct (B i j) as [q|]; [|congruence]. 
  change (Some (Q2Qc 0 * q * Q2Qc 0)%Qc = Some (Q2Qc 0)). rewrite Qcmult_0_r. reflexivity.
Qed.

(** ** Blocks of positive definite matrices *)
Lemma qsum_shift r : forall t f, (forall i, i < r -> f i = Q2Qc 0) -> qsum (r + t) f = qsum t (fun i => f (r + i)).
Proof.
  induction r as [|r IH]; intros t f H; [reflexivity|]. cbn [Nat.add]. rewrite qsum_S, (H 0) by lia.
  rewrite (IH t (fun i => f (S i))) by (intros; apply H; lia). rewrite Qcplus_0_l. reflexivity.
Qed.
Lemma pd_block n r t (c : mat xs n) : n = r + t -> pd c -> pd (@tab xs t (fun i j => get c (r + i) (r + j))).
Proof.
  intros E (F & SY & H). split; [|split].
  - intros i j Hi Hj. rewrite get_tab by auto. apply F; lia.
  - intros i j Hi Hj. rewrite !get_tab by auto. apply SY; lia.
  - intros u (i & Hi & Hu).
    set (v := fun k => if k <? r then Q2Qc 0 else u (k - r)).
    assert (Hv : (Q2Qc 0 < form c v)%Qc).
    { apply H. exists (r + i). split; [lia|]. unfold v. replace (r + i <? r) with false by (symmetry; apply Nat.ltb_ge; lia).
      replace (r + i - r) with i by lia. exact Hu. }
    assert (E1 : form c v = form (@tab xs t (fun i j => get c (r + i) (r + j))) u); [|rewrite <- E1; exact Hv].
    unfold form. change (@ksum qs) with qsum. subst n.
    assert (Z : forall k, k < r -> v k = Q2Qc 0).
    { intros k Hk. unfold v. replace (k <? r) with true by (symmetry; apply Nat.ltb_lt; lia). reflexivity. }
    assert (Y : forall k, v (r + k) = u k).
    { intro k. unfold v. replace (r + k <? r) with false by (symmetry; apply Nat.ltb_ge; lia). f_equal. lia. }
    rewrite qsum_shift.
    2:{ intros k Hk. transitivity (qsum (r + t) (fun _ => Q2Qc 0)); [|apply qsum_0]. apply qsum_ext. intros l Hl.
        rewrite (Z k) by auto. rewrite !Qcmult_0_l. reflexivity. }
    apply qsum_ext. intros k Hk. rewrite qsum_shift.
    2:{ intros l Hl. rewrite (Z l) by auto. rewrite Qcmult_0_r. reflexivity. }
    apply qsum_ext. intros l Hl. rewrite !Y, get_tab by auto. reflexivity.
Qed.

Section Lie.
Variables (P : Type) (id : P) (comp : P -> P -> P) (inv : P -> P) (d r t : nat) (ad : P -> mat qs (S d)).
Variables (lg : P -> nat -> Qc) (mi : nat -> (nat -> nat -> xq) -> nat -> nat -> xq).
Notation G := (@lie_geom P id comp inv (S d) r t ad lg mi).
Hypothesis L : pose_group G.
Hypothesis ad_id : ad id = mone.
Hypothesis ad_comp : forall a b, ad (comp a b) = mmul (ad a) (ad b).
Hypothesis dims : S d = r + t.
Hypothesis log_id : forall i, lg id i = Q2Qc 0.
Hypothesis MI : inverts mi.

Lemma tab_get n (c : mat xs n) : @tab xs n (get c) = c.
Proof. apply (@mext xs n). intros i j Hi Hj. rewrite get_tab by auto. reflexivity. Qed.

Lemma pd_zero_form pp (e : t_T (cov_ops G pp)) : pd (pc_cov (e : pcov G) : mat xs (S d)) -> @zero_form G pp e.
Proof.
  intro H. unfold zero_form. change (maha_sq (S d) r t lg mi id (pc_cov (e : pcov G) : mat xs (S d)) (pc_rot (e : pcov G)) = dzero).
  unfold maha_sq, maha_form. generalize (pc_rot (e : pcov G)). intro full.
  assert (Z : dofx (Some (Q2Qc 0)) = dzero) by reflexivity. rewrite <- Z. f_equal. destruct full.
  - apply qform_zero; [intros; apply log_id|]. intros i j Hi Hj.
    assert (H' : pd (@tab xs (S d) (get (pc_cov (e : pcov G) : mat xs (S d))))) by (rewrite tab_get; exact H).
    destruct (@MI _ _ H') as (B & HB & _). rewrite HB by auto. discriminate.
  - apply qform_zero; [intros; apply log_id|]. intros i j Hi Hj.
    destruct (@MI _ _ (@pd_block (S d) r t _ dims H)) as (B & HB & _). rewrite HB by auto. discriminate.
Qed.

Variable pp : pcm_params.
Notation O := (cov_ops G pp).

(** ** The pairwise test *)
Theorem c34_pairs_lie X F (ref : N -> key -> t_T O) f1 f2 m1 m2 :
  pc_of G f1 = Some m1 -> pc_of G f2 = Some m2 -> exact G X f1 -> exact G X f2 ->
  chr (b_from f1) = chr (b_from f2) -> chr (b_to f1) = chr (b_to f2) ->
  (forall k, In k [b_from f1; b_to f1; b_from f2; b_to f2] -> placed G X F O (@pc_pose G) ref k) ->
  pd (pc_cov m1 : mat xs (S d)) -> psd (pc_cov m2 : mat xs (S d)) ->
  psd (pc_cov (sp_rel ref (chr (b_from f1)) (b_from f1) (b_from f2) : pcov G) : mat xs (S d)) ->
  psd (pc_cov (sp_rel ref (chr (b_to f1)) (b_to f1) (b_to f2) : pcov G) : mat xs (S d)) ->
  dpositive (pp_lc pp) -> sp_loop_test (O := O) ref f1 f2 = Some true.
Proof.
  intros H1 H2 E1 E2 C1 C2 HP D1 D2 R1 R2 Pt. apply (@c34_loop_cov G L X F pp ref f1 f2 m1 m2); auto.
  apply pd_zero_form. apply (pd_comp_l L ad_id ad_comp); [|exact R2]. apply (@pd_comp_r P id comp inv d r t ad lg mi); [|exact D1].
  apply (@psd_comp P id comp inv d r t ad lg mi); [exact R1|exact D2].
Qed.

(** ** The odometry test after any history *)
Variable C : config.
Variable W : soracles O.
Notation start := (solver_init (O := O) true).

(** Where the first [n] increments lead. *)
Definition dead (bs : list (bfactor P (mat xs (S d)))) (n : nat) : P := fold_left comp (map (@b_meas _ _) (firstn n bs)) id.

Theorem c34_odom_lie h1 o h2 s1 rs1 s rs p fs vs c k0 x0 :
  run C W h1 start = Ok s1 rs1 -> run C W (h1 ++ o :: h2) start = Ok s rs -> s_pcm s = Some p ->
  call_of o = Some (fs, vs) -> not_mentioned c h1 -> robot_odoms C c [o] <> [] ->
  kfind k0 (s_vals s1) = Some (VPose x0) \/ kfind k0 vs = Some (VPose x0) ->
  let bs := robot_odoms C c (h1 ++ o :: h2) in
  chr k0 = c -> chain k0 bs -> (forall b m, In b bs -> pc_of G b = Some m -> pd (pc_cov m : mat xs (S d))) ->
  forall i j (b : bfactor (g_pose G) (g_cov G)) m, i <= length bs -> j <= length bs ->
  b_from b = (k0 + N.of_nat i)%N -> b_to b = (k0 + N.of_nat j)%N ->
  b_meas b = comp (inv (dead bs i)) (dead bs j) -> pc_of G b = Some m -> pd (pc_cov m : mat xs (S d)) ->
  dpositive (pp_odom pp) -> sp_odom_test (O := O) (tref p) b = Some true.
Proof.
  intros R1 R2 Hp HC Hn Ho Hv bs H0 Hch HPD i j b m Hi Hj Ef Et Em Hm Dm Pt.
  destruct (@c33_lie P id comp inv d r t ad lg mi L ad_id ad_comp pp C W h1 o h2 s1 rs1 s rs p fs vs c k0 x0 R1 R2 Hp HC Hn Ho Hv H0 Hch HPD)
    as (ds & D1 & D2).
  fold bs in D1, D2.
  assert (CH : forall n, n <= length bs -> chr (k0 + N.of_nat n)%N = c).
  { intros n Hle. apply (@chain_chr O c k0 bs H0 Hch); [apply robot_odoms_to|exact Hle]. }
  assert (PP : forall n, n <= length bs -> pc_pose (tref p c (k0 + N.of_nat n)%N : pcov G) = comp x0 (dead bs n)).
  { intros n Hle. destruct (D2 n n (conj (le_n n) Hle)) as (E & _). rewrite E. cbn [pc_comp pc_init pc_pose].
    change (g_comp G) with comp. f_equal. unfold dead, composite.
    assert (FP : forall (l : list (pcov G)) a, pc_pose (fold_left (@pc_comp G) l a) = fold_left comp (map (@pc_pose G) l) (pc_pose a)).
    { induction l as [|x l IH]; intro a; cbn [fold_left map]; [reflexivity|]. rewrite IH. reflexivity. }
    rewrite FP. cbn [pc_default pc_pose]. f_equal.
    clear - D1. revert n. induction D1 as [|b x bs ds Hb D1 IH]; intros [|n]; cbn [firstn map]; auto. f_equal; [|apply IH].
    unfold pc_of in Hb. destruct (b_noise b) as [q|]; [|discriminate].
    destruct (g_rot_nan G q); injection Hb as Hb; subst x; reflexivity. }
  set (Xn := fun k => dead bs (N.to_nat (k - k0)%N)).
  assert (KN : forall n, N.to_nat (k0 + N.of_nat n - k0)%N = n) by (intro n; clear; lia).
  apply (@c34_odom_cov G L Xn (fun _ => x0) pp (tref p) b m Hm).
  - unfold exact, Xn. rewrite Ef, Et, !KN. exact Em.
  - rewrite Ef, Et, !CH by auto. reflexivity.
  - unfold placed, Xn. rewrite Ef, KN, CH by auto. apply PP. exact Hi.
  - unfold placed, Xn. rewrite Et, KN, CH by auto. apply PP. exact Hj.
  - apply pd_zero_form. apply (@pd_comp_r P id comp inv d r t ad lg mi); [|exact Dm].
    rewrite Ef, Et, CH by auto. clear - D2 Hi Hj. destruct (Nat.le_ge_cases i j) as [Hij|Hij].
    + destruct (D2 i j (conj Hij Hj)) as (_ & E & _ & Q). rewrite E. exact Q.
    + destruct (D2 j i (conj Hij Hi)) as (_ & _ & E & Q). rewrite E. exact Q.
  - exact Pt.
Qed.
End Lie.
