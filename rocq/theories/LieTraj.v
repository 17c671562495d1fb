(** * Relative covariances along odometry with positive definite covariances *)
From Coq Require Import ZArith QArith Qcanon Bool List Lia.
From Verif Require Import Prelude Num Keys KMap UMap Geometry Factors Clique Pcm Params Solver
  PcmSpec HistSpec PcmProofs TrajProofs AlgProofs TrajRel Lie LieProofs LiePoses LieSpec LieCov LiePd.
Set Implicit Arguments.
Local Open Scope nat_scope.

Section Lie.
Variables (P : Type) (id : P) (comp : P -> P -> P) (inv : P -> P) (d r t : nat) (ad : P -> mat qs (S d)).
Variables (lg : P -> nat -> Qc) (mi : nat -> (nat -> nat -> xq) -> nat -> nat -> xq).
Notation G := (@lie_geom P id comp inv (S d) r t ad lg mi).
Hypothesis L : pose_group G.
Hypothesis ad_id : ad id = mone.
Hypothesis ad_comp : forall a b, ad (comp a b) = mmul (ad a) (ad b).

Let A : cov_action G (@finite (S d)) := @lie_cov_action P id comp inv (S d) r t ad lg mi ad_id ad_comp.

Lemma ad_inv p : mmul (ad p) (ad (inv p)) = mone.
Proof. rewrite <- ad_comp, <- ad_id. f_equal. exact (pg_inv_r L p). Qed.

Lemma act_low p c : finite c -> act (S d) ad p c = lift (transport (ad p) (low c)).
Proof. intro F. rewrite (proj1 (@finite_lift (S d) c) F) at 1. apply act_lift. Qed.
Lemma psd_act p c : psd c -> psd (act (S d) ad p c).
Proof. intro H. rewrite act_low by apply H. apply psd_transport. exact H. Qed.
Lemma pd_act p c : pd c -> pd (act (S d) ad p c).
Proof. intro H. rewrite act_low by apply H. apply (@pd_transport (S d) (ad p) (ad (inv p))); [apply ad_inv|exact H]. Qed.

Lemma psd_comp (a b : pcov G) : psd (pc_cov a : mat xs (S d)) -> psd (pc_cov b : mat xs (S d)) -> psd (pc_cov (pc_comp a b) : mat xs (S d)).
Proof. intros Ha Hb. apply psd_add; [apply psd_act; exact Ha|exact Hb]. Qed.
Lemma pd_comp_r (a b : pcov G) : psd (pc_cov a : mat xs (S d)) -> pd (pc_cov b : mat xs (S d)) -> pd (pc_cov (pc_comp a b) : mat xs (S d)).
Proof. intros Ha Hb. apply pd_add_r; [apply psd_act; exact Ha|exact Hb]. Qed.
Lemma pd_comp_l (a b : pcov G) : pd (pc_cov a : mat xs (S d)) -> psd (pc_cov b : mat xs (S d)) -> pd (pc_cov (pc_comp a b) : mat xs (S d)).
Proof. intros Ha Hb. apply pd_add_l; [apply pd_act; exact Ha|exact Hb]. Qed.

Lemma psd_fold ds : forall a : pcov G, psd (pc_cov a : mat xs (S d)) -> Forall (fun x : pcov G => psd (pc_cov x : mat xs (S d))) ds ->
  psd (pc_cov (fold_left (@pc_comp G) ds a) : mat xs (S d)).
Proof.
  induction ds as [|x ds IH]; intros a Ha F; cbn [fold_left]; [exact Ha|]. inversion F; subst.
  apply IH; auto. apply psd_comp; auto.
Qed.
Lemma pd_fold ds : forall a : pcov G, psd (pc_cov a : mat xs (S d)) -> ds <> [] -> Forall (fun x : pcov G => pd (pc_cov x : mat xs (S d))) ds ->
  pd (pc_cov (fold_left (@pc_comp G) ds a) : mat xs (S d)).
Proof.
  intros a Ha N F. destruct (exists_last N) as (ds' & x & ->). rewrite fold_left_app. cbn [fold_left].
  apply Forall_app in F. destruct F as [F1 F2]. inversion F2; subst. apply pd_comp_r; auto.
  apply psd_fold; auto. eapply Forall_impl; [|exact F1]. intros y Hy. apply pd_psd. exact Hy.
Qed.

(** Difference of the covariances of two places, seen the wrong way round. *)
Lemma back_llt (a m : pcov G) : psd (pc_cov a : mat xs (S d)) -> psd (pc_cov m : mat xs (S d)) ->
  g_llt_ok G (g_csub G (pc_cov a) (g_act G (pc_pose m) (pc_cov (pc_comp a m)))) = false.
Proof.
  intros Ha Hm.
  change (llt (S d) (get (msub (pc_cov a : mat xs (S d)) (act (S d) ad (pc_pose m) (pc_cov (pc_comp a m))))) = false).
  replace (msub (pc_cov a : mat xs (S d)) (act (S d) ad (pc_pose m) (pc_cov (pc_comp a m))))
    with (msub mzero (act (S d) ad (pc_pose m) (pc_cov m))).
  { apply llt_first. apply psd_act. exact Hm. }
  assert (E : act (S d) ad (pc_pose m) (pc_cov (pc_comp a m)) = madd (pc_cov a : mat xs (S d)) (act (S d) ad (pc_pose m) (pc_cov m))).
  { cbn [pc_comp pc_cov]. change (act (S d) ad) with (g_act G). change (@madd xs (S d)) with (g_cadd G).
    assert (Fa : finite (pc_cov a : mat xs (S d))) by apply Ha. assert (Fm : finite (pc_cov m : mat xs (S d))) by apply Hm.
    rewrite (ca_act_add A) by (auto; apply (ca_ok_act A); auto). rewrite <- (ca_act_comp A) by auto.
    f_equal. pose proof (pg_inv_r L (pc_pose m)) as PI. rewrite PI. apply (ca_act_id A). exact Fa. }
  rewrite E. clear E. assert (Fa : finite (pc_cov a : mat xs (S d))) by apply Ha.
  assert (Fm : finite (act (S d) ad (pc_pose m) (pc_cov m))) by (apply psd_act; exact Hm).
  rewrite (proj1 (@finite_lift (S d) (pc_cov a)) Fa), (proj1 (@finite_lift (S d) _) Fm).
  rewrite lift_zero, !lift_add, !lift_sub. f_equal. apply mext. intros i j Hi Hj. unfold msub, madd, mzero. rewrite !get_tab by auto.
  cbn [ksub kadd k0 qs k_t]. ring.
Qed.

(** Between two places of a trajectory. *)
Lemma pd_between (a m : pcov G) : psd (pc_cov a : mat xs (S d)) -> pd (pc_cov m : mat xs (S d)) ->
  pc_between a (pc_comp a m) = PC G (pc_pose m) (pc_cov m) (pc_rot a && pc_rot m) /\
  pc_between (pc_comp a m) a = PC G (inv (pc_pose m)) (pc_cov m) (pc_rot a && pc_rot m).
Proof.
  intros Ha Hm.
  assert (Fa : finite (pc_cov a : mat xs (S d))) by apply Ha. assert (Fm : finite (pc_cov m : mat xs (S d))) by apply Hm.
  assert (PB : g_between G (pc_pose a) (pc_pose (pc_comp a m)) = pc_pose m) by (cbn [pc_comp pc_pose]; unfold g_between; apply pg_cancel_l; exact L).
  assert (PB' : g_between G (pc_pose (pc_comp a m)) (pc_pose a) = g_inv G (pc_pose m)) by (rewrite <- PB; symmetry; apply between_inv; exact L).
  assert (C1 : g_csub G (pc_cov (pc_comp a m)) (g_act G (g_inv G (pc_pose m)) (pc_cov a)) = pc_cov m).
  { cbn [pc_comp pc_cov]. apply (ca_sub A); auto. apply (ca_ok_act A). auto. }
  split; unfold pc_between; rewrite ?PB, ?PB', ?pg_inv_inv by exact L; rewrite C1; cbn [pc_comp pc_rot].
  - replace (g_llt_ok G (pc_cov m)) with true; [f_equal; destruct (pc_rot a), (pc_rot m); reflexivity|].
    symmetry. apply (proj2 (@llt_pd (S d) (pc_cov m) (proj1 Hm) (proj1 (proj2 Hm)))). exact Hm.
  - change (PC G) with (PC G). pose proof (@back_llt a m Ha (pd_psd Hm)) as B. rewrite B.
    f_equal. destruct (pc_rot a), (pc_rot m); reflexivity.
Qed.

Lemma self_between (a : pcov G) : psd (pc_cov a : mat xs (S d)) ->
  pc_between a a = PC G id (g_czero G) (pc_rot a).
Proof.
  intro Ha. assert (Fa : finite (pc_cov a : mat xs (S d))) by apply Ha.
  assert (PB : g_between G (pc_pose a) (pc_pose a) = id) by exact (pg_inv_l L (pc_pose a)).
  assert (PI : g_inv G id = id) by exact (pg_inv_id L).
  assert (AI : g_act G id (pc_cov a) = pc_cov a) by exact (ca_act_id A (pc_cov a) Fa).
  assert (C0 : g_csub G (pc_cov a) (pc_cov a) = g_czero G).
  { change (msub (pc_cov a : mat xs (S d)) (pc_cov a) = mzero).
    rewrite (proj1 (@finite_lift (S d) (pc_cov a)) Fa), lift_sub, lift_zero. f_equal.
    apply mext. intros i j Hi Hj. unfold msub, mzero. rewrite !get_tab by auto. cbn [ksub qs k0 k_t]. ring. }
  unfold pc_between. rewrite PB, PI, AI, C0.
  rewrite andb_diag. destruct (g_llt_ok G (g_czero G)); reflexivity.
Qed.

(** ** After any history *)
Variable pp : pcm_params.
Notation O := (cov_ops G pp).
Variable C : config.
Variable W : soracles O.
Notation start := (solver_init (O := O) true).

Theorem c33_lie h1 o h2 s1 rs1 s rs p fs vs c k0 x0 :
  run C W h1 start = Ok s1 rs1 -> run C W (h1 ++ o :: h2) start = Ok s rs -> s_pcm s = Some p ->
  call_of o = Some (fs, vs) -> not_mentioned c h1 -> robot_odoms C c [o] <> [] ->
  kfind k0 (s_vals s1) = Some (VPose x0) \/ kfind k0 vs = Some (VPose x0) ->
  let bs := robot_odoms C c (h1 ++ o :: h2) in
  chr k0 = c -> chain k0 bs -> (forall b m, In b bs -> pc_of G b = Some m -> pd (pc_cov m : mat xs (S d))) ->
  exists ds, Forall2 (fun b m => pc_of G b = Some m) bs ds /\
  forall i j, i <= j <= length bs ->
  let m := composite (stretch i j ds) in
  let rot := forallb (@pc_rot G) (firstn j ds) in
  tref p c (k0 + N.of_nat j)%N = pc_comp (pc_init G x0) (composite (firstn j ds)) /\
  sp_rel (tref p) c (k0 + N.of_nat i)%N (k0 + N.of_nat j)%N = PC G (pc_pose m) (pc_cov m) rot /\
  sp_rel (tref p) c (k0 + N.of_nat j)%N (k0 + N.of_nat i)%N = PC G (inv (pc_pose m)) (pc_cov m) rot /\
  psd (pc_cov m : mat xs (S d)).
Proof.
  intros R1 R2 Hp HC Hn Ho Hv bs H0 Hch HPD.
  assert (HOK : forall b m, In b bs -> pc_of G b = Some m -> finite (pc_cov m : mat xs (S d))).
  { intros b m Hb Hm. apply (HPD b m Hb Hm). }
  destruct (@c33_cov G pp C W L _ A h1 o h2 s1 rs1 s rs p fs vs c k0 x0 R1 R2 Hp HC Hn Ho Hv H0 Hch HOK) as (ds & D1 & D2).
  exists ds. split; [exact D1|]. intros i j Hij m rot. destruct (D2 i j Hij) as (E1 & E2 & E3).
  assert (PD : Forall (fun x : pcov G => pd (pc_cov x : mat xs (S d))) ds).
  { clear - D1 HPD. fold bs in D1. induction D1 as [|b x bs ds Hb D1 IH]; constructor.
    - apply (HPD b x); cbn; auto.
    - apply IH. intros b' x' Hin. apply HPD. cbn; auto. }
  assert (PS : Forall (fun x : pcov G => psd (pc_cov x : mat xs (S d))) ds) by (eapply Forall_impl; [|exact PD]; intros; apply pd_psd; auto).
  assert (Z : psd (pc_cov (pc_default G) : mat xs (S d))) by apply psd_zero.
  assert (Pm : psd (pc_cov m : mat xs (S d))) by (apply psd_fold; [exact Z|apply Forall_stretch; exact PS]).
  assert (Er : composite (firstn j ds) = pc_comp (composite (firstn i ds)) m).
  { assert (LB : length bs = @length (pcov G) ds) by (eapply Forall2_len; exact D1).
    unfold composite. rewrite (@firstn_stretch _ i j ds) by lia. rewrite fold_left_app. apply (cov_fold_assoc L A).
    - apply psd_fold; [exact Z|apply Forall_firstn'; exact PS].
    - apply Forall_stretch. eapply Forall_impl; [|exact PS]. intros a Ha. apply Ha. }
  destruct (Nat.eq_dec i j) as [->|Nij].
  - assert (Em : m = pc_default G) by (unfold m, composite, stretch; rewrite Nat.sub_diag; reflexivity).
    split; [exact E1|]. rewrite Em. cbn [pc_default pc_pose pc_cov].
    assert (SB : sp_rel (tref p) c (k0 + N.of_nat j)%N (k0 + N.of_nat j)%N = PC G id (g_czero G) rot).
    { unfold sp_rel. rewrite N.eqb_refl.
      assert (HF : chr (k0 + N.of_nat j)%N = c).
      { apply (@chain_chr O c k0 bs H0 Hch); [apply robot_odoms_to|lia]. }
      rewrite E1.
      assert (SB := @self_between (pc_comp (pc_init G x0) (composite (firstn j ds)))).
      change (t_between O) with (@pc_between G). rewrite SB.
      - f_equal. cbn [pc_comp pc_init pc_rot andb]. unfold rot, composite. clear.
        assert (FR : forall xs t0, pc_rot (fold_left (@pc_comp G) xs t0) = pc_rot t0 && forallb (@pc_rot G) xs).
        { induction xs as [|x xs IH]; intro t0; cbn [fold_left forallb]; [rewrite andb_true_r; auto|].
          rewrite IH. cbn [pc_comp pc_rot]. rewrite andb_assoc. auto. }
        rewrite FR. reflexivity.
      - apply psd_comp; [apply psd_zero|]. apply psd_fold; [exact Z|apply Forall_firstn'; exact PS]. }
    split; [exact SB|]. split; [|exact Z]. rewrite SB. f_equal. symmetry. exact (pg_inv_id L).
  - assert (Dm : pd (pc_cov m : mat xs (S d))).
    { apply pd_fold; [exact Z| |apply Forall_stretch; exact PD].
      assert (LB : length bs = @length (pcov G) ds) by (eapply Forall2_len; exact D1).
      intro E. assert (X : length (stretch i j ds) = 0) by (rewrite E; reflexivity).
      unfold stretch in X. rewrite firstn_length, skipn_length in X.
      assert (Hlt : forall a b : nat, Nat.min (j - i) (a - i) = 0 -> b = a -> i <= j <= b -> False) by (clear - Nij; intros; lia).
      exact (Hlt _ _ X LB Hij). }
    split; [exact E1|]. split; [|split; [|exact Pm]].
    + apply E2. apply (proj2 (@llt_pd (S d) (pc_cov m) (proj1 Dm) (proj1 (proj2 Dm)))). exact Dm.
    + apply E3. clear E2 E3.
      assert (Ei : tref p c (k0 + N.of_nat i)%N = pc_comp (pc_init G x0) (composite (firstn i ds))) by (apply (D2 i i); split; [apply le_n|eapply Nat.le_trans; [exact (proj1 Hij)|exact (proj2 Hij)]]).
      rewrite Ei, E1, Er.
      assert (AS : pc_comp (pc_init G x0) (pc_comp (composite (firstn i ds)) m) = pc_comp (pc_comp (pc_init G x0) (composite (firstn i ds))) m).
      { assert (Fi : psd (pc_cov (composite (firstn i ds)) : mat xs (S d))) by (apply psd_fold; [exact Z|apply Forall_firstn'; exact PS]).
        assert (F0 : finite (pc_cov (pc_init G x0) : mat xs (S d))) by exact (ca_ok_zero A).
        assert (F1 : finite (pc_cov (composite (firstn i ds)) : mat xs (S d))) by apply Fi.
        assert (F2 : finite (pc_cov m : mat xs (S d))) by apply Pm.
        symmetry. exact (@cov_comp_assoc G L _ A (pc_init G x0) (composite (firstn i ds)) m F0 F1 F2). }
      rewrite AS. apply back_llt; [|exact Pm]. apply psd_comp; [apply psd_zero|]. apply psd_fold; [exact Z|apply Forall_firstn'; exact PS].
Qed.
End Lie.
