(** * The Mahalanobis distance *)
From Coq Require Import ZArith QArith Qcanon Bool List Lia Lqa Field.
From Verif Require Import Prelude Num Keys KMap UMap Geometry Factors Clique Pcm Params Solver
  PcmSpec HistSpec PcmProofs TrajProofs AlgProofs TrajRel Lie LieProofs LiePoses LieSpec LieCov LiePd LieTraj LieExact Rounding.
Set Implicit Arguments.
Local Open Scope nat_scope.

Definition dotp (n : nat) (u v : nat -> Qc) : Qc := qsum n (fun i => u i * v i)%Qc.

Lemma form_solves n (c : mat xs n) w v : solves c w v -> form c w = dotp n w v.
Proof.
  intro H. unfold form, dotp. change (@ksum qs) with qsum. apply qsum_ext. intros i Hi. rewrite <- (H i Hi). change (@ksum qs) with qsum.
  rewrite <- qsum_mul_l. apply qsum_ext. intros j Hj. ring.
Qed.

Lemma form_diff n (c : mat xs n) w v z : symmetric c -> solves c w v ->
  form c (fun i => w i - z i)%Qc = (dotp n w v - (dotp n z v + dotp n z v) + form c z)%Qc.
Proof.
  intros SY H. unfold form, dotp. change (@ksum qs) with qsum.
  assert (E1 : qsum n (fun i => w i * v i)%Qc = qsum n (fun i => qsum n (fun j => w i * num (get c i j) * w j)%Qc)).
  { apply qsum_ext. intros i Hi. rewrite <- (H i Hi). change (@ksum qs) with qsum. rewrite <- qsum_mul_l. apply qsum_ext. intros; ring. }
  assert (E2 : qsum n (fun i => z i * v i)%Qc = qsum n (fun i => qsum n (fun j => z i * num (get c i j) * w j)%Qc)).
  { apply qsum_ext. intros i Hi. rewrite <- (H i Hi). change (@ksum qs) with qsum. rewrite <- qsum_mul_l. apply qsum_ext. intros; ring. }
  assert (E3 : qsum n (fun i => z i * v i)%Qc = qsum n (fun i => qsum n (fun j => w i * num (get c i j) * z j)%Qc)).
  { rewrite E2, qsum_swap. apply qsum_ext. intros i Hi. apply qsum_ext. intros j Hj. rewrite (SY i j) by auto. ring. }
  rewrite E1. rewrite E2 at 1. rewrite E3. rewrite <- qsum_add, <- qsum_sub, <- qsum_add. apply qsum_ext. intros i Hi.
  rewrite <- qsum_add, <- qsum_sub, <- qsum_add. apply qsum_ext. intros j Hj. ring.
Qed.

Lemma qc_sq_step a b x : (0 <= a - (b + b) + x -> x <= b -> b <= a)%Qc.
Proof.
  unfold Qcminus. intros H1 H2. unfold Qcle, Qcplus, Qcopp, Q2Qc in *.
  cbn [this] in *. repeat rewrite Qred_correct in *. lra.
Qed.

(** More uncertainty, smaller distance. *)
Lemma distance_wider n (c c' : mat xs n) v q q' : psd c -> wider c c' -> distance_sq c v q -> distance_sq c' v q' -> (q' <= q)%Qc.
Proof.
  intros (F & SY & H) (_ & _ & HW) (w & S1 & ->) (w' & S2 & ->).
  pose proof (H (fun i => w i - w' i)%Qc) as X. rewrite (form_diff w' SY S1) in X.
  rewrite (form_solves S1). specialize (HW w'). rewrite (form_solves S2) in *. eapply qc_sq_step; eauto.
Qed.
Lemma distance_unique n (c : mat xs n) v q q' : psd c -> distance_sq c v q -> distance_sq c v q' -> q = q'.
Proof.
  intros H D D'. assert (W : wider c c) by (destruct H as (F & _); split; [auto|split; [auto|]]; intro; apply Qcle_refl).
  apply Qcle_antisym; eapply distance_wider; eauto.
Qed.
Lemma distance_nonneg n (c : mat xs n) v q : psd c -> distance_sq c v q -> (0 <= q)%Qc.
Proof. intros (_ & _ & H) (w & _ & ->). apply H. Qed.
Lemma distance_zero n (c : mat xs n) v q : pd c -> distance_sq c v q -> (q = Q2Qc 0 <-> forall i, i < n -> v i = Q2Qc 0).
Proof.
  intros H (w & S1 & ->). split.
  - intros E i Hi. destruct H as (_ & _ & H). destruct (nonzero_dec n w) as [N|N].
    + apply H in N. rewrite E in N. exfalso. exact (Qclt_not_eq _ _ N eq_refl).
    + rewrite <- (S1 i Hi). change (@ksum qs) with qsum. transitivity (qsum n (fun _ => Q2Qc 0)); [|apply qsum_0].
      apply qsum_ext. intros j Hj. rewrite (N j Hj). ring.
  - intro Z. rewrite (form_solves S1). unfold dotp. transitivity (qsum n (fun _ => Q2Qc 0)); [|apply qsum_0].
    apply qsum_ext. intros j Hj. rewrite (Z j Hj). ring.
Qed.

(** The quadratic form with the inverse matrix. *)
Lemma qform_distance mi n (A : nat -> nat -> xq) v : inverts mi -> pd (@tab xs n A) ->
  exists q, qform n v (mi n A) = Some q /\ distance_sq (@tab xs n A) v q.
Proof.
  intros MI H. destruct (MI n A H) as (B & HB & AB).
  set (w := fun i => qsum n (fun j => get B i j * v j)%Qc).
  exists (dotp n w v). split.
  - unfold qform.
    transitivity (@ksum xs n (fun i => Some (qsum n (fun j => v i * get B i j * v j)%Qc))).
    { apply (@ksum_ext xs). intros i Hi. unfold qsum. rewrite <- ksum_some. apply (@ksum_ext xs). intros j Hj. rewrite HB by auto. reflexivity. }
    rewrite ksum_some. f_equal. change (@ksum qs) with qsum. unfold dotp, w. apply qsum_ext. intros i Hi.
    rewrite <- qsum_mul_r. apply qsum_ext. intros; ring.
  - exists w. assert (S1 : solves (@tab xs n A) w v); [|split; [exact S1|symmetry; apply form_solves; exact S1]].
    intros i Hi. change (@ksum qs) with qsum. unfold w.
    transitivity (qsum n (fun j => qsum n (fun k => num (get (@tab xs n A) i j) * (get B j k * v k)))%Qc).
    { apply qsum_ext. intros j Hj. rewrite <- qsum_mul_l. reflexivity. }
    rewrite qsum_swap.
    transitivity (qsum n (fun k => (if i =? k then Q2Qc 1 else Q2Qc 0) * v k)%Qc).
    { apply qsum_ext. intros k Hk. assert (E : get (mmul (@tab qs n (fun i j => num (A i j))) B) i k = get (@mone qs n) i k) by (rewrite AB; reflexivity).
      unfold mmul, mone in E. rewrite !get_tab in E by auto. cbn [k1 k0 qs] in E.
      transitivity (qsum n (fun j => num (A i j) * get B j k * v k)%Qc).
      { apply qsum_ext. intros j Hj. rewrite get_tab by auto. ring. }
      rewrite qsum_mul_r. f_equal. refine (eq_trans _ E). change (@ksum qs) with qsum. apply qsum_ext. intros j Hj. rewrite get_tab by auto. reflexivity. }
    exact (@ksum_delta_l qs qs_ring n i v Hi).
Qed.

Lemma block_form n r t (c : mat xs n) u : n = r + t -> form (block r t c) u = form c (fun k => if k <? r then Q2Qc 0 else u (k - r)).
Proof.
  intro dims. subst n.
  set (v := fun k => if k <? r then Q2Qc 0 else u (k - r)).
  assert (Z : forall k, k < r -> v k = Q2Qc 0).
  { intros k Hk. unfold v. replace (k <? r) with true by (symmetry; apply Nat.ltb_lt; lia). reflexivity. }
  assert (Y : forall k, v (r + k) = u k).
  { intro k. unfold v. replace (r + k <? r) with false by (symmetry; apply Nat.ltb_ge; lia). f_equal. lia. }
  unfold form. change (@ksum qs) with qsum. symmetry. rewrite qsum_shift.
  2:{ intros k Hk. transitivity (qsum (r + t) (fun _ => Q2Qc 0)); [|apply qsum_0]. apply qsum_ext. intros l Hl.
      rewrite (Z k) by auto. rewrite !Qcmult_0_l. reflexivity. }
  apply qsum_ext. intros k Hk. rewrite qsum_shift.
  2:{ intros l Hl. rewrite (Z l) by auto. rewrite Qcmult_0_r. reflexivity. }
  apply qsum_ext. intros l Hl. unfold block. rewrite !Y, get_tab by auto. reflexivity.
Qed.
(** ** The tests *)
Section Lie.
Variables (P : Type) (id : P) (comp : P -> P -> P) (inv : P -> P) (d r t : nat) (ad : P -> mat qs (S d)).
Variables (lg : P -> nat -> Qc) (mi : nat -> (nat -> nat -> xq) -> nat -> nat -> xq).
Notation G := (@lie_geom P id comp inv (S d) r t ad lg mi).
Hypothesis L : pose_group G.
Hypothesis ad_id : ad id = mone.
Hypothesis ad_comp : forall a b, ad (comp a b) = mmul (ad a) (ad b).
Hypothesis dims : S d = r + t.
Hypothesis MI : inverts mi.
Notation cov c := (c : mat xs (S d)) (only parsing).

Lemma maha_distance p (c : mat xs (S d)) : pd c ->
  (exists q, maha_form (S d) r t lg mi p c true = Some q /\ distance_sq c (lg p) q) /\
  (exists q, maha_form (S d) r t lg mi p c false = Some q /\ distance_sq (block r t c) (fun i => lg p (r + i)) q).
Proof.
  intro H. split.
  - destruct (@qform_distance mi (S d) (get c) (lg p) MI) as (q & E & D); [rewrite tab_get; exact H|].
    rewrite tab_get in D. exists q. split; [exact E|exact D].
  - destruct (@qform_distance mi t (fun i j => get c (r + i) (r + j)) (fun i => lg p (r + i)) MI) as (q & E & D);
      [exact (@pd_block (S d) r t c dims H)|].
    exists q. split; [|exact D]. unfold maha_form. replace (S d - t) with r by lia. exact E.
Qed.

Lemma wider_block (c c' : mat xs (S d)) : wider c c' -> wider (block r t c) (block r t c').
Proof.
  intros (F & F' & H). split; [|split].
  - intros i j Hi Hj. unfold block. rewrite get_tab by auto. apply F; lia.
  - intros i j Hi Hj. unfold block. rewrite get_tab by auto. apply F'; lia.
  - intro u. rewrite !block_form by exact dims. apply H.
Qed.
Lemma wider_add (a a' b b' : mat xs (S d)) : wider a a' -> wider b b' -> wider (madd a b) (madd a' b').
Proof.
  intros (F1 & F1' & H1) (F2 & F2' & H2). split; [apply finite_add; auto|]. split; [apply finite_add; auto|].
  intro u. rewrite !form_add by auto. apply Qcplus_le_compat; auto.
Qed.
Lemma wider_refl (c : mat xs (S d)) : finite c -> wider c c.
Proof. intro F. split; auto. split; auto. intro. apply Qcle_refl. Qed.
Lemma wider_act p (c c' : mat xs (S d)) : wider c c' -> wider (act (S d) ad p c) (act (S d) ad p c').
Proof.
  intros (F & F' & H). pose proof (proj1 (@finite_lift _ c) F) as E. pose proof (proj1 (@finite_lift _ c') F') as E'.
  rewrite E, E', !act_lift. split; [apply lift_finite|]. split; [apply lift_finite|]. intro u. rewrite !form_lift_transport, <- E, <- E'. apply H.
Qed.
Lemma wider_comp (a a' b b' : pcov G) : pc_pose b = pc_pose b' -> wider (pc_cov a : mat xs (S d)) (pc_cov a' : mat xs (S d)) ->
  wider (pc_cov b : mat xs (S d)) (pc_cov b' : mat xs (S d)) -> wider (pc_cov (pc_comp a b) : mat xs (S d)) (pc_cov (pc_comp a' b') : mat xs (S d)).
Proof.
  intros E Ha Hb. cbn [pc_comp pc_cov]. rewrite E. apply wider_add; [|exact Hb].
  apply (@wider_act (inv (pc_pose b')) (pc_cov a : mat xs (S d)) (pc_cov a' : mat xs (S d))). exact Ha.
Qed.

(** The distance of an error of a given pose shrinks. *)
Lemma maha_wider p (c c' : mat xs (S d)) full : pd c -> pd c' -> wider c c' ->
  exists q q', maha_form (S d) r t lg mi p c full = Some q /\ maha_form (S d) r t lg mi p c' full = Some q' /\ (0 <= q')%Qc /\ (q' <= q)%Qc.
Proof.
  intros H H' HW. destruct (maha_distance p H) as ((q & E & D) & (b & E2 & D2)). destruct (maha_distance p H') as ((q' & E' & D') & (b' & E2' & D2')).
  destruct full.
  - exists q, q'. split; auto. split; auto. split; [eapply distance_nonneg; [apply pd_psd; exact H'|exact D']|].
    eapply distance_wider; eauto. apply pd_psd. exact H.
  - exists b, b'. split; auto. split; auto.
    split; [eapply distance_nonneg; [apply pd_psd; apply (@pd_block (S d) r t c' dims H')|exact D2']|].
    eapply distance_wider; [apply pd_psd; apply (@pd_block (S d) r t c dims H)|apply wider_block; exact HW|exact D2|exact D2'].
Qed.

(** ** Whole tests *)
Definition looser (a a' : pcov G) : Prop :=
  pc_pose a = pc_pose a' /\ pc_rot a = pc_rot a' /\ wider (pc_cov a : mat xs (S d)) (pc_cov a' : mat xs (S d)).
Notation PSD a := (psd (pc_cov (a : pcov G) : mat xs (S d))).
Notation PD a := (pd (pc_cov (a : pcov G) : mat xs (S d))).

Lemma looser_inv a a' : looser a a' -> looser (pc_inv a) (pc_inv a').
Proof. intros (E1 & E2 & W). split; [|split]; cbn [pc_inv pc_pose pc_rot pc_cov]; [rewrite E1; reflexivity|exact E2|exact W]. Qed.
Lemma looser_comp a a' b b' : looser a a' -> looser b b' -> looser (pc_comp a b) (pc_comp a' b').
Proof.
  intros (E1 & E2 & W) (F1 & F2 & W'). split; [|split].
  - cbn [pc_comp pc_pose]. rewrite E1, F1. reflexivity.
  - cbn [pc_comp pc_rot]. rewrite E2, F2. reflexivity.
  - apply wider_comp; auto.
Qed.
Lemma pd_either a b : PSD a -> PSD b -> PD a \/ PD b -> PD (pc_comp a b).
Proof. intros Ha Hb [H|H]; [apply (@pd_comp_l P id comp inv d r t ad lg mi L ad_id ad_comp); auto|apply (@pd_comp_r P id comp inv d r t ad lg mi); auto]. Qed.

Lemma looser_test a a' th th' : looser a a' -> PD a -> PD a' -> SFleb th th' = true -> dlt (pc_maha a) th = true -> dlt (pc_maha a') th' = true.
Proof.
  intros (E1 & E2 & W) H H' HT X.
  destruct (@maha_wider (pc_pose a') (pc_cov a : mat xs (S d)) (pc_cov a' : mat xs (S d)) (pc_rot a') H H' W) as (q & q' & Q1 & Q2 & Q3 & Q4).
  assert (F : pc_maha a = dsqrt (dofQc q)).
  { unfold pc_maha. cbn [lie_geom g_maha_sq]. unfold maha_sq. rewrite E1, E2, Q1. reflexivity. }
  assert (F' : pc_maha a' = dsqrt (dofQc q')).
  { unfold pc_maha. cbn [lie_geom g_maha_sq]. unfold maha_sq. rewrite Q2. reflexivity. }
  rewrite F in X. rewrite F'. eapply lt_le_trans; [|exact HT]. eapply distance_test; eauto.
Qed.

Lemma odom_looser pp pp' ref ref' f f' m m' :
  let O := cov_ops G pp in let O' := cov_ops G pp' in
  pc_of G f = Some m -> pc_of G f' = Some m' -> b_from f = b_from f' -> b_to f = b_to f' -> looser m m' ->
  let rel := sp_rel (O := O) ref (chr (b_from f)) (b_from f) (b_to f) in
  let rel' := sp_rel (O := O') ref' (chr (b_from f)) (b_from f) (b_to f) in
  looser rel rel' -> PSD rel -> PSD rel' -> PSD m -> PSD m' -> PD rel \/ PD m -> PD rel' \/ PD m' ->
  SFleb (pp_odom pp) (pp_odom pp') = true ->
  sp_odom_test (O := O) ref f = Some true -> sp_odom_test (O := O') ref' f' = Some true.
Proof.
  intros O O' E E' K1 K2 LM.
  destruct f as [ka kb z n], f' as [ka' kb' z' n']. cbv beta iota delta [b_from b_to] in *. subst ka' kb'.
  intros rel rel' LR P1 P2 P3 P4 P5 P6 HT. unfold sp_odom_test.
  change (t_of O (BF ka kb z n)) with (pc_of G (BF ka kb z n)). change (t_of O' (BF ka kb z' n')) with (pc_of G (BF ka kb z' n')).
  rewrite E, E'. cbv beta iota delta [b_from b_to]. fold rel rel'.
  intro X. injection X as X. f_equal. change (dlt (pc_maha (pc_comp rel (pc_inv m))) (pp_odom pp) = true) in X.
  change (dlt (pc_maha (pc_comp rel' (pc_inv m'))) (pp_odom pp') = true).
  refine (@looser_test (pc_comp rel (pc_inv m)) (pc_comp rel' (pc_inv m')) _ _ _ _ _ HT X).
  - apply looser_comp; [exact LR|apply looser_inv; exact LM].
  - apply pd_either; auto.
  - apply pd_either; auto.
Qed.

Lemma loop_looser pp pp' ref ref' f1 f2 f1' f2' m1 m2 m1' m2' :
  let O := cov_ops G pp in let O' := cov_ops G pp' in
  pc_of G f1 = Some m1 -> pc_of G f2 = Some m2 -> pc_of G f1' = Some m1' -> pc_of G f2' = Some m2' ->
  b_from f1 = b_from f1' -> b_to f1 = b_to f1' -> b_from f2 = b_from f2' -> b_to f2 = b_to f2' -> looser m1 m1' -> looser m2 m2' ->
  let same := (chr (b_from f1) =? chr (b_from f2))%N in
  let c := if same then b_from f2 else b_to f2 in
  let e := if same then b_to f2 else b_from f2 in
  let r1 := sp_rel (O := O) ref (chr (b_from f1)) (b_from f1) c in
  let r2 := sp_rel (O := O) ref (chr (b_to f1)) (b_to f1) e in
  let r1' := sp_rel (O := O') ref' (chr (b_from f1)) (b_from f1) c in
  let r2' := sp_rel (O := O') ref' (chr (b_to f1)) (b_to f1) e in
  looser r1 r1' -> looser r2 r2' -> PSD r1 -> PSD r2 -> PSD r1' -> PSD r2' -> PSD m1 -> PSD m2 -> PSD m1' -> PSD m2' ->
  PD m1 \/ PD m2 -> PD m1' \/ PD m2' -> SFleb (pp_lc pp) (pp_lc pp') = true ->
  sp_loop_test (O := O) ref f1 f2 = Some true -> sp_loop_test (O := O') ref' f1' f2' = Some true.
Proof.
  intros O O' E1 E2 E1' E2' K1 K2 K3 K4 L1 L2.
  destruct f1 as [ka kb z1 n1], f2 as [kc kd z2 n2], f1' as [ka' kb' z1' n1'], f2' as [kc' kd' z2' n2']. cbv beta iota delta [b_from b_to] in *. subst ka' kb' kc' kd'.
  intros same c e r1 r2 r1' r2' LR1 LR2 P1 P2 P3 P4 P5 P6 P7 P8 P9 P10 HT. unfold sp_loop_test.
  change (t_of O (BF ka kb z1 n1)) with (pc_of G (BF ka kb z1 n1)). change (t_of O' (BF ka kb z1' n1')) with (pc_of G (BF ka kb z1' n1')).
  change (t_of O (BF kc kd z2 n2)) with (pc_of G (BF kc kd z2 n2)). change (t_of O' (BF kc kd z2' n2')) with (pc_of G (BF kc kd z2' n2')).
  rewrite E1, E2, E1', E2'. cbv beta iota delta [b_from b_to]. cbv zeta. fold same. fold c. fold e. fold r1 r2 r1' r2'.
  intro X. injection X as X. f_equal.
  change (dlt (pc_maha (pc_comp (pc_comp (pc_inv (pc_comp r1 m2)) m1) r2)) (pp_lc pp) = true) in X.
  change (dlt (pc_maha (pc_comp (pc_comp (pc_inv (pc_comp r1' m2')) m1') r2')) (pp_lc pp') = true).
  assert (PDS : forall a b c' e' : pcov G, PSD a -> PSD b -> PSD c' -> PSD e' -> PD c' \/ PD b -> PD (pc_comp (pc_comp (pc_inv (pc_comp a b)) c') e')).
  { intros a b c' e' A B C D H. apply pd_either; auto.
    - apply (@psd_comp P id comp inv d r t ad lg mi); auto. cbn [pc_inv pc_cov]. apply (@psd_comp P id comp inv d r t ad lg mi); auto.
    - left. apply pd_either; auto.
      + cbn [pc_inv pc_cov]. apply (@psd_comp P id comp inv d r t ad lg mi); auto.
      + destruct H as [H|H]; [right; exact H|left]. cbn [pc_inv pc_cov]. apply pd_either; auto. }
  refine (@looser_test _ _ _ _ _ _ _ HT X).
  - repeat apply looser_comp; auto. apply looser_inv. apply looser_comp; auto.
  - apply PDS; auto.
  - apply PDS; auto.
Qed.

(** ** Along a robot's odometry *)
Lemma looser_fold ds ds' : Forall2 looser ds ds' -> forall a a', looser a a' -> looser (fold_left (@pc_comp G) ds a) (fold_left (@pc_comp G) ds' a').
Proof. intro F. induction F; intros a a' H'; cbn [fold_left]; [exact H'|]. apply IHF. apply looser_comp; auto. Qed.
Lemma Forall2_firstn_l A B (Q : A -> B -> Prop) n : forall l l', Forall2 Q l l' -> Forall2 Q (firstn n l) (firstn n l').
Proof. induction n as [|n IH]; intros l l' F; cbn [firstn]; [constructor|]. destruct F; constructor; auto. Qed.
Lemma Forall2_skipn_l A B (Q : A -> B -> Prop) n : forall l l', Forall2 Q l l' -> Forall2 Q (skipn n l) (skipn n l').
Proof. induction n as [|n IH]; intros l l' F; cbn [skipn]; [exact F|]. destruct F; auto. Qed.
Lemma looser_rot ds ds' : Forall2 looser ds ds' -> forallb (@pc_rot G) ds = forallb (@pc_rot G) ds'.
Proof. intro F. induction F as [|a a' ds ds' (_ & E & _) F IH]; cbn [forallb]; [reflexivity|]. rewrite E, IH. reflexivity. Qed.
Lemma looser_default : looser (pc_default G) (pc_default G).
Proof. split; [reflexivity|]. split; [reflexivity|]. apply wider_refl. exact (proj1 (@psd_zero (S d))). Qed.

Lemma rel_looser pp pp' C C' (W : soracles (cov_ops G pp)) (W' : soracles (cov_ops G pp')) h1 o h2 s1 rs1 s rs p fs vs x0 h1' o' h2' s1' rs1' s' rs' p' fs' vs' x0' c k0 :
  run C W h1 (solver_init true) = Ok s1 rs1 -> run C W (h1 ++ o :: h2) (solver_init true) = Ok s rs -> s_pcm s = Some p ->
  call_of o = Some (fs, vs) -> not_mentioned c h1 -> robot_odoms C c [o] <> [] ->
  kfind k0 (s_vals s1) = Some (VPose x0) \/ kfind k0 vs = Some (VPose x0) ->
  run C' W' h1' (solver_init true) = Ok s1' rs1' -> run C' W' (h1' ++ o' :: h2') (solver_init true) = Ok s' rs' -> s_pcm s' = Some p' ->
  call_of o' = Some (fs', vs') -> not_mentioned c h1' -> robot_odoms C' c [o'] <> [] ->
  kfind k0 (s_vals s1') = Some (VPose x0') \/ kfind k0 vs' = Some (VPose x0') ->
  let bs := robot_odoms C c (h1 ++ o :: h2) in
  let bs' := robot_odoms C' c (h1' ++ o' :: h2') in
  chr k0 = c -> chain k0 bs -> chain k0 bs' ->
  Forall2 (fun b b' => exists m m', pc_of G b = Some m /\ pc_of G b' = Some m' /\ PD m /\ PD m' /\ looser m m') bs bs' ->
  forall i j, i <= length bs -> j <= length bs ->
  let rel := sp_rel (O := cov_ops G pp) (tref p) c (k0 + N.of_nat i)%N (k0 + N.of_nat j)%N in
  let rel' := sp_rel (O := cov_ops G pp') (tref p') c (k0 + N.of_nat i)%N (k0 + N.of_nat j)%N in
  looser rel rel' /\ PSD rel /\ PSD rel'.
Proof.
  intros R1 R2 Hp HC Hn Ho Hv R1' R2' Hp' HC' Hn' Ho' Hv' bs bs' H0 Hch Hch' F.
  assert (HPD : forall b m, In b bs -> pc_of G b = Some m -> PD m).
  { intros b m HB HM. clear - F HB HM. induction F as [|x x' l l' (n & n' & E & E' & P1 & P2 & LL) F IH]; [destruct HB|].
    destruct HB as [->|HB]; [|auto]. replace m with n by congruence. exact P1. }
  assert (HPD' : forall b m, In b bs' -> pc_of G b = Some m -> PD m).
  { intros b m HB HM. clear - F HB HM. induction F as [|x x' l l' (n & n' & E & E' & P1 & P2 & LL) F IH]; [destruct HB|].
    destruct HB as [->|HB]; [|auto]. replace m with n' by congruence. exact P2. }
  destruct (@c33_lie P id comp inv d r t ad lg mi L ad_id ad_comp pp C W h1 o h2 s1 rs1 s rs p fs vs c k0 x0 R1 R2 Hp HC Hn Ho Hv H0 Hch HPD) as (ds & D1 & D2).
  destruct (@c33_lie P id comp inv d r t ad lg mi L ad_id ad_comp pp' C' W' h1' o' h2' s1' rs1' s' rs' p' fs' vs' c k0 x0' R1' R2' Hp' HC' Hn' Ho' Hv' H0 Hch' HPD') as (ds' & D1' & D2').
  fold bs in D1, D2. fold bs' in D1', D2'.
  assert (LEN : length bs = length bs') by (clear - F; induction F; cbn; congruence).
  assert (LL : Forall2 looser ds ds').
  { clear - F D1 D1'. revert ds ds' D1 D1'. induction F as [|x x' l l' (n & n' & E & E' & P1 & P2 & LL) F IH]; intros ds ds' D1 D1'.
    - inversion D1; inversion D1'; constructor.
    - inversion D1 as [|? y ? l1 Y Z]; subst. inversion D1' as [|? y' ? l1' Y' Z']; subst. constructor; [|apply IH; auto].
      assert (y = n) by congruence. assert (y' = n') by congruence. subst. exact LL. }
  assert (CO : forall i j, looser (composite (stretch i j ds)) (composite (stretch i j ds'))).
  { intros i j. unfold composite. apply looser_fold; [|apply looser_default]. unfold stretch. apply Forall2_firstn_l. apply Forall2_skipn_l. exact LL. }
  assert (RO : forall j, forallb (@pc_rot G) (firstn j ds) = forallb (@pc_rot G) (firstn j ds')).
  { intro j. apply looser_rot. apply Forall2_firstn_l. exact LL. }
  intros i j Hi Hj. destruct (Nat.le_ge_cases i j) as [Hij|Hij].
  - destruct (D2 i j (conj Hij Hj)) as (_ & A & _ & PA). destruct (D2' i j ltac:(lia)) as (_ & A' & _ & PA').
    destruct (CO i j) as (Q1 & Q2 & Q3). cbv zeta. rewrite A, A'. split; [|split; [exact PA|exact PA']].
    split; [exact Q1|]. split; [apply RO|exact Q3].
  - destruct (D2 j i (conj Hij Hi)) as (_ & _ & A & PA). destruct (D2' j i ltac:(lia)) as (_ & _ & A' & PA').
    destruct (CO j i) as (Q1 & Q2 & Q3). cbv zeta. rewrite A, A'. split; [|split; [exact PA|exact PA']].
    split; [cbn [pc_pose]; f_equal; exact Q1|]. split; [apply RO|exact Q3].
Qed.
End Lie.
