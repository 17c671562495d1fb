(** * Looser tests: C69, C70 *)
From Coq Require Import ZArith QArith Qcanon Bool List Lia.
From Verif Require Import Prelude Num Keys KMap UMap Geometry Factors Clique Pcm Params Solver Grid
  PcmSpec HistSpec PcmProofs TrajProofs AlgProofs TrajRel Scenes
  Lie LiePoses LieSpec LieProofs LieCov LiePd LieTraj LieErr LieInv LieExact LieScenes LieMaha Rounding PropLie.
Local Open Scope nat_scope.

(** ** The distance is Mahalanobis' *)
(** The number that [mahalanobisNorm] takes the square root of, before it is rounded: [v^T c^-1 v] where
    [v] is the logarithm and [c] the covariance, or their translation parts. *)
Theorem C69_distance_2d : forall (N : numerics pose2) p (c : mat xs 3), inverts (minv N) -> pd c ->
  (exists q, maha_form 3 1 2 (logmap N) (minv N) p c true = Some q /\ distance_sq c (logmap N p) q) /\
  (exists q, maha_form 3 1 2 (logmap N) (minv N) p c false = Some q /\ distance_sq (block 1 2 c) (fun i => logmap N p (1 + i)) q).
Proof. intros N p c MI. exact (@maha_distance pose2 2 1 2 (logmap N) (minv N) eq_refl MI p c). Qed.
Print Assumptions C69_distance_2d.
Theorem C69_distance_3d : forall (N : numerics pose3) p (c : mat xs 6), inverts (minv N) -> pd c ->
  (exists q, maha_form 6 3 3 (logmap N) (minv N) p c true = Some q /\ distance_sq c (logmap N p) q) /\
  (exists q, maha_form 6 3 3 (logmap N) (minv N) p c false = Some q /\ distance_sq (block 3 3 c) (fun i => logmap N p (3 + i)) q).
Proof. intros N p c MI. exact (@maha_distance pose3 5 3 3 (logmap N) (minv N) eq_refl MI p c). Qed.
Print Assumptions C69_distance_3d.

(** It is one number, positive except for the identity. *)
Theorem C69_distance_sound : forall n (c : mat xs n) v q, pd c -> distance_sq c v q ->
  (Q2Qc 0 <= q)%Qc /\ (q = Q2Qc 0 <-> (forall i, i < n -> v i = Q2Qc 0)) /\ (forall q', distance_sq c v q' -> q' = q).
Proof.
  intros n c v q H D. split; [exact (distance_nonneg (pd_psd H) D)|]. split; [exact (distance_zero H D)|].
  intros q' D'. exact (distance_unique (pd_psd H) D' D).
Qed.
Print Assumptions C69_distance_sound.

(** ** Wider covariances and larger thresholds *)
(** [a'] has the pose of [a] and at least its uncertainty. *)
Definition looser2 N (a a' : pcov (geom2 N)) : Prop :=
  pc_pose a = pc_pose a' /\ pc_rot a = pc_rot a' /\ wider (pc_cov a : mat xs 3) (pc_cov a' : mat xs 3).
Definition looser3 N (a a' : pcov (geom3 N)) : Prop :=
  pc_pose a = pc_pose a' /\ pc_rot a = pc_rot a' /\ wider (pc_cov a : mat xs 6) (pc_cov a' : mat xs 6).

Theorem C69_odometry_test_2d : forall N pp pp', inverts (minv N) -> SFleb (pp_odom pp) (pp_odom pp') = true ->
  forall (ref : BinNums.N -> key -> t_T (pcm2d N pp)) (ref' : BinNums.N -> key -> t_T (pcm2d N pp')) f f' m m', let G := geom2 N in
  pc_of G f = Some m -> pc_of G f' = Some m' -> b_from f = b_from f' -> b_to f = b_to f' -> looser2 N m m' ->
  let rel := sp_rel ref (chr (b_from f)) (b_from f) (b_to f) : pcov G in
  let rel' := sp_rel ref' (chr (b_from f)) (b_from f) (b_to f) : pcov G in
  looser2 N rel rel' -> psd (pc_cov rel : mat xs 3) -> psd (pc_cov rel' : mat xs 3) ->
  psd (pc_cov m : mat xs 3) -> psd (pc_cov m' : mat xs 3) ->
  pd (pc_cov rel : mat xs 3) \/ pd (pc_cov m : mat xs 3) -> pd (pc_cov rel' : mat xs 3) \/ pd (pc_cov m' : mat xs 3) ->
  sp_odom_test (O := pcm2d N pp) ref f = Some true -> sp_odom_test (O := pcm2d N pp') ref' f' = Some true.
Proof.
  intros N pp pp' MI HT ref ref' f f' m m' G E E' K1 K2 LM rel rel' LR P1 P2 P3 P4 P5 P6.
  exact (@odom_looser pose2 p2_id p2_comp p2_inv 2 1 2 _ (logmap N) (minv N) (geom2_group N) ad2_id ad2_comp eq_refl MI pp pp' ref ref' f f' m m' E E' K1 K2 LM LR P1 P2 P3 P4 P5 P6 HT).
Qed.
Print Assumptions C69_odometry_test_2d.

Theorem C69_pairwise_test_2d : forall N pp pp', inverts (minv N) -> SFleb (pp_lc pp) (pp_lc pp') = true ->
  forall (ref : BinNums.N -> key -> t_T (pcm2d N pp)) (ref' : BinNums.N -> key -> t_T (pcm2d N pp')) f1 f2 f1' f2' m1 m2 m1' m2', let G := geom2 N in
  pc_of G f1 = Some m1 -> pc_of G f2 = Some m2 -> pc_of G f1' = Some m1' -> pc_of G f2' = Some m2' ->
  b_from f1 = b_from f1' -> b_to f1 = b_to f1' -> b_from f2 = b_from f2' -> b_to f2 = b_to f2' -> looser2 N m1 m1' -> looser2 N m2 m2' ->
  let same := (chr (b_from f1) =? chr (b_from f2))%N in
  let c := if same then b_from f2 else b_to f2 in
  let e := if same then b_to f2 else b_from f2 in
  let r1 := sp_rel ref (chr (b_from f1)) (b_from f1) c : pcov G in
  let r2 := sp_rel ref (chr (b_to f1)) (b_to f1) e : pcov G in
  let r1' := sp_rel ref' (chr (b_from f1)) (b_from f1) c : pcov G in
  let r2' := sp_rel ref' (chr (b_to f1)) (b_to f1) e : pcov G in
  looser2 N r1 r1' -> looser2 N r2 r2' ->
  Forall (fun x : pcov G => psd (pc_cov x : mat xs 3)) [r1; r2; r1'; r2'; m1; m2; m1'; m2'] ->
  pd (pc_cov m1 : mat xs 3) \/ pd (pc_cov m2 : mat xs 3) -> pd (pc_cov m1' : mat xs 3) \/ pd (pc_cov m2' : mat xs 3) ->
  sp_loop_test (O := pcm2d N pp) ref f1 f2 = Some true -> sp_loop_test (O := pcm2d N pp') ref' f1' f2' = Some true.
Proof.
  intros N pp pp' MI HT ref ref' f1 f2 f1' f2' m1 m2 m1' m2' G E1 E2 E1' E2' K1 K2 K3 K4 LM1 LM2 same c e r1 r2 r1' r2' LR1 LR2 FP P9 P10.
  assert (Q := proj1 (Forall_forall _ _) FP). cbn [In] in Q.
  exact (@loop_looser pose2 p2_id p2_comp p2_inv 2 1 2 _ (logmap N) (minv N) (geom2_group N) ad2_id ad2_comp eq_refl MI pp pp' ref ref' f1 f2 f1' f2' m1 m2 m1' m2' E1 E2 E1' E2'
    K1 K2 K3 K4 LM1 LM2 LR1 LR2 (Q r1 ltac:(auto)) (Q r2 ltac:(auto)) (Q r1' ltac:(auto)) (Q r2' ltac:(auto 10)) (Q m1 ltac:(auto 10)) (Q m2 ltac:(auto 10)) (Q m1' ltac:(auto 10)) (Q m2' ltac:(auto 12)) P9 P10 HT).
Qed.
Print Assumptions C69_pairwise_test_2d.

(** Where the relative poses come from: two histories whose odometry factors of robot [c] have the same
    poses, those of the second history wider covariances. *)
Theorem C69_along_odometry_2d : forall N pp pp' C C' (W : soracles (pcm2d N pp)) (W' : soracles (pcm2d N pp'))
    h1 o h2 s1 rs1 s rs p fs vs x0 h1' o' h2' s1' rs1' s' rs' p' fs' vs' x0' c k0, let G := geom2 N in
  run C W h1 (solver_init true) = Ok s1 rs1 -> run C W (h1 ++ o :: h2) (solver_init true) = Ok s rs -> s_pcm s = Some p ->
  call_of o = Some (fs, vs) -> not_mentioned c h1 -> robot_odoms C c [o] <> [] ->
  kfind k0 (s_vals s1) = Some (VPose x0) \/ kfind k0 vs = Some (VPose x0) ->
  run C' W' h1' (solver_init true) = Ok s1' rs1' -> run C' W' (h1' ++ o' :: h2') (solver_init true) = Ok s' rs' -> s_pcm s' = Some p' ->
  call_of o' = Some (fs', vs') -> not_mentioned c h1' -> robot_odoms C' c [o'] <> [] ->
  kfind k0 (s_vals s1') = Some (VPose x0') \/ kfind k0 vs' = Some (VPose x0') ->
  let bs := robot_odoms C c (h1 ++ o :: h2) in
  let bs' := robot_odoms C' c (h1' ++ o' :: h2') in
  chr k0 = c -> chain k0 bs -> chain k0 bs' ->
  Forall2 (fun b b' => exists m m', pc_of G b = Some m /\ pc_of G b' = Some m' /\ pd (pc_cov m : mat xs 3) /\ pd (pc_cov m' : mat xs 3) /\ looser2 N m m') bs bs' ->
  forall i j, i <= length bs -> j <= length bs ->
  let rel := sp_rel (tref p) c (k0 + N.of_nat i)%N (k0 + N.of_nat j)%N : pcov G in
  let rel' := sp_rel (tref p') c (k0 + N.of_nat i)%N (k0 + N.of_nat j)%N : pcov G in
  looser2 N rel rel' /\ psd (pc_cov rel : mat xs 3) /\ psd (pc_cov rel' : mat xs 3).
Proof.
  intro N. exact (@rel_looser pose2 p2_id p2_comp p2_inv 2 1 2 _ (logmap N) (minv N) (geom2_group N) ad2_id ad2_comp eq_refl).
Qed.
Print Assumptions C69_along_odometry_2d.

Theorem C69_odometry_test_3d : forall N pp pp', inverts (minv N) -> SFleb (pp_odom pp) (pp_odom pp') = true ->
  forall (ref : BinNums.N -> key -> t_T (pcm3d N pp)) (ref' : BinNums.N -> key -> t_T (pcm3d N pp')) f f' m m', let G := geom3 N in
  pc_of G f = Some m -> pc_of G f' = Some m' -> b_from f = b_from f' -> b_to f = b_to f' -> looser3 N m m' ->
  let rel := sp_rel ref (chr (b_from f)) (b_from f) (b_to f) : pcov G in
  let rel' := sp_rel ref' (chr (b_from f)) (b_from f) (b_to f) : pcov G in
  looser3 N rel rel' -> psd (pc_cov rel : mat xs 6) -> psd (pc_cov rel' : mat xs 6) ->
  psd (pc_cov m : mat xs 6) -> psd (pc_cov m' : mat xs 6) ->
  pd (pc_cov rel : mat xs 6) \/ pd (pc_cov m : mat xs 6) -> pd (pc_cov rel' : mat xs 6) \/ pd (pc_cov m' : mat xs 6) ->
  sp_odom_test (O := pcm3d N pp) ref f = Some true -> sp_odom_test (O := pcm3d N pp') ref' f' = Some true.
Proof.
  intros N pp pp' MI HT ref ref' f f' m m' G E E' K1 K2 LM rel rel' LR P1 P2 P3 P4 P5 P6.
  exact (@odom_looser pose3 p3_id p3_comp p3_inv 5 3 3 _ (logmap N) (minv N) (geom3_group N) ad3_id ad3_comp eq_refl MI pp pp' ref ref' f f' m m' E E' K1 K2 LM LR P1 P2 P3 P4 P5 P6 HT).
Qed.
Print Assumptions C69_odometry_test_3d.

Theorem C69_pairwise_test_3d : forall N pp pp', inverts (minv N) -> SFleb (pp_lc pp) (pp_lc pp') = true ->
  forall (ref : BinNums.N -> key -> t_T (pcm3d N pp)) (ref' : BinNums.N -> key -> t_T (pcm3d N pp')) f1 f2 f1' f2' m1 m2 m1' m2', let G := geom3 N in
  pc_of G f1 = Some m1 -> pc_of G f2 = Some m2 -> pc_of G f1' = Some m1' -> pc_of G f2' = Some m2' ->
  b_from f1 = b_from f1' -> b_to f1 = b_to f1' -> b_from f2 = b_from f2' -> b_to f2 = b_to f2' -> looser3 N m1 m1' -> looser3 N m2 m2' ->
  let same := (chr (b_from f1) =? chr (b_from f2))%N in
  let c := if same then b_from f2 else b_to f2 in
  let e := if same then b_to f2 else b_from f2 in
  let r1 := sp_rel ref (chr (b_from f1)) (b_from f1) c : pcov G in
  let r2 := sp_rel ref (chr (b_to f1)) (b_to f1) e : pcov G in
  let r1' := sp_rel ref' (chr (b_from f1)) (b_from f1) c : pcov G in
  let r2' := sp_rel ref' (chr (b_to f1)) (b_to f1) e : pcov G in
  looser3 N r1 r1' -> looser3 N r2 r2' ->
  Forall (fun x : pcov G => psd (pc_cov x : mat xs 6)) [r1; r2; r1'; r2'; m1; m2; m1'; m2'] ->
  pd (pc_cov m1 : mat xs 6) \/ pd (pc_cov m2 : mat xs 6) -> pd (pc_cov m1' : mat xs 6) \/ pd (pc_cov m2' : mat xs 6) ->
  sp_loop_test (O := pcm3d N pp) ref f1 f2 = Some true -> sp_loop_test (O := pcm3d N pp') ref' f1' f2' = Some true.
Proof.
  intros N pp pp' MI HT ref ref' f1 f2 f1' f2' m1 m2 m1' m2' G E1 E2 E1' E2' K1 K2 K3 K4 LM1 LM2 same c e r1 r2 r1' r2' LR1 LR2 FP P9 P10.
  assert (Q := proj1 (Forall_forall _ _) FP). cbn [In] in Q.
  exact (@loop_looser pose3 p3_id p3_comp p3_inv 5 3 3 _ (logmap N) (minv N) (geom3_group N) ad3_id ad3_comp eq_refl MI pp pp' ref ref' f1 f2 f1' f2' m1 m2 m1' m2' E1 E2 E1' E2'
    K1 K2 K3 K4 LM1 LM2 LR1 LR2 (Q r1 ltac:(auto)) (Q r2 ltac:(auto)) (Q r1' ltac:(auto)) (Q r2' ltac:(auto 10)) (Q m1 ltac:(auto 10)) (Q m2 ltac:(auto 10)) (Q m1' ltac:(auto 10)) (Q m2' ltac:(auto 12)) P9 P10 HT).
Qed.
Print Assumptions C69_pairwise_test_3d.

(** Where the relative poses come from: two histories whose odometry factors of robot [c] have the same
    poses, those of the second history wider covariances. *)
Theorem C69_along_odometry_3d : forall N pp pp' C C' (W : soracles (pcm3d N pp)) (W' : soracles (pcm3d N pp'))
    h1 o h2 s1 rs1 s rs p fs vs x0 h1' o' h2' s1' rs1' s' rs' p' fs' vs' x0' c k0, let G := geom3 N in
  run C W h1 (solver_init true) = Ok s1 rs1 -> run C W (h1 ++ o :: h2) (solver_init true) = Ok s rs -> s_pcm s = Some p ->
  call_of o = Some (fs, vs) -> not_mentioned c h1 -> robot_odoms C c [o] <> [] ->
  kfind k0 (s_vals s1) = Some (VPose x0) \/ kfind k0 vs = Some (VPose x0) ->
  run C' W' h1' (solver_init true) = Ok s1' rs1' -> run C' W' (h1' ++ o' :: h2') (solver_init true) = Ok s' rs' -> s_pcm s' = Some p' ->
  call_of o' = Some (fs', vs') -> not_mentioned c h1' -> robot_odoms C' c [o'] <> [] ->
  kfind k0 (s_vals s1') = Some (VPose x0') \/ kfind k0 vs' = Some (VPose x0') ->
  let bs := robot_odoms C c (h1 ++ o :: h2) in
  let bs' := robot_odoms C' c (h1' ++ o' :: h2') in
  chr k0 = c -> chain k0 bs -> chain k0 bs' ->
  Forall2 (fun b b' => exists m m', pc_of G b = Some m /\ pc_of G b' = Some m' /\ pd (pc_cov m : mat xs 6) /\ pd (pc_cov m' : mat xs 6) /\ looser3 N m m') bs bs' ->
  forall i j, i <= length bs -> j <= length bs ->
  let rel := sp_rel (tref p) c (k0 + N.of_nat i)%N (k0 + N.of_nat j)%N : pcov G in
  let rel' := sp_rel (tref p') c (k0 + N.of_nat i)%N (k0 + N.of_nat j)%N : pcov G in
  looser3 N rel rel' /\ psd (pc_cov rel : mat xs 6) /\ psd (pc_cov rel' : mat xs 6).
Proof.
  intro N. exact (@rel_looser pose3 p3_id p3_comp p3_inv 5 3 3 _ (logmap N) (minv N) (geom3_group N) ad3_id ad3_comp eq_refl).
Qed.
Print Assumptions C69_along_odometry_3d.

(** Thresholds of the other consistency check. *)
Theorem C69_simple_thresholds : forall G pp pp' (a : pnode G),
  (SFleb (pp_odom_trans pp) (pp_odom_trans pp') = true -> SFleb (pp_odom_rot pp) (pp_odom_rot pp') = true -> pn_odom_ok pp a = true -> pn_odom_ok pp' a = true) /\
  (SFleb (pp_dist_trans pp) (pp_dist_trans pp') = true -> SFleb (pp_dist_rot pp) (pp_dist_rot pp') = true -> pn_loop_ok pp a = true -> pn_loop_ok pp' a = true).
Proof.
  intros G pp pp' a. unfold pn_odom_ok, pn_loop_ok. split; intros H1 H2 H; apply andb_true_iff in H; destruct H as [A B];
    apply andb_true_iff; (split; eapply lt_le_trans; eassumption).
Qed.
Print Assumptions C69_simple_thresholds.

(** ** Not for the loop closures that are accepted *)
(** Two robots, and five measurements of the second from the first: two of 100 and 200, 203, 206. *)
Section Crossing.
Variable O : tops.
Variable place : Q -> t_pose O.
Variable noise : Geometry.noise (t_cov O).
Definition step (a b : key) (x : Q) : option (factor O) := Some (FBetween (BF a b (place x) noise)).
Definition crossing : list (op O) :=
  [OpUpdate [Some (@FPrior O (ka 0) (place 0))] [(ka 0, VPose (place 0))] true;
   OpUpdate [step (ka 0) (ka 1) 10] [(ka 1, VPose (place 10))] true;
   OpUpdate [Some (@FPrior O (kb 0) (place 100)); step (kb 0) (kb 1) 10] [(kb 0, VPose (place 100)); (kb 1, VPose (place 110))] true;
   OpUpdate (map (step (ka 0) (kb 0)) [100; 100; 200; 203; 206]%Q) [] true].
Definition carries (s : solver O) (x : Q) : Prop :=
  exists f, In (Some (FBetween f)) (s_nfg s) /\ b_from f = ka 0 /\ b_to f = kb 0 /\ b_meas f = place x.
Variable eqb : t_pose O -> t_pose O -> bool.
Hypothesis eqb_ok : forall a b, eqb a b = true <-> a = b.
Definition carriesb (s : solver O) (x : Q) : bool :=
  existsb (fun of => match of with Some (FBetween f) => ((b_from f =? ka 0)%N && (b_to f =? kb 0)%N) && eqb (b_meas f) (place x) | _ => false end) (s_nfg s).
Lemma carriesb_ok s x : carriesb s x = true <-> carries s x.
Proof.
  unfold carriesb, carries. rewrite existsb_exists. split.
  - intros (of & I & E). destruct of as [[f| | |]|]; try discriminate. apply andb_true_iff in E. destruct E as [E E3]. apply andb_true_iff in E.
    destruct E as [E1 E2]. apply N.eqb_eq in E1, E2. apply eqb_ok in E3. exists f. auto.
  - intros (f & I & E1 & E2 & E3). exists (Some (FBetween f)). split; [exact I|]. rewrite E1, E2, !N.eqb_refl. apply eqb_ok in E3. rewrite E3. reflexivity.
Qed.
End Crossing.
Arguments crossing {O}. Arguments carries {O}. Arguments carriesb {O}.

Definition p2_eqb (a b : pose2) : bool := se2_eqb (proj1_sig a) (proj1_sig b).
Lemma p2_eqb_ok a b : p2_eqb a b = true <-> a = b.
Proof.
  split; [intro H; apply sig_eq, se2_check; exact H|intros <-]. unfold p2_eqb, se2_eqb. unfold Qc_eq_bool.
  repeat (match goal with |- context [Qc_eq_dec ?x ?x] => destruct (Qc_eq_dec x x) as [_|N]; [|destruct N; reflexivity] end). reflexivity.
Qed.
Definition pp_tight : pcm_params := PcmParams (dofZ 5) (dofZ 1) (dofZ 1) (dofZ 1) (dofZ 1) (dofZ 1) false.
Definition pp_loose : pcm_params := PcmParams (dofZ 5) (dofZ 5) (dofZ 1) (dofZ 1) (dofZ 5) (dofZ 5) false.
Definition x_axis (x : Q) : pose2 := at2 x 0.
Definition noise2 (v : Q) : Geometry.noise (mat xs 3) := Gauss (diag [v; v; v]).
Lemma scale_le a b x : (a <= b)%Qc -> (0 <= x)%Qc -> (a * x <= b * x)%Qc.
Proof. intros H X. apply Qcmult_le_compat_r; auto. Qed.
Lemma diag_wider (v v' : Q) : (v <= v')%Q -> @wider 3 (diag [v; v; v]) (diag [v'; v'; v']).
Proof.
  intro H. split; [exact (diag_finite [v; v; v])|]. split; [exact (diag_finite [v'; v'; v'])|]. intro u. change (form (diag [v; v; v]) u <= form (diag [v'; v'; v']) u)%Qc. rewrite !diag_form.
  assert (Q : (Q2Qc v <= Q2Qc v')%Qc) by (unfold Qcle, Q2Qc; cbn [this]; rewrite !Qred_correct; exact H).
  cbn [length]. rewrite !qsum_S. cbn [nth]. repeat apply Qcplus_le_compat; try apply Qcle_refl; apply scale_le; auto; apply qc_sq_nonneg.
Qed.

(** A larger threshold gets accepted loop closures dropped. *)
Theorem C70_threshold_refuted : exists N, logs2 (logmap N) /\ inverts (minv N) /\ SFleb (pp_odom pp_tight) (pp_odom pp_loose) = true /\ SFleb (pp_lc pp_tight) (pp_lc pp_loose) = true /\
  let O := pcm2d N pp_tight in let O' := pcm2d N pp_loose in
  exists (s : solver O) (s' : solver O') rs rs',
  run C1 (plain_soracles O (x_axis 0)) (crossing (O := O) x_axis (noise2 1)) (solver_init true) = Ok s rs /\
  run C1 (plain_soracles O' (x_axis 0)) (crossing (O := O') x_axis (noise2 1)) (solver_init true) = Ok s' rs' /\
  carries (O := O) x_axis s 100 /\ ~ carries (O := O') x_axis s' 100 /\ carries (O := O') x_axis s' 203.
Proof.
  exists N2. split; [exact log2_ok|]. split; [exact xinv_inverts|]. repeat (split; [vm_compute; reflexivity|]). cbv zeta.
  set (O := pcm2d N2 pp_tight). set (O' := pcm2d N2 pp_loose).
  assert (H : match run C1 (plain_soracles O (x_axis 0)) (crossing (O := O) x_axis (noise2 1)) (solver_init true) with
    | Ok s _ => carriesb (O := O) x_axis p2_eqb s 100 = true | _ => False end) by (vm_compute; reflexivity).
  assert (H' : match run C1 (plain_soracles O' (x_axis 0)) (crossing (O := O') x_axis (noise2 1)) (solver_init true) with
    | Ok s _ => (carriesb (O := O') x_axis p2_eqb s 100, carriesb (O := O') x_axis p2_eqb s 203) = (false, true) | _ => False end) by (vm_compute; reflexivity).
  apply run_check in H. destruct H as (s & rs & R & E). apply run_check in H'. destruct H' as (s' & rs' & R' & E').
  exists s, s', rs, rs'. split; [exact R|]. split; [exact R'|]. injection E' as E1 E2.
  pose proof (@carriesb_ok O x_axis p2_eqb p2_eqb_ok s 100) as X. pose proof (@carriesb_ok O' x_axis p2_eqb p2_eqb_ok s' 100) as Y.
  pose proof (@carriesb_ok O' x_axis p2_eqb p2_eqb_ok s' 203) as Z.
  split; [apply X; exact E|]. split; [|apply Z; exact E2]. intro K. apply Y in K. rewrite E1 in K. discriminate.
Qed.
Print Assumptions C70_threshold_refuted.

(** So do wider covariances. *)
Theorem C70_covariance_refuted : exists N, logs2 (logmap N) /\ inverts (minv N) /\ @wider 3 (diag [1; 1; 1]%Q) (diag [100; 100; 100]%Q) /\
  let O := pcm2d N pp_tight in let O' := pcm2d N pp_tight in
  exists (s : solver O) (s' : solver O') rs rs',
  run C1 (plain_soracles O (x_axis 0)) (crossing (O := O) x_axis (noise2 1)) (solver_init true) = Ok s rs /\
  run C1 (plain_soracles O' (x_axis 0)) (crossing (O := O') x_axis (noise2 100)) (solver_init true) = Ok s' rs' /\
  carries (O := O) x_axis s 100 /\ ~ carries (O := O') x_axis s' 100 /\ carries (O := O') x_axis s' 203.
Proof.
  exists N2. split; [exact log2_ok|]. split; [exact xinv_inverts|]. repeat (split; [apply diag_wider; vm_compute; discriminate|]). cbv zeta.
  set (O := pcm2d N2 pp_tight). set (O' := pcm2d N2 pp_tight).
  assert (H : match run C1 (plain_soracles O (x_axis 0)) (crossing (O := O) x_axis (noise2 1)) (solver_init true) with
    | Ok s _ => carriesb (O := O) x_axis p2_eqb s 100 = true | _ => False end) by (vm_compute; reflexivity).
  assert (H' : match run C1 (plain_soracles O' (x_axis 0)) (crossing (O := O') x_axis (noise2 100)) (solver_init true) with
    | Ok s _ => (carriesb (O := O') x_axis p2_eqb s 100, carriesb (O := O') x_axis p2_eqb s 203) = (false, true) | _ => False end) by (vm_compute; reflexivity).
  apply run_check in H. destruct H as (s & rs & R & E). apply run_check in H'. destruct H' as (s' & rs' & R' & E').
  exists s, s', rs, rs'. split; [exact R|]. split; [exact R'|]. injection E' as E1 E2.
  pose proof (@carriesb_ok O x_axis p2_eqb p2_eqb_ok s 100) as X. pose proof (@carriesb_ok O' x_axis p2_eqb p2_eqb_ok s' 100) as Y.
  pose proof (@carriesb_ok O' x_axis p2_eqb p2_eqb_ok s' 203) as Z.
  split; [apply X; exact E|]. split; [|apply Z; exact E2]. intro K. apply Y in K. rewrite E1 in K. discriminate.
Qed.
Print Assumptions C70_covariance_refuted.

(** And larger thresholds of the simple check. *)
Theorem C70_simple_threshold_refuted : exists N, logs2 (logmap N) /\ inverts (minv N) /\ SFleb (pp_dist_trans pp_tight) (pp_dist_trans pp_loose) = true /\ SFleb (pp_dist_rot pp_tight) (pp_dist_rot pp_loose) = true /\
  let O := pcm_simple2d N pp_tight in let O' := pcm_simple2d N pp_loose in
  exists (s : solver O) (s' : solver O') rs rs',
  run C1 (plain_soracles O (x_axis 0)) (crossing (O := O) x_axis (noise2 1)) (solver_init true) = Ok s rs /\
  run C1 (plain_soracles O' (x_axis 0)) (crossing (O := O') x_axis (noise2 1)) (solver_init true) = Ok s' rs' /\
  carries (O := O) x_axis s 100 /\ ~ carries (O := O') x_axis s' 100 /\ carries (O := O') x_axis s' 203.
Proof.
  exists N2. split; [exact log2_ok|]. split; [exact xinv_inverts|]. repeat (split; [vm_compute; reflexivity|]). cbv zeta.
  set (O := pcm_simple2d N2 pp_tight). set (O' := pcm_simple2d N2 pp_loose).
  assert (H : match run C1 (plain_soracles O (x_axis 0)) (crossing (O := O) x_axis (noise2 1)) (solver_init true) with
    | Ok s _ => carriesb (O := O) x_axis p2_eqb s 100 = true | _ => False end) by (vm_compute; reflexivity).
  assert (H' : match run C1 (plain_soracles O' (x_axis 0)) (crossing (O := O') x_axis (noise2 1)) (solver_init true) with
    | Ok s _ => (carriesb (O := O') x_axis p2_eqb s 100, carriesb (O := O') x_axis p2_eqb s 203) = (false, true) | _ => False end) by (vm_compute; reflexivity).
  apply run_check in H. destruct H as (s & rs & R & E). apply run_check in H'. destruct H' as (s' & rs' & R' & E').
  exists s, s', rs, rs'. split; [exact R|]. split; [exact R'|]. injection E' as E1 E2.
  pose proof (@carriesb_ok O x_axis p2_eqb p2_eqb_ok s 100) as X. pose proof (@carriesb_ok O' x_axis p2_eqb p2_eqb_ok s' 100) as Y.
  pose proof (@carriesb_ok O' x_axis p2_eqb p2_eqb_ok s' 203) as Z.
  split; [apply X; exact E|]. split; [|apply Z; exact E2]. intro K. apply Y in K. rewrite E1 in K. discriminate.
Qed.
Print Assumptions C70_simple_threshold_refuted.

(** ** Examples *)
(** A loop closure 3 away from odometry with variance 1, 16 and 100: the first is rejected, the others pass,
    and they meet the hypotheses of [C69_odometry_test_2d]. *)
Definition away (v : Q) : bfactor pose2 (mat xs 3) := BF (ka 0) (ka 2) (at2 3 0) (noise2 v).
Definition still (_ : N) (_ : key) : pcov (geom2 N2) := pc_default (geom2 N2).
Definition odom_of (v : Q) : option bool := sp_odom_test (O := pcm2d N2 pp_lie) still (away v).
Example C69_example_test :
  sp_odom_test (O := pcm2d N2 (PcmParams (dofZ 1) (dofZ 1) (dofZ 1) (dofZ 1) (dofZ 1) (dofZ 1) false)) still (away 1) = Some false /\
  sp_odom_test (O := pcm2d N2 (PcmParams (dofZ 1) (dofZ 1) (dofZ 1) (dofZ 1) (dofZ 1) (dofZ 1) false)) still (away 16) = Some true /\
  sp_odom_test (O := pcm2d N2 (PcmParams (dofZ 1) (dofZ 1) (dofZ 1) (dofZ 1) (dofZ 1) (dofZ 1) false)) still (away 100) = Some true /\
  odom_of 1 = Some true /\ SFleb (dofZ 1) (pp_odom pp_lie) = true.
Proof. repeat split; vm_compute; reflexivity. Qed.
Example C69_example_hypotheses :
  pc_of (geom2 N2) (away 16) = Some (PC (geom2 N2) (at2 3 0) (diag [16; 16; 16]%Q : mat xs 3) true) /\
  looser2 N2 (PC (geom2 N2) (at2 3 0) (diag [16; 16; 16]%Q : mat xs 3) true) (PC (geom2 N2) (at2 3 0) (diag [100; 100; 100]%Q : mat xs 3) true) /\
  pd (diag [16; 16; 16]%Q : mat xs 3) /\ pd (diag [100; 100; 100]%Q : mat xs 3) /\ psd (pc_cov (sp_rel (O := pcm2d N2 pp_lie) still 97 (ka 0) (ka 2) : pcov (geom2 N2)) : mat xs 3).
Proof.
  split; [reflexivity|]. split; [split; [reflexivity|split; [reflexivity|apply (diag_wider 16 100); vm_compute; discriminate]]|].
  split; [apply (diag_pd [16; 16; 16]%Q); vm_compute; reflexivity|]. split; [apply (diag_pd [100; 100; 100]%Q); vm_compute; reflexivity|].
  exact (psd_zero 3).
Qed.
(** Whole runs: with variance 1 a loop closure 40 instead of 20 is rejected, with 100 it is accepted. *)
Definition line2c (v : Q) (x : Q) := line_inliers (pcm2d N2 pp_lie) x_axis (noise2 v) x.
Example C69_example_runs : line2c 1 40 = Some (Val 0, Val 0%Z) /\ line2c 100 40 = Some (Val 1, Val 1%Z) /\ line2c 100 201 = Some (Val 0, Val 0%Z).
Proof. repeat split; vm_compute; reflexivity. Qed.
