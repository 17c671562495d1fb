(** * Poses in the plane and in space: C33 and C34 for them, C55, C56 *)
From Coq Require Import ZArith QArith Qcanon Bool List Lia.
From Verif Require Import Prelude Num Keys KMap UMap Geometry Factors Clique Pcm Params Solver Grid
  PcmSpec HistSpec PcmProofs TrajProofs AlgProofs TrajRel Scenes
  Lie LiePoses LieSpec LieProofs LieCov LiePd LieTraj LieErr LieInv LieExact LieScenes.
Local Open Scope nat_scope.

Lemma ad2_id : se2_ad (proj1_sig p2_id) = mone.
Proof. exact (se2_ad_id qs_ring). Qed.
Lemma ad2_comp (a b : pose2) : se2_ad (proj1_sig (p2_comp a b)) = mmul (se2_ad (proj1_sig a)) (se2_ad (proj1_sig b)).
Proof. exact (se2_ad_comp qs_ring (proj1_sig a) (proj1_sig b)). Qed.
Lemma ad3_id : se3_ad (proj1_sig p3_id) = mone.
Proof. exact (se3_ad_id qs_ring). Qed.
Lemma ad3_comp (a b : pose3) : se3_ad (proj1_sig (p3_comp a b)) = mmul (se3_ad (proj1_sig a)) (se3_ad (proj1_sig b)).
Proof. apply (se3_ad_comp qs_ring). apply pose3_cof. Qed.

(** ** C33 for [Pcm2D] and [Pcm3D]: relative poses and covariances, in both directions *)
Theorem C33_pose2_positive_definite : forall N pp C (W : soracles (pcm2d N pp)) h1 o h2 s1 rs1 s rs p fs vs c k0 x0,
  let G := geom2 N in
  run C W h1 (solver_init true) = Ok s1 rs1 -> run C W (h1 ++ o :: h2) (solver_init true) = Ok s rs -> s_pcm s = Some p ->
  call_of o = Some (fs, vs) -> not_mentioned c h1 -> robot_odoms C c [o] <> [] ->
  kfind k0 (s_vals s1) = Some (VPose x0) \/ kfind k0 vs = Some (VPose x0) ->
  let bs := robot_odoms C c (h1 ++ o :: h2) in
  chr k0 = c -> chain k0 bs -> (forall b m, In b bs -> pc_of G b = Some m -> pd (pc_cov m : mat xs 3)) ->
  exists ds, Forall2 (fun b m => pc_of G b = Some m) bs ds /\
  forall i j, i <= j <= length bs ->
  let m := composite (stretch i j ds) in
  let rot := forallb (@pc_rot G) (firstn j ds) in
  tref p c (k0 + N.of_nat j)%N = pc_comp (pc_init G x0) (composite (firstn j ds)) /\
  sp_rel (tref p) c (k0 + N.of_nat i)%N (k0 + N.of_nat j)%N = PC G (pc_pose m) (pc_cov m) rot /\
  sp_rel (tref p) c (k0 + N.of_nat j)%N (k0 + N.of_nat i)%N = PC G (p2_inv (pc_pose m)) (pc_cov m) rot /\
  psd (pc_cov m : mat xs 3).
Proof.
  intro N. exact (@c33_lie pose2 p2_id p2_comp p2_inv 2 1 2 _ (logmap N) (minv N) (geom2_group N) ad2_id ad2_comp).
Qed.
Print Assumptions C33_pose2_positive_definite.

Theorem C33_pose3_positive_definite : forall N pp C (W : soracles (pcm3d N pp)) h1 o h2 s1 rs1 s rs p fs vs c k0 x0,
  let G := geom3 N in
  run C W h1 (solver_init true) = Ok s1 rs1 -> run C W (h1 ++ o :: h2) (solver_init true) = Ok s rs -> s_pcm s = Some p ->
  call_of o = Some (fs, vs) -> not_mentioned c h1 -> robot_odoms C c [o] <> [] ->
  kfind k0 (s_vals s1) = Some (VPose x0) \/ kfind k0 vs = Some (VPose x0) ->
  let bs := robot_odoms C c (h1 ++ o :: h2) in
  chr k0 = c -> chain k0 bs -> (forall b m, In b bs -> pc_of G b = Some m -> pd (pc_cov m : mat xs 6)) ->
  exists ds, Forall2 (fun b m => pc_of G b = Some m) bs ds /\
  forall i j, i <= j <= length bs ->
  let m := composite (stretch i j ds) in
  let rot := forallb (@pc_rot G) (firstn j ds) in
  tref p c (k0 + N.of_nat j)%N = pc_comp (pc_init G x0) (composite (firstn j ds)) /\
  sp_rel (tref p) c (k0 + N.of_nat i)%N (k0 + N.of_nat j)%N = PC G (pc_pose m) (pc_cov m) rot /\
  sp_rel (tref p) c (k0 + N.of_nat j)%N (k0 + N.of_nat i)%N = PC G (p3_inv (pc_pose m)) (pc_cov m) rot /\
  psd (pc_cov m : mat xs 6).
Proof.
  intro N. exact (@c33_lie pose3 p3_id p3_comp p3_inv 5 3 3 _ (logmap N) (minv N) (geom3_group N) ad3_id ad3_comp).
Qed.
Print Assumptions C33_pose3_positive_definite.

(** ** C34 for [Pcm2D] and [Pcm3D]: noise-free loop closures with positive definite covariances *)

(** [dead2 bs n]: where the first [n] increments lead. *)
Definition dead2 N (bs : list (bfactor (g_pose (geom2 N)) (g_cov (geom2 N)))) (n : nat) : pose2 :=
  fold_left p2_comp (map (@b_meas _ _) (firstn n bs)) p2_id.
Definition dead3 N (bs : list (bfactor (g_pose (geom3 N)) (g_cov (geom3 N)))) (n : nat) : pose3 :=
  fold_left p3_comp (map (@b_meas _ _) (firstn n bs)) p3_id.

Theorem C34_pose2_odometry_test : forall N pp, (forall i, logmap N p2_id i = Q2Qc 0) -> inverts (minv N) ->
  forall C (W : soracles (pcm2d N pp)) h1 o h2 s1 rs1 s rs p fs vs c k0 x0,
  run C W h1 (solver_init true) = Ok s1 rs1 -> run C W (h1 ++ o :: h2) (solver_init true) = Ok s rs -> s_pcm s = Some p ->
  call_of o = Some (fs, vs) -> not_mentioned c h1 -> robot_odoms C c [o] <> [] ->
  kfind k0 (s_vals s1) = Some (VPose x0) \/ kfind k0 vs = Some (VPose x0) ->
  let bs := robot_odoms C c (h1 ++ o :: h2) in
  chr k0 = c -> chain k0 bs -> (forall b m, In b bs -> pc_of (geom2 N) b = Some m -> pd (pc_cov m : mat xs 3)) ->
  forall i j (b : bfactor (g_pose (geom2 N)) (g_cov (geom2 N))) m, i <= length bs -> j <= length bs ->
  b_from b = (k0 + N.of_nat i)%N -> b_to b = (k0 + N.of_nat j)%N ->
  b_meas b = p2_comp (p2_inv (dead2 N bs i)) (dead2 N bs j) -> pc_of (geom2 N) b = Some m -> pd (pc_cov m : mat xs 3) ->
  dpositive (pp_odom pp) -> sp_odom_test (O := pcm2d N pp) (tref p) b = Some true.
Proof.
  intros N pp LI MI. exact (@c34_odom_lie pose2 p2_id p2_comp p2_inv 2 1 2 _ (logmap N) (minv N) (geom2_group N) ad2_id ad2_comp
    eq_refl LI MI pp).
Qed.
Print Assumptions C34_pose2_odometry_test.

Theorem C34_pose2_pairwise_test : forall N pp, (forall i, logmap N p2_id i = Q2Qc 0) -> inverts (minv N) ->
  forall X F (ref : BinNums.N -> key -> t_T (pcm2d N pp)) f1 f2 m1 m2, let G := geom2 N in
  pc_of G f1 = Some m1 -> pc_of G f2 = Some m2 -> exact G X f1 -> exact G X f2 ->
  chr (b_from f1) = chr (b_from f2) -> chr (b_to f1) = chr (b_to f2) ->
  (forall k, In k [b_from f1; b_to f1; b_from f2; b_to f2] -> placed G X F (pcm2d N pp) (@pc_pose G) ref k) ->
  pd (pc_cov m1 : mat xs 3) -> psd (pc_cov m2 : mat xs 3) ->
  psd (pc_cov (sp_rel ref (chr (b_from f1)) (b_from f1) (b_from f2) : pcov G) : mat xs 3) ->
  psd (pc_cov (sp_rel ref (chr (b_to f1)) (b_to f1) (b_to f2) : pcov G) : mat xs 3) ->
  dpositive (pp_lc pp) -> sp_loop_test (O := pcm2d N pp) ref f1 f2 = Some true.
Proof.
  intros N pp LI MI. exact (@c34_pairs_lie pose2 p2_id p2_comp p2_inv 2 1 2 _ (logmap N) (minv N) (geom2_group N) ad2_id ad2_comp
    eq_refl LI MI pp).
Qed.
Print Assumptions C34_pose2_pairwise_test.

Theorem C34_pose3_odometry_test : forall N pp, (forall i, logmap N p3_id i = Q2Qc 0) -> inverts (minv N) ->
  forall C (W : soracles (pcm3d N pp)) h1 o h2 s1 rs1 s rs p fs vs c k0 x0,
  run C W h1 (solver_init true) = Ok s1 rs1 -> run C W (h1 ++ o :: h2) (solver_init true) = Ok s rs -> s_pcm s = Some p ->
  call_of o = Some (fs, vs) -> not_mentioned c h1 -> robot_odoms C c [o] <> [] ->
  kfind k0 (s_vals s1) = Some (VPose x0) \/ kfind k0 vs = Some (VPose x0) ->
  let bs := robot_odoms C c (h1 ++ o :: h2) in
  chr k0 = c -> chain k0 bs -> (forall b m, In b bs -> pc_of (geom3 N) b = Some m -> pd (pc_cov m : mat xs 6)) ->
  forall i j (b : bfactor (g_pose (geom3 N)) (g_cov (geom3 N))) m, i <= length bs -> j <= length bs ->
  b_from b = (k0 + N.of_nat i)%N -> b_to b = (k0 + N.of_nat j)%N ->
  b_meas b = p3_comp (p3_inv (dead3 N bs i)) (dead3 N bs j) -> pc_of (geom3 N) b = Some m -> pd (pc_cov m : mat xs 6) ->
  dpositive (pp_odom pp) -> sp_odom_test (O := pcm3d N pp) (tref p) b = Some true.
Proof.
  intros N pp LI MI. exact (@c34_odom_lie pose3 p3_id p3_comp p3_inv 5 3 3 _ (logmap N) (minv N) (geom3_group N) ad3_id ad3_comp
    eq_refl LI MI pp).
Qed.
Print Assumptions C34_pose3_odometry_test.

Theorem C34_pose3_pairwise_test : forall N pp, (forall i, logmap N p3_id i = Q2Qc 0) -> inverts (minv N) ->
  forall X F (ref : BinNums.N -> key -> t_T (pcm3d N pp)) f1 f2 m1 m2, let G := geom3 N in
  pc_of G f1 = Some m1 -> pc_of G f2 = Some m2 -> exact G X f1 -> exact G X f2 ->
  chr (b_from f1) = chr (b_from f2) -> chr (b_to f1) = chr (b_to f2) ->
  (forall k, In k [b_from f1; b_to f1; b_from f2; b_to f2] -> placed G X F (pcm3d N pp) (@pc_pose G) ref k) ->
  pd (pc_cov m1 : mat xs 6) -> psd (pc_cov m2 : mat xs 6) ->
  psd (pc_cov (sp_rel ref (chr (b_from f1)) (b_from f1) (b_from f2) : pcov G) : mat xs 6) ->
  psd (pc_cov (sp_rel ref (chr (b_to f1)) (b_to f1) (b_to f2) : pcov G) : mat xs 6) ->
  dpositive (pp_lc pp) -> sp_loop_test (O := pcm3d N pp) ref f1 f2 = Some true.
Proof.
  intros N pp LI MI. exact (@c34_pairs_lie pose3 p3_id p3_comp p3_inv 5 3 3 _ (logmap N) (minv N) (geom3_group N) ad3_id ad3_comp
    eq_refl LI MI pp).
Qed.
Print Assumptions C34_pose3_pairwise_test.

(** ** C55 *)
Lemma Forall2_first A B (Q : A -> B -> Prop) n : forall l l', Forall2 Q l l' -> Forall2 Q (firstn n l) (firstn n l').
Proof. induction n as [|n IH]; intros l l' F; cbn [firstn]; [constructor|]. destruct F; constructor; auto. Qed.
Lemma Forall2_skip A B (Q : A -> B -> Prop) n : forall l l', Forall2 Q l l' -> Forall2 Q (skipn n l) (skipn n l').
Proof. induction n as [|n IH]; intros l l' F; cbn [skipn]; [exact F|]. destruct F; auto. Qed.

(** Composition: independent errors of mean zero with the covariances of the arguments give errors of
    mean zero with the covariance of the result. *)
Theorem C55_compose_2d : forall N (a b : pcov (geom2 N)) D D', fits2 a D -> fits2 b D' -> fits2 (pc_comp a b) (both se2_comp D D').
Proof. exact random2_comp. Qed.
Print Assumptions C55_compose_2d.

(** Only one matrix is the covariance of a random pose. *)
Theorem C55_unique_2d : forall N (a b : pcov (geom2 N)) D, pc_pose a = pc_pose b -> fits2 a D -> fits2 b D -> pc_cov a = pc_cov b.
Proof. intros N a b D E Ha Hb. unfold fits2 in Hb. rewrite <- E in Hb. exact (random2_cov (pc_pose a) Ha Hb). Qed.
Print Assumptions C55_unique_2d.

(** Along a robot's odometry: the covariance of the relative pose from key [i] to key [j] is that of
    the increments in between, whatever the history. *)
Theorem C55_along_odometry_2d_partial : forall N pp C (W : soracles (pcm2d N pp)) h1 o h2 s1 rs1 s rs p fs vs c k0 x0,
  let G := geom2 N in
  run C W h1 (solver_init true) = Ok s1 rs1 -> run C W (h1 ++ o :: h2) (solver_init true) = Ok s rs -> s_pcm s = Some p ->
  call_of o = Some (fs, vs) -> not_mentioned c h1 -> robot_odoms C c [o] <> [] ->
  kfind k0 (s_vals s1) = Some (VPose x0) \/ kfind k0 vs = Some (VPose x0) ->
  let bs := robot_odoms C c (h1 ++ o :: h2) in
  chr k0 = c -> chain k0 bs -> (forall b m, In b bs -> pc_of G b = Some m -> pd (pc_cov m : mat xs 3)) ->
  exists ds, Forall2 (fun b m => pc_of G b = Some m) bs ds /\
  forall Ds, Forall2 (@fits2 N) ds Ds -> forall i j, i <= j <= length bs ->
  fits2 (sp_rel (tref p) c (k0 + N.of_nat i)%N (k0 + N.of_nat j)%N) (walk2 (stretch i j Ds)).
Proof.
  intros N pp C W h1 o h2 s1 rs1 s rs p fs vs c k0 x0 G R1 R2 Hp HC Hn Ho Hv bs H0 Hch HPD.
  destruct (@C33_pose2_positive_definite N pp C W h1 o h2 s1 rs1 s rs p fs vs c k0 x0 R1 R2 Hp HC Hn Ho Hv H0 Hch HPD) as (ds & D1 & D2).
  exists ds. split; [exact D1|]. intros Ds F i j Hij. destruct (D2 i j Hij) as (_ & E & _). fold G. rewrite E.
  assert (FS : Forall2 (@fits2 N) (stretch i j ds) (stretch i j Ds)).
  { unfold stretch. apply Forall2_first. apply Forall2_skip. exact F. }
  exact (random2_walk FS).
Qed.
Print Assumptions C55_along_odometry_2d_partial.

(** What an inverse should have. *)
Theorem C55_inverse_2d : forall N (a : pcov (geom2 N)) D, fits2 a D ->
  fits2 (PC (geom2 N) (p2_inv (pc_pose a)) (g_act (geom2 N) (pc_pose a) (pc_cov a)) (pc_rot a)) (image se2_inv D).
Proof. intros N a D H. exact (@random2_inv N (pc_pose a) (pc_cov a) D H). Qed.
Print Assumptions C55_inverse_2d.

(** The test that decides which difference [between] uses accepts the positive definite matrices only. *)
Theorem C55_factorisation_2d : forall N (c : g_cov (geom2 N)), @finite 3 c -> @symmetric 3 c -> g_llt_ok (geom2 N) c = true <-> @pd 3 c.
Proof. intros N c F SY. exact (@llt_pd _ c F SY). Qed.
Print Assumptions C55_factorisation_2d.

(** Composition: independent errors of mean zero with the covariances of the arguments give errors of
    mean zero with the covariance of the result. *)
Theorem C55_compose_3d : forall N (a b : pcov (geom3 N)) D D', fits3 a D -> fits3 b D' -> fits3 (pc_comp a b) (both se3_comp D D').
Proof. exact random3_comp. Qed.
Print Assumptions C55_compose_3d.

(** Only one matrix is the covariance of a random pose. *)
Theorem C55_unique_3d : forall N (a b : pcov (geom3 N)) D, pc_pose a = pc_pose b -> fits3 a D -> fits3 b D -> pc_cov a = pc_cov b.
Proof. intros N a b D E Ha Hb. unfold fits3 in Hb. rewrite <- E in Hb. exact (random3_cov (pc_pose a) Ha Hb). Qed.
Print Assumptions C55_unique_3d.

(** Along a robot's odometry: the covariance of the relative pose from key [i] to key [j] is that of
    the increments in between, whatever the history. *)
Theorem C55_along_odometry_3d_partial : forall N pp C (W : soracles (pcm3d N pp)) h1 o h2 s1 rs1 s rs p fs vs c k0 x0,
  let G := geom3 N in
  run C W h1 (solver_init true) = Ok s1 rs1 -> run C W (h1 ++ o :: h2) (solver_init true) = Ok s rs -> s_pcm s = Some p ->
  call_of o = Some (fs, vs) -> not_mentioned c h1 -> robot_odoms C c [o] <> [] ->
  kfind k0 (s_vals s1) = Some (VPose x0) \/ kfind k0 vs = Some (VPose x0) ->
  let bs := robot_odoms C c (h1 ++ o :: h2) in
  chr k0 = c -> chain k0 bs -> (forall b m, In b bs -> pc_of G b = Some m -> pd (pc_cov m : mat xs 6)) ->
  exists ds, Forall2 (fun b m => pc_of G b = Some m) bs ds /\
  forall Ds, Forall2 (@fits3 N) ds Ds -> forall i j, i <= j <= length bs ->
  fits3 (sp_rel (tref p) c (k0 + N.of_nat i)%N (k0 + N.of_nat j)%N) (walk3 (stretch i j Ds)).
Proof.
  intros N pp C W h1 o h2 s1 rs1 s rs p fs vs c k0 x0 G R1 R2 Hp HC Hn Ho Hv bs H0 Hch HPD.
  destruct (@C33_pose3_positive_definite N pp C W h1 o h2 s1 rs1 s rs p fs vs c k0 x0 R1 R2 Hp HC Hn Ho Hv H0 Hch HPD) as (ds & D1 & D2).
  exists ds. split; [exact D1|]. intros Ds F i j Hij. destruct (D2 i j Hij) as (_ & E & _). fold G. rewrite E.
  assert (FS : Forall2 (@fits3 N) (stretch i j ds) (stretch i j Ds)).
  { unfold stretch. apply Forall2_first. apply Forall2_skip. exact F. }
  exact (random3_walk FS).
Qed.
Print Assumptions C55_along_odometry_3d_partial.

(** What an inverse should have. *)
Theorem C55_inverse_3d : forall N (a : pcov (geom3 N)) D, fits3 a D ->
  fits3 (PC (geom3 N) (p3_inv (pc_pose a)) (g_act (geom3 N) (pc_pose a) (pc_cov a)) (pc_rot a)) (image se3_inv D).
Proof. intros N a D H. exact (@random3_inv N (pc_pose a) (pc_cov a) D H). Qed.
Print Assumptions C55_inverse_3d.

(** The test that decides which difference [between] uses accepts the positive definite matrices only. *)
Theorem C55_factorisation_3d : forall N (c : g_cov (geom3 N)), @finite 6 c -> @symmetric 6 c -> g_llt_ok (geom3 N) c = true <-> @pd 6 c.
Proof. intros N c F SY. exact (@llt_pd _ c F SY). Qed.
Print Assumptions C55_factorisation_3d.

(** *** What is wrong *)

Definition D2 : dist (se2 dual) := image (off2 (proj1_sig (at2 1 0))) (axes 3 ones3).
Definition D3 : dist (se3 dual) := image (off3 (proj1_sig (at3 1 0 0))) (axes 6 ones6).
Definition a2 : pcov (geom2 N2) := PC (geom2 N2) (at2 1 0) (diag ones3) true.
Definition a3 : pcov (geom3 N3) := PC (geom3 N3) (at3 1 0 0) (diag ones6) true.
Lemma a2_fits : fits2 a2 D2.
Proof.
  exists (axes 3 ones3). split; [apply centredb_ok; vm_compute; reflexivity|].
  split; [apply (@coversb_ok 3); vm_compute; reflexivity|reflexivity].
Qed.
Lemma a3_fits : fits3 a3 D3.
Proof.
  exists (axes 6 ones6). split; [apply centredb_ok; vm_compute; reflexivity|].
  split; [apply (@coversb_ok 6); vm_compute; reflexivity|reflexivity].
Qed.

(** [inverse()] keeps the covariance of its argument. *)
Theorem C55_inverse_2d_refuted : exists N (a : pcov (geom2 N)) D, fits2 a D /\ ~ fits2 (pc_inv a) (image se2_inv D).
Proof.
  exists N2, a2, D2. split; [exact a2_fits|]. intro H. pose proof (C55_inverse_2d _ _ _ a2_fits) as H'.
  pose proof (random2_cov (p2_inv (pc_pose a2)) H H') as E. revert E. apply (differ_ok 3 _ _ 1 2). vm_compute. reflexivity.
Qed.
Print Assumptions C55_inverse_2d_refuted.
Theorem C55_inverse_3d_refuted : exists N (a : pcov (geom3 N)) D, fits3 a D /\ ~ fits3 (pc_inv a) (image se3_inv D).
Proof.
  exists N3, a3, D3. split; [exact a3_fits|]. intro H. pose proof (C55_inverse_3d _ _ _ a3_fits) as H'.
  pose proof (random3_cov (p3_inv (pc_pose a3)) H H') as E. revert E. apply (differ_ok 6 _ _ 4 2). vm_compute. reflexivity.
Qed.
Print Assumptions C55_inverse_3d_refuted.

(** [between()] against the direction of travel gives the covariance of the way forth. *)
Theorem C55_backwards_refuted : exists N (a m : pcov (geom3 N)) D,
  psd (pc_cov a : mat xs 6) /\ pd (pc_cov m : mat xs 6) /\ fits3 m D /\
  fits3 (pc_between a (pc_comp a m)) D /\ ~ fits3 (pc_between (pc_comp a m) a) (image se3_inv D).
Proof.
  exists N3, (pc_default (geom3 N3)), a3, D3.
  assert (A0 : psd (pc_cov (pc_default (geom3 N3)) : mat xs 6)) by apply psd_zero.
  assert (A1 : pd (pc_cov a3 : mat xs 6)) by (apply (diag_pd ones6); vm_compute; reflexivity).
  destruct (@pd_between pose3 p3_id p3_comp p3_inv 5 3 3 _ log3 xinv (geom3_group N3) ad3_id ad3_comp (pc_default (geom3 N3)) a3 A0 A1) as [E1 E2].
  change (pc_between (pc_default (geom3 N3)) (pc_comp (pc_default (geom3 N3)) a3) = a3) in E1.
  change (pc_between (pc_comp (pc_default (geom3 N3)) a3) (pc_default (geom3 N3)) = pc_inv a3) in E2.
  split; [exact A0|]. split; [exact A1|]. split; [exact a3_fits|]. split.
  - rewrite E1. exact a3_fits.
  - rewrite E2. intro H. pose proof (C55_inverse_3d _ _ _ a3_fits) as H'.
    pose proof (random3_cov (p3_inv (pc_pose a3)) H H') as E. revert E. apply (differ_ok 6 _ _ 4 2). vm_compute. reflexivity.
Qed.
Print Assumptions C55_backwards_refuted.

(** Increments without rotation information: the difference is positive semidefinite but singular, the
    factorisation fails, and [between] returns a negative covariance. *)
Definition moved : pcov (geom3 N3) := PC (geom3 N3) (at3 1 0 0) (diag moves6) false.
Theorem C55_singular_refuted : exists N (b : bfactor (g_pose (geom3 N)) (g_cov (geom3 N))) (a m : pcov (geom3 N)) D,
  pc_of (geom3 N) b = Some m /\ psd (pc_cov a : mat xs 6) /\ psd (pc_cov m : mat xs 6) /\ fits3 m D /\
  ~ psd (pc_cov (pc_between a (pc_comp a m)) : mat xs 6) /\ ~ fits3 (pc_between a (pc_comp a m)) D.
Proof.
  set (c := @tab xs 6 (fun i j => if i =? j then (if i <? 3 then None else Some (Q2Qc 1)) else Some (Q2Qc 0))).
  exists N3, (BF (ka 0) (ka 1) (at3 1 0 0) (Gauss c)), (pc_default (geom3 N3)), moved, (image (off3 (proj1_sig (at3 1 0 0))) (axes 6 moves6)).
  assert (Q : psd (diag moves6)) by (apply diag_psd; repeat constructor; discriminate).
  split; [|split; [apply psd_zero|split; [exact Q|]]].
  { unfold pc_of. cbn [b_noise b_meas]. replace (g_rot_nan (geom3 N3) c) with true by (vm_compute; reflexivity).
    reflexivity. }
  assert (F : fits3 moved (image (off3 (proj1_sig (at3 1 0 0))) (axes 6 moves6))).
  { exists (axes 6 moves6). split; [apply centredb_ok; vm_compute; reflexivity|].
    split; [apply (@coversb_ok 6); vm_compute; reflexivity|reflexivity]. }
  split; [exact F|]. split.
  - intros (_ & _ & H). specialize (H (fun i => if i =? 3 then Q2Qc 1 else Q2Qc 0)).
    revert H. apply Qclt_not_le. vm_compute. reflexivity.
  - intro H.
    assert (PB : pc_pose (pc_between (pc_default (geom3 N3)) (pc_comp (pc_default (geom3 N3)) moved)) = pc_pose moved).
    { cbn [pc_between pc_comp pc_pose]. exact (pg_cancel_l (geom3_group N3) (pc_pose (pc_default (geom3 N3))) (pc_pose moved)). }
    pose proof (C55_unique_3d _ _ _ _ PB H F) as E. revert E. apply (differ_ok 6 _ _ 3 3). vm_compute. reflexivity.
Qed.
Print Assumptions C55_singular_refuted.

(** *** Runs *)
Section Runs.
Variable O : tops.
Variable place : Q -> t_pose O.
Variable noise : Geometry.noise (t_cov O).
Definition between_at (i j : N) (x : Q) : option (factor O) := Some (FBetween (BF (ka i) (ka j) (place x) noise)).
(** Robot [a]: two steps of 10, then a loop closure from the first to the last pose. *)
Definition line (x : Q) : list (op O) :=
  [OpUpdate [Some (@FPrior O (ka 0) (place 0))] [(ka 0, VPose (place 0))] true;
   OpUpdate [between_at 0 1 10] [(ka 1, VPose (place 10))] true;
   OpUpdate [between_at 1 2 10] [(ka 2, VPose (place 20))] true;
   OpUpdate [between_at 0 2 x] [] true].
Definition line_inliers (x : Q) : option (res nat * res Z) :=
  match run C1 (plain_soracles O (place 0)) (line x) (solver_init true) with Ok s _ => Some (get_num_lc s, get_num_inliers C1 s) | _ => None end.
End Runs.
Definition pp_lie : pcm_params := PcmParams (dofZ 5) (dofZ 5) (dofZ 1) (dlit 1 100) (dofZ 10) (dofZ 10) false.
Definition nan_rot6 : mat xs 6 :=
  @tab xs 6 (fun i j => if i =? j then (if i <? 3 then None else Some (Q2Qc 1)) else Some (Q2Qc 0)).
Definition line3 (c : mat xs 6) := line_inliers (pcm3d N3 pp_lie) (fun x => at3 x 0 0) (Gauss (c : t_cov (pcm3d N3 pp_lie))).


(** A loop closure 1/10 away from odometry whose translations have standard deviation 1, with a
    threshold of 5 standard deviations: rejected when there is no information on rotations. *)
Theorem C55_rotationless_refuted : exists N pp C (W : soracles (pcm3d N pp)) h (s : solver (pcm3d N pp)) rs,
  logs3 (logmap N) /\ inverts (minv N) /\ pp_odom pp = dofZ 5 /\
  h = line (pcm3d N pp) (fun x => at3 x 0 0) (Gauss (nan_rot6 : t_cov (pcm3d N pp))) (201 # 10) /\
  run C W h (solver_init true) = Ok s rs /\ get_num_inliers C s = Val 0%Z.
Proof.
  exists N3, pp_lie, C1, (plain_soracles (pcm3d N3 pp_lie) (at3 0 0 0)).
  eexists.
  assert (H : match run C1 (plain_soracles (pcm3d N3 pp_lie) (at3 0 0 0))
      (line (pcm3d N3 pp_lie) (fun x => at3 x 0 0) (Gauss (nan_rot6 : t_cov (pcm3d N3 pp_lie))) (201 # 10)) (solver_init true) with
    | Ok s _ => get_num_inliers C1 s = Val 0%Z | _ => False end) by (vm_compute; reflexivity).
  apply run_check in H. destruct H as (s & rs & R & E). exists s, rs.
  split; [exact log3_ok|]. split; [exact xinv_inverts|]. split; [reflexivity|]. split; [reflexivity|]. split; [exact R|exact E].
Qed.
Print Assumptions C55_rotationless_refuted.

(** With information on rotations it is accepted; one 20 away is not. *)
Example C55_example :
  line3 (diag ones6) (201 # 10) = Some (Val 1, Val 1%Z) /\ line3 (diag ones6) 40 = Some (Val 0, Val 0%Z) /\
  line3 nan_rot6 20 = Some (Val 1, Val 1%Z).
Proof. repeat split; vm_compute; reflexivity. Qed.
(** The covariances of this run are positive definite and those of random poses. *)
Example C55_example_hypotheses : pd (diag ones6) /\ pd (diag ones3) /\ fits3 a3 D3 /\ fits2 a2 D2.
Proof.
  split; [apply diag_pd; vm_compute; reflexivity|]. split; [apply diag_pd; vm_compute; reflexivity|].
  split; [exact a3_fits|exact a2_fits].
Qed.

(** ** C56 *)

(** In space: a component of tangent vectors turns exactly when it is one of the first three. *)
Lemma turns3_iff i : i < 6 -> turns3 i <-> i < 3.
Proof.
  intro H. unfold turns3. split.
  - intro T. destruct (Nat.lt_ge_cases i 3) as [|G]; auto. exfalso. apply T.
    do 3 (destruct i as [|i]; [lia|]). do 3 (destruct i as [|i]; [reflexivity|]). lia.
  - intros Hi E. destruct i as [|[|[|i]]]; [| | |lia].
    + apply (f_equal (fun A : mat dual 3 => snd (@get dual 3 A 2 1 : Qc * Qc))) in E. vm_compute in E. discriminate E.
    + apply (f_equal (fun A : mat dual 3 => snd (@get dual 3 A 0 2 : Qc * Qc))) in E. vm_compute in E. discriminate E.
    + apply (f_equal (fun A : mat dual 3 => snd (@get dual 3 A 1 0 : Qc * Qc))) in E. vm_compute in E. discriminate E.
Qed.
Lemma turns2_iff i : i < 3 -> turns2 i <-> i = 2.
Proof.
  intro H. unfold turns2. split.
  - intro T. destruct i as [|[|[|i]]]; [| |reflexivity|lia]; exfalso; destruct T as [T|T]; apply T; reflexivity.
  - intros ->. right. intro E. apply (f_equal (fun x : dual => snd (x : Qc * Qc))) in E. vm_compute in E. discriminate E.
Qed.

(** Rotation information is missing when the variance of a component that turns is NaN; what is kept
    then is what concerns the components that do not. *)
Theorem C56_rotation_information_3d : forall N (c : g_cov (geom3 N)),
  g_rot_nan (geom3 N) c = true <-> exists i, i < 6 /\ turns3 i /\ @get xs 6 c i i = None.
Proof.
  intros N c. cbn [g_rot_nan geom3 lie_geom]. unfold rot_nan. cbn [ksum]. split.
  - intro H. destruct (@get xs 6 c 0 0) eqn:E0; [|exists 0; rewrite turns3_iff by lia; split; [lia|split; [lia|exact E0]]].
    destruct (@get xs 6 c 1 1) eqn:E1; [|exists 1; rewrite turns3_iff by lia; split; [lia|split; [lia|exact E1]]].
    destruct (@get xs 6 c 2 2) eqn:E2; [|exists 2; rewrite turns3_iff by lia; split; [lia|split; [lia|exact E2]]].
    discriminate H.
  - intros (i & Hi & T & E). apply turns3_iff in T; [|exact Hi].
    destruct i as [|[|[|i]]]; [| | |lia]; rewrite E;
      repeat match goal with |- context [@get xs 6 c ?a ?a] => destruct (@get xs 6 c a a) end; reflexivity.
Qed.
Print Assumptions C56_rotation_information_3d.
Theorem C56_kept_covariance_3d : forall N (c : g_cov (geom3 N)) i j, i < 6 -> j < 6 ->
  (~ turns3 i -> ~ turns3 j -> @get xs 6 (g_keep_trans (geom3 N) c) i j = @get xs 6 c i j) /\
  (turns3 i \/ turns3 j -> @get xs 6 (g_keep_trans (geom3 N) c) i j = Some (Q2Qc 0)).
Proof.
  intros N c i j Hi Hj. rewrite !turns3_iff by auto. cbn [g_keep_trans geom3 lie_geom]. unfold keep_trans. rewrite get_tab by auto.
  replace (i <? 3 + 3) with true by (symmetry; apply Nat.ltb_lt; lia). replace (j <? 3 + 3) with true by (symmetry; apply Nat.ltb_lt; lia).
  rewrite !andb_true_r. split.
  - intros A B. replace (3 <=? i) with true by (symmetry; apply Nat.leb_le; lia). replace (3 <=? j) with true by (symmetry; apply Nat.leb_le; lia). reflexivity.
  - intros A. assert (E : (3 <=? i) && (3 <=? j) = false).
    { apply andb_false_iff. rewrite !Nat.leb_gt. lia. }
    rewrite E. reflexivity.
Qed.
Print Assumptions C56_kept_covariance_3d.

Lemma log3_parts N (p : pose3) : logs3 (logmap N) ->
  (shift3 (proj1_sig p) -> g_log_rsq (geom3 N) p = dzero) /\ (turn3 (proj1_sig p) -> g_log_tsq (geom3 N) p = dzero).
Proof.
  intros [H1 H2]. cbn [g_log_rsq g_log_tsq geom3 lie_geom]. unfold log_head_sq, log_tail_sq. cbn [Nat.sub seq map]. split; intro H.
  - rewrite (proj1 (H1 p 0 H ltac:(lia))), (proj1 (H1 p 1 H ltac:(lia))), (proj1 (H1 p 2 H ltac:(lia))). reflexivity.
  - pose proof (H2 p 0 H ltac:(lia)) as E0. pose proof (H2 p 1 H ltac:(lia)) as E1. pose proof (H2 p 2 H ltac:(lia)) as E2.
    cbn [Nat.add] in E0, E1, E2. rewrite E0, E1, E2. reflexivity.
Qed.
(** In space: errors that only move are judged by the translation thresholds alone, errors that only
    turn by the rotation thresholds alone. *)
Theorem C56_thresholds_3d : forall N pp (e : t_T (pcm_simple3d N pp)), let O := pcm_simple3d N pp in let n := e : pnode (geom3 N) in
  logs3 (logmap N) -> (0 < pn_node n < 2 ^ 53)%Z ->
  dpositive (pp_odom_trans pp) -> dpositive (pp_odom_rot pp) -> dpositive (pp_dist_trans pp) -> dpositive (pp_dist_rot pp) ->
  (shift3 (proj1_sig (pn_pose n)) -> t_odom_ok O e = dlt (pn_avg_trans n) (pp_odom_trans pp) /\ t_loop_ok O e = dlt (pn_avg_trans n) (pp_dist_trans pp)) /\
  (turn3 (proj1_sig (pn_pose n)) -> t_odom_ok O e = dlt (pn_avg_rot n) (pp_odom_rot pp) /\ t_loop_ok O e = dlt (pn_avg_rot n) (pp_dist_rot pp)).
Proof.
  intros N pp e O n LG Hn T1 R1 T2 R2. destruct (log3_parts N (pn_pose n) LG) as [L1 L2].
  change (t_odom_ok O e) with (pn_odom_ok pp n). change (t_loop_ok O e) with (pn_loop_ok pp n).
  unfold pn_odom_ok, pn_loop_ok. split; intro H.
  - unfold pn_avg_rot. rewrite (L1 H). assert (Z : forall r, dpositive r -> dlt (if pn_rot n then ddiv (dsqrt dzero) (dofZ (pn_node n)) else dzero) r = true).
    { intros r Hr. destruct (pn_rot n); [apply zero_passes; auto|exact Hr]. }
    rewrite !Z by auto. rewrite !andb_true_r. auto.
  - unfold pn_avg_trans. rewrite (L2 H), !zero_passes by auto. auto.
Qed.
Print Assumptions C56_thresholds_3d.

(** In the plane the first component, which does not turn, is taken for the rotation. *)
Theorem C56_what_is_compared_2d : forall N (p : pose2), logs2 (logmap N) ->
  (shift2 (proj1_sig p) -> g_log_rsq (geom2 N) p = dsumsq [e_x (proj1_sig p)] /\ g_log_tsq (geom2 N) p = dsumsq [e_y (proj1_sig p); Q2Qc 0]) /\
  (turn2 (proj1_sig p) -> g_log_rsq (geom2 N) p = dzero).
Proof.
  intros N p [H1 H2]. cbn [g_log_rsq g_log_tsq geom2 lie_geom]. unfold log_head_sq, log_tail_sq. cbn [Nat.sub seq map]. split; intro H.
  - destruct (H1 p H) as (E0 & E1 & E2). rewrite E0, E1, E2. auto.
  - destruct (H2 p H) as (E0 & _). rewrite E0. reflexivity.
Qed.
Print Assumptions C56_what_is_compared_2d.
Theorem C56_rotation_information_2d_refuted : exists N (c c' : g_cov (geom2 N)),
  (exists i, i < 3 /\ turns2 i /\ @get xs 3 c i i = None) /\ g_rot_nan (geom2 N) c = false /\
  (forall i, i < 3 -> turns2 i -> @get xs 3 c' i i <> None) /\ g_rot_nan (geom2 N) c' = true.
Proof.
  exists N2, (@tab xs 3 (fun i j => if i =? j then (if i =? 2 then None else Some (Q2Qc 1)) else Some (Q2Qc 0))),
             (@tab xs 3 (fun i j => if i =? j then (if i =? 0 then None else Some (Q2Qc 1)) else Some (Q2Qc 0))).
  split; [exists 2; split; [lia|]; split; [apply turns2_iff; lia|reflexivity]|]. split; [reflexivity|]. split; [|reflexivity].
  intros i Hi T. apply turns2_iff in T; [|exact Hi]. subst i. cbn. discriminate.
Qed.
Print Assumptions C56_rotation_information_2d_refuted.

(** In the plane: a loop closure whose error is half a unit along x and no turn, with a translation
    threshold of one, is rejected; one whose error is a quarter turn, with a rotation threshold of
    1/100, is accepted. *)
Definition line2 (f : Q -> pose2) := line (pcm_simple2d N2 pp_lie) f (Gauss (diag ones3 : t_cov (pcm_simple2d N2 pp_lie))).
Definition W2 : soracles (pcm_simple2d N2 pp_lie) := plain_soracles (pcm_simple2d N2 pp_lie) (at2 0 0).
Definition se2_eqb (a b : se2 qs) : bool :=
  Qc_eq_bool (e_c a) (e_c b) && Qc_eq_bool (e_s a) (e_s b) && Qc_eq_bool (e_x a) (e_x b) && Qc_eq_bool (e_y a) (e_y b).
Lemma se2_check a b : se2_eqb a b = true -> a = b.
Proof.
  destruct a as [c s x y], b as [c' s' x' y']. unfold se2_eqb. cbn [e_c e_s e_x e_y]. rewrite !andb_true_iff.
  intros (((A & B) & C) & D). apply Qc_eq_bool_correct in A, B, C, D. subst. reflexivity.
Qed.
Theorem C56_thresholds_2d_refuted : exists N pp (s s' : solver (pcm_simple2d N pp)) rs rs' C W h o o' f f',
  logs2 (logmap N) /\ pp_odom_trans pp = dofZ 1 /\ pp_odom_rot pp = dlit 1 100 /\
  o = OpUpdate [Some (FBetween f)] [] true /\ o' = OpUpdate [Some (FBetween f')] [] true /\
  run C W (h ++ [o]) (solver_init true) = Ok s rs /\ run C W (h ++ [o']) (solver_init true) = Ok s' rs' /\
  (exists e, b_meas f = p2_comp e (dead2 N (robot_odoms C (chr (b_from f)) h) 2) /\ shift2 (proj1_sig e) /\ e_x (proj1_sig e) = Q2Qc (1 # 2) /\ e_y (proj1_sig e) = Q2Qc 0) /\
  (exists e, b_meas f' = p2_comp e (dead2 N (robot_odoms C (chr (b_from f')) h) 2) /\ turn2 (proj1_sig e) /\ e_c (proj1_sig e) = Q2Qc 0) /\
  get_num_inliers C s = Val 0%Z /\ get_num_inliers C s' = Val 1%Z.
Proof.
  set (h := firstn 3 (line2 (fun x => at2 x 0) 0)).
  set (f := BF (ka 0) (ka 2) (at2 (41 # 2) 0) (Gauss (diag ones3)) : bf (pcm_simple2d N2 pp_lie)).
  set (f' := BF (ka 0) (ka 2) (quarter2 0 20) (Gauss (diag ones3)) : bf (pcm_simple2d N2 pp_lie)).
  assert (H : match run C1 W2 (h ++ [OpUpdate [Some (FBetween f)] [] true]) (solver_init true) with
    | Ok s _ => get_num_inliers C1 s = Val 0%Z | _ => False end) by (vm_compute; reflexivity).
  assert (H' : match run C1 W2 (h ++ [OpUpdate [Some (FBetween f')] [] true]) (solver_init true) with
    | Ok s _ => get_num_inliers C1 s = Val 1%Z | _ => False end) by (vm_compute; reflexivity).
  apply run_check in H. destruct H as (s & rs & R & E). apply run_check in H'. destruct H' as (s' & rs' & R' & E').
  exists N2, pp_lie, s, s', rs, rs', C1, W2, h, (OpUpdate [Some (FBetween f)] [] true), (OpUpdate [Some (FBetween f')] [] true), f, f'.
  split; [exact log2_ok|]. do 4 (split; [reflexivity|]). split; [exact R|]. split; [exact R'|]. split; [|split; [|split; [exact E|exact E']]].
  - exists (at2 (1 # 2) 0). split; [|split; [split; reflexivity|split; reflexivity]]. apply sig_eq. apply se2_check. vm_compute. reflexivity.
  - exists (quarter2 0 0). split; [|split; [split; reflexivity|reflexivity]]. apply sig_eq. apply se2_check. vm_compute. reflexivity.
Qed.
Print Assumptions C56_thresholds_2d_refuted.

Definition line3s := line_inliers (pcm_simple3d N3 pp_lie) (fun x => at3 x 0 0) (Gauss (diag ones6 : t_cov (pcm_simple3d N3 pp_lie))).
(** The first of them in space. *)
Example C56_example : line3s (41 # 2) = Some (Val 1, Val 1%Z) /\ line3s 40 = Some (Val 0, Val 0%Z) /\ logs3 (logmap N3).
Proof. split; [vm_compute; reflexivity|]. split; [vm_compute; reflexivity|exact log3_ok]. Qed.
