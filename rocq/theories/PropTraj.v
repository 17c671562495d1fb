(** * Dead reckoning and noise-free measurements: C33, C34 *)
From Coq Require Import QArith.
From Verif Require Import Prelude Num Keys KMap UMap Geometry Factors Clique Pcm Params Solver Grid
  PcmSpec HistSpec PcmProofs TrajProofs AlgProofs TrajRel Scenes.
Local Open Scope nat_scope.

(** ** C33 *)

(** The estimate of the first key when the robot's first odometry arrives, composed with the
    increments one by one. *)
Theorem C33_dead_reckoning : forall O C (W : soracles O) h1 o h2 s1 rs1 s rs p fs vs c k0 x0,
  run C W h1 (solver_init true) = Ok s1 rs1 -> run C W (h1 ++ o :: h2) (solver_init true) = Ok s rs ->
  s_pcm s = Some p -> call_of o = Some (fs, vs) ->
  not_mentioned c h1 -> robot_odoms C c [o] <> [] ->
  kfind k0 (s_vals s1) = Some (VPose x0) \/ kfind k0 vs = Some (VPose x0) ->
  chain k0 (robot_odoms C c (h1 ++ o :: h2)) ->
  exists ds, Forall2 (fun b d => t_of O b = Some d) (robot_odoms C c (h1 ++ o :: h2)) ds /\
    forall i, i <= length ds -> tref p c (k0 + N.of_nat i)%N = fold_left (t_comp O) (firstn i ds) (t_init O x0).
Proof.
  intros O C W h1 o h2 s1 rs1 s rs p fs vs c k0 x0 H1 H2 H3 H4 H5 H6 H7 H8.
  destruct (@c33 O C W h1 o h2 s1 rs1 s rs p fs vs c k0 x0 H1 H2 H3 H4 H5 H6 H7 H8) as (ds & D & _ & E). eauto.
Qed.
Print Assumptions C33_dead_reckoning.

(** With [PoseWithNode]: position, counter and relative poses. *)
Theorem C33_counter_and_relative_poses : forall G pp C (W : soracles (node_ops G pp)), pose_group G ->
  forall h1 o h2 s1 rs1 s rs p fs vs c k0 x0,
  run C W h1 (solver_init true) = Ok s1 rs1 -> run C W (h1 ++ o :: h2) (solver_init true) = Ok s rs ->
  s_pcm s = Some p -> call_of o = Some (fs, vs) ->
  not_mentioned c h1 -> robot_odoms C c [o] <> [] ->
  kfind k0 (s_vals s1) = Some (VPose x0) \/ kfind k0 vs = Some (VPose x0) ->
  let bs := robot_odoms C c (h1 ++ o :: h2) in
  chr k0 = c -> chain k0 bs -> forall i j, i <= j <= length bs ->
  let rot := forallb (@knows_rot G) (firstn j bs) in
  tref p c (k0 + N.of_nat j)%N = PN G (g_comp G x0 (motion G (firstn j bs))) (Z.of_nat j) rot /\
  sp_rel (tref p) c (k0 + N.of_nat i)%N (k0 + N.of_nat j)%N = PN G (motion G (stretch i j bs)) (Z.of_nat (j - i)) rot /\
  sp_rel (tref p) c (k0 + N.of_nat j)%N (k0 + N.of_nat i)%N =
    PN G (g_inv G (motion G (stretch i j bs))) (Z.of_nat (j - i)) rot.
Proof. exact c33_node. Qed.
Print Assumptions C33_counter_and_relative_poses.

(** With [PoseWithCovariance]: relative pose and covariance are those of the stretch alone. *)
Theorem C33_relative_covariances : forall G pp C (W : soracles (cov_ops G pp)), pose_group G ->
  forall ok : g_cov G -> Prop, cov_action G ok ->
  forall h1 o h2 s1 rs1 s rs p fs vs c k0 x0,
  run C W h1 (solver_init true) = Ok s1 rs1 -> run C W (h1 ++ o :: h2) (solver_init true) = Ok s rs ->
  s_pcm s = Some p -> call_of o = Some (fs, vs) ->
  not_mentioned c h1 -> robot_odoms C c [o] <> [] ->
  kfind k0 (s_vals s1) = Some (VPose x0) \/ kfind k0 vs = Some (VPose x0) ->
  let bs := robot_odoms C c (h1 ++ o :: h2) in
  chr k0 = c -> chain k0 bs -> (forall b d, In b bs -> pc_of G b = Some d -> ok (pc_cov d)) ->
  exists ds, Forall2 (fun b d => pc_of G b = Some d) bs ds /\
  forall i j, i <= j <= length bs ->
  let m := composite (stretch i j ds) in
  let rot := forallb (@pc_rot G) (firstn j ds) in
  tref p c (k0 + N.of_nat j)%N = pc_comp (pc_init G x0) (composite (firstn j ds)) /\
  (g_llt_ok G (pc_cov m) = true ->
   sp_rel (tref p) c (k0 + N.of_nat i)%N (k0 + N.of_nat j)%N = PC G (pc_pose m) (pc_cov m) rot) /\
  (g_llt_ok G (g_csub G (pc_cov (tref p c (k0 + N.of_nat i)%N)) (g_act G (pc_pose m) (pc_cov (tref p c (k0 + N.of_nat j)%N)))) = false ->
   sp_rel (tref p) c (k0 + N.of_nat j)%N (k0 + N.of_nat i)%N = PC G (g_inv G (pc_pose m)) (pc_cov m) rot).
Proof. exact c33_cov. Qed.
Print Assumptions C33_relative_covariances.

(** The hypotheses on the pose type hold for poses on the grid. *)
Lemma grid_group : pose_group grid.
Proof. split; [exact gp_assoc|exact gp_id_l|exact gp_inv_l]. Qed.
Lemma grid_cov : cov_action grid (fun _ => True).
Proof. split; cbn [grid g_cov g_pose g_cadd g_csub g_act g_czero g_comp g_id]; intros; auto; lia. Qed.

(** Robot [a]: a turn, a step, a turn; with a loop closure and another robot in between. *)
Definition turning : list (op O1) :=
  [start_a; OpUpdate [bet (ka 0) (ka 1) (GP 10 0 R1)] [val (ka 1) gp_id] true; start_b;
   OpUpdate [bet (ka 1) (ka 2) (GP 10 0 R0)] [val (ka 2) gp_id] true; lc_good;
   OpUpdate [bet (ka 2) (ka 3) (GP 0 0 R1)] [val (ka 3) gp_id] true].
Definition refs_of (s : solver O1) (c : N) (ks : list key) : list (gpose * Z) :=
  match s_pcm s with
  | Some p => map (fun k => let t := tref p c k in (@pn_pose grid t, @pn_node grid t)) ks
  | None => []
  end.
Example C33_example :
  after C1 turning (fun s => (refs_of s 97 [ka 0; ka 1; ka 2; ka 3],
     match s_pcm s with
     | Some p => let t := sp_rel (tref p) 97 (ka 1) (ka 3) in [(@pn_pose grid t, @pn_node grid t)]
     | None => [] end))
  = Some ([(gp_id, 0%Z); (GP 10 0 R1, 1%Z); (GP 10 10 R1, 2%Z); (GP 10 10 R2, 3%Z)], [(GP 10 0 R1, 2%Z)]) /\
  map (fun b => (b_from b, b_to b)) (robot_odoms C1 97 turning) = [(ka 0, ka 1); (ka 1, ka 2); (ka 2, ka 3)].
Proof. split; vm_compute; reflexivity. Qed.

(** The value SUPPLIED for the first key is not what is used when an optimisation comes between:
    the current estimate is. *)
Theorem C33_supplied_value_refuted : exists C W h1 o h2 (s1 s : solver O1) rs1 rs p fs vs c k0 x0 x1,
  run C W h1 (solver_init true) = Ok s1 rs1 /\ run C W (h1 ++ o :: h2) (solver_init true) = Ok s rs /\
  s_pcm s = Some p /\ call_of o = Some (fs, vs) /\ robot_odoms C c [o] <> [] /\
  chain k0 (robot_odoms C c (h1 ++ o :: h2)) /\
  (exists o1 fs1 vs1, In o1 h1 /\ call_of o1 = Some (fs1, vs1) /\ kfind k0 vs1 = Some (VPose x0)) /\
  @pn_pose grid (tref p c k0) = x1 /\ x1 <> x0.
Proof.
  assert (H : match run C1 (moving 9 (fwd 7)) [start_a; odo_a 0] (solver_init true) with
              | Ok s _ => refs_of s 97 [ka 0] = [(fwd 7, 0%Z)] | _ => False end) by (vm_compute; reflexivity).
  apply run_check in H. destruct H as (s & rs & R & E).
  pose proof R as R'. change [start_a; odo_a 0] with ([start_a] ++ [odo_a 0]) in R'.
  destruct (run C1 (moving 9 (fwd 7)) [start_a] (solver_init true)) as [s1 rs1| |] eqn:R1.
  2,3: exfalso; apply SolverProofs.run_app in R'; destruct R' as (s1 & rs1 & rs2 & X & _); congruence.
  unfold refs_of in E. destruct (s_pcm s) as [p|] eqn:Hp; [|discriminate E].
  exists C1, (moving 9 (fwd 7)), [start_a], (odo_a 0), [], s1, s, rs1, rs, p,
    [bet (ka 0) (ka 1) (fwd 10)], [val (ka 1) (fwd 10)], 97%N, (ka 0), gp_id, (fwd 7).
  split; [exact R1|]. split; [exact R|]. split; [exact Hp|]. split; [reflexivity|].
  split; [discriminate|]. split; [split; [reflexivity|split; [reflexivity|exact I]]|].
  split; [exists start_a, [pri (ka 0) gp_id], [val (ka 0) gp_id]; split; [left; reflexivity|split; reflexivity]|].
  split; [injection E as E; exact E|discriminate].
Qed.
Print Assumptions C33_supplied_value_refuted.

(** ** C34 *)

(** [X]: true poses; [F]: frame of each robot's odometry; [placed]: the reference pose of the key
    is its true pose seen from that frame; [exact]: the measurement is the true relative pose. *)
Theorem C34_odometry_test_partial : forall G, pose_group G -> forall X F pp (ref : N -> key -> t_T (node_ops G pp)),
  g_log_tsq G (g_id G) = dzero -> g_log_rsq G (g_id G) = dzero -> forall b m,
  pn_of G b = Some m -> exact G X b -> chr (b_from b) = chr (b_to b) ->
  placed G X F (node_ops G pp) (@pn_pose G) ref (b_from b) -> placed G X F (node_ops G pp) (@pn_pose G) ref (b_to b) ->
  (Z.abs (pn_node (ref (chr (b_to b)) (b_to b)) - pn_node (ref (chr (b_from b)) (b_from b))) + 1 < 2 ^ 53)%Z ->
  dpositive (pp_odom_trans pp) -> dpositive (pp_odom_rot pp) ->
  sp_odom_test (O := node_ops G pp) ref b = Some true.
Proof. intros. eapply c34_odom; eauto. Qed.
Print Assumptions C34_odometry_test_partial.

Theorem C34_pairwise_test_partial : forall G, pose_group G -> forall X F pp (ref : N -> key -> t_T (node_ops G pp)),
  g_log_tsq G (g_id G) = dzero -> g_log_rsq G (g_id G) = dzero -> forall f1 f2 m1 m2,
  pn_of G f1 = Some m1 -> pn_of G f2 = Some m2 -> exact G X f1 -> exact G X f2 ->
  chr (b_from f1) = chr (b_from f2) -> chr (b_to f1) = chr (b_to f2) ->
  (forall k, In k [b_from f1; b_to f1; b_from f2; b_to f2] -> placed G X F (node_ops G pp) (@pn_pose G) ref k) ->
  (Z.abs (pn_node (ref (chr (b_from f2)) (b_from f2)) - pn_node (ref (chr (b_from f1)) (b_from f1))) +
   Z.abs (pn_node (ref (chr (b_to f2)) (b_to f2)) - pn_node (ref (chr (b_to f1)) (b_to f1))) + 2 < 2 ^ 53)%Z ->
  dpositive (pp_dist_trans pp) -> dpositive (pp_dist_rot pp) -> sp_loop_test (O := node_ops G pp) ref f1 f2 = Some true.
Proof. intros. eapply c34_loop; eauto. Qed.
Print Assumptions C34_pairwise_test_partial.

Theorem C34_landmark_test : forall G, pose_group G -> forall X F pp (ref : N -> key -> t_T (node_ops G pp)),
  g_log_tsq G (g_id G) = dzero -> g_log_rsq G (g_id G) = dzero -> forall f1 f2 m1 m2,
  pn_of G f1 = Some m1 -> pn_of G f2 = Some m2 -> exact G X f1 -> exact G X f2 ->
  chr (b_from f1) = chr (b_from f2) -> b_to f1 = b_to f2 ->
  (forall k, In k [b_from f1; b_from f2] -> placed G X F (node_ops G pp) (@pn_pose G) ref k) ->
  (Z.abs (pn_node (ref (chr (b_from f2)) (b_from f2)) - pn_node (ref (chr (b_from f1)) (b_from f1))) + 2 < 2 ^ 53)%Z ->
  dpositive (pp_dist_trans pp) -> dpositive (pp_dist_rot pp) -> sp_lm_test (O := node_ops G pp) ref f1 f2 = Some true.
Proof. intros. eapply c34_landmark; eauto. Qed.
Print Assumptions C34_landmark_test.

(** With [PoseWithCovariance], when the covariance of the error is not singular. *)
Theorem C34_odometry_test_cov_partial : forall G, pose_group G -> forall X F pp (ref : N -> key -> t_T (cov_ops G pp)) b m,
  pc_of G b = Some m -> exact G X b -> chr (b_from b) = chr (b_to b) ->
  placed G X F (cov_ops G pp) (@pc_pose G) ref (b_from b) -> placed G X F (cov_ops G pp) (@pc_pose G) ref (b_to b) ->
  @zero_form G pp (t_comp (cov_ops G pp) (sp_rel ref (chr (b_from b)) (b_from b) (b_to b)) (t_inv (cov_ops G pp) m)) ->
  dpositive (pp_odom pp) -> sp_odom_test (O := cov_ops G pp) ref b = Some true.
Proof. intros. eapply c34_odom_cov; eauto. Qed.
Print Assumptions C34_odometry_test_cov_partial.

Theorem C34_pairwise_test_cov_partial : forall G, pose_group G -> forall X F pp (ref : N -> key -> t_T (cov_ops G pp)) f1 f2 m1 m2,
  let O := cov_ops G pp in
  pc_of G f1 = Some m1 -> pc_of G f2 = Some m2 -> exact G X f1 -> exact G X f2 ->
  chr (b_from f1) = chr (b_from f2) -> chr (b_to f1) = chr (b_to f2) ->
  (forall k, In k [b_from f1; b_to f1; b_from f2; b_to f2] -> placed G X F O (@pc_pose G) ref k) ->
  @zero_form G pp (t_comp O (t_comp O (t_inv O (t_comp O (sp_rel ref (chr (b_from f1)) (b_from f1) (b_from f2)) m2)) m1)
                           (sp_rel ref (chr (b_to f1)) (b_to f1) (b_to f2))) ->
  dpositive (pp_lc pp) -> sp_loop_test (O := O) ref f1 f2 = Some true.
Proof. intros. eapply c34_loop_cov; eauto. Qed.
Print Assumptions C34_pairwise_test_cov_partial.

(** Two exact loop closures between the same robots given in opposite directions: the error the test
    computes is the square of the inverse of the second measurement, not the identity. *)
Theorem C34_opposite_direction_error : forall G, pose_group G -> forall X F pp (ref : N -> key -> t_T (node_ops G pp)) f1 f2 m1 m2,
  let O := node_ops G pp in
  pn_of G f1 = Some m1 -> pn_of G f2 = Some m2 -> exact G X f1 -> exact G X f2 ->
  chr (b_from f1) = chr (b_to f2) -> chr (b_to f1) = chr (b_from f2) -> chr (b_from f1) <> chr (b_from f2) ->
  (forall k, In k [b_from f1; b_to f1; b_from f2; b_to f2] -> placed G X F O (@pn_pose G) ref k) ->
  exists e, sp_loop_test (O := O) ref f1 f2 = Some (t_loop_ok O e) /\
    pn_pose e = g_comp G (g_inv G (b_meas f2)) (g_inv G (b_meas f2)).
Proof.
  intros G L X F pp ref f1 f2 m1 m2 O H1 H2 E1 E2 C1 C2 C3 HP.
  eexists. split.
  - unfold sp_loop_test. change (t_of O f1) with (pn_of G f1). change (t_of O f2) with (pn_of G f2). rewrite H1, H2.
    apply N.eqb_neq in C3. cbv zeta. exact (f_equal (fun b : bool => Some (t_loop_ok O
      (t_comp O (t_comp O (t_inv O (t_comp O (sp_rel ref (chr (b_from f1)) (b_from f1) (if b then b_from f2 else b_to f2)) m2)) m1)
                (sp_rel ref (chr (b_to f1)) (b_to f1) (if b then b_to f2 else b_from f2))))) C3).
  - cbn beta iota. destruct (pn_exact H1 E1) as [M1 _]. destruct (pn_exact H2 E2) as [M2 _].
    assert (MM : pn_pose m2 = b_meas f2) by (rewrite M2; symmetry; exact E2).
    rewrite <- MM. apply (@loop_error_opposite G L X F O (@pn_pose G)); auto; apply HP; cbn; tauto.
Qed.
Print Assumptions C34_opposite_direction_error.

(** True poses of the base scene and the references a run gives. *)
Definition true_pose (k : key) : gpose :=
  GP (Z.of_N (10 * (kidx k)) + if (chr k =? 98)%N then 100 else 0)%Z 0 R0.
Definition true_ref (c : N) (k : key) : t_T O1 := PN grid (true_pose k) (Z.of_N ((kidx k))) true.
Definition lc1 : bf O1 := nb pp1 (ka 0) (kb 0) (fwd 100).
Definition lc2 : bf O1 := nb pp1 (kb 1) (ka 1) (fwd (-100)).
Definition lc2' : bf O1 := nb pp1 (ka 1) (kb 1) (fwd 100).

Theorem C34_any_direction_refuted : exists X F (ref : N -> key -> t_T O1) f1 f2 m1 m2,
  pn_of grid f1 = Some m1 /\ pn_of grid f2 = Some m2 /\ exact grid X f1 /\ exact grid X f2 /\
  chr (b_from f1) = chr (b_to f2) /\ chr (b_to f1) = chr (b_from f2) /\
  (forall k, In k [b_from f1; b_to f1; b_from f2; b_to f2] -> placed grid X F O1 (@pn_pose grid) ref k) /\
  dpositive (pp_dist_trans pp1) /\ dpositive (pp_dist_rot pp1) /\
  sp_loop_test ref f1 f2 = Some false.
Proof.
  exists true_pose, (fun _ => gp_id), true_ref, lc1, lc2, (PN grid (fwd 100) 1 true), (PN grid (fwd (-100)) 1 true).
  do 2 (split; [reflexivity|]). do 4 (split; [vm_compute; reflexivity|]). split; [|repeat split; vm_compute; reflexivity].
  intros k [<-|[<-|[<-|[<-|[]]]]]; vm_compute; reflexivity.
Qed.
Print Assumptions C34_any_direction_refuted.

(** The same two loop closures given in the same direction, and both cases in a whole run. *)
Example C34_example :
  sp_loop_test true_ref lc1 lc2' = Some true /\ sp_odom_test true_ref (nb pp1 (ka 0) (ka 3) (fwd 30)) = Some true /\
  after C1 (base ++ [lc_ab 0 0 100; lc_ab 1 1 100]) (fun s => get_num_inliers C1 s) = Some (Val 2%Z) /\
  after C1 (base ++ [lc_ab 0 0 100; OpUpdate [bet (kb 1) (ka 1) (fwd (-100))] [] true]) (fun s => get_num_inliers C1 s) = Some (Val 1%Z).
Proof. repeat split; vm_compute; reflexivity. Qed.
