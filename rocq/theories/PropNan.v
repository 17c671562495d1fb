(** * Property C75: measurements that are not numbers *)
From Coq Require Import ZArith List.
From Verif Require Import Prelude Num Keys KMap UMap Geometry Factors Clique Pcm Solver PcmSpec PcmProofs PcmInv HistSpec StoreSpec RemoveSpec IncSpec TrajProofs
  Grid Scenes Lie Floats NanSpec NanProofs.
Set Implicit Arguments.
Local Open Scope nat_scope.

(** No test is passed by a measurement with a NaN entry; for sightings of a landmark, with a NaN
    position. *)
Theorem C75_no_test_is_passed : forall O bad lost, in_doubles O bad lost -> forall b : bf O,
  (bad (b_meas b) -> fails_odom b /\ fails_pairwise b) /\ (lost (b_meas b) -> fails_sightings b).
Proof. exact fails. Qed.
Print Assumptions C75_no_test_is_passed.

(** With the odometry check a closure within a robot with a NaN entry is in the graph after no history. *)
Theorem C75_within_a_robot : forall O bad lost C (W : soracles O), in_doubles O bad lost ->
  forall h s rs c b, run C W h (solver_init true) = Ok s rs -> c_odom_check C = true -> bad (b_meas b) ->
  ~ In b (graph_lcs C h (c, c) (s_nfg s)).
Proof. exact within_robot. Qed.
Print Assumptions C75_within_a_robot.

(** With the pairwise check, in every mode and after any removals, a closure with a NaN entry is in
    the graph only if no other closure of its pair is. *)
Theorem C75_only_alone : forall O bad lost C (W : soracles O), in_doubles O bad lost ->
  forall h s rs id b, run C W h (solver_init true) = Ok s rs -> records_sound C W h -> small C (length (sp_stored C W h)) ->
  c_loop_check C = true -> bad (b_meas b) -> In b (graph_lcs C h id (s_nfg s)) -> graph_lcs C h id (s_nfg s) = [b].
Proof. exact only_alone. Qed.
Print Assumptions C75_only_alone.

Theorem C75_landmark_only_alone : forall O bad lost C (W : soracles O), in_doubles O bad lost ->
  forall h s rs l b, run C W h (solver_init true) = Ok s rs -> lost (b_meas b) ->
  In b (graph_lms C h l (s_nfg s)) -> graph_lms C h l (s_nfg s) = [b].
Proof. exact lm_only_alone. Qed.
Print Assumptions C75_landmark_only_alone.

(** After odometry of a robot with a NaN entry, no closure within the robot that touches a later pose
    passes the odometry test; if the position is NaN no two closures, one of which touches a later
    pose, pass the pairwise test. *)
Theorem C75_after_odometry : forall O bad lost C (W : soracles O), in_doubles O bad lost ->
  forall h1 o h2 s1 rs1 fs vs c k0 x0,
  run C W h1 (solver_init true) = Ok s1 rs1 -> call_of o = Some (fs, vs) -> not_mentioned c h1 -> robot_odoms C c [o] <> [] ->
  kfind k0 (s_vals s1) = Some (VPose x0) \/ kfind k0 vs = Some (VPose x0) -> chain k0 (robot_odoms C c (h1 ++ o :: h2)) ->
  forall j b0, nth_error (robot_odoms C c (h1 ++ o :: h2)) j = Some b0 ->
  forall s rs p, run C W (h1 ++ o :: h2) (solver_init true) = Ok s rs -> s_pcm s = Some p ->
  forall i, j < i <= length (robot_odoms C c (h1 ++ o :: h2)) ->
  (bad (b_meas b0) -> forall b, chr (b_from b) = c -> chr (b_to b) = c -> (b_from b = k0 + N.of_nat i \/ b_to b = k0 + N.of_nat i)%N ->
     sp_odom_test (tref p) b <> Some true) /\
  (lost (b_meas b0) -> chr (k0 + N.of_nat i)%N = c -> forall f g, oid_eqb (pair_of f) (pair_of g) = true ->
     In (k0 + N.of_nat i)%N [b_from f; b_to f; b_from g; b_to g] -> sp_loop_test (tref p) f g <> Some true).
Proof. exact after_odometry. Qed.
Print Assumptions C75_after_odometry.

(** So none that first comes afterwards is ever in the graph. *)
Theorem C75_after_odometry_graph : forall O bad lost C (W : soracles O), in_doubles O bad lost ->
  forall h1 o h2 h3 s1 rs1 s rs fs vs c k0 x0 j b0 i b,
  run C W h1 (solver_init true) = Ok s1 rs1 -> run C W (h1 ++ o :: h2 ++ h3) (solver_init true) = Ok s rs -> call_of o = Some (fs, vs) ->
  not_mentioned c h1 -> robot_odoms C c [o] <> [] ->
  kfind k0 (s_vals s1) = Some (VPose x0) \/ kfind k0 vs = Some (VPose x0) ->
  chain k0 (robot_odoms C c (h1 ++ o :: h2 ++ h3)) ->
  nth_error (robot_odoms C c (h1 ++ o :: h2)) j = Some b0 -> bad (b_meas b0) -> c_odom_check C = true ->
  j < i <= length (robot_odoms C c (h1 ++ o :: h2)) ->
  chr (b_from b) = c -> chr (b_to b) = c -> (b_from b = k0 + N.of_nat i \/ b_to b = k0 + N.of_nat i)%N ->
  ~ delivered (h1 ++ o :: h2) (FBetween b) -> ~ In b (graph_lcs C (h1 ++ o :: h2 ++ h3) (c, c) (s_nfg s)).
Proof. exact after_odometry_graph. Qed.
Print Assumptions C75_after_odometry_graph.

(** ** Scenes in double precision *)
Definition pn := PcmParams (dlit 1 1) (dlit 1 1) (dlit 1 10) (dlit 1 10) (dlit 1 10) (dlit 1 10) false.
Definition On : tops := node_ops fgeom2 pn.
Definition Wn : soracles On := plain_soracles On (@se2_id ds).
Definition at2 (x : double) : se2 ds := @SE2 ds done dzero x dzero.
Definition to (z : Z) : se2 ds := at2 (dofZ z).
Definition nowhere : se2 ds := at2 S754_nan.
Definition nbf (f t : key) (m : se2 ds) : bf On := BF f t (m : t_pose On) (Gauss (@mone ds 3 : t_cov On)).
Definition nbet f t m : option (factor On) := Some (FBetween (nbf f t m)).
Definition nval (k : key) (z : Z) : key * value On := (k, @VPose On (to z)).
Definition nodo (i : N) (m : se2 ds) : op On := OpUpdate [nbet (ka i) (ka (i + 1)) m] [nval (ka (i + 1)) (Z.of_N i + 1)] true.
Definition two : list (op On) :=
  [OpUpdate [] [nval (ka 0) 0] true; nodo 0 (to 1); nodo 1 (to 1); nodo 2 (to 1);
   OpUpdate [nbet (kb 0) (kb 1) (to 1)] [nval (kb 0) 9; nval (kb 1) 10] true].
Definition nlc (f t : key) (m : se2 ds) : op On := OpUpdate [nbet f t m] [] true.
Definition is_nan (x : double) : bool := match x with S754_nan => true | _ => false end.
Definition nan_between (f : option (factor On)) : bool := match f with Some (FBetween b) => is_nan (e_x (b_meas b : se2 ds)) | _ => false end.
Definition kept_n (h : list (op On)) : option (list (list key * bool)) :=
  match run C1 Wn h (solver_init true) with
  | Ok s _ => Some (map (fun f => (match f with Some f => f_keys f | None => [] end, nan_between f)) (skipn 4 (s_nfg s)))
  | _ => None
  end.

(** Alone between two robots it is taken; with others it never is, whatever the order; within a robot
    not even alone; after NaN odometry nothing within the robot is. *)
Example C75_example :
  kept_n (two ++ [nlc (ka 0) (kb 0) nowhere]) = Some [([ka 0; kb 0], true)] /\
  kept_n (two ++ [nlc (ka 0) (kb 0) nowhere; nlc (ka 1) (kb 0) (to 8); nlc (ka 1) (kb 1) (to 9)]) = Some [([ka 1; kb 0], false); ([ka 1; kb 1], false)] /\
  kept_n (two ++ [nlc (ka 0) (ka 2) nowhere]) = Some [] /\
  kept_n (two ++ [nlc (ka 0) (ka 2) (to 2)]) = Some [([ka 0; ka 2], false)] /\
  kept_n (two ++ [nodo 3 nowhere; nodo 4 (to 1); nlc (ka 0) (ka 4) (to 4); nlc (ka 5) (ka 4) (to (-1)); nlc (ka 3) (ka 0) (to (-3))])
    = Some [([ka 3; ka 4], true); ([ka 4; ka 5], false); ([ka 3; ka 0], false)].
Proof. repeat split; vm_compute; reflexivity. Qed.

(** Sightings of a landmark. *)
Example C75_landmark_example :
  let first := OpUpdate [nbet (ka 0) (kl 1) nowhere] [nval (kl 1) 5] true in
  kept_n (two ++ [first]) = Some [([ka 0; kl 1], true)] /\
  kept_n (two ++ [first; nlc (ka 1) (kl 1) (to 4); nlc (ka 2) (kl 1) (to 3)]) = Some [([ka 1; kl 1], false); ([ka 2; kl 1], false)].
Proof. split; vm_compute; reflexivity. Qed.

(** The tests do not keep every such measurement out: with both checks, a closure between robots. *)
Theorem C75_kept_out_refuted : exists O bad lost C (W : soracles O) h s rs b,
  in_doubles O bad lost /\ c_odom_check C = true /\ c_loop_check C = true /\ run C W h (solver_init true) = Ok s rs /\
  lost (b_meas b) /\ chr (b_from b) <> chr (b_to b) /\ In (Some (FBetween b)) (s_nfg s).
Proof.
  set (T := fun f => nan_between f && match f with Some (FBetween b) => negb (chr (b_from b) =? chr (b_to b))%N | _ => false end).
  exists On, nan2, lost2, C1, Wn, (two ++ [nlc (ka 0) (kb 0) nowhere]).
  destruct (@run_check On C1 Wn (two ++ [nlc (ka 0) (kb 0) nowhere]) true (fun s => existsb T (s_nfg s) = true)) as (s & rs & H & E).
  { vm_compute. reflexivity. }
  apply existsb_exists in E. destruct E as (f & I & E). exists s, rs. destruct f as [[b|k x|k x|l x]|]; try discriminate E. exists b.
  unfold T in E. apply andb_true_iff in E. destruct E as [E1 E2]. apply negb_true_iff, N.eqb_neq in E2.
  split; [apply ID2n|]. split; [reflexivity|]. split; [reflexivity|]. split; [exact H|]. split; [|split; auto].
  left. unfold nan_between, is_nan in E1. destruct (e_x _); try discriminate E1. reflexivity.
Qed.
Print Assumptions C75_kept_out_refuted.
