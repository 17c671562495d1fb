(** * Property C81: covariances that are not numbers *)
From Coq Require Import ZArith List.
From Verif Require Import Prelude Num Keys KMap UMap Geometry Factors Clique Pcm Solver PcmSpec PcmProofs PcmInv HistSpec StoreSpec RemoveSpec IncSpec TrajProofs
  Grid Scenes Lie Floats NanSpec NanProofs NanCovSpec NanCovProofs PropNan.
Set Implicit Arguments.
Local Open Scope nat_scope.

(** A NaN variance of rotation means that nothing is known about rotation: what is used is the
    translation block, and the flag is down, whatever the other entries. *)
Theorem C81_rotation_unknown : forall G ent r t, float_geoms G ent r t -> forall b c, b_noise b = Gauss c -> unsure G ent r c ->
  (exists n, pn_of G b = Some n /\ pn_pose n = b_meas b /\ pn_rot n = false) /\
  exists e, pc_of G b = Some e /\ pc_pose e = b_meas b /\ pc_rot e = false /\
    forall i j, i < r + t -> j < r + t -> ent (pc_cov e) i j = if (r <=? i) && (r <=? j) then ent c i j else dzero.
Proof. exact g_unsure. Qed.
Print Assumptions C81_rotation_unknown.

(** Variances that are not NaN and not negative, infinite ones included, are used as they are. *)
Theorem C81_rotation_known : forall G ent r t, float_geoms G ent r t -> forall b c, b_noise b = Gauss c -> sure G ent r c ->
  (exists n, pn_of G b = Some n /\ pn_pose n = b_meas b /\ pn_rot n = true) /\
  exists e, pc_of G b = Some e /\ pc_pose e = b_meas b /\ pc_rot e = true /\ pc_cov e = c.
Proof. exact g_sure. Qed.
Print Assumptions C81_rotation_known.

(** No test is passed with a NaN in the translation block; no pairwise test with a NaN anywhere if
    rotation is known. *)
Theorem C81_no_test_is_passed : forall G ent r t pp, float_geoms G ent r t -> forall b : bf (cov_ops G pp),
  (nan_position G ent r t b -> fails_odom b /\ fails_sightings b) /\
  (nan_position G ent r t b \/ nan_somewhere G ent r t b -> fails_pairwise b).
Proof. intros G ent r t pp F b. split; [split; [apply (g_odom F)|apply (g_sightings F)]; auto|apply (g_pairwise F)]. Qed.
Print Assumptions C81_no_test_is_passed.

(** So with the odometry check such a closure within a robot is in the graph after no history. *)
Theorem C81_within_a_robot : forall G ent r t pp C (W : soracles (cov_ops G pp)), float_geoms G ent r t ->
  forall h s rs c b, run C W h (solver_init true) = Ok s rs -> c_odom_check C = true -> nan_position G ent r t b ->
  ~ In b (graph_lcs C h (c, c) (s_nfg s)).
Proof. intros G ent r t pp C W F h s rs c b H HC B. exact (@h_within _ C W h s rs c b H HC (@g_odom _ _ _ _ F pp b B)). Qed.
Print Assumptions C81_within_a_robot.

(** With the pairwise check, in every mode and after any removals, only if no other of its pair is. *)
Theorem C81_only_alone : forall G ent r t pp C (W : soracles (cov_ops G pp)), float_geoms G ent r t ->
  forall h s rs id b, run C W h (solver_init true) = Ok s rs -> records_sound C W h -> small C (length (sp_stored C W h)) ->
  c_loop_check C = true -> nan_position G ent r t b \/ nan_somewhere G ent r t b ->
  In b (graph_lcs C h id (s_nfg s)) -> graph_lcs C h id (s_nfg s) = [b].
Proof. intros G ent r t pp C W F h s rs id b H HR HS HC B. exact (@h_alone _ C W h s rs id b H HR HS HC (@g_pairwise _ _ _ _ F pp b B)). Qed.
Print Assumptions C81_only_alone.

Theorem C81_landmark_only_alone : forall G ent r t pp C (W : soracles (cov_ops G pp)), float_geoms G ent r t ->
  forall h s rs l b, run C W h (solver_init true) = Ok s rs -> nan_position G ent r t b ->
  In b (graph_lms C h l (s_nfg s)) -> graph_lms C h l (s_nfg s) = [b].
Proof. intros G ent r t pp C W F h s rs l b H B. exact (@h_lm_alone _ C W h s rs l b H (@g_sightings _ _ _ _ F pp b B)). Qed.
Print Assumptions C81_landmark_only_alone.

(** After odometry of a robot with such a covariance, no closure within the robot that touches a later
    pose passes the odometry test, and no two closures, one of which touches a later pose, the
    pairwise test. *)
Theorem C81_after_odometry : forall G ent r t pp C (W : soracles (cov_ops G pp)), float_geoms G ent r t ->
  forall h1 o h2 s1 rs1 fs vs c k0 x0,
  run C W h1 (solver_init true) = Ok s1 rs1 -> call_of o = Some (fs, vs) -> not_mentioned c h1 -> robot_odoms C c [o] <> [] ->
  kfind k0 (s_vals s1) = Some (VPose x0) \/ kfind k0 vs = Some (VPose x0) -> chain k0 (robot_odoms C c (h1 ++ o :: h2)) ->
  forall j b0, nth_error (robot_odoms C c (h1 ++ o :: h2)) j = Some b0 -> nan_position G ent r t b0 ->
  forall s rs p, run C W (h1 ++ o :: h2) (solver_init true) = Ok s rs -> s_pcm s = Some p ->
  forall i, j < i <= length (robot_odoms C c (h1 ++ o :: h2)) ->
  (forall b, chr (b_from b) = c -> chr (b_to b) = c -> (b_from b = k0 + N.of_nat i \/ b_to b = k0 + N.of_nat i)%N ->
     sp_odom_test (tref p) b <> Some true) /\
  (chr (k0 + N.of_nat i)%N = c -> forall f g, oid_eqb (pair_of f) (pair_of g) = true ->
     In (k0 + N.of_nat i)%N [b_from f; b_to f; b_from g; b_to g] -> sp_loop_test (tref p) f g <> Some true).
Proof.
  intros G ent r t pp C W F h1 o h2 s1 rs1 fs vs c k0 x0 R1 CO NM NO VO CH j b0 NJ B s rs p R2 HP i Hi.
  destruct (g_spoilt F pp) as (sp & L & SB).
  exact (@h_after _ C W sp L h1 o h2 s1 rs1 fs vs c k0 x0 R1 CO NM NO VO CH j b0 NJ (fun m E => SB b0 m B E) s rs p R2 HP i Hi).
Qed.
Print Assumptions C81_after_odometry.

(** [between] does not take a NaN first variance for a failed factorisation (142-170). *)
Theorem C81_not_exchanged : forall G ent r t (a b : pcov G), float_geoms G ent r t -> ent (pc_cov b) 0 0 = S754_nan ->
  pc_cov (pc_between a b) = g_csub G (pc_cov b) (g_act G (g_inv G (g_between G (pc_pose a) (pc_pose b))) (pc_cov a)).
Proof. exact g_between_nan. Qed.
Print Assumptions C81_not_exchanged.

(** Exact poses: where the inverse has an entry that is not a number no threshold is met. *)
Theorem C81_exact_undefined : forall P id comp inv dim r_dim t_dim ad log minv, let G := @lie_geom P id comp inv dim r_dim t_dim ad log minv in
  forall (e : pcov G) i j x,
  (if pc_rot e then i < dim /\ j < dim /\ minv dim (get (pc_cov e : mat xs dim)) i j = None
   else i < t_dim /\ j < t_dim /\ minv t_dim (fun u v => get (pc_cov e : mat xs dim) (r_dim + u) (r_dim + v)) i j = None) ->
  dlt (pc_maha e) x = false.
Proof. exact exact_undef. Qed.
Print Assumptions C81_exact_undefined.

(** ** Scenes in double precision *)
Definition Oc : tops := cov_ops fgeom2 (PcmParams (dlit 3 1) (dlit 3 1) (dlit 1 10) (dlit 1 10) (dlit 1 10) (dlit 1 10) false).
Definition Wc : soracles Oc := plain_soracles Oc (@se2_id ds).
Definition diag2 (x y z : double) : mat ds 3 := @tab ds 3 (fun i j => if i =? j then nth i [x; y; z] dzero else dzero).
Definition fine : mat ds 3 := diag2 (dlit 1 100) (dlit 1 100) (dlit 1 100).
(** NaN in the second block; in the first. *)
Definition blurred : mat ds 3 := diag2 (dlit 1 100) S754_nan (dlit 1 100).
Definition turned : mat ds 3 := diag2 S754_nan (dlit 1 100) (dlit 1 100).
Definition cbf (f t : key) (m : se2 ds) (c : mat ds 3) : bf Oc := BF f t (m : t_pose Oc) (Gauss (c : t_cov Oc)).
Definition cbet f t m c : option (factor Oc) := Some (FBetween (cbf f t m c)).
Definition cval (k : key) (z : Z) : key * value Oc := (k, @VPose Oc (to z)).
Definition codo (i : N) c : op Oc := OpUpdate [cbet (ka i) (ka (i + 1)) (to 1) c] [cval (ka (i + 1)) (Z.of_N i + 1)] true.
Definition ctwo : list (op Oc) :=
  [OpUpdate [] [cval (ka 0) 0] true; codo 0 fine; codo 1 fine; codo 2 fine;
   OpUpdate [cbet (kb 0) (kb 1) (to 1) fine] [cval (kb 0) 9; cval (kb 1) 10] true].
Definition clc (f t : key) (z : Z) c : op Oc := OpUpdate [cbet f t (to z) c] [] true.
Definition kept_c (h : list (op Oc)) : option (list (list key)) :=
  match run C1 Wc h (solver_init true) with
  | Ok s _ => Some (map (fun f => match f with Some f => f_keys f | None => [] end) (skipn 4 (s_nfg s)))
  | _ => None
  end.

Definition odd : mat ds 3 := @tab ds 3 (fun i j => if (i =? 0) && (j =? 2) then S754_nan else if i =? j then S754_infinity false else dzero).
Example C81_meets : let ent := fun c : g_cov fgeom2 => @get ds 3 c in
  float_geoms fgeom2 ent 1 2 /\ nan_position fgeom2 ent 1 2 (cbf (ka 0) (kb 0) (to 9) blurred) /\ unsure fgeom2 ent 1 turned /\
  sure fgeom2 ent 1 odd /\ nan_somewhere fgeom2 ent 1 2 (cbf (ka 0) (kb 0) (to 9) odd).
Proof.
  assert (Q : sure fgeom2 (fun c : g_cov fgeom2 => @get ds 3 c) 1 odd) by (intros k Hk; destruct k; [reflexivity|apply Nat.succ_lt_mono in Hk; inversion Hk]).
  split; [constructor|]. split; [|split; [exists 0; split; [auto|reflexivity]|split; auto]].
  - exists blurred, 1, 1. unfold position. repeat split; auto.
  - exists odd, 0, 2. cbn. repeat split; auto with arith.
Qed.

(** Alone between two robots the closure is taken; with others it never is; within a robot not even
    alone; after odometry like that nothing is; with unknown rotation everything goes on. *)
Example C81_example :
  kept_c (ctwo ++ [clc (ka 0) (kb 0) 9 blurred]) = Some [[ka 0; kb 0]] /\
  kept_c (ctwo ++ [clc (ka 0) (kb 0) 9 blurred; clc (ka 1) (kb 0) 8 fine; clc (ka 1) (kb 1) 9 fine]) = Some [[ka 1; kb 0]; [ka 1; kb 1]] /\
  kept_c (ctwo ++ [clc (ka 0) (ka 2) 2 blurred]) = Some [] /\
  kept_c (ctwo ++ [clc (ka 0) (ka 2) 2 fine]) = Some [[ka 0; ka 2]] /\
  kept_c (ctwo ++ [codo 3 blurred; codo 4 fine; clc (ka 0) (ka 4) 4 fine; clc (ka 5) (ka 4) (-1) fine; clc (ka 3) (ka 0) (-3) fine])
    = Some [[ka 3; ka 4]; [ka 4; ka 5]; [ka 3; ka 0]] /\
  kept_c (ctwo ++ [clc (ka 0) (kb 0) 9 turned; clc (ka 1) (kb 0) 8 fine; clc (ka 0) (ka 2) 2 turned]) = Some [[ka 0; kb 0]; [ka 1; kb 0]; [ka 0; ka 2]].
Proof. repeat split; vm_compute; reflexivity. Qed.
