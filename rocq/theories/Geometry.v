(** * Poses with uncertainty and odometric trajectories

    [utils/GeometryUtils.h] ([PoseWithNode], [PoseWithCovariance]) and the [Trajectory]
    struct of [utils/GraphUtils.h], over an arbitrary pose type. *)
From Verif Require Import Prelude Num Keys KMap.
Set Implicit Arguments.

(** What the code uses from GTSAM's [Pose2]/[Pose3] and from Eigen.  [between] is
    [inverse * other] (gtsam [LieGroup::between]).  [g_log_tsq p] and [g_log_rsq p] are the
    squared norms of the translation and rotation parts of [Logmap p];
    [g_act p S] is [Ad_p S Ad_p^T]; [g_maha_sq p S b] is
    the quadratic form under the square root of [mahalanobis_norm] ([b]: full form, otherwise
    translation part only).  All of them are arbitrary functions. *)
Record geom := Geom {
  g_pose : Type;
  g_id : g_pose;
  g_comp : g_pose -> g_pose -> g_pose;
  g_inv : g_pose -> g_pose;
  g_log_tsq : g_pose -> double;
  g_log_rsq : g_pose -> double;
  g_cov : Type;
  g_czero : g_cov;
  g_cadd : g_cov -> g_cov -> g_cov;
  g_csub : g_cov -> g_cov -> g_cov;
  g_act : g_pose -> g_cov -> g_cov;
  g_rot_nan : g_cov -> bool;      (* isnan(covar.block(0,0,r,r).trace()) *)
  g_keep_trans : g_cov -> g_cov;  (* zero except the translation block *)
  g_llt_ok : g_cov -> bool;       (* Eigen::LLT reports success *)
  g_maha_sq : g_pose -> g_cov -> bool -> double }.

Definition g_between (G : geom) (a b : g_pose G) : g_pose G := g_comp G (g_inv G a) b.

(** Noise models: Gaussian with a covariance, or anything for which the cast to
    [noiseModel::Gaussian] yields null (robust, constrained-free, missing). *)
Inductive noise (C : Type) : Type :=
| Gauss (c : C)
| NonGauss.
Arguments NonGauss {C}.

(** [gtsam::BetweenFactor<poseT>]. *)
Record bfactor (P C : Type) := BF { b_from : key; b_to : key; b_meas : P; b_noise : noise C }.
Arguments BF {P C}.

(** What the PCM template needs from its parameter [T]: a default value, the start of a
    trajectory at a given pose ([initial_pose.pose = ...], Pcm.h:533-534), construction from a
    between factor ([None]: null dereference of the Gaussian cast), [compose], [inverse],
    [between] and the two threshold tests. *)
Record tops := TOps {
  t_pose : Type;
  t_cov : Type;
  t_pid : t_pose;
  t_pcomp : t_pose -> t_pose -> t_pose;
  t_pinv : t_pose -> t_pose;
  t_T : Type;
  t_default : t_T;
  t_init : t_pose -> t_T;
  t_of : bfactor t_pose t_cov -> option t_T;
  t_comp : t_T -> t_T -> t_T;
  t_inv : t_T -> t_T;
  t_between : t_T -> t_T -> t_T;
  t_getpose : t_T -> t_pose;
  t_odom_ok : t_T -> bool;   (* checkOdomConsistent *)
  t_loop_ok : t_T -> bool }. (* checkLoopConsistent *)

(** [PcmParams] (SolverParams.h:33-56). *)
Record pcm_params := PcmParams {
  pp_odom : double; pp_lc : double;
  pp_odom_trans : double; pp_odom_rot : double;
  pp_dist_trans : double; pp_dist_rot : double;
  pp_incremental : bool }.

Section Node.
Variable G : geom.

(** [PoseWithNode] (GeometryUtils.h:193-289). *)
Record pnode := PN { pn_pose : g_pose G; pn_node : Z; pn_rot : bool }.

Definition pn_default : pnode := PN (g_id G) 0 true.
Definition pn_init (p : g_pose G) : pnode := PN p 0 true.
Definition pn_of (f : bfactor (g_pose G) (g_cov G)) : option pnode :=
  match b_noise f with
  | Gauss c => Some (PN (b_meas f) 1 (negb (g_rot_nan G c)))
  | NonGauss => None
  end.
Definition pn_comp (a b : pnode) : pnode :=
  PN (g_comp G (pn_pose a) (pn_pose b)) (pn_node a + pn_node b) (pn_rot a && pn_rot b).
Definition pn_inv (a : pnode) : pnode := PN (g_inv G (pn_pose a)) (pn_node a) (pn_rot a).
Definition pn_between (a b : pnode) : pnode :=
  PN (g_between G (pn_pose a) (pn_pose b)) (Z.abs (pn_node b - pn_node a)) (pn_rot a && pn_rot b).
(** 270-276 and 278-286; [int] divisor converted to [double]. *)
Definition pn_avg_trans (a : pnode) : double :=
  ddiv (dsqrt (g_log_tsq G (pn_pose a))) (dofZ (pn_node a)).
Definition pn_avg_rot (a : pnode) : double :=
  if pn_rot a then ddiv (dsqrt (g_log_rsq G (pn_pose a))) (dofZ (pn_node a)) else dzero.

(** Pcm.h:581-597 and 649-660. *)
Definition pn_odom_ok (pp : pcm_params) (a : pnode) : bool :=
  dlt (pn_avg_trans a) (pp_odom_trans pp) && dlt (pn_avg_rot a) (pp_odom_rot pp).
Definition pn_loop_ok (pp : pcm_params) (a : pnode) : bool :=
  dlt (pn_avg_trans a) (pp_dist_trans pp) && dlt (pn_avg_rot a) (pp_dist_rot pp).

Definition node_ops (pp : pcm_params) : tops :=
  TOps (g_id G) (g_comp G) (g_inv G) pn_default pn_init pn_of pn_comp pn_inv pn_between
       pn_pose (pn_odom_ok pp) (pn_loop_ok pp).

End Node.

Section Cov.
Variable G : geom.

(** [PoseWithCovariance] (GeometryUtils.h:56-187). *)
Record pcov := PC { pc_pose : g_pose G; pc_cov : g_cov G; pc_rot : bool }.

Definition pc_default : pcov := PC (g_id G) (g_czero G) true.
Definition pc_init (p : g_pose G) : pcov := PC p (g_czero G) true.
Definition pc_of (f : bfactor (g_pose G) (g_cov G)) : option pcov :=
  match b_noise f with
  | Gauss c => Some (if g_rot_nan G c then PC (b_meas f) (g_keep_trans G c) false
                     else PC (b_meas f) c true)
  | NonGauss => None
  end.
(** 117-128: gtsam's [compose] derivatives are [Ha = Ad(other^-1)], [Hb = I]. *)
Definition pc_comp (a b : pcov) : pcov :=
  PC (g_comp G (pc_pose a) (pc_pose b))
     (g_cadd G (g_act G (g_inv G (pc_pose b)) (pc_cov a)) (pc_cov b))
     (pc_rot a && pc_rot b).
Definition pc_inv (a : pcov) : pcov := PC (g_inv G (pc_pose a)) (pc_cov a) (pc_rot a).
(** 142-170: gtsam's [between] derivative is [Ha = -Ad(result^-1)], so [Ha S Ha^T] is the
    action of [result^-1]; when the Cholesky factorisation fails the roles are exchanged. *)
Definition pc_between (a b : pcov) : pcov :=
  let r := g_between G (pc_pose a) (pc_pose b) in
  let c1 := g_csub G (pc_cov b) (g_act G (g_inv G r) (pc_cov a)) in
  let c := if g_llt_ok G c1 then c1
           else let r' := g_between G (pc_pose b) (pc_pose a) in
                g_csub G (pc_cov a) (g_act G (g_inv G r') (pc_cov b)) in
  PC r c (pc_rot a && pc_rot b).
(** 172-186. *)
Definition pc_maha (a : pcov) : double := dsqrt (g_maha_sq G (pc_pose a) (pc_cov a) (pc_rot a)).

(** Pcm.h:564-575 and 638-646. *)
Definition pc_odom_ok (pp : pcm_params) (a : pcov) : bool := dlt (pc_maha a) (pp_odom pp).
Definition pc_loop_ok (pp : pcm_params) (a : pcov) : bool := dlt (pc_maha a) (pp_lc pp).

Definition cov_ops (pp : pcm_params) : tops :=
  TOps (g_id G) (g_comp G) (g_inv G) pc_default pc_init pc_of pc_comp pc_inv pc_between
       pc_pose (pc_odom_ok pp) (pc_loop_ok pp).

End Cov.

Section Trajectory.
Variable O : tops.

(** [Trajectory::poses] (GraphUtils.h:30-33). *)
Definition traj := kmap (t_T O).

(** [poses[k]]: the stored pose, or a default-constructed one that is inserted. *)
Definition tget (tr : traj) (k : key) : t_T O :=
  match kfind k tr with Some t => t | None => t_default O end.
Definition ttouch (tr : traj) (k : key) : traj :=
  match kfind k tr with Some _ => tr | None => kset k (t_default O) tr end.

(** [getBetween] (GraphUtils.h:37-58): result and the trajectory with the default-inserted
    entries. *)
Definition get_between (tr : traj) (a b : key) : t_T O * traj :=
  if (chr a =? chr b)%N then
    (t_between O (tget tr a) (tget tr b), ttouch (ttouch tr a) b)
  else
    let a0 := sym (chr a) 0 in
    let b0 := sym (chr b) 0 in
    let pose_a := t_between O (tget tr a0) (tget tr a) in
    let pose_b := t_between O (tget tr b0) (tget tr b) in
    let pose_a0b0 := t_between O (tget tr a0) (tget tr b0) in
    (t_comp O (t_comp O (t_inv O pose_a) pose_a0b0) pose_b,
     ttouch (ttouch (ttouch (ttouch tr a0) a) b0) b).

End Trajectory.
