(** * Histories without a wrong measurement *)
From Coq Require Import ZArith List.
From Verif Require Import Prelude Num Keys KMap UMap Geometry Factors Clique Pcm Params Solver PcmSpec HistSpec StoreSpec TrajProofs AlgProofs OutlierSpec LatticeSpec.
Set Implicit Arguments.
Local Open Scope nat_scope.

(** Poses computed without rounding; or on a grid, in double precision. *)
Definition exact_lat (G : geom) : lattice G := @Lattice G (g_pose G) (g_comp G) (fun _ => True) (fun _ _ => True) eq.
Inductive unrounded_poses : forall G, lattice G -> Prop :=
| UR_grid G (L : lattice G) : right_angled L -> unrounded_poses L
| UR_exact G : pose_group G -> g_log_tsq G (g_id G) = dzero -> g_log_rsq G (g_id G) = dzero -> unrounded_poses (exact_lat G).

(** For any way of keeping poses. *)
Section Any.
Variable O : tops.
Variable C : config.
Variable first : N -> key.          (* each robot's first pose *)
Notation op := (op O).
Notation bf := (bf O).
(** A pose the robot has been at. *)
Definition been (c : N) (h : list op) (k : key) : Prop :=
  robot_odoms C c h <> [] /\ exists i, i <= length (robot_odoms C c h) /\ k = (first c + N.of_nat i)%N.
(** The factors of a call that are neither odometry nor first sightings. *)
Definition candidates (o : op) : list bf :=
  match call_of o with Some (fs, vs) => filter (sp_candidate (c_special C) vs) (betweens fs) | None => [] end.
(** Loop closures of a robot pair. *)
Definition closure (id : obsid) (b : bf) : bool := of_pair id b && negb (sp_lmk C b).
Definition closures_in (id : obsid) (h : list op) : list bf := filter (closure id) (flat_map candidates h).
Definition all_betweens (o : op) : list bf := match call_of o with Some (fs, _) => betweens fs | None => [] end.
End Any.

Section Spec.
Variable G : geom.
Variable L : lattice G.
Variable X : key -> la_t L.         (* true poses *)
Variable F : N -> la_t L.           (* frame of each robot's odometry *)
Variable pp : pcm_params.
Notation O := (node_ops G pp).
Variable C : config.
Variable W : soracles O.
Variable first : N -> key.          (* each robot's first pose *)
Notation op := (op O).
Notation bf := (bf O).

(** The call with the robot's first odometry: no factor has named the robot before; its first pose has
    a value by then, the true one seen from the robot's frame. *)
Definition starts (c : N) (h : list op) : Prop :=
  exists h1 o h2 s1 rs1 fs vs x0, h = h1 ++ o :: h2 /\ run C W h1 (solver_init true) = Ok s1 rs1 /\ call_of o = Some (fs, vs) /\
    not_mentioned c h1 /\ robot_odoms C c [o] <> [] /\ knows (h1 ++ [o]) (first c) = true /\
    (kfind (first c) (s_vals s1) = Some (VPose x0) \/ kfind (first c) vs = Some (VPose x0)) /\
    la_shows L (x0 : g_pose G) (la_comp L (F c) (X (first c))).
(** All its odometry is true, pose after pose. *)
Definition drives (c : N) (h : list op) : Prop :=
  let bs := robot_odoms C c h in
  starts c h /\ chr (first c) = c /\ chain (first c) bs /\ Forall (true_meas L X) bs /\ (Z.of_nat (length bs) < 2 ^ 50)%Z /\
  forall i, i <= length bs -> la_within L reach (la_comp L (F c) (X (first c + N.of_nat i)%N)).
Definition true_closures (id : obsid) (h : list op) : Prop :=
  forall h1 o h2 b, h = h1 ++ o :: h2 -> In b (candidates C o) -> closure C id b = true ->
    with_cov G b /\ true_meas L X b /\ been C first (fst id) (h1 ++ [o]) (b_from b) /\ been C first (snd id) (h1 ++ [o]) (b_to b).
(** Sightings of a landmark, by one robot. *)
Definition true_sightings (c : N) (l : key) (h : list op) : Prop :=
  forall h1 o h2 b, h = h1 ++ o :: h2 -> In b (all_betweens o) -> of_landmark C l b = true -> sp_lmk C b = true ->
    with_cov G b /\ true_meas L X b /\ b_to b = l /\ been C first c (h1 ++ [o]) (b_from b).
End Spec.
