(** * Histories without a wrong measurement, for poses with covariances *)
From Coq Require Import ZArith List.
From Verif Require Import Prelude Num Keys KMap UMap Geometry Factors Clique Pcm Params Solver Lie LieSpec PcmSpec HistSpec StoreSpec TrajProofs AlgProofs OutlierSpec TrueSpec WholeSpec.
Set Implicit Arguments.
Local Open Scope nat_scope.

(** Covariances of sightings: positive definite; or of the position only, nothing being known about
    the rotation. *)
Definition position_only {n} (r t : nat) (c : mat xs n) : Prop :=
  (exists i, i < r /\ get c i i = None) /\ pd (@tab xs t (fun i j => get c (r + i) (r + j))).
Definition sighting_cov {n} (r t : nat) (c : mat xs n) : Prop := pd c \/ position_only r t c.

Section Spec.
Variable G : geom.
Variable sure : g_cov G -> Prop.     (* covariances of odometry and closures *)
Variable sure_lm : g_cov G -> Prop.  (* and of sightings *)
Variable X : key -> g_pose G.        (* true poses *)
Variable F : N -> g_pose G.          (* frame of each robot's odometry *)
Variable pp : pcm_params.
Notation O := (cov_ops G pp).
Variable C : config.
Variable W : soracles O.
Variable first : N -> key.           (* each robot's first pose *)
Notation op := (op O).
Notation bf := (bf O).

Definition with_noise (ok : g_cov G -> Prop) (b : bf) : Prop := exists q, b_noise b = Gauss q /\ ok q.

(** The call with the robot's first odometry, as in [TrueSpec.starts]. *)
Definition starts_cov (c : N) (h : list op) : Prop :=
  exists h1 o h2 s1 rs1 fs vs, h = h1 ++ o :: h2 /\ run C W h1 (solver_init true) = Ok s1 rs1 /\ call_of o = Some (fs, vs) /\
    not_mentioned c h1 /\ robot_odoms C c [o] <> [] /\ knows (h1 ++ [o]) (first c) = true /\
    (kfind (first c) (s_vals s1) = Some (@VPose O (g_comp G (F c) (X (first c)))) \/ kfind (first c) vs = Some (@VPose O (g_comp G (F c) (X (first c))))).
Definition drives_cov (c : N) (h : list op) : Prop :=
  let bs := robot_odoms C c h in
  starts_cov c h /\ chr (first c) = c /\ chain (first c) bs /\ Forall (exact G X) bs /\ Forall (with_noise sure) bs.
Definition true_closures_cov (id : obsid) (h : list op) : Prop :=
  forall h1 o h2 b, h = h1 ++ o :: h2 -> In b (candidates C o) -> closure C id b = true ->
    with_noise sure b /\ exact G X b /\ been C first (fst id) (h1 ++ [o]) (b_from b) /\ been C first (snd id) (h1 ++ [o]) (b_to b).
Definition true_sightings_cov (c : N) (l : key) (h : list op) : Prop :=
  forall h1 o h2 b, h = h1 ++ o :: h2 -> In b (all_betweens o) -> of_landmark C l b = true -> sp_lmk C b = true ->
    with_noise sure_lm b /\ exact G X b /\ b_to b = l /\ been C first c (h1 ++ [o]) (b_from b).
Definition true_history_cov (h : list op) : Prop :=
  forall b, In b (non_odometry C h) -> b_from b <> b_to b /\
    (sp_lmk C b = false -> exists id, of_pair id b = true /\ drives_cov (fst id) h /\ drives_cov (snd id) h /\
       true_closures_cov id h /\ (c_odom_check C = true -> fst id = snd id -> dpositive (pp_odom pp))) /\
    (sp_lmk C b = true -> let l := sp_landmark_key (c_special C) b in
       introduced C l h /\ exists c, drives_cov c h /\ true_sightings_cov c l h).
End Spec.
