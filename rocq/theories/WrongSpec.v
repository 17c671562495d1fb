(** * Histories with wrong measurements among true ones *)
From Coq Require Import ZArith List Bool.
From Verif Require Import Prelude Num Keys KMap UMap Geometry Factors Clique Pcm Params Solver PcmSpec HistSpec StoreSpec TrajProofs AlgProofs OutlierSpec LatticeSpec TrueSpec WholeSpec.
Set Implicit Arguments.
Local Open Scope nat_scope.

(** More than half of a list. *)
Definition mostly {A} (good : A -> bool) (l : list A) : Prop := length l < 2 * length (filter good l).

(** Each bad one has fewer bad ones it may agree with, itself counted, than there are good ones. *)
Definition outnumbered {A} (good : A -> bool) (friends : A -> A -> bool) (l : list A) : Prop :=
  forall a, In a l -> good a = false -> length (filter (fun b => negb (good b) && friends a b) l) < length (filter good l).

Section Spec.
Variable G : geom.
Variable X : key -> g_pose G.       (* true poses *)
Variable F : N -> g_pose G.         (* frame of each robot's odometry *)
Variable pp : pcm_params.
Notation O := (node_ops G pp).
Variable C : config.
Variable W : soracles O.
Variable first : N -> key.          (* each robot's first pose *)
Variable wrong : bf O -> bool.      (* the wrong measurements *)
Notation op := (op O).
Notation bf := (bf O).
Notation right := (fun b => negb (wrong b)).

(** Poses on the way around two closures, or two sightings, counted by their keys. *)
Definition apart (a b : key) : Z := Z.abs (Z.of_N a - Z.of_N b).
Definition way_around (f1 f2 : bf) : Z := (apart (b_from f1) (b_from f2) + apart (b_to f1) (b_to f2) + 2)%Z.
Definition way_around_lm (f1 f2 : bf) : Z := (apart (b_from f1) (b_from f2) + 2)%Z.

(** True odometry that knows its rotations. *)
Definition drives_straight (c : N) (h : list op) : Prop :=
  drives (exact_lat G) X F C W first c h /\ Forall (fun b : bf => turns G b = true) (robot_odoms C c h).

(** Closures of a robot pair between poses the robots have been at. The right ones are true and the
    majority; a wrong one is off, seen from the end of a right one or from its own end, by more than the
    thresholds allow on the way around both. *)
Definition large (e : g_pose G) (n : Z) (f1 f2 : bf) : Prop := small_error G pp e n (turns G f1 && turns G f2) = false.
Definition mixed_closures (id : obsid) (h : list op) : Prop :=
  (forall h1 o h2 b, h = h1 ++ o :: h2 -> In b (candidates C o) -> closure C id b = true ->
     gaussian G b /\ (wrong b = false -> b_meas b = true_step G X b) /\ been C first (fst id) (h1 ++ [o]) (b_from b) /\ been C first (snd id) (h1 ++ [o]) (b_to b)) /\
  (forall f1 f2, In f1 (closures_in C id h) -> In f2 (closures_in C id h) -> wrong f1 = false -> wrong f2 = true ->
     large (off G X f2) (way_around f1 f2) f1 f2 /\ large (off_from G X (b_to f1) f2) (way_around f1 f2) f1 f2) /\
  mostly right (closures_in C id h).
(** Sightings of a landmark, by one robot. *)
Definition sightings_in (l : key) (h : list op) : list bf := filter (sees C l) (non_odometry C h).
Definition mixed_sightings (c : N) (l : key) (h : list op) : Prop :=
  (forall h1 o h2 b, h = h1 ++ o :: h2 -> In b (all_betweens o) -> sees C l b = true ->
     gaussian G b /\ (wrong b = false -> b_meas b = true_step G X b) /\ b_to b = l /\ been C first c (h1 ++ [o]) (b_from b)) /\
  (forall f1 f2, In f1 (sightings_in l h) -> In f2 (sightings_in l h) -> wrong f1 = false -> wrong f2 = true ->
     large (off G X f2) (way_around_lm f1 f2) f1 f2 /\ large (g_inv G (off G X f2)) (way_around_lm f1 f2) f1 f2).

(** Every factor that is not odometry is one of these. *)
Definition mixed_history (h : list op) : Prop :=
  forall b, In b (non_odometry C h) -> b_from b <> b_to b /\
    (sp_lmk C b = false -> exists id, of_pair id b = true /\ drives_straight (fst id) h /\ drives_straight (snd id) h /\
       mixed_closures id h /\
       (c_odom_check C = true -> fst id = snd id -> dpositive (pp_odom_trans pp) /\ dpositive (pp_odom_rot pp))) /\
    (sp_lmk C b = true -> let l := sp_landmark_key (c_special C) b in
       introduced C l h /\ exists c, drives_straight c h /\ mixed_sightings c l h /\ mostly right (sightings_in l h)).
End Spec.
