(** * Histories with wrong measurements among true ones, computed without rounding or on a grid *)
From Coq Require Import ZArith List Bool.
From Verif Require Import Prelude Num Keys KMap UMap Geometry Factors Clique Pcm Params Solver PcmSpec HistSpec StoreSpec TrajProofs AlgProofs OutlierSpec LatticeSpec TrueSpec WholeSpec WrongSpec.
Set Implicit Arguments.
Local Open Scope nat_scope.

(** The calls without the wrong measurements. *)
Section Any.
Variable O : tops.
Variable C : config.
Variable wrong : bf O -> bool.
Definition is_wrong (vs : values O) (f : option (factor O)) : bool :=
  match f with Some (FBetween b) => negb (sp_odometry (c_special C) vs b) && wrong b | _ => false end.
Definition corrected (o : op O) : op O :=
  match o with
  | OpUpdate fs vs opt => OpUpdate (filter (fun f => negb (is_wrong vs f)) fs) vs opt
  | OpForce fs vs => OpForce (filter (fun f => negb (is_wrong vs f)) fs) vs
  | _ => o
  end.
End Any.

Section Spec.
Variable G : geom.
Variable L : lattice G.
Variable X : key -> la_t L.         (* true poses *)
Variable F : N -> la_t L.           (* frame of each robot's odometry *)
Variable pp : pcm_params.
Notation O := (node_ops G pp).
Variable C : config.
Variable W : soracles O.
Variable first : N -> key.          (* each robot's first pose *)
Variable reads : bf O -> la_t L.    (* the exact pose a measurement shows *)
Variable wrong : bf O -> bool.      (* the wrong measurements *)
Notation op := (op O).
Notation bf := (bf O).
Infix "@" := (la_comp L) (at level 40, left associativity).

Definition drives_known (c : N) (h : list op) : Prop :=
  drives L X F C W first c h /\ Forall (fun b : bf => turns G b = true) (robot_odoms C c h).

(** Where a measurement leads from its true first pose; right ones lead to the true second pose. *)
Definition lands (b : bf) : la_t L := X (b_from b) @ reads b.
Definition readable (b : bf) : Prop :=
  gaussian G b /\ la_shows L (b_meas b) (reads b) /\ la_rigid L (reads b) /\ la_within L reach (reads b) /\ (wrong b = false -> lands b = X (b_to b)).
(** No pose that shows [e] passes on a way of [n] poses. *)
Definition too_large (e : la_t L) (n : Z) (f1 f2 : bf) : Prop :=
  forall p, la_shows L p e -> small_error G pp p n (turns G f1 && turns G f2) = false.

(** As [mixed_closures] and [mixed_sightings]: [e] is the step from where the wrong measurement leads to
    the true pose; or from the end of the right one to where the way over the wrong one ends. *)
Definition some_closures (id : obsid) (h : list op) : Prop :=
  (forall h1 o h2 b, h = h1 ++ o :: h2 -> In b (candidates C o) -> closure C id b = true ->
     readable b /\ been C first (fst id) (h1 ++ [o]) (b_from b) /\ been C first (snd id) (h1 ++ [o]) (b_to b)) /\
  (forall f1 f2, In f1 (closures_in C id h) -> In f2 (closures_in C id h) -> wrong f1 = false -> wrong f2 = true ->
     (forall e, lands f2 @ e = X (b_to f2) -> too_large e (way_around f1 f2) f1 f2) /\
     (forall e z, X (b_to f2) @ z = X (b_to f1) -> X (b_to f1) @ e = lands f2 @ z -> too_large e (way_around f1 f2) f1 f2)) /\
  mostly (fun b => negb (wrong b)) (closures_in C id h).
Definition some_sightings (c : N) (l : key) (h : list op) : Prop :=
  (forall h1 o h2 b, h = h1 ++ o :: h2 -> In b (all_betweens o) -> sees C l b = true ->
     readable b /\ b_to b = l /\ been C first c (h1 ++ [o]) (b_from b)) /\
  (forall f1 f2, In f1 (sightings_in C l h) -> In f2 (sightings_in C l h) -> wrong f1 = false -> wrong f2 = true ->
     (forall e, lands f2 @ e = X l -> too_large e (way_around_lm f1 f2) f1 f2) /\
     (forall e, X l @ e = lands f2 -> too_large e (way_around_lm f1 f2) f1 f2)).
Definition some_history (h : list op) : Prop :=
  forall b, In b (non_odometry C h) -> b_from b <> b_to b /\
    (sp_lmk C b = false -> exists id, of_pair id b = true /\ drives_known (fst id) h /\ drives_known (snd id) h /\
       some_closures id h /\
       (c_odom_check C = true -> fst id = snd id -> dpositive (pp_odom_trans pp) /\ dpositive (pp_odom_rot pp))) /\
    (sp_lmk C b = true -> let l := sp_landmark_key (c_special C) b in
       introduced C l h /\ exists c, drives_known c h /\ some_sightings c l h /\ mostly (fun b => negb (wrong b)) (sightings_in C l h)).
End Spec.
