(** * Histories with noisy measurements and wrong ones *)
From Coq Require Import ZArith List Bool.
From Verif Require Import Prelude Num Keys KMap UMap Geometry Factors Clique Pcm Params Solver PcmSpec HistSpec StoreSpec TrajProofs AlgProofs OutlierSpec LatticeSpec TrueSpec WholeSpec WrongSpec GridWrongSpec ManySpec.
Set Implicit Arguments.
Local Open Scope nat_scope.

Section Spec.
Variable G : geom.
Variable L : lattice G.
Variable X : key -> la_t L.         (* poses by the odometry *)
Variable F : N -> la_t L.           (* frame of each robot's odometry *)
Variable pp : pcm_params.
Notation O := (node_ops G pp).
Variable C : config.
Variable W : soracles O.
Variable first : N -> key.          (* each robot's first pose *)
Variable reads : bf O -> la_t L.    (* the exact pose a measurement shows *)
Variable wrong : bf O -> bool.      (* the wrong measurements; the others are right, but for some noise *)
Variable friends : bf O -> bf O -> bool. (* wrong measurements that may agree *)
Notation op := (op O).
Notation bf := (bf O).
Notation lands := (lands L X reads).
Notation right := (fun b => negb (wrong b)).
Infix "@" := (la_comp L) (at level 40, left associativity).

Notation way := (way_around (G := G) (pp := pp)).
Notation way_lm := (way_around_lm (G := G) (pp := pp)).

Definition legible (b : bf) : Prop := gaussian G b /\ la_shows L (b_meas b) (reads b) /\ la_rigid L (reads b) /\ la_within L reach (reads b).
(** Every pose that shows [e] passes on a way of [n] poses. *)
Definition small_enough (e : la_t L) (n : Z) (f1 f2 : bf) : Prop :=
  forall p, la_shows L p e -> small_error G pp p n (turns G f1 && turns G f2) = true.
(** As [clash], but the way is short enough. *)
Definition fits (f1 f2 : bf) : Prop :=
  forall e z, X (b_to f1) @ z = X (b_to f2) -> lands f2 @ e = lands f1 @ z -> small_enough e (way f1 f2) f1 f2.
Definition fits_lm (f1 f2 : bf) : Prop := forall e, lands f2 @ e = lands f1 -> small_enough e (way_lm f1 f2) f1 f2.
Definition all_fit (fits : bf -> bf -> Prop) (l : list bf) : Prop :=
  forall f1 f2, In f1 l -> In f2 l -> wrong f1 = false -> wrong f2 = false -> fits f1 f2.
(** A closure of a robot with itself: the way by odometry from its first pose to the one from which it
    would lead to the second. *)
Definition small_odometry (e : g_pose G) (n : Z) (rot : bool) : bool :=
  dlt (ddiv (dsqrt (g_log_tsq G e)) (dofZ n)) (pp_odom_trans pp) &&
  dlt (if rot then ddiv (dsqrt (g_log_rsq G e)) (dofZ n) else dzero) (pp_odom_rot pp).
Definition near_odometry (b : bf) : Prop :=
  forall a e, la_rigid L a -> a @ reads b = X (b_to b) -> X (b_from b) @ e = a ->
  forall p, la_shows L p e -> small_odometry p (apart (b_from b) (b_to b) + 1) (turns G b) = true.

Definition noisy_closures (id : obsid) (h : list op) : Prop :=
  (forall h1 o h2 b, h = h1 ++ o :: h2 -> In b (candidates C o) -> closure C id b = true ->
     legible b /\ been C first (fst id) (h1 ++ [o]) (b_from b) /\ been C first (snd id) (h1 ++ [o]) (b_to b) /\
     (c_odom_check C = true -> fst id = snd id -> wrong b = false -> near_odometry b)) /\
  all_fit fits (closures_in C id h) /\
  all_clash wrong friends (clash L X reads) (closures_in C id h) /\ outnumbered right friends (closures_in C id h).
Definition noisy_sightings (c : N) (l : key) (h : list op) : Prop :=
  (forall h1 o h2 b, h = h1 ++ o :: h2 -> In b (all_betweens o) -> sees C l b = true ->
     legible b /\ b_to b = l /\ been C first c (h1 ++ [o]) (b_from b)) /\
  all_fit fits_lm (sightings_in C l h) /\ all_clash wrong friends (clash_lm L X reads) (sightings_in C l h).
Definition noisy_history (h : list op) : Prop :=
  forall b, In b (non_odometry C h) -> b_from b <> b_to b /\
    (sp_lmk C b = false -> exists id, of_pair id b = true /\ drives_known L X F C W first (fst id) h /\ drives_known L X F C W first (snd id) h /\
       noisy_closures id h) /\
    (sp_lmk C b = true -> let l := sp_landmark_key (c_special C) b in
       introduced C l h /\ exists c, drives_known L X F C W first c h /\ noisy_sightings c l h /\ outnumbered right friends (sightings_in C l h)).
End Spec.
