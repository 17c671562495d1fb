(** * Histories with many wrong measurements that do not agree with each other *)
From Coq Require Import ZArith List Bool.
From Verif Require Import Prelude Num Keys KMap UMap Geometry Factors Clique Pcm Params Solver PcmSpec HistSpec StoreSpec TrajProofs AlgProofs OutlierSpec LatticeSpec TrueSpec WholeSpec WrongSpec GridWrongSpec.
Set Implicit Arguments.
Local Open Scope nat_scope.

Section Spec.
Variable G : geom.
Variable L : lattice G.
Variable X : key -> la_t L.         (* true poses *)
Variable F : N -> la_t L.           (* frame of each robot's odometry *)
Variable pp : pcm_params.
Notation O := (node_ops G pp).
Variable C : config.
Variable W : soracles O.
Variable first : N -> key.          (* each robot's first pose *)
Variable reads : bf O -> la_t L.    (* the exact pose a measurement shows *)
Variable wrong : bf O -> bool.      (* the wrong measurements *)
Variable friends : bf O -> bf O -> bool. (* wrong measurements that may agree *)
Notation op := (op O).
Notation bf := (bf O).
Notation lands := (lands L X reads).
Notation right := (fun b => negb (wrong b)).
Infix "@" := (la_comp L) (at level 40, left associativity).

(** The way from where [f2] leads to where the way over [f1] leads is too long. *)
Definition clash (f1 f2 : bf) : Prop :=
  forall e z, X (b_to f1) @ z = X (b_to f2) -> lands f2 @ e = lands f1 @ z -> too_large L e (way_around f1 f2) f1 f2.
Definition clash_lm (f1 f2 : bf) : Prop := forall e, lands f2 @ e = lands f1 -> too_large L e (way_around_lm f1 f2) f1 f2.
(** Of two measurements of which one is wrong, or both and not friends, neither goes with the other. *)
Definition all_clash (clash : bf -> bf -> Prop) (l : list bf) : Prop :=
  forall f1 f2, In f1 l -> In f2 l -> wrong f2 = true -> wrong f1 = false \/ friends f1 f2 = false -> clash f1 f2 /\ clash f2 f1.

Definition many_closures (id : obsid) (h : list op) : Prop :=
  (forall h1 o h2 b, h = h1 ++ o :: h2 -> In b (candidates C o) -> closure C id b = true ->
     readable L X reads wrong b /\ been C first (fst id) (h1 ++ [o]) (b_from b) /\ been C first (snd id) (h1 ++ [o]) (b_to b)) /\
  all_clash clash (closures_in C id h) /\ outnumbered right friends (closures_in C id h).
Definition many_sightings (c : N) (l : key) (h : list op) : Prop :=
  (forall h1 o h2 b, h = h1 ++ o :: h2 -> In b (all_betweens o) -> sees C l b = true ->
     readable L X reads wrong b /\ b_to b = l /\ been C first c (h1 ++ [o]) (b_from b)) /\
  all_clash clash_lm (sightings_in C l h).
Definition many_history (h : list op) : Prop :=
  forall b, In b (non_odometry C h) -> b_from b <> b_to b /\
    (sp_lmk C b = false -> exists id, of_pair id b = true /\ drives_known L X F C W first (fst id) h /\ drives_known L X F C W first (snd id) h /\
       many_closures id h /\
       (c_odom_check C = true -> fst id = snd id -> dpositive (pp_odom_trans pp) /\ dpositive (pp_odom_rot pp))) /\
    (sp_lmk C b = true -> let l := sp_landmark_key (c_special C) b in
       introduced C l h /\ exists c, drives_known L X F C W first c h /\ many_sightings c l h /\ outnumbered right friends (sightings_in C l h)).
End Spec.
