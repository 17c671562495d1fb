(** * Histories without a wrong measurement: the whole graph *)
From Coq Require Import ZArith List Bool.
From Verif Require Import Prelude Num Keys KMap UMap Geometry Factors Clique Pcm Params Solver PcmSpec HistSpec StoreSpec AlgProofs OutlierSpec LatticeSpec TrueSpec.
Set Implicit Arguments.
Local Open Scope nat_scope.

(** For any way of keeping poses. *)
Section Any.
Variable O : tops.
Variable C : config.
Notation op := (op O).
Notation bf := (bf O).
Notation factor := (factor O).

(** Only [update] and [forceUpdate]. *)
Definition only_calls (h : list op) : Prop := forall o, In o h -> call_of o <> None.
(** The factors handed over, null pointers left out. *)
Definition given (h : list op) : list factor :=
  flat_map (fun o => match call_of o with
                     | Some (fs, _) => flat_map (fun f => match f with Some f => [f] | None => [] end) fs
                     | None => []
                     end) h.
(** Between factors that are not odometry. *)
Definition non_odometry (h : list op) : list bf :=
  flat_map (fun o => match call_of o with
                     | Some (fs, vs) => filter (fun b => negb (sp_odometry (c_special C) vs b)) (betweens fs)
                     | None => []
                     end) h.
(** The landmark: its value comes in the call with its first sighting, one factor; no later factor
    for it comes with a value for one of its ends. *)
Definition sees (l : key) (b : bf) : bool := of_landmark C l b && sp_lmk C b.
Definition firsts (l : key) (o : op) : list bf :=
  match call_of o with Some (fs, vs) => filter (fun b => of_landmark C l b && sp_first (c_special C) vs b) (betweens fs) | None => [] end.
Definition introduced (l : key) (h : list op) : Prop :=
  exists h1 o h2 b, h = h1 ++ o :: h2 /\ (forall o', In o' h1 -> filter (sees l) (all_betweens o') = []) /\
    firsts l o = [b] /\ knows (h1 ++ [o]) l = true /\ forall o', In o' h2 -> firsts l o' = [].
End Any.

Section Spec.
Variable G : geom.
Variable L : lattice G.
Variable X : key -> la_t L.
Variable F : N -> la_t L.
Variable pp : pcm_params.
Notation O := (node_ops G pp).
Variable C : config.
Variable W : soracles O.
Variable first : N -> key.
Notation op := (op O).
Notation bf := (bf O).

(** Every factor between poses or to a landmark is odometry of its robot, or true and between poses
    that their robots have been at. *)
Definition true_history (h : list op) : Prop :=
  forall b, In b (non_odometry C h) -> b_from b <> b_to b /\
    (sp_lmk C b = false -> exists id, of_pair id b = true /\ drives L X F C W first (fst id) h /\ drives L X F C W first (snd id) h /\
       true_closures L X C first id h /\
       (c_odom_check C = true -> fst id = snd id -> dpositive (pp_odom_trans pp) /\ dpositive (pp_odom_rot pp))) /\
    (sp_lmk C b = true -> let l := sp_landmark_key (c_special C) b in
       introduced C l h /\ exists c, drives L X F C W first c h /\ true_sightings L X C first c l h).
End Spec.
