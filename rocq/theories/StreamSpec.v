(** * Histories compared by what each robot and each pair of robots delivers *)
From Verif Require Import Prelude Keys KMap Geometry Factors Pcm Solver PcmSpec HistSpec CallsSpec.
Set Implicit Arguments.
Local Open Scope nat_scope.

Section Spec.
Variable O : tops.
Variable sp : list N.
Notation bf := (bf O).
Notation op := (op O).

(** What a call means to the stored loop closures and landmark sightings: the first sightings and
    candidates it delivers, or a removal, or a prefix ignored or revived.  Odometry, priors and
    temporary factors mean nothing to them. *)
Inductive event :=
| EvDeliver (firsts candidates : list bf)
| EvRemoveId (a b : N)
| EvRemoveLast
| EvIgnore (c : N)
| EvRevive (c : N).
Definition events (o : op) : list event :=
  match o with
  | OpUpdate fs vs _ | OpForce fs vs =>
      match filter (sp_first sp vs) (betweens fs), filter (sp_candidate sp vs) (betweens fs) with
      | [], [] => []
      | f, c => [EvDeliver f c]
      end
  | OpRemoveId a b => [EvRemoveId a b]
  | OpRemoveLast => [EvRemoveLast]
  | OpIgnore c => [EvIgnore c]
  | OpRevive c => [EvRevive c]
  | _ => []
  end.
Definition same_events (h1 h2 : list op) : Prop := flat_map events h1 = flat_map events h2.

(** The odometry of a robot, in order of arrival. *)
Definition robot_track (c : N) (h : list op) : list bf := filter (fun b => (chr (b_to b) =? c)%N) (sp_odoms sp h).

(** One list starts with the other. *)
Definition comparable {A} (l1 l2 : list A) : Prop := exists l, l2 = l1 ++ l \/ l1 = l2 ++ l.
Definition same_tracks (h1 h2 : list op) : Prop := forall c, comparable (robot_track c h1) (robot_track c h2).

(** Odometry of a robot never leads to a variable its earlier odometry joined. *)
Definition fresh_tracks (h : list op) : Prop := forall c l1 b l2, robot_track c h = l1 ++ b :: l2 ->
  forall b', In b' l1 -> b_to b <> b_from b' /\ b_to b <> b_to b'.

(** Both ends of every candidate have a value when it is delivered. *)
Definition closures_supplied (h : list op) : Prop := forall h1 o h2 fs vs b,
  h = h1 ++ o :: h2 -> call_of o = Some (fs, vs) -> In (Some (FBetween b)) fs -> sp_candidate sp vs b = true ->
  supplied (h1 ++ [o]) (b_from b) /\ supplied (h1 ++ [o]) (b_to b).

(** Histories in which odometry goes on from odometry, and what is compared with odometry comes
    after it. *)
Definition straight (h : list op) : Prop := along_tracks sp h /\ fresh_tracks h /\ closures_supplied h.

(** The pose given to the variable at which the odometry of a robot starts, in the same call. *)
Definition first_value (h : list op) (c : N) (x : t_pose O) : Prop := exists g o r fs vs l1 b l2,
  h = g ++ o :: r /\ call_of o = Some (fs, vs) /\ filter (sp_odometry sp vs) (betweens fs) = l1 ++ b :: l2 /\ chr (b_to b) = c /\
  (forall b', In b' (sp_odoms sp g ++ l1) -> chr (b_to b') <> c) /\ kfind (b_from b) vs = Some (VPose x).
Definition same_starts (h1 h2 : list op) : Prop := forall c x x', first_value h1 c x -> first_value h2 c x' -> x = x'.

(** The part of the graph behind odometry and other factors: accepted closures and sightings. *)
Definition accepted_part (h : list op) (g : graph_t O) : graph_t O :=
  skipn (length (sp_odoms sp h) + length (sp_others h)) g.
End Spec.
