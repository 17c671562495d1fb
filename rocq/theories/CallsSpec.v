(** * Histories compared by what they hand to the outlier rejection *)
From Verif Require Import Prelude Keys KMap Geometry Factors Pcm Solver PcmSpec HistSpec.
Set Implicit Arguments.

Section Spec.
Variable O : tops.
Notation op := (op O).

(** A call without what only concerns optimisation: temporary factors vanish, the flags asking
    for an optimisation are forgotten. *)
Definition bare (o : op) : list op :=
  match o with
  | OpUpdate fs vs _ | OpForce fs vs => [OpForce fs vs]
  | OpRemovePriors c _ => [OpRemovePriors c true]
  | OpTempUpdate _ _ | OpTempReplace _ _ | OpTempClear => []
  | _ => [o]
  end.
Definition same_calls (h1 h2 : list op) : Prop := flat_map bare h1 = flat_map bare h2.

(** The history with the calls about temporary factors deleted. *)
Definition without_temps (h : list op) : list op := filter (fun o => negb (is_temp o)) h.

(** Whenever an odometry factor is the first one leading to a robot, the variable it starts at
    gets its value in the same call. *)
Definition starts_supplied (sp : list N) (h : list op) : Prop :=
  forall h1 o h2 fs vs l1 b l2,
    h = h1 ++ o :: h2 -> call_of o = Some (fs, vs) ->
    filter (sp_odometry sp vs) (betweens fs) = l1 ++ b :: l2 ->
    (forall b', In b' (sp_odoms sp h1 ++ l1) -> chr (b_to b') <> chr (b_to b)) ->
    In (b_from b) (map fst vs).

(** The variable is an end of one of the odometry factors, which lead to its robot. *)
Definition on_track (odos : list (bf O)) (k : key) : Prop :=
  exists b, In b odos /\ chr (b_to b) = chr k /\ (k = b_from b \/ k = b_to b).

(** Histories that stay on the odometry: later odometry of a robot starts at a variable its
    earlier odometry reached; what is compared with odometry joins such variables; no landmark is
    seen from two robots. *)
Record along_tracks (sp : list N) (h : list op) : Prop := {
  at_odometry : forall h1 o h2 fs vs l1 b l2,
    h = h1 ++ o :: h2 -> call_of o = Some (fs, vs) ->
    filter (sp_odometry sp vs) (betweens fs) = l1 ++ b :: l2 ->
    (exists b', In b' (sp_odoms sp h1 ++ l1) /\ chr (b_to b') = chr (b_to b)) ->
    exists b', In b' (sp_odoms sp h1 ++ l1) /\ chr (b_to b') = chr (b_to b) /\
      (b_from b = b_from b' \/ b_from b = b_to b');
  at_closure : forall h1 o h2 fs vs b,
    h = h1 ++ o :: h2 -> call_of o = Some (fs, vs) -> In (Some (FBetween b)) fs ->
    sp_candidate sp vs b = true -> sp_landmark sp (b_from b) = false -> sp_landmark sp (b_to b) = false ->
    supplied (h1 ++ [o]) (b_from b) -> supplied (h1 ++ [o]) (b_to b) ->
    on_track (sp_odoms sp (h1 ++ [o])) (b_from b) /\ on_track (sp_odoms sp (h1 ++ [o])) (b_to b);
  at_landmark : forall h1 o h2 fs vs b,
    h = h1 ++ o :: h2 -> call_of o = Some (fs, vs) -> In (Some (FBetween b)) fs ->
    sp_landmark sp (b_from b) = false -> sp_landmark sp (b_to b) = true ->
    on_track (sp_odoms sp (h1 ++ [o])) (b_from b);
  at_one_robot : forall x y, delivered h (FBetween x) -> delivered h (FBetween y) ->
    sp_landmark sp (b_from x) = false -> sp_landmark sp (b_from y) = false ->
    sp_landmark sp (b_to x) = true -> b_to x = b_to y -> chr (b_from x) = chr (b_from y) }.

(** Edges reported by the removal calls, in order. *)
Definition reported (rs : list ret) : list (option (key * key)) :=
  flat_map (fun r => match r with Some e => [e] | None => [] end) rs.
End Spec.
Arguments same_calls {O}.
Arguments without_temps {O}.
Arguments starts_supplied {O}.
