(** * What a history says about some robots *)
From Verif Require Import Prelude Keys KMap Geometry Factors Pcm Solver PcmSpec HistSpec StoreSpec.
Set Implicit Arguments.

Section Spec.
Variable O : tops.
Notation op := (op O).
Notation bf := (bf O).
Variable sp : list N.

(** Of a call: the odometry of the robots [R], the first sightings and the closure candidates
    among the factors [F], and the values of the variables [K]. *)
Definition share (R : N -> bool) (F : bf -> bool) (K : key -> bool) (o : op)
  : list bf * list bf * list bf * values O :=
  match call_of o with
  | Some (fs, vs) =>
      (filter (fun b => R (chr (b_to b))) (filter (sp_odometry sp vs) (betweens fs)),
       filter F (filter (sp_first sp vs) (betweens fs)),
       filter F (filter (sp_candidate sp vs) (betweens fs)),
       filter (fun kv => K (fst kv)) vs)
  | None => ([], [], [], [])
  end.

(** Call by call the same; everything else of the two histories is unrelated. *)
Definition same_share R F K (h h' : list op) : Prop := Forall2 (fun o o' => share R F K o = share R F K o') h h'.

(** No factor that mentions the robot comes before its odometry starts, which is at one of its own
    variables, with its value in the same call. *)
Definition starts_fresh (c : N) (h : list op) : Prop :=
  forall h1 o h2 fs vs l1 b l2,
    h = h1 ++ o :: h2 -> call_of o = Some (fs, vs) ->
    filter (sp_odometry sp vs) (betweens fs) = l1 ++ b :: l2 -> chr (b_to b) = c ->
    (forall b', In b' (sp_odoms sp h1 ++ l1) -> chr (b_to b') <> c) ->
    chr (b_from b) = c /\ In (b_from b) (map fst vs) /\
    forall b', delivered h1 (FBetween b') -> chr (b_from b') <> c /\ chr (b_to b') <> c.

(** The closures between two robots. *)
Definition between_robots (x y : N) (b : bf) : bool :=
  oid_eqb (chr (b_from b), chr (b_to b)) (x, y) && negb (sp_landmark sp (b_from b) || sp_landmark sp (b_to b)).
(** The sightings of a landmark. *)
Definition sights (l : key) (b : bf) : bool :=
  (sp_landmark_key sp b =? l)%N && (sp_landmark sp (b_from b) || sp_landmark sp (b_to b)).
(** The two ends of such a sighting are of the robots or the landmark. *)
Definition seen_by (R : N -> bool) (l : key) (h : list op) : Prop :=
  forall b, delivered h (FBetween b) -> sights l b = true ->
    (R (chr (b_from b)) = true \/ b_from b = l) /\ (R (chr (b_to b)) = true \/ b_to b = l).
End Spec.

(** Call by call, both histories take back a closure of the pair, or neither does. *)
Definition takes_back {O} C (W : soracles O) (id : obsid) (h : list (op O)) (o : op O) : bool :=
  match target C W h o with Some id' => oid_eqb id id' | None => false end.
Definition same_removals {O} C (W W' : soracles O) (id : obsid) (h h' : list (op O)) : Prop :=
  forall h1 o h2 h1' o' h2', h = h1 ++ o :: h2 -> h' = h1' ++ o' :: h2' -> length h1 = length h1' ->
    takes_back C W id h1 o = takes_back C W' id h1' o'.
