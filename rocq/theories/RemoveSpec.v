(** * Robot pairs a removal has left unusable *)
From Verif Require Import Prelude Num Keys KMap UMap Geometry Factors Pcm Solver PcmSpec HistSpec StoreSpec.
Set Implicit Arguments.
Local Open Scope nat_scope.

Section Spec.
Variable O : tops.
Variable C : config.
Variable W : soracles O.
Notation bf := (bf O).
Notation op := (op O).
Notation sp := (c_special C).

Definition live_of (id : obsid) (h : list op) : list bf := filter (of_pair id) (sp_live C W h).
Definition new_of (id : obsid) (h : list op) (o : op) : list bf := filter (of_pair id) (map fst (newly C W h o)).
(** The pair has had a loop closure stored. *)
Definition ever (id : obsid) (h : list op) : bool := existsb (fun x => of_pair id (fst x)) (sp_stored C W h).

(** Since the last loop closure of the pair was stored, one was removed when there were at most
    two: the pair has fewer than two, and the size of its pairwise record is out of step. *)
Definition stale_step (id : obsid) (h : list op) (o : op) (was : bool) : bool :=
  match target C W h o with
  | Some id' =>
      was || oid_eqb id id' && (1 <=? length (live_of id h)) && (length (live_of id h) <=? 2)
  | None => was && (length (new_of id h o) =? 0)
  end.
Fixpoint stale_from (id : obsid) (done todo : list op) (was : bool) : bool :=
  match todo with
  | [] => was
  | o :: todo' => stale_from id (done ++ [o]) todo' (stale_step id done o was)
  end.
Definition stale (id : obsid) (h : list op) : bool := stale_from id [] h false.

(** The loop closure candidates of a call. *)
Definition candidates (fs : graph_t O) (vs : values O) : list bf := filter (sp_candidate sp vs) (betweens fs).
(** A loop closure that is stored whatever the reference poses are. *)
Definition surely_stored (h : list op) (fs : graph_t O) (vs : values O) (b : bf) : Prop :=
  In b (candidates fs vs) /\ forall ref, stores C (fun k => knows h k || sp_supplied vs k) ref b = true.

(** A call without its candidates, and the candidates of a pair that are stored: both keys known,
    and not rejected by the odometry test on the reference poses that the rest of the call leaves. *)
Definition quiet (fs : graph_t O) (vs : values O) : graph_t O :=
  filter (fun of => match of with Some (FBetween b) => negb (sp_candidate sp vs b) | _ => true end) fs.
Definition would_store (id : obsid) (h : list op) (fs : graph_t O) (vs : values O) : list bf :=
  filter (of_pair id) (filter (stores C (fun k => knows h k || sp_supplied vs k) (refs_after C W (h ++ [OpUpdate (quiet fs vs) vs false])))
    (candidates fs vs)).

(** The closures whose pairwise tests make up the record of a pair: those present when one was last
    stored, or removed from among three or more.  A removal from among one or two leaves the record
    as it is. *)
Definition record_step (id : obsid) (h : list op) (o : op) (was : list (bf * (N -> key -> t_T O))) :=
  match target C W h o with
  | Some id' => if oid_eqb id id' && (3 <=? length (live_of id h)) then live_items C W id (h ++ [o]) else was
  | None => match new_of id h o with [] => was | _ => live_items C W id (h ++ [o]) end
  end.
Fixpoint record_from (id : obsid) (done todo : list op) (was : list (bf * (N -> key -> t_T O))) :=
  match todo with
  | [] => was
  | o :: todo' => record_from id (done ++ [o]) todo' (record_step id done o was)
  end.
Definition pair_record (id : obsid) (h : list op) := record_from id [] h [].

(** No record was copied from freed memory, or the memory still had its contents. *)
Definition records_sound (h : list op) : Prop :=
  freed_intact W \/ forall h1 o h2 id, h = h1 ++ o :: h2 -> target C W h1 o = Some id -> length (live_of id h1) < 3.

(** The observations of a landmark that are kept: those since its last first sighting. *)
Definition seen (l : key) (h : list op) : list bf := map fst (current C l (sp_sightings C W h)).
(** No observation but the last starts from the landmark, unless there are at most two. *)
Definition backward_last (l : key) (obs : list bf) : Prop :=
  3 <= length obs -> forall b, In b (removelast obs) -> b_from b <> l.
End Spec.
