(** * Incremental selection without the pairwise check *)
From Verif Require Import Prelude Num Keys KMap UMap Geometry Factors Pcm Solver PcmSpec HistSpec StoreSpec RemoveSpec.
Set Implicit Arguments.
Local Open Scope nat_scope.

Section Spec.
Variable O : tops.
Variable C : config.
Variable W : soracles O.
Notation op := (op O).

(** Since the pair last had no loop closure, some call has stored exactly one of the pair, or one of
    the pair was removed. *)
Definition lone_step (id : obsid) (h : list op) (o : op) (was : bool) : bool :=
  match target C W h o with
  | Some id' => if oid_eqb id id' then 2 <=? length (live_of C W id h) else was
  | None => was || (length (new_of C W id h o) =? 1)
  end.
Fixpoint lone_from (id : obsid) (done todo : list op) (was : bool) : bool :=
  match todo with
  | [] => was
  | o :: todo' => lone_from id (done ++ [o]) todo' (lone_step id done o was)
  end.
Definition lone (id : obsid) (h : list op) : bool := lone_from id [] h false.
End Spec.
