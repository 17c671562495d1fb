(** * Exactly which closures and sightings are accepted *)
From Verif Require Import Prelude Keys KMap UMap Geometry Factors Pcm Solver PcmSpec HistSpec StoreSpec HeuSpec ApartSpec.
Set Implicit Arguments.
Local Open Scope nat_scope.

Section Spec.
Variable O : tops.
Variable C : config.
Variable W : soracles O.
Notation bf := (bf O).
Notation op := (op O).
Notation item := (bf * (N -> key -> t_T O))%type.

(** The pairwise test of two measurements of a list: the earlier against the later. *)
Definition passes (r : option bool) : bool := match r with Some b => b | None => false end.
Definition agreeb (test : item -> item -> option bool) (L : list item) (i j : nat) : bool :=
  match nth_error L i, nth_error L j with
  | Some x, Some y => if i <? j then passes (test x y) else if j <? i then passes (test y x) else false
  | _, _ => false
  end.
Definition at_places (L : list item) (idx : list nat) : list bf :=
  flat_map (fun i => match nth_error L i with Some x => [fst x] | None => [] end) idx.

(** What the greedy search of [HeuSpec] selects. *)
Definition selection test (L : list item) : list bf := at_places L (greedy (length L) (agreeb test L)).
Definition selection_new test (L : list item) (new : nat) (was : list bf) : list bf :=
  match greedy_new (length L) (agreeb test L) new (length was) with
  | [] => was
  | idx => at_places L idx
  end.

(** The accepted closures of a pair, call by call. *)
Definition accept_step (id : obsid) (h : list op) (o : op) (was : list bf) : list bf :=
  if takes_back C W id h o
  then if length (live_items C W id h) <=? 2 then map fst (live_items C W id (h ++ [o]))
       else selection (@lc_test O) (live_items C W id (h ++ [o]))
  else match filter (fun x => of_pair id (fst x)) (newly C W h o) with
       | [] => was
       | new => if c_incremental C
                then selection_new (@lc_test O) (live_items C W id (h ++ [o])) (length new) was
                else selection (@lc_test O) (live_items C W id (h ++ [o]))
       end.
Fixpoint accepted_from (id : obsid) (done todo : list op) (was : list bf) : list bf :=
  match todo with
  | [] => was
  | o :: todo' => accepted_from id (done ++ [o]) todo' (accept_step id done o was)
  end.
Definition accepted (id : obsid) (h : list op) : list bf := accepted_from id [] h [].

(** The accepted sightings of a landmark. *)
Definition accepted_sightings (l : key) (h : list op) : list bf :=
  selection (@lm_test O) (recorded l (current C l (sp_sightings C W h))).
End Spec.
