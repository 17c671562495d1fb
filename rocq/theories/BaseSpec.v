(** * A robust solver used through its base class: specification *)
From Verif Require Import Prelude Keys KMap Geometry Factors Pcm Solver HistSpec Base.
Set Implicit Arguments.
Local Open Scope nat_scope.

Section Spec.
Variable O : tops.

(** Members of the base class that only edit the graph. *)
Definition graph_edit (o : bop O) : bool :=
  match o with BDrop _ | BPop | BPriors _ => true | _ => false end.
Definition edits_only (h : list (bop O)) : Prop :=
  forall o, In o h -> match o with BCall _ => True | _ => graph_edit o = true end.

(** The history without the detours. *)
Definition calls_of (h : list (bop O)) : list (op O) :=
  flat_map (fun o => match o with BCall o => [o] | _ => [] end) h.

(** Calls after which the outlier rejection has handed over its graph: new factors, and everything
    that takes factors away or brings them back, unless it found nothing to do. *)
Definition hands_over (o : op O) (r : ret) : Prop :=
  match o with
  | OpUpdate fs _ _ | OpForce fs _ => fs <> []
  | OpRemovePriors _ _ | OpIgnore _ | OpRevive _ => True
  | OpRemoveId _ _ | OpRemoveLast => r <> Some None
  | _ => False
  end.

(** Without outlier rejection: what a list of slots becomes. *)
Definition empty_slots (rm : list nat) (g : graph_t O) : graph_t O :=
  map (fun '(i, f) => if existsb (Nat.eqb i) rm then None else f) (combine (seq 0 (length g)) g).
Definition edited (o : bop O) (g : graph_t O) : graph_t O :=
  match o with
  | BCall (OpUpdate fs _ _) | BCall (OpForce fs _) => g ++ fs
  | BUpdate fs _ rm => empty_slots rm g ++ fs
  | BDrop rm => empty_slots rm g
  | BPop | BCall (OpRemoveId _ _) | BCall OpRemoveLast => removelast g
  | BPriors c | BCall (OpRemovePriors c _) => filter (fun f => negb (any_prior_on c f)) g
  | _ => g
  end.

(** Calls that move no slot. *)
Definition keeps_slots (o : bop O) : Prop :=
  match o with
  | BPop | BPriors _ | BCall (OpRemoveId _ _) | BCall OpRemoveLast | BCall (OpRemovePriors _ _) => False
  | _ => True
  end.
End Spec.
