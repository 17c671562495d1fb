(** * Specification vocabulary for histories of solver calls

    Everything is a function of the calls made, not of the solver's state. *)
From Verif Require Import Prelude Keys KMap Geometry Factors Pcm Solver PcmSpec.
Set Implicit Arguments.

Section Spec.
Variable O : tops.
Notation bf := (bf O).
Notation factor := (factor O).
Notation values := (values O).
Notation graph_t := (graph_t O).
Notation op := (op O).

(** Factors and values handed over by a call of [update] or [forceUpdate]. *)
Definition call_of (o : op) : option (graph_t * values) :=
  match o with
  | OpUpdate fs vs _ => Some (fs, vs)
  | OpForce fs vs => Some (fs, vs)
  | _ => None
  end.

(** A factor was handed over / a variable was given a value at some time. *)
Definition delivered (h : list op) (f : factor) : Prop :=
  exists o fs vs, In o h /\ call_of o = Some (fs, vs) /\ In (Some f) fs.
Definition supplied (h : list op) (k : key) : Prop :=
  exists o fs vs, In o h /\ call_of o = Some (fs, vs) /\ In k (map fst vs).

(** All odometry factors ever given, in order. *)
Definition sp_odoms (sp : list N) (h : list op) : list bf :=
  flat_map (fun o => match call_of o with
                     | Some (fs, vs) => filter (sp_odometry sp vs) (betweens fs)
                     | None => []
                     end) h.

(** Does a [char] name the prefix of the key?  Above 127 it names none (see C27). *)
Definition names (c : N) (k : key) : bool := (chr k =? c)%N && (c <? 128)%N.

(** All non-between factors ever given, in order, without the pose priors deleted since. *)
Definition pose_prior_on (c : N) (f : factor) : bool :=
  match f with FPrior k _ => names c k | _ => false end.
Definition sp_others_step (acc : list factor) (o : op) : list factor :=
  match o with
  | OpUpdate fs _ _ | OpForce fs _ => acc ++ others fs
  | OpRemovePriors c _ => filter (fun f => negb (pose_prior_on c f)) acc
  | _ => acc
  end.
Definition sp_others (h : list op) : list factor := fold_left sp_others_step h [].

(** Is the prefix ignored after the history? *)
Definition sp_ignored (h : list op) (c : N) : bool :=
  fold_left (fun acc o => match o with
                          | OpIgnore c' => if (c' =? c)%N then true else acc
                          | OpRevive c' => if (c' =? c)%N then false else acc
                          | _ => acc
                          end) h false.

(** Temporary factors after the history. *)
Definition sp_temps (h : list op) : graph_t :=
  fold_left (fun acc o => match o with
                          | OpTempUpdate fs _ => acc ++ fs
                          | OpTempReplace fs _ => fs
                          | OpTempClear => []
                          | _ => acc
                          end) h [].

(** Histories without temporary calls, and a history with those deleted. *)
Definition is_temp (o : op) : bool :=
  match o with OpTempUpdate _ _ | OpTempReplace _ _ | OpTempClear => true | _ => false end.
Definition is_removal (o : op) : bool :=
  match o with OpRemoveId _ _ | OpRemoveLast => true | _ => false end.
Definition no_removal (h : list op) : Prop := forall o, In o h -> is_removal o = false.

End Spec.

(** ** Without outlier rejection *)
Section Plain.
Variable O : tops.
Notation graph_t := (graph_t O).
Notation op := (op O).

(** Any pose prior (of either dimension) on a key with the prefix. *)
Definition any_prior_on (c : N) (of : option (factor O)) : bool :=
  match of with
  | Some (FPrior k _) => names c k
  | Some (FPriorOther k _) => names c k
  | _ => false
  end.

Definition sp_plain (h : list op) : graph_t :=
  fold_left (fun acc o => match o with
                          | OpUpdate fs _ _ | OpForce fs _ => acc ++ fs
                          | OpRemovePriors c _ => filter (fun f => negb (any_prior_on c f)) acc
                          | OpRemoveId _ _ | OpRemoveLast => removelast acc
                          | _ => acc
                          end) h [].

(** All factors ever given, null slots included. *)
Definition sp_all (h : list op) : graph_t :=
  flat_map (fun o => match call_of o with Some (fs, _) => fs | None => [] end) h.
End Plain.

(** Does an update with these factors and values need an optimisation? *)
Definition sp_triggers {O} (sp : list N) (vs : values O) (fs : graph_t O) : bool :=
  existsb (fun of => match of with
                     | Some (FBetween b) => sp_candidate sp vs b
                     | Some _ => true
                     | None => false
                     end) fs.

(** Neither end of a loop closure has an ignored prefix. *)
Definition sp_not_ignored {O} (h : list (op O)) (b : bf O) : bool :=
  negb (sp_ignored h (chr (b_from b))) && negb (sp_ignored h (chr (b_to b))).
