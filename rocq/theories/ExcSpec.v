(** * Vocabulary for calls after an exception (C45) *)
From Verif Require Import Prelude Keys KMap Geometry Factors Pcm Solver.
Set Implicit Arguments.
Local Open Scope nat_scope.

Section Exc.
Variable O : tops.
Variable C : config.
Notation op := (op O).
Notation solver := (solver O).

(** A forceUpdate without factors that reaches the optimiser with more known inliers announced
    than there are factors. *)
Definition stale_force (o : op) (s : solver) : Prop :=
  exists vs p v v', o = OpForce [] vs /\ c_bias C = true /\ s_pcm s = Some p /\
    vinsert_all vs (s_vals s) = Ok v tt /\ vinsert_all (s_tvals s) v = Ok v' tt /\
    length (s_nfg s) + length (s_tnfg s) < length (p_odom p) + length (p_special p).

(** Calls that hand the graph over anew. *)
Definition rebuilds (o : op) : Prop :=
  match o with
  | OpUpdate fs _ _ | OpForce fs _ => fs <> []
  | OpRemovePriors _ _ | OpIgnore _ | OpRevive _ => True
  | _ => False
  end.
End Exc.
