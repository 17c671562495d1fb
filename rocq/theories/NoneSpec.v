(** * Calls that a solver without outlier rejection does not survive *)
From Verif Require Import Prelude Keys KMap Geometry Factors Pcm Solver.
Set Implicit Arguments.
Local Open Scope nat_scope.

Section Spec.
Variable O : tops.
Variable C : config.

(** Fixed inliers, and debug messages of Levenberg-Marquardt, look at the outlier rejection. *)
Definition optimising_hurts : Prop := c_fix C = true \/ (c_debug C = true /\ c_gn C = false).

(** There is no last factor, or it has no key to report. *)
Definition nothing_to_pop (g : graph_t O) : Prop := ~ exists g' f k ks, g = g' ++ [Some f] /\ f_keys f = k :: ks.

(** Factors and values after which [update] optimises: not an odometry factor with its value, not
    nothing. *)
Definition asks (fs : graph_t O) (vs : values O) : Prop :=
  match fs with
  | [] => vs <> []
  | [Some f] => ~ (length (f_keys f) = 2 /\ length vs = 1)
  | _ => True
  end.

Definition hazard (o : op O) (s : solver O) : Prop :=
  match o with
  | OpUpdate fs vs opt => fs = [None] \/ (opt = true /\ (c_log C = true \/ (asks fs vs /\ optimising_hurts)))
  | OpForce fs _ => fs = [None] \/ c_log C = true \/ optimising_hurts
  | OpRemovePriors _ opt => opt = true /\ optimising_hurts
  | OpRemoveId _ _ | OpRemoveLast => nothing_to_pop (s_nfg s) \/ optimising_hurts
  | OpIgnore _ | OpRevive _ => optimising_hurts
  | OpTempUpdate _ _ | OpTempReplace _ _ | OpTempClear => False
  end.
End Spec.
