(** * Histories in which loop closures are only added *)
From Verif Require Import Prelude Keys KMap Geometry Factors Pcm Solver.
Set Implicit Arguments.

Section FixSpec.
Variable O : tops.

(** Calls that neither remove a loop closure nor hide or show those of a robot
    (include/KimeraRPGO/RobustSolver.h:108-218). *)
Definition steady (o : op O) : bool :=
  match o with OpRemoveId _ _ | OpRemoveLast | OpIgnore _ | OpRevive _ => false | _ => true end.

Definition steady_all (h : list (op O)) : Prop := forall o, In o h -> steady o = true.

End FixSpec.
