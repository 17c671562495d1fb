(** * What becomes of an optimisation that follows an earlier one *)
From Coq Require Import QArith.
From Verif Require Import Prelude Keys KMap Geometry Factors Pcm Solver.
Set Implicit Arguments.
Local Open Scope nat_scope.

(** The four ways it can end when GNC is not run. *)
Inductive reopt := RFine | RPastEnd | RNoFactor | RBadTail.

(** The previous optimisation counted [n] loop closures and left the weights [w]; the graph now has
    [len] factors, of which [k] are odometry and other factors.  With fixed inliers the last [n]
    weights are read, and for each above one half the factor as far behind the first [k]; then
    the last [n] weights are copied to the end of a vector of [len]. *)
Definition reoptimised (fix_inliers : bool) (n : nat) (w : list Q) (k len : nat) : reopt :=
  if fix_inliers && (length w <? n) then RPastEnd
  else if fix_inliers && existsb (fun i => negb (Qle_bool (nth (length w - n + i) w 0%Q) (1 # 2)) && (len <=? k + i)) (seq 0 n)
       then RNoFactor
  else if (length w <? n) || (len <? n) then RBadTail
  else RFine.

Section Ends.
Variable O : tops.
Definition ends_as {A} (x : outcome (solver O) A) (r : reopt) : Prop :=
  match r with
  | RFine => exists s' a, x = Ok s' a
  | RPastEnd => x = Undef OutOfBounds
  | RNoFactor => exists s', x = Throw s' OutOfRange
  | RBadTail => x = Undef EigenMismatch
  end.
End Ends.
