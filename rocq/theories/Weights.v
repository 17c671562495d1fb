(** * Sums of GNC weights in double precision

    [gnc_weights_.sum()] and its conversion to [size_t] (/repo/src/RobustSolver.cpp:168-171 and
    259-262).  [Solver.v] takes the weights as rationals and their sum as exact; here they are doubles,
    and every addition is rounded.  Eigen is free to choose the order of the additions (it adds
    several lanes at a time), so the order is arbitrary. *)
From Coq Require Import ZArith List Permutation.
From Verif Require Import Prelude Num Clique.
Import ListNotations.
Set Implicit Arguments.
Local Open Scope nat_scope.

Definition wadd (x y : double) : double := SFadd dprec demax x y.

(** An order of summation: a tree of additions. *)
Inductive adds := Leaf (w : double) | Add (a b : adds).
Fixpoint leaves (t : adds) : list double :=
  match t with Leaf w => [w] | Add a b => leaves a ++ leaves b end.
Fixpoint added (t : adds) : double :=
  match t with Leaf w => w | Add a b => wadd (added a) (added b) end.

(** [d] is a possible result of [sum()]: all weights in some order, with any number of zeros that
    lanes may start from. *)
Definition sum_of (ws : list double) (d : double) : Prop :=
  exists t j, Permutation (leaves t) (ws ++ repeat dzero j) /\ added t = d.

(** [static_cast<size_t>]: truncation towards zero; undefined ([None]) for NaN, infinities and
    numbers outside of the range of [size_t]. *)
Definition truncated (d : double) : option Z :=
  match d with
  | S754_zero _ => Some 0%Z
  | S754_finite s m e =>
      let z := if (0 <=? e)%Z then (Zpos m * 2 ^ e)%Z else (Zpos m / 2 ^ (- e))%Z in
      Some (if s then (- z)%Z else z)
  | _ => None
  end.
Definition to_size_t (d : double) : option Z :=
  match truncated d with
  | Some z => if (0 <=? z)%Z && (z <? size_t_mod)%Z then Some z else None
  | None => None
  end.

(** [static_cast<size_t>(sum) - known.size()], wrapping. *)
Definition counted (d : double) (k : nat) : option Z :=
  match to_size_t d with
  | Some n => Some ((n - Z.of_nat k) mod size_t_mod)%Z
  | None => None
  end.
