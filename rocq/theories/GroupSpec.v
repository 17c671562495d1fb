(** * A group of measurements that agree with each other and with nobody else *)
From Verif Require Import Prelude HeuSpec.
Local Open Scope nat_scope.

Section Spec.
Variable n : nat.
Variable agrees : nat -> nat -> bool.
Variable good : nat -> bool.

Definition members : list nat := filter good (seq 0 n).
(** They agree with each other, not with the others, and are more than any other agrees with (itself
    counted). *)
Definition separate_group : Prop :=
  (forall i j, i < n -> j < n -> i <> j -> good i = true -> good j = true -> agrees i j = true) /\
  (forall i j, i < n -> j < n -> good i = true -> good j = false -> agrees i j = false) /\
  (forall j, j < n -> good j = false -> S (length (filter (agrees j) (seq 0 n))) < length members).
End Spec.

(** Two measurements that agree; a measurement that agrees with one of the others. *)
Definition some_agree (agrees : nat -> nat -> bool) : Prop := exists i j, agrees i j = true.
Definition backed {A B} (agrees : nat -> nat -> bool) (L : list (A * B)) (e : A) : Prop :=
  exists i j x, nth_error L i = Some x /\ fst x = e /\ agrees i j = true.
