(** * What a weight is, and how many are one or not zero *)
From Coq Require Import ZArith List QArith.
From Verif Require Import Prelude Num TextSpec.
Import ListNotations.
Set Implicit Arguments.

(** A double that denotes a number between zero and one. *)
Definition weight (d : double) : Prop :=
  valid_binary dprec demax d = true /\ exists q, dval d = Some q /\ (0 <= q <= 1)%Q.

(** The C++ comparisons [d == 1.0] and [d != 0.0]. *)
Definition is_one (d : double) : bool := SFeqb d (dofZ 1).
Definition is_some (d : double) : bool := negb (SFeqb d dzero).
Definition ones_of (ws : list double) : nat := length (filter is_one ws).
Definition some_of (ws : list double) : nat := length (filter is_some ws).
