(** * What the greedy search hands over, without buffers *)
From Verif Require Import Prelude.
Local Open Scope nat_scope.

Section Spec.
(** [n] measurements and which of them agree. *)
Variable n : nat.
Variable agrees : nat -> nat -> bool.

Definition around (c : nat) : list nat := filter (agrees c) (seq 0 n).
Definition enough (best : nat) (x : nat) : bool := best <=? length (around x).

(** The last of the pool is taken and those that agree with it stay, until nobody is left; what is
    shown is the first pool, overwritten from the front by every later one. *)
Fixpoint grow (fuel best : nat) (pool shown : list nat) : list nat * nat :=
  match fuel, pool with
  | S fuel', _ :: _ =>
      let pool' := filter (fun x => agrees (last pool 0) x && enough best x) pool in
      let '(s, k) := grow fuel' best pool' (pool' ++ skipn (length pool') shown) in (s, S k)
  | _, _ => (shown, 0)
  end.
(** Of what is shown, as many as were taken. *)
Definition attempt (best c : nat) : list nat :=
  let pool := c :: filter (enough best) (around c) in
  let '(s, k) := grow (length pool) best pool pool in firstn k s.
(** The first attempt longer than [best], then the first longer than that, and so on. *)
Fixpoint search (cs : list nat) (best : nat) (found : list nat) : list nat :=
  match cs with
  | [] => found
  | c :: cs' =>
      if enough best c && (best <? length (attempt best c))
      then search cs' (length (attempt best c)) (attempt best c)
      else search cs' best found
  end.

(** All are tried; or the latest [new] only, if [prev] are accepted already. *)
Definition greedy : list nat := search (seq 0 n) 0 [].
Definition greedy_new (new prev : nat) : list nat := search (seq (n - new) new) prev [].
End Spec.
