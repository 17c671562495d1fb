(** * Prelude: outcomes, error monads and bounds-checked vectors

    Nothing in this file models a function of the repository; it fixes the
    vocabulary in which the C++ functions are written down. *)
From Coq Require Export List Arith ZArith NArith Bool Lia.
From Coq Require Import Permutation.
Export ListNotations.
Set Implicit Arguments.

(** Reasons for leaving the defined part of C++ (or breaching the documented
    contract of a library call). *)
Inductive ub : Type :=
| NullDeref        (* dereference of a null pointer *)
| OutOfBounds      (* index outside a vector, factor graph or key list *)
| EigenMismatch    (* Eigen block/assignment/segment with non-matching sizes *)
| Uninitialised    (* a variable is read before anything was stored in it *)
| IntOverflow      (* overflow of a signed integer *)
| OutOfFuel.       (* a loop of the model ran out of fuel: never a normal value *)

(** C++ exceptions that can be thrown by the modelled code. *)
Inductive exn : Type :=
| KeyAlreadyExists (k : N)   (* gtsam::ValuesKeyAlreadyExists *)
| KeyDoesNotExist (k : N)    (* gtsam::ValuesKeyDoesNotExist *)
| IncorrectType (k : N)      (* gtsam::ValuesIncorrectType *)
| OutOfRange                 (* std::out_of_range *)
| InvalidArgument            (* std::invalid_argument *)
| OptimizerFailure.          (* any exception raised inside a GTSAM optimiser *)

(** Pure computations that may leave the defined part. *)
Inductive res (A : Type) : Type :=
| Val (a : A)
| Bad (u : ub).
Arguments Bad {A} u.

Definition rbind {A B} (x : res A) (f : A -> res B) : res B :=
  match x with Val a => f a | Bad u => Bad u end.

Notation "'let*' x ':=' e 'in' f" := (rbind e (fun x => f))
  (at level 200, x name, e at level 100, f at level 200, right associativity).
Notation "'let*' ' x ':=' e 'in' f" := (rbind e (fun x => f))
  (at level 200, x strict pattern, e at level 100, f at level 200, right associativity).

(** Loops. [rfold f l a] runs the body [f] for each element of [l]. *)
Fixpoint rfold {A B} (f : B -> A -> res A) (l : list B) (a : A) : res A :=
  match l with
  | [] => Val a
  | x :: l' => rbind (f x a) (rfold f l')
  end.

(** [for (i = lo; i < hi; i++)] *)
Definition rfor {A} (lo hi : nat) (f : nat -> A -> res A) (a : A) : res A :=
  rfold f (seq lo (hi - lo)) a.

(** Bounds-checked element access of [std::vector]. *)
Definition vget {A} (l : list A) (i : nat) : res A :=
  match nth_error l i with Some x => Val x | None => Bad OutOfBounds end.

Fixpoint list_set {A} (l : list A) (i : nat) (x : A) : list A :=
  match l, i with
  | [], _ => []
  | _ :: l', O => x :: l'
  | y :: l', S i' => y :: list_set l' i' x
  end.

Definition vset {A} (l : list A) (i : nat) (x : A) : res (list A) :=
  if i <? length l then Val (list_set l i x) else Bad OutOfBounds.

(** Calls on an object with state [S]: normal return, exception (with the state
    as mutated so far), or a breach. *)
Inductive outcome (S A : Type) : Type :=
| Ok (s : S) (a : A)
| Throw (s : S) (e : exn)
| Undef (u : ub).
Arguments Undef {S A} u.
Arguments Throw {S A} s e.

Definition obind {S A B} (x : outcome S A) (f : S -> A -> outcome S B) : outcome S B :=
  match x with
  | Ok s a => f s a
  | Throw s e => Throw s e
  | Undef u => Undef u
  end.

(** Lift a pure computation into a call in state [s]. *)
Definition olift {S A B} (s : S) (x : res A) (f : A -> outcome S B) : outcome S B :=
  match x with Val a => f a | Bad u => Undef u end.

(** Change the state type of a call (sub-object inside an object). *)
Definition omap {S1 S2 A} (g : S1 -> S2) (x : outcome S1 A) : outcome S2 A :=
  match x with
  | Ok s a => Ok (g s) a
  | Throw s e => Throw (g s) e
  | Undef u => Undef u
  end.

(** ** Facts about loops and vectors *)

Lemma vget_Val {A} (l : list A) i x : vget l i = Val x <-> nth_error l i = Some x.
Proof.
  unfold vget. destruct (nth_error l i) as [y|]; split; intro H; inversion H; subst; auto.
Qed.

Lemma vget_ok {A} (l : list A) i d : i < length l -> vget l i = Val (nth i l d).
Proof.
  intro H. apply vget_Val. apply nth_error_nth'. exact H.
Qed.

Lemma list_set_length {A} (l : list A) i x : length (list_set l i x) = length l.
Proof. revert i. induction l as [|y l IH]; intros [|i]; simpl; auto. Qed.

Lemma list_set_nth {A} (l : list A) i j x d :
  nth j (list_set l i x) d = if (j =? i) && (i <? length l) then x else nth j l d.
Proof.
  revert i j. induction l as [|y l IH]; intros [|i] [|j]; simpl; auto.
  - destruct (j =? i); reflexivity.
  - rewrite IH. reflexivity.
Qed.

Lemma vset_ok {A} (l : list A) i x : i < length l -> vset l i x = Val (list_set l i x).
Proof. intro H. unfold vset. apply Nat.ltb_lt in H. rewrite H. reflexivity. Qed.

Lemma list_set_firstn {A} (l : list A) i x :
  i < length l -> firstn (S i) (list_set l i x) = firstn i l ++ [x].
Proof.
  revert i. induction l as [|y l IH]; intros [|i] H; simpl in *; try lia; auto.
  f_equal. apply IH. lia.
Qed.

Lemma list_set_firstn_le {A} (l : list A) i j x :
  j <= i -> firstn j (list_set l i x) = firstn j l.
Proof.
  revert i j. induction l as [|y l IH]; intros [|i] [|j] H; simpl; auto; try lia.
  f_equal. apply IH. lia.
Qed.

Lemma list_set_skipn {A} (l : list A) i j x :
  i < j -> skipn j (list_set l i x) = skipn j l.
Proof.
  revert i j. induction l as [|y l IH]; intros [|i] [|j] H; simpl; auto; try lia.
  apply IH. lia.
Qed.

Lemma rfold_app {A B} (f : B -> A -> res A) l1 l2 a :
  rfold f (l1 ++ l2) a = let* b := rfold f l1 a in rfold f l2 b.
Proof.
  revert a. induction l1 as [|x l1 IH]; intro a; simpl; auto.
  destruct (f x a); simpl; auto.
Qed.

Lemma filter_length_le {A} (f : A -> bool) l : length (filter f l) <= length l.
Proof. induction l as [|x l IH]; simpl; auto. destruct (f x); simpl; lia. Qed.

Lemma filter_all {A} (f : A -> bool) l : (forall x, In x l -> f x = true) -> filter f l = l.
Proof.
  induction l as [|a l IH]; simpl; intro H; auto.
  rewrite (H a) by auto. f_equal. apply IH. auto.
Qed.
