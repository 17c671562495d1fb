(** * IEEE-754 double precision numbers

    The standard library's [SpecFloat] (executable, axiom free) with precision 53
    and maximal exponent 1024.  Not a number, signed zeros and infinities are
    included, so comparisons behave like the C++ [<] on [double]. *)
From Coq Require Import ZArith Bool Lia.
From Coq Require Export Floats.SpecFloat.

Definition double := spec_float.
Definition dprec : Z := 53.
Definition demax : Z := 1024.

Definition dlt (x y : double) : bool := SFltb x y.
Definition dsqrt (x : double) : double := SFsqrt dprec demax x.
Definition ddiv (x y : double) : double := SFdiv dprec demax x y.
Definition dofZ (z : Z) : double := binary_normalize dprec demax z 0 false.
(** [num / 10^k], the correctly rounded value of a decimal literal when both operands are exact. *)
Definition dlit (num den : Z) : double := ddiv (dofZ num) (dofZ den).
Definition dzero : double := S754_zero false.
Definition dnan : double := S754_nan.

(** [x < 0], as used to switch checks off. *)
Definition dneg (x : double) : bool := dlt x dzero.

(** The sign bit is clear (zero, infinity or finite), or not a number. *)
Definition dnonneg (x : double) : Prop :=
  match x with
  | S754_zero _ => True
  | S754_infinity s => s = false
  | S754_nan => True
  | S754_finite s _ _ => s = false
  end.

Lemma dnonneg_not_lt_zero x : dnonneg x -> dneg x = false.
Proof.
  unfold dneg, dlt, dzero, SFltb. destruct x as [s|s| |s m e]; cbn; intro H; subst; auto.
Qed.

Lemma binary_round_aux_sign prec emax sx mx ex lx :
  match binary_round_aux prec emax sx mx ex lx with
  | S754_zero s => s = sx
  | S754_infinity s => s = sx
  | S754_nan => True
  | S754_finite s _ _ => s = sx
  end.
Proof.
  unfold binary_round_aux.
  destruct (shr_fexp prec emax mx ex lx) as [mrs' e'].
  destruct (shr_fexp prec emax _ e' loc_Exact) as [mrs'' e''].
  destruct (shr_m mrs''); auto. destruct (Zle_bool e'' (emax - prec)); auto.
Qed.

Lemma dsqrt_nonneg x : dnonneg (dsqrt x).
Proof.
  unfold dsqrt, SFsqrt. destruct x as [s|s| |s m e]; cbn [dnonneg]; auto.
  - destruct s; cbn; auto.
  - destruct s; cbn [dnonneg]; auto.
    destruct (SFsqrt_core_binary dprec demax (Zpos m) e) as [[mz ez] lz].
    pose proof (binary_round_aux_sign dprec demax false mz ez lz) as H.
    destruct (binary_round_aux dprec demax false mz ez lz); cbn [dnonneg]; auto.
Qed.

Lemma ddiv_nonneg x y : dnonneg x -> (match y with S754_zero s => s = false | _ => dnonneg y end) ->
  dnonneg (ddiv x y).
Proof.
  unfold ddiv, SFdiv. destruct x as [s|s| |s m e], y as [s'|s'| |s' m' e']; cbn [dnonneg]; intros; subst; auto.
  cbn [xorb].
  destruct (SFdiv_core_binary dprec demax (Zpos m) e (Zpos m') e') as [[mz ez] lz].
  pose proof (binary_round_aux_sign dprec demax false mz ez lz) as H.
  destruct (binary_round_aux dprec demax false mz ez lz); cbn [dnonneg]; auto.
Qed.

Lemma dofZ_nonneg z : (0 <= z)%Z -> match dofZ z with S754_zero s => s = false | d => dnonneg d end.
Proof.
  intro H. unfold dofZ, binary_normalize. destruct z as [|p|p]; [reflexivity| |lia].
  unfold binary_round. destruct (shl_align p 0 _) as [mz ez].
  pose proof (binary_round_aux_sign dprec demax false (Zpos mz) ez loc_Exact) as G.
  destruct (binary_round_aux dprec demax false (Zpos mz) ez loc_Exact); cbn [dnonneg]; auto.
Qed.

Lemma dnonneg_not_lt_any_zero x s : dnonneg x -> dlt x (S754_zero s) = false.
Proof.
  unfold dlt, SFltb. destruct x as [s'|s'| |s' m e]; cbn; intro H; subst; auto.
Qed.
