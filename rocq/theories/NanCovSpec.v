(** * Covariances that are not numbers *)
From Verif Require Import Prelude Num Keys KMap Geometry Factors PcmSpec Lie Floats NanSpec.
Set Implicit Arguments.
Local Open Scope nat_scope.

(** The poses in double precision with the entries of their covariances and the sizes of the two
    blocks, as GeometryUtils.h takes them: [r] rows for rotation, then [t] for translation. *)
Inductive float_geoms : forall G : geom, (g_cov G -> nat -> nat -> double) -> nat -> nat -> Prop :=
| FG3 : float_geoms fgeom3 (fun c => @get ds 6 c) 3 3
| FG2 : float_geoms fgeom2 (fun c => @get ds 3 c) 1 2.

Section Spec.
Variable G : geom.
Variable ent : g_cov G -> nat -> nat -> double.
Variables r t : nat.
Notation bn := (bfactor (g_pose G) (g_cov G)).

(** Not NaN, and not negative: finite or infinite. *)
Definition variance (x : double) : Prop := match x with S754_nan => False | S754_zero _ => True | S754_infinity s | S754_finite s _ _ => s = false end.
(** Nothing is known about rotation; everything is. *)
Definition unsure (c : g_cov G) : Prop := exists k, k < r /\ ent c k k = S754_nan.
Definition sure (c : g_cov G) : Prop := forall k, k < r -> variance (ent c k k).
(** In the translation block. *)
Definition position (i : nat) : Prop := r <= i < r + t.

(** A NaN in the translation block; a NaN anywhere, with known rotation. *)
Definition nan_position (b : bn) : Prop := exists c i j, b_noise b = Gauss c /\ position i /\ position j /\ ent c i j = S754_nan.
Definition nan_somewhere (b : bn) : Prop := exists c i j, b_noise b = Gauss c /\ i < r + t /\ j < r + t /\ ent c i j = S754_nan /\ sure c.
End Spec.
