(** * The factors of a call mixed differently *)
From Coq Require Import Permutation.
From Verif Require Import Prelude Keys KMap Geometry Factors Pcm Solver PcmSpec HistSpec.
Set Implicit Arguments.

Section Spec.
Variable O : tops.
Variable sp : list N.

(** The same odometry, the same first sightings, the same candidates for loop closures and the same
    other factors, each in the same order; null slots and factors from a variable to itself as
    anybody likes. *)
Record remixed (vs : values O) (fs fs' : graph_t O) : Prop := {
  rm_empty : fs = [] <-> fs' = [];
  rm_odometry : filter (sp_odometry sp vs) (betweens fs) = filter (sp_odometry sp vs) (betweens fs');
  rm_first : filter (sp_first sp vs) (betweens fs) = filter (sp_first sp vs) (betweens fs');
  rm_candidates : filter (sp_candidate sp vs) (betweens fs) = filter (sp_candidate sp vs) (betweens fs');
  rm_others : others fs = others fs' }.

Definition remixed_op (o o' : op O) : Prop :=
  match o, o' with
  | OpUpdate fs vs opt, OpUpdate fs' vs' opt' => vs = vs' /\ opt = opt' /\ remixed vs fs fs'
  | OpForce fs vs, OpForce fs' vs' => vs = vs' /\ remixed vs fs fs'
  | _, _ => o = o'
  end.

(** The candidates for loop closures may also change places. *)
Record reordered (vs : values O) (fs fs' : graph_t O) : Prop := {
  ro_empty : fs = [] <-> fs' = [];
  ro_odometry : filter (sp_odometry sp vs) (betweens fs) = filter (sp_odometry sp vs) (betweens fs');
  ro_first : filter (sp_first sp vs) (betweens fs) = filter (sp_first sp vs) (betweens fs');
  ro_candidates : Permutation (filter (sp_candidate sp vs) (betweens fs)) (filter (sp_candidate sp vs) (betweens fs'));
  ro_others : others fs = others fs' }.

(** Equal results; of calls that throw only the exceptions are compared. *)
Definition same_end {S A} (x y : outcome S A) : Prop :=
  match x, y with
  | Ok s a, Ok s' a' => s = s' /\ a = a'
  | Throw _ e, Throw _ e' => e = e'
  | Undef u, Undef u' => u = u'
  | _, _ => False
  end.
End Spec.
