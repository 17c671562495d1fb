(** * Measurements that are not numbers *)
From Verif Require Import Prelude Num Keys KMap Geometry Factors PcmSpec Lie Floats.
Set Implicit Arguments.
Local Open Scope nat_scope.

(** Some coordinate of the translation, or any entry of the pose, is NaN. *)
Definition lost3 (p : se3 ds) : Prop := exists i, i < 3 /\ at_ (e_t p) i = S754_nan.
Definition nan3 (p : se3 ds) : Prop := lost3 p \/ exists i j, i < 3 /\ j < 3 /\ get (e_R p) i j = S754_nan.
Definition lost2 (p : se2 ds) : Prop := e_x p = S754_nan \/ e_y p = S754_nan.
Definition nan2 (p : se2 ds) : Prop := lost2 p \/ e_c p = S754_nan \/ e_s p = S754_nan.

(** No odometry test and no pairwise test with any other closure, in either order and whatever the
    reference poses, is passed; no test of two sightings. *)
Definition fails_odom {O : tops} (b : bf O) : Prop := forall ref, sp_odom_test ref b <> Some true.
Definition fails_pairwise {O : tops} (b : bf O) : Prop :=
  forall ref b', sp_loop_test ref b b' <> Some true /\ sp_loop_test ref b' b <> Some true.
Definition fails_sightings {O : tops} (b : bf O) : Prop :=
  forall ref b', sp_lm_test ref b b' <> Some true /\ sp_lm_test ref b' b <> Some true.

(** The transforms of Pcm in double precision: 3D and 2D poses, with counters or with covariances. *)
Inductive in_doubles : forall O : tops, (t_pose O -> Prop) -> (t_pose O -> Prop) -> Prop :=
| ID3n pp : in_doubles (node_ops fgeom3 pp) nan3 lost3
| ID3c pp : in_doubles (cov_ops fgeom3 pp) nan3 lost3
| ID2n pp : in_doubles (node_ops fgeom2 pp) nan2 lost2
| ID2c pp : in_doubles (cov_ops fgeom2 pp) nan2 lost2.
