(** * Factors, factor graphs and values *)
From Verif Require Import Prelude Keys KMap Geometry.
Set Implicit Arguments.

Section Factors.
Variable O : tops.

Definition bf := bfactor (t_pose O) (t_cov O).

(** Factors as seen through the dynamic casts of the modelled code: between factors of the
    pose type in use, priors of the pose type in use, priors of the other pose type
    ([GenericSolver] deletes both Pose2 and Pose3 priors, the PCM only its own), and any
    other factor with its key list and an identity tag. *)
Inductive factor :=
| FBetween (b : bf)
| FPrior (k : key) (p : t_pose O)
| FPriorOther (k : key) (tag : nat)
| FOther (ks : list key) (tag : nat).

Definition f_keys (f : factor) : list key :=
  match f with
  | FBetween b => [b_from b; b_to b]
  | FPrior k _ => [k]
  | FPriorOther k _ => [k]
  | FOther ks _ => ks
  end.

(** [gtsam::NonlinearFactorGraph]: slots may be null. *)
Definition graph_t := list (option factor).

(** Entries of [gtsam::Values]: a pose of the pose type in use, or anything else. *)
Inductive value :=
| VPose (p : t_pose O)
| VOther (tag : nat).

Definition values := kmap value.

Definition same_type (a b : value) : bool :=
  match a, b with VPose _, VPose _ => true | VOther _, VOther _ => true | _, _ => false end.

(** [Values::insert(const Values&)]: key by key in key order; the entries before the first
    duplicate stay inserted when it throws. *)
Fixpoint vinsert_all (news : values) (vs : values) : outcome values unit :=
  match news with
  | [] => Ok vs tt
  | (k, v) :: news' =>
      if kmem k vs then Throw vs (KeyAlreadyExists k) else vinsert_all news' (kset k v vs)
  end.

(** [Values::update(const Values&)]: key by key; a missing key or a different type throws. *)
Fixpoint vupdate_all (news : values) (vs : values) : outcome values unit :=
  match news with
  | [] => Ok vs tt
  | (k, v) :: news' =>
      match kfind k vs with
      | None => Throw vs (KeyDoesNotExist k)
      | Some v0 => if same_type v0 v then vupdate_all news' (kset k v vs)
                   else Throw vs (IncorrectType k)
      end
  end.

End Factors.

Arguments FBetween {O} b.
Arguments FPrior {O} k p.
Arguments FPriorOther {O} k tag.
Arguments FOther {O} ks tag.
Arguments VPose {O} p.
Arguments VOther {O} tag.
