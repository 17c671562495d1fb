(** * What the setters say: specification *)
From Verif Require Import Prelude Num Geometry Pcm Params.
Set Implicit Arguments.

(** [v] is what the last of the setters that say something ([f]) says, or the default. *)
Definition last_said {X A} (f : X -> option A) (d : A) (l : list X) (v : A) : Prop :=
  (exists l1 s l2, l = l1 ++ s :: l2 /\ f s = Some v /\ Forall (fun x => f x = None) l2) \/
  (Forall (fun x => f x = None) l /\ v = d).

Definition says_method (s : setter) : option method :=
  match s with
  | SetNoRejection _ => Some MNone
  | SetPcm d _ _ _ => Some (if d then MPcm3D else MPcm2D)
  | SetPcmSimple d _ _ _ | SetPcmSimple4 d _ _ _ _ _ => Some (if d then MSimple3D else MSimple2D)
  | _ => None
  end.
Definition says_verbosity (s : setter) : option verbosity :=
  match s with
  | SetNoRejection v | SetPcm _ _ _ v | SetPcmSimple _ _ _ v | SetPcmSimple4 _ _ _ _ _ v => Some v
  | _ => None
  end.
Definition says_fix (s : setter) : option bool :=
  match s with SetGnc f _ => Some f | GncFixInliers => Some true | _ => None end.
Definition says_bias (s : setter) : option bool :=
  match s with SetGnc _ b => Some b | GncBiasOdom => Some true | _ => None end.
Definition says_align (s : setter) : option bool := match s with SetAlign a => Some a | _ => None end.
Definition says_gn (s : setter) : option bool := match s with SetSolver g => Some g | _ => None end.
Definition says_special (s : setter) : option (list N) := match s with SetSpecial l => Some l | _ => None end.
