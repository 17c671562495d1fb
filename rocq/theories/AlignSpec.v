(** * Specification: multi-robot alignment of the initial values *)
From Verif Require Import Prelude Keys KMap UMap Geometry Factors Clique Pcm Solver PcmSpec HistSpec StoreSpec.
Set Implicit Arguments.
Local Open Scope N_scope.

Section Spec.
Variable O : tops.
Variable C : config.
Notation bf := (bf O).
Notation pose := (t_pose O).
Notation pcm := (pcm O).
Notation op := (op O).
Notation sp := (c_special C).

(** The odometric pose of a key: what the trajectory of the robot named by its prefix holds. *)
Definition odo_pose (p : pcm) (k : key) : option pose :=
  match ufind N.eqb (chr k) (p_trajs p) with
  | Some tr => option_map (t_getpose O) (kfind k tr)
  | None => None
  end.

(** Where a loop closure between robots [r0] and another says the frame of the other lies in that of
    [r0]: the odometric pose at the end on [r0], then the measurement towards the other end, then
    back along the odometry of the other robot. *)
Definition frame_says (p : pcm) (r0 : N) (b : bf) : option pose :=
  let at0 := if chr (b_from b) =? r0 then odo_pose p (b_from b) else odo_pose p (b_to b) in
  let at1 := if chr (b_from b) =? r0 then odo_pose p (b_to b) else odo_pose p (b_from b) in
  let m := if chr (b_from b) =? r0 then b_meas b else t_pinv O (b_meas b) in
  match at0, at1 with
  | Some x, Some y => Some (t_pcomp O (t_pcomp O x m) (t_pinv O y))
  | _, _ => None
  end.

(** All elements, if every one is there. *)
Fixpoint all_of {A} (l : list (option A)) : option (list A) :=
  match l with
  | [] => Some []
  | Some x :: l' => option_map (cons x) (all_of l')
  | None :: _ => None
  end.

(** The transform of another robot: the average of what the closures accepted between the two robots
    say.  [None] (not moved): no closure between the two robots was ever recorded, or one of the
    accepted ones ends at a key without odometric pose. *)
Definition frame_of (w : oracles O) (p : pcm) (r0 c : N) : option pose :=
  match ufind oid_eqb (r0, c) (p_lcs p) with
  | None => None
  | Some m => match all_of (map (frame_says p r0) (me_cons m)) with Some ts => w_avg w ts | None => None end
  end.

(** The pose a key of the robot gets. *)
Definition placed (p : pcm) (tf : pose) (k : key) : option (value O) :=
  option_map (fun x => VPose (t_pcomp O tf x)) (odo_pose p k).

(** New value of a key; [None]: the one it had. *)
Definition moved_to (w : oracles O) (p : pcm) (r0 : N) (rs : list N) (k : key) : option (value O) :=
  if chr k =? r0 then placed p (t_pid O) k
  else if in_dec N.eq_dec (chr k) rs
       then match frame_of w p r0 (chr k) with Some tf => placed p tf k | None => None end
       else None.

(** The values a call works with: what it returns, or, if it optimises, what the optimiser is given. *)
Definition working_values (s s' : solver O) (v : values O) : Prop :=
  (s_trace s' = s_trace s /\ s_vals s' = v) \/
  exists r, s_trace s' = s_trace s ++ [r] /\ forall k x, kfind k v = Some x -> kfind k (rq_vals r) = Some x.

(** The other end of a landmark observation. *)
Definition observer (b : bf) : key := if sp_landmark sp (b_from b) then b_to b else b_from b.

(** Histories in which consecutive keys joined by a measurement belong to one robot, its prefix is
    below 128, and no landmark is observed by two robots. *)
Definition tidy (h : list op) : Prop :=
  (forall b, delivered h (FBetween b) -> b_to b = (b_from b + 1) mod 2 ^ 64 ->
     chr (b_from b) = chr (b_to b) /\ chr (b_from b) < 128) /\
  (forall x y, delivered h (FBetween x) -> delivered h (FBetween y) -> sp_lmk C x = true -> sp_lmk C y = true ->
     sp_landmark_key sp x = sp_landmark_key sp y -> chr (observer x) = chr (observer y)).

End Spec.

(** Laws of pose composition. *)
Record tgroup (O : tops) : Prop := {
  tg_assoc : forall a b c, t_pcomp O a (t_pcomp O b c) = t_pcomp O (t_pcomp O a b) c;
  tg_id_l : forall a, t_pcomp O (t_pid O) a = a;
  tg_inv_l : forall a, t_pcomp O (t_pinv O a) a = t_pid O }.
