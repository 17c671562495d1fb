(** * Running the project's own tests on the model

    /repo/tests contains unit tests with the outcomes its authors expect of the real program.  The
    files [Replay*.v] run them on the model with poses in [double] ([Floats.v]).  This compares the
    model with the code; it proves no property.

    A test is a list of calls and looks at the state.  The optimiser is not modelled: here it
    leaves every pose where it is, and GNC gives the weights stated with each test, so expectations
    about optimised poses are left out. *)
From Coq Require Import ZArith QArith Bool List.
From Verif Require Import Prelude Num Keys KMap UMap Geometry Factors Clique Pcm Params Solver Lie Floats.
Set Implicit Arguments.
Local Open Scope nat_scope.

(** ** Poses *)
Definition dz (z : Z) : double := dofZ z.
(** [num / den]. *)
Definition dq (num den : Z) : double := dlit num den.
Definition mat3 (a b c d e f g h i : double) : mat ds 3 :=
  ((a, (b, (c, tt))), ((d, (e, (f, tt))), ((g, (h, (i, tt))), tt))).
Definition intmat (a b c d e f g h i : Z) : mat ds 3 :=
  mat3 (dz a) (dz b) (dz c) (dz d) (dz e) (dz f) (dz g) (dz h) (dz i).
Definition rot_id : mat ds 3 := @mone ds 3.
(** [Rot3::Rz] on [[-4, 4]]. *)
Definition rot_z (a : double) : mat ds 3 :=
  let h := dhalf a in
  let s := dtwice (dmul (dsin h) (dcos h)) in
  let c := dsub (dmul (dcos h) (dcos h)) (dmul (dsin h) (dsin h)) in
  mat3 c (dopp s) dzero s c dzero dzero dzero done.
(** [Rot3(w, x, y, z)]. *)
Definition rot_q (w x y z : double) : mat ds 3 :=
  let n := dadd (dadd (dmul w w) (dmul x x)) (dadd (dmul y y) (dmul z z)) in
  let p a b := ddiv (dtwice (dmul a b)) n in
  let q a b c d := ddiv (dsub (dadd (dmul a a) (dmul b b)) (dadd (dmul c c) (dmul d d))) n in
  mat3 (q w x y z) (dsub (p x y) (p w z)) (dadd (p x z) (p w y))
       (dadd (p x y) (p w z)) (q w y x z) (dsub (p y z) (p w x))
       (dsub (p x z) (p w y)) (dadd (p y z) (p w x)) (q w z x y).
Definition pose (R : mat ds 3) (x y z : double) : se3 ds := SE3 R (vec3 x y z : cvec ds 3).
Definition shift (x y z : Z) : se3 ds := pose rot_id (dz x) (dz y) (dz z).
Definition id3 : se3 ds := @se3_id ds.
(** [assert_equal]: entries closer than a tolerance. *)
Definition near (tol x y : double) : bool := dlt (SFabs (dsub x y)) tol.
Definition near3 (tol : double) (p q : se3 ds) : bool :=
  forallb (fun i => forallb (fun j => near tol (get (e_R p) i j) (get (e_R q) i j)) (seq 0 3)) (seq 0 3) &&
  forallb (fun i => near tol (at_ (e_t p) i) (at_ (e_t q) i)) (seq 0 3).
Definition near_cov (tol : double) (c d : mat ds 6) : bool :=
  forallb (fun i => forallb (fun j => near tol (get c i j) (get d i j)) (seq 0 6)) (seq 0 6).
Definition tol9 : double := dq 1 1000000000.

(** ** Noise *)
Definition fdiag (l : list double) : mat ds 6 := @tab ds 6 (fun i j => if i =? j then nth i l dzero else dzero).
(** [Isotropic::Variance(6, v)]. *)
Definition iso (v : double) : noise (mat ds 6) := Gauss (fdiag (repeat v 6)).
(** [Diagonal::Precisions] with no rotation precision, translation precision [p]: solving with the
    zero pivots yields NaN in the rows and columns of the rotation. *)
Definition no_rot (p : double) : noise (mat ds 6) :=
  Gauss (@tab ds 6 (fun i j => if (i <? 3) || (j <? 3) then dnan else if i =? j then ddiv done p else dzero)).

(** ** Graphs and values of a solver or PCM with the chosen parameters *)
Section Play.
Variable O : tops.
Variable E : t_pose O = se3 ds.
Variable D : t_cov O = mat ds 6.
Let up (p : se3 ds) : t_pose O := eq_rect_r (fun T => T) p E.
Let down (p : t_pose O) : se3 ds := eq_rect _ (fun T => T) p _ E.
Let cup (n : noise (mat ds 6)) : noise (t_cov O) := eq_rect_r noise n D.

Definition between (a b : key) (p : se3 ds) (n : noise (mat ds 6)) : option (factor O) := Some (FBetween (BF a b (up p) (cup n))).
Definition prior (a : key) (p : se3 ds) : option (factor O) := Some (FPrior a (up p)).
Definition range (a b : key) : option (factor O) := Some (FOther [a; b] 0).
Definition poses (l : list (key * se3 ds)) : values O := fold_left (fun m p => kset (fst p) (VPose (up (snd p))) m) l [].
Definition number (k : key) (m : values O) : values O := kset k (VOther 0) m.

(** The pose averaging of the tests has equal poses to average. *)
Definition still_pcm : oracles O := Oracles O (fun _ _ => 0) (fun _ _ => 0) (fun l => hd_error l) (fun _ a => a).
Definition still (weight : nat -> Q) : soracles O :=
  SOracles still_pcm (fun _ r =>
     Some (Ans (fun k => match kfind k (rq_vals r) with Some (VPose p) => p | _ => t_pid O end)
               (fun k => match kfind k (rq_vals r) with Some (VOther t) => t | _ => 0 end) weight)).

(** Calls of [removeOutliers], each followed by a look at the result. *)
Fixpoint feed (C : config) (l : list (graph_t O * values O * (pst O -> bool -> bool))) (s : pst O) : bool :=
  match l with
  | [] => true
  | (fs, vs, look) :: l' =>
      match remove_outliers C still_pcm fs vs s with
      | Ok s' b => look s' b && feed C l' s'
      | _ => false
      end
  end.
Definition fresh_pcm : pst O := PSt (@pcm_init O) [] [].
Definition sizes (n e : nat) (s : pst O) (_ : bool) : bool := (length (ps_nfg s) =? n) && (length (ps_vals s) =? e).
Definition expect (n e : nat) (opt : bool) (s : pst O) (b : bool) : bool := sizes n e s b && Bool.eqb b opt.
Definition any (_ : pst O) (_ : bool) : bool := true.
Definition pose_at (vs : values O) (k : key) (p : se3 ds) : bool :=
  match kfind k vs with Some (VPose q) => near3 (dq 1 1000000) (down q) p | _ => false end.

(** Calls on a [RobustSolver] and looks at its state. *)
Inductive item := Call (o : op O) (r : ret -> bool) | Look (f : solver O -> bool).
Fixpoint play (C : config) (W : soracles O) (l : list item) (s : solver O) : bool :=
  match l with
  | [] => true
  | Call o r :: l' => match step C W o s with Ok s' x => r x && play C W l' s' | _ => false end
  | Look f :: l' => f s && play C W l' s
  end.
Definition do (o : op O) : item := Call o (fun _ => true).
Definition update_with (fs : graph_t O) (vs : values O) : item := do (OpUpdate fs vs true).
Definition removes (a b : key) (r : ret) : bool :=
  match r with Some (Some (x, y)) => ((x =? a) && (y =? b))%N | _ => false end.
Definition holds (n e : nat) : item := Look (fun s => (length (s_nfg s) =? n) && (length (s_vals s) =? e)).
Definition temp_holds (n : nat) : item := Look (fun s => length (s_tnfg s) =? n).
Definition ignores (l : list N) : item := Look (fun s => if list_eq_dec N.eq_dec (get_ignored s) l then true else false).
Definition inliers_are (C : config) (z : Z) : item := Look (fun s => match get_num_inliers C s with Val x => (x =? z)%Z | Bad _ => false end).
(** [weights.size() == n], [weights.segment(i, k).sum() == q], [weights.sum() == t]. *)
Definition weights_are (n i k : nat) (q t : Q) : item :=
  Look (fun s => (length (s_w s) =? n) && Qeq_bool (fold_right Qplus 0%Q (firstn k (skipn i (s_w s)))) q
                 && Qeq_bool (fold_right Qplus 0%Q (s_w s)) t).
Definition weights_size (n : nat) : item := Look (fun s => length (s_w s) =? n).
End Play.

(** [PcmParams] with given thresholds; the rest default (SolverParams.h:35-42). *)
Definition pcm_thresholds (odom lc : double) (incr : bool) : pcm_params :=
  let d := pcm_params_default in PcmParams odom lc (pp_odom_trans d) (pp_odom_rot d) (pp_dist_trans d) (pp_dist_rot d) incr.
Definition simple_thresholds (ot or_ dt dr : double) : pcm_params :=
  let d := pcm_params_default in PcmParams (pp_odom d) (pp_lc d) ot or_ dt dr false.
(** [new Pcm3D(params, align, 0.0, special)]. *)
Definition pcm_config (special : list N) (align : bool) (q : pcm_params) : config :=
  Cfg special (odom_check q) (loop_check q) (pp_incremental q) align false false false false false false.

Definition turn_left : mat ds 3 := intmat 0 (-1) 0 1 0 0 0 0 1.
Definition turn_right : mat ds 3 := intmat 0 1 0 (-1) 0 0 0 0 1.
Definition turn_back : mat ds 3 := intmat (-1) 0 0 0 (-1) 0 0 0 1.
Definition ahead (R : mat ds 3) : se3 ds := pose R (dz 1) dzero dzero.
Definition ca : N := 97. Definition cb : N := 98. Definition cc : N := 99. Definition cl : N := 108. Definition cu : N := 117.

(** Fails to compile unless the test evaluates to [true].  It leaves no proof behind: the tests are
    run when the file is compiled and claim nothing. *)
Ltac passes t := let r := eval vm_compute in t in match r with true => exact I end.
Fail Check (ltac:(passes false) : True).
