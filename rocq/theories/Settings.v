(** * What GTSAM is told

    The settings of [/repo/include/KimeraRPGO/SolverParams.h] that [Params.v] leaves out, because they
    are only handed to GTSAM, what [/repo/src/RobustSolver.cpp] (lines R:n) does with them, and the
    averaging of poses ([gncRobustPoseAveraging], /repo/include/KimeraRPGO/outlier/Pcm.h:1093-1131). *)
From Coq Require Import QArith Qcanon String.
From Verif Require Import Prelude Num Keys KMap Geometry Factors Pcm Params Solver Lie LiePoses.
Set Implicit Arguments.
Local Open Scope nat_scope.

(** [GncParams] (58-77) without the two switches, which are in [Params.v]. *)
Record gnc_settings := GncSettings {
  gs_cost : bool;                (* gnc_threshold_mode_ == COST *)
  gs_limit : double;             (* gnc_inlier_threshold_ *)
  gs_iter : N;                   (* max_iterations_ *)
  gs_mu : double;                (* mu_step_ *)
  gs_rel : double;               (* relative_cost_tol_ *)
  gs_wtol : double }.            (* weights_tol_ *)

(** [MultiRobotAlignMethod] (27-31). *)
Inductive align_method := AlignNone | AlignL2 | AlignGnc.

(** All of [RobustSolverParams]. *)
Record settings := Settings {
  st_params : params;
  st_gnc : gnc_settings;
  st_damping : bool;             (* lm_diagonal_damping *)
  st_align : align_method;       (* multirobot_align_method *)
  st_prob : double;              (* multirobot_align_gnc_prob *)
  st_folder : string }.          (* log_folder *)

(** Defaults (60-68, 82-94). *)
Definition gnc_default : gnc_settings :=
  GncSettings false (dlit 9 10) 100 (dlit 14 10) (dlit 1 100000) (dlit 1 10000).
Definition settings_default : settings :=
  Settings params_default gnc_default true AlignNone (dlit 99 100) EmptyString.

(** Calls of the setters, with arguments that may be left out. *)
Inductive call :=
| CallNoRejection (v : option verbosity)                                              (* 97-100 *)
| CallIncremental                                                                     (* 104 *)
| CallDamping (b : bool)                                                              (* 109-111 *)
| CallPcm (threeD : bool) (odom lc : double) (v : option verbosity)                   (* 119-141 *)
| CallSimple (threeD : bool) (trans rot : double) (v : option verbosity)              (* 148-173 *)
| CallSimple4 (threeD : bool) (ot orr pt pr : double) (v : option verbosity)          (* 180-209 *)
| CallGnc (cost : bool) (limit : double) (iter : option N) (mu rel wtol : option double)
          (fix_prev bias : option bool)                                               (* 213-250 *)
| CallFix                                                                             (* 255 *)
| CallBias                                                                            (* 260 *)
| CallAlign (m : align_method)                                                        (* 264-266 *)
| CallProb (p : double)                                                               (* 270-272 *)
| CallLog (folder : string)                                                           (* 276-279 *)
| CallSolver (gn : bool)                                                              (* public field *)
| CallSpecial (l : list N).                                                           (* public field *)

Definition given {A} (o : option A) (d : A) : A := match o with Some x => x | None => d end.

Definition set_params (st : settings) (s : setter) : settings :=
  Settings (apply_setter (st_params st) s) (st_gnc st) (st_damping st) (st_align st) (st_prob st) (st_folder st).

Definition aligns (m : align_method) : bool := match m with AlignNone => false | _ => true end.

Definition apply_call (st : settings) (c : call) : settings :=
  match c with
  | CallNoRejection v => set_params st (SetNoRejection (given v VUpdate))
  | CallIncremental => set_params st SetIncremental
  | CallDamping b => Settings (st_params st) (st_gnc st) b (st_align st) (st_prob st) (st_folder st)
  | CallPcm d o l v => set_params st (SetPcm d o l (given v VUpdate))
  | CallSimple d t r v => set_params st (SetPcmSimple d t r (given v VUpdate))
  | CallSimple4 d ot orr pt pr v => set_params st (SetPcmSimple4 d ot orr pt pr (given v VUpdate))
  | CallGnc cost x it mu rel wt f b =>
      let st1 := set_params st (SetGnc (given f false) (given b false)) in
      Settings (st_params st1)
        (GncSettings cost x (given it 100%N) (given mu (dlit 14 10)) (given rel (dlit 1 100000)) (given wt (dlit 1 10000)))
        (st_damping st) (st_align st) (st_prob st) (st_folder st)
  | CallFix => set_params st GncFixInliers
  | CallBias => set_params st GncBiasOdom
  | CallAlign m =>
      let st1 := set_params st (SetAlign (aligns m)) in
      Settings (st_params st1) (st_gnc st) (st_damping st) m (st_prob st) (st_folder st)
  | CallProb x => Settings (st_params st) (st_gnc st) (st_damping st) (st_align st) x (st_folder st)
  | CallLog f =>
      let st1 := set_params st LogOutput in
      Settings (st_params st1) (st_gnc st) (st_damping st) (st_align st) (st_prob st) f
  | CallSolver g => set_params st (SetSolver g)
  | CallSpecial l => set_params st (SetSpecial l)
  end.
Definition settings_after (l : list call) : settings := fold_left apply_call l settings_default.

(** Calls on the parameter and optimiser objects of GTSAM. *)
Inductive gtsam_call :=
| TellDamping (b : bool)           (* LevenbergMarquardtParams::diagonalDamping *)
| TellVerbose (gn : bool)          (* setVerbosityLM("SUMMARY"), setVerbosity("ERROR") *)
| TellKnown (l : list nat)         (* setKnownInliers *)
| TellIterations (n : N)           (* setMaxIterations *)
| TellMuStep (x : double)          (* setMuStep *)
| TellRelativeTol (x : double)     (* setRelativeCostTol *)
| TellWeightsTol (x : double)      (* setWeightsTol *)
| TellWeights (w : list Q)         (* setWeights *)
| TellCost (x : double)            (* setInlierCostThresholds *)
| TellProbability (x : double).    (* setInlierCostThresholdsAtProbability *)

(** Everything said before the request [r] is made (R:123-159 with LM, 219-254 with GN); a request
    with known inliers goes to GNC. *)
Definition tells {O} (st : settings) (r : request O) : list gtsam_call :=
  let C := config_of (st_params st) in
  let g := st_gnc st in
  (if c_gn C then [] else [TellDamping (st_damping st)]) ++
  (if c_debug C then [TellVerbose (c_gn C)] else []) ++
  match rq_known r with
  | None => []
  | Some known =>
      [TellKnown known; TellIterations (gs_iter g); TellMuStep (gs_mu g); TellRelativeTol (gs_rel g);
       TellWeightsTol (gs_wtol g)] ++
      (match rq_init r with Some w => [TellWeights w] | None => [] end) ++
      [if gs_cost g then TellCost (gs_limit g) else TellProbability (gs_limit g)]
  end.

(** ** Averaging of poses *)
Section Average.
Variable P : Type.

(** Largest error of an inlier: the largest [double], that of a probability, GTSAM's default. *)
Inductive avg_limit := LimitMax | LimitProb (x : double) | LimitDefault.

(** The problem handed to GNC (1096-1127): initial value, one prior per pose, standard deviations of
    the components of the tangent vectors, limit. *)
Record avg_problem := Avg { av_initial : P; av_poses : list P; av_sigma : nat -> Qc; av_limit : avg_limit }.

Definition rot_sigma : Qc := Q2Qc (1 # 10).      (* 1094 *)
Definition trans_sigma : Qc := Q2Qc (1 # 2).     (* 1095 *)

(** [sigmas.head(r_dim)], then [sigmas.tail(t_dim)] (1103-1106). *)
Definition sigmas (dim r_dim t_dim : nat) (i : nat) : Qc :=
  if dim - t_dim <=? i then trans_sigma else if i <? r_dim then rot_sigma else Q2Qc 0.

Definition average_problem (id : P) (dim r_dim t_dim : nat) (st : settings) (ps : list P) : avg_problem :=
  Avg id ps (sigmas dim r_dim t_dim)
    (match st_align st with AlignL2 => LimitMax | AlignGnc => LimitProb (st_prob st) | AlignNone => LimitDefault end).
End Average.


(** The dimensions (GeometryUtils.h:28-50) of [Pose2] and [Pose3]. *)
Definition average2 := average_problem p2_id 3 1 2.
Definition average3 := average_problem p3_id 6 3 3.
