(** * Solver parameters ([/repo/include/KimeraRPGO/SolverParams.h])

    Numerical settings that are only handed to GTSAM (iteration limits, tolerances, damping,
    probabilities) are in [Settings.v]. *)
From Verif Require Import Prelude Num Geometry Pcm.
Set Implicit Arguments.

Inductive method := MNone | MPcm2D | MPcm3D | MSimple2D | MSimple3D.
Inductive verbosity := VUpdate | VQuiet | VVerbose.

(** [RobustSolverParams] (80-305). *)
Record params := Params {
  pr_gn : bool;                 (* solver == GN *)
  pr_method : method;
  pr_special : list N;
  pr_verb : verbosity;
  pr_log : bool;
  pr_pcm : pcm_params;
  pr_align : bool;              (* multirobot_align_method != NONE *)
  pr_gnc : bool;
  pr_fix : bool;
  pr_bias : bool }.

(** Defaults (35-42, 82-94). *)
Definition pcm_params_default : pcm_params :=
  PcmParams (dofZ 10) (dofZ 5) (dlit 5 100) (dlit 5 1000) (dlit 1 100) (dlit 1 1000) false.
Definition params_default : params :=
  Params false MPcm3D [] VUpdate false pcm_params_default false false false false.

(** Setter calls, one constructor per setter (or family of overloads). *)
Inductive setter :=
| SetNoRejection (v : verbosity)                             (* 97-100 *)
| SetIncremental                                             (* 104 *)
| SetPcm (threeD : bool) (odom lc : double) (v : verbosity)  (* 119-126, 134-141 *)
| SetPcmSimple (threeD : bool) (trans rot : double) (v : verbosity)   (* 148-173 *)
| SetPcmSimple4 (threeD : bool) (odom_t odom_r pcm_t pcm_r : double) (v : verbosity) (* 180-209 *)
| SetGnc (fix_prev bias : bool)                              (* 213-250 *)
| GncFixInliers                                              (* 255 *)
| GncBiasOdom                                                (* 260 *)
| SetAlign (on : bool)                                       (* 264-266 *)
| LogOutput                                                  (* 276-279 *)
| SetSolver (gn : bool)                                      (* public field [solver] *)
| SetSpecial (l : list N).                                   (* public field [specialSymbols] *)

Definition set_method (p : params) m v pc : params :=
  Params (pr_gn p) m (pr_special p) v (pr_log p) pc (pr_align p) (pr_gnc p) (pr_fix p) (pr_bias p).

Definition apply_setter (p : params) (s : setter) : params :=
  let q := pr_pcm p in
  match s with
  | SetNoRejection v => set_method p MNone v q
  | SetIncremental =>
      set_method p (pr_method p) (pr_verb p)
        (PcmParams (pp_odom q) (pp_lc q) (pp_odom_trans q) (pp_odom_rot q) (pp_dist_trans q) (pp_dist_rot q) true)
  | SetPcm d o l v =>
      set_method p (if d then MPcm3D else MPcm2D) v
        (PcmParams o l (pp_odom_trans q) (pp_odom_rot q) (pp_dist_trans q) (pp_dist_rot q) (pp_incremental q))
  | SetPcmSimple d t r v =>
      set_method p (if d then MSimple3D else MSimple2D) v
        (PcmParams (pp_odom q) (pp_lc q) t r t r (pp_incremental q))
  | SetPcmSimple4 d ot or_ pt pr v =>
      set_method p (if d then MSimple3D else MSimple2D) v
        (PcmParams (pp_odom q) (pp_lc q) ot or_ pt pr (pp_incremental q))
  | SetGnc f b =>
      Params (pr_gn p) (pr_method p) (pr_special p) (pr_verb p) (pr_log p) q (pr_align p) true f b
  | GncFixInliers =>
      Params (pr_gn p) (pr_method p) (pr_special p) (pr_verb p) (pr_log p) q (pr_align p) (pr_gnc p) true (pr_bias p)
  | GncBiasOdom =>
      Params (pr_gn p) (pr_method p) (pr_special p) (pr_verb p) (pr_log p) q (pr_align p) (pr_gnc p) (pr_fix p) true
  | SetAlign a =>
      Params (pr_gn p) (pr_method p) (pr_special p) (pr_verb p) (pr_log p) q a (pr_gnc p) (pr_fix p) (pr_bias p)
  | LogOutput =>
      Params (pr_gn p) (pr_method p) (pr_special p) (pr_verb p) true q (pr_align p) (pr_gnc p) (pr_fix p) (pr_bias p)
  | SetSolver g =>
      Params g (pr_method p) (pr_special p) (pr_verb p) (pr_log p) q (pr_align p) (pr_gnc p) (pr_fix p) (pr_bias p)
  | SetSpecial l =>
      Params (pr_gn p) (pr_method p) l (pr_verb p) (pr_log p) q (pr_align p) (pr_gnc p) (pr_fix p) (pr_bias p)
  end.

Definition params_after (l : list setter) : params := fold_left apply_setter l params_default.

(** [odom_check_] and [loop_consistency_check_] (outlier/Pcm.h:73-81). *)
Definition odom_check (q : pcm_params) : bool :=
  negb (dneg (pp_odom q) || dneg (pp_odom_rot q) || dneg (pp_odom_trans q)).
Definition loop_check (q : pcm_params) : bool :=
  negb (dneg (pp_lc q) || dneg (pp_dist_rot q) || dneg (pp_dist_trans q)).

(** What the constructors of [RobustSolver] (src/RobustSolver.cpp:29-103) and [Pcm] take from
    the parameters.  [debug_] is true unless the verbosity is [QUIET]. *)
Definition config_of (p : params) : config :=
  Cfg (pr_special p) (odom_check (pr_pcm p)) (loop_check (pr_pcm p)) (pp_incremental (pr_pcm p))
      (pr_align p) (pr_gnc p) (pr_fix p) (pr_bias p) (pr_gn p)
      (match pr_verb p with VQuiet => false | _ => true end) (pr_log p).

(** The template argument [T] of the chosen PCM, over the poses [G]. *)
Definition tops_of (G : geom) (p : params) : tops :=
  match pr_method p with
  | MSimple2D | MSimple3D => node_ops G (pr_pcm p)
  | _ => cov_ops G (pr_pcm p)
  end.

(** Whether a PCM object is created. *)
Definition has_pcm (p : params) : bool := match pr_method p with MNone => false | _ => true end.
