(** * Properties C15, C16, C37, C42: thresholds, setters, robot pairs, the base class *)
From Coq Require Import QArith.
From Verif Require Import Prelude Num Keys KMap UMap Geometry Factors Clique Pcm Params ParamSpec Solver Grid
  PcmSpec PcmProofs PcmInv PcmStore HistSpec SolverProofs HistProofs GraphProofs ParamProofs Scenes.
Local Open Scope nat_scope.

(** ** C15 *)
(** The tests themselves: for every pose type, every pose with uncertainty and every content of the
    covariance, comparing with (either) zero fails. *)
Theorem C15_zero_threshold_test : forall G P (ref : N -> key -> t_T (tops_of G P)) b,
  zero_odom P -> chr (b_from b) = chr (b_to b) -> sp_odom_test ref b <> Some true.
Proof. exact zero_odom_test. Qed.
Print Assumptions C15_zero_threshold_test.

(** So a factor within one robot is only in the graph as odometry or as a landmark observation. *)
Theorem C15_zero_threshold_accepts_nothing : forall G P (W : soracles (tops_of G P)) h s rs b,
  zero_odom P -> odom_check (pr_pcm P) = true ->
  run (config_of P) W h (solver_init true) = Ok s rs ->
  In (Some (FBetween b)) (s_nfg s) -> chr (b_from b) = chr (b_to b) ->
  In b (sp_odoms (pr_special P) h) \/
  sp_landmark (pr_special P) (b_from b) || sp_landmark (pr_special P) (b_to b) = true.
Proof. exact c15. Qed.
Print Assumptions C15_zero_threshold_accepts_nothing.

(** Noise-free loop closure (zero error): out with threshold zero, in with any positive one, for both
    kinds of test. *)
Definition lc_case (maha : bool) (thr : double) : option nat :=
  let P := params_after [if maha then SetPcm false thr (dofZ 5) VQuiet
                         else SetPcmSimple4 false thr (dofZ 1) (dofZ 5) (dofZ 5) VQuiet] in
  if maha then
    let Op := cov_ops grid (pr_pcm P) in
    let odo := fun i => @OpUpdate Op [Some (@FBetween Op (@BF gpose Z (ka i) (ka (i + 1)) (fwd 1) (Gauss 1%Z)))]
                 [(ka (i + 1), @VPose Op (fwd 0))] true in
    match run (config_of P) (plain_soracles Op gp_id)
      [@OpUpdate Op [Some (@FPrior Op (ka 0) gp_id)] [(ka 0, @VPose Op gp_id)] true; odo 0%N; odo 1%N;
       @OpUpdate Op [Some (@FBetween Op (@BF gpose Z (ka 0) (ka 2) (fwd 2) (Gauss 1%Z)))] [] true]
      (solver_init true) with Ok s _ => Some (length (s_nfg s)) | _ => None end
  else
    let Op := node_ops grid (pr_pcm P) in
    let odo := fun i => @OpUpdate Op [Some (@FBetween Op (@BF gpose Z (ka i) (ka (i + 1)) (fwd 1) (Gauss 1%Z)))]
                 [(ka (i + 1), @VPose Op (fwd 0))] true in
    match run (config_of P) (plain_soracles Op gp_id)
      [@OpUpdate Op [Some (@FPrior Op (ka 0) gp_id)] [(ka 0, @VPose Op gp_id)] true; odo 0%N; odo 1%N;
       @OpUpdate Op [Some (@FBetween Op (@BF gpose Z (ka 0) (ka 2) (fwd 2) (Gauss 1%Z)))] [] true]
      (solver_init true) with Ok s _ => Some (length (s_nfg s)) | _ => None end.

Example C15_example :
  map (lc_case true) [dzero; S754_zero true; dlit 1 1000; dofZ (-1)] = [Some 3; Some 3; Some 4; Some 4] /\
  map (lc_case false) [dzero; S754_zero true; dlit 1 1000; dofZ (-1)] = [Some 3; Some 3; Some 4; Some 4].
Proof. split; vm_compute; reflexivity. Qed.

(** ** C16 *)
(** Disabling the checks of one method and then choosing the other with positive thresholds leaves
    both checks off. *)
Theorem C16_parameter_sets_independent_refuted : exists l o lc,
  dneg o = false /\ dneg lc = false /\
  let P := params_after (l ++ [SetPcm true o lc VQuiet]) in
  pr_method P = MPcm3D /\ odom_check (pr_pcm P) = false /\ loop_check (pr_pcm P) = false.
Proof.
  exists [SetPcmSimple true (dofZ (-1)) (dofZ (-1)) VQuiet], (dofZ 1), (dofZ 1). vm_compute. auto 10.
Qed.
Print Assumptions C16_parameter_sets_independent_refuted.

Theorem C16_parameter_sets_independent_simple_refuted : exists l t r,
  dneg t = false /\ dneg r = false /\
  let P := params_after (l ++ [SetPcmSimple true t r VQuiet]) in
  pr_method P = MSimple3D /\ odom_check (pr_pcm P) = false /\ loop_check (pr_pcm P) = false.
Proof.
  exists [SetPcm true (dofZ (-1)) (dofZ (-1)) VQuiet], (dofZ 1), (dofZ 1). vm_compute. auto 10.
Qed.
Print Assumptions C16_parameter_sets_independent_simple_refuted.

(** Exactly: a check is on iff the thresholds last given for both methods are not negative. *)
Theorem C16_checks_enabled : forall l,
  let '(o, lc) := sp_maha l in
  let '((ot, orr), (pt, pr)) := sp_simple l in
  odom_check (pr_pcm (params_after l)) = negb (dneg o) && negb (dneg orr) && negb (dneg ot) /\
  loop_check (pr_pcm (params_after l)) = negb (dneg lc) && negb (dneg pr) && negb (dneg pt).
Proof. exact c16. Qed.
Print Assumptions C16_checks_enabled.

(** Missing from the property: the hypothesis that the other method was never given a negative
    threshold. *)
Theorem C16_parameter_sets_partial : forall l d o lc v,
  (forall s, In s l -> is_simple s = true -> nonneg_setter s) ->
  let P := params_after (l ++ [SetPcm d o lc v]) in
  pr_method P = (if d then MPcm3D else MPcm2D) /\
  odom_check (pr_pcm P) = negb (dneg o) /\ loop_check (pr_pcm P) = negb (dneg lc).
Proof. exact c16_maha. Qed.
Print Assumptions C16_parameter_sets_partial.

Theorem C16_parameter_sets_simple_partial : forall l d ot orr pt pr v,
  (forall s, In s l -> is_maha s = true -> nonneg_setter s) ->
  let P := params_after (l ++ [SetPcmSimple4 d ot orr pt pr v]) in
  pr_method P = (if d then MSimple3D else MSimple2D) /\
  odom_check (pr_pcm P) = negb (dneg ot) && negb (dneg orr) /\
  loop_check (pr_pcm P) = negb (dneg pt) && negb (dneg pr).
Proof. exact c16_simple. Qed.
Print Assumptions C16_parameter_sets_simple_partial.

Example C16_example : (* the hypothesis holds for the two-argument setter and for the defaults *)
  let P := params_after [SetPcmSimple false (dofZ 1) (dofZ 2) VQuiet; SetIncremental; SetPcm true (dofZ (-1)) (dofZ 3) VQuiet] in
  (pr_method P, odom_check (pr_pcm P), loop_check (pr_pcm P), pp_incremental (pr_pcm P)) = (MPcm3D, false, true, true).
Proof. vm_compute. reflexivity. Qed.

(** ** C60: every setting *)

(** After any calls of the setters in any order, the solver is configured as described: a setting
    is what the last setter about it says, a switch is on if some setter turns it on. *)
Theorem C60_settings : forall l, let P := params_after l in let C := config_of P in
  last_said says_method MPcm3D l (pr_method P) /\
  (has_pcm P = false <-> pr_method P = MNone) /\
  last_said says_special [] l (c_special C) /\
  last_said says_align false l (c_align C) /\
  last_said says_fix false l (c_fix C) /\
  last_said says_bias false l (c_bias C) /\
  last_said says_gn false l (c_gn C) /\
  (exists v, last_said says_verbosity VUpdate l v /\ (c_debug C = false <-> v = VQuiet)) /\
  (c_gnc C = true <-> exists f b, In (SetGnc f b) l) /\
  (c_incremental C = true <-> In SetIncremental l) /\
  (c_log C = true <-> In LogOutput l).
Proof. exact settings. Qed.
Print Assumptions C60_settings.

Theorem C60_last_word_unique : forall A (f : setter -> option A) d l v w, last_said f d l v -> last_said f d l w -> v = w.
Proof. exact (@last_said_fun setter). Qed.
Print Assumptions C60_last_word_unique.

(** An option that was switched on does not stay on: [setGncInlierCostThresholds...] without its
    last two arguments switches [gncFixInliers] and [gncBiasOdom] off again. *)
Theorem C60_switched_on_stays_on_refuted : exists l, In GncFixInliers l /\ In GncBiasOdom l /\
  c_gnc (config_of (params_after l)) = true /\ c_fix (config_of (params_after l)) = false /\ c_bias (config_of (params_after l)) = false.
Proof. exists [GncFixInliers; GncBiasOdom; SetGnc false false]. repeat split; (left; reflexivity) || (right; left; reflexivity) || reflexivity. Qed.
Print Assumptions C60_switched_on_stays_on_refuted.

Example C60_example :
  let C := config_of (params_after [SetGnc false true; GncFixInliers; SetPcm false (dofZ 3) (dofZ 4) VQuiet; SetIncremental; SetAlign true; SetPcm true (dofZ 1) (dofZ 2) VVerbose; SetSpecial [108%N]; LogOutput]) in
  (c_special C, c_incremental C, c_align C, c_gnc C, c_fix C, c_bias C, c_debug C, c_log C) = ([108%N], true, true, true, true, true, true, true) /\
  c_debug (config_of (params_after [SetPcm false (dofZ 3) (dofZ 4) VQuiet])) = false /\ c_debug (config_of (params_after [])) = true.
Proof. repeat split; vm_compute; reflexivity. Qed.

(** ** C37 *)
Theorem C37_pairs_unordered : forall a b,
  (oid_eqb a b = true <-> same_pair a b) /\
  oid_eqb a a = true /\ oid_eqb a b = oid_eqb b a /\
  (forall c, oid_eqb a b = true -> oid_eqb b c = true -> oid_eqb a c = true) /\
  (forall h, oid_eqb a b = true -> oid_hash h a = oid_hash h b).
Proof.
  intros a b. split; [apply oid_eqb_spec|]. split; [apply oid_eqb_refl|]. split; [apply oid_eqb_sym|].
  split; [intro c; apply oid_eqb_trans|]. intro h. apply oid_hash_compat.
Qed.
Print Assumptions C37_pairs_unordered.

(** In every reachable state two stored loop closures are in the same container iff they connect the
    same two robots, in whichever direction. *)
Theorem C37_directions_kept_together : forall O C (W : soracles O) h s rs p,
  run C W h (solver_init true) = Ok s rs -> s_pcm s = Some p ->
  forall e e' b b', In e (p_lcs p) -> In e' (p_lcs p) -> In b (me_factors (snd e)) -> In b' (me_factors (snd e')) ->
    (same_pair (chr (b_from b), chr (b_to b)) (chr (b_from b'), chr (b_to b')) <-> e = e').
Proof. exact c37. Qed.
Print Assumptions C37_directions_kept_together.

Example C37_example :
  after C1 (base ++ [lc_good; lc_ab 0 0 100; OpUpdate [bet (kb 1) (ka 1) (fwd (-100))] [] true; lc_ab 1 0 90])
    (fun s => match s_pcm s with
              | Some p => map (fun e => map (fun b => (b_from b, b_to b)) (me_factors (snd e))) (p_lcs p)
              | None => [] end)
  = Some [[(ka 0, ka 3)]; [(ka 0, kb 0); (kb 1, ka 1); (ka 1, kb 0)]].
Proof. vm_compute. reflexivity. Qed.

(** ** C42 *)
(** All listed slots exist and are null afterwards, the other slots keep factor and position, the new
    factors follow; the optimiser runs, once and on graph plus temporary graph, unless nothing was
    removed and the call adds nothing or one two-key factor with one value. *)
Theorem C42_base_update : forall O (W : soracles O) fs vs rm s s',
  generic_update W fs vs rm s = Ok s' tt ->
  (forall i, In i rm -> i < length (s_nfg s)) /\
  length (s_nfg s') = length (s_nfg s) + length fs /\
  (forall i, i < length (s_nfg s) ->
     (In i rm -> nth_error (s_nfg s') i = Some None) /\
     (~ In i rm -> nth_error (s_nfg s') i = nth_error (s_nfg s) i)) /\
  skipn (length (s_nfg s)) (s_nfg s') = fs /\
  (sp_quiet fs vs = true /\ rm = [] ->
     s_trace s' = s_trace s /\ vinsert_all vs (s_vals s) = Ok (s_vals s') tt /\ s_tvals s' = s_tvals s) /\
  (~ (sp_quiet fs vs = true /\ rm = []) -> exists r, s_trace s' = s_trace s ++ [r] /\
     rq_graph r = s_nfg s' ++ s_tnfg s /\ rq_known r = None) /\
  s_pcm s' = s_pcm s /\ s_tnfg s' = s_tnfg s.
Proof. exact c42. Qed.
Print Assumptions C42_base_update.

Theorem C42_remove_by_index : forall O rm (s s' : solver O),
  remove_factors_no_update rm s = Ok s' tt ->
  (forall i, In i rm -> i < length (s_nfg s)) /\ length (s_nfg s') = length (s_nfg s) /\
  (forall i, (In i rm -> nth_error (s_nfg s') i = Some None) /\
             (~ In i rm -> nth_error (s_nfg s') i = nth_error (s_nfg s) i)) /\
  s' = set_nfg s (s_nfg s').
Proof. exact c42_remove. Qed.
Print Assumptions C42_remove_by_index.

Definition generic_runs (l : list (graph_t O1 * values O1 * list nat)) : option (list (list key) * nat) :=
  match fold_left (fun acc '(fs, vs, rm) =>
          match acc with
          | Some s => match generic_update W1 fs vs rm s with Ok s' _ => Some s' | _ => None end
          | None => None
          end) l (Some (solver_init false)) with
  | Some s => Some (keys_of (s_nfg s), length (s_trace s))
  | None => None
  end.

Example C42_example :
  generic_runs [([pri (ka 0) gp_id], [val (ka 0) gp_id], []);                  (* optimises *)
                ([bet (ka 0) (ka 1) (fwd 1)], [val (ka 1) (fwd 1)], []);       (* does not *)
                ([], [], []);                                                  (* does not *)
                ([bet (ka 0) (ka 1) (fwd 1); pri (ka 1) gp_id], [], [1; 0])]   (* optimises *)
  = Some ([[]; []; [ka 0; ka 1]; [ka 1]], 2) /\
  generic_runs [([pri (ka 0) gp_id], [val (ka 0) gp_id], []); ([], [], [1])] = None.   (* no such slot *)
Proof. split; vm_compute; reflexivity. Qed.
