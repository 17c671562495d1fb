(** * Model of [GenericSolver] and [RobustSolver]

    [/repo/src/RobustSolver.cpp] (lines R:n), [/repo/src/GenericSolver.cpp] (lines G:n) and the
    inline members of [GenericSolver.h] (GH:n) and [RobustSolver.h] (RH:n). Left out: console
    output, timing, the contents of log files (see [Logs.v]).  GNC weights are rationals (rounding of the sum
    at R:170 is not modelled). *)
From Coq Require Import QArith Qround.
From Verif Require Import Prelude Keys KMap UMap Geometry Factors Clique Pcm.
Set Implicit Arguments.
Local Open Scope nat_scope.

Section Solver.
Variable O : tops.
Notation factor := (factor O).
Notation values := (values O).
Notation graph_t := (graph_t O).

(** A call of an optimiser: graph, initial values; for GNC also the known inliers and the
    initial weights if set. *)
Record request := Req {
  rq_graph : graph_t;
  rq_vals : values;
  rq_known : option (list nat);     (* [None]: plain LM/GN *)
  rq_init : option (list Q) }.

(** Its result: new content for each variable and one weight per factor.  Variables keep their
    keys and types (GTSAM optimisers return [Values] with the structure of the initial ones). *)
Record answer := Ans { an_pose : key -> t_pose O; an_other : key -> nat; an_w : nat -> Q }.

(** [so_opt earlier r]: the optimiser's answer to [r] after the [earlier] calls; [None]: it
    throws. *)
Record soracles := SOracles {
  so_pcm : oracles O;
  so_opt : list request -> request -> option answer }.

(** Members of both classes. [s_trace] is a ghost: all optimiser calls so far. *)
Record solver := Sol {
  s_pcm : option (pcm O);        (* outlier_removal_ *)
  s_nfg : graph_t;               (* nfg_ *)
  s_vals : values;               (* values_ *)
  s_tnfg : graph_t;              (* temp_nfg_ *)
  s_tvals : values;              (* temp_values_ *)
  s_w : list Q;                  (* gnc_weights_ *)
  s_tw : list Q;                 (* gnc_temp_weights_ *)
  s_ninl : Z;                    (* gnc_num_inliers_ *)
  s_latest : nat;                (* latest_num_lc_ *)
  s_trace : list request }.

Definition solver_init (with_pcm : bool) : solver :=
  Sol (if with_pcm then Some pcm_init else None) [] [] [] [] [] [] 0 0 [].

Definition set_pnv s p n v := Sol p n v (s_tnfg s) (s_tvals s) (s_w s) (s_tw s) (s_ninl s)
  (s_latest s) (s_trace s).
Definition set_nfg s n := set_pnv s (s_pcm s) n (s_vals s).
Definition set_vals s v := set_pnv s (s_pcm s) (s_nfg s) v.
Definition set_temp s n v := Sol (s_pcm s) (s_nfg s) (s_vals s) n v (s_w s) (s_tw s) (s_ninl s)
  (s_latest s) (s_trace s).
Definition set_weights s w tw n := Sol (s_pcm s) (s_nfg s) (s_vals s) (s_tnfg s) (s_tvals s) w tw n
  (s_latest s) (s_trace s).
Definition set_latest s n := Sol (s_pcm s) (s_nfg s) (s_vals s) (s_tnfg s) (s_tvals s) (s_w s) (s_tw s)
  (s_ninl s) n (s_trace s).
Definition add_trace s r := Sol (s_pcm s) (s_nfg s) (s_vals s) (s_tnfg s) (s_tvals s) (s_w s) (s_tw s)
  (s_ninl s) (s_latest s) (s_trace s ++ [r]).

Variable C : config.
Variable W : soracles.

(** [updateValues] (G:37-45) on [values_] and [temp_values_]. *)
Fixpoint update_values (r : values) (st : values * values) : outcome (values * values) unit :=
  match r with
  | [] => Ok st tt
  | (k, v) :: r' =>
      match kfind k (fst st), kfind k (snd st) with
      | Some v0, _ => if same_type v0 v then update_values r' (kset k v (fst st), snd st)
                      else Throw st (IncorrectType k)
      | None, Some v0 => if same_type v0 v then update_values r' (fst st, kset k v (snd st))
                         else Throw st (IncorrectType k)
      | None, None => update_values r' st
      end
  end.

Definition answer_value (a : answer) (k : key) (v : value O) : value O :=
  match v with VPose _ => VPose (an_pose a k) | VOther _ => VOther (an_other a k) end.
Definition answer_values (a : answer) (vs : values) : values := kmapi (answer_value a) vs.

(** Run an optimiser. *)
Definition call_opt (r : request) (s : solver) : outcome solver answer :=
  match so_opt W (s_trace s) r with
  | None => Throw (add_trace s r) OptimizerFailure
  | Some a => Ok (add_trace s r) a
  end.

Definition num_odom_special (p : pcm O) : nat := length (p_odom p) + length (p_special p).

(** The tail of [optimize] (R:302-305). *)
Definition finish (result : values) (s : solver) : outcome solver unit :=
  match update_values result (s_vals s, s_tvals s) with
  | Ok (v, tv) _ =>
      let s' := set_temp (set_vals s v) (s_tnfg s) tv in
      Ok (match s_pcm s with Some p => set_latest s' (p_total p) | None => s' end) tt
  | Throw (v, tv) e => Throw (set_temp (set_vals s v) (s_tnfg s) tv) e
  | Undef u => Undef u
  end.

(** Graph used when previous inliers are fixed (R:183-196, 271-282): null check, iterator past
    the end, weight index [prev_k + i] outside the vector, [nfg_.at] out of range. *)
Fixpoint fixed_lcs (s : solver) (k : nat) (ws : list Q) (i : nat) : outcome solver graph_t :=
  match ws with
  | [] => Ok s []
  | w :: ws' =>
      obind (if negb (Qle_bool w (1 # 2)) then
               match nth_error (s_nfg s) (k + i) with
               | None => Throw s OutOfRange
               | Some f => Ok s [f]
               end
             else Ok s [])
        (fun _ f => obind (fixed_lcs s k ws' (S i)) (fun _ fs => Ok s (f ++ fs)))
  end.

Definition fixed_graph (s : solver) : outcome solver graph_t :=
  match s_pcm s with
  | None => Undef NullDeref
  | Some p =>
      let k := num_odom_special p in
      if length (s_nfg s) <? k then Undef OutOfBounds
      else if length (s_w s) <? s_latest s then Undef OutOfBounds
      else obind (fixed_lcs s k (skipn (length (s_w s) - s_latest s) (s_w s)) 0)
             (fun _ lcs => Ok s (firstn k (s_nfg s) ++ lcs ++ s_tnfg s))
  end.

(** Is GNC used (R:130-132, 225-227)? *)
Definition gnc_branch (s : solver) : option (pcm O) :=
  match s_pcm s with
  | Some p => if c_gnc C && negb (c_fix C && (p_total p =? s_latest s)) then Some p else None
  | None => None
  end.

Definition ones (n : nat) : list Q := repeat 1%Q n.
Definition qsum (l : list Q) : Q := fold_right Qplus 0%Q l.
Definition init_weights (n k : nat) : list Q := repeat 1%Q k ++ repeat 0%Q (n - k).
(** [static_cast<size_t>(sum) - known.size()] (R:170-171), wrapping. *)
Definition inlier_count (w : list Q) (k : nat) : Z := ((Qfloor (qsum w) - Z.of_nat k) mod size_t_mod)%Z.

(** [optimize] (R:115-306). *)
Definition optimize (s : solver) : outcome solver unit :=
  match vinsert_all (s_tvals s) (s_vals s) with
  | Throw _ e => Throw s e
  | Undef u => Undef u
  | Ok full_vals _ =>
      let full := s_nfg s ++ s_tnfg s in
      match gnc_branch s with
      | Some p =>
          let k := num_odom_special p in
          if c_bias C && (length full <? k) then Undef OutOfBounds
          else
            obind (call_opt (Req full full_vals (Some (seq 0 k))
                       (if c_bias C then Some (init_weights (length full) k) else None)) s)
              (fun s1 a =>
                let all := map (an_w a) (seq 0 (length full)) in
                let w := firstn (length (s_nfg s)) all in
                let tw := skipn (length full - length (s_tnfg s)) all in
                finish (answer_values a full_vals) (set_weights s1 w tw (inlier_count w k)))
      | None =>
          obind (if c_fix C then fixed_graph s else Ok s full) (fun _ g =>
            obind (call_opt (Req g full_vals None None) s) (fun s1 a =>
              if length (s_w s) <? s_latest s then Undef EigenMismatch
              else if length (s_nfg s) <? s_latest s then Undef EigenMismatch
              else
                let w_lc := skipn (length (s_w s) - s_latest s) (s_w s) in
                let w := ones (length (s_nfg s) - s_latest s) ++ w_lc in
                match s_pcm s, c_debug C && negb (c_gn C) with
                | None, true => Undef NullDeref          (* R:213 *)
                | _, _ => finish (answer_values a full_vals)
                            (set_weights s1 w (ones (length (s_tnfg s))) (s_ninl s1))
                end))
      end
  end.

(** [addAndCheckIfOptimize] (G:47-65). *)
Definition add_and_check (fs : graph_t) (vs : values) (s : solver) : outcome solver bool :=
  let s1 := set_nfg s (s_nfg s ++ fs) in
  match vinsert_all vs (s_vals s1) with
  | Throw v e => Throw (set_vals s1 v) e
  | Undef u => Undef u
  | Ok v _ =>
      let s2 := set_vals s1 v in
      match fs with
      | [] => Ok s2 (negb (length vs =? 0))
      | [None] => Undef NullDeref
      | [Some f] => Ok s2 (negb ((length (f_keys f) =? 2) && (length vs =? 1)))
      | _ => Ok s2 true
      end
  end.

(** Outlier removal on the members of the solver. *)
Definition run_pcm (fs : graph_t) (vs : values) (p : pcm O) (s : solver) : outcome solver bool :=
  match remove_outliers C (so_pcm W) fs vs (PSt p (s_nfg s) (s_vals s)) with
  | Ok st b => Ok (set_pnv s (Some (ps_pcm st)) (ps_nfg st) (ps_vals st)) b
  | Throw st e => Throw (set_pnv s (Some (ps_pcm st)) (ps_nfg st) (ps_vals st)) e
  | Undef u => Undef u
  end.

Definition ingest (fs : graph_t) (vs : values) (s : solver) : outcome solver bool :=
  match s_pcm s with
  | Some p => run_pcm fs vs p s
  | None => add_and_check fs vs s
  end.

(** Getters (RH:39-47). *)
Definition get_num_lc (s : solver) : res nat :=
  match s_pcm s with Some p => Val (p_total p) | None => Bad NullDeref end.
Definition get_num_inliers (s : solver) : res Z :=
  if c_gnc C then Val (s_ninl s)
  else match s_pcm s with Some p => Val (Z.of_nat (p_good p)) | None => Bad NullDeref end.
Definition get_ignored (s : solver) : list N :=
  match s_pcm s with Some p => p_ignored p | None => [] end.

(** Does [writeG2o] throw on this graph ([std::invalid_argument] for a between factor without
    Gaussian noise, src/Logger.cpp:117-121 and 138-142)? *)
Definition g2o_throws (g : graph_t) : bool :=
  existsb (fun of => match of with
                     | Some (FBetween b) => match b_noise b with NonGauss => true | Gauss _ => false end
                     | _ => false
                     end) g.

(** Status line and [saveData] (R:323-334, 357-367, 448-465). *)
Definition log_status (s : solver) : outcome solver unit :=
  if c_log C then
    match s_pcm s with
    | None => Undef NullDeref
    | Some _ => if g2o_throws (s_nfg s) then Throw s InvalidArgument else Ok s tt
    end
  else Ok s tt.

(** [update] (R:337-369). *)
Definition update (fs : graph_t) (vs : values) (opt : bool) (s : solver) : outcome solver unit :=
  obind (ingest fs vs s) (fun s1 b =>
  obind (if b && opt then optimize s1 else Ok s1 tt) (fun s2 _ =>
  if opt then log_status s2 else Ok s2 tt)).

(** [forceUpdate] (R:308-335). *)
Definition force_update (fs : graph_t) (vs : values) (s : solver) : outcome solver unit :=
  obind (ingest fs vs s) (fun s1 _ => obind (optimize s1) (fun s2 _ => log_status s2)).

(** [removePriorsWithPrefix] of the base class (G:130-160). *)
Definition keep_prior (c : N) (of : option factor) : bool :=
  match of with
  | Some (FPrior k _) => negb (same_char (chr k) c)
  | Some (FPriorOther k _) => negb (same_char (chr k) c)
  | _ => true
  end.

(** [removePriorFactorsWithPrefix] (R:371-381). *)
Definition remove_priors (c : N) (opt : bool) (s : solver) : outcome solver unit :=
  let s1 :=
    match s_pcm s with
    | Some p => let p' := pcm_remove_priors c p in set_pnv s (Some p') (graph_of (so_pcm W) p') (s_vals s)
    | None => set_nfg s (filter (keep_prior c) (s_nfg s))
    end in
  if opt then optimize s1 else Ok s1 tt.

(** [removeLastFactor] (G:122-128). *)
Definition remove_last_factor (s : solver) : outcome solver (option (key * key)) :=
  match rev (s_nfg s) with
  | [] => Undef OutOfBounds
  | None :: _ => Undef NullDeref
  | Some f :: _ =>
      match f_keys f with
      | [] => Undef OutOfBounds
      | k :: ks => Ok (set_nfg s (removelast (s_nfg s))) (Some (k, last ks k))
      end
  end.

(** A removal by the PCM: the graph is rebuilt only when an edge was removed. *)
Definition lift_removal (s : solver) (x : res (pcm O * option (key * key)))
  : outcome solver (option (key * key)) :=
  match x with
  | Bad u => Undef u
  | Val (p, None) => Ok (set_pnv s (Some p) (s_nfg s) (s_vals s)) None
  | Val (p, Some e) => Ok (set_pnv s (Some p) (graph_of (so_pcm W) p) (s_vals s)) (Some e)
  end.

(** [removeLastLoopClosure] (R:383-408). *)
Definition remove_last_id (a b : N) (s : solver) : outcome solver (option (key * key)) :=
  obind (match s_pcm s with
         | Some p => lift_removal s (pcm_remove_last_id (so_pcm W) (a, b) p)
         | None => remove_last_factor s
         end) (fun s1 e => obind (optimize s1) (fun s2 _ => Ok s2 e)).

Definition remove_last (s : solver) : outcome solver (option (key * key)) :=
  obind (match s_pcm s with
         | Some p => lift_removal s (pcm_remove_last (so_pcm W) p)
         | None => remove_last_factor s
         end) (fun s1 e => obind (optimize s1) (fun s2 _ => Ok s2 e)).

(** [ignorePrefix]/[revivePrefix] (R:410-434). *)
Definition with_pcm (f : pcm O -> pcm O) (s : solver) : solver :=
  match s_pcm s with
  | Some p => set_pnv s (Some (f p)) (graph_of (so_pcm W) (f p)) (s_vals s)
  | None => s
  end.
Definition ignore_prefix (c : N) (s : solver) : outcome solver unit := optimize (with_pcm (pcm_ignore c) s).
Definition revive_prefix (c : N) (s : solver) : outcome solver unit := optimize (with_pcm (pcm_revive c) s).

(** Temporary factors (GH:50-65). *)
Definition temp_update (fs : graph_t) (vs : values) (s : solver) : outcome solver unit :=
  match vinsert_all vs (s_tvals s) with
  | Ok tv _ => Ok (set_temp s (s_tnfg s ++ fs) tv) tt
  | Throw tv e => Throw (set_temp s (s_tnfg s ++ fs) tv) e
  | Undef u => Undef u
  end.
Definition temp_replace (fs : graph_t) (vs : values) (s : solver) : outcome solver unit :=
  Ok (set_temp s fs vs) tt.
Definition temp_clear (s : solver) : outcome solver unit := Ok (set_temp s [] []) tt.

(** ** Histories of calls on a [RobustSolver] *)

Inductive op :=
| OpUpdate (fs : graph_t) (vs : values) (opt : bool)
| OpForce (fs : graph_t) (vs : values)
| OpRemovePriors (c : N) (opt : bool)
| OpRemoveId (a b : N)
| OpRemoveLast
| OpIgnore (c : N)
| OpRevive (c : N)
| OpTempUpdate (fs : graph_t) (vs : values)
| OpTempReplace (fs : graph_t) (vs : values)
| OpTempClear.

(** Returned edge; [None] for calls that return nothing. *)
Definition ret := option (option (key * key)).

Definition no_ret (x : outcome solver unit) : outcome solver ret :=
  obind x (fun s _ => Ok s None).
Definition edge_ret (x : outcome solver (option (key * key))) : outcome solver ret :=
  obind x (fun s e => Ok s (Some e)).

Definition step (o : op) (s : solver) : outcome solver ret :=
  match o with
  | OpUpdate fs vs opt => no_ret (update fs vs opt s)
  | OpForce fs vs => no_ret (force_update fs vs s)
  | OpRemovePriors c opt => no_ret (remove_priors c opt s)
  | OpRemoveId a b => edge_ret (remove_last_id a b s)
  | OpRemoveLast => edge_ret (remove_last s)
  | OpIgnore c => no_ret (ignore_prefix c s)
  | OpRevive c => no_ret (revive_prefix c s)
  | OpTempUpdate fs vs => no_ret (temp_update fs vs s)
  | OpTempReplace fs vs => no_ret (temp_replace fs vs s)
  | OpTempClear => no_ret (temp_clear s)
  end.

(** Runs that stop at the first call that does not return normally. *)
Fixpoint run (ops : list op) (s : solver) : outcome solver (list ret) :=
  match ops with
  | [] => Ok s []
  | o :: ops' => obind (step o s) (fun s1 r => obind (run ops' s1) (fun s2 rs => Ok s2 (r :: rs)))
  end.

(** Runs in which the caller catches every exception and goes on. *)
Fixpoint run_on (ops : list op) (s : solver) : res solver :=
  match ops with
  | [] => Val s
  | o :: ops' =>
      match step o s with
      | Ok s1 _ => run_on ops' s1
      | Throw s1 _ => run_on ops' s1
      | Undef u => Bad u
      end
  end.

(** ** The base class used directly *)

(** [nfg_[index].reset()] (G:76-78, 117-119). *)
Fixpoint reset_slots (idxs : list nat) (g : graph_t) : res graph_t :=
  match idxs with
  | [] => Val g
  | i :: idxs' => let* g' := vset g i None in reset_slots idxs' g'
  end.

(** [GenericSolver::update] (G:67-112). *)
Definition generic_update (fs : graph_t) (vs : values) (rm : list nat) (s : solver) : outcome solver unit :=
  match reset_slots rm (s_nfg s) with
  | Bad u => Undef u
  | Val g =>
      obind (add_and_check fs vs (set_nfg s g)) (fun s1 b =>
        if b || negb (length rm =? 0) then
          match vinsert_all (s_tvals s1) (s_vals s1) with
          | Throw _ e => Throw s1 e
          | Undef u => Undef u
          | Ok full_vals _ =>
              obind (call_opt (Req (s_nfg s1 ++ s_tnfg s1) full_vals None None) s1) (fun s2 a =>
                match update_values (answer_values a full_vals) (s_vals s2, s_tvals s2) with
                | Ok (v, tv) _ => Ok (set_temp (set_vals s2 v) (s_tnfg s2) tv) tt
                | Throw (v, tv) e => Throw (set_temp (set_vals s2 v) (s_tnfg s2) tv) e
                | Undef u => Undef u
                end)
          end
        else Ok s1 tt)
  end.

(** [removeFactorsNoUpdate] (G:114-120). *)
Definition remove_factors_no_update (rm : list nat) (s : solver) : outcome solver unit :=
  match reset_slots rm (s_nfg s) with
  | Bad u => Undef u
  | Val g => Ok (set_nfg s g) tt
  end.

End Solver.

Arguments Sol {O}.
Arguments Req {O}.
Arguments Ans {O}.
Arguments solver_init {O}.
Arguments OpUpdate {O}.
Arguments OpForce {O}.
Arguments OpRemovePriors {O}.
Arguments OpRemoveId {O}.
Arguments OpRemoveLast {O}.
Arguments OpIgnore {O}.
Arguments OpRevive {O}.
Arguments OpTempUpdate {O}.
Arguments OpTempReplace {O}.
Arguments OpTempClear {O}.
