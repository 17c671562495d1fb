(** * Properties C17, C19, C20, C28-C32, C35, C36, C40: single calls and optimisations *)
From Coq Require Import QArith Qround.
From Verif Require Import Prelude Num Keys KMap UMap Geometry Factors Clique Pcm Params Solver Grid
  ValuesProofs PcmSpec HistSpec SolverProofs HistProofs PlainProofs GraphProofs UpdateProofs Scenes.
Local Open Scope nat_scope.

(** ** C17 *)
(** [update] calls the optimiser once if asked to and triggered, otherwise not at all, and then
    (without alignment) keeps all existing estimates. *)
Theorem C17_when_update_optimises : forall O C (W : soracles O) fs vs opt s s' p,
  s_pcm s = Some p -> update C W fs vs opt s = Ok s' tt ->
  (sp_triggers (c_special C) vs fs && opt = true -> exists r, s_trace s' = s_trace s ++ [r]) /\
  (sp_triggers (c_special C) vs fs && opt = false -> s_trace s' = s_trace s /\
     (c_align C = false -> forall k v, kfind k (s_vals s) = Some v -> kfind k (s_vals s') = Some v)).
Proof. exact c17. Qed.
Print Assumptions C17_when_update_optimises.

Example C17_example : (* a prior, three odometries, prior and odometry, a closure; then one not to be optimised *)
  map (fun n => after C1 (firstn n (base ++ [lc_good; OpUpdate [bet (ka 0) (ka 3) (fwd 30)] [] false]))
                  (fun s => length (s_trace s))) (seq 0 8)
  = map Some [0; 1; 1; 1; 1; 2; 3; 3].
Proof. vm_compute. reflexivity. Qed.

(** ** C19 *)
(** A call with a value for a known key throws; nothing but the estimates changes, and those only
    gain the values listed before the offending one. *)
Theorem C19_duplicate_value_changes_nothing_else : forall O C (W : soracles O) fs vs s p,
  s_pcm s = Some p -> (exists k, In k (map fst vs) /\ In k (map fst (s_vals s))) ->
  exists pre k x post vs', vs = pre ++ (k, x) :: post /\ vinsert_all pre (s_vals s) = Ok vs' tt /\
    In k (map fst vs') /\
    (forall opt, update C W fs vs opt s = Throw (set_vals s vs') (KeyAlreadyExists k)) /\
    force_update C W fs vs s = Throw (set_vals s vs') (KeyAlreadyExists k).
Proof. exact c19. Qed.
Print Assumptions C19_duplicate_value_changes_nothing_else.

Example C19_example :
  after C1 base (fun s => match update C1 W1 [bet (ka 3) (ka 4) (fwd 10)] [val (ka 4) gp_id; val (ka 3) gp_id] true s with
    | Throw s' e => Some (e, length (s_nfg s'), length (s_nfg s), kmem (ka 4) (s_vals s'))
    | _ => None end) = Some (Some (KeyAlreadyExists (ka 3), 6, 6, true)).
Proof. vm_compute. reflexivity. Qed.

(** Without outlier rejection the factors stay in the graph although the call threw. *)
Theorem C19_duplicate_value_plain_refuted : exists O C (W : soracles O) h s rs fs vs s' k,
  run C W h (solver_init false) = Ok s rs /\ update C W fs vs true s = Throw s' (KeyAlreadyExists k) /\
  s_nfg s' <> s_nfg s.
Proof.
  pose (fs := [bet (ka 0) (ka 1) (fwd 10)]). pose (vs := [val (ka 0) gp_id]).
  destruct (run_check C1 W1 [start_a] false (fun s =>
    match update C1 W1 fs vs true s with
    | Throw s' e => (e, length (s_nfg s'), length (s_nfg s)) = (KeyAlreadyExists (ka 0), 2, 1) | _ => False end))
    as (s & rs & H1 & H2); [vm_compute; reflexivity|].
  destruct (update C1 W1 fs vs true s) as [|s' e|] eqn:E; [destruct H2| |destruct H2].
  exists O1, C1, W1, [start_a], s, rs, fs, vs, s', (ka 0). injection H2 as -> L1 L2.
  split; [exact H1|]. split; [exact E|]. intro X. rewrite X, L2 in L1. discriminate L1.
Qed.

(** ** C20 *)
(** After any history the graph is [pre], then the not-ignored members of a list [acc] of accepted
    loop closures, then [post]; ignoring or reviving a prefix changes nothing but the selection. *)
Theorem C20_ignore_and_revive : forall O C (W : soracles O) h s rs,
  run C W h (solver_init true) = Ok s rs ->
  exists pre acc post,
    s_nfg s = pre ++ map (fun b => Some (FBetween b)) (filter (sp_not_ignored h) acc) ++ post /\
    (forall c s' r, step C W (OpIgnore c) s = Ok s' r ->
       s_nfg s' = pre ++ map (fun b => Some (FBetween b)) (filter (sp_not_ignored (h ++ [OpIgnore c])) acc) ++ post) /\
    (forall c s' r, step C W (OpRevive c) s = Ok s' r ->
       s_nfg s' = pre ++ map (fun b => Some (FBetween b)) (filter (sp_not_ignored (h ++ [OpRevive c])) acc) ++ post).
Proof. exact c20. Qed.
Print Assumptions C20_ignore_and_revive.

Theorem C20_ignore_then_revive_restores : forall O C (W : soracles O) h s rs c s' rs',
  run C W h (solver_init true) = Ok s rs -> sp_ignored h c = false ->
  run C W [OpIgnore c; OpRevive c] s = Ok s' rs' -> s_nfg s' = s_nfg s.
Proof. exact c20_roundtrip. Qed.
Print Assumptions C20_ignore_then_revive_restores.

Theorem C20_ignored_list : forall O C (W : soracles O) h s rs,
  run C W h (solver_init true) = Ok s rs ->
  NoDup (get_ignored s) /\ forall c, In c (get_ignored s) <-> sp_ignored h c = true.
Proof. exact c20_list. Qed.
Print Assumptions C20_ignored_list.

Example C20_example :
  after C1 (base ++ [lc_good; lc_ab 0 0 100; lc_ab 1 1 100; OpIgnore 98; OpIgnore 98])
    (fun s => (keys_of (skipn 6 (s_nfg s)), get_ignored s)) = Some ([[ka 0; ka 3]], [98%N]) /\
  after C1 (base ++ [lc_good; lc_ab 0 0 100; lc_ab 1 1 100; OpIgnore 98; OpIgnore 98; OpRevive 98])
    (fun s => (keys_of (skipn 6 (s_nfg s)), get_ignored s)) =
    Some ([[ka 0; ka 3]; [ka 0; kb 0]; [ka 1; kb 1]], []).
Proof. split; vm_compute; reflexivity. Qed.

(** ** C28 *)
(** The temporary graph is what the temporary calls say; the graph and the estimate never contain
    anything from them; every optimisation works on graph plus temporary graph of its time. *)
Theorem C28_temporaries_stay_temporary : forall O C (W : soracles O) h s rs,
  run C W h (solver_init true) = Ok s rs ->
  s_tnfg s = sp_temps h /\
  (forall f, In (Some f) (s_nfg s) -> delivered h f) /\
  (forall k, In k (map fst (s_vals s)) <-> supplied h k) /\
  forall r, In r (s_trace s) -> c_fix C = false ->
    exists h1 h2 g, h = h1 ++ h2 /\ rq_graph r = g ++ sp_temps h1 /\ forall f, In (Some f) g -> delivered h1 f.
Proof. exact c28_temporary. Qed.
Print Assumptions C28_temporaries_stay_temporary.

Example C28_example :
  after C1 (base ++ [OpTempUpdate [bet (ka 1) (ka 3) (fwd 20)] [val (kc 0) gp_id]; lc_good])
    (fun s => (keys_of (s_nfg s), map fst (s_vals s), option_map (fun r => keys_of (rq_graph r)) (nth_error (s_trace s) 2)))
  = Some ([[ka 0; ka 1]; [ka 1; ka 2]; [ka 2; ka 3]; [kb 0; kb 1]; [ka 0]; [kb 0]; [ka 0; ka 3]],
          [ka 0; ka 1; ka 2; ka 3; kb 0; kb 1],
          Some [[ka 0; ka 1]; [ka 1; ka 2]; [ka 2; ka 3]; [kb 0; kb 1]; [ka 0]; [kb 0]; [ka 0; ka 3]; [ka 1; ka 3]]).
Proof. vm_compute. reflexivity. Qed.

(** ** C29 *)
(** Every GNC call was made after some prefix of the history, on the graph of that time, and its
    known inliers are exactly the positions of odometry and non-between factors. *)
Theorem C29_known_inliers : forall O C (W : soracles O) h s rs r l,
  run C W h (solver_init true) = Ok s rs -> In r (s_trace s) -> rq_known r = Some l ->
  exists h1 h2 lcs, h = h1 ++ h2 /\ c_gnc C = true /\
    rq_graph r = map Some (map FBetween (sp_odoms (c_special C) h1) ++ sp_others h1)
                 ++ map Some (map FBetween lcs) ++ sp_temps h1 /\
    forall i, In i l <-> i < length (sp_odoms (c_special C) h1) + length (sp_others h1).
Proof. exact c29. Qed.
Print Assumptions C29_known_inliers.

Example C29_example :
  after cfg_gnc (base ++ [lc_good; lm_first; lm_again 2 (-15); OpTempUpdate [bet (ka 1) (ka 3) (fwd 20)] []; OpForce [] []])
    (fun s => map (fun r => (length (rq_graph r), rq_known r)) (s_trace s))
  = Some [(1, Some (seq 0 1)); (6, Some (seq 0 6)); (7, Some (seq 0 6)); (9, Some (seq 0 6)); (10, Some (seq 0 6))].
Proof. vm_compute. reflexivity. Qed.

(** ** C30 *)
Theorem C30_weights_match_graph : forall O C (W : soracles O) s s',
  optimize C W s = Ok s' tt ->
  s_nfg s' = s_nfg s /\ s_tnfg s' = s_tnfg s /\
  length (s_w s') = length (s_nfg s') /\ length (s_tw s') = length (s_tnfg s').
Proof. exact c30_lengths. Qed.
Print Assumptions C30_weights_match_graph.

(** With GNC and weight one on the known inliers, the inlier count is the integer part of the sum of
    the other weights. *)
Theorem C30_inlier_count : forall O C (W : soracles O) s s' p,
  optimize C W s = Ok s' tt -> gnc_branch C s = Some p ->
  let k := num_odom_special p in
  k <= length (s_nfg s') -> Forall (fun w => w == 1)%Q (firstn k (s_w s')) ->
  (0 <= Qfloor (qsum (skipn k (s_w s'))) < size_t_mod)%Z ->
  c_gnc C = true /\ get_num_inliers C s' = Val (Qfloor (qsum (skipn k (s_w s')))).
Proof. exact c30_inliers. Qed.
Print Assumptions C30_inlier_count.

Example C30_example : (* six known inliers, two loop closures, weight one for the first of them *)
  match run cfg_gnc (moving 7 gp_id) (base ++ [lc_good; lc_ab 0 0 100]) (solver_init true) with
  | Ok s _ => Some (length (s_nfg s), s_w s, get_num_inliers cfg_gnc s)
  | _ => None
  end = Some (8, [1; 1; 1; 1; 1; 1; 1; 0]%Q, Val 1%Z).
Proof. vm_compute. reflexivity. Qed.

(** ** C31 *)
(** Six mutually inconsistent loop closures in a graph of three factors: the count of loop closures
    exceeds the weight vector, and the next optimisation takes a tail that is too long. *)
Theorem C31_reoptimisation_is_safe_refuted : exists O C (W : soracles O) h s rs,
  c_gnc C = false /\ run C W h (solver_init true) = Ok s rs /\
  step C W (OpForce [] []) s = Undef EigenMismatch.
Proof.
  destruct (run_check C1 W1 [start_a; start_b; clash] true
    (fun s => match step C1 W1 (OpForce [] []) s with Undef EigenMismatch => True | _ => False end))
    as (s & rs & H1 & H2); [vm_compute; exact I|].
  exists O1, C1, W1, [start_a; start_b; clash], s, rs. split; [reflexivity|]. split; [exact H1|].
  destruct (step C1 W1 (OpForce [] []) s) as [| |[]]; try destruct H2; reflexivity.
Qed.
Print Assumptions C31_reoptimisation_is_safe_refuted.

Theorem C31_safe_with_gnc_partial : forall O C (W : soracles O) h s rs u,
  run C W h (solver_init true) = Ok s rs -> c_gnc C = true -> c_fix C = false -> optimize C W s <> Undef u.
Proof. exact c31_gnc. Qed.
Print Assumptions C31_safe_with_gnc_partial.

Theorem C31_safe_without_rejection_partial : forall O C (W : soracles O) h s rs u,
  run C W h (solver_init false) = Ok s rs -> c_fix C = false -> c_debug C && negb (c_gn C) = false ->
  optimize C W s <> Undef u.
Proof. exact c31_plain. Qed.
Print Assumptions C31_safe_without_rejection_partial.

(** ** C32 *)
(** A rejected loop closure shifts the stored weights by one: the closure that GNC gave weight zero is
    fixed as an inlier. *)
Theorem C32_fixed_inliers_refuted : exists O C (W : soracles O) h s rs i f s' r,
  c_gnc C = true /\ c_fix C = true /\ run C W h (solver_init true) = Ok s rs /\
  (exists r0 tr, s_trace s = tr ++ [r0] /\ rq_known r0 <> None) /\
  nth_error (s_nfg s) i = Some (Some f) /\ nth_error (s_w s) i = Some 0%Q /\
  step C W (OpForce [] []) s = Ok s' None /\ s_trace s' = s_trace s ++ [r] /\ rq_known r = None /\
  In (Some f) (rq_graph r) /\ ~ In f (map FBetween (sp_odoms (c_special C) h)) /\ ~ In f (sp_others h).
Proof.
  pose (h := [start_a; start_b; lc_ab 0 0 100; OpUpdate [bet (ka 0) (kb 1) (fwd 500)] [] true]).
  pose (W := moving 3 gp_id). pose (b := nb pp1 (ka 0) (kb 0) (fwd 100)).
  destruct (run_check cfg_fix W h true (fun s =>
     map (@rq_known O1) (s_trace s) = [None; None; Some [0; 1; 2]; Some [0; 1; 2]] /\
     match nth_error (s_nfg s) 3 with Some of => is_bet b of | None => false end = true /\
     nth_error (s_w s) 3 = Some 0%Q /\
     match step cfg_fix W (OpForce [] []) s with
     | Ok s' None => match skipn 4 (s_trace s') with [q] => (rq_known q, existsb (is_bet b) (rq_graph q)) | _ => (None, false) end
     | _ => (None, false) end = (None, true))) as (s & rs & H1 & H2 & H3 & H4 & H5);
    [vm_compute; repeat split|].
  destruct (nth_error (s_nfg s) 3) as [[[g| | |]|]|] eqn:EN; try discriminate H3. cbn [is_bet] in H3.
  apply nb_eqb_eq in H3. subst g.
  destruct (step cfg_fix W (OpForce [] []) s) as [s' [r|]| |] eqn:E; try discriminate H5.
  destruct (s_trace s) as [|q0 [|q1 [|q2 [|q3 [|]]]]] eqn:ET; try discriminate H2.
  destruct (step_inv cfg_fix W _ s (p := match s_pcm s with Some p => p | None => pcm_init end)
     ltac:(destruct (run_synced _ _ _ H1) as (p & -> & _); reflexivity) E)
    as (s1 & p' & b' & _ & _ & (_ & _ & _ & _ & T1) & _ & T2).
  cbn [optimises] in T2. apply optimize_inv in T2. destruct T2 as (q & a & full & Hz).
  pose proof (oz_trace Hz) as T3. rewrite T1, ET in T3. rewrite T3 in H5. cbn [skipn app] in H5.
  injection H5 as H5 H6. apply is_bet_In in H6.
  exists O1, cfg_fix, W, h, s, rs, 3, (FBetween b), s', q. split; [reflexivity|]. split; [reflexivity|].
  split; [exact H1|]. split.
  { exists q3, [q0; q1; q2]. split; [exact ET|]. cbn [map] in H2. injection H2 as _ _ _ H2. rewrite H2. discriminate. }
  split; [exact EN|]. split; [exact H4|]. split; [exact E|].
  split; [rewrite ET; exact T3|]. split; [exact H5|]. split; [exact H6|].
  split; intro H; apply (in_map Some), (is_bet_In b) in H; vm_compute in H; discriminate H.
Qed.
Print Assumptions C32_fixed_inliers_refuted.

(** Or the optimisation ends with an exception. *)
Theorem C32_fixed_inliers_throws_refuted : exists O C (W : soracles O) h s rs s',
  c_gnc C = true /\ c_fix C = true /\ run C W h (solver_init true) = Ok s rs /\
  step C W (OpForce [] []) s = Throw s' OutOfRange.
Proof.
  pose (h := [start_a; start_b; lc_ab 0 0 100; OpUpdate [bet (ka 0) (kb 1) (fwd 500)] [] true]).
  destruct (run_check cfg_fix W1 h true
    (fun s => match step cfg_fix W1 (OpForce [] []) s with Throw _ OutOfRange => True | _ => False end))
    as (s & rs & H1 & H2); [vm_compute; exact I|].
  destruct (step cfg_fix W1 (OpForce [] []) s) as [|s' []|] eqn:E; try destruct H2.
  exists O1, cfg_fix, W1, h, s, rs, s'. auto.
Qed.

(** When the graph holds one loop closure per counted one, exactly those with a weight above one half
    are kept, and the weights of all of them are remembered. *)
Theorem C32_fixed_inliers_partial : forall O C (W : soracles O) s s' p,
  s_pcm s = Some p -> c_fix C = true -> p_total p = s_latest s ->
  length (s_nfg s) = num_odom_special p + s_latest s -> optimize C W s = Ok s' tt ->
  exists r wl, s_trace s' = s_trace s ++ [r] /\ rq_known r = None /\
    wl = skipn (length (s_w s) - s_latest s) (s_w s) /\ length wl = s_latest s /\
    rq_graph r = firstn (num_odom_special p) (s_nfg s) ++
                 kept (skipn (num_odom_special p) (s_nfg s)) wl ++ s_tnfg s /\
    s_w s' = ones (num_odom_special p) ++ wl.
Proof. exact c32_request. Qed.
Print Assumptions C32_fixed_inliers_partial.

Example C32_example :
  match run cfg_fix (moving 7 gp_id) (base ++ [lc_ab 0 0 100; lc_ab 1 1 100; OpForce [] []]) (solver_init true) with
  | Ok s _ => map (fun r => (length (rq_graph r), rq_known r)) (s_trace s)
  | _ => []
  end = [(1, None); (6, None); (7, Some (seq 0 6)); (8, Some (seq 0 6)); (7, None)].
Proof. vm_compute. reflexivity. Qed.

(** ** C35 *)
Theorem C35_no_rejection_refuted : exists O C (W : soracles O) fs vs,
  c_debug C = true /\ update C W fs vs true (solver_init false) = Undef NullDeref.
Proof.
  exists O1, cfg_debug, W1, [pri (ka 0) gp_id], [val (ka 0) gp_id]. split; [reflexivity|].
  apply undef_check. vm_compute. reflexivity.
Qed.
Print Assumptions C35_no_rejection_refuted.

Theorem C35_graph_is_concatenation : forall O C (W : soracles O) h s rs,
  run C W h (solver_init false) = Ok s rs -> (forall o, In o h -> only_adds o = true) -> s_nfg s = sp_all h.
Proof. exact c35_graph. Qed.
Print Assumptions C35_graph_is_concatenation.

(** Without debug messages under LM, logging or fixed inliers, and with new distinct keys, every
    update completes (a single null factor excepted). *)
Theorem C35_updates_complete_partial : forall O C (W : soracles O) h s rs fs vs opt,
  run C W h (solver_init false) = Ok s rs ->
  c_fix C = false -> c_log C = false -> c_debug C && negb (c_gn C) = false ->
  (forall tr r, so_opt W tr r <> None) ->
  NoDup (map fst vs ++ map fst (s_tvals s)) ->
  (forall k, In k (map fst vs ++ map fst (s_tvals s)) -> ~ supplied h k) ->
  fs <> [None] ->
  (exists s', update C W fs vs opt s = Ok s' tt) /\ (exists s', force_update C W fs vs s = Ok s' tt).
Proof. exact c35_completes. Qed.
Print Assumptions C35_updates_complete_partial.

Example C35_example :
  match run C1 W1 (base ++ [lc_good; lc_bad]) (solver_init false) with Ok s _ => Some (keys_of (s_nfg s)) | _ => None end
  = Some [[ka 0]; [ka 0; ka 1]; [ka 1; ka 2]; [ka 2; ka 3]; [kb 0]; [kb 0; kb 1]; [ka 0; ka 3]; [ka 0; ka 2]].
Proof. vm_compute. reflexivity. Qed.

(** ** C36 *)
Theorem C36_force_update_bypasses_refuted : exists O C (W : soracles O) h s rs f s' r,
  run C W h (solver_init true) = Ok s rs /\ step C W (OpForce [Some f] []) s = Ok s' r /\
  ~ In (Some f) (s_nfg s').
Proof.
  pose (b := nb pp1 (ka 0) (ka 2) (fwd 99)).
  destruct (run_check C1 W1 base true (fun s => match step C1 W1 (OpForce [Some (FBetween b)] []) s with
     | Ok s' r => existsb (is_bet b) (s_nfg s') = false | _ => False end)) as (s & rs & H1 & H2);
    [vm_compute; reflexivity|].
  destruct (step C1 W1 (OpForce [Some (FBetween b)] []) s) as [s' r| |] eqn:E; [|destruct H2..].
  exists O1, C1, W1, base, s, rs, (FBetween b), s', r. split; [exact H1|]. split; [exact E|].
  intro H. apply is_bet_In in H. rewrite H in H2. discriminate H2.
Qed.
Print Assumptions C36_force_update_bypasses_refuted.

(** Without outlier rejection it does; with it, all but loop closures get in. *)
Theorem C36_force_update_partial : forall O C (W : soracles O) with_pcm h s rs fs vs s' r f,
  run C W h (solver_init with_pcm) = Ok s rs -> step C W (OpForce fs vs) s = Ok s' r -> In (Some f) fs ->
  with_pcm = false \/ (forall b, f = FBetween b -> sp_odometry (c_special C) vs b = true) ->
  In (Some f) (s_nfg s').
Proof. exact c36. Qed.
Print Assumptions C36_force_update_partial.

(** What it leaves out is exactly what [update] would: in any state, if both complete, they end with
    the same graph and the same members of outlier rejection, so with the same factors rejected.
    They differ in the optimisation alone. *)
Lemma ingested_only O C (W : soracles O) fs vs o s s' r :
  o = OpForce fs vs \/ (exists opt, o = OpUpdate fs vs opt) -> step C W o s = Ok s' r ->
  exists s1 b, ingest C W fs vs s = Ok s1 b /\ s_nfg s' = s_nfg s1 /\ s_pcm s' = s_pcm s1 /\
    s_tnfg s' = s_tnfg s1 /\ (forall k, kmem k (s_vals s') = kmem k (s_vals s1)).
Proof.
  intros Ho H. destruct Ho as [->|[opt ->]]; cbn [step] in H; unfold no_ret, force_update, update in H;
    destruct (ingest C W fs vs s) as [s1 b| |] eqn:E; cbn [obind] in H; try discriminate; exists s1, b; split; auto.
  - destruct (optimize C W s1) as [s2 x| |] eqn:E2; cbn [obind] in H; try discriminate.
    destruct (log_status C s2) as [s3 y| |] eqn:E3; cbn [obind] in H; try discriminate. injection H as <- _.
    apply log_status_inv in E3. subst s3. apply optimize_same in E2. destruct E2 as (A1 & A2 & A3 & A4 & _). auto.
  - assert (K : exists s2 x, (if b && opt then optimize C W s1 else Ok s1 tt) = Ok s2 x /\ s' = s2).
    { destruct (if b && opt then optimize C W s1 else Ok s1 tt) as [s2 x| |]; cbn [obind] in H; try discriminate.
      exists s2, x. split; auto. destruct opt.
      - destruct (log_status C s2) as [s3 y| |] eqn:E3; cbn [obind] in H; try discriminate.
        apply log_status_inv in E3. congruence.
      - cbn [obind] in H. congruence. }
    destruct K as (s2 & x & K & ->). destruct (b && opt).
    + apply optimize_same in K. destruct K as (A1 & A2 & A3 & A4 & _). auto.
    + injection K as <- _. auto.
Qed.
Theorem C36_force_keeps_what_update_keeps : forall O C (W : soracles O) fs vs opt s s1 s2 r1 r2,
  step C W (OpForce fs vs) s = Ok s1 r1 -> step C W (OpUpdate fs vs opt) s = Ok s2 r2 ->
  s_nfg s1 = s_nfg s2 /\ s_pcm s1 = s_pcm s2 /\ s_tnfg s1 = s_tnfg s2 /\
  (forall k, kmem k (s_vals s1) = kmem k (s_vals s2)) /\ get_num_lc s1 = get_num_lc s2 /\
  (c_gnc C = false -> get_num_inliers C s1 = get_num_inliers C s2) /\ get_ignored s1 = get_ignored s2.
Proof.
  intros O C W fs vs opt s s1 s2 r1 r2 H1 H2.
  destruct (@ingested_only O C W fs vs _ s s1 r1 (or_introl eq_refl) H1) as (t1 & b1 & E1 & A1 & A2 & A3 & A4).
  destruct (@ingested_only O C W fs vs _ s s2 r2 (or_intror (ex_intro _ opt eq_refl)) H2) as (t2 & b2 & E2 & B1 & B2 & B3 & B4).
  rewrite E1 in E2. injection E2 as <- <-. assert (P : s_pcm s1 = s_pcm s2) by congruence.
  split; [congruence|]. split; [exact P|]. split; [congruence|].
  split; [intro k; rewrite A4, B4; auto|]. unfold get_num_lc, get_num_inliers, get_ignored. rewrite P.
  split; auto. split; auto. intros ->. auto.
Qed.
Print Assumptions C36_force_keeps_what_update_keeps.

(** Three closures, the middle one an outlier: both leave it out. *)
Example C36_example :
  let fs := [bet (ka 0) (ka 3) (fwd 30); bet (ka 0) (ka 2) (fwd 99); bet (ka 1) (ka 3) (fwd 20)] in
  map (fun o => after C1 (base ++ [o]) (fun s => (keys_of (skipn 6 (s_nfg s)), length (s_trace s))))
    [OpForce fs []; OpUpdate fs [] true; OpUpdate fs [] false]
  = [Some ([[ka 0; ka 3]; [ka 1; ka 3]], 3); Some ([[ka 0; ka 3]; [ka 1; ka 3]], 3); Some ([[ka 0; ka 3]; [ka 1; ka 3]], 2)].
Proof. vm_compute. reflexivity. Qed.

(** ** C40 *)
(** With alignment, an odometry factor of one robot resets optimised poses to dead reckoning. *)
Theorem C40_odometry_only_updates_refuted : exists O C (W : soracles O) h s rs fs vs s' k v,
  run C W h (solver_init true) = Ok s rs /\
  (forall of, In of fs -> exists b, of = Some (FBetween b) /\ sp_odometry (c_special C) vs b = true) /\
  update C W fs vs true s = Ok s' tt /\ kfind k (s_vals s) = Some v /\ kfind k (s_vals s') <> Some v.
Proof.
  pose (h := [start_a; odo_a 0; start_b; lc_ab 0 0 100]). pose (W := moving 99 (fwd 77)).
  pose (fs := [bet (ka 1) (ka 2) (fwd 10)]). pose (vs := [val (ka 2) (fwd 20)]).
  pose (x := fun s : solver O1 => match kfind (ka 1) (s_vals s) with Some (VPose p) => Some (gx p) | _ => None end).
  destruct (run_check cfg_align W h true (fun s => match update cfg_align W fs vs true s with
     | Ok s' _ => (x s, x s') = (Some 77%Z, Some 87%Z) | _ => False end)) as (s & rs & H1 & H2);
    [vm_compute; reflexivity|].
  destruct (update cfg_align W fs vs true s) as [s' []| |] eqn:E; [|destruct H2..]. injection H2 as H2 H3.
  unfold x in H2, H3. destruct (kfind (ka 1) (s_vals s)) as [v|] eqn:EK; [|discriminate H2].
  exists O1, cfg_align, W, h, s, rs, fs, vs, s', (ka 1), v.
  split; [exact H1|]. split.
  { intros of [<-|[]]. eexists. split; [reflexivity|]. vm_compute. reflexivity. }
  split; [exact E|]. split; [exact EK|]. intro X. rewrite X, H2 in H3. discriminate H3.
Qed.
Print Assumptions C40_odometry_only_updates_refuted.

Theorem C40_odometry_only_updates_partial : forall O C (W : soracles O) fs vs opt s s' p,
  s_pcm s = Some p -> c_align C = false ->
  (forall of, In of fs -> exists b, of = Some (FBetween b) /\ sp_odometry (c_special C) vs b = true) ->
  update C W fs vs opt s = Ok s' tt ->
  s_trace s' = s_trace s /\ forall k v, kfind k (s_vals s) = Some v -> kfind k (s_vals s') = Some v.
Proof. exact c40. Qed.
Print Assumptions C40_odometry_only_updates_partial.
