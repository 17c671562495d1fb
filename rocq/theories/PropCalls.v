(** * Properties C28 and C46: what temporary factors and optimisations cannot change *)
From Coq Require Import Permutation QArith.
From Verif Require Import Prelude Keys KMap UMap Geometry Factors Clique Pcm Solver Grid PcmSpec HistSpec
  AlgProofs PropTraj CallsSpec CallsProofs MoveProofs Scenes.
Local Open Scope nat_scope.

(** ** C46 *)
(** Two histories that hand over the same factors, values and removals, with whatever optimisers,
    optimisation flags and temporary factors, leave the same outlier rejection, the same graph and
    the same variables, and their removals report the same edges. *)
Theorem C46_calls_decide_the_graph : forall O C (W1 W2 : soracles O) h1 h2 s1 s2 rs1 rs2,
  so_pcm W1 = so_pcm W2 -> same_calls h1 h2 -> starts_supplied (c_special C) h1 ->
  run C W1 h1 (solver_init true) = Ok s1 rs1 -> run C W2 h2 (solver_init true) = Ok s2 rs2 ->
  s_pcm s1 = s_pcm s2 /\ s_nfg s1 = s_nfg s2 /\ map fst (s_vals s1) = map fst (s_vals s2) /\
  reported rs1 = reported rs2.
Proof. exact calls_decide. Qed.
Print Assumptions C46_calls_decide_the_graph.

(** Nor does it matter in which order the hash maps are iterated: the factors are then the same
    up to their order. *)
Theorem C46_any_iteration_order : forall O C (W1 W2 : soracles O) h1 h2 s1 s2 rs1 rs2,
  w_freed (so_pcm W1) = w_freed (so_pcm W2) -> same_calls h1 h2 -> starts_supplied (c_special C) h1 ->
  run C W1 h1 (solver_init true) = Ok s1 rs1 -> run C W2 h2 (solver_init true) = Ok s2 rs2 ->
  s_pcm s1 = s_pcm s2 /\ Permutation (s_nfg s1) (s_nfg s2) /\ map fst (s_vals s1) = map fst (s_vals s2) /\
  reported rs1 = reported rs2.
Proof. exact calls_decide_order. Qed.
Print Assumptions C46_any_iteration_order.

(** The same for histories in which a robot's first variable got its value in an earlier call, as
    long as they stay on the odometry; the reference poses may then differ, by one displacement
    per robot. *)
Theorem C46_tracks_decide_the_graph : forall G, pose_group G -> forall pp C (W1 W2 : soracles (node_ops G pp)) h1 h2 s1 s2 rs1 rs2,
  so_pcm W1 = so_pcm W2 -> same_calls h1 h2 -> along_tracks (c_special C) h1 ->
  run C W1 h1 (solver_init true) = Ok s1 rs1 -> run C W2 h2 (solver_init true) = Ok s2 rs2 ->
  s_nfg s1 = s_nfg s2 /\ map fst (s_vals s1) = map fst (s_vals s2) /\ reported rs1 = reported rs2.
Proof. exact tracks_decide_node. Qed.
Print Assumptions C46_tracks_decide_the_graph.

Theorem C46_tracks_decide_the_graph_cov : forall G, pose_group G -> forall pp C (W1 W2 : soracles (cov_ops G pp)) h1 h2 s1 s2 rs1 rs2,
  so_pcm W1 = so_pcm W2 -> same_calls h1 h2 -> along_tracks (c_special C) h1 ->
  run C W1 h1 (solver_init true) = Ok s1 rs1 -> run C W2 h2 (solver_init true) = Ok s2 rs2 ->
  s_nfg s1 = s_nfg s2 /\ map fst (s_vals s1) = map fst (s_vals s2) /\ reported rs1 = reported rs2.
Proof. exact tracks_decide_cov. Qed.
Print Assumptions C46_tracks_decide_the_graph_cov.

(** An optimiser that puts a variable where the last prior on it says. *)
Definition last_prior (k : key) (g : graph_t O1) (x : gpose) : gpose :=
  fold_left (fun acc of => match of with Some (FPrior k' y) => if (k' =? k)%N then y else acc | _ => acc end) g x.
Definition W_prior : soracles O1 :=
  @SOracles O1 (plain_oracles O1 gp_id)
    (fun _ r => Some (Ans (O := O1)
       (fun k => last_prior k (rq_graph r) (match kfind k (rq_vals r) with Some (VPose x) => x | _ => gp_id end))
       (fun _ => 0) (fun _ => 1%Q))).

(** Both hypotheses are met by ordinary histories: the first by one that gives the first variable
    of a robot together with its first odometry, the second also by the one used throughout. *)
Definition with_start : list (op O1) :=
  OpUpdate [pri (ka 0) gp_id; bet (ka 0) (ka 1) (fwd 10)] [val (ka 0) gp_id; val (ka 1) (fwd 10)] true ::
  [odo_a 1; odo_a 2; start_b; lc_good; lc_bad; OpTempUpdate [pri (ka 0) (fwd 50)] []; lc_ab 0 0 100; lc_ab 1 1 100; lc_ab 2 0 300;
   lm_first; lm_again 2 (-15); OpRemoveLast; OpTempClear].
Definition unoptimised (o : op O1) : op O1 :=
  match o with OpUpdate fs vs _ => OpUpdate fs vs false | _ => o end.
Example C46_example : starts_supplied (c_special C1) with_start /\
  same_calls with_start (map unoptimised (without_temps with_start)) /\
  (exists s rs, run C1 W1 with_start (solver_init true) = Ok s rs /\ length (s_nfg s) = 11) /\
  (exists s rs, run C1 W_prior (map unoptimised (without_temps with_start)) (solver_init true) = Ok s rs /\ length (s_nfg s) = 11).
Proof.
  split; [apply starts_check; vm_compute; reflexivity|]. split; [reflexivity|].
  split; apply run_check; vm_compute; reflexivity.
Qed.
(** Here the order differs: the accepted closures of [a] come before or after the others. *)
Definition W_back : soracles O1 :=
  @SOracles O1 (Oracles O1 (fun _ x => if (fst x =? snd x)%N then 1 else 0) (fun _ _ => 0) (fun _ => Some (fwd 3)) (fun _ a => a)) (so_opt W_prior).
Example C46_order_example : starts_supplied (c_special C1) with_start /\ w_freed (so_pcm W1) = w_freed (so_pcm W_back) /\
  (exists s rs, run C1 W1 with_start (solver_init true) = Ok s rs /\ nth 6 (keys_of (s_nfg s)) [] = [ka 0; ka 3]) /\
  (exists s rs, run C1 W_back with_start (solver_init true) = Ok s rs /\ nth 6 (keys_of (s_nfg s)) [] = [ka 0; kb 0]).
Proof.
  split; [apply starts_check; vm_compute; reflexivity|]. split; [reflexivity|].
  split; apply run_check; vm_compute; reflexivity.
Qed.
Example C46_tracks_example : along_tracks (c_special C1) full_history /\
  same_calls full_history (map unoptimised (without_temps full_history)) /\
  (exists s rs, run C1 W1 full_history (solver_init true) = Ok s rs /\ length (s_nfg s) = 11) /\
  (exists s rs, run C1 W_prior (map unoptimised (without_temps full_history)) (solver_init true) = Ok s rs /\ length (s_nfg s) = 11).
Proof.
  split; [apply along_check; vm_compute; reflexivity|]. split; [reflexivity|].
  split; apply run_check; vm_compute; reflexivity.
Qed.

(** ** C28 *)
Theorem C28_graph_without_temporaries : forall O C (W : soracles O) h s s' rs rs',
  starts_supplied (c_special C) h ->
  run C W h (solver_init true) = Ok s rs -> run C W (without_temps h) (solver_init true) = Ok s' rs' ->
  s_nfg s = s_nfg s' /\ map fst (s_vals s) = map fst (s_vals s') /\ reported rs = reported rs'.
Proof. exact c28_without. Qed.
Print Assumptions C28_graph_without_temporaries.

Theorem C28_graph_without_temporaries_on_tracks : forall G, pose_group G -> forall pp C (W : soracles (node_ops G pp)) h s s' rs rs',
  along_tracks (c_special C) h ->
  run C W h (solver_init true) = Ok s rs -> run C W (without_temps h) (solver_init true) = Ok s' rs' ->
  s_nfg s = s_nfg s' /\ map fst (s_vals s) = map fst (s_vals s') /\ reported rs = reported rs'.
Proof. exact (fun G L pp C W h s s' rs rs' => @tracks_decide_node G L pp C W W h (without_temps h) s s' rs rs' eq_refl (without_same h)). Qed.
Print Assumptions C28_graph_without_temporaries_on_tracks.

Theorem C28_graph_without_temporaries_on_tracks_cov : forall G, pose_group G -> forall pp C (W : soracles (cov_ops G pp)) h s s' rs rs',
  along_tracks (c_special C) h ->
  run C W h (solver_init true) = Ok s rs -> run C W (without_temps h) (solver_init true) = Ok s' rs' ->
  s_nfg s = s_nfg s' /\ map fst (s_vals s) = map fst (s_vals s') /\ reported rs = reported rs'.
Proof. exact (fun G L pp C W h s s' rs rs' => @tracks_decide_cov G L pp C W W h (without_temps h) s s' rs rs' eq_refl (without_same h)). Qed.
Print Assumptions C28_graph_without_temporaries_on_tracks_cov.

(** A temporary prior moves the first pose of robot [a] before its odometry starts; the landmark
    is then seen from both robots. *)
Definition lm_from_b := OpUpdate [bet (kb 1) (kl 1) (fwd 5)] [] true.
Definition h_temp : list (op O1) :=
  [start_a; OpTempUpdate [pri (ka 0) (fwd 50)] []; OpForce [] []; odo_a 0; start_b; lm_first; lm_from_b; OpTempClear].


Example C28_without_example : starts_supplied (c_special C1) with_start /\
  (exists s rs, run C1 W_prior with_start (solver_init true) = Ok s rs /\ length (s_nfg s) = 11) /\
  (exists s rs, run C1 W_prior (without_temps with_start) (solver_init true) = Ok s rs /\ length (s_nfg s) = 11) /\
  along_tracks (c_special C1) full_history /\
  (exists s rs, run C1 W_prior (without_temps full_history) (solver_init true) = Ok s rs /\ length (s_nfg s) = 11).
Proof.
  split; [apply starts_check; vm_compute; reflexivity|].
  split; [apply run_check; vm_compute; reflexivity|]. split; [apply run_check; vm_compute; reflexivity|].
  split; [apply along_check; vm_compute; reflexivity|]. apply run_check; vm_compute; reflexivity.
Qed.

(** Without such a hypothesis temporary factors do change the graph: the accepted observation of
    the landmark from robot [b] is missing after the history with the temporary prior. *)
Theorem C28_graph_without_temporaries_refuted : exists s s' rs rs',
  run C1 W_prior h_temp (solver_init true) = Ok s rs /\
  run C1 W_prior (without_temps h_temp) (solver_init true) = Ok s' rs' /\
  s_nfg s <> s_nfg s' /\ ~ In [kb 1; kl 1] (keys_of (s_nfg s)) /\ In [kb 1; kl 1] (keys_of (s_nfg s')).
Proof.
  assert (A : exists s rs, run C1 W_prior h_temp (solver_init true) = Ok s rs /\
    existsb (fun l => match l with [x; y] => (x =? kb 1)%N && (y =? kl 1)%N | _ => false end) (keys_of (s_nfg s)) = false).
  { apply run_check; vm_compute; reflexivity. }
  assert (B : exists s rs, run C1 W_prior (without_temps h_temp) (solver_init true) = Ok s rs /\
    existsb (fun l => match l with [x; y] => (x =? kb 1)%N && (y =? kl 1)%N | _ => false end) (keys_of (s_nfg s)) = true).
  { apply run_check; vm_compute; reflexivity. }
  destruct A as (s & rs & A1 & A2). destruct B as (s' & rs' & B1 & B2). exists s, s', rs, rs'.
  split; [exact A1|]. split; [exact B1|]. clear A1 B1. split; [|split].
  - intro E. rewrite E in A2. rewrite A2 in B2. discriminate B2.
  - intro H. apply not_true_iff_false in A2. apply A2. apply existsb_exists. exists [kb 1; kl 1]. split; auto.
  - apply existsb_exists in B2. destruct B2 as (l & L1 & L2). destruct l as [|x [|y [|]]]; try discriminate L2.
    apply andb_true_iff in L2. rewrite !N.eqb_eq in L2. destruct L2 as [-> ->]. exact L1.
Qed.
Print Assumptions C28_graph_without_temporaries_refuted.
