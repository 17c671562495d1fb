(** * C71: when the odometry of a robot arrives does not matter *)
From Coq Require Import QArith.
From Verif Require Import Prelude Num Keys KMap UMap Geometry Factors Clique Pcm Params Solver Grid PcmSpec HistSpec CallsSpec CallsProofs MoveProofs
  AlgProofs StreamSpec StreamProofs Scenes.
Set Implicit Arguments.
Local Open Scope nat_scope.

(** Two histories deliver the same first sightings and candidates call by call, with the same
    removals and ignored prefixes between them, and every robot the same odometry in the same order
    (one history may have more of it).  Odometry, priors, temporary factors, the flags asking for an
    optimisation, the initial values and the optimiser may differ in any way, and the odometry of
    different robots may be interleaved with each other and with the rest in any way, as long as
    what is compared with odometry comes after it.  Then the accepted closures and sightings, the
    edges reported by the removals and the counters are the same. *)
Theorem C71_arrival_of_odometry : forall G, pose_group G -> forall pp C (W1 W2 : soracles (node_ops G pp)) h1 h2 s1 s2 rs1 rs2,
  so_pcm W1 = so_pcm W2 ->
  same_events (c_special C) h1 h2 -> same_tracks (c_special C) h1 h2 -> straight (c_special C) h1 -> straight (c_special C) h2 ->
  run C W1 h1 (solver_init true) = Ok s1 rs1 -> run C W2 h2 (solver_init true) = Ok s2 rs2 ->
  accepted_part (c_special C) h1 (s_nfg s1) = accepted_part (c_special C) h2 (s_nfg s2) /\ reported rs1 = reported rs2 /\
  get_num_lc s1 = get_num_lc s2 /\ get_ignored s1 = get_ignored s2 /\
  (c_gnc C = false -> get_num_inliers C s1 = get_num_inliers C s2).
Proof. exact stream_decide_node. Qed.
Print Assumptions C71_arrival_of_odometry.

Theorem C71_arrival_of_odometry_cov : forall G, pose_group G -> forall pp C (W1 W2 : soracles (cov_ops G pp)) h1 h2 s1 s2 rs1 rs2,
  so_pcm W1 = so_pcm W2 ->
  same_events (c_special C) h1 h2 -> same_tracks (c_special C) h1 h2 -> straight (c_special C) h1 -> straight (c_special C) h2 ->
  run C W1 h1 (solver_init true) = Ok s1 rs1 -> run C W2 h2 (solver_init true) = Ok s2 rs2 ->
  accepted_part (c_special C) h1 (s_nfg s1) = accepted_part (c_special C) h2 (s_nfg s2) /\ reported rs1 = reported rs2 /\
  get_num_lc s1 = get_num_lc s2 /\ get_ignored s1 = get_ignored s2 /\
  (c_gnc C = false -> get_num_inliers C s1 = get_num_inliers C s2).
Proof. exact stream_decide_cov. Qed.
Print Assumptions C71_arrival_of_odometry_cov.

(** Poses need not form a group (poses in floating point do not) when the odometry of every robot
    starts at the same pose in both histories, given together with its first odometry. *)
Theorem C71_arrival_of_odometry_any_poses : forall O C (W1 W2 : soracles O) h1 h2 s1 s2 rs1 rs2,
  so_pcm W1 = so_pcm W2 ->
  same_events (c_special C) h1 h2 -> same_tracks (c_special C) h1 h2 -> same_starts (c_special C) h1 h2 ->
  straight (c_special C) h1 -> straight (c_special C) h2 ->
  starts_supplied (c_special C) h1 -> starts_supplied (c_special C) h2 ->
  run C W1 h1 (solver_init true) = Ok s1 rs1 -> run C W2 h2 (solver_init true) = Ok s2 rs2 ->
  accepted_part (c_special C) h1 (s_nfg s1) = accepted_part (c_special C) h2 (s_nfg s2) /\ reported rs1 = reported rs2 /\
  get_num_lc s1 = get_num_lc s2 /\ get_ignored s1 = get_ignored s2 /\
  (c_gnc C = false -> get_num_inliers C s1 = get_num_inliers C s2).
Proof. exact stream_decide_any. Qed.
Print Assumptions C71_arrival_of_odometry_any_poses.

(** All odometry first, or each piece of it just before it is needed, by another robot order, from
    other initial values, with a temporary factor and without the prior. *)
Definition odometry_first : list (op O1) :=
  base ++ [lc_ab 0 0 100; lc_ab 1 1 100; lm_first; lc_bad; lc_good; lm_again 2 (-15); lc_ab 2 0 300; OpRemoveLast].
Definition other_start := OpUpdate [pri (ka 0) (fwd 7)] [val (ka 0) (fwd 7)] false.
Definition as_needed : list (op O1) :=
  [start_b; other_start; odo_a 0; lc_ab 0 0 100; lc_ab 1 1 100; lm_first; odo_a 1; lc_bad; OpTempUpdate [pri (ka 1) (fwd 3)] [];
   odo_a 2; lc_good; lm_again 2 (-15); OpRemovePriors 98 true; OpTempClear; lc_ab 2 0 300; OpRemoveLast].
Example C71_example : same_events (c_special C1) odometry_first as_needed /\ same_tracks (c_special C1) odometry_first as_needed /\
  straight (c_special C1) odometry_first /\ straight (c_special C1) as_needed /\
  (exists s rs, run C1 W1 odometry_first (solver_init true) = Ok s rs /\
     length (s_nfg s) = 11 /\ length (accepted_part (c_special C1) odometry_first (s_nfg s)) = 5) /\
  (exists s rs, run C1 W1 as_needed (solver_init true) = Ok s rs /\
     length (s_nfg s) = 10 /\ length (accepted_part (c_special C1) as_needed (s_nfg s)) = 5).
Proof.
  split; [reflexivity|]. split.
  { apply tracks_check with (cs := [97; 98]%N); [|vm_compute; reflexivity].
    intros c [<-|[<-|[]]]; exists []; left; reflexivity. }
  split; [apply straight_check; vm_compute; reflexivity|]. split; [apply straight_check; vm_compute; reflexivity|].
  split; apply run_check; vm_compute; auto.
Qed.

Definition start_a2 := OpUpdate [pri (ka 0) gp_id; bet (ka 0) (ka 1) (fwd 10)] [val (ka 0) gp_id; val (ka 1) (fwd 10)] true.
Definition first_all : list (op O1) :=
  [start_a2; odo_a 1; odo_a 2; start_b; lc_ab 0 0 100; lc_ab 1 1 100; lm_first; lc_bad; lc_good; lm_again 2 (-15)].
Definition first_some : list (op O1) :=
  [start_b; start_a2; lc_ab 0 0 100; lc_ab 1 1 100; lm_first; odo_a 1; lc_bad; odo_a 2; lc_good; lm_again 2 (-15)].
Lemma gp_eqb_eq (a b : gpose) : gp_eqb a b = true -> a = b.
Proof.
  destruct a as [x y r], b as [x' y' r']. unfold gp_eqb. cbn [gx gy gr]. rewrite !andb_true_iff, !Z.eqb_eq. intros [[-> ->] H].
  destruct r, r'; try discriminate; auto.
Qed.
Example C71_any_example : same_events (c_special C1) first_all first_some /\ same_tracks (c_special C1) first_all first_some /\
  same_starts (c_special C1) first_all first_some /\ straight (c_special C1) first_all /\ straight (c_special C1) first_some /\
  starts_supplied (c_special C1) first_all /\ starts_supplied (c_special C1) first_some /\
  (exists s rs, run C1 W1 first_all (solver_init true) = Ok s rs /\ length (accepted_part (c_special C1) first_all (s_nfg s)) = 5) /\
  (exists s rs, run C1 W1 first_some (solver_init true) = Ok s rs /\ length (accepted_part (c_special C1) first_some (s_nfg s)) = 5).
Proof.
  split; [reflexivity|]. split.
  { apply tracks_check with (cs := [97; 98]%N); [|vm_compute; reflexivity].
    intros c [<-|[<-|[]]]; exists []; left; reflexivity. }
  split; [apply (starts_same_check (O := O1)) with (eqb := gp_eqb); [exact gp_eqb_eq|vm_compute; reflexivity]|].
  split; [apply straight_check; vm_compute; reflexivity|]. split; [apply straight_check; vm_compute; reflexivity|].
  split; [apply starts_check; vm_compute; reflexivity|]. split; [apply starts_check; vm_compute; reflexivity|].
  split; apply run_check; vm_compute; reflexivity.
Qed.

(** The order does matter to a closure that comes before the odometry that creates one of its ends:
    it is dropped for good. *)
Definition closure_last : list (op O1) := [start_a; odo_a 0; odo_a 1; odo_a 2; lc_good].
Definition closure_early : list (op O1) := [start_a; odo_a 0; odo_a 1; lc_good; odo_a 2].
Theorem C71_early_closure_refuted : exists (h1 h2 : list (op O1)) s1 s2 rs1 rs2,
  same_events (c_special C1) h1 h2 /\ same_tracks (c_special C1) h1 h2 /\ straight (c_special C1) h1 /\
  fresh_tracks (c_special C1) h2 /\
  run C1 W1 h1 (solver_init true) = Ok s1 rs1 /\ run C1 W1 h2 (solver_init true) = Ok s2 rs2 /\
  accepted_part (c_special C1) h1 (s_nfg s1) <> accepted_part (c_special C1) h2 (s_nfg s2) /\
  get_num_lc s1 = Val 1 /\ get_num_lc s2 = Val 0.
Proof.
  assert (A : exists s rs, run C1 W1 closure_last (solver_init true) = Ok s rs /\
    (length (accepted_part (c_special C1) closure_last (s_nfg s)) = 1 /\ get_num_lc s = Val 1)).
  { apply run_check; vm_compute; auto. }
  assert (B : exists s rs, run C1 W1 closure_early (solver_init true) = Ok s rs /\
    (length (accepted_part (c_special C1) closure_early (s_nfg s)) = 0 /\ get_num_lc s = Val 0)).
  { apply run_check; vm_compute; auto. }
  destruct A as (s & rs & A1 & A2 & A3). destruct B as (s' & rs' & B1 & B2 & B3).
  exists closure_last, closure_early, s, s', rs, rs'.
  split; [reflexivity|]. split.
  { apply tracks_check with (cs := [97]%N); [|vm_compute; reflexivity]. intros c [<-|[]]; exists []; left; reflexivity. }
  split; [apply straight_check; vm_compute; reflexivity|]. split; [apply fresh_check; vm_compute; reflexivity|].
  split; [exact A1|]. split; [exact B1|]. split; [|auto].
  intro E. rewrite E, B2 in A2. discriminate A2.
Qed.
Print Assumptions C71_early_closure_refuted.
