(** * Properties C11-C14, C25, C26, C34 (whole solver): what is stored and what is accepted *)
From Coq Require Import QArith Permutation.
From Verif Require Import Prelude Num Keys KMap UMap Geometry Factors Clique Pcm Params Solver Grid
  ValuesProofs PcmSpec PcmProofs PcmInv HistSpec StoreSpec SolverProofs HistProofs GraphProofs StoreProofs AcceptProofs LiveProofs
  StoreThms SafeProofs ItemProofs MoveProofs Scenes.
Local Open Scope nat_scope.

(** ** Inputs for the examples *)

Definition lc_aa (i j : N) (x : Z) := OpUpdate [bet (ka i) (ka j) (fwd x)] [] true.
(** Five closures between the same two poses; the first agrees with all others, which mostly
    disagree with each other. *)
Definition five := OpUpdate
  [bet (ka 0) (kb 0) (GP 100 0 R0); bet (ka 0) (kb 0) (GP 118 0 R0); bet (ka 0) (kb 0) (GP 82 0 R0);
   bet (ka 0) (kb 0) (GP 100 18 R0); bet (ka 0) (kb 0) (GP 118 2 R0)] [] true.
(** No pairwise check, with and without incremental selection. *)
Definition cfg_off := Cfg [108%N] true false false false false false false false false false.
Definition cfg_off_inc := Cfg [108%N] true false true false false false false false false false.
(** Negative pairwise thresholds. *)
Definition pp2 := simple_params 1 (-1).
Definition O2 := gops pp2.
Definition W2 : soracles O2 := plain_soracles O2 gp_id.
Definition two_sightings : list (op O2) :=
  [OpUpdate [gbet pp2 (ka 0) (ka 1) (fwd 10); gbet pp2 (ka 1) (kl 1) (fwd 5)]
            [gval pp2 (ka 0) gp_id; gval pp2 (ka 1) (fwd 10); gval pp2 (kl 1) (fwd 15)] true;
   OpUpdate [gbet pp2 (ka 0) (kl 1) (fwd 15)] [] true].
(** A between factor with these keys. *)
Definition links {O} (f t : key) (of : option (factor O)) : bool :=
  match of with Some (FBetween b) => ((b_from b =? f) && (b_to b =? t))%N | _ => false end.
Lemma links_In {O} (b : bf O) g : existsb (links (b_from b) (b_to b)) g = false -> ~ In (Some (FBetween b)) g.
Proof.
  intros H X. apply not_true_iff_false in H. apply H. apply existsb_exists. exists (Some (FBetween b)). split; auto.
  cbn. rewrite !N.eqb_refl. auto.
Qed.

(** ** C11 *)
(** Every between factor of a call has exactly one fate. *)
Theorem C11_classification_is_a_partition : forall O C nv known ref (b : bf O),
  exists x, has_fate C nv known ref b x /\ forall y, has_fate C nv known ref b y -> y = x.
Proof. exact c11_partition. Qed.
Print Assumptions C11_classification_is_a_partition.

(** The containers hold, in order of arrival: the odometry factors; the non-between factors (less
    deleted priors); per robot pair the closures stored and not removed; per landmark the
    observations since its last first sighting.  [newly] and [sighted] are the factors with fate
    [StoredClosure], [IsFirstSighting] and [StoredLandmark] (next theorem). *)
Theorem C11_containers : forall O C (W : soracles O) h s rs, run C W h (solver_init true) = Ok s rs ->
  exists p, s_pcm s = Some p /\ p_odom p = sp_odoms (c_special C) h /\ p_special p = sp_others h /\
  (forall id, me_factors (lc_get id (p_lcs p)) = filter (of_pair id) (sp_live C W h)) /\
  (forall l, me_factors (lm_get l (p_lms p)) = map fst (current C l (sp_sightings C W h))).
Proof. exact c11_containers. Qed.
Print Assumptions C11_containers.

Theorem C11_stored_factors : forall O C nv known ref (b : bf O),
  (sp_candidate (c_special C) nv b && stores C known ref b = true <-> has_fate C nv known ref b StoredClosure) /\
  (sp_candidate (c_special C) nv b && stores_lm C known b = true <-> has_fate C nv known ref b StoredLandmark).
Proof. intros. split; [apply fate_stored|apply fate_stored_lm]. Qed.
Print Assumptions C11_stored_factors.

(** One call with a factor of every fate. *)
Definition mixed := OpUpdate
  [bet (ka 3) (ka 4) (fwd 10); None; bet (ka 4) (kl 2) (fwd 1); bet (ka 0) (ka 0) gp_id; bet (ka 0) (ka 9) (fwd 90);
   bet (ka 2) (kl 1) (fwd (-15)); bet (ka 0) (kb 1) (fwd 110); bet (ka 0) (ka 2) (fwd 99); pri (ka 4) (fwd 40)]
  [val (ka 4) (fwd 40)] true.
Example C11_example : after C1 (base ++ [lm_first; mixed]) (fun s => match s_pcm s with
   | Some p => Some (length (p_odom p), length (p_special p),
                map (fun kv => (fst kv, length (me_factors (snd kv)))) (p_lcs p),
                map (fun kv => (fst kv, length (me_factors (snd kv)))) (p_lms p))
   | None => None end)
  = Some (Some (5, 3, [((97, 98)%N, 1)], [(kl 1, 2); (kl 2, 1)])).
Proof. vm_compute. reflexivity. Qed.

(** ** C12 *)
Theorem C12_pairwise_record_is_faithful : forall O C (W : soracles O) h s rs id,
  run C W h (solver_init true) = Ok s rs -> no_removal h -> c_loop_check C = true -> pair_items C W id h <> [] ->
  exists p, s_pcm s = Some p /\ me_factors (lc_get id (p_lcs p)) = map fst (pair_items C W id h) /\
  faithful (@lc_test O) (pair_items C W id h) (me_adj (lc_get id (p_lcs p))).
Proof. exact c12_pairs. Qed.
Print Assumptions C12_pairwise_record_is_faithful.

(** The same for landmarks, removals or not: all observations since the last first sighting are
    recorded, except that the last is missing if there are several and one of them starts from the
    landmark (C26). *)
Theorem C12_landmark_record_is_faithful : forall O C (W : soracles O) h s rs l,
  run C W h (solver_init true) = Ok s rs ->
  current C l (sp_sightings C W h) <> [] ->
  exists p, s_pcm s = Some p /\ me_factors (lm_get l (p_lms p)) = map fst (current C l (sp_sightings C W h)) /\
  faithful (@lm_test O) (recorded l (current C l (sp_sightings C W h))) (me_adj (lm_get l (p_lms p))).
Proof. exact c12_landmarks. Qed.
Print Assumptions C12_landmark_record_is_faithful.

Definition entries (m : matrix) : list (list bool) :=
  map (fun i => map (fun j => m_at m i j) (seq 0 (m_cols m))) (seq 0 (m_rows m)).
Example C12_example : after C1 (base ++ [five]) (fun s => match s_pcm s with
    | Some p => Some (entries (me_adj (lc_get (97, 98)%N (p_lcs p)))) | None => None end)
  = Some (Some [[false; true; true; true; true]; [true; false; false; false; true]; [true; false; false; false; false];
                [true; false; false; false; false]; [true; true; false; false; false]])
  /\ length (pair_items C1 W1 (97, 98)%N (base ++ [five])) = 5
  /\ length (current C1 (kl 1) (sp_sightings C1 W1 (base ++ [lm_first; lm_again 2 (-15); lm_again 3 50]))) = 3.
Proof. repeat split; vm_compute; reflexivity. Qed.

(** ** C13 *)
(** Two accepted closures can fail the pairwise test in both orders. *)
Theorem C13_accepted_mutually_consistent_refuted : exists O C (W : soracles O) h s rs f g,
  run C W h (solver_init true) = Ok s rs /\ c_loop_check C = true /\
  In (Some (FBetween f)) (s_nfg s) /\ In (Some (FBetween g)) (s_nfg s) /\
  (b_from f, b_to f) = (b_from g, b_to g) /\
  sp_loop_test (refs_after C W h) f g = Some false /\ sp_loop_test (refs_after C W h) g f = Some false.
Proof.
  exists O1, C1, W1, (base ++ [five]).
  destruct (@run_check O1 C1 W1 (base ++ [five]) true (fun s =>
     existsb (is_bet (nb pp1 (ka 0) (kb 0) (GP 118 0 R0))) (s_nfg s) = true /\
     existsb (is_bet (nb pp1 (ka 0) (kb 0) (GP 82 0 R0))) (s_nfg s) = true)) as (s & rs & HR & H1 & H2).
  { vm_compute. auto. }
  exists s, rs, (nb pp1 (ka 0) (kb 0) (GP 118 0 R0)), (nb pp1 (ka 0) (kb 0) (GP 82 0 R0)).
  split; [exact HR|]. split; [reflexivity|]. apply is_bet_In in H1. apply is_bet_In in H2. split; [exact H1|].
  split; [exact H2|]. split; [reflexivity|]. clear. split; vm_compute; reflexivity.
Qed.
Print Assumptions C13_accepted_mutually_consistent_refuted.

(** What holds: the accepted closures of a robot pair are non-empty and all agree with the first
    of them; they are distinct when there are at most two; if agreement is transitive they are a
    largest group of mutually agreeing closures; if all stored closures agree all are accepted. *)
Theorem C13_accepted_agree_with_one_partial : forall O C (W : soracles O) h s rs id,
  run C W h (solver_init true) = Ok s rs -> no_removal h -> c_incremental C = false -> c_loop_check C = true ->
  pair_ignored h id = false -> pair_items C W id h <> [] ->
  star_of (@lc_test O) (pair_items C W id h) (graph_lcs C h id (s_nfg s)).
Proof. exact accepted_on. Qed.
Print Assumptions C13_accepted_agree_with_one_partial.

(** For landmarks, in every configuration, with removals and whichever way round they are seen. *)
Theorem C13_accepted_sightings_partial : forall O C (W : soracles O) h s rs l,
  run C W h (solver_init true) = Ok s rs ->
  current C l (sp_sightings C W h) <> [] ->
  star_of (@lm_test O) (recorded l (current C l (sp_sightings C W h))) (graph_lms C h l (s_nfg s)).
Proof. exact accepted_lm. Qed.
Print Assumptions C13_accepted_sightings_partial.

Example C13_example :
  after C1 (base ++ [lc_ab 0 0 100; lc_ab 2 0 300; lc_ab 1 1 100; lc_ab 3 1 80])
    (fun s => keys_of (skipn 6 (s_nfg s))) = Some [[ka 0; kb 0]; [ka 1; kb 1]; [ka 3; kb 1]] /\
  after C1 (base ++ [lm_first; lm_again 2 (-15); lm_again 3 50]) (fun s => keys_of (skipn 6 (s_nfg s)))
    = Some [[ka 0; kl 1]; [ka 2; kl 1]].
Proof. split; vm_compute; reflexivity. Qed.

(** ** C14 *)
(** Without pairwise check incremental selection still drops stored closures. *)
Theorem C14_negative_pairwise_threshold_refuted : exists O C (W : soracles O) h s rs b,
  run C W h (solver_init true) = Ok s rs /\ c_loop_check C = false /\ no_removal h /\
  In b (map fst (sp_stored C W h)) /\ ~ In (Some (FBetween b)) (s_nfg s).
Proof.
  pose (h := base ++ [lc_ab 0 0 100; lc_ab 1 1 100]).
  exists O1, cfg_off_inc, W1, h. pose (b := nb pp1 (ka 1) (kb 1) (fwd 100)).
  destruct (@run_check O1 cfg_off_inc W1 h true (fun s => existsb (links (ka 1) (kb 1)) (s_nfg s) = false))
    as (s & rs & HR & H1). { vm_compute. auto. }
  exists s, rs, b. split; [exact HR|]. split; [reflexivity|]. split; [|split].
  - assert (forallb (fun o => negb (is_removal o)) h = true) as X by (vm_compute; reflexivity).
    intros o Ho. rewrite forallb_forall in X. apply negb_true_iff. apply X. exact Ho.
  - assert (existsb (nb_eqb b) (map fst (sp_stored cfg_off_inc W1 h)) = true) as X by (vm_compute; reflexivity).
    apply existsb_exists in X. destruct X as (y & Hy & E). apply nb_eqb_eq in E. rewrite E. exact Hy.
  - exact (links_In b _ H1).
Qed.
Print Assumptions C14_negative_pairwise_threshold_refuted.

(** With a negative threshold no two sightings of a landmark are accepted together. *)
Theorem C14_negative_threshold_landmarks_refuted : exists O C (W : soracles O) h s rs b,
  run C W h (solver_init true) = Ok s rs /\ c_loop_check C = false /\ c_incremental C = false /\
  In b (map (fun x => fst (si_obs x)) (sp_sightings C W h)) /\ ~ In (Some (FBetween b)) (s_nfg s).
Proof.
  exists O2, cfg_off, W2, two_sightings. pose (b := nb pp2 (ka 0) (kl 1) (fwd 15)).
  destruct (@run_check O2 cfg_off W2 two_sightings true (fun s => existsb (links (ka 0) (kl 1)) (s_nfg s) = false))
    as (s & rs & HR & H1). { vm_compute. auto. }
  exists s, rs, b. split; [exact HR|]. split; [reflexivity|]. split; [reflexivity|]. split.
  - right. left. reflexivity.
  - exact (links_In b _ H1).
Qed.
Print Assumptions C14_negative_threshold_landmarks_refuted.

(** What holds: without odometry check every candidate with known keys is stored; without pairwise
    check and incremental selection every stored closure is in the graph. *)
Theorem C14_no_odometry_check : forall O C (W : soracles O) h o fs vs s rs b,
  run C W (h ++ [o]) (solver_init true) = Ok s rs -> call_of o = Some (fs, vs) ->
  c_odom_check C = false -> In (Some (FBetween b)) fs -> sp_candidate (c_special C) vs b = true ->
  knows (h ++ [o]) (b_from b) = true -> knows (h ++ [o]) (b_to b) = true -> sp_lmk C b = false ->
  exists p, s_pcm s = Some p /\ In b (me_factors (lc_get (chr (b_from b), chr (b_to b)) (p_lcs p))).
Proof. exact c14_odometry_off. Qed.
Print Assumptions C14_no_odometry_check.

Theorem C14_no_pairwise_check_partial : forall O C (W : soracles O) h s rs id,
  run C W h (solver_init true) = Ok s rs -> no_removal h -> c_incremental C = false -> c_loop_check C = false ->
  pair_ignored h id = false -> graph_lcs C h id (s_nfg s) = map fst (pair_items C W id h).
Proof. exact accepted_off. Qed.
Print Assumptions C14_no_pairwise_check_partial.

Example C14_example : (* the wildly wrong closure is in, the odometry check still works *)
  after cfg_off (base ++ [lc_ab 0 0 100; lc_ab 2 0 300; lc_bad]) (fun s => keys_of (skipn 6 (s_nfg s)))
    = Some [[ka 0; kb 0]; [ka 2; kb 0]].
Proof. vm_compute. reflexivity. Qed.

(** ** C25 *)
(** A call that supplies the value of the observing pose makes the observation a "first" one,
    which replaces everything known about the landmark. *)
Theorem C25_observations_accumulate_refuted : exists O C (W : soracles O) h s rs b l,
  run C W h (solver_init true) = Ok s rs /\ no_removal h /\
  In b (map (fun x => fst (si_obs x)) (sp_sightings C W h)) /\ sp_landmark_key (c_special C) b = l /\
  (exists p, s_pcm s = Some p /\ ~ In b (me_factors (lm_get l (p_lms p)))) /\ ~ In (Some (FBetween b)) (s_nfg s).
Proof.
  pose (h := base ++ [lm_first; OpUpdate [bet (ka 3) (ka 4) (fwd 10); bet (ka 4) (kl 1) (fwd (-35))] [val (ka 4) (fwd 40)] true]).
  exists O1, C1, W1, h. pose (b := nb pp1 (ka 0) (kl 1) (fwd 5)).
  destruct (@run_check O1 C1 W1 h true (fun s => existsb (links (ka 0) (kl 1)) (s_nfg s) = false /\
     match s_pcm s with Some p => existsb (fun x => links (ka 0) (kl 1) (Some (FBetween x))) (me_factors (lm_get (kl 1) (p_lms p))) = false
                   | None => False end))
    as (s & rs & HR & H1 & H2). { vm_compute. auto. }
  exists s, rs, b, (kl 1). split; [exact HR|]. split; [|split; [|split; [reflexivity|split]]].
  - assert (forallb (fun o => negb (is_removal o)) h = true) as X by (vm_compute; reflexivity).
    intros o Ho. rewrite forallb_forall in X. apply negb_true_iff. apply X. exact Ho.
  - assert (existsb (nb_eqb b) (map (fun x => fst (si_obs x)) (sp_sightings C1 W1 h)) = true) as X by (vm_compute; reflexivity).
    apply existsb_exists in X. destruct X as (y & Hy & E). apply nb_eqb_eq in E. rewrite E. exact Hy.
  - destruct (s_pcm s) as [p|]; [|destruct H2]. exists p. split; [reflexivity|]. intro X.
    apply not_true_iff_false in H2. apply H2. apply existsb_exists. exists b. split; [exact X|reflexivity].
  - exact (links_In b _ H1).
Qed.
Print Assumptions C25_observations_accumulate_refuted.

(** What holds: all observations since the last first sighting take part, and together they are
    all that is recorded; a call without a first sighting of the landmark erases nothing. *)
Theorem C25_observations_since_first_partial : forall O C (W : soracles O) h o fs vs s rs l,
  run C W (h ++ [o]) (solver_init true) = Ok s rs -> call_of o = Some (fs, vs) ->
  (forall b, In (Some (FBetween b)) fs -> sp_first (c_special C) vs b = true -> sp_landmark_key (c_special C) b <> l) ->
  exists p new, s_pcm s = Some p /\
    me_factors (lm_get l (p_lms p)) = map fst (current C l (sp_sightings C W h)) ++ new /\
    forall b, In b new <-> In (Some (FBetween b)) fs /\ sp_candidate (c_special C) vs b = true /\
      stores_lm C (knows (h ++ [o])) b = true /\ sp_landmark_key (c_special C) b = l.
Proof. exact c25_partial. Qed.
Print Assumptions C25_observations_since_first_partial.

Example C25_example : after C1 (base ++ [lm_first; lm_again 2 (-15); lm_again 3 50; lm_again 1 (-5)])
  (fun s => match s_pcm s with Some p => map (fun b => b_from b) (me_factors (lm_get (kl 1) (p_lms p))) | None => [] end)
  = Some [ka 0; ka 2; ka 3; ka 1].
Proof. vm_compute. reflexivity. Qed.

(** ** C26 *)
(** A landmark->pose observation makes the next observation of the landmark undefined. *)
Theorem C26_either_orientation_refuted : exists O C (W : soracles O) h s rs o,
  run C W h (solver_init true) = Ok s rs /\ no_removal (h ++ [o]) /\ step C W o s = Undef EigenMismatch.
Proof.
  pose (h := base ++ [lm_first; OpUpdate [bet (kl 1) (ka 2) (fwd 15)] [] true]).
  exists O1, C1, W1, h.
  destruct (@run_check O1 C1 W1 h true (fun s => match step C1 W1 (lm_again 3 (-25)) s with Undef v => v = EigenMismatch | _ => False end))
    as (s & rs & HR & H1). { vm_compute. auto. }
  exists s, rs, (lm_again 3 (-25)). split; [exact HR|]. split; [|exact (undef_check _ _ H1)].
  assert (forallb (fun o => negb (is_removal o)) (h ++ [lm_again 3 (-25)]) = true) as X by (vm_compute; reflexivity).
  intros o Ho. rewrite forallb_forall in X. apply negb_true_iff. apply X. exact Ho.
Qed.
Print Assumptions C26_either_orientation_refuted.

(** The same if it was the first sighting that started from the landmark. *)
Theorem C26_first_sighting_orientation_refuted : exists O C (W : soracles O) h s rs o,
  run C W h (solver_init true) = Ok s rs /\ no_removal (h ++ [o]) /\ step C W o s = Undef EigenMismatch /\
  (forall b, delivered h (FBetween b) -> sp_landmark (c_special C) (b_from b) = true -> kmem (b_from b) (s_vals s) = true).
Proof.
  pose (h := base ++ [OpUpdate [bet (kl 1) (ka 0) (fwd (-5))] [val (kl 1) (fwd 5)] true; lm_again 2 (-15)]).
  exists O1, C1, W1, h.
  destruct (@run_check O1 C1 W1 h true (fun s => match step C1 W1 (lm_again 3 (-25)) s with Undef v => v = EigenMismatch | _ => False end /\
    forallb (fun b => negb (sp_landmark (c_special C1) (b_from b)) || kmem (b_from b) (s_vals s)) (delivered_bets h) = true))
    as (s & rs & HR & H1 & H2). { vm_compute. auto. }
  exists s, rs, (lm_again 3 (-25)). split; [exact HR|]. split; [|split; [exact (undef_check _ _ H1)|]].
  - assert (forallb (fun o => negb (is_removal o)) (h ++ [lm_again 3 (-25)]) = true) as X by (vm_compute; reflexivity).
    intros o Ho. rewrite forallb_forall in X. apply negb_true_iff. apply X. exact Ho.
  - intros b Hb Hl. clear HR H1. rewrite forallb_forall in H2. specialize (H2 b (In_delivered Hb)). rewrite Hl in H2. exact H2.
Qed.
Print Assumptions C26_first_sighting_orientation_refuted.

(** What holds: if landmarks only occur at the far end, taking in new factors never goes wrong. *)
Theorem C26_pose_to_landmark_partial : forall O C (W : soracles O) h s rs fs vs u,
  run C W h (solver_init true) = Ok s rs -> decent_history C h -> gentle C W h ->
  (forall b, In (Some (FBetween b)) fs -> decent C b) -> small C (length (sp_all h) + length fs) ->
  ingest C W fs vs s <> Undef u.
Proof. exact safe_ingest. Qed.
Print Assumptions C26_pose_to_landmark_partial.

(** ** C34, whole solver *)
(** If all stored closures of a robot pair pass the pairwise tests they are all in the graph. *)
Theorem C34_all_consistent_all_accepted : forall O C (W : soracles O) h s rs id,
  run C W h (solver_init true) = Ok s rs -> no_removal h -> c_incremental C = false -> pair_ignored h id = false ->
  (forall i j x y, i < j -> nth_error (pair_items C W id h) i = Some x -> nth_error (pair_items C W id h) j = Some y ->
     lc_test x y = Some true) ->
  Permutation (graph_lcs C h id (s_nfg s)) (map fst (pair_items C W id h)).
Proof. exact c34_all. Qed.
Print Assumptions C34_all_consistent_all_accepted.
