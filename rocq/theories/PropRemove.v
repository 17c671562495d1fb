(** * Properties C21-C24 and C43-C45: removals, counts and absence of undefined behaviour *)
From Coq Require Import QArith Permutation.
From Verif Require Import Prelude Num Keys KMap UMap Geometry Factors Clique Pcm Params Solver Grid
  ValuesProofs PcmSpec PcmProofs PcmInv HistSpec StoreSpec SolverProofs HistProofs GraphProofs StoreProofs AcceptProofs LiveProofs
  StoreThms SafeProofs ItemProofs Scenes PropStore.
Local Open Scope nat_scope.

Lemma no_removal_check {O} (h : list (op O)) : forallb (fun o => negb (is_removal o)) h = true -> no_removal h.
Proof. intros H o Ho. rewrite forallb_forall in H. apply negb_true_iff. auto. Qed.

(** ** C21 *)
(** Once the closures of a pair have all been removed, asking for one more is undefined. *)
Theorem C21_remove_latest_refuted : exists O C (W : soracles O) h s rs a b,
  run C W h (solver_init true) = Ok s rs /\ filter (of_pair (a, b)) (sp_live C W h) = [] /\
  step C W (OpRemoveId a b) s = Undef OutOfBounds.
Proof.
  pose (h := base ++ [lc_ab 0 0 100; OpRemoveId 97 98]). exists O1, C1, W1, h.
  destruct (@run_check O1 C1 W1 h true (fun s => match step C1 W1 (OpRemoveId 97 98) s with Undef v => v = OutOfBounds | _ => False end))
    as (s & rs & HR & H1). { vm_compute. auto. }
  exists s, rs, 97%N, 98%N. split; [exact HR|]. split; [|exact (undef_check _ _ H1)].
  apply length_zero_iff_nil. clear. vm_compute. reflexivity.
Qed.
Print Assumptions C21_remove_latest_refuted.

(** What holds, for every history including removals: if the call returns, it returns the edge of
    the latest stored closure of the pair, or null if there is none, and that closure is gone. *)
Theorem C21_remove_latest_partial : forall O C (W : soracles O) h s rs a b s' r,
  run C W h (solver_init true) = Ok s rs -> step C W (OpRemoveId a b) s = Ok s' r ->
  r = Some (option_map (fun x => (b_from x, b_to x)) (last_of (of_pair (a, b)) (sp_live C W h))) /\
  (exists p', s_pcm s' = Some p' /\ forall id, me_factors (lc_get id (p_lcs p')) =
     filter (of_pair id) (drop_last (of_pair (a, b)) (sp_live C W h))) /\
  forall id, incl (graph_lcs C (h ++ [OpRemoveId a b]) id (s_nfg s')) (filter (of_pair id) (drop_last (of_pair (a, b)) (sp_live C W h))).
Proof. exact c21. Qed.
Print Assumptions C21_remove_latest_partial.

Theorem C21_either_order : forall O a b (x : bf O), of_pair (a, b) x = true <->
  (chr (b_from x) = a /\ chr (b_to x) = b) \/ (chr (b_from x) = b /\ chr (b_to x) = a).
Proof. exact of_pair_either. Qed.
Print Assumptions C21_either_order.

(** The values returned by a run. *)
Definition returns (C : config) (h : list (op O1)) : option (list ret) :=
  match run C W1 h (solver_init true) with Ok _ rs => Some rs | _ => None end.
Definition three_ab : list (op O1) := [lc_ab 0 0 100; lc_ab 1 1 100; lc_ab 2 1 90].
Example C21_example :
  option_map (skipn 9) (returns C1 (base ++ three_ab ++ [lc_good; OpRemoveId 98 97; OpRemoveId 97 98; OpRemoveId 99 97]))
  = Some [Some (Some (ka 2, kb 1)); Some (Some (ka 1, kb 1)); Some None].
Proof. vm_compute. reflexivity. Qed.

(** ** C22 *)
(** After a removal by pair the order of the others is no longer followed: the closure returned
    is older than one that is still stored. *)
Definition after_removal_by_pair : list (op O1) :=
  base ++ [lc_aa 0 2 20; lc_aa 0 3 30; lc_aa 1 3 20; lc_ab 0 0 100; lc_aa 0 3 30; OpRemoveId 97 97].
Theorem C22_reverse_order_refuted : exists O C (W : soracles O) h s rs s' r,
  run C W h (solver_init true) = Ok s rs /\ step C W OpRemoveLast s = Ok s' (Some r) /\
  r <> nth_error (map (fun x => (b_from x, b_to x)) (rev (sp_live C W h))) 0.
Proof.
  pose (h := after_removal_by_pair). exists O1, C1, W1, h.
  destruct (@run_check O1 C1 W1 h true (fun s => match step C1 W1 OpRemoveLast s with
     | Ok _ r => r = Some (Some (ka 1, ka 3)) | _ => False end)) as (s & rs & HR & H1). { vm_compute. auto. }
  destruct (step C1 W1 OpRemoveLast s) as [s' r| |] eqn:E; [|destruct H1..]. subst r.
  exists s, rs, s', (Some (ka 1, ka 3)). split; [exact HR|]. split; [exact E|].
  assert (X : nth_error (map (fun x => (b_from x, b_to x)) (rev (sp_live C1 W1 h))) 0 = Some (ka 0, kb 0)).
  { clear. vm_compute. reflexivity. }
  rewrite X. clear. discriminate.
Qed.
Print Assumptions C22_reverse_order_refuted.

(** What holds: without removals by pair, [n] removals return the closures stored and not removed
    before, latest first, and null when none is left; exactly those are gone. *)
Theorem C22_reverse_order_partial : forall O C (W : soracles O) n h s rs s' rs',
  run C W h (solver_init true) = Ok s rs -> no_removal_by_pair h ->
  run C W (repeat OpRemoveLast n) s = Ok s' rs' ->
  rs' = map (fun i => Some (nth_error (map (fun x => (b_from x, b_to x)) (rev (sp_live C W h))) i)) (seq 0 n) /\
  exists p', s_pcm s' = Some p' /\ forall id, me_factors (lc_get id (p_lcs p')) =
     filter (of_pair id) (firstn (length (sp_live C W h) - n) (sp_live C W h)).
Proof. exact c22_full. Qed.
Print Assumptions C22_reverse_order_partial.

Example C22_example : option_map (skipn 9) (returns C1 (base ++ [lc_good; lc_ab 0 0 100; lc_aa 1 3 20; lc_ab 1 1 100] ++
    repeat OpRemoveLast 5))
  = Some [Some (Some (ka 1, kb 1)); Some (Some (ka 1, ka 3)); Some (Some (ka 0, kb 0)); Some (Some (ka 0, ka 3)); Some None].
Proof. vm_compute. reflexivity. Qed.

(** ** C23 *)
(** Removing one of two closures of a pair makes the next closure of that pair undefined; removing
    the only one makes the next closure of any pair undefined. *)
Theorem C23_usable_after_removal_refuted :
  (exists O C (W : soracles O) h s rs o, run C W (h ++ [OpRemoveLast]) (solver_init true) = Ok s rs /\
     no_removal h /\ decent_history C (h ++ [OpRemoveLast; o]) /\ step C W o s = Undef EigenMismatch) /\
  (exists O C (W : soracles O) h s rs o, run C W (h ++ [OpRemoveLast]) (solver_init true) = Ok s rs /\
     no_removal h /\ decent_history C (h ++ [OpRemoveLast; o]) /\ step C W o s = Undef OutOfBounds).
Proof.
  assert (D : forall h : list (op O1), (forall o, In o h -> match call_of o with Some (fs, _) =>
      forallb (fun of => match of with Some (FBetween b) => negb (sp_landmark [108%N] (b_from b)) && match b_noise b with Gauss _ => true | _ => false end
                         | _ => true end) fs = true | None => True end) ->
      decent_history C1 h).
  { intros h H b (o & fs & vs & Ho & Hc & Hb). specialize (H o Ho). rewrite Hc in H. rewrite forallb_forall in H.
    specialize (H _ Hb). apply andb_true_iff in H. destruct H as [H1 H2]. apply negb_true_iff in H1. split; [|intros _; exact H1].
    intro X. destruct b as [f t m n]. change (pn_of grid (@BF gpose Z f t m n) = None) in X. unfold pn_of in X. cbn [b_noise] in *.
    destruct n as [c|]; [discriminate X|discriminate H2]. }
  split.
  - pose (h := base ++ [lc_ab 0 0 100; lc_ab 1 1 100]). exists O1, C1, W1, h.
    destruct (@run_check O1 C1 W1 (h ++ [OpRemoveLast]) true (fun s => match step C1 W1 (lc_ab 2 1 90) s with Undef v => v = EigenMismatch | _ => False end))
      as (s & rs & HR & H1). { vm_compute. auto. }
    exists s, rs, (lc_ab 2 1 90). split; [exact HR|]. split; [apply no_removal_check; vm_compute; reflexivity|].
    split; [|exact (undef_check _ _ H1)]. apply D. clear.
    intros o Ho. cbn [h base app In] in Ho. repeat (destruct Ho as [<-|Ho]; [vm_compute; auto|]). destruct Ho.
  - pose (h := base ++ [lc_ab 0 0 100]). exists O1, C1, W1, h.
    destruct (@run_check O1 C1 W1 (h ++ [OpRemoveLast]) true (fun s => match step C1 W1 lc_good s with Undef v => v = OutOfBounds | _ => False end))
      as (s & rs & HR & H1). { vm_compute. auto. }
    exists s, rs, lc_good. split; [exact HR|]. split; [apply no_removal_check; vm_compute; reflexivity|].
    split; [|exact (undef_check _ _ H1)]. apply D. clear.
    intros o Ho. cbn [h base app In] in Ho. repeat (destruct Ho as [<-|Ho]; [vm_compute; auto|]). destruct Ho.
Qed.
Print Assumptions C23_usable_after_removal_refuted.

(** What holds: if removals only hit pairs with no closure or (with the pairwise check) at least
    three, later calls take in their factors without undefined behaviour, in any configuration. *)
Theorem C23_usable_after_removal_partial : forall O C (W : soracles O) h s rs fs vs u,
  run C W h (solver_init true) = Ok s rs -> decent_history C h -> gentle C W h ->
  (forall b, In (Some (FBetween b)) fs -> decent C b) -> small C (length (sp_all h) + length fs) ->
  ingest C W fs vs s <> Undef u.
Proof. exact safe_ingest. Qed.
Print Assumptions C23_usable_after_removal_partial.

(** ** C24 *)
Theorem C24_counts_refuted :
  (exists O C (W : soracles O) h s rs n, run C W h (solver_init true) = Ok s rs /\
     get_num_lc s = Val n /\ n <> length (sp_live C W h) + length (sp_sightings C W h)) /\
  (exists O C (W : soracles O) h s rs n, run C W h (solver_init true) = Ok s rs /\ c_gnc C = false /\ no_removal h /\
     get_num_inliers C s = Val n /\ n <> Z.of_nat (length (graph_extra C h (s_nfg s)))).
Proof.
  split.
  - pose (h := base ++ [lc_ab 0 0 100; lc_ab 1 1 100; OpRemoveLast]). exists O1, C1, W1, h.
    destruct (@run_check O1 C1 W1 h true (fun s => get_num_lc s = Val 2)) as (s & rs & HR & H1). { vm_compute. auto. }
    exists s, rs, 2. split; [exact HR|]. split; [exact H1|].
    assert (X : length (sp_live C1 W1 h) + length (sp_sightings C1 W1 h) = 1) by (clear; vm_compute; reflexivity).
    rewrite X. clear. discriminate.
  - pose (h := base ++ [lc_ab 0 0 100; lc_ab 1 1 100; lm_first]). exists O1, C1, W1, h.
    destruct (@run_check O1 C1 W1 h true (fun s => get_num_inliers C1 s = Val 2%Z /\ length (graph_extra C1 h (s_nfg s)) = 3))
      as (s & rs & HR & H1 & H2). { vm_compute. auto. }
    exists s, rs, 2%Z. split; [exact HR|]. split; [reflexivity|]. split; [apply no_removal_check; clear; vm_compute; reflexivity|].
    split; [exact H1|]. rewrite H2. clear. discriminate.
Qed.
Print Assumptions C24_counts_refuted.

(** What holds: [getNumLC] counts what was ever stored; after a call with loop closure candidates
    and without ignored robots [getNumLCInliers] counts what is in the graph. *)
Theorem C24_total_partial : forall O C (W : soracles O) h s rs, run C W h (solver_init true) = Ok s rs ->
  get_num_lc s = Val (length (sp_stored C W h) + length (sp_sightings C W h)).
Proof. exact c24_total. Qed.
Print Assumptions C24_total_partial.

Theorem C24_inliers_partial : forall O C (W : soracles O) h o fs vs s rs,
  run C W (h ++ [o]) (solver_init true) = Ok s rs -> call_of o = Some (fs, vs) ->
  c_gnc C = false -> filter (sp_candidate (c_special C) vs) (betweens fs) <> [] ->
  (forall c, sp_ignored (h ++ [o]) c = false) ->
  get_num_inliers C s = Val (Z.of_nat (length (graph_extra C (h ++ [o]) (s_nfg s)))).
Proof. exact c24_inliers. Qed.
Print Assumptions C24_inliers_partial.

Example C24_example : after C1 (base ++ [lc_ab 0 0 100; lc_ab 2 0 300; lc_ab 1 1 100; lm_first; lm_again 2 (-15)])
  (fun s => (get_num_lc s, get_num_inliers C1 s)) = Some (Val 5, Val 4%Z).
Proof. vm_compute. reflexivity. Qed.

(** ** C43 *)
(** No undefined behaviour with GNC: no history of calls with usable measurements, landmarks only
    at the far end and gentle removals ever reaches an out-of-range access, a null pointer, an
    Eigen size mismatch or an endless loop, whatever the optimiser and the reused memory contain. *)
Theorem C43_no_undefined_behaviour : forall O C (W : soracles O) h u,
  decent_history C h -> gentle C W h -> small C (length (sp_all h)) -> c_gnc C = true -> c_fix C = false ->
  run C W h (solver_init true) <> Undef u.
Proof. exact safe_run. Qed.
Print Assumptions C43_no_undefined_behaviour.

Example C43_example : returns cfg_gnc (base ++ three_ab ++ [OpRemoveId 97 98; lc_good; lc_bad; clash; OpRemoveLast; OpRemoveLast])
  = Some (repeat None 8 ++ [Some (Some (ka 2, kb 1)); None; None; None; Some (Some (ka 0, kb 0)); Some (Some (ka 0, kb 0))]).
Proof. vm_compute. reflexivity. Qed.

(** ** C44 *)
(** Removing a closure keeps the pairwise record of the others.  Refuted: the matrix is assigned a
    block of itself, which Eigen frees before reading; with other contents in that memory two
    closures that failed their test against each other are both accepted after the removal. *)
Definition W1_reused : soracles O1 := @SOracles O1
  (Oracles O1 (fun _ _ => 0) (fun _ _ => 0) (fun _ => Some gp_id) (fun _ _ _ _ => true)) (so_opt W1).
Theorem C44_records_kept_refuted : exists O C (W : soracles O) h s rs f g,
  gentle C W h /\ run C W h (solver_init true) = Ok s rs /\ c_loop_check C = true /\
  In (Some (FBetween f)) (s_nfg s) /\ In (Some (FBetween g)) (s_nfg s) /\
  length (filter (of_pair (97, 98)%N) (sp_live C W h)) = 2 /\
  sp_loop_test (refs_after C W h) f g = Some false /\ sp_loop_test (refs_after C W h) g f = Some false.
Proof.
  pose (h := base ++ [lc_ab 0 0 100; lc_ab 2 0 300; lc_ab 1 1 100; OpRemoveId 97 98]).
  exists O1, C1, W1_reused, h.
  destruct (@run_check O1 C1 W1_reused h true (fun s =>
     existsb (is_bet (nb pp1 (ka 0) (kb 0) (fwd 100))) (s_nfg s) = true /\
     existsb (is_bet (nb pp1 (ka 2) (kb 0) (fwd 300))) (s_nfg s) = true)) as (s & rs & HR & H1 & H2).
  { vm_compute. auto. }
  exists s, rs, (nb pp1 (ka 0) (kb 0) (fwd 100)), (nb pp1 (ka 2) (kb 0) (fwd 300)).
  split.
  { clear. intros h1 o h2 id E Ht. cbn zeta.
    assert (X : forall n, n < length h - 1 -> is_removal (nth n h OpTempClear) = false).
    { assert (forallb (fun n => negb (is_removal (nth n h OpTempClear))) (seq 0 (length h - 1)) = true) as Y by (vm_compute; reflexivity).
      rewrite forallb_forall in Y. intros n Hn. apply negb_true_iff, Y, in_seq. lia. }
    assert (L : length h = length h1 + S (length h2)) by (rewrite E, app_length; reflexivity).
    specialize (X (length h1)). rewrite E, app_nth2, Nat.sub_diag, app_length in X by lia. cbn [nth length] in X.
    destruct h2 as [|o2 h2].
    2:{ cbn [length] in X. assert (is_removal o = false) by (apply X; lia). destruct o; discriminate. }
    change h with ((base ++ [lc_ab 0 0 100; lc_ab 2 0 300; lc_ab 1 1 100]) ++ [OpRemoveId 97 98]) in E.
    apply app_inj_tail in E. destruct E as [<- <-]. injection Ht as <-. right.
    assert (length (filter (of_pair (97, 98)%N) (sp_live C1 W1_reused (base ++ [lc_ab 0 0 100; lc_ab 2 0 300; lc_ab 1 1 100]))) = 3) as Y
      by (vm_compute; reflexivity).
    rewrite Y. exact (le_n 3). }
  split; [exact HR|]. split; [reflexivity|]. apply is_bet_In in H1. apply is_bet_In in H2. split; [exact H1|].
  split; [exact H2|]. clear. repeat split; vm_compute; reflexivity.
Qed.
Print Assumptions C44_records_kept_refuted.

(** What holds of every history: PropInc. *)
Example C44_example : (* the pair that disagreed with the others is still out, or alone after removals *)
  after C1 (base ++ [lc_ab 0 0 100; lc_ab 2 0 300; lc_ab 1 1 100; lc_ab 3 1 80; OpRemoveId 97 98])
    (fun s => keys_of (skipn 6 (s_nfg s))) = Some [[ka 0; kb 0]; [ka 1; kb 1]].
Proof. vm_compute. reflexivity. Qed.

(** ** C45 *)
(** A call that throws leaves the solver usable.  Refuted: the failed call has already stored its
    prior, so that more known inliers are announced than the graph has factors. *)
Definition cfg_bias := Cfg [108%N] true true false false true false true false false false.
Definition half_done := OpUpdate [pri (ka 0) gp_id; bet (kc 0) (kc 1) (fwd 1)] [val (kc 1) (fwd 4)] true.
Theorem C45_usable_after_exception_refuted : exists O C (W : soracles O) h s rs o s' e o',
  run C W h (solver_init true) = Ok s rs /\ step C W o s = Throw s' e /\ step C W o' s' = Undef OutOfBounds.
Proof.
  exists O1, cfg_bias, W1, base.
  destruct (@run_check O1 cfg_bias W1 base true (fun s => match step cfg_bias W1 half_done s with
     | Throw s' _ => match step cfg_bias W1 (OpForce [] []) s' with Undef v => v = OutOfBounds | _ => False end
     | _ => False end)) as (s & rs & HR & H1). { vm_compute. auto. }
  destruct (throw_check (step cfg_bias W1 half_done s)
     (fun s' _ => match step cfg_bias W1 (OpForce [] []) s' with Undef v => v = OutOfBounds | _ => False end) H1) as (s' & e & E & H2).
  exists s, rs, half_done, s', e, (OpForce [] []). split; [exact HR|]. split; [exact E|]. exact (undef_check _ _ H2).
Qed.
Print Assumptions C45_usable_after_exception_refuted.

(** So it is in the very first call, when the graph is empty (a GTSAM release whose GNC constructor
    compares known inliers with the size of the graph minus one does not notice). *)
Theorem C45_first_call_refuted : exists O C (W : soracles O) o s' e o',
  step C W o (solver_init true) = Throw s' e /\ s_nfg s' = [] /\ s_tnfg s' = [] /\ step C W o' s' = Undef OutOfBounds.
Proof.
  exists O1, cfg_bias, W1, half_done.
  destruct (throw_check (step cfg_bias W1 half_done (solver_init true))
     (fun s' _ => length (s_nfg s') = 0 /\ length (s_tnfg s') = 0 /\ match step cfg_bias W1 (OpForce [] []) s' with Undef v => v = OutOfBounds | _ => False end)) as (s' & e & E & H1 & H2 & H3).
  { vm_compute. auto. }
  exists s', e, (OpForce [] []). split; [exact E|]. split; [apply length_zero_iff_nil; exact H1|]. split; [apply length_zero_iff_nil; exact H2|]. exact (undef_check _ _ H3).
Qed.
Print Assumptions C45_first_call_refuted.

(** What holds: a caller who catches all exceptions and goes on never meets undefined behaviour
    with GNC, if odometry bias and fixed inliers are off and nothing is removed. *)
Theorem C45_usable_after_exception_partial : forall O C (W : soracles O) h u,
  decent_history C h -> no_removal h -> small C (length (sp_all h)) ->
  c_gnc C = true -> c_fix C = false -> c_bias C = false -> run_on C W h (solver_init true) <> Bad u.
Proof. exact safe_run_on. Qed.
Print Assumptions C45_usable_after_exception_partial.

Example C45_example : match run_on cfg_gnc W1 (base ++ [half_done; lc_good; start_a; OpForce [] []; lc_ab 0 0 100]) (solver_init true) with
  | Val s => Some (keys_of (skipn 6 (s_nfg s))) | Bad _ => None end = Some [[kb 0]; [ka 0]; [ka 0; ka 3]; [ka 0; kb 0]].
Proof. vm_compute. reflexivity. Qed.
