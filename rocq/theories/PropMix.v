(** * Property C73: how the factors of a call are mixed does not matter *)
From Coq Require Import QArith Permutation.
From Verif Require Import Prelude Num Keys KMap UMap Geometry Factors Clique Pcm Params Solver Grid
  PcmSpec PcmProofs PcmInv HistSpec StoreSpec MixSpec MixProofs ShuffleProofs Scenes.
Local Open Scope nat_scope.

(** Calls with the same odometry, first sightings, closure candidates and other factors, each kind
    in the same order, end the same way and leave the same solver. *)
Theorem C73_mixing : forall O C (W : soracles O) h h', Forall2 (remixed_op (c_special C)) h h' ->
  same_end (run C W h (solver_init true)) (run C W h' (solver_init true)).
Proof. exact mixing. Qed.
Print Assumptions C73_mixing.

(** One call with odometry, a null slot, a first sighting, a factor from a pose to itself, closures,
    another sighting and a prior: as one would write it down, and the other way round. *)
Definition tidy := OpUpdate
  [bet (ka 3) (ka 4) (fwd 10); bet (ka 4) (kl 2) (fwd 1); bet (ka 2) (kl 1) (fwd (-15)); bet (ka 0) (kb 1) (fwd 110);
   bet (ka 0) (ka 2) (fwd 99); pri (ka 4) (fwd 40)]
  [val (ka 4) (fwd 40); val (kl 2) (fwd 41)] true.
Definition untidy := OpUpdate
  [pri (ka 4) (fwd 40); None; bet (ka 2) (kl 1) (fwd (-15)); bet (ka 0) (ka 0) gp_id; bet (ka 0) (kb 1) (fwd 110);
   bet (ka 4) (kl 2) (fwd 1); bet (ka 0) (ka 2) (fwd 99); bet (ka 3) (ka 4) (fwd 10); None]
  [val (ka 4) (fwd 40); val (kl 2) (fwd 41)] true.

Lemma remixed_refl {O} sp h : Forall2 (@remixed_op O sp) h h.
Proof.
  induction h as [|o h IH]; constructor; auto. destruct o; cbn [remixed_op]; auto; repeat split; auto.
Qed.
Example C73_mixing_example : Forall2 (remixed_op (c_special C1)) (base ++ [lm_first; tidy; lc_good]) (base ++ [lm_first; untidy; lc_good]) /\
  exists s rs, run C1 W1 (base ++ [lm_first; tidy; lc_good]) (solver_init true) = Ok s rs /\ length (s_nfg s) = 13.
Proof.
  split.
  - apply Forall2_app; [apply remixed_refl|]. constructor; [repeat split; auto|].
    constructor; [|apply (@remixed_refl O1 _ [lc_good])]. cbn [remixed_op tidy untidy]. split; [reflexivity|]. split; [reflexivity|].
    split; try reflexivity. split; intro X; discriminate X.
  - apply run_check; vm_compute; reflexivity.
Qed.

(** The closure candidates of a call in another order: the odometry, the trajectories and the other
    factors are the same and for every pair of robots and every landmark the same closures are
    stored, in another order. *)
Theorem C73_reordered_closures_partial : forall O C (W : soracles O) h o o' fs fs' vs s s' rs rs',
  call_of o = Some (fs, vs) -> call_of o' = Some (fs', vs) -> reordered (c_special C) vs fs fs' ->
  run C W (h ++ [o]) (solver_init true) = Ok s rs -> run C W (h ++ [o']) (solver_init true) = Ok s' rs' ->
  exists p p', s_pcm s = Some p /\ s_pcm s' = Some p' /\
  p_odom p = p_odom p' /\ p_special p = p_special p' /\ (forall c k, tref p c k = tref p' c k) /\
  (forall id, Permutation (me_factors (lc_get id (p_lcs p))) (me_factors (lc_get id (p_lcs p')))) /\
  (forall l, Permutation (me_factors (lm_get l (p_lms p))) (me_factors (lm_get l (p_lms p')))).
Proof. exact reordering. Qed.
Print Assumptions C73_reordered_closures_partial.

(** Without the pairwise check the same closures are accepted. *)
Theorem C73_reordered_closures_without_check : forall O C (W : soracles O) h o o' fs fs' vs s s' rs rs' id,
  call_of o = Some (fs, vs) -> call_of o' = Some (fs', vs) -> reordered (c_special C) vs fs fs' ->
  run C W (h ++ [o]) (solver_init true) = Ok s rs -> run C W (h ++ [o']) (solver_init true) = Ok s' rs' ->
  no_removal h -> c_incremental C = false -> c_loop_check C = false ->
  Permutation (graph_lcs C (h ++ [o]) id (s_nfg s)) (graph_lcs C (h ++ [o']) id (s_nfg s')).
Proof. exact reordering_off. Qed.
Print Assumptions C73_reordered_closures_without_check.

(** With the pairwise check the first of two that contradict each other wins. *)
Definition rivals_12 := OpUpdate [bet (ka 0) (kb 0) (fwd 100); bet (ka 0) (kb 0) (fwd 300)] [] true.
Definition rivals_21 := OpUpdate [bet (ka 0) (kb 0) (fwd 300); bet (ka 0) (kb 0) (fwd 100)] [] true.
Definition cfg_unchecked := Cfg [108%N] true false false false false false false false false false.

Lemma rivals_reordered : reordered (O := O1) [108%N] [] [bet (ka 0) (kb 0) (fwd 100); bet (ka 0) (kb 0) (fwd 300)]
  [bet (ka 0) (kb 0) (fwd 300); bet (ka 0) (kb 0) (fwd 100)].
Proof. split; try reflexivity; [split; intro X; discriminate X|]. apply perm_swap. Qed.

Example C73_reordered_example : reordered (O := O1) [108%N] [] [bet (ka 0) (kb 0) (fwd 100); bet (ka 0) (kb 0) (fwd 300)]
    [bet (ka 0) (kb 0) (fwd 300); bet (ka 0) (kb 0) (fwd 100)] /\
  (exists s rs, run cfg_unchecked W1 (base ++ [rivals_12]) (solver_init true) = Ok s rs /\ length (s_nfg s) = 8) /\
  (exists s rs, run cfg_unchecked W1 (base ++ [rivals_21]) (solver_init true) = Ok s rs /\ length (s_nfg s) = 8).
Proof. split; [apply rivals_reordered|]. split; apply run_check; vm_compute; reflexivity. Qed.

Theorem C73_closure_order_refuted : exists O C (W : soracles O) h o o' fs fs' vs s s' rs rs' f g,
  call_of o = Some (fs, vs) /\ call_of o' = Some (fs', vs) /\ reordered (c_special C) vs fs fs' /\
  run C W (h ++ [o]) (solver_init true) = Ok s rs /\ run C W (h ++ [o']) (solver_init true) = Ok s' rs' /\
  In (Some (FBetween f)) (s_nfg s) /\ ~ In (Some (FBetween g)) (s_nfg s) /\
  In (Some (FBetween g)) (s_nfg s') /\ ~ In (Some (FBetween f)) (s_nfg s').
Proof.
  set (f := nb pp1 (ka 0) (kb 0) (fwd 100)). set (g := nb pp1 (ka 0) (kb 0) (fwd 300)).
  destruct (@run_check O1 C1 W1 (base ++ [rivals_12]) true (fun s => existsb (is_bet f) (s_nfg s) = true /\ existsb (is_bet g) (s_nfg s) = false)) as (s & rs & A & A1 & A2).
  { vm_compute. split; reflexivity. }
  destruct (@run_check O1 C1 W1 (base ++ [rivals_21]) true (fun s => existsb (is_bet g) (s_nfg s) = true /\ existsb (is_bet f) (s_nfg s) = false)) as (s' & rs' & B & B1 & B2).
  { vm_compute. split; reflexivity. }
  assert (IN : forall b (l : graph_t O1), existsb (is_bet b) l = true <-> In (Some (FBetween b)) l).
  { intros b l. rewrite existsb_exists. split.
    - intros (x & X & Y). destruct x as [[c| | |]|]; try discriminate Y. cbn [is_bet] in Y. apply nb_eqb_eq in Y. subst c. exact X.
    - intro X. exists (Some (FBetween b)). split; auto. cbn [is_bet]. apply nb_eqb_eq. reflexivity. }
  exists O1, C1, W1, base, rivals_12, rivals_21, [bet (ka 0) (kb 0) (fwd 100); bet (ka 0) (kb 0) (fwd 300)],
    [bet (ka 0) (kb 0) (fwd 300); bet (ka 0) (kb 0) (fwd 100)], [], s, s', rs, rs', f, g.
  split; [reflexivity|]. split; [reflexivity|]. split; [exact rivals_reordered|]. split; [exact A|]. split; [exact B|].
  rewrite <- !IN, A1, A2, B1, B2. repeat split; discriminate.
Qed.
Print Assumptions C73_closure_order_refuted.
