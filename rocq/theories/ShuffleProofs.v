(** * Closures of one call in another order *)
From Coq Require Import QArith Lia Permutation.
From Verif Require Import Prelude Keys KMap UMap Geometry Factors Clique Pcm Solver PcmSpec PcmProofs PcmInv PcmStore HistSpec StoreSpec
  SolverProofs HistProofs GraphProofs StoreProofs AcceptProofs LiveProofs StoreThms MixSpec MixProofs.
Set Implicit Arguments.
Local Open Scope nat_scope.

Lemma perm_filter A (f : A -> bool) l l' : Permutation l l' -> Permutation (filter f l) (filter f l').
Proof.
  induction 1 as [|x l l' H IH|x y l|l l' l'' H IH H' IH']; cbn [filter]; auto.
  - destruct (f x); auto.
  - destruct (f x), (f y); auto. apply perm_swap.
  - eapply perm_trans; eauto.
Qed.

Section S.
Variable O : tops.
Variable C : config.
Variable W : soracles O.
Notation bf := (bf O).
Notation values := (values O).
Notation graph_t := (graph_t O).
Notation solver := (solver O).
Notation op := (op O).
Notation pcm := (pcm O).
Notation sp := (c_special C).
Notation start := (solver_init true).

(** The trajectories a call leaves are those after its odometry. *)
Lemma removal_trajs fs vs (p : pcm) nfg v (st : pst O) b :
  remove_outliers C (so_pcm W) fs vs (PSt p nfg v) = Ok st b ->
  exists vals u p1 r, vinsert_all vs v = Ok vals u /\ proc_factors C vs vals fs p ([], false) = Ok p1 r /\
    forall c k, tref (ps_pcm st) c k = tref p1 c k.
Proof.
  intro E. apply remove_outliers_inv in E. cbn [ps_pcm ps_nfg ps_vals] in E. destruct E as (vals & u & q & EV & HRO & _ & _ & HN & HA).
  assert (TQ : p_trajs (ps_pcm st) = p_trajs q).
  { destruct (c_align C); [destruct (HA eq_refl) as [[-> _]|(_ & _ & -> & _)]; auto|]. rewrite (HN eq_refl). auto. }
  exists vals, u. inversion HRO as [X0|p1 opt Hne EP|p1 lcs opt p2 p3 Hne EP Hlc HP HSel HFI]; subst.
  - exists q, ([], false). split; auto. split; [reflexivity|]. apply tref_trajs. auto.
  - exists q, ([], b). split; auto. split; auto. apply tref_trajs. auto.
  - exists p1, (lcs, opt). split; auto. split; auto. intros c k. rewrite (tref_trajs _ _ TQ).
    apply parsed_list_ok in HP. destruct HP as (_ & _ & _ & _ & _ & T & _). rewrite <- T. apply tref_trajs.
    destruct HSel as (_ & _ & HS). rewrite HS. reflexivity.
Qed.

Lemma proc_reordered nv vals (fs fs' : graph_t) (p p1 p1' : pcm) acc r r' : reordered sp nv fs fs' ->
  proc_factors C nv vals fs p acc = Ok p1 r -> proc_factors C nv vals fs' p acc = Ok p1' r' -> p1 = p1'.
Proof.
  intros R A B. pose proof (proc_sorted C nv vals fs p acc) as X. pose proof (proc_sorted C nv vals fs' p acc) as Y.
  rewrite A in X. rewrite B in Y. unfold sorted_out in X, Y. rewrite <- (ro_odometry R), <- (ro_first R), <- (ro_others R) in Y.
  destruct (odo_all vals (filter (sp_odometry sp nv) (betweens fs)) p) as [q z|q e|u]; cbn [obind same_end] in X, Y; try tauto.
  destruct X as [-> _], Y as [-> _]. reflexivity.
Qed.

Theorem reordering h o o' fs fs' vs (s s' : solver) rs rs' :
  call_of o = Some (fs, vs) -> call_of o' = Some (fs', vs) -> reordered sp vs fs fs' ->
  run C W (h ++ [o]) start = Ok s rs -> run C W (h ++ [o']) start = Ok s' rs' ->
  exists p p', s_pcm s = Some p /\ s_pcm s' = Some p' /\
  p_odom p = p_odom p' /\ p_special p = p_special p' /\ (forall c k, tref p c k = tref p' c k) /\
  (forall id, Permutation (me_factors (lc_get id (p_lcs p))) (me_factors (lc_get id (p_lcs p')))) /\
  (forall l, Permutation (me_factors (lm_get l (p_lms p))) (me_factors (lm_get l (p_lms p')))).
Proof.
  intros Hc Hc' R H H'.
  destruct (c11_containers _ _ _ H) as (p & Hp & A1 & A2 & A3 & A4). destruct (c11_containers _ _ _ H') as (p' & Hp' & B1 & B2 & B3 & B4).
  exists p, p'. split; auto. split; auto.
  assert (TR : forall c k, refs_after C W (h ++ [o]) c k = refs_after C W (h ++ [o']) c k).
  { destruct (run_call _ _ _ _ H Hc) as (s0 & rs0 & q & q1 & n1 & v1 & b1 & R0 & I0 & Q1 & E1 & T1 & _).
    destruct (run_call _ _ _ _ H' Hc') as (s0' & rs0' & q' & q1' & n1' & v1' & b1' & R0' & I0' & Q1' & E1' & T1' & _).
    rewrite R0 in R0'. injection R0' as <- <-. assert (q' = q) by (pose proof (hi_pcm I0); pose proof (hi_pcm I0'); congruence). subst q'.
    apply removal_trajs in E1, E1'. destruct E1 as (w & z & g & r & V & P & T), E1' as (w' & z' & g' & r' & V' & P' & T').
    rewrite V in V'. injection V' as <- <-. rewrite <- (proc_reordered _ _ _ R P P') in T'. cbn [ps_pcm] in T, T'.
    intros c k. rewrite <- T1, <- T1', T, T'. reflexivity. }
  assert (KN : forall k, knows (h ++ [o]) k = knows (h ++ [o']) k).
  { intro k. apply eq_true_iff_eq. rewrite !knows_supplied, !supplied_snoc, Hc, Hc'. split; (intros [X|X]; [auto|right]);
      destruct X as (f & v & X & Y); injection X as <- <-; eauto. }
  split; [rewrite A1, B1, !sp_odoms_snoc, Hc, Hc', (ro_odometry R); reflexivity|].
  split; [rewrite A2, B2, !sp_others_snoc; destruct o, o'; try discriminate Hc; try discriminate Hc'; injection Hc as -> ->; injection Hc' as -> _; cbn [sp_others_step]; rewrite (ro_others R); reflexivity|].
  split; [intros c k; rewrite <- (refs_after_run _ _ _ H Hp), <- (refs_after_run _ _ _ H' Hp'); apply TR|].
  split.
  - intro id. rewrite A3, B3. apply perm_filter.
    pose proof (sp_live_snoc C W h o) as E. pose proof (sp_live_snoc C W h o') as E'.
    assert (L : sp_live C W (h ++ [o]) = sp_live C W h ++ map fst (newly C W h o)) by (destruct o; try discriminate Hc; cbn [live_step] in E; injection E; auto).
    assert (L' : sp_live C W (h ++ [o']) = sp_live C W h ++ map fst (newly C W h o')) by (destruct o'; try discriminate Hc'; cbn [live_step] in E'; injection E'; auto).
    rewrite L, L'. apply Permutation_app_head. unfold newly. rewrite Hc, Hc', !map_map. cbn [fst]. rewrite !map_id.
    rewrite (filter_ext _ (stores C (knows (h ++ [o'])) (refs_after C W (h ++ [o'])))).
    { apply perm_filter, (ro_candidates R). }
    intro b. unfold stores. rewrite !KN. rewrite (passes_odom_ext C _ _ b TR). reflexivity.
  - intro l. rewrite A4, B4, !sp_sightings_snoc. unfold sighted. rewrite Hc, Hc', !app_assoc.
    assert (GA : forall r M (F : list bf), current C l (M ++ map (fun b => Sight false (b, r)) F) =
      current C l M ++ map (@si_obs O) (filter (fun x => of_landmark C l (fst (si_obs x))) (map (fun b => Sight false (b, r)) F))).
    { intros r M F. apply current_app_again. intros x Hx _. apply in_map_iff in Hx. destruct Hx as (b & <- & _). reflexivity. }
    rewrite !GA, !(map_app fst). apply Permutation_app.
    + rewrite <- (ro_first R).
      assert (G : forall r r' M (F : list bf), map fst (current C l (M ++ map (fun b => Sight true (b, r)) F)) = map fst (current C l (M ++ map (fun b => Sight true (b, r')) F))).
      { clear. intros r r' M F. induction F as [|b F IH] using rev_ind; cbn [map]; [reflexivity|]. rewrite !map_app, !app_assoc. cbn [map]. rewrite !current_snoc.
        cbn [si_obs si_first fst]. destruct (of_landmark C l b); [reflexivity|apply IH]. }
      rewrite (G _ (refs_after C W (h ++ [o']))). apply Permutation_refl.
    + assert (G : forall r (F : list bf), map fst (map (@si_obs O) (filter (fun x => of_landmark C l (fst (si_obs x))) (map (fun b => Sight false (b, r)) F))) = filter (of_landmark C l) F).
      { clear. intros r F. induction F as [|b F IH]; cbn [map filter si_obs fst]; [reflexivity|]. destruct (of_landmark C l b); cbn [map si_obs fst]; rewrite IH; reflexivity. }
      rewrite !G. apply perm_filter. rewrite (filter_ext _ (stores_lm C (knows (h ++ [o'])))) by (intro b; unfold stores_lm; rewrite !KN; reflexivity).
      apply perm_filter, (ro_candidates R).
Qed.
Lemma pair_ignored_call (h : list op) (o : op) (fs : graph_t) (vs : values) id : call_of o = Some (fs, vs) -> pair_ignored (h ++ [o]) id = pair_ignored h id.
Proof. intro H. unfold pair_ignored. rewrite !sp_ignored_snoc. destruct o; try discriminate H; reflexivity. Qed.

(** Without the pairwise check, what is in the graph. *)
Theorem reordering_off h o o' fs fs' vs (s s' : solver) rs rs' id :
  call_of o = Some (fs, vs) -> call_of o' = Some (fs', vs) -> reordered sp vs fs fs' ->
  run C W (h ++ [o]) start = Ok s rs -> run C W (h ++ [o']) start = Ok s' rs' ->
  no_removal h -> c_incremental C = false -> c_loop_check C = false ->
  Permutation (graph_lcs C (h ++ [o]) id (s_nfg s)) (graph_lcs C (h ++ [o']) id (s_nfg s')).
Proof.
  intros Hc Hc' R H H' NR HI HL.
  destruct (reordering _ _ _ Hc Hc' R H H') as (p & p' & Hp & Hp' & _ & _ & _ & P & _).
  assert (NR1 : no_removal (h ++ [o])).
  { intros x Hx. apply in_app_or in Hx. destruct Hx as [Hx|[<-|[]]]; auto. destruct o; try discriminate Hc; reflexivity. }
  assert (NR2 : no_removal (h ++ [o'])).
  { intros x Hx. apply in_app_or in Hx. destruct Hx as [Hx|[<-|[]]]; auto. destruct o'; try discriminate Hc'; reflexivity. }
  assert (G : forall g (t : solver) q qs, run C W g start = Ok t qs -> no_removal g -> s_pcm t = Some q ->
    graph_lcs C g id (s_nfg t) = if pair_ignored g id then [] else me_factors (lc_get id (p_lcs q))).
  { clear - HI HL. intros g t q qs X N Q. destruct (store_hist _ _ _ X) as (q' & I & J). assert (q' = q) by (pose proof (hi_pcm I); congruence). subst q'.
    destruct (pair_ignored g id) eqn:E; [rewrite (graph_lcs_eq id I), E; auto|].
    rewrite (accepted_off C W id X N HI HL E). unfold pair_items. rewrite filter_fst. symmetry. apply (ho_lcs (si_lc J N)). }
  rewrite (G _ _ _ _ H NR1 Hp), (G _ _ _ _ H' NR2 Hp'), (pair_ignored_call _ _ _ Hc), (pair_ignored_call _ _ _ Hc').
  destruct (pair_ignored h id); auto.
Qed.
End S.
