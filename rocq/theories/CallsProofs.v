(** * The outlier rejection depends on the calls only *)
From Coq Require Import Permutation QArith Lia Sorted.
From Verif Require Import Prelude Keys KMap UMap Geometry Factors Clique Pcm Solver ValuesProofs
  PcmSpec PcmProofs PcmInv PcmStore HistSpec SolverProofs HistProofs GraphProofs TrajProofs
  DeliverProofs CallsSpec.
Set Implicit Arguments.
Local Open Scope nat_scope.

Section Calls.
Variable O : tops.
Variable C : config.
Notation bf := (bf O).
Notation factor := (factor O).
Notation values := (values O).
Notation graph_t := (graph_t O).
Notation pcm := (pcm O).
Notation solver := (solver O).
Notation op := (op O).
Notation sp := (c_special C).
Notation start := (solver_init (O := O) true).

(** Every robot with odometry has a trajectory. *)
Definition tracked (p : pcm) : Prop := forall b, In b (p_odom p) -> n_find (chr (b_to b)) (p_trajs p) <> None.

Lemma update_odom_odom vals b (p p' : pcm) u : update_odom vals b p = Ok p' u -> p_odom p' = p_odom p ++ [b].
Proof.
  unfold update_odom. destruct (t_of O b); [|discriminate]. cbn [p_trajs set_odom].
  destruct (n_find (chr (b_to b)) (p_trajs p)); cbn [obind].
  - intro H. injection H as <-. auto.
  - destruct (kfind (b_from b) vals) as [[]|]; cbn [obind]; try discriminate. intro H. injection H as <-. auto.
Qed.

Lemma update_odom_tracked vals b (p p' : pcm) u : b_from b <> b_to b -> update_odom vals b p = Ok p' u ->
  tracked p -> tracked p'.
Proof.
  intros Hne H T b' Hb. pose proof (update_odom_odom _ _ _ H) as E. rewrite E in Hb.
  apply update_odom_inv in H; auto. destruct H as (d & _ & H1 & H2 & _).
  destruct (N.eq_dec (chr (b_to b')) (chr (b_to b))) as [->|Hc]; [exact H1|].
  rewrite H2 by auto. apply in_app_or in Hb. destruct Hb as [Hb|[<-|[]]]; [auto|congruence].
Qed.

Lemma proc_factor_odom nv vals (of : option factor) (p p' : pcm) acc acc' :
  proc_factor C nv vals of p acc = Ok p' acc' ->
  p_odom p' = p_odom p ++ filter (sp_odometry sp nv) (betweens [of]).
Proof.
  unfold proc_factor. destruct of as [[b|k x|k t|ks t]|]; cbn [betweens flat_map app filter];
    rewrite ?app_nil_r; try (intro H; injection H as <- _; auto; fail).
  rewrite classify_spec. destruct (sp_first sp nv b) eqn:EF.
  - rewrite (@first_not_odometry _ C nv b EF). rewrite app_nil_r. intro H. injection H as <- _. auto.
  - destruct (sp_odometry sp nv b).
    + destruct (update_odom vals b p) as [p1 u| |] eqn:E; cbn [obind]; try discriminate. intro H. injection H as <- _.
      eapply update_odom_odom; eauto.
    + rewrite app_nil_r. destruct (b_from b =? b_to b)%N; intro H; injection H as <- _; auto.
Qed.

Lemma proc_factor_tracked nv vals (of : option factor) (p p' : pcm) acc acc' :
  proc_factor C nv vals of p acc = Ok p' acc' -> tracked p -> tracked p'.
Proof.
  intros H T. pose proof (proc_factor_odom _ _ _ _ _ H) as E. apply proc_factor_trajs in H.
  destruct of as [[b|k x|k t|ks t]|]; cbn [betweens flat_map app filter] in E; rewrite ?app_nil_r in E;
    try (intros b' Hb'; rewrite H; rewrite E in Hb'; exact (T b' Hb')).
  destruct (sp_odometry sp nv b) eqn:EO.
  - destruct H as [u H]. eapply update_odom_tracked; eauto. eapply odometry_neq; eauto.
  - rewrite app_nil_r in E. intros b' Hb'; rewrite H; rewrite E in Hb'; exact (T b' Hb').
Qed.

Lemma proc_factors_tracked nv vals fs : forall (p p' : pcm) acc acc',
  proc_factors C nv vals fs p acc = Ok p' acc' -> tracked p -> tracked p'.
Proof.
  induction fs as [|of fs IH]; intros p p' acc acc' H T; cbn [proc_factors] in H.
  - injection H as <- _. auto.
  - destruct (proc_factor C nv vals of p acc) as [p1 acc1| |] eqn:E; cbn [obind] in H; try discriminate.
    eapply IH; [exact H|]. eapply proc_factor_tracked; eauto.
Qed.

Definition first_supplied (nv : values) (fs : graph_t) (p : pcm) : Prop :=
  forall l1 b l2, filter (sp_odometry sp nv) (betweens fs) = l1 ++ b :: l2 ->
    (forall b', In b' (p_odom p ++ l1) -> chr (b_to b') <> chr (b_to b)) -> In (b_from b) (map fst nv).

(** Two sets of values with the same variables and the same content for the new ones. *)
Definition agree (nv v1 v2 : values) : Prop :=
  (forall k, kmem k v1 = kmem k v2) /\ forall k, In k (map fst nv) -> kfind k v1 = kfind k v2.

Lemma proc_factor_agree nv v1 v2 of (p : pcm) acc : agree nv v1 v2 -> tracked p ->
  (forall b l, filter (sp_odometry sp nv) (betweens [of]) = b :: l ->
     (forall b', In b' (p_odom p) -> chr (b_to b') <> chr (b_to b)) -> In (b_from b) (map fst nv)) ->
  proc_factor C nv v1 of p acc = proc_factor C nv v2 of p acc.
Proof.
  intros [A1 A2] T HF. unfold proc_factor. destruct of as [[b|k x|k t|ks t]|]; auto.
  rewrite classify_spec. destruct (sp_first sp nv b); auto. destruct (sp_odometry sp nv b) eqn:EO; auto.
  f_equal. unfold update_odom. destruct (t_of O b); auto. cbn [p_trajs set_odom].
  destruct (n_find (chr (b_to b)) (p_trajs p)) eqn:EN; auto.
  rewrite A2; auto. apply (HF b []).
  - cbn [betweens flat_map app filter]. rewrite EO. auto.
  - intros b' Hb' Ec. apply (T b' Hb'). rewrite Ec. exact EN.
Qed.

Lemma proc_factors_agree nv v1 v2 fs : agree nv v1 v2 -> forall (p : pcm) acc, tracked p -> first_supplied nv fs p ->
  proc_factors C nv v1 fs p acc = proc_factors C nv v2 fs p acc.
Proof.
  intro A. induction fs as [|of fs IH]; intros p acc T HF; cbn [proc_factors]; auto.
  assert (EB : betweens (of :: fs) = betweens [of] ++ betweens fs).
  { unfold betweens. cbn [flat_map]. rewrite app_nil_r. auto. }
  rewrite (@proc_factor_agree nv v1 v2 of p acc A T).
  2:{ intros b l E Hn. apply (HF [] b (l ++ filter (sp_odometry sp nv) (betweens fs))).
      - rewrite EB, filter_app, E. auto.
      - rewrite app_nil_r. auto. }
  destruct (proc_factor C nv v2 of p acc) as [p1 acc1| |] eqn:E; cbn [obind]; auto.
  apply IH; [eapply proc_factor_tracked; eauto|].
  intros l1 b l2 El Hn. apply (HF (filter (sp_odometry sp nv) (betweens [of]) ++ l1) b l2).
  - rewrite EB, filter_app, El, app_assoc. auto.
  - rewrite app_assoc, <- (proc_factor_odom _ _ _ _ _ E). auto.
Qed.

Lemma parse_all_agree v1 v2 cs (p : pcm) : (forall k, kmem k v1 = kmem k v2) -> parse_all C v1 cs p = parse_all C v2 cs p.
Proof.
  intro A. unfold parse_all. match goal with |- rfold _ _ ?x = _ => generalize x end.
  induction cs as [|c cs IH]; intro x; cbn [rfold]; auto. rewrite (parse_one_keys C v1 v2 c x A).
  destruct (parse_one C v2 c x); cbn; auto.
Qed.

Lemma ro_agree w w' fs nv (p : pcm) g1 g2 v1 v2 st1 st2 b1 b2 : tracked p -> first_supplied nv fs p ->
  (forall k, kmem k v1 = kmem k v2) ->
  remove_outliers C w fs nv (PSt p g1 v1) = Ok st1 b1 -> remove_outliers C w' fs nv (PSt p g2 v2) = Ok st2 b2 ->
  ps_pcm st1 = ps_pcm st2 /\ b1 = b2.
Proof.
  intros T HF A. unfold remove_outliers. cbn [ps_pcm ps_nfg ps_vals].
  destruct (vinsert_all nv v1) as [u1 x1| |] eqn:E1; try discriminate.
  destruct (vinsert_all nv v2) as [u2 x2| |] eqn:E2; try discriminate.
  assert (AG : agree nv u1 u2).
  { split.
    - intro k. rewrite (vinsert_all_mem _ _ k E1), (vinsert_all_mem _ _ k E2), A. auto.
    - intros k Hk. apply vinsert_all_ok in E1, E2. destruct E1 as (F1 & F2 & _), E2 as (G1 & G2 & _).
      specialize (F2 k Hk). specialize (G2 k Hk). rewrite F1, G1. unfold kmem in *.
      destruct (kfind k v1); [discriminate|]. destruct (kfind k v2); [discriminate|]. auto. }
  destruct fs as [|of fs].
  { intros H1 H2. injection H1 as <- <-. injection H2 as <- <-. auto. }
  rewrite (@proc_factors_agree nv u1 u2 _ AG p _ T HF).
  destruct (proc_factors C nv u2 (of :: fs) p ([], false)) as [p1 [lcs opt]| |]; try discriminate.
  rewrite (parse_all_agree u1 u2 lcs p1 (proj1 AG)).
  match goal with |- context [match ?r with Bad _ => _ | Val _ => _ end] => destruct r as [[p3 opt']|]; try discriminate end.
  destruct (c_align C && (1 <? length (p_robots p3))).
  - destruct (align w _ u1) as [? []| |]; try discriminate. intro H1. injection H1 as <- <-.
    destruct (align w' _ u2) as [? []| |]; try discriminate. intro H2. injection H2 as <- <-. auto.
  - intros H1 H2. injection H1 as <- <-. injection H2 as <- <-. auto.
Qed.

Lemma ro_tracked (W : soracles O) fs nv (p p' : pcm) nfg nfg' v v' b :
  remove_outliers C (so_pcm W) fs nv (PSt p nfg v) = Ok (PSt p' nfg' v') b -> tracked p -> tracked p'.
Proof.
  intros H T. pose proof H as H0. apply remove_outliers_trajs in H. destruct H as (vs & u & p1 & acc & _ & HP & KS & _).
  pose proof (@proc_factors_tracked nv vs fs p p1 _ _ HP T) as T1. intros x Hx. apply KS, T1.
  pose proof (proc_factors_frame _ _ _ _ _ _ HP) as F. apply remove_outliers_ok in H0. destruct H0 as (E & _).
  rewrite E in Hx. destruct F as (F1 & _). rewrite F1. exact Hx.
Qed.

Lemma run_tracked W h (s : solver) rs p : run C W h start = Ok s rs -> s_pcm s = Some p -> tracked p.
Proof.
  intros H Hp. cut (exists p, s_pcm s = Some p /\ tracked p); [intros (q & E & T); rewrite Hp in E; injection E as ->; exact T|]. revert H. clear p Hp.
  apply (run_ind C W (fun _ s => exists p, s_pcm s = Some p /\ tracked p)).
  { exists pcm_init. split; auto. intros b []. }
  clear h s rs. intros h s o s' r rs HR (p & Hp & T) Hs.
  pose proof (@step_calls O C W o s s' r p Hp Hs) as (p' & Hp' & G1 & G2). exists p'. split; auto.
  destruct (call_of o) as [[fs vs]|] eqn:EC.
  - destruct (G2 _ _ eq_refl) as (nfg' & v' & b & E). eapply ro_tracked; eauto.
  - destruct (G1 eq_refl) as [E _].
    assert (R1 : run C W (h ++ [o]) start = Ok s' (rs ++ [r])).
    { eapply run_app_ok; eauto. cbn [run]. rewrite Hs. reflexivity. }
    destruct (hist_run C W _ HR) as [q I]. destruct (hist_run C W _ R1) as [q' I'].
    assert (q = p) by (pose proof (hi_pcm I); congruence). assert (q' = p') by (pose proof (hi_pcm I'); congruence). subst.
    intros b Hb. rewrite E. apply T. rewrite (hi_odom I). rewrite (hi_odom I'), sp_odoms_snoc, EC, app_nil_r in Hb. auto.
Qed.

(** What a call returns. *)
Lemma step_rets W o (s s' : solver) r : step C W o s = Ok s' r -> is_removal o = false -> r = None.
Proof.
  intros H Hr. destruct o; cbn [is_removal] in Hr; try discriminate Hr; cbn [step] in H; unfold no_ret in H;
  match type of H with obind ?x _ = _ => destruct x as [? []| |]; cbn [obind] in H; try discriminate; injection H as _ <-; auto end.
Qed.

Lemma sorted_same (l1 l2 : list N) : StronglySorted N.lt l1 -> StronglySorted N.lt l2 ->
  (forall k, In k l1 <-> In k l2) -> l1 = l2.
Proof.
  revert l2. induction l1 as [|a l1 IH]; intros l2 H1 H2 E.
  - destruct l2 as [|b l2]; auto. exfalso. apply (E b). left; auto.
  - destruct l2 as [|b l2]; [exfalso; apply (E a); left; auto|].
    apply StronglySorted_inv in H1, H2. destruct H1 as [H1 F1], H2 as [H2 F2]. rewrite Forall_forall in F1, F2.
    assert (a = b).
    { destruct (proj1 (E a) (or_introl eq_refl)) as [<-|X]; auto. destruct (proj2 (E b) (or_introl eq_refl)) as [<-|Y]; auto.
      specialize (F1 _ Y). specialize (F2 _ X). lia. }
    subst b. f_equal. apply IH; auto. intro k. split; intro X.
    + destruct (proj1 (E k) (or_intror X)) as [<-|Y]; auto. specialize (F1 _ X). lia.
    + destruct (proj2 (E k) (or_intror X)) as [<-|Y]; auto. specialize (F2 _ X). lia.
Qed.

(** A removal depends on the surroundings through freed memory only. *)
Lemma remove_id_freed (w w' : oracles O) id (p : pcm) : w_freed w = w_freed w' -> pcm_remove_last_id w id p = pcm_remove_last_id w' id p.
Proof. intro H. unfold pcm_remove_last_id, shrink_mat. rewrite H. reflexivity. Qed.
Lemma remove_freed (w w' : oracles O) (p : pcm) : w_freed w = w_freed w' -> pcm_remove_last w p = pcm_remove_last w' p.
Proof. intro H. unfold pcm_remove_last. destruct (rev (p_order p)); auto. apply remove_id_freed; auto. Qed.

(** Two calls that hand the same things to the outlier rejection. *)
Lemma step_agree (W1 W2 : soracles O) o1 o2 (s1 s2 s1' s2' : solver) r1 r2 p :
  w_freed (so_pcm W1) = w_freed (so_pcm W2) -> bare o1 = bare o2 -> bare o1 <> [] ->
  s_pcm s1 = Some p -> s_pcm s2 = Some p -> (forall k, kmem k (s_vals s1) = kmem k (s_vals s2)) ->
  tracked p -> (forall fs vs, call_of o1 = Some (fs, vs) -> first_supplied vs fs p) ->
  step C W1 o1 s1 = Ok s1' r1 -> step C W2 o2 s2 = Ok s2' r2 ->
  s_pcm s1' = s_pcm s2' /\ r1 = r2.
Proof.
  intros EW EB NB P1 P2 A T HF H1 H2.
  pose proof (step_rets _ _ _ H1) as R1. pose proof (step_rets _ _ _ H2) as R2.
  pose proof (step_inv C W1 o1 s1 P1 H1) as (t1 & p1 & b1 & [E0 E] & _ & _ & _ & Ho).
  pose proof (step_inv C W2 o2 s2 P2 H2) as (t2 & p2 & b2 & [F0 F] & _ & _ & _ & Fo).
  assert (X1 : s_pcm s1' = Some p1).
  { destruct (optimises o1 b1); [|congruence]. destruct (optimize_same C W1 t1 Ho) as (G & _). congruence. }
  assert (X2 : s_pcm s2' = Some p2).
  { destruct (optimises o2 b2); [|congruence]. destruct (optimize_same C W2 t2 Fo) as (G & _). congruence. }
  rewrite X1, X2.
  destruct o1 as [fs vs opt|fs vs|c opt|a0 b0| |c|c|fs vs|fs vs|];
  destruct o2 as [fs' vs' opt'|fs' vs'|c' opt'|a0' b0'| |c'|c'|fs' vs'|fs' vs'|]; cbn [bare] in EB; try discriminate EB;
    try (exfalso; apply NB; reflexivity).
  1-4: injection EB as <- <-; split; [|rewrite R1, R2; auto]; destruct E as [x E], F as [y F];
       destruct (@ro_agree _ _ _ _ _ _ _ _ _ _ _ _ _ T (HF _ _ eq_refl) A E F) as [G _]; cbn [ps_pcm] in G; congruence.
  - injection EB as <-. destruct E as (-> & _), F as (-> & _). rewrite R1, R2; auto.
  - injection EB as <- <-. destruct E as (e & -> & E & _), F as (e' & -> & F & _). rewrite (remove_id_freed _ _ _ _ EW) in E.
    rewrite E in F. injection F as <- <-. auto.
  - destruct E as (e & -> & E & _), F as (e' & -> & F & _). rewrite (remove_freed _ _ _ EW) in E. rewrite E in F. injection F as <- <-. auto.
  - injection EB as <-. destruct E as (-> & _), F as (-> & _). rewrite R1, R2; auto.
  - injection EB as <-. destruct E as (-> & _), F as (-> & _). rewrite R1, R2; auto.
Qed.

Lemma supplied_bare (h : list op) k : supplied h k <-> supplied (flat_map (@bare O) h) k.
Proof.
  unfold supplied. split.
  - intros (o & fs & vs & Hin & Ho & Hk). exists (OpForce fs vs), fs, vs. split; [|auto].
    apply in_flat_map. exists o. split; auto. destruct o; cbn [call_of] in Ho; try discriminate; injection Ho as -> ->; left; auto.
  - intros (o & fs & vs & Hin & Ho & Hk). apply in_flat_map in Hin. destruct Hin as (o' & Hin & Hb). exists o', fs, vs. split; auto.
    split; auto. destruct o'; cbn [bare] in Hb; try (destruct Hb; fail); destruct Hb as [<-|[]]; auto; discriminate.
Qed.

Lemma sp_odoms_bare (h : list op) : sp_odoms sp h = sp_odoms sp (flat_map (@bare O) h).
Proof.
  induction h as [|o h IH]; auto. cbn [flat_map]. rewrite (sp_odoms_app C (bare o)).
  change (o :: h) with ([o] ++ h). rewrite sp_odoms_app, IH. f_equal. destruct o; reflexivity.
Qed.

Lemma run_one W (h : list op) o (s s' : solver) rs r : run C W h start = Ok s rs -> step C W o s = Ok s' r ->
  run C W (h ++ [o]) start = Ok s' (rs ++ [r]).
Proof. intros H Hs. eapply run_app_ok; eauto. cbn [run]. rewrite Hs. reflexivity. Qed.

Lemma reported_app rs1 rs2 : reported (rs1 ++ rs2) = reported rs1 ++ reported rs2.
Proof. unfold reported. apply flat_map_app. Qed.

Lemma step_temp W o (s s' : solver) r p : s_pcm s = Some p -> bare o = [] -> step C W o s = Ok s' r ->
  s_pcm s' = Some p /\ r = None.
Proof.
  intros Hp HB Hs. pose proof (step_rets _ _ _ Hs) as R.
  pose proof (step_inv C W o s Hp Hs) as (s1 & p' & b & [E0 E] & _ & _ & _ & Ho).
  destruct o; cbn [bare] in HB; try discriminate; cbn [optimises] in Ho; subst s1; destruct E as (-> & _); split; auto; apply R; auto.
Qed.

Lemma starts_app (h1 h2 : list op) : starts_supplied sp (h1 ++ h2) -> starts_supplied sp h1.
Proof.
  intros H g1 o g2 fs vs l1 b l2 -> Hc Hl Hn. eapply (H g1 o (g2 ++ h2)); eauto. rewrite <- app_assoc. auto.
Qed.

(** Two runs in lockstep: a relation between the outlier rejections that holds at the start and
    is kept by every pair of calls handing over the same things. *)
Section Lockstep.
Variables W1 W2 : soracles O.
Variable R : pcm -> pcm -> Prop.
Variable good : list op -> Prop.
Hypothesis R_init : R pcm_init pcm_init.
Hypothesis good_app : forall g1 g2, good (g1 ++ g2) -> good g1.
Hypothesis R_step : forall g1 g2 x1 x2 (t1 t2 s1 s2 : solver) q1 q2 r1 r2 p1 p2,
  good (g1 ++ [x1]) -> run C W1 g1 start = Ok t1 q1 -> run C W2 g2 start = Ok t2 q2 ->
  s_pcm t1 = Some p1 -> s_pcm t2 = Some p2 -> R p1 p2 -> bare x1 = bare x2 -> bare x1 <> [] ->
  (forall k, kmem k (s_vals t1) = kmem k (s_vals t2)) ->
  step C W1 x1 t1 = Ok s1 r1 -> step C W2 x2 t2 = Ok s2 r2 ->
  (exists p1' p2', s_pcm s1 = Some p1' /\ s_pcm s2 = Some p2' /\ R p1' p2') /\ r1 = r2.

Lemma same_keys h1 h2 (s1 s2 : solver) rs1 rs2 : same_calls h1 h2 ->
  run C W1 h1 start = Ok s1 rs1 -> run C W2 h2 start = Ok s2 rs2 -> map fst (s_vals s1) = map fst (s_vals s2).
Proof.
  intros HS H1 H2. destruct (hist_run C W1 _ H1) as [p1 I1]. destruct (hist_run C W2 _ H2) as [p2 I2].
  apply sorted_same; [apply (hi_sorted I1)|apply (hi_sorted I2)|].
  intro k. change (In k (kkeys (s_vals s1)) <-> In k (kkeys (s_vals s2))).
  rewrite <- !kmem_In, (hi_keys I1), (hi_keys I2), (supplied_bare h1), (supplied_bare h2), HS. tauto.
Qed.

Lemma lockstep n : forall h1 h2 (s1 s2 : solver) rs1 rs2,
  length h1 + length h2 <= n -> same_calls h1 h2 -> good h1 ->
  run C W1 h1 start = Ok s1 rs1 -> run C W2 h2 start = Ok s2 rs2 ->
  (exists p1 p2, s_pcm s1 = Some p1 /\ s_pcm s2 = Some p2 /\ R p1 p2) /\ reported rs1 = reported rs2.
Proof.
  induction n as [|n IH]; intros h1 h2 s1 s2 rs1 rs2 Hn HS HO H1 H2.
  { destruct h1, h2; cbn in Hn; try lia. injection H1 as <- <-. injection H2 as <- <-. cbn. eauto 6. }
  destruct h1 as [|x1 g1] using rev_ind; [|clear IHg1].
  - destruct h2 as [|x2 g2] using rev_ind; [|clear IHg2].
    + injection H1 as <- <-. injection H2 as <- <-. cbn. eauto 6.
    + unfold same_calls in HS. rewrite flat_map_app in HS. cbn [flat_map app] in HS. rewrite app_nil_r in HS.
      symmetry in HS. apply app_eq_nil in HS. destruct HS as [HS HB].
      apply run_snoc in H2. destruct H2 as (t2 & q2 & r2 & H2 & H2' & ->).
      destruct (hist_run C W2 _ H2) as [p I]. destruct (@step_temp W2 _ _ _ _ _ (hi_pcm I) HB H2') as [X ->].
      rewrite reported_app. cbn [reported flat_map]. rewrite app_nil_r.
      rewrite app_length in Hn. cbn [length] in Hn.
      destruct (IH [] g2 s1 t2 rs1 q2) as (A1 & A2); auto; try (cbn [length]; lia).
      { unfold same_calls. cbn [flat_map]. auto. }
      split; auto. rewrite X, <- (hi_pcm I). auto.
  - rewrite app_length in Hn. cbn [length] in Hn. unfold same_calls in HS. rewrite flat_map_app in HS. cbn [flat_map app] in HS. rewrite app_nil_r in HS.
    destruct (bare x1) as [|c1 y1] eqn:B1.
    + rewrite app_nil_r in HS.
      apply run_snoc in H1. destruct H1 as (t1 & q1 & r1 & H1 & H1' & ->).
      destruct (hist_run C W1 _ H1) as [p I]. destruct (@step_temp W1 _ _ _ _ _ (hi_pcm I) B1 H1') as [X ->].
      rewrite reported_app. cbn [reported flat_map]. rewrite app_nil_r.
      destruct (IH g1 h2 t1 s2 q1 rs2) as (A1 & A2); auto; [lia|eapply good_app; eauto|].
      split; auto. rewrite X, <- (hi_pcm I). auto.
    + destruct h2 as [|x2 g2] using rev_ind; [|clear IHg2].
      { cbn [flat_map] in HS. symmetry in HS. apply app_cons_not_nil in HS. destruct HS. }
      rewrite app_length in Hn. cbn [length] in Hn.
      rewrite flat_map_app in HS. cbn [flat_map] in HS. rewrite app_nil_r in HS.
      destruct (bare x2) as [|c2 y2] eqn:B2.
      * rewrite app_nil_r in HS.
        apply run_snoc in H2. destruct H2 as (t2 & q2 & r2 & H2 & H2' & ->).
        destruct (hist_run C W2 _ H2) as [p I]. destruct (@step_temp W2 _ _ _ _ _ (hi_pcm I) B2 H2') as [X ->].
        rewrite reported_app. cbn [reported flat_map]. rewrite app_nil_r.
        destruct (IH (g1 ++ [x1]) g2 s1 t2 rs1 q2) as (A1 & A2); auto.
        { rewrite app_length. cbn [length]. lia. }
        { unfold same_calls. rewrite flat_map_app. cbn [flat_map]. rewrite app_nil_r, B1. exact HS. }
        split; auto. rewrite X, <- (hi_pcm I). auto.
      * assert (Y1 : y1 = []) by (destruct x1; cbn [bare] in B1; try discriminate; congruence).
        assert (Y2 : y2 = []) by (destruct x2; cbn [bare] in B2; try discriminate; congruence). subst y1 y2.
        apply app_inj_tail in HS. destruct HS as [HS ->].
        pose proof (run_snoc C W1 _ _ _ H1) as (t1 & q1 & r1 & R1 & S1 & E1).
        pose proof (run_snoc C W2 _ _ _ H2) as (t2 & q2 & r2 & R2 & S2 & E2). subst rs1 rs2.
        destruct (IH g1 g2 t1 t2 q1 q2) as ((p1 & p2 & P1 & P2 & RR) & A2); auto; [lia|eapply good_app; eauto|].
        assert (AV : forall k, kmem k (s_vals t1) = kmem k (s_vals t2)).
        { intro k. apply eq_true_iff_eq. rewrite !kmem_In. unfold kkeys. rewrite (same_keys HS R1 R2). tauto. }
        destruct (@R_step g1 g2 x1 x2 t1 t2 s1 s2 q1 q2 r1 r2 p1 p2) as [Z1 Z2]; auto.
        { congruence. } { rewrite B1; discriminate. }
        split; auto. rewrite !reported_app, A2, Z2. auto.
Qed.
End Lockstep.

(** Whatever the iteration orders of the unordered maps and the averages of poses. *)
Lemma calls_decide_pcm (W1 W2 : soracles O) h1 h2 (s1 s2 : solver) rs1 rs2 : w_freed (so_pcm W1) = w_freed (so_pcm W2) ->
  same_calls h1 h2 -> starts_supplied sp h1 ->
  run C W1 h1 start = Ok s1 rs1 -> run C W2 h2 start = Ok s2 rs2 ->
  (exists p, s_pcm s1 = Some p /\ s_pcm s2 = Some p /\ s_nfg s1 = graph_of (so_pcm W1) p /\ s_nfg s2 = graph_of (so_pcm W2) p) /\
  map fst (s_vals s1) = map fst (s_vals s2) /\ reported rs1 = reported rs2.
Proof.
  intros EW HS HO H1 H2.
  destruct (@lockstep W1 W2 eq (starts_supplied sp) eq_refl starts_app) with (n := length h1 + length h2) (h1 := h1) (h2 := h2)
    (s1 := s1) (s2 := s2) (rs1 := rs1) (rs2 := rs2) as ((p1 & p2 & P1 & P2 & E) & A2); auto.
  - intros g1 g2 x1 x2 t1 t2 u1 u2 q1 q2 r1 r2 p1 p2 G R1 R2 P1 P2 <- EB NB AV S1 S2.
    destruct (hist_run C W1 _ R1) as [p I]. assert (p = p1) by (pose proof (hi_pcm I) as X; rewrite P1 in X; injection X; auto). subst p.
    destruct (@step_agree W1 W2 x1 x2 t1 t2 u1 u2 r1 r2 p1 EW) as [Z1 Z2]; auto.
    { eapply run_tracked; eauto. }
    { intros fs vs Hc l1 b l2 Hl Hn'. rewrite (hi_odom I) in Hn'. eapply (G g1 x1 []); eauto. }
    split; auto. destruct (hist_run C W1 _ (@run_one W1 _ _ _ _ _ _ R1 S1)) as [p' I'].
    pose proof (hi_pcm I') as X. exists p', p'. split; auto. split; auto. congruence.
  - subst p2. split; [|split; auto; eapply same_keys; eauto].
    destruct (hist_run C W1 _ H1) as [q1 I1]. destruct (hist_run C W2 _ H2) as [q2 I2]. exists p1. split; auto. split; auto.
    pose proof (hi_pcm I1) as X. pose proof (hi_pcm I2) as Y. rewrite (hi_nfg I1), (hi_nfg I2).
    rewrite P1 in X. rewrite P2 in Y. injection X as <-. injection Y as <-. auto.
Qed.
Theorem calls_decide (W1 W2 : soracles O) h1 h2 (s1 s2 : solver) rs1 rs2 : so_pcm W1 = so_pcm W2 ->
  same_calls h1 h2 -> starts_supplied sp h1 ->
  run C W1 h1 start = Ok s1 rs1 -> run C W2 h2 start = Ok s2 rs2 ->
  s_pcm s1 = s_pcm s2 /\ s_nfg s1 = s_nfg s2 /\ map fst (s_vals s1) = map fst (s_vals s2) /\ reported rs1 = reported rs2.
Proof.
  intros EW HS HO H1 H2. destruct (@calls_decide_pcm W1 W2 h1 h2 s1 s2 rs1 rs2) as ((p & A1 & A2 & A3 & A4) & A5 & A6); auto.
  { rewrite EW. auto. }
  split; [congruence|]. split; auto. rewrite A3, A4, EW. auto.
Qed.
Lemma graph_of_perm (w w' : oracles O) (p : pcm) : Permutation (graph_of w p) (graph_of w' p).
Proof.
  unfold graph_of, build. apply Permutation_map, Permutation_app_head, Permutation_app_head.
  apply Permutation_app; apply Permutation_map; unfold build_lcs, build_lms; apply Permutation_flat_map;
    etransitivity; [apply uiter_perm|symmetry; apply uiter_perm|apply uiter_perm|symmetry; apply uiter_perm].
Qed.
Theorem calls_decide_order (W1 W2 : soracles O) h1 h2 (s1 s2 : solver) rs1 rs2 : w_freed (so_pcm W1) = w_freed (so_pcm W2) ->
  same_calls h1 h2 -> starts_supplied sp h1 ->
  run C W1 h1 start = Ok s1 rs1 -> run C W2 h2 start = Ok s2 rs2 ->
  s_pcm s1 = s_pcm s2 /\ Permutation (s_nfg s1) (s_nfg s2) /\ map fst (s_vals s1) = map fst (s_vals s2) /\ reported rs1 = reported rs2.
Proof.
  intros EW HS HO H1 H2. destruct (@calls_decide_pcm W1 W2 h1 h2 s1 s2 rs1 rs2) as ((p & A1 & A2 & A3 & A4) & A5 & A6); auto.
  split; [congruence|]. split; auto. rewrite A3, A4. apply graph_of_perm.
Qed.

Lemma without_same (h : list op) : same_calls h (without_temps h).
Proof.
  unfold same_calls, without_temps. induction h as [|o h IH]; auto. cbn [flat_map filter].
  destruct o; cbn [is_temp negb]; cbn [flat_map bare app]; rewrite IH; auto.
Qed.

Theorem c28_without W h (s s' : solver) rs rs' : starts_supplied sp h ->
  run C W h start = Ok s rs -> run C W (without_temps h) start = Ok s' rs' ->
  s_nfg s = s_nfg s' /\ map fst (s_vals s) = map fst (s_vals s') /\ reported rs = reported rs'.
Proof.
  intros HO H1 H2. pose proof (@calls_decide W W _ _ _ _ _ _ eq_refl (without_same h) HO H1 H2) as G. tauto.
Qed.
End Calls.
