(** * Calls after removals that are defined *)
From Verif Require Import Prelude Num Keys KMap UMap Geometry Factors Clique CliqueSpec CliqueHeu Pcm Solver ValuesProofs
  PcmSpec PcmProofs PcmInv PcmStore HistSpec StoreSpec SolverProofs HistProofs GraphProofs UpdateProofs StoreProofs AcceptProofs LiveProofs
  StoreThms SafeProofs RemoveSpec RemoveExact LandmarkExact.
Set Implicit Arguments.
Local Open Scope nat_scope.

Section Calls.
Variable O : tops.
Variable C : config.
Variable W : soracles O.
Notation bf := (bf O).
Notation factor := (factor O).
Notation values := (values O).
Notation graph_t := (graph_t O).
Notation T := (t_T O).
Notation pcm := (pcm O).
Notation meas := (meas O).
Notation sp := (c_special C).
Notation refs := (N -> key -> T).
Notation op := (op O).
Notation solver := (solver O).
Notation start := (@solver_init O true).
Notation lc_get := (uget oid_eqb (@meas_default O)).
Notation lm_get := (uget N.eqb (@meas_default O)).
Notation tested := (@StoreSpec.tested O).
Notation tested_history := (@StoreSpec.tested_history O).
Notation small := (StoreSpec.small C).
Notation stale := (@stale O C W).
Notation live_of := (@live_of O C W).
Notation new_of := (@new_of O C W).
Notation shape := (@shape O C).
Notation lm_states := (@lm_states O).
Notation good_pair := (@good_pair O C).

Definition tested_graph (fs : graph_t) : Prop := forall b, In (Some (FBetween b)) fs -> tested b.

Lemma tested_given h o : tested_history (h ++ [o]) -> tested_history h /\ tested_graph (given o).
Proof.
  intro H. split.
  - intros b (o' & fs & vs & A & B). apply H. exists o', fs, vs. split; auto. apply in_or_app; auto.
  - intros b Hb. apply H. unfold given in Hb. destruct (call_of o) as [[fs vs]|] eqn:E; [|destruct Hb].
    exists o, fs, vs. split; auto. apply in_or_app. right. left. auto.
Qed.

Lemma proc_factors_defined nv vals fs : tested_graph fs -> forall (p : pcm) acc u, proc_factors C nv vals fs p acc <> Undef u.
Proof.
  induction fs as [|of fs IH]; intros Hd p acc u; cbn [proc_factors]; [discriminate|].
  assert (X : forall u, proc_factor C nv vals of p acc <> Undef u).
  { intro u0. unfold proc_factor. destruct of as [[b|k x|k t|ks t]|]; try discriminate.
    rewrite classify_spec. destruct (sp_first sp nv b); [discriminate|]. destruct (sp_odometry sp nv b).
    - pose proof (Hd b (or_introl eq_refl)) as Hb. unfold StoreSpec.tested in Hb. unfold update_odom. destruct (t_of O b); [|congruence].
      destruct (ufind N.eqb (chr (b_to b)) _); cbn [obind]; [discriminate|].
      destruct (kfind (b_from b) vals) as [[x|x]|]; cbn [obind]; discriminate.
    - destruct (b_from b =? b_to b)%N; discriminate. }
  destruct (proc_factor C nv vals of p acc) as [p1 acc1| |u1]; cbn [obind]; [|discriminate|destruct (X u1); auto].
  apply IH. intros b Hb. apply Hd. right. auto.
Qed.

Lemma candidates_tested fs vs : tested_graph fs -> Forall tested (candidates C fs vs).
Proof.
  intro Hd. apply Forall_forall. intros b Hb. unfold candidates in Hb. apply filter_In in Hb. destruct Hb as [Hb _].
  apply In_betweens in Hb. apply Hd; auto.
Qed.

(** ** The loop closures present are of the tested kind and no more than were given *)
Lemma newly_given h o : incl (map fst (newly C W h o)) (betweens (given o)) /\ length (newly C W h o) <= length (given o).
Proof.
  unfold newly, given. destruct (call_of o) as [[fs vs]|]; [|split; [apply incl_refl|cbn; lia]]. split.
  - rewrite map_map, map_id. intros x Hx. apply filter_In in Hx. destruct Hx as [Hx _]. apply filter_In in Hx. apply Hx.
  - rewrite map_length. eapply Nat.le_trans; [apply filter_len|]. eapply Nat.le_trans; [apply filter_len|]. apply betweens_length.
Qed.

Lemma live_tested h : tested_history h -> Forall tested (sp_live C W h) /\ length (sp_live C W h) <= length (sp_all h).
Proof.
  induction h as [|o h IH] using rev_ind; intro Hd; [split; [constructor|cbn; lia]|].
  apply tested_given in Hd. destruct Hd as [Hd Hdo]. destruct (IH Hd) as [I1 I2].
  rewrite sp_live_snoc, sp_all_snoc, app_length. destruct (target C W h o) as [id|].
  - split.
    + rewrite Forall_forall in *. intros x Hx. apply drop_last_incl in Hx. auto.
    + assert (G : forall l : list bf, length (drop_first (of_pair id) l) <= length l).
      { induction l as [|x l IHl]; cbn; auto. destruct (of_pair id x); cbn; lia. }
      unfold drop_last. rewrite rev_length. specialize (G (rev (sp_live C W h))). rewrite rev_length in G. lia.
  - destruct (newly_given h o) as [N1 N2]. split.
    + apply Forall_app. split; auto. rewrite Forall_forall. intros x Hx. apply N1 in Hx. unfold betweens in Hx. apply in_flat_map in Hx.
      destruct Hx as ([[b'| | |]|] & H1 & H2); cbn in H2; try tauto. destruct H2 as [->|[]]. apply Hdo; auto.
    + rewrite app_length, map_length. lia.
Qed.

(** ** Storing never goes wrong unless a pair is stuck with one closure *)
Record okp (n : nat) (st : obsid -> bool) (p : pcm) : Prop := {
  ok_shape : shape st p;
  ok_lcs : forall id m, lc_find id (p_lcs p) = Some m -> Forall tested (me_factors m) /\ length (me_factors m) <= n;
  ok_lms : lm_states p;
  ok_lmt : forall l, Forall tested (lm_factors p l);
  ok_keys : ukeys_distinct oid_eqb (p_lcs p) }.

Lemma okp_good n st p id m : okp n st p -> lc_find id (p_lcs p) = Some m -> me_factors m <> [] -> st id = false -> good_pair n m.
Proof.
  intros [A B _ _ _] E Hne Hst. destruct (B _ _ E) as [B1 B2]. specialize (A _ _ E). unfold fits in A. rewrite Hst in A.
  destruct A as [A1 A2]. split; auto. split; auto. split; auto. destruct (c_loop_check C); lia.
Qed.

Lemma stores_ext known (r r' : refs) b : (forall c k, r c k = r' c k) -> stores C known r b = stores C known r' b.
Proof. intro H. unfold stores, passes_odom. rewrite (sp_odom_test_ext r r' b H). auto. Qed.

Definition free (vals : values) (st : obsid -> bool) (p : pcm) (b : bf) : Prop :=
  c_loop_check C = true -> st (pair_of b) = true ->
  me_factors (lc_get (pair_of b) (p_lcs p)) = [] \/ stores C (fun k => kmem k vals) (tref p) b = false.

Lemma parse_one_total' vals b (p : pcm) nn n st : okp n st p -> tested b -> free vals st p b ->
  forall bs, lm_free C vals p (b :: bs) -> exists r, parse_one C vals b (p, nn) = Val r.
Proof.
  intros HW Hb HF bs HB. unfold parse_one. destruct (negb (kmem (b_from b) vals) || negb (kmem (b_to b) vals)) eqn:EK; [eauto|].
  rewrite !is_special_spec, landmark_key_spec. destruct (sp_landmark sp (b_from b) || sp_landmark sp (b_to b)) eqn:ES.
  - set (l := sp_landmark_key sp b).
    match goal with |- context [increment_landmark_adj l b ?q] => destruct (@increment_lm_total' O l b (lm_get l (p_lms p)) q) as [p' ->] end;
      cbn [rbind]; eauto.
    + cbn [p_lms set_total set_lms]. rewrite n_get_set, N.eqb_refl. auto.
    + apply (ok_lmt HW l).
    + apply (@lm_free_now O C vals b bs p (ok_lms HW) HB). unfold stores_lm, sp_lmk. rewrite ES.
      apply orb_false_iff in EK. destruct EK as [K1 K2]. apply negb_false_iff in K1, K2. rewrite K1, K2. auto.
  - assert (SV : passes_odom C (tref p) b = true -> stores C (fun k => kmem k vals) (tref p) b = true).
    { intro X. unfold stores, sp_lmk. rewrite ES, X. apply orb_false_iff in EK. destruct EK as [K1 K2]. apply negb_false_iff in K1, K2.
      rewrite K1, K2. auto. }
    assert (G : forall q : pcm, p_lcs q = p_lcs p -> passes_odom C (tref p) b = true -> exists r,
       (let id := (chr (b_from b), chr (b_to b)) in
        let p2 := set_lcs q (lc_set id (meas_add (lc_get id (p_lcs q)) b) (p_lcs q)) in
        let p3 := set_total (set_order p2 (p_order p2 ++ [id])) (S (p_total p2)) in
        let* p4 := (if c_loop_check C then increment_adj C id b p3 else Val p3) in Val (p4, nn_incr id nn)) = Val r).
    { intros q Hq HP. cbv zeta. destruct (c_loop_check C) eqn:HC; cbn [rbind]; eauto.
      match goal with |- context [increment_adj C ?i b ?q'] => destruct (@increment_adj_total O C i b (lc_get i (p_lcs q)) q' n) as [p' ->] end;
        cbn [rbind]; eauto.
      - cbn [p_lcs set_total set_order set_lcs]. rewrite oid_get_set, oid_eqb_refl. auto.
      - rewrite Hq. change (chr (b_from b), chr (b_to b)) with (pair_of b).
        destruct (st (pair_of b)) eqn:Est; [left; destruct (HF HC Est) as [X|X]; auto; rewrite (SV HP) in X; discriminate|].
        unfold uget. destruct (lc_find (pair_of b) (p_lcs p)) as [m|] eqn:EF; [|left; auto].
        destruct (me_factors m) as [|x l] eqn:EM; [auto|right].
        apply (@okp_good n st p (pair_of b) m HW EF); auto. rewrite EM. discriminate. }
    destruct (chr (b_from b) =? chr (b_to b))%N eqn:EC.
    + destruct (odom_total C p Hb) as (ok & tr & EO). rewrite EO. cbn [rbind]. destruct ok; [apply G; auto|eauto].
      unfold passes_odom. rewrite EC. apply is_odom_consistent_inv in EO. destruct EO as (_ & [[-> _]|[-> ->]]); auto.
    + cbn [rbind]. apply G; auto. unfold passes_odom. rewrite EC. auto.
Qed.

Lemma parsed_okp vals b (p p' : pcm) o n st : parsed C vals b p p' o -> tested b -> okp n st p ->
  okp (S n) (if match o with Some _ => true | None => false end then after_store b st else st) p'.
Proof.
  intros HP Hb [A B D D' K]. destruct (parsed_stores (tref p) HP ltac:(auto)) as (E & _).
  pose proof (parsed_shape (tref p) HP ltac:(auto) A) as SH. rewrite E in SH.
  split; auto; [|eapply parsed_states; eauto| |].
  2:{ intro l. rewrite (parsed_lm_factors l HP). apply Forall_app. split; auto. unfold to_store. cbn [filter].
      destruct (stores_lm C (fun k => kmem k vals) b); cbn [filter]; [destruct (of_landmark C l b)|]; auto. }
  2:{ inversion HP; subst; auto. apply lc_set_distinct. auto. }
  intros id m Hm. pose proof (parsed_extends (tref p) HP ltac:(auto)) as X. rewrite E in X.
  assert (Z : me_factors m = me_factors (lc_get id (p_lcs p)) ++ filter (of_pair id) (if match o with Some _ => true | None => false end then [b] else [])).
  { rewrite <- (ex_lcs X). unfold uget. rewrite Hm. auto. }
  assert (Y : Forall tested (me_factors (lc_get id (p_lcs p))) /\ length (me_factors (lc_get id (p_lcs p))) <= n).
  { unfold uget. destruct (lc_find id (p_lcs p)) as [m0|] eqn:E0; [eapply B; eauto|]. cbn. split; [constructor|lia]. }
  destruct Y as [Y1 Y2]. rewrite Z, app_length. split.
  - apply Forall_app. split; auto. destruct o; cbn; auto. destruct (of_pair id b); auto.
  - destruct o; cbn; [destruct (of_pair id b); cbn|]; lia.
Qed.

Definition ready (nn : numnew) (p : pcm) : Prop := forall id k, In (id, k) nn ->
  exists m, lc_find id (p_lcs p) = Some m /\ me_factors m <> [] /\ fits C false m.

Lemma parsed_ready vals b (p p' : pcm) o nn st : parsed C vals b p p' o -> shape st p -> ready nn p ->
  ready match o with Some id => nn_incr id nn | None => nn end p'.
Proof.
  intros HP HS HR. inversion HP as [Hm|tr K1 K2 Hl Hc Ho Ht|adj tr K1 K2 Hl|adj tr (K1 & K2 & Hl & Ha) Hg Ht]; subst; auto.
  pose proof (@stored_shape O C st p b adj tr HS Hg) as SH.
  intros id k Hin. specialize (SH id). revert SH. unfold store_lc. cbn [p_lcs set_trajs set_total set_order set_lcs]. rewrite oid_find_set.
  apply nn_incr_In in Hin. destruct (oid_eqb id (pair_of b)) eqn:E; intro SH.
  - eexists. split; [reflexivity|]. cbn [me_factors]. split; [intro X; apply app_eq_nil in X; destruct X; discriminate|].
    specialize (SH _ eq_refl). unfold after_store, of_pair in SH. change (chr (b_from b), chr (b_to b)) with (pair_of b) in SH.
    rewrite oid_eqb_sym, E, andb_false_r in SH. exact SH.
  - destruct Hin as [Hin|[k' Hin]]; [rewrite oid_eqb_sym in Hin; congruence|]. eapply HR; eauto.
Qed.

Lemma parse_all_total' vals bs : Forall tested bs -> forall (p : pcm) nn n k st, okp n st p ->
  (forall a b, oid_eqb a b = true -> st a = st b) -> Forall (free vals st p) bs -> lm_free C vals p bs -> ready nn p -> nn_le k nn ->
  exists p' nn' st', rfold (parse_one C vals) bs (p, nn) = Val (p', nn') /\ parsed_list C vals bs p p' /\
    okp (length bs + n) st' p' /\ ready nn' p' /\ nn_le (length bs + k) nn'.
Proof.
  intro Hd. induction Hd as [|b bs Hb Hd IH]; intros p nn n k st HW HE HF HB HA HN; cbn [rfold length plus].
  - exists p, nn, st. split; auto. split; [constructor|]. auto.
  - inversion HF as [|? ? F1 F2]; subst. destruct (parse_one_total' nn HW Hb F1 HB) as [[p1 nn1] E]. rewrite E. cbn [rbind].
    apply parse_one_inv in E. destruct E as (o & HP & ->).
    pose proof (parsed_okp HP Hb HW) as W1. set (st1 := if match o with Some _ => true | None => false end then after_store b st else st) in *.
    assert (HE1 : forall a c, oid_eqb a c = true -> st1 a = st1 c).
    { intros a c Hac. unfold st1. destruct o; [|auto]. unfold after_store. rewrite (HE _ _ Hac), (of_pair_ext _ _ b Hac). auto. }
    destruct (IH p1 match o with Some id => nn_incr id nn | None => nn end (S n) (S k) st1) as (p' & nn' & st' & E2 & A1 & A2 & A3 & A4); auto.
    + rewrite Forall_forall in *. intros b' Hb' HC Hst. specialize (F2 b' Hb' HC).
      pose proof (parsed_extends (tref p) HP ltac:(auto)) as X. destruct (parsed_stores (tref p) HP ltac:(auto)) as (Z & _). rewrite Z in X.
      assert (SX : stores C (fun k => kmem k vals) (tref p1) b' = stores C (fun k => kmem k vals) (tref p) b').
      { apply stores_ext. intros. apply (parsed_tref HP). }
      rewrite SX, (ex_lcs X). unfold st1 in Hst. destruct o as [oo|]; [|destruct F2 as [-> |F2]; auto].
      unfold after_store in Hst. apply andb_true_iff in Hst. destruct Hst as [H1 H2]. apply negb_true_iff in H2.
      destruct F2 as [-> |F2]; auto. left. cbn. rewrite H2. auto.
    + eapply lm_free_step; eauto.
    + eapply parsed_ready; eauto. apply HW.
    + destruct o; [apply nn_incr_le; auto|]. eapply Forall_impl; [|exact HN]. cbn. intros. lia.
    + exists p', nn', st'. split; auto. split; [econstructor; eauto|]. split; [|split; auto].
      * destruct A2 as [B1 B2 B3 B3' B4]. split; auto. intros id m Hm. destruct (B2 _ _ Hm). split; auto. lia.
      * eapply Forall_impl; [|exact A4]. cbn. intros. lia.
Qed.

(** ** Selection *)
Lemma find_inliers_total' n st p : okp n st p -> (forall id m, lc_find id (p_lcs p) = Some m -> c_loop_check C = true -> st id = false \/ exists m', heu_inliers m = Val m') ->
  exists p', find_inliers C p = Val p'.
Proof.
  intros HW H. unfold find_inliers. destruct (@umapM_total O obsid (pair_inliers C) (p_lcs p)) as [lcs ->].
  { apply Forall_forall. intros [id m] Hin. cbn [snd]. unfold pair_inliers. destruct (c_loop_check C) eqn:HC; [|eauto].
    assert (E : lc_find id (p_lcs p) = Some m) by (apply distinct_ufind; [apply oid_eqb_refl|apply oid_eqb_sym|apply HW|auto]).
    destruct (H _ _ E eq_refl) as [X|X]; [|exact X].
    pose proof (ok_shape HW _ E) as F. unfold fits in F. rewrite HC, X in F. apply heu_total; lia. }
  cbn [rbind]. destruct (states_total (ok_lms HW)) as [lms X]. rewrite X. cbn [rbind]. eauto.
Qed.

Lemma find_inliers_inc_total' n st nn p : okp n st p -> ready nn p -> nn_le n nn -> (Z.of_nat n < size_t_mod)%Z ->
  exists p', find_inliers_inc nn p = Val p'.
Proof.
  intros HW HA HN Hn. unfold find_inliers_inc.
  assert (G : forall nn lcs, nn_le n nn -> (forall id k, In (id, k) nn -> exists m, lc_find id lcs = Some m /\ good_pair n m) ->
    exists lcs', rfold (fun '(id, nw) lcs => let* m' := inc_inliers nw (lc_get id lcs) in Val (lc_set id m' lcs)) nn lcs = Val lcs').
  { clear -Hn. induction nn as [|[id nw] nn IH]; intros lcs HN HA; cbn [rfold]; [eauto|].
    inversion HN as [|? ? H1 H2]; subst. cbn [snd] in H1. destruct (HA id nw (or_introl eq_refl)) as (m & Hm & GM).
    unfold uget at 1. rewrite Hm. destruct (@inc_total O C n nw m) as [m' E]; auto; try lia. rewrite E. cbn [rbind]. apply IH; auto.
    intros id' n' Hin. rewrite oid_find_set. destruct (oid_eqb id' id).
    - exists m'. split; auto. apply inc_inliers_reselected in E. destruct E as (E1 & E2 & _).
      unfold SafeProofs.good_pair in *. rewrite E1, E2. auto.
    - apply (HA id' n'). right. auto. }
  destruct (G nn (p_lcs p) HN) as [lcs ->].
  { intros id k Hin. destruct (HA id k Hin) as (m & M1 & M2 & M3). exists m. split; auto.
    destruct (ok_lcs HW _ M1) as [B1 B2]. unfold fits in M3. destruct M3 as [A1 A2].
    split; auto. split; auto. split; auto. destruct (c_loop_check C); lia. }
  cbn [rbind]. destruct (states_total (ok_lms HW)) as [lms X]. rewrite X. cbn [rbind]. eauto.
Qed.

(** ** A call *)
Definition harmless (h : list op) (fs : graph_t) (vs : values) : Prop :=
  forall id, c_loop_check C = true -> stale id h = true ->
    if c_incremental C
    then live_of id h = [] \/ forall b, In b (candidates C fs vs) -> of_pair id b = false
    else live_of id h = [] /\ exists b, surely_stored C h fs vs b /\ of_pair id b = true.

Lemma knows_call h o fs vs (s : solver) p vals u : call_of o = Some (fs, vs) -> hist_inv C W h s p -> vinsert_all vs (s_vals s) = Ok vals u ->
  forall k, knows (h ++ [o]) k = kmem k vals.
Proof.
  intros Hc I EV k. apply eq_true_iff_eq. rewrite knows_supplied. unfold supplied.
  apply vinsert_all_ok in EV. destruct EV as (EV & _). unfold kmem. rewrite EV. fold (kkeys vs).
  pose proof (hi_keys I k) as HK. unfold supplied in HK. unfold kmem in HK. split.
  - intros (o' & fs' & vs' & Hin & Hc' & Hk). apply in_app_or in Hin. destruct Hin as [Hin|[<-|[]]].
    + assert (match kfind k (s_vals s) with Some _ => true | None => false end = true) as X by (apply HK; exists o', fs', vs'; auto).
      destruct (kfind k (s_vals s)); auto. discriminate.
    + rewrite Hc in Hc'. injection Hc' as -> ->. destruct (kfind k (s_vals s)); auto.
      apply kmem_In in Hk. unfold kmem in Hk. destruct (kfind k vs'); auto.
  - intro X. destruct (kfind k (s_vals s)) eqn:E.
    + destruct (proj1 HK eq_refl) as (o' & fs' & vs' & Hin & Hc' & Hk). exists o', fs', vs'. split; auto. apply in_or_app. auto.
    + exists o, fs, vs. split; [apply in_or_app; right; left; auto|]. split; auto. apply kmem_In. unfold kmem. destruct (kfind k vs); auto.
Qed.

Lemma ingest_after_anything h (s : solver) rs o fs vs u : run C W h start = Ok s rs -> call_of o = Some (fs, vs) ->
  tested_history h -> tested_graph fs ->
  small (length (sp_all h) + length fs) -> candidates C fs vs = [] \/ harmless h fs vs ->
  (forall l, backward_last l (seen C W l (h ++ [o]))) -> ingest C W fs vs s <> Undef u.
Proof.
  intros HR Hco Hd Hdf Hs HH HBL. destruct (shape_run C W _ HR) as (p & I & L & HS & HK).
  destruct (@lms_run _ _ _ _ _ _ HR) as (p0 & Hp0 & HL). assert (p0 = p) by (pose proof (hi_pcm I); congruence). subst p0.
  destruct (store_run C W h HR) as (p0 & Hp0' & J). assert (p0 = p) by congruence. subst p0.
  unfold ingest, run_pcm. rewrite Hp0. unfold remove_outliers. cbn [ps_pcm ps_nfg ps_vals].
  destruct (vinsert_all vs (s_vals s)) as [vals []|vals e|u'] eqn:EV; [|discriminate|exfalso; eapply vinsert_all_not_undef; eauto].
  pose proof (@knows_call h o fs vs s p vals tt Hco I EV) as HKN.
  destruct fs as [|of fs'] eqn:EF; [discriminate|]. rewrite <- EF in *. clear EF of fs'.
  pose proof (fun u => @proc_factors_defined vs vals fs Hdf p ([], false) u) as X.
  destruct (proc_factors C vs vals fs p ([], false)) as [p1 [lcs opt]| |u1] eqn:EP; [|discriminate|destruct (X u1); auto]. clear X.
  apply proc_factors_frame in EP. destruct EP as (_ & _ & P3 & _ & _ & _ & _ & P8 & P9 & _). cbn [fst app] in P9. subst lcs.
  pose proof (@firsts_states O C _ p p1 P8 HL) as HL1. pose proof (@lm_free_call O C W h o fs vs p p1 vals Hco (si_lm J) P8 HKN HBL) as HLF.
  assert (HLT : forall l, Forall tested (lm_factors p1 l)).
  { intro l. pose proof (@firsts_holds O C (refs_after C W (h ++ [o])) _ _ p p1 P8 (si_lm J)) as [H1 _]. unfold lm_factors. rewrite H1.
    apply Forall_forall. intros b Hb. apply in_map_iff in Hb. destruct Hb as (x & <- & Hb). apply current_In in Hb.
    destruct Hb as (y & Hb & <- & _). apply in_app_or in Hb. destruct Hb as [Hb|Hb].
    - apply Hd. eapply sightings_delivered; eauto.
    - apply Hdf. apply in_map_iff in Hb. destruct Hb as (b & <- & Hb). apply filter_In in Hb. apply In_betweens. apply Hb. }
  fold (candidates C fs vs). pose proof (candidates_tested vs Hdf) as Hcd.
  assert (Hcl : length (candidates C fs vs) <= length fs).
  { eapply Nat.le_trans; [apply filter_len|]. apply betweens_length. }
  assert (Y : exists p3 opt', match candidates C fs vs with [] => Val (p1, opt) | _ :: _ =>
      let* '(p2, nn) := parse_all C vals (candidates C fs vs) p1 in
      let* p3 := (if c_incremental C then find_inliers_inc nn p2 else find_inliers C p2) in Val (p3, true) end = Val (p3, opt')).
  { destruct (candidates C fs vs) as [|b0 bs] eqn:EC; [eauto|]. rewrite <- EC in *. destruct HH as [HH|HH]; [congruence|]. clear b0 bs EC.
    set (st := fun id => stale id h). set (N := length (sp_all h)) in *.
    assert (OK : okp N st p1).
    { split; auto.
      - eapply shape_frame; eauto.
      - intros id m Hm. rewrite P3 in Hm. assert (E : me_factors m = live_of id h) by (unfold RemoveSpec.live_of; rewrite <- (li_lcs L id); unfold uget; rewrite Hm; auto).
        rewrite E. destruct (@live_tested h Hd) as [D1 D2]. split.
        + rewrite Forall_forall in *. intros x Hx. apply filter_In in Hx. apply D1. apply Hx.
        + eapply Nat.le_trans; [apply filter_len|exact D2].
      - rewrite P3. apply (so_dlcs (hi_stored I)). }
    assert (LV : forall id, me_factors (lc_get id (p_lcs p1)) = live_of id h) by (intro id; rewrite P3; apply (li_lcs L)).
    assert (SE : forall a b, oid_eqb a b = true -> st a = st b) by (intros; apply stale_ext; auto).
    destruct (@parse_all_total' vals _ Hcd p1 [] N 0 st OK SE) as (p2 & nn & st' & E2 & PL & A1 & A2 & A3).
    { apply Forall_forall. intros b Hb HC Hst. rewrite LV. specialize (HH _ HC Hst). destruct (c_incremental C).
      - destruct HH as [HH|HH]; auto. right. specialize (HH b Hb). unfold of_pair in HH.
        change (chr (b_from b), chr (b_to b)) with (pair_of b) in HH. rewrite oid_eqb_refl in HH. discriminate.
      - left. apply HH. }
    { exact HLF. } { intros id k []. } { constructor. }
    assert (E2p : parse_all C vals (candidates C fs vs) p1 = Val (p2, nn)) by exact E2. rewrite E2p. cbn [rbind]. destruct (c_incremental C) eqn:EI.
    - destruct (@find_inliers_inc_total' (length fs + N) st' nn p2) as [p3 E3]; auto.
      + destruct A1 as [B1 B2 B3 B3' B4]. split; auto. intros id m Hm. destruct (B2 _ _ Hm). split; auto. lia.
      + eapply Forall_impl; [|exact A3]. intros kv Hkv. cbv beta in *. lia.
      + rewrite Nat.add_comm. apply Hs. auto.
      + rewrite E3. cbn [rbind]. eauto.
    - set (new := filter (stores C (fun k => kmem k vals) (tref p1)) (candidates C fs vs)).
      pose proof (parsed_list_shape (tref p1) PL ltac:(auto) (ok_shape OK)) as SH. fold new in SH.
      destruct (@find_inliers_total' (length (candidates C fs vs) + N) (after_stores new st) p2) as [p3 E3].
      + destruct A1 as [B1 B2 B3 B3' B4]. split; auto.
      + intros id m Hm HC. left. unfold after_stores. destruct (st id) eqn:Est; auto. cbn [andb].
        specialize (HH id HC Est). rewrite EI in HH. destruct HH as [_ (b & [Hb1 Hb2] & Hb3)]. apply Nat.eqb_neq. intro Z. apply length_zero_iff_nil in Z.
        assert (In b (filter (of_pair id) new)) as Q; [|rewrite Z in Q; destruct Q].
        apply filter_In. split; auto. unfold new. apply filter_In. split; auto. rewrite <- (Hb2 (tref p1)).
        assert (KV : forall k, kmem k vals = knows h k || sp_supplied vs k).
        { intro k. apply eq_true_iff_eq. rewrite orb_true_iff, knows_supplied, <- (hi_keys I). unfold sp_supplied.
          apply vinsert_all_ok in EV. destruct EV as (EV & _). unfold kmem at 1. rewrite EV. fold (kkeys vs).
          destruct (kfind k (s_vals s)) eqn:EK.
          - unfold kmem. rewrite EK. tauto.
          - destruct (in_dec N.eq_dec k (kkeys vs)) as [D|D].
            + rewrite <- kmem_In in D. unfold kmem in D. unfold kmem. destruct (kfind k vs); [tauto|discriminate].
            + rewrite <- kmem_In in D. unfold kmem in D. unfold kmem. rewrite EK. destruct (kfind k vs); [exfalso; auto|]. intuition discriminate. }
        unfold stores. rewrite !KV. auto.
      + rewrite E3. cbn [rbind]. eauto. }
  destruct Y as (p3 & opt' & ->).
  destruct (c_align C && (1 <? length (p_robots p3))); [|discriminate].
  destruct (align (so_pcm W) (set_robots p3 (nsort (p_robots p3))) vals) as [v' []| |u''] eqn:EA; cbn [ps_pcm]; try discriminate.
  exfalso. eapply align_not_undef; eauto.
Qed.

Lemma in_removelast (L : list bf) b : In b (removelast L) -> In b L.
Proof.
  induction L as [|x L IH]; [auto|]. destruct L as [|y L]; [intros []|].
  change (removelast (x :: y :: L)) with (x :: removelast (y :: L)). intros [->|H]; [left|right]; auto.
Qed.

Lemma sightings_lmk h x : In x (sp_sightings C W h) -> sp_lmk C (fst (si_obs x)) = true.
Proof.
  induction h as [|o h IH] using rev_ind; [intros []|]. rewrite sp_sightings_snoc. intro H. apply in_app_or in H. destruct H as [H|H]; auto.
  unfold sighted in H. destruct (call_of o) as [[fs vs]|]; [|destruct H]. apply in_app_or in H.
  destruct H as [H|H]; apply in_map_iff in H; destruct H as (b & <- & Hb); apply filter_In in Hb; destruct Hb as [_ Hb]; cbn.
  - unfold sp_first in Hb. apply andb_true_iff in Hb. apply Hb.
  - unfold stores_lm in Hb. apply andb_true_iff in Hb. apply Hb.
Qed.

(** Landmarks only at the far end: nothing starts from a landmark. *)
Lemma decent_backward h l : decent_history C h -> backward_last l (seen C W l h).
Proof.
  intros Hd _ b Hb. apply in_removelast in Hb. unfold seen in Hb. apply in_map_iff in Hb. destruct Hb as (x & <- & Hb).
  pose proof (current_In C l _ _ Hb) as (y & Hy & <- & Hl). unfold of_landmark in Hl. apply N.eqb_eq in Hl. rewrite <- Hl.
  pose proof (sightings_lmk _ _ Hy) as K. apply decent_not_landmark; auto. apply Hd. eapply sightings_delivered; eauto.
Qed.

Lemma ingest_after_removals h (s : solver) rs fs vs u : run C W h start = Ok s rs -> decent_history C h -> decent_graph C fs ->
  small (length (sp_all h) + length fs) -> candidates C fs vs = [] \/ harmless h fs vs -> ingest C W fs vs s <> Undef u.
Proof.
  intros HR Hd Hdf Hs HH. apply (@ingest_after_anything h s rs (OpUpdate fs vs true) fs vs u HR eq_refl); auto.
  - intros b Hb. apply (Hd b Hb).
  - intros b Hb. apply (Hdf b Hb).
  - intro l. apply decent_backward. intros b (o & fs' & vs' & A & B & D). apply in_app_or in A. destruct A as [A|[<-|[]]].
    + apply Hd. exists o, fs', vs'. auto.
    + injection B as <- <-. apply Hdf; auto.
Qed.

Lemma stale_no_removal id h : no_removal h -> stale id h = false.
Proof.
  unfold RemoveSpec.stale. generalize (@nil op). induction h as [|o h IH]; intros done NR; cbn [stale_from]; auto.
  assert (target C W done o = None) as E.
  { specialize (NR o (or_introl eq_refl)). destruct o; cbn in *; auto; discriminate. }
  unfold stale_step. rewrite E. cbn [andb]. apply IH. intros x Hx. apply NR. right. auto.
Qed.
End Calls.
