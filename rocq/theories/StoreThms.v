(** * Consequences for classification, records and counts *)
From Coq Require Import Permutation.
From Verif Require Import Prelude Num Keys KMap UMap Geometry Factors Clique CliqueSpec CliqueHeu Pcm Solver ValuesProofs
  PcmSpec PcmProofs PcmInv PcmStore HistSpec StoreSpec SolverProofs HistProofs GraphProofs StoreProofs AcceptProofs LiveProofs.
Set Implicit Arguments.
Local Open Scope nat_scope.

Section Thms.
Variable O : tops.
Variable C : config.
Variable W : soracles O.
Notation bf := (bf O).
Notation factor := (factor O).
Notation values := (values O).
Notation graph_t := (graph_t O).
Notation T := (t_T O).
Notation pcm := (pcm O).
Notation meas := (meas O).
Notation sp := (c_special C).
Notation refs := (N -> key -> T).
Notation op := (op O).
Notation solver := (solver O).
Notation start := (@solver_init O true).
Notation lc_get := (uget oid_eqb (@meas_default O)).
Notation lm_get := (uget N.eqb (@meas_default O)).

(** ** C11 *)
Lemma passes_cases (ref : refs) b : 
  (passes_odom C ref b = true /\ (chr (b_from b) = chr (b_to b) -> c_odom_check C = true -> sp_odom_test ref b = Some true)) \/
  (passes_odom C ref b = false /\ chr (b_from b) = chr (b_to b) /\ c_odom_check C = true /\ sp_odom_test ref b <> Some true).
Proof.
  destruct (passes_odom C ref b) eqn:E.
  - left. split; auto. apply passes_odom_true; auto.
  - right. split; auto. unfold passes_odom in E. destruct (chr (b_from b) =? chr (b_to b))%N eqn:E1; [|discriminate].
    apply N.eqb_eq in E1. destruct (c_odom_check C); [|discriminate]. cbn in E. split; auto. split; auto.
    destruct (sp_odom_test ref b) as [[]|]; congruence.
Qed.

Lemma c11_partition nv known (ref : refs) b : exists x, has_fate C nv known ref b x /\ forall y, has_fate C nv known ref b y -> y = x.
Proof.
  assert (D : sp_odometry sp nv b = true -> sp_first sp nv b = true -> False).
  { unfold sp_odometry, sp_first. destruct (sp_landmark sp (b_from b)), (sp_landmark sp (b_to b)); cbn; discriminate. }
  assert (CD : sp_candidate sp nv b = true <-> sp_odometry sp nv b = false /\ sp_first sp nv b = false /\ b_from b <> b_to b).
  { unfold sp_candidate. destruct (sp_odometry sp nv b), (sp_first sp nv b); cbn; rewrite ?negb_true_iff, ?N.eqb_neq; intuition discriminate. }
  destruct (sp_odometry sp nv b) eqn:E1.
  { exists IsOdometry. split; auto. intros [] Y; cbn in Y; rewrite ?CD in Y; auto; exfalso; intuition congruence. }
  destruct (sp_first sp nv b) eqn:E2.
  { exists IsFirstSighting. split; auto. intros [] Y; cbn in Y; rewrite ?CD in Y; auto; exfalso; intuition congruence. }
  destruct (N.eq_dec (b_from b) (b_to b)) as [E3|E3].
  { exists IsSelfLoop. split; [cbn; auto|]. intros [] Y; cbn in Y; rewrite ?CD in Y; auto; exfalso; intuition congruence. }
  assert (CT : sp_candidate sp nv b = true) by (apply CD; auto).
  destruct (known (b_from b)) eqn:K1; [destruct (known (b_to b)) eqn:K2|].
  2:{ exists LacksKey. split; [cbn; intuition congruence|]. intros [] Y; cbn in Y; auto; exfalso; intuition congruence. }
  2:{ exists LacksKey. split; [cbn; intuition congruence|]. intros [] Y; cbn in Y; auto; exfalso; intuition congruence. }
  destruct (sp_lmk C b) eqn:L.
  { exists StoredLandmark. split; [cbn; auto|]. intros [] Y; cbn in Y; auto; exfalso; intuition congruence. }
  destruct (passes_cases ref b) as [[_ P]|(_ & P1 & P2 & P3)].
  - exists StoredClosure. split; [cbn; auto|]. intros [] Y; cbn in Y; auto; exfalso; intuition congruence.
  - exists OdometryRejected. split; [cbn; auto 8|]. intros [] Y; cbn in Y; auto; exfalso; intuition congruence.
Qed.

Lemma fate_stored nv known (ref : refs) b : sp_candidate sp nv b && stores C known ref b = true <-> has_fate C nv known ref b StoredClosure.
Proof.
  cbn. unfold stores. rewrite !andb_true_iff, negb_true_iff, passes_odom_true. tauto.
Qed.
Lemma fate_stored_lm nv known (ref : refs) b : sp_candidate sp nv b && stores_lm C known b = true <-> has_fate C nv known ref b StoredLandmark.
Proof. cbn. unfold stores_lm. rewrite !andb_true_iff. tauto. Qed.

Lemma run_call h o fs vs (s' : solver) rs : run C W (h ++ [o]) start = Ok s' rs -> call_of o = Some (fs, vs) ->
  exists s rs0 p p' nfg' v' b, run C W h start = Ok s rs0 /\ hist_inv C W h s p /\ s_pcm s' = Some p' /\
    remove_outliers C (so_pcm W) fs vs (PSt p (s_nfg s) (s_vals s)) = Ok (PSt p' nfg' v') b /\
    (forall c k, tref p' c k = refs_after C W (h ++ [o]) c k) /\ (forall k, knows (h ++ [o]) k = kmem k v').
Proof.
  intros H Hc. pose proof H as H0. apply run_snoc in H. destruct H as (s & rs0 & r & HR & Hs & _).
  destruct (hist_run C W _ HR) as [p I]. pose proof (step_inv C W o s (hi_pcm I) Hs) as (s1 & p' & b & [E0 E] & _ & _ & HO & Ho).
  assert (Hp' : s_pcm s' = Some p').
  { destruct (optimises o b); [|congruence]. destruct (optimize_same C W s1 Ho) as (G & _). congruence. }
  assert (HO' : remove_outliers C (so_pcm W) fs vs (PSt p (s_nfg s) (s_vals s)) = Ok (PSt p' (s_nfg s1) (s_vals s1)) b).
  { apply HO. destruct o; try discriminate; injection Hc as -> ->; eauto. }
  exists s, rs0, p, p', (s_nfg s1), (s_vals s1), b. split; auto. split; auto. split; auto. split; auto. split.
  - intros c k. rewrite (refs_after_run _ _ _ H0 Hp'). auto.
  - pose proof (remove_outliers_ok C W _ _ _ _ _ HO') as (_ & _ & _ & KV & _).
    intro k. rewrite KV. apply eq_true_iff_eq. rewrite knows_supplied, supplied_snoc, orb_true_iff, (hi_keys I).
    rewrite kmem_In. split; (intros [X|X]; [auto|right]).
    + destruct X as (fs' & vs' & X & Y). rewrite Hc in X. injection X as <- <-. exact Y.
    + exists fs, vs. auto.
Qed.

(** Every container after a history. *)
Lemma c11_containers h (s : solver) rs : run C W h start = Ok s rs -> exists p, s_pcm s = Some p /\
  p_odom p = sp_odoms sp h /\ p_special p = sp_others h /\
  (forall id, me_factors (lc_get id (p_lcs p)) = filter (of_pair id) (sp_live C W h)) /\
  (forall l, me_factors (lm_get l (p_lms p)) = map fst (current C l (sp_sightings C W h))).
Proof.
  intro H. destruct (store_hist _ _ _ H) as (p & I & J). destruct (live_run _ _ _ H) as (p' & I' & L).
  assert (p' = p) by (pose proof (hi_pcm I); pose proof (hi_pcm I'); congruence). subst p'.
  exists p. split; [apply (hi_pcm I)|]. split; [apply (hi_odom I)|]. split; [apply (hi_special I)|].
  split; [apply (li_lcs L)|apply (ho_lms (si_lm J))].
Qed.

(** ** C12 *)
Lemma c12_pairs h (s : solver) rs id : run C W h start = Ok s rs -> no_removal h -> c_loop_check C = true ->
  pair_items C W id h <> [] -> exists p, s_pcm s = Some p /\
  me_factors (lc_get id (p_lcs p)) = map fst (pair_items C W id h) /\
  faithful (@lc_test O) (pair_items C W id h) (me_adj (lc_get id (p_lcs p))).
Proof.
  intros H NR HC HN. destruct (store_hist _ _ _ H) as (p & I & J). exists p. split; [apply (hi_pcm I)|]. split.
  - rewrite (ho_lcs (si_lc J NR)). symmetry. apply filter_fst.
  - apply (ho_adj (si_lc J NR) HC id HN).
Qed.

Lemma c12_landmarks h (s : solver) rs l : run C W h start = Ok s rs ->
  current C l (sp_sightings C W h) <> [] -> exists p, s_pcm s = Some p /\
  me_factors (lm_get l (p_lms p)) = map fst (current C l (sp_sightings C W h)) /\
  faithful (@lm_test O) (recorded l (current C l (sp_sightings C W h))) (me_adj (lm_get l (p_lms p))).
Proof.
  intros H HN. destruct (store_hist _ _ _ H) as (p & I & J). exists p. split; [apply (hi_pcm I)|]. split.
  - apply (ho_lms (si_lm J)).
  - apply (ho_lmrec (si_lm J)). apply recorded_nonempty. auto.
Qed.

(** ** C14 *)
Lemma c14_odometry_off h o fs vs (s : solver) rs b : run C W (h ++ [o]) start = Ok s rs -> call_of o = Some (fs, vs) ->
  c_odom_check C = false -> In (Some (FBetween b)) fs -> sp_candidate sp vs b = true ->
  knows (h ++ [o]) (b_from b) = true -> knows (h ++ [o]) (b_to b) = true -> sp_lmk C b = false ->
  exists p, s_pcm s = Some p /\ In b (me_factors (lc_get (chr (b_from b), chr (b_to b)) (p_lcs p))).
Proof.
  intros H Hc Ho Hin Hcand K1 K2 L. destruct (live_run _ _ _ H) as (p & I & J). exists p. split; [apply (hi_pcm I)|].
  rewrite (li_lcs J). apply filter_In. split; [|apply oid_eqb_refl].
  pose proof (livepair_eq C W (h ++ [o])) as E. rewrite livepair_snoc, livepair_eq in E.
  assert (X : sp_live C W (h ++ [o]) = sp_live C W h ++ map fst (newly C W h o)).
  { destruct o; try discriminate; injection E; auto. }
  rewrite X. apply in_or_app. right. unfold newly. rewrite Hc, map_map. cbn. rewrite map_id. apply filter_In. split.
  - apply filter_In. split; auto. unfold betweens. apply in_flat_map. exists (Some (FBetween b)). cbn. auto.
  - unfold stores, passes_odom. rewrite K1, K2, L, Ho, andb_false_r. auto.
Qed.

(** ** C24 *)
Lemma c24_total h (s : solver) rs : run C W h start = Ok s rs ->
  get_num_lc s = Val (length (sp_stored C W h) + length (sp_sightings C W h)).
Proof.
  intro H. destruct (store_hist _ _ _ H) as (p & I & J). unfold get_num_lc. rewrite (hi_pcm I), (si_total J). auto.
Qed.

Lemma count_cons_flat {K} (m : umap K meas) : count_cons m = length (flat_map (fun kv => me_cons (snd kv)) m).
Proof. induction m as [|x m IH]; cbn; auto. rewrite app_length, <- IH. auto. Qed.

Lemma flat_map_perm {A B} (f : A -> list B) l l' : Permutation l l' -> length (flat_map f l) = length (flat_map f l').
Proof.
  intro H. induction H; cbn; rewrite ?app_length; auto; try lia.
Qed.

Lemma c24_inliers h o fs vs (s : solver) rs : run C W (h ++ [o]) start = Ok s rs -> call_of o = Some (fs, vs) ->
  c_gnc C = false -> filter (sp_candidate sp vs) (betweens fs) <> [] -> (forall c, sp_ignored (h ++ [o]) c = false) ->
  get_num_inliers C s = Val (Z.of_nat (length (graph_extra C (h ++ [o]) (s_nfg s)))).
Proof.
  intros H Hc Hg HN HI. destruct (run_call _ _ H Hc) as (s0 & rs0 & p0 & p & nfg & v & b & HR & I0 & Hp & HO & HF & HK).
  destruct (@remove_outliers_store _ C W _ _ _ _ _ _ _ _ _ _ _ HO HF HK) as (_ & _ & _ & _ & _ & G & _). specialize (G HN).
  unfold get_num_inliers. rewrite Hg, Hp, G. f_equal. f_equal.
  destruct (store_hist _ _ _ H) as (p' & I & J). assert (p' = p) by (pose proof (hi_pcm I); congruence). subst p'.
  rewrite (graph_extra_eq I), app_length, !count_cons_flat. f_equal.
  - unfold build_lcs. rewrite (flat_map_perm _ (uiter_perm (w_lc_order (so_pcm W)) (p_lcs p))).
    f_equal. apply flat_map_ext. intros [id m]. rewrite (ignored_eq id I). unfold pair_ignored. rewrite !HI. auto.
  - unfold build_lms. rewrite (flat_map_perm _ (uiter_perm (w_lm_order (so_pcm W)) (p_lms p))).
    f_equal. apply flat_map_ext. intros [id m]. auto.
Qed.

(** ** C34, whole solver *)
Lemma c34_all h (s : solver) rs id : run C W h start = Ok s rs -> no_removal h -> c_incremental C = false ->
  pair_ignored h id = false ->
  (forall i j x y, i < j -> nth_error (pair_items C W id h) i = Some x -> nth_error (pair_items C W id h) j = Some y ->
     lc_test x y = Some true) ->
  Permutation (graph_lcs C h id (s_nfg s)) (map fst (pair_items C W id h)).
Proof.
  intros H NR HI HG HA. destruct (c_loop_check C) eqn:HC; [|rewrite (@accepted_off _ C W _ _ _ id H NR HI HC HG); auto].
  destruct (pair_items C W id h) as [|x0 L0] eqn:EL.
  { destruct (store_hist _ _ _ H) as (p & I & J). rewrite (graph_lcs_eq id I), HG.
    pose proof (hi_stored I) as [S1 _ _ _]. rewrite Forall_forall in S1. cbn.
    assert (E : me_factors (lc_get id (p_lcs p)) = []).
    { rewrite (ho_lcs (si_lc J NR)), <- filter_fst. fold (pair_items C W id h). rewrite EL. auto. }
    unfold uget in *. destruct (lc_find id (p_lcs p)) as [m|] eqn:EF; auto.
    apply ufind_In in EF. destruct EF as (k & _ & Hin). destruct (S1 _ Hin) as [_ Hi]. cbn [snd] in Hi. rewrite E in Hi.
    destruct (me_cons m) as [|y l]; auto. destruct (Hi y). left; auto. }
  destruct (@accepted_on _ C W _ _ _ id H NR HI HC HG) as (idx & _ & _ & _ & _ & HP); [congruence|].
  rewrite EL in *. apply HP. intros x y Hx Hy Hxy.
  destruct (nth_error (x0 :: L0) x) as [a|] eqn:Ea; [|apply nth_error_None in Ea; lia].
  destruct (nth_error (x0 :: L0) y) as [b|] eqn:Eb; [|apply nth_error_None in Eb; lia].
  exists a, b. split; auto. split; auto. destruct (Nat.lt_trichotomy x y) as [D|[D|D]]; [left|congruence|right]; split; auto.
  - eapply HA; [exact D| |]; eauto.
  - eapply HA; [exact D| |]; eauto.
Qed.

(** ** C21, C22 *)
Notation edge := (fun x : bf => (b_from x, b_to x)).

Lemma graph_live h (s : solver) rs id : run C W h start = Ok s rs ->
  incl (graph_lcs C h id (s_nfg s)) (filter (of_pair id) (sp_live C W h)).
Proof.
  intro H. destruct (live_run _ _ _ H) as (p & I & L). rewrite (graph_lcs_eq id I), <- (li_lcs L).
  destruct (pair_ignored h id); [intros x []|]. pose proof (hi_stored I) as [S1 _ _ _]. rewrite Forall_forall in S1.
  unfold uget. destruct (lc_find id (p_lcs p)) as [m|] eqn:EF; [|intros x []].
  apply ufind_In in EF. destruct EF as (k & _ & Hin). destruct (S1 _ Hin) as [_ Hi]. exact Hi.
Qed.

Lemma sp_live_snoc h o : (sp_live C W (h ++ [o]), sp_order C W (h ++ [o])) = live_step C W h o (sp_live C W h, sp_order C W h).
Proof. rewrite <- !livepair_eq. apply livepair_snoc. Qed.

Lemma step_run h o (s s' : solver) rs r : run C W h start = Ok s rs -> step C W o s = Ok s' r ->
  run C W (h ++ [o]) start = Ok s' (rs ++ [r]).
Proof. intros H Hs. eapply run_app_ok; eauto. cbn [run]. rewrite Hs. reflexivity. Qed.

Lemma c21 h (s : solver) rs a b s' r : run C W h start = Ok s rs -> step C W (OpRemoveId a b) s = Ok s' r ->
  r = Some (option_map edge (last_of (of_pair (a, b)) (sp_live C W h))) /\
  (exists p', s_pcm s' = Some p' /\ forall id, me_factors (lc_get id (p_lcs p')) =
     filter (of_pair id) (drop_last (of_pair (a, b)) (sp_live C W h))) /\
  forall id, incl (graph_lcs C (h ++ [OpRemoveId a b]) id (s_nfg s')) (filter (of_pair id) (drop_last (of_pair (a, b)) (sp_live C W h))).
Proof.
  intros H Hs. destruct (live_run _ _ _ H) as (p & I & L). 
  destruct (live_step_inv _ H (hi_pcm I) L Hs) as (p' & Hp' & L' & A & _). split; [apply A; auto|].
  pose proof (sp_live_snoc h (OpRemoveId a b)) as E. injection E as E _. rewrite <- E. split.
  - exists p'. split; auto. apply (li_lcs L').
  - intro id. eapply graph_live. eapply step_run; eauto.
Qed.

Definition no_removal_by_pair (h : list op) : Prop := forall a b, ~ In (OpRemoveId a b) h.

Lemma live_order h : no_removal_by_pair h -> sp_order C W h = map (@pair_of O) (sp_live C W h).
Proof.
  induction h as [|o h IH] using rev_ind; intro H; [reflexivity|].
  assert (IH' : sp_order C W h = map (@pair_of O) (sp_live C W h)) by (apply IH; intros a b X; apply (H a b), in_or_app; auto).
  pose proof (sp_live_snoc h o) as E.
  destruct o as [fs vs opt|fs vs|c opt|a0 b0| |c|c|fs vs|fs vs|]; cbn [live_step] in E.
  4:{ destruct (H a0 b0). apply in_or_app. right. left. auto. }
  4:{ rewrite IH' in E. destruct (sp_live C W h) as [|x l] using rev_ind; [cbn in E; injection E as -> ->; auto|].
      clear IHl. rewrite map_app, rev_app_distr in E. cbn [map rev app] in E. rewrite removelast_last in E.
      rewrite drop_last_snoc in E by apply oid_eqb_refl. injection E as -> ->. auto. }
  all: injection E as E1 E2; rewrite E1, E2, map_app, ?map_map, IH'; reflexivity.
Qed.

Lemma c22_step h (s : solver) rs s' r : run C W h start = Ok s rs -> no_removal_by_pair h -> step C W OpRemoveLast s = Ok s' r ->
  r = Some (nth_error (map edge (rev (sp_live C W h))) 0) /\
  sp_live C W (h ++ [OpRemoveLast]) = removelast (sp_live C W h).
Proof.
  intros H HN Hs. destruct (live_run _ _ _ H) as (p & I & L).
  destruct (live_step_inv _ H (hi_pcm I) L Hs) as (p' & _ & _ & _ & A). rewrite (A eq_refl), (live_order HN).
  pose proof (sp_live_snoc h OpRemoveLast) as E. cbn [live_step] in E. rewrite (live_order HN) in E.
  destruct (sp_live C W h) as [|x l] using rev_ind; [|clear IHl].
  - cbn in *. split; auto. injection E; auto.
  - rewrite map_app, !rev_app_distr in *. cbn [map rev app nth_error] in *. rewrite removelast_last in *.
    rewrite drop_last_snoc in E by apply oid_eqb_refl. split; [|injection E; auto].
    unfold last_of. rewrite filter_app, rev_app_distr. cbn [filter].
    replace (of_pair (pair_of x) x) with true by (symmetry; apply oid_eqb_refl). reflexivity.
Qed.

Lemma c22 n h : forall (s : solver) rs s' rs', run C W h start = Ok s rs -> no_removal_by_pair h ->
  run C W (repeat OpRemoveLast n) s = Ok s' rs' ->
  rs' = map (fun i => Some (nth_error (map edge (rev (sp_live C W h))) i)) (seq 0 n) /\
  sp_live C W (h ++ repeat OpRemoveLast n) = firstn (length (sp_live C W h) - n) (sp_live C W h).
Proof.
  revert h. induction n as [|n IH]; intros h s rs s' rs' H HN HR.
  - injection HR as <- <-. cbn. rewrite app_nil_r, Nat.sub_0_r, firstn_all. auto.
  - cbn [repeat run] in HR. destruct (step C W OpRemoveLast s) as [s1 r| |] eqn:Es; cbn [obind] in HR; try discriminate.
    destruct (run C W (repeat OpRemoveLast n) s1) as [s2 rs2| |] eqn:E2; cbn [obind] in HR; try discriminate.
    injection HR as <- <-. destruct (c22_step H HN Es) as [-> EL].
    assert (HN' : no_removal_by_pair (h ++ [OpRemoveLast])).
    { intros a b X. apply in_app_or in X. destruct X as [X|[X|[]]]; [apply (HN a b X)|discriminate]. }
    destruct (IH _ _ _ _ _ (step_run _ _ H Es) HN' E2) as [-> EL'].
    replace (h ++ repeat OpRemoveLast (S n)) with ((h ++ [OpRemoveLast]) ++ repeat OpRemoveLast n) by (rewrite <- app_assoc; auto).
    rewrite EL', EL. cbn [seq map]. split.
    + f_equal. rewrite <- seq_shift, map_map. apply map_ext. intro i. f_equal.
      destruct (sp_live C W h) as [|x l] using rev_ind; [destruct i; auto|]. rewrite removelast_last, rev_app_distr. auto.
    + destruct (sp_live C W h) as [|x l] using rev_ind; [cbn; destruct n; auto|].
      rewrite removelast_last, app_length. cbn [length]. replace (length l + 1 - S n) with (length l - n) by lia.
      rewrite firstn_app. replace (length l - n - length l) with 0 by lia. cbn. rewrite app_nil_r. auto.
Qed.

Lemma c22_full n h (s : solver) rs s' rs' : run C W h start = Ok s rs -> no_removal_by_pair h ->
  run C W (repeat OpRemoveLast n) s = Ok s' rs' ->
  rs' = map (fun i => Some (nth_error (map edge (rev (sp_live C W h))) i)) (seq 0 n) /\
  exists p', s_pcm s' = Some p' /\ forall id, me_factors (lc_get id (p_lcs p')) =
     filter (of_pair id) (firstn (length (sp_live C W h) - n) (sp_live C W h)).
Proof.
  intros H HN HR. destruct (c22 n H HN HR) as [A B]. split; auto. rewrite <- B.
  destruct (live_run _ _ _ (run_app_ok C W _ _ _ H HR)) as (p' & I & L). exists p'. split; [apply (hi_pcm I)|apply (li_lcs L)].
Qed.

(** Observations of a landmark not sighted for the first time again. *)
Lemma current_app_again l (M N : list (sighting O)) : (forall x, In x N -> of_landmark C l (fst (si_obs x)) = true -> si_first x = false) ->
  current C l (M ++ N) = current C l M ++ map (@si_obs O) (filter (fun x => of_landmark C l (fst (si_obs x))) N).
Proof.
  revert M. induction N as [|x N IH]; intros M H; [rewrite !app_nil_r; auto|].
  change (x :: N) with ([x] ++ N). rewrite app_assoc, IH by (intros y Hy; apply H; right; auto).
  rewrite current_snoc. cbn [filter app]. specialize (H x (or_introl eq_refl)).
  destruct (of_landmark C l (fst (si_obs x))); [|auto]. rewrite H by auto. cbn [map]. rewrite <- app_assoc. auto.
Qed.

Lemma c25_partial h o fs vs (s : solver) rs l : run C W (h ++ [o]) start = Ok s rs -> call_of o = Some (fs, vs) ->
  (forall b, In (Some (FBetween b)) fs -> sp_first sp vs b = true -> sp_landmark_key sp b <> l) ->
  exists p new, s_pcm s = Some p /\
    me_factors (lm_get l (p_lms p)) = map fst (current C l (sp_sightings C W h)) ++ new /\
    forall b, In b new <-> In (Some (FBetween b)) fs /\ sp_candidate sp vs b = true /\
      stores_lm C (knows (h ++ [o])) b = true /\ sp_landmark_key sp b = l.
Proof.
  intros H Hc HF. destruct (c11_containers _ H) as (p & Hp & _ & _ & _ & G).
  exists p, (map fst (map (@si_obs O) (filter (fun x => of_landmark C l (fst (si_obs x))) (sighted C W h o)))).
  split; auto. rewrite G, sp_sightings_snoc. unfold sighted. rewrite Hc. split.
  - rewrite current_app_again, map_app; auto. intros x Hx Hl. apply in_app_or in Hx. destruct Hx as [Hx|Hx].
    + apply in_map_iff in Hx. destruct Hx as (b & <- & Hb). apply filter_In in Hb. destruct Hb as [Hb1 Hb2].
      apply In_betweens in Hb1. cbn in Hl. apply N.eqb_eq in Hl. destruct (HF b Hb1 Hb2). auto.
    + apply in_map_iff in Hx. destruct Hx as (b & <- & Hb). auto.
  - intro b. rewrite map_map, in_map_iff. split.
    + intros (x & <- & Hx). apply filter_In in Hx. destruct Hx as [Hx Hl]. unfold of_landmark in Hl. apply N.eqb_eq in Hl.
      apply in_app_or in Hx. destruct Hx as [Hx|Hx]; apply in_map_iff in Hx; destruct Hx as (y & <- & Hy); apply filter_In in Hy; cbn in *.
      * destruct Hy as [Hy1 Hy2]. apply In_betweens in Hy1. destruct (HF y Hy1 Hy2). auto.
      * destruct Hy as [Hy1 Hy2]. apply filter_In in Hy1. destruct Hy1 as [Hy1 Hy3]. apply In_betweens in Hy1. auto.
    + intros (H1 & H2 & H3 & H4). exists (Sight false (b, refs_after C W (h ++ [o]))). split; auto.
      apply filter_In. split; [|unfold of_landmark; cbn; apply N.eqb_eq; auto].
      apply in_or_app. right. apply in_map_iff. exists b. split; auto. apply filter_In. split; auto. apply filter_In. split; auto.
      apply In_betweens. auto.
Qed.

(** The pair of robots is unordered. *)
Lemma of_pair_either a b (x : bf) : of_pair (a, b) x = true <->
  (chr (b_from x) = a /\ chr (b_to x) = b) \/ (chr (b_from x) = b /\ chr (b_to x) = a).
Proof.
  unfold of_pair, oid_eqb. cbn [fst snd]. rewrite orb_true_iff, !andb_true_iff, !N.eqb_eq. intuition congruence.
Qed.
End Thms.
