(** * Pairwise records in histories with any removals *)
From Verif Require Import Prelude Num Keys KMap UMap Geometry Factors Clique CliqueSpec CliqueHeu Pcm Solver ValuesProofs
  PcmSpec PcmProofs PcmInv PcmStore HistSpec StoreSpec SolverProofs HistProofs GraphProofs UpdateProofs StoreProofs AcceptProofs LiveProofs
  StoreThms SafeProofs RemoveSpec RemoveExact ItemProofs.
Set Implicit Arguments.
Local Open Scope nat_scope.

Lemma two_heu f : find_max_clique_heu (Mat 2 2 f) = if f 1 0 then Val (2%Z, [0; 1]) else Val (1%Z, [0]).
Proof.
  unfold find_max_clique_heu, read_eigen, read_nodelist. cbn [m_rows m_cols seq fold_left Nat.sub].
  unfold read_body. cbn [Nat.eqb orb m_at negb]. destruct (f 1 0); cbn [negb existsb]; vm_compute; reflexivity.
Qed.

Section Rec.
Variable O : tops.
Variable C : config.
Variable W : soracles O.
Notation bf := (bf O).
Notation values := (values O).
Notation T := (t_T O).
Notation pcm := (pcm O).
Notation meas := (meas O).
Notation sp := (c_special C).
Notation refs := (N -> key -> T).
Notation item := (bf * refs)%type.
Notation op := (op O).
Notation solver := (solver O).
Notation start := (@solver_init O true).
Notation lc_get := (uget oid_eqb (@meas_default O)).
Notation sp_items := (@sp_items O C W).
Notation pair_record := (@pair_record O C W).
Notation live_of := (@live_of O C W).
Notation new_of := (@new_of O C W).

Definition at_pair (id : obsid) (L : list item) : list item := filter (fun x => of_pair id (fst x)) L.

Record recs (L : list item) (R : obsid -> list item) (p : pcm) : Prop := {
  rc_lcs : forall id, me_factors (lc_get id (p_lcs p)) = map fst (at_pair id L);
  rc_ext : forall a b, oid_eqb a b = true -> R a = R b;
  rc_pre : forall id, exists tl, R id = at_pair id L ++ tl /\ (tl = [] \/ length (R id) <= 2);
  rc_adj : forall id, R id <> [] -> faithful (@lc_test O) (R id) (me_adj (lc_get id (p_lcs p))) }.

Lemma recs_frame L R (p q : pcm) : p_lcs q = p_lcs p -> recs L R p -> recs L R q.
Proof. intros E [A B D F]. split; rewrite ?E; auto. Qed.

Lemma recs_ext L R R' (p : pcm) : (forall id, R id = R' id) -> recs L R p -> recs L R' p.
Proof.
  intros E [A B D F]. split; auto.
  - intros a b H. rewrite <- !E. auto.
  - intro id. rewrite <- E. auto.
  - intro id. rewrite <- E. auto.
Qed.

Lemma at_pair_ext a b L : oid_eqb a b = true -> at_pair a L = at_pair b L.
Proof. intro H. apply filter_ext. intro x. apply of_pair_ext. auto. Qed.

Definition restored (new : list item) (L : list item) (R : obsid -> list item) (id : obsid) : list item :=
  match at_pair id new with [] => R id | _ => at_pair id (L ++ new) end.

Lemma restored_app n1 n2 L R id : restored n2 (L ++ n1) (restored n1 L R) id = restored (n1 ++ n2) L R id.
Proof.
  unfold restored, at_pair. rewrite !filter_app. destruct (filter _ n2) as [|y l2].
  - destruct (filter _ n1); rewrite ?app_nil_r; auto.
  - destruct (filter _ n1); cbn [app]; rewrite <- ?app_assoc; auto.
Qed.

Lemma parsed_recs vals b (p p' : pcm) o L R (ref : refs) : c_loop_check C = true -> parsed C vals b p p' o -> recs L R p ->
  (forall c k, tref p c k = ref c k) ->
  let new := if stores C (fun k => kmem k vals) ref b then [(b, ref)] else [] in
  recs (L ++ new) (restored new L R) p'.
Proof.
  intros HC HP HH HR. destruct (parsed_stores _ HP HR) as (-> & _).
  inversion HP as [Hm|tr K1 K2 Hl Hc Ho Ht|adj tr K1 K2 Hl|adj tr (K1 & K2 & Hl & Ha) Hg Ht]; subst; clear HP;
    try (cbv zeta; rewrite app_nil_r; eapply recs_frame; [|exact HH]; reflexivity).
  cbv zeta. rewrite HC in Hg. destruct HH as [A B D F].
  assert (NB : forall id, at_pair id [(b, ref)] = if oid_eqb id (pair_of b) then [(b, ref)] else []).
  { intro id. unfold at_pair. cbn [filter fst]. unfold of_pair. change (chr (b_from b), chr (b_to b)) with (pair_of b).
    rewrite (oid_eqb_sym id). destruct (oid_eqb (pair_of b) id); auto. }
  assert (AP : forall id, at_pair id (L ++ [(b, ref)]) = at_pair id L ++ at_pair id [(b, ref)]) by (intro; apply filter_app).
  unfold restored. split; unfold store_lc; cbn [p_lcs p_order set_trajs set_total set_order set_lcs].
  - intro id. rewrite oid_get_set, AP, NB, map_app. destruct (oid_eqb id (pair_of b)) eqn:E.
    + cbn [me_factors map fst]. rewrite A, (at_pair_ext _ _ _ E). auto.
    + cbn [map]. rewrite app_nil_r. auto.
  - intros a c H. rewrite (at_pair_ext _ _ [(b, ref)] H). destruct (at_pair c [(b, ref)]); [auto|apply at_pair_ext; auto].
  - intro id. rewrite AP, NB. destruct (oid_eqb id (pair_of b)) eqn:E; [exists []; rewrite app_nil_r; auto|].
    rewrite app_nil_r. apply D.
  - intros id. rewrite oid_get_set, AP, NB. destruct (oid_eqb id (pair_of b)) eqn:E; [|apply F].
    intros _. cbn [me_adj]. rewrite (at_pair_ext _ _ _ E).
    set (Lb := at_pair (pair_of b) L) in *. assert (EL : me_factors (lc_get (pair_of b) (p_lcs p)) = map fst Lb) by apply A.
    destruct Hg as [[Hn ->]|(Hn & D1 & D2 & bits & -> & HB)].
    + rewrite EL, map_length in Hn. apply length_zero_iff_nil in Hn. rewrite Hn. apply faithful_one.
    + rewrite EL, map_length in *. destruct (D (pair_of b)) as (tl & T1 & _). fold Lb in T1.
      assert (FA : faithful (@lc_test O) (Lb ++ tl) (me_adj (lc_get (pair_of b) (p_lcs p)))).
      { rewrite <- T1. apply F. rewrite T1. intro X. apply app_eq_nil in X. destruct X as [X _]. rewrite X in Hn. cbn in Hn. lia. }
      assert (TL : tl = []).
      { destruct FA as (FA & _). rewrite D1, app_length in FA. apply length_zero_iff_nil. lia. }
      subst tl. rewrite app_nil_r in FA. apply faithful_snoc; auto.
      apply Forall2_map_l in HB. eapply Forall2_imp; [|exact HB].
      cbn. intros x r Hx. rewrite <- Hx. unfold lc_test. cbn. apply sp_loop_test_ext. intros. symmetry. auto.
Qed.

Lemma parsed_list_recs vals bs (ref : refs) : c_loop_check C = true -> forall (p p' : pcm), parsed_list C vals bs p p' ->
  (forall c k, tref p c k = ref c k) -> forall L R, recs L R p ->
  let new := map (fun b => (b, ref)) (filter (stores C (fun k => kmem k vals) ref) bs) in
  recs (L ++ new) (restored new L R) p'.
Proof.
  intros HC p p' H. induction H as [p|b bs p o p1 p2 HP H IH]; intros HR L R HH.
  - cbn. rewrite app_nil_r. eapply recs_ext; [|exact HH]. auto.
  - pose proof (parsed_recs ref HC HP HH HR) as X. cbv zeta in X.
    specialize (IH ltac:(intros c k; rewrite (parsed_tref HP); auto) _ _ X). cbv zeta in IH. rewrite <- app_assoc in IH.
    eapply recs_ext in IH. 2:{ intro id. apply restored_app. }
    cbv zeta. cbn [filter]. destruct (stores C _ ref b); exact IH.
Qed.

Lemma selected_recs L R (p p' : pcm) : selected p p' -> recs L R p -> recs L R p'.
Proof.
  intros (E1 & _ & _) [A B D F]. split; auto.
  - intro id. rewrite (proj1 (entrywise_get oid_eqb id E1)). auto.
  - intro id. rewrite (proj2 (entrywise_get oid_eqb id E1)). auto.
Qed.

Lemma removed_recs id0 L R (p q p' : pcm) e : p_lcs q = p_lcs p -> recs L R p -> has_rows p ->
  (length (at_pair id0 L) < 3 \/ freed_intact W) -> pcm_remove_last_id (so_pcm W) id0 q = Val (p', e) ->
  let L' := drop_last (fun x => of_pair id0 (fst x)) L in
  recs L' (fun id => if oid_eqb id id0 && (3 <=? length (at_pair id L)) then at_pair id L' else R id) p'.
Proof.
  intros HQ [A B D F] HR HF H L'. destruct id0 as [a0 b0].
  assert (HRq : has_rows q) by (unfold has_rows; rewrite HQ; auto).
  pose proof (@remove_id_live _ _ _ _ _ _ _ H HRq) as (_ & _ & R3 & _ & R5). rewrite HQ in *.
  unfold pcm_remove_last_id in H. rewrite HQ in H.
  assert (AL : forall id, at_pair id L' = if oid_eqb id (a0, b0) then removelast (at_pair id L) else at_pair id L).
  { intro id. unfold L', at_pair. destruct (oid_eqb id (a0, b0)) eqn:E2.
    - rewrite !(filter_ext _ _ (fun x => of_pair_ext _ _ (fst x) E2)). apply drop_last_filter.
    - apply drop_last_other. intros y Hy. eapply of_pair_disjoint; eauto. }
  destruct (lc_find (a0, b0) (p_lcs p)) as [m|] eqn:E.
  2:{ injection H as <- <-. assert (EL : at_pair (a0, b0) L = []).
      { pose proof (A (a0, b0)) as X. unfold uget in X. rewrite E in X. cbn in X. destruct (at_pair (a0, b0) L); [auto|discriminate X]. }
      assert (SAME : forall id, at_pair id L' = at_pair id L).
      { intro id. rewrite AL. destruct (oid_eqb id (a0, b0)) eqn:E2; auto. rewrite (at_pair_ext _ _ _ E2), EL. auto. }
      assert (RE : forall id, R id = if oid_eqb id (a0, b0) && (3 <=? length (at_pair id L)) then at_pair id L' else R id).
      { intro id. destruct (oid_eqb id (a0, b0)) eqn:E2; auto. rewrite (at_pair_ext _ _ L E2), EL. auto. }
      eapply recs_ext; [exact RE|]. split; rewrite ?HQ; auto.
      - intro id. rewrite SAME. auto.
      - intro id. rewrite SAME. auto. }
  assert (G : lc_get (a0, b0) (p_lcs p) = m) by (unfold uget; rewrite E; auto).
  destruct R5 as (fs & x & R5 & _). rewrite R5, rev_app_distr, removelast_last in H. cbn [rev app] in H.
  assert (Hm : 1 <= m_rows (me_adj m)).
  { apply ufind_In in E. destruct E as (k & _ & Hin). unfold has_rows in HR. rewrite Forall_forall in HR. apply (HR _ Hin). }
  destruct (m_rows (me_adj m) <=? 0) eqn:E0; [apply Nat.leb_le in E0; lia|].
  match type of H with rbind ?r _ = _ => destruct r as [m'|] eqn:EM end; cbn [rbind] in H; [|discriminate].
  injection H as <- <-.
  assert (HL : length (at_pair (a0, b0) L) = length fs + 1).
  { rewrite <- (map_length fst), <- A, G, R5, app_length. auto. }
  assert (AD : if 3 <=? length (at_pair (a0, b0) L) then faithful (@lc_test O) (at_pair (a0, b0) L') (me_adj m') else me_adj m' = me_adj m).
  { rewrite HL. destruct (length fs <? 2) eqn:E2.
    - apply Nat.ltb_lt in E2. injection EM as <-. destruct (3 <=? length fs + 1) eqn:E3; [apply Nat.leb_le in E3; lia|]. auto.
    - apply Nat.ltb_ge in E2. replace (3 <=? length fs + 1) with true by (symmetry; apply Nat.leb_le; lia).
      destruct (m_cols (me_adj m) =? m_rows (me_adj m)); [|discriminate].
      apply heu_inliers_inv in EM. destruct EM as (k & data & cs & K1 & K2 & ->). cbn [me_adj].
      destruct HF as [HF|HF]; [lia|]. rewrite AL, oid_eqb_refl.
      destruct (D (a0, b0)) as (tl & T1 & T2). assert (tl = []).
      { destruct T2 as [T2|T2]; auto. rewrite T1, app_length in T2. lia. }
      subst tl. rewrite app_nil_r in T1. unfold shrink_mat. apply faithful_shrink; auto; [lia|].
      rewrite <- T1, <- G. apply F. rewrite T1. intro X. rewrite X in HL. cbn in HL. lia. }
  split; cbn [p_lcs set_lcs].
  - intro id. rewrite AL. replace (me_factors (lc_get id (lc_set (a0, b0) m' (p_lcs p))))
      with (if oid_eqb id (a0, b0) then removelast (me_factors (lc_get id (p_lcs p))) else me_factors (lc_get id (p_lcs p)))
      by (rewrite <- R3; auto).
    rewrite A. destruct (oid_eqb id (a0, b0)); auto. generalize (at_pair id L). intro l. clear. destruct l as [|y l _] using rev_ind; auto.
    rewrite map_app. cbn [map]. rewrite !removelast_last. auto.
  - intros a b Hab. rewrite (at_pair_ext _ _ L Hab), (at_pair_ext _ _ L' Hab), (B _ _ Hab).
    replace (oid_eqb a (a0, b0)) with (oid_eqb b (a0, b0)); auto. apply eq_true_iff_eq. split; intro X.
    + eapply oid_eqb_trans; eauto.
    + eapply oid_eqb_trans; [|exact X]. rewrite oid_eqb_sym. auto.
  - intro id. destruct (oid_eqb id (a0, b0)) eqn:E2; cbn [andb].
    + destruct (3 <=? length (at_pair id L)) eqn:E3; [exists []; rewrite app_nil_r; auto|]. apply Nat.leb_gt in E3.
      rewrite AL, E2. destruct (D id) as (tl & T1 & T2).
      assert (NE : at_pair id L <> []) by (rewrite (at_pair_ext _ _ _ E2); intro X; rewrite X in HL; cbn in HL; lia).
      destruct (at_pair id L) as [|y l _] eqn:EL using rev_ind; [congruence|]. rewrite removelast_last.
      exists (y :: tl). rewrite T1, <- app_assoc. split; auto. right. destruct T2 as [-> | T2]; [rewrite app_nil_r; lia|].
      rewrite T1, <- app_assoc in T2. exact T2.
    + rewrite AL, E2. apply D.
  - intro id. rewrite oid_get_set. destruct (oid_eqb id (a0, b0)) eqn:E2; cbn [andb]; [|apply F].
    rewrite (at_pair_ext _ _ L E2), (at_pair_ext _ _ L' E2), (B _ _ E2).
    destruct (3 <=? length (at_pair (a0, b0) L)); auto. rewrite AD, <- G. apply F.
Qed.

Lemma record_from_snoc id done todo o was :
  record_from C W id done (todo ++ [o]) was = record_step C W id (done ++ todo) o (record_from C W id done todo was).
Proof.
  revert done was. induction todo as [|x todo IH]; intros done was; cbn [record_from app].
  - rewrite app_nil_r. auto.
  - rewrite IH, <- app_assoc. auto.
Qed.
Lemma pair_record_snoc id h o : pair_record id (h ++ [o]) = record_step C W id h o (pair_record id h).
Proof. unfold RemoveSpec.pair_record. rewrite record_from_snoc. auto. Qed.

Lemma at_pair_live id h : map fst (at_pair id (sp_items h)) = live_of id h.
Proof. unfold at_pair, RemoveSpec.live_of. rewrite filter_fst, sp_items_live. auto. Qed.

Lemma record_run h : c_loop_check C = true -> forall (s : solver) rs, run C W h start = Ok s rs -> records_sound C W h ->
  exists p, s_pcm s = Some p /\ recs (sp_items h) (fun id => pair_record id h) p.
Proof.
  intro HC. induction h as [|o h IH] using rev_ind; intros s rs H Hg.
  - injection H as <- <-. exists pcm_init. split; auto. split; cbn; auto; [exists []; auto|congruence].
  - assert (Hgh : records_sound C W h).
    { destruct Hg as [Hg|Hg]; [left; auto|right]. intros h1 o' h2 id E. apply (Hg h1 o' (h2 ++ [o]) id). rewrite E, <- app_assoc. auto. }
    assert (Hgo : forall id, target C W h o = Some id -> length (at_pair id (sp_items h)) < 3 \/ freed_intact W).
    { intros id Ht. destruct Hg as [Hg|Hg]; auto. left. rewrite <- (map_length fst), at_pair_live. apply (Hg h o [] id); auto. }
    pose proof H as HR. apply run_snoc in HR. destruct HR as (s0 & rs0 & r & HR & HS & _).
    destruct (IH _ _ HR Hgh) as (p & Hp & J). destruct (live_run C W _ HR) as (p0 & I & L).
    assert (p0 = p) by (pose proof (hi_pcm I); congruence). subst p0.
    pose proof (step_inv C W o s0 Hp HS) as (s1 & p' & b & [E0 E] & _ & _ & _ & Ho).
    assert (Hp' : s_pcm s = Some p').
    { destruct (optimises o b); [|congruence]. destruct (optimize_same C W s1 Ho) as (G & _). congruence. }
    exists p'. split; auto.
    assert (FR : call_of o = None -> target C W h o = None -> sp_items (h ++ [o]) = sp_items h -> p_lcs p' = p_lcs p -> recs (sp_items (h ++ [o])) (fun id => pair_record id (h ++ [o])) p').
    { intros X1 X2 X3 X4. rewrite X3. eapply recs_frame; [exact X4|]. eapply recs_ext; [|exact J]. intro id. rewrite pair_record_snoc.
      unfold record_step. rewrite X2. unfold RemoveSpec.new_of. rewrite newly_none by auto. auto. }
    assert (CALL : forall fs vs, call_of o = Some (fs, vs) ->
       (exists b, remove_outliers C (so_pcm W) fs vs (PSt p (s_nfg s0) (s_vals s0)) = Ok (PSt p' (s_nfg s1) (s_vals s1)) b) ->
       recs (sp_items (h ++ [o])) (fun id => pair_record id (h ++ [o])) p').
    { intros fs vs Hc [b' HX].
      pose proof (remove_outliers_ok C W _ _ _ _ _ HX) as (_ & _ & _ & KV & _).
      assert (KN : forall k, knows (h ++ [o]) k = kmem k (s_vals s1)).
      { intro k. rewrite KV. apply eq_true_iff_eq. rewrite knows_supplied, supplied_snoc, orb_true_iff, (hi_keys I).
        rewrite kmem_In. split; (intros [X|X]; [auto|right]).
        + destruct X as (fs' & vs' & X & Y). rewrite Hc in X. injection X as <- <-. exact Y.
        + exists fs, vs. auto. }
      set (ref := refs_after C W (h ++ [o])).
      assert (RF : forall c k, tref p' c k = ref c k) by (intros c k; unfold ref; rewrite (refs_after_run C W _ H Hp'); auto).
      set (new := newly C W h o).
      assert (EN : new = map (fun b => (b, ref)) (filter (stores C (knows (h ++ [o])) ref) (candidates C fs vs))).
      { unfold new, newly. rewrite Hc. auto. }
      assert (X : sp_items (h ++ [o]) = sp_items h ++ new).
      { rewrite sp_items_snoc. destruct o; try discriminate; reflexivity. }
      assert (G : recs (sp_items h ++ new) (restored new (sp_items h) (fun id => pair_record id h)) p').
      { apply remove_outliers_inv in HX. cbn [ps_pcm ps_nfg ps_vals] in HX.
        destruct HX as (vs' & u & q & EV & HRO & _ & _ & HN & HA).
        assert (KVS : forall k, knows (h ++ [o]) k = kmem k vs').
        { intro k. rewrite KN, KV. symmetry. apply vinsert_all_ok in EV. destruct EV as (EV & _). unfold kmem. rewrite EV. destruct (kfind k (s_vals s0)); auto. }
        assert (FIN : p_lcs p' = p_lcs q /\ p_trajs p' = p_trajs q).
        { destruct (c_align C).
          - destruct (HA eq_refl) as [[-> _]|(_ & _ & -> & _)]; auto.
          - specialize (HN eq_refl). injection HN as -> _. auto. }
        destruct FIN as (F1 & F3).
        assert (HQ : forall c k, tref q c k = ref c k) by (intros c k; rewrite <- RF; symmetry; apply tref_trajs; auto).
        assert (EN2 : new = map (fun b => (b, ref)) (filter (stores C (fun k => kmem k vs') ref) (candidates C fs vs))).
        { rewrite EN. f_equal. apply filter_ext; intro x; unfold stores; rewrite !KVS; auto. }
        eapply recs_frame; [exact F1|]. unfold candidates in *.
        assert (NONE : filter (sp_candidate sp vs) (betweens fs) = [] -> forall q0 : pcm, p_lcs q0 = p_lcs p -> recs (sp_items h ++ new) (restored new (sp_items h) (fun id => pair_record id h)) q0).
        { intros Z q0 X0. rewrite EN2, Z. cbn [filter map]. rewrite app_nil_r. eapply recs_frame; [exact X0|]. exact J. }
        inversion HRO as [X0|p1 opt Hne EP|p1 lcs opt p2 p3 Hne EP Hlc HP HSel HFI]; subst.
        - apply NONE; auto.
        - apply proc_factors_frame in EP. destruct EP as (_ & _ & P3 & _ & _ & _ & _ & _ & P9 & _). cbn in P9. apply NONE; auto.
        - apply proc_factors_frame in EP. destruct EP as (_ & _ & P3 & P4 & _ & _ & _ & _ & P9 & _). cbn in P9. subst lcs.
          eapply selected_recs; [exact HSel|]. rewrite EN2. apply (parsed_list_recs ref HC HP).
          + intros c k. pose proof (parsed_list_ok HP) as (_ & _ & _ & _ & _ & T1 & _).
            rewrite <- T1, <- HQ. symmetry. apply tref_trajs. pose proof (selected_ok C HSel) as (_ & _ & _ & _ & _ & _ & S7 & _). auto.
          + eapply recs_frame; [|exact J]. auto. }
      rewrite X. eapply recs_ext; [|exact G]. intro id. rewrite pair_record_snoc. unfold record_step, restored.
      replace (target C W h o) with (@None obsid) by (destruct o; try discriminate; auto).
      unfold live_items. fold (sp_items (h ++ [o])). rewrite X. fold (at_pair id (sp_items h ++ new)).
      unfold RemoveSpec.new_of. fold new. rewrite <- filter_fst. fold (at_pair id new). destruct (at_pair id new); auto. }
    assert (RM : forall id q e, target C W h o = Some id -> p_lcs q = p_lcs p ->
        pcm_remove_last_id (so_pcm W) id q = Val (p', e) -> sp_items (h ++ [o]) = drop_last (fun x => of_pair id (fst x)) (sp_items h) ->
        recs (sp_items (h ++ [o])) (fun id => pair_record id (h ++ [o])) p').
    { intros id q e Ht HQ HE HX.
      pose proof (@removed_recs id _ _ p q p' e HQ J (li_rows L) (Hgo _ Ht) HE) as G. cbv zeta in G. rewrite <- HX in G.
      eapply recs_ext; [|exact G]. intro id'. cbv beta. rewrite pair_record_snoc. unfold record_step. rewrite Ht.
      rewrite <- at_pair_live, map_length. reflexivity. }
    destruct o as [fs vs opt|fs vs|c opt|a0 b0| |c|c|fs vs|fs vs|]; cbn [call_of is_removal] in *.
    1,2: apply CALL with fs vs; auto.
    2:{ destruct E as (e & _ & X & _). eapply RM; eauto; [reflexivity|]. rewrite sp_items_snoc. reflexivity. }
    2:{ destruct E as (e & _ & X & _). unfold pcm_remove_last in X. rewrite (li_order L) in X.
        assert (XX : sp_items (h ++ [OpRemoveLast]) = items_step C W h OpRemoveLast (sp_items h)) by apply sp_items_snoc.
        cbn [items_step target] in *. destruct (rev (sp_order C W h)) as [|id l].
        - injection X as <- <-. apply FR; auto.
        - eapply RM; [reflexivity| |exact X|auto]. auto. }
    all: apply FR; auto; try (rewrite sp_items_snoc; cbn [items_step]; rewrite newly_none, app_nil_r; auto; fail); destruct E as (-> & _); auto.
    all: unfold pcm_ignore; destruct (existsb _ _); auto.
Qed.
End Rec.
