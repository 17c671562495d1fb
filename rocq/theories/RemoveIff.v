(** * Exactly which calls are undefined after removals *)
From Verif Require Import Prelude Num Keys KMap UMap Geometry Factors Clique CliqueSpec CliqueHeu Pcm Solver ValuesProofs
  PcmSpec PcmProofs PcmInv PcmStore HistSpec StoreSpec SolverProofs HistProofs GraphProofs UpdateProofs StoreProofs AcceptProofs LiveProofs
  StoreThms SafeProofs RemoveSpec RemoveExact ItemProofs LandmarkExact RemoveCalls RecordProofs.
Set Implicit Arguments.
Local Open Scope nat_scope.

Section Iff.
Variable O : tops.
Variable C : config.
Variable W : soracles O.
Notation bf := (bf O).
Notation factor := (factor O).
Notation values := (values O).
Notation graph_t := (graph_t O).
Notation T := (t_T O).
Notation pcm := (pcm O).
Notation meas := (meas O).
Notation sp := (c_special C).
Notation op := (op O).
Notation solver := (solver O).
Notation start := (@solver_init O true).
Notation lc_get := (uget oid_eqb (@meas_default O)).
Notation tested_history := (@StoreSpec.tested_history O).
Notation tested_graph := (@tested_graph O).
Notation small := (StoreSpec.small C).
Notation stale := (@stale O C W).
Notation live_of := (@live_of O C W).
Notation pair_record := (@pair_record O C W).
Notation would_store := (@would_store O C W).
Notation quiet := (@quiet O C).

(** ** A pair left with one closure out of two *)
Lemma halved_heu (m : meas) x : me_factors m = [x] -> m_rows (me_adj m) = 2 -> m_cols (me_adj m) = 2 ->
  ((exists m', heu_inliers m = Val m') <-> m_at (me_adj m) 1 0 = false).
Proof.
  intros H1 H2 H3. unfold heu_inliers. rewrite H1. destruct (me_adj m) as [r c f]. cbn in H2, H3. subst. rewrite two_heu. cbn [m_at].
  destruct (f 1 0); cbn [rbind].
  - split; [|discriminate]. intros [m' X]. cbv in X. discriminate.
  - split; auto. intros _. eexists. reflexivity.
Qed.

(** ** The rest of the call *)
Lemma proc_quiet nv vals fs : forall (p p1 : pcm) acc r, proc_factors C nv vals (quiet fs nv) p acc = Ok p1 r ->
  forall acc', exists r', proc_factors C nv vals fs p acc' = Ok p1 r'.
Proof.
  induction fs as [|of fs IH]; intros p p1 acc r H acc'; cbn [RemoveSpec.quiet filter proc_factors] in *.
  - injection H as <- <-. eauto.
  - assert (STEP : forall (p2 : pcm) a, proc_factor C nv vals of p acc = Ok p2 a -> exists a', proc_factor C nv vals of p acc' = Ok p2 a').
    { intros p2 a. unfold proc_factor. destruct of as [f|]; [|intro X; injection X as <- <-; eauto].
      destruct f as [b|k x|k t|ks t]; try (intro X; injection X as <- <-; eauto; fail).
      rewrite classify_spec. destruct (sp_first sp nv b); [intro X; injection X as <- <-; eauto|]. destruct (sp_odometry sp nv b).
      - destruct (update_odom vals b p); cbn [obind]; intro X; try discriminate. injection X as <- <-. eauto.
      - destruct (b_from b =? b_to b)%N; intro X; injection X as <- <-; eauto. }
    destruct (match of with Some (FBetween b) => negb (sp_candidate sp nv b) | _ => true end) eqn:EQ.
    + cbn [proc_factors] in H. destruct (proc_factor C nv vals of p acc) as [p2 a| |] eqn:E; cbn [obind] in H; try discriminate.
      destruct (STEP _ _ eq_refl) as [a' ->]. cbn [obind]. eapply IH; eauto.
    + destruct of as [[b| | |]|]; try discriminate. apply negb_false_iff in EQ. cbn [proc_factor]. rewrite classify_spec.
      unfold sp_candidate in EQ. apply andb_true_iff in EQ. destruct EQ as [EQ E3]. apply andb_true_iff in EQ. destruct EQ as [E1 E2].
      apply negb_true_iff in E1, E2, E3. rewrite E1, E2, E3. cbn [obind]. eapply IH; eauto.
Qed.

Lemma quiet_candidates fs vs : candidates C (quiet fs vs) vs = [].
Proof.
  unfold candidates, RemoveSpec.quiet. induction fs as [|[[b| | |]|] fs IH]; cbn; auto.
  destruct (sp_candidate sp vs b) eqn:E; cbn; auto. rewrite E. auto.
Qed.

(** The pairs that make a call with candidates undefined. *)
Definition harmful (h : list op) (fs : graph_t) (vs : values) (id : obsid) : Prop :=
  stale id h = true /\
  match live_of id h with
  | [] => c_incremental C = false /\ would_store id h fs vs = []
  | _ => would_store id h fs vs <> [] \/
         c_incremental C = false /\ exists x y, pair_record id h = [x; y] /\ lc_test x y = Some true
  end.

Lemma call_undefined_iff h (s : solver) rs o fs vs s1 rs1 : run C W h start = Ok s rs -> call_of o = Some (fs, vs) ->
  tested_history h -> tested_graph fs -> small (length (sp_all h) + length fs) ->
  (forall l, backward_last l (seen C W l (h ++ [o]))) ->
  records_sound C W h -> run C W (h ++ [OpUpdate (quiet fs vs) vs false]) start = Ok s1 rs1 ->
  ((exists u, ingest C W fs vs s = Undef u) <->
   candidates C fs vs <> [] /\ c_loop_check C = true /\ exists id, harmful h fs vs id).
Proof.
  intros HR Hco Hd Hdf Hs HBL HRS HQ. destruct (candidates C fs vs) as [|c0 cs] eqn:EC0.
  { split; [|intros [X _]; congruence]. intros [u Hu]. exfalso. revert Hu.
    apply (@ingest_after_anything O C W h s rs o fs vs u HR Hco Hd Hdf Hs); auto. }
  rewrite <- EC0. assert (NC : candidates C fs vs <> []) by (rewrite EC0; discriminate). clear c0 cs EC0.
  destruct (c_loop_check C) eqn:HC.
  2:{ split; [|intros (_ & X & _); discriminate]. intros [u Hu]. exfalso. revert Hu.
      apply (@ingest_after_anything O C W h s rs o fs vs u HR Hco Hd Hdf Hs); auto. right. intros id X. congruence. }
  destruct (shape_run C W _ HR) as (p & I & L & HS & HK).
  destruct (@lms_run _ _ _ _ _ _ HR) as (p0 & Hp0 & HL). assert (p0 = p) by (pose proof (hi_pcm I); congruence). subst p0.
  destruct (store_run C W h HR) as (p0 & Hp0' & J). assert (p0 = p) by congruence. subst p0.
  destruct (@record_run O C W h HC s rs HR HRS) as (p0 & Hp0'' & RC). assert (p0 = p) by congruence. subst p0.
  (* the part without candidates *)
  assert (QT : exists vals u p1 r, vinsert_all vs (s_vals s) = Ok vals u /\ proc_factors C vs vals fs p ([], false) = Ok p1 r /\
     forall c k, refs_after C W (h ++ [OpUpdate (quiet fs vs) vs false]) c k = tref p1 c k).
  { pose proof HQ as HQ'. apply run_snoc in HQ'. destruct HQ' as (s0 & rs0 & r & HR0 & HS0 & _). rewrite HR in HR0. injection HR0 as <- <-.
    pose proof (step_inv C W _ s (hi_pcm I) HS0) as (s3 & p' & b & [E0 [b' E]] & _ & _ & _ & Ho).
    apply remove_outliers_inv in E. cbn [ps_pcm ps_nfg ps_vals] in E. destruct E as (vals & u & q & EV & HRO & _ & _ & HN & HA).
    assert (TQ : p_trajs p' = p_trajs q).
    { destruct (c_align C); [destruct (HA eq_refl) as [[-> _]|(_ & _ & -> & _)]; auto|specialize (HN eq_refl); injection HN as -> _; auto]. }
    assert (Hp' : s_pcm s1 = Some p').
    { destruct (optimises (OpUpdate (quiet fs vs) vs false) b) eqn:EO.
      - destruct (optimize_same C W s3 Ho) as (G & _). congruence.
      - congruence. }
    assert (PQ : exists p1 r, proc_factors C vs vals (quiet fs vs) p ([], false) = Ok p1 r /\ p_trajs q = p_trajs p1).
    { inversion HRO as [X0|p1 opt Hne EP|p1 lcs opt p2 p3 Hne EP Hlc HP HSel HFI]; subst.
      - rewrite X0. cbn. eauto.
      - eauto.
      - exfalso. apply proc_factors_frame in EP. destruct EP as (_ & _ & _ & _ & _ & _ & _ & _ & P9 & _). cbn in P9.
        apply Hlc. rewrite P9. apply quiet_candidates. }
    destruct PQ as (p1 & r1 & PQ1 & PQ2). destruct (@proc_quiet vs vals fs p p1 _ _ PQ1 ([], false)) as [r' PQ3].
    exists vals, u, p1, r'. split; auto. split; auto. intros c k. rewrite (refs_after_run C W _ HQ Hp'). apply tref_trajs. congruence. }
  destruct QT as (vals & u0 & p1 & [lcs opt] & EV & EP & RF). destruct u0.
  pose proof (@knows_call O C W h o fs vs s p vals tt Hco I EV) as HKN.
  assert (KV : forall k, kmem k vals = knows h k || sp_supplied vs k).
  { intro k. rewrite <- HKN. unfold knows. rewrite existsb_app. cbn [existsb]. rewrite Hco, orb_false_r. auto. }
  apply proc_factors_frame in EP as EPF. destruct EPF as (_ & _ & P3 & _ & _ & _ & _ & P8 & P9 & _). cbn [fst app] in P9.
  fold (candidates C fs vs) in P9. subst lcs.
  set (cand := candidates C fs vs) in *.
  set (body := let* '(p2, nn) := parse_all C vals cand p1 in
      let* p3 := (if c_incremental C then find_inliers_inc nn p2 else find_inliers C p2) in Val (p3, true)).
  assert (IB : (exists u, ingest C W fs vs s = Undef u) <-> exists u, body = Bad u).
  { unfold ingest, run_pcm. rewrite Hp0. unfold remove_outliers. cbn [ps_pcm ps_nfg ps_vals]. rewrite EV.
    destruct fs as [|of fs'] eqn:EF; [cbn in NC; congruence|]. rewrite <- EF in *. rewrite EP.
    assert (EB : match cand with [] => Val (p1, opt) | _ :: _ => body end = body) by (destruct cand; [congruence|auto]).
    fold body. rewrite EB. destruct body as [[p3 opt']|u] eqn:EBB.
    - split; [|intros [u X]; discriminate]. intros [u X]. exfalso.
      destruct (c_align C && (1 <? length (p_robots p3))); [|discriminate].
      destruct (align (so_pcm W) (set_robots p3 (nsort (p_robots p3))) vals) as [v' []| |u''] eqn:EA; cbn [ps_pcm] in X; try discriminate.
      eapply align_not_undef; eauto.
    - split; eauto. }
  rewrite IB. clear IB.
  pose proof (@firsts_states O C _ p p1 P8 HL) as HL1. pose proof (@lm_free_call O C W h o fs vs p p1 vals Hco (si_lm J) P8 HKN HBL) as HLF.
  assert (HLT : forall l, Forall (@StoreSpec.tested O) (lm_factors p1 l)).
  { intro l. pose proof (@firsts_holds O C (refs_after C W (h ++ [o])) _ _ p p1 P8 (si_lm J)) as [H1 _]. unfold lm_factors. rewrite H1.
    apply Forall_forall. intros b Hb. apply in_map_iff in Hb. destruct Hb as (x & <- & Hb). apply current_In in Hb.
    destruct Hb as (y & Hb & <- & _). apply in_app_or in Hb. destruct Hb as [Hb|Hb].
    - apply Hd. eapply sightings_delivered; eauto.
    - apply Hdf. apply in_map_iff in Hb. destruct Hb as (b & <- & Hb). apply filter_In in Hb. apply In_betweens. apply Hb. }
  pose proof (candidates_tested C vs Hdf) as Hcd. fold cand in Hcd.
  assert (Hcl : length cand <= length fs).
  { eapply Nat.le_trans; [apply filter_len|]. apply betweens_length. }
  set (st := fun id => stale id h). set (N := length (sp_all h)) in *.
  assert (OK : okp C N st p1).
  { split; auto.
    - eapply shape_frame; eauto.
    - intros id m Hm. rewrite P3 in Hm. assert (E : me_factors m = live_of id h) by (unfold RemoveSpec.live_of; rewrite <- (li_lcs L id); unfold uget; rewrite Hm; auto).
      rewrite E. destruct (@live_tested O C W h Hd) as [D1 D2]. split.
      + rewrite Forall_forall in *. intros x Hx. apply filter_In in Hx. apply D1. apply Hx.
      + eapply Nat.le_trans; [apply filter_len|exact D2].
    - rewrite P3. apply (so_dlcs (hi_stored I)). }
  assert (LV : forall id, me_factors (lc_get id (p_lcs p1)) = live_of id h) by (intro id; rewrite P3; apply (li_lcs L)).
  assert (SE : forall a b, oid_eqb a b = true -> st a = st b) by (intros; apply stale_ext; auto).
  set (new := filter (stores C (fun k => kmem k vals) (tref p1)) cand).
  assert (NW : forall id, would_store id h fs vs = filter (of_pair id) new).
  { intro id. unfold RemoveSpec.would_store, new. f_equal. apply filter_ext. intro b.
    rewrite (stores_ext C _ _ (tref p1) b RF). unfold stores. rewrite !KV. auto. }
  assert (RC1 : recs (sp_items C W h) (fun id => pair_record id h) p1) by (eapply recs_frame; eauto).
  split.
  - intros [u Hu]. split; auto. split; auto.
    (* otherwise the call would be defined *)
    assert (DEC : (exists id, harmful h fs vs id) \/ forall id m, lc_find id (p_lcs p1) = Some m -> ~ harmful h fs vs id).
    { assert (DH : forall id, {harmful h fs vs id} + {~ harmful h fs vs id}).
      { intro id. unfold harmful. destruct (stale id h); [|right; intros [X _]; discriminate].
        assert (DS : {would_store id h fs vs = []} + {would_store id h fs vs <> []}) by (destruct (would_store id h fs vs); [left|right]; congruence).
        destruct (live_of id h); destruct (c_incremental C); try (right; intros [_ [X _]]; discriminate).
        - destruct DS; [left|right]; tauto.
        - destruct DS as [DS|DS]; [right|left; auto]. intros [_ [X|[X _]]]; congruence.
        - destruct DS as [DS|DS]; [|left; auto].
          destruct (pair_record id h) as [|x [|y [|z l']]] eqn:EPR;
            try (right; intros [_ [X|[_ (a1 & b1 & X & _)]]]; congruence).
          destruct (lc_test x y) as [[|]|] eqn:ET; [left; split; auto; right; split; auto; exists x, y; auto| |];
            right; intros [_ [X|[_ (a1 & b1 & X & Y)]]]; congruence. }
      assert (GL : forall l : umap obsid meas, (exists id, harmful h fs vs id) \/ forall id m, In (id, m) l -> ~ harmful h fs vs id).
      { induction l as [|[id m] l IH]; [right; intros id m []|]. destruct (DH id) as [Y|Y]; [left; eauto|]. destruct IH as [IH|IH]; auto.
        right. intros id' m' [Z|Z]; [injection Z as <- <-; auto|eauto]. }
      destruct (GL (p_lcs p1)) as [G|G]; auto. right. intros id m Hm Hh. apply ufind_In in Hm. destruct Hm as (k & K1 & Hin).
      apply (G k m Hin). unfold harmful in *. destruct Hh as [Hh1 Hh2].
      rewrite <- (@stale_ext O C W _ _ h K1), <- (@live_of_ext O C W _ _ h K1).
      assert (pair_record k h = pair_record id h) as -> by (symmetry; apply (rc_ext RC1); auto).
      assert (would_store k h fs vs = would_store id h fs vs) as ->; auto.
      rewrite !NW. apply filter_ext. intro b. symmetry. apply of_pair_ext. auto. }
    destruct DEC as [DEC|DEC]; auto. exfalso.
    assert (DEC' : forall id, stale id h = true -> ~ harmful h fs vs id).
    { intros id Hst. destruct (lc_find id (p_lcs p1)) as [m|] eqn:EF; [eapply DEC; eauto|]. rewrite P3 in EF. apply HK in EF.
      apply stale_ever in Hst. congruence. }
    clear DEC. revert Hu. unfold body.
    destruct (@parse_all_total' O C vals cand Hcd p1 [] N 0 st OK SE) as (p2 & nn & st' & E2 & PL & A1 & A2 & A3).
    { apply Forall_forall. intros b Hb _ Hst. rewrite LV. specialize (DEC' _ Hst).
      destruct (live_of (pair_of b) h) as [|x l] eqn:EL; auto. right.
      destruct (stores C (fun k => kmem k vals) (tref p1) b) eqn:ESB; auto. exfalso. apply DEC'. split; auto. rewrite EL. left. rewrite NW.
      intro Z. assert (In b (filter (of_pair (pair_of b)) new)) as Q; [|rewrite Z in Q; destruct Q].
      apply filter_In. split; [apply filter_In; auto|]. apply oid_eqb_refl. }
    { exact HLF. } { intros id k []. } { constructor. }
    assert (E2p : parse_all C vals cand p1 = Val (p2, nn)) by exact E2. rewrite E2p. cbn [rbind]. destruct (c_incremental C) eqn:EI.
    + destruct (@find_inliers_inc_total' O C (length fs + N) st' nn p2) as [p3 E3]; auto.
      * destruct A1 as [B1 B2 B3 B3' B4]. split; auto. intros id m Hm. destruct (B2 _ _ Hm). split; auto. lia.
      * eapply Forall_impl; [|exact A3]. intros kv Hkv. cbv beta in *. lia.
      * rewrite Nat.add_comm. apply Hs. auto.
      * rewrite E3. cbn [rbind]. discriminate.
    + pose proof (parsed_list_shape (tref p1) PL ltac:(auto) (ok_shape OK)) as SH. fold new in SH.
      pose proof (parsed_list_recs (tref p1) HC PL ltac:(auto) RC1) as RC2. cbv zeta in RC2. fold new in RC2.
      pose proof (parsed_list_extends (tref p1) PL ltac:(auto)) as EX. fold new in EX.
      destruct (@find_inliers_total' O C (length cand + N) (after_stores new st) p2) as [p3 E3].
      * destruct A1 as [B1 B2 B3 B3' B4]. split; auto.
      * intros id m Hm _. destruct (after_stores new st id) eqn:EA; auto. right.
        pose proof (SH _ _ Hm) as F. rewrite EA in F. unfold after_stores in EA. apply andb_true_iff in EA. destruct EA as [Est Z].
        apply Nat.eqb_eq in Z. apply length_zero_iff_nil in Z. specialize (DEC' id Est). unfold harmful in DEC'. unfold st in Est. rewrite Est, NW, Z in DEC'.
        assert (F0 : me_factors m = live_of id h).
        { pose proof (ex_lcs EX id) as Y. rewrite Z, app_nil_r, LV in Y. rewrite <- Y. unfold uget. rewrite Hm. auto. }
        destruct (live_of id h) as [|x [|x' l]] eqn:EL; [exfalso; apply DEC'; auto| |].
        2:{ unfold fits in F. rewrite HC, F0 in F. cbn in F. lia. }
        assert (m_at (me_adj m) 1 0 = false /\ m_rows (me_adj m) = 2 /\ m_cols (me_adj m) = 2) as (Q1 & Q2 & Q3); [|apply (halved_heu m F0 Q2 Q3); auto].
        destruct F as [F1 F2]. rewrite HC, F0 in F2. cbn [length] in F2.
        assert (G : lc_get id (p_lcs p2) = m) by (unfold uget; rewrite Hm; auto).
        pose proof (rc_pre RC1 id) as (tl & T1 & _); cbv beta in T1. pose proof (at_pair_live C W id h) as T2. rewrite EL in T2.
        destruct (at_pair id (sp_items C W h)) as [|a [|? ?]]; try discriminate T2. cbn [app] in T1.
        pose proof (rc_adj RC2 id) as R4. unfold restored in R4; cbv beta in R4.
        assert (AN : at_pair id (map (fun b => (b, tref p1)) new) = []).
        { apply length_zero_iff_nil. unfold at_pair. rewrite <- (map_length fst), filter_fst, map_map. cbn [fst]. rewrite map_id, Z. auto. }
        rewrite AN, T1, G in R4. destruct (R4 ltac:(discriminate)) as (G1 & G2 & G3 & G4). cbn [length] in *.
        assert (length tl = 1) as LT by lia. destruct tl as [|b [|? ?]]; try discriminate LT.
        destruct (G4 0 1 a b ltac:(lia) eq_refl eq_refl) as (r & K1 & K2 & K3). split; [|cbn [length] in *; lia].
        rewrite K3. destruct r; auto. exfalso. apply DEC'. split; auto. right. split; auto. exists a, b. auto.
      * rewrite E3. cbn [rbind]. discriminate.
  - intros (_ & _ & id & Hst & HH). destruct body as [[p3 op3]|u] eqn:EB; [|eauto]. exfalso. unfold body in EB.
    destruct (parse_all C vals cand p1) as [[p2 nn]|] eqn:E2; cbn [rbind] in EB; [|discriminate].
    apply parse_all_inv in E2. destruct E2 as [PL _].
    pose proof (parsed_list_shape (tref p1) PL ltac:(auto) (ok_shape OK)) as SH. fold new in SH.
    pose proof (parsed_list_recs (tref p1) HC PL ltac:(auto) RC1) as RC2. cbv zeta in RC2. fold new in RC2.
    pose proof (parsed_list_extends (tref p1) PL ltac:(auto)) as EX. fold new in EX.
    assert (ST : live_of id h <> [] -> would_store id h fs vs = []).
    { intro X. rewrite NW. apply (@stuck_list O C vals cand (tref p1) id p1 p2 st PL ltac:(auto) (ok_shape OK)); auto. rewrite LV. auto. }
    assert (WS : would_store id h fs vs = [] /\ c_incremental C = false /\
      (live_of id h = [] \/ live_of id h <> [] /\ exists x y, pair_record id h = [x; y] /\ lc_test x y = Some true)).
    { destruct (live_of id h) as [|x l]; [tauto|]. specialize (ST ltac:(discriminate)). destruct HH as [HH|[H1 H2]]; [congruence|].
      split; auto. split; auto. right. split; auto. discriminate. }
    destruct WS as (Z & EI & WS). rewrite EI in EB. destruct (find_inliers C p2) as [p3'|] eqn:EFI; [|discriminate].
    rewrite NW in Z.
    destruct (lc_find id (p_lcs p2)) as [m|] eqn:Hm.
    2:{ apply (ex_keys EX) in Hm. destruct Hm as [Hm _]. rewrite P3 in Hm. apply HK in Hm. apply stale_ever in Hst. congruence. }
    assert (F0 : me_factors m = live_of id h).
    { pose proof (ex_lcs EX id) as Y. rewrite Z, app_nil_r, LV in Y. rewrite <- Y. unfold uget. rewrite Hm. auto. }
    assert (G : lc_get id (p_lcs p2) = m) by (unfold uget; rewrite Hm; auto).
    pose proof (SH _ _ Hm) as F. unfold after_stores in F. rewrite Z in F. unfold st in F. rewrite Hst in F. cbn [length Nat.eqb andb] in F.
    apply ufind_In in Hm. destruct Hm as (k & _ & Hin).
    unfold find_inliers in EFI. destruct (umapM (pair_inliers C) (p_lcs p2)) as [l|] eqn:EU; [|discriminate].
    destruct (umapM_In _ _ _ _ EU Hin) as [m' HM]. unfold pair_inliers in HM. rewrite HC in HM.
    destruct F as [F1 F2]. rewrite HC in F2. destruct WS as [WS|[WS (x & y & PR & LT)]].
    + rewrite WS in F0. apply (@empty_unselectable O m F0) in HM; auto. rewrite F0 in F2. cbn in F2. lia.
    + assert (AN : at_pair id (map (fun b => (b, tref p1)) new) = []).
      { apply length_zero_iff_nil. unfold at_pair. rewrite <- (map_length fst), filter_fst, map_map. cbn [fst]. rewrite map_id, Z. auto. }
      pose proof (rc_adj RC2 id) as R4. unfold restored in R4; cbv beta in R4. rewrite AN, PR, G in R4.
      destruct (R4 ltac:(discriminate)) as (G1 & G2 & G3 & G4). cbn [length] in *.
      destruct (live_of id h) as [|f [|f' l']] eqn:EL; [congruence| |rewrite F0 in F2; cbn in F2; lia].
      destruct (G4 0 1 x y ltac:(lia) eq_refl eq_refl) as (r & K1 & K2 & K3). rewrite LT in K1. injection K1 as <-.
      pose proof (proj1 (halved_heu m F0 G1 G2) (ex_intro _ m' HM)). congruence.
Qed.

End Iff.
