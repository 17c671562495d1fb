(** * What can go wrong after an exception (C45): with odometry bias *)
From Verif Require Import Prelude Num Keys KMap UMap Geometry Factors Clique Pcm Solver ValuesProofs
  PcmSpec PcmProofs PcmInv PcmStore HistSpec StoreSpec SolverProofs HistProofs GraphProofs UpdateProofs StoreProofs LiveProofs SafeProofs ExcSpec.
Set Implicit Arguments.
Local Open Scope nat_scope.

Section Exc.
Variable O : tops.
Variable C : config.
Variable W : soracles O.
Notation bf := (bf O).
Notation values := (values O).
Notation graph_t := (graph_t O).
Notation pcm := (pcm O).
Notation op := (op O).
Notation solver := (solver O).
Notation start := (@solver_init O true).
Notation wf := (wf C).
Notation small := (StoreSpec.small C).
Notation stale_force := (stale_force C).

Lemma ingest_room fs vs (s : solver) p n : s_pcm s = Some p -> wf n p -> decent_graph C fs -> small (length fs + n) -> fs <> [] ->
  match ingest C W fs vs s with
  | Ok s' _ => exists p', s_pcm s' = Some p' /\ wf (length fs + n) p' /\ room C s' p'
  | Throw s' _ => exists p', s_pcm s' = Some p' /\ wf (length fs + n) p' | Undef _ => False end.
Proof.
  intros Hp HW Hd Hs Hne. unfold ingest, run_pcm. rewrite Hp.
  pose proof (@remove_outliers_safe O C W fs vs p (s_nfg s) (s_vals s) n HW Hd Hs) as X.
  destruct (remove_outliers C (so_pcm W) fs vs (PSt p (s_nfg s) (s_vals s))) as [[p' g v] b|[p' g v] e|u] eqn:E; cbn [ps_pcm] in X; auto.
  - exists p'. split; auto. split; auto. apply remove_outliers_inv in E. cbn [ps_pcm ps_nfg ps_vals] in E.
    destruct E as (v0 & u & q & _ & HQ & E1 & E2 & E3 & E4). unfold room. intro HB. cbn [s_nfg set_pnv].
    rewrite E2 by auto. assert (Z : num_odom_special p' = num_odom_special q); [|rewrite Z; apply graph_of_room].
    destruct (c_align C).
    + destruct (E4 eq_refl) as [[-> _]|(_ & _ & -> & _)]; auto.
    + specialize (E3 eq_refl). injection E3 as -> _. auto.
  - exists p'. split; auto.
Qed.

Lemma ingest_nil vs (s : solver) p : s_pcm s = Some p ->
  ingest C W [] vs s = match vinsert_all vs (s_vals s) with
    | Ok v _ => Ok (set_pnv s (Some p) (s_nfg s) v) false
    | Throw v e => Throw (set_pnv s (Some p) (s_nfg s) v) e
    | Undef u => Undef u end.
Proof. intro Hp. unfold ingest, run_pcm. rewrite Hp. unfold remove_outliers. cbn [ps_vals ps_pcm ps_nfg]. destruct (vinsert_all vs (s_vals s)); auto. Qed.

Lemma optimize_stale (s : solver) p : s_pcm s = Some p -> c_gnc C = true -> c_fix C = false ->
  match optimize C W s with
  | Ok s' _ | Throw s' _ => s_pcm s' = Some p /\
      ~ (exists v', c_bias C = true /\ vinsert_all (s_tvals s) (s_vals s) = Ok v' tt /\ length (s_nfg s) + length (s_tnfg s) < num_odom_special p)
  | Undef _ => exists v', c_bias C = true /\ vinsert_all (s_tvals s) (s_vals s) = Ok v' tt /\ length (s_nfg s) + length (s_tnfg s) < num_odom_special p
  end.
Proof.
  intros Hp HG HF. unfold optimize.
  destruct (vinsert_all (s_tvals s) (s_vals s)) as [full []|v e|u] eqn:EV.
  3:{ exfalso. eapply vinsert_all_not_undef; eauto. }
  2:{ split; auto. intros (v' & _ & X & _). discriminate. }
  unfold gnc_branch. rewrite Hp, HG, HF. cbn [andb negb].
  destruct (c_bias C && (length (s_nfg s ++ s_tnfg s) <? num_odom_special p)) eqn:EB.
  - apply andb_true_iff in EB. destruct EB as [EB1 EB2]. apply Nat.ltb_lt in EB2. rewrite app_length in EB2. eauto.
  - assert (NB : ~ (exists v', c_bias C = true /\ Ok full tt = Ok v' tt /\ length (s_nfg s) + length (s_tnfg s) < num_odom_special p)).
    { intros (v' & A & _ & B). rewrite A in EB. cbn in EB. apply Nat.ltb_ge in EB. rewrite app_length in EB. lia. }
    unfold call_opt. destruct (so_opt W _ _) as [a|]; cbn [obind]; [|split; [exact Hp|exact NB]].
    match goal with |- context [finish ?r ?x] => pose proof (@finish_keeps O r x p Hp) as Y; destruct (finish r x) end; cbn in Y; try tauto; split; auto.
Qed.

Lemma step_stale o (s : solver) p n : s_pcm s = Some p -> wf n p -> decent_graph C (given o) -> small (length (given o) + n) ->
  is_removal o = false -> c_gnc C = true -> c_fix C = false ->
  match step C W o s with
  | Ok s' _ | Throw s' _ => (exists p', s_pcm s' = Some p' /\ wf (length (given o) + n) p') /\ ~ stale_force o s
  | Undef _ => stale_force o s
  end.
Proof.
  intros Hp HW Hd Hs HF HG HX.
  assert (HN : (forall vs, o <> OpForce [] vs) -> ~ stale_force o s).
  { intros Hn (vs & _ & _ & _ & E & _). exact (Hn _ E). }
  assert (EN : forall fs : graph_t, fs = [] \/ fs <> []) by (intros [|? ?]; [auto|right; discriminate]).
  assert (SAFE : (forall vs, o <> OpForce [] vs) -> safe_out C (length (given o) + n) (step C W o s) ->
     match step C W o s with
     | Ok s' _ | Throw s' _ => (exists p', s_pcm s' = Some p' /\ wf (length (given o) + n) p') /\ ~ stale_force o s
     | Undef _ => stale_force o s end).
  { intros Hn HS. specialize (HN Hn). unfold safe_out in HS. destruct (step C W o s); auto. destruct HS. }
  assert (NR : forall m (x : outcome solver unit), safe_out C m x -> safe_out C m (no_ret x)).
  { intros m x. unfold no_ret. destruct x; cbn; auto. }
  assert (PC : forall q, wf n q -> safe_out C n (optimize C W (set_pnv s (Some q) (graph_of (so_pcm W) q) (s_vals s)))).
  { intros q Hq. eapply keeps_safe; eauto. apply optimize_keeps; auto. intros _. apply graph_of_room. }
  destruct o as [fs vs opt|fs vs|c opt|a b| |c|c|fs vs|fs vs|]; cbn [given call_of length plus] in *; try discriminate.
  - apply SAFE; [discriminate|]. cbn [step]. apply NR. unfold update. destruct (EN fs) as [->|Hne].
    + rewrite (ingest_nil _ _ Hp). destruct (vinsert_all vs (s_vals s)) as [v []| |u] eqn:EV; cbn [obind andb].
      * destruct opt; [|cbn; eauto]. eapply keeps_safe; [exact HW|]. apply log_keeps. reflexivity.
      * cbn. eauto.
      * exfalso. eapply vinsert_all_not_undef; eauto.
    + pose proof (@ingest_room fs vs s p n Hp HW Hd Hs Hne) as X.
      destruct (ingest C W fs vs s) as [s1 b| |]; cbn [obind]; auto. destruct X as (p1 & A & B & D).
      assert (Y : keeps_pcm p1 (if b && opt then optimize C W s1 else Ok s1 tt)).
      { destruct (b && opt); [apply optimize_keeps; auto|exact A]. }
      destruct (if b && opt then optimize C W s1 else Ok s1 tt) as [s2 []| |]; cbn [obind]; [|cbn in *; eauto|auto].
      destruct opt; [|cbn in *; eauto]. eapply keeps_safe; eauto. apply log_keeps; auto.
  - destruct (EN fs) as [->|Hne].
    + cbn [step]. unfold force_update. rewrite (ingest_nil _ _ Hp). cbn [length plus].
      destruct (vinsert_all vs (s_vals s)) as [v []|v e|u] eqn:EV; cbn [obind no_ret].
      * pose proof (@optimize_stale (set_pnv s (Some p) (s_nfg s) v) p eq_refl HG HX) as Y. cbn [s_tvals s_vals s_nfg s_tnfg set_pnv] in Y.
        assert (TR : stale_force (OpForce [] vs) s <-> exists v', c_bias C = true /\ vinsert_all (s_tvals s) v = Ok v' tt /\ length (s_nfg s) + length (s_tnfg s) < num_odom_special p).
        { split.
          - intros (vs1 & p1 & v1 & v1' & E1 & E2 & E3 & E4 & E5 & E6). injection E1 as <-. rewrite EV in E4. injection E4 as <-.
            rewrite Hp in E3. injection E3 as <-. eauto.
          - intros (v' & A & B & D). exists vs, p, v, v'. repeat split; auto. }
        destruct (optimize C W (set_pnv s (Some p) (s_nfg s) v)) as [s2 []|s2 e|u]; cbn [obind no_ret].
        { destruct Y as [Y1 Y2]. pose proof (log_keeps C s2 Y1) as Z. destruct (log_status C s2); cbn in Z |- *; try tauto; split; eauto; rewrite TR; exact Y2. }
        { destruct Y as [Y1 Y2]. split; eauto. rewrite TR. exact Y2. }
        { rewrite TR. exact Y. }
      * split; [cbn; eauto|]. intros (vs1 & p1 & v1 & v1' & E1 & _ & _ & E4 & _). injection E1 as <-. congruence.
      * exfalso. eapply vinsert_all_not_undef; eauto.
    + apply SAFE; [intros vs1 E; injection E; auto|]. cbn [step]. apply NR. unfold force_update.
      pose proof (@ingest_room fs vs s p n Hp HW Hd Hs Hne) as X.
      destruct (ingest C W fs vs s) as [s1 b| |]; cbn [obind]; auto. destruct X as (p1 & A & B & D).
      pose proof (@optimize_keeps O C W s1 p1 A HG HX D) as Y.
      destruct (optimize C W s1) as [s2 []| |]; cbn [obind]; [|cbn in *; eauto|auto]. eapply keeps_safe; eauto. apply log_keeps; auto.
  - apply SAFE; [discriminate|]. cbn [step]. apply NR. unfold remove_priors. rewrite Hp.
    assert (HW' : wf n (pcm_remove_priors c p)) by (eapply wf_frame; [| |exact HW]; auto).
    destruct opt; [apply PC; auto|]. cbn. eauto.
  - apply SAFE; [discriminate|]. cbn [step]. apply NR. unfold ignore_prefix, with_pcm. rewrite Hp. apply PC.
    eapply wf_frame; [| |exact HW]; unfold pcm_ignore; destruct (existsb _ _); auto.
  - apply SAFE; [discriminate|]. cbn [step]. apply NR. unfold revive_prefix, with_pcm. rewrite Hp. apply PC. eapply wf_frame; [| |exact HW]; auto.
  - apply SAFE; [discriminate|]. cbn [step]. apply NR. unfold temp_update. destruct (vinsert_all vs (s_tvals s)) as [tv []|tv e|u] eqn:E; [cbn; eauto|cbn; eauto|].
    exfalso. eapply vinsert_all_not_undef; eauto.
  - apply SAFE; [discriminate|]. cbn. eauto.
  - apply SAFE; [discriminate|]. cbn. eauto.
Qed.

(** What [decent_history], [no_removal] and [sp_all] say of the first call. *)
Lemma decent_first (o : op) h : decent_history C (o :: h) -> decent_graph C (given o) /\ decent_history C h.
Proof.
  intro Hd. split.
  - intros b Hb. apply Hd. unfold given in Hb. destruct (call_of o) as [[fs vs]|] eqn:E; [|destruct Hb].
    exists o, fs, vs. split; auto. left. auto.
  - intros b (o' & fs & vs & A & B). apply Hd. exists o', fs, vs. split; auto. right. auto.
Qed.

Lemma run_on_wf (h : list op) : forall (s s' : solver) p n, s_pcm s = Some p -> wf n p -> decent_history C h -> no_removal h ->
  small (length (sp_all h) + n) -> c_gnc C = true -> c_fix C = false -> run_on C W h s = Val s' ->
  exists p', s_pcm s' = Some p' /\ wf (length (sp_all h) + n) p'.
Proof.
  induction h as [|o h IH]; intros s s' p n Hp HW Hd Hr Hs HG HX HR; cbn [run_on] in HR.
  { injection HR as <-. exists p. auto. }
  destruct (decent_first Hd) as [Hdo Hd'].
  assert (Hr' : no_removal h) by (intros x Hx; apply Hr; right; auto).
  assert (Hro : is_removal o = false) by (apply Hr; left; auto).
  assert (Hs0 : small (length (given o ++ sp_all h) + n)) by exact Hs. clear Hs. rename Hs0 into Hs. rewrite app_length in Hs.
  change (sp_all (o :: h)) with (given o ++ sp_all h). rewrite app_length.
  assert (Hs1 : small (length (given o) + n)) by (eapply small_mono; [|exact Hs]; lia).
  pose proof (@step_stale o s p n Hp HW Hdo Hs1 Hro HG HX) as X.
  assert (E : length (given o) + length (sp_all h) + n = length (sp_all h) + (length (given o) + n)) by lia.
  rewrite E in *.
  destruct (step C W o s) as [s1 r|s1 e|u]; [| |discriminate]; destruct X as [(p1 & A & B) _]; eapply IH; eauto.
Qed.

Lemma c45_iff h o (s : solver) : decent_history C (h ++ [o]) -> no_removal (h ++ [o]) -> small (length (sp_all (h ++ [o]))) ->
  c_gnc C = true -> c_fix C = false -> run_on C W h start = Val s ->
  ((exists u, step C W o s = Undef u) <-> stale_force o s).
Proof.
  intros Hd Hr Hs HG HX HR. destruct (decent_given _ _ Hd) as [Hdh Hdo].
  assert (Hrh : no_removal h) by (intros x Hx; apply Hr, in_or_app; auto).
  assert (Hro : is_removal o = false) by (apply Hr, in_or_app; right; left; auto).
  rewrite sp_all_snoc, app_length in Hs.
  assert (Hs1 : small (length (sp_all h) + 0)) by (eapply small_mono; [|exact Hs]; lia).
  destruct (@run_on_wf h start s pcm_init 0 eq_refl (wf_init O C) Hdh Hrh Hs1 HG HX HR) as (p & Hp & HW).
  assert (Hs2 : small (length (given o) + (length (sp_all h) + 0))) by (eapply small_mono; [|exact Hs]; lia).
  pose proof (@step_stale o s p _ Hp HW Hdo Hs2 Hro HG HX) as X.
  destruct (step C W o s) as [s1 r|s1 e|u]; split; intro Y; eauto; try (destruct Y; discriminate); destruct X as [_ X]; contradiction.
Qed.

Lemma c45_with_bias (h : list op) u : decent_history C h -> no_removal h -> small (length (sp_all h)) ->
  c_gnc C = true -> c_fix C = false -> (forall vs, ~ In (OpForce [] vs) h) -> run_on C W h start <> Bad u.
Proof.
  intros Hd Hr Hs HG HX HB.
  assert (G : forall h (s : solver) p n, s_pcm s = Some p -> wf n p -> decent_history C h ->
     no_removal h -> small (length (sp_all h) + n) -> (forall vs, ~ In (OpForce [] vs) h) -> run_on C W h s <> Bad u).
  { clear h Hd Hr Hs HB. induction h as [|o h IH]; intros s p n Hp HW Hd Hr Hs HB; cbn [run_on]; [discriminate|].
    destruct (decent_first Hd) as [Hdo Hd'].
    assert (Hr' : no_removal h) by (intros x Hx; apply Hr; right; auto).
    assert (Hro : is_removal o = false) by (apply Hr; left; auto).
    assert (Hs0 : small (length (given o ++ sp_all h) + n)) by exact Hs. clear Hs. rename Hs0 into Hs. rewrite app_length in Hs.
    assert (Hs1 : small (length (given o) + n)) by (eapply small_mono; [|exact Hs]; lia).
    pose proof (@step_stale o s p n Hp HW Hdo Hs1 Hro HG HX) as X.
    assert (HB' : forall vs, ~ In (OpForce [] vs) h) by (intros vs Hi; apply (HB vs); right; auto).
    destruct (step C W o s) as [s1 r|s1 e|u'].
    - destruct X as [(p1 & A & B) _]. eapply (IH s1 p1 _ A B); auto. eapply small_mono; [|exact Hs]. lia.
    - destruct X as [(p1 & A & B) _]. eapply (IH s1 p1 _ A B); auto. eapply small_mono; [|exact Hs]. lia.
    - destruct X as (vs & _ & _ & _ & E & _). exfalso. apply (HB vs). left. exact E. }
  apply (G h start pcm_init 0); auto; [apply wf_init|]. rewrite Nat.add_0_r. auto.
Qed.

(** A call with factors, or one that removes priors or changes the ignored prefixes, repairs it. *)
Lemma c45_not_stale h o o' (s s' : solver) r : decent_history C (h ++ [o; o']) -> no_removal (h ++ [o; o']) -> small (length (sp_all (h ++ [o; o']))) ->
  c_gnc C = true -> c_fix C = false -> run_on C W h start = Val s -> step C W o s = Ok s' r ->
  rebuilds o -> forall u, step C W o' s' <> Undef u.
Proof.
  intros Hd Hr Hs HG HX HR HS Hne u HU.
  assert (HR' : run_on C W (h ++ [o]) start = Val s').
  { clear - HR HS. revert HR. generalize start as s0. induction h as [|x h IH]; intros s0 HR; cbn [run_on app] in *.
    - injection HR as <-. rewrite HS. auto.
    - destruct (step C W x s0); auto; try discriminate. }
  replace (h ++ [o; o']) with ((h ++ [o]) ++ [o']) in * by (rewrite <- app_assoc; auto).
  assert (Y : stale_force o' s'). { apply (@c45_iff (h ++ [o]) o' s'); eauto. }
  destruct Y as (vs & p & v & v' & _ & _ & Hp & _ & _ & HL).
  destruct (decent_given _ _ Hd) as [Hd1 _]. destruct (decent_given _ _ Hd1) as [Hdh Hdo].
  rewrite !sp_all_snoc, !app_length in Hs.
  assert (Hrh : no_removal h) by (intros x Hx; apply Hr, in_or_app; left; apply in_or_app; auto).
  assert (Hs1 : small (length (sp_all h) + 0)) by (eapply small_mono; [|exact Hs]; lia).
  destruct (@run_on_wf h start s pcm_init 0 eq_refl (wf_init O C) Hdh Hrh Hs1 HG HX HR) as (q & Hq & HW).
  assert (Hs2 : small (length (given o) + (length (sp_all h) + 0))) by (eapply small_mono; [|exact Hs]; lia).
  assert (K : length (p_odom p) + length (p_special p) <= length (s_nfg s')); [|lia].
  change (num_odom_special p <= length (s_nfg s')).
  assert (GO : forall fs vs0, given o = fs -> fs <> [] -> forall s1 b, ingest C W fs vs0 s = Ok s1 b -> exists p1, s_pcm s1 = Some p1 /\ num_odom_special p1 <= length (s_nfg s1)).
  { intros fs vs0 <- Hg s1 b E. unfold ingest, run_pcm in E. rewrite Hq in E.
    destruct (remove_outliers C (so_pcm W) (given o) vs0 (PSt q (s_nfg s) (s_vals s))) as [[p' g w] b'| |] eqn:E'; try discriminate.
    injection E as <- <-. exists p'. split; auto. apply remove_outliers_inv in E'. cbn [ps_pcm ps_nfg ps_vals] in E'.
    destruct E' as (v0 & u0 & q0 & _ & HQ & E1 & E2 & E3 & E4). cbn [s_nfg set_pnv].
    rewrite E2 by auto. assert (Z : num_odom_special p' = num_odom_special q0); [|rewrite Z; apply graph_of_room].
    destruct (c_align C).
    - destruct (E4 eq_refl) as [[-> _]|(_ & _ & -> & _)]; auto.
    - specialize (E3 eq_refl). injection E3 as -> _. auto. }
  assert (OK : forall (s1 s2 : solver) x, optimize C W s1 = Ok s2 x -> s_nfg s2 = s_nfg s1 /\ s_pcm s2 = s_pcm s1).
  { intros s1 s2 x E. destruct x. apply optimize_inv in E. destruct E as (r0 & a & full & E). split; [apply (oz_nfg E)|apply (oz_pcm E)]. }
  assert (LG : forall (s1 s2 : solver) x, log_status C s1 = Ok s2 x -> s2 = s1).
  { intros s1 s2 x. unfold log_status. destruct (c_log C); [|congruence]. destruct (s_pcm s1); [|discriminate].
    destruct (g2o_throws _); congruence. }
  assert (OP : forall (s1 : solver) q1, s1 = set_pnv s (Some q1) (graph_of (so_pcm W) q1) (s_vals s) -> no_ret (optimize C W s1) = Ok s' r -> num_odom_special p <= length (s_nfg s')).
  { intros s1 q1 E1 E2. destruct (optimize C W s1) as [s2 []| |] eqn:E3; cbn [obind no_ret] in E2; try discriminate.
    injection E2 as <- _. destruct (OK _ _ _ E3) as [X1 X2]. rewrite X1. rewrite X2, E1 in Hp. cbn [s_pcm set_pnv] in Hp. injection Hp as <-.
    rewrite E1. apply graph_of_room. }
  destruct o as [fs vs0 opt|fs vs0|c opt|a b| |c|c|fs vs0|fs vs0|]; cbn [given call_of rebuilds] in *; try contradiction; cbn [step] in HS.
  - unfold update in HS. destruct (ingest C W fs vs0 s) as [s1 b| |] eqn:EI; cbn [obind no_ret] in HS; try discriminate.
    destruct (GO fs vs0 eq_refl Hne _ _ EI) as (p1 & A & B).
    destruct (if b && opt then optimize C W s1 else Ok s1 tt) as [s2 []| |] eqn:E2; cbn [obind no_ret] in HS; try discriminate.
    assert (X2 : s_nfg s2 = s_nfg s1 /\ s_pcm s2 = s_pcm s1). { destruct (b && opt); [eauto|injection E2 as <-; auto]. }
    assert (X3 : s' = s2). { destruct opt; [|cbn [obind no_ret] in HS; congruence].
      destruct (log_status C s2) as [s3 []| |] eqn:E3; cbn [obind no_ret] in HS; try discriminate. apply LG in E3. congruence. }
    subst s'. destruct X2 as [X2 X2']. rewrite X2. rewrite X2', A in Hp. injection Hp as ->. exact B.
  - unfold force_update in HS. destruct (ingest C W fs vs0 s) as [s1 b| |] eqn:EI; cbn [obind no_ret] in HS; try discriminate.
    destruct (GO fs vs0 eq_refl Hne _ _ EI) as (p1 & A & B).
    destruct (optimize C W s1) as [s2 []| |] eqn:E2; cbn [obind no_ret] in HS; try discriminate.
    destruct (OK _ _ _ E2) as [X2 X2'].
    destruct (log_status C s2) as [s3 []| |] eqn:E3; cbn [obind no_ret] in HS; try discriminate. apply LG in E3.
    assert (X3 : s' = s2) by congruence. subst s'. rewrite X2. rewrite X2', A in Hp. injection Hp as ->. exact B.
  - unfold remove_priors in HS. rewrite Hq in HS. destruct opt; cbn [no_ret] in HS.
    + eapply OP; [reflexivity|exact HS].
    + injection HS as <- _. cbn [s_pcm s_nfg set_pnv] in *. injection Hp as <-. apply graph_of_room.
  - unfold ignore_prefix, with_pcm in HS. rewrite Hq in HS. eapply OP; [reflexivity|exact HS].
  - unfold revive_prefix, with_pcm in HS. rewrite Hq in HS. eapply OP; [reflexivity|exact HS].
Qed.
End Exc.
