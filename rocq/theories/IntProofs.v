(** * Counters never overflow (C66) *)
From Coq Require Import QArith.
From Verif Require Import Prelude Num Keys KMap UMap Geometry Factors Clique Pcm Solver ValuesProofs
  PcmSpec PcmProofs PcmInv PcmStore HistSpec SolverProofs HistProofs GraphProofs TrajProofs CliqueSpec CliqueRead IntSpec.
Set Implicit Arguments.
Local Open Scope nat_scope.

(** ** Any bound on trajectories that grows by one per odometry factor *)
Section Bound.
Variable O : tops.
Variable C : config.
Variable W : soracles O.
Notation factor := (factor O).
Notation values := (values O).
Notation graph_t := (graph_t O).
Notation T := (t_T O).
Notation pcm := (pcm O).
Notation op := (op O).
Notation solver := (solver O).
Notation sp := (c_special C).

Variable Q : nat -> T -> Prop.
Hypothesis Q_mono : forall n m t, n <= m -> Q n t -> Q m t.
Hypothesis Q_default : Q 0 (t_default O).
Hypothesis Q_init : forall x, Q 0 (t_init O x).
Hypothesis Q_step : forall n t b d, Q n t -> t_of O b = Some d -> Q (S n) (t_comp O t d).

Definition within (n : nat) (p : pcm) : Prop := forall c k, Q n (tref p c k).
Lemma within_mono n m p : n <= m -> within n p -> within m p.
Proof. intros H X c k. eapply Q_mono; eauto. Qed.
Lemma within_trajs n (p p' : pcm) : p_trajs p' = p_trajs p -> within n p -> within n p'.
Proof. intros E H c k. rewrite (@tref_trajs O p' p E). apply H. Qed.
Lemma within_init : within 0 pcm_init.
Proof. intros c k. exact Q_default. Qed.

Definition out_within {A} (n : nat) (x : outcome pcm A) : Prop :=
  match x with Ok p _ | Throw p _ => within n p | Undef _ => True end.

Lemma update_odom_within vals b (p : pcm) n : b_from b <> b_to b -> within n p -> out_within (S n) (update_odom vals b p).
Proof.
  intros Hne H. destruct (update_odom vals b p) as [p' u|p' e|u] eqn:E; cbn [out_within]; auto.
  - pose proof E as E0. apply update_odom_inv in E; auto. destruct E as (d & Hd & _ & Ho & E).
    intros c k. destruct (N.eq_dec c (chr (b_to b))) as [->|Hc].
    + destruct E as [(_ & _ & E)|(_ & _ & x & _ & E)]; rewrite E.
      * destruct (k =? b_to b)%N; [eapply Q_step; eauto|]. apply (Q_mono (n := n)); [lia|apply H].
      * destruct (k =? b_to b)%N.
        { apply (Q_mono (n := 1)); [lia|]. eapply Q_step; eauto. }
        destruct (k =? b_from b)%N; [apply (Q_mono (n := 0)); [lia|apply Q_init]|apply (Q_mono (n := 0)); [lia|apply Q_default]].
    + assert (X : tref p' c k = tref p c k).
      { exact (f_equal (fun o => tget (match o with Some t => t | None => [] end) k) (Ho _ Hc)). }
      rewrite X. apply (Q_mono (n := n)); [lia|apply H].
  - revert E. unfold update_odom. destruct (t_of O b) as [d|]; [|discriminate]. cbn [p_trajs set_odom].
    destruct (n_find (chr (b_to b)) (p_trajs p)); cbn [obind]; [discriminate|].
    destruct (kfind (b_from b) vals) as [[x|t]|]; cbn [obind]; try discriminate; intro E; injection E as <- <-;
      apply (@within_mono n (S n) _ (Nat.le_succ_diag_r n)); exact (@within_trajs n p _ eq_refl H).
Qed.

Lemma proc_factors_within nv vals fs : forall (p : pcm) acc n, within n p ->
  out_within (n + length (filter (sp_odometry sp nv) (betweens fs))) (proc_factors C nv vals fs p acc).
Proof.
  induction fs as [|of fs IH]; intros p acc n H; cbn [proc_factors].
  - cbn. rewrite Nat.add_0_r. exact H.
  - assert (OTHER : forall p1, p_trajs p1 = p_trajs p -> forall acc1,
      betweens (of :: fs) = betweens fs \/ (exists b, of = Some (FBetween b) /\ sp_odometry sp nv b = false) ->
      out_within (n + length (filter (sp_odometry sp nv) (betweens (of :: fs)))) (proc_factors C nv vals fs p1 acc1)).
    { intros p1 E acc1 D. replace (length (filter (sp_odometry sp nv) (betweens (of :: fs)))) with (length (filter (sp_odometry sp nv) (betweens fs))).
      - apply IH. eapply within_trajs; eauto.
      - destruct D as [->|(b & -> & Hb)]; auto. cbn [betweens flat_map app filter]. rewrite Hb. auto. }
    unfold proc_factor. destruct of as [[b|k x|k t|ks t]|]; cbn [obind]; try (apply OTHER; [reflexivity|left; reflexivity]).
    rewrite classify_spec. destruct (sp_first sp nv b) eqn:EF.
    + cbn [obind]. apply OTHER; [reflexivity|]. right. exists b. split; auto. apply first_not_odometry. auto.
    + destruct (sp_odometry sp nv b) eqn:EO.
      * assert (Hne : b_from b <> b_to b) by (eapply odometry_neq; eauto).
        pose proof (@update_odom_within vals b p n Hne H) as X.
        destruct (update_odom vals b p) as [p1 u|p1 e|u]; cbn [obind out_within] in *; auto.
        -- cbn [betweens flat_map app filter]. rewrite EO. cbn [length]. rewrite <- Nat.add_succ_comm. apply IH. exact X.
        -- cbn [betweens flat_map app filter]. rewrite EO. cbn [length]. eapply within_mono; [|exact X]. lia.
      * destruct (b_from b =? b_to b)%N; cbn [obind]; (apply OTHER; [reflexivity|right; eauto]).
Qed.

Lemma remove_outliers_within fs nv (p : pcm) nfg v n : within n p ->
  match remove_outliers C (so_pcm W) fs nv (PSt p nfg v) with
  | Ok st _ | Throw st _ => within (n + length (filter (sp_odometry sp nv) (betweens fs))) (ps_pcm st) | Undef _ => True end.
Proof.
  intro H. assert (H' : within (n + length (filter (sp_odometry sp nv) (betweens fs))) p) by (eapply within_mono; [|exact H]; lia).
  unfold remove_outliers. cbn [ps_pcm ps_nfg ps_vals].
  destruct (vinsert_all nv v) as [vs []| |u]; auto. destruct fs as [|of fs']; [exact H'|]. set (FS := of :: fs') in *.
  pose proof (@proc_factors_within nv vs FS p ([], false) n H) as X.
  destruct (proc_factors C nv vs FS p ([], false)) as [p1 [lcs opt]|p1 e|u]; cbn [out_within] in X; auto.
  match goal with |- context [match ?r with Val _ => _ | Bad _ => _ end] =>
    assert (Y : forall p3 o3, r = Val (p3, o3) -> within (n + length (filter (sp_odometry sp nv) (betweens FS))) p3); [|destruct r as [[p3 o3]|]] end; auto.
  { intros p3 o3 E. destruct lcs as [|b bs]; [injection E as <- _; auto|].
    destruct (parse_all C vs (b :: bs) p1) as [[p2 nn]|] eqn:EP; cbn [rbind] in E; [|discriminate].
    apply parse_all_inv in EP. destruct EP as [EP Ha]. apply parsed_list_ok in EP. destruct EP as (_ & _ & _ & _ & _ & Ht & _).
    assert (W2 : within (n + length (filter (sp_odometry sp nv) (betweens FS))) p2) by (intros c k; rewrite Ht; apply X).
    destruct (if c_incremental C then find_inliers_inc nn p2 else find_inliers C p2) as [p4|] eqn:EI; cbn [rbind] in E; [|discriminate].
    injection E as <- _. assert (S : selected p2 p4).
    { destruct (c_incremental C); [eapply find_inliers_inc_selected; eauto|eapply find_inliers_selected; eauto]. }
    destruct S as (_ & _ & ->). eapply within_trajs; [|exact W2]. reflexivity. }
  specialize (Y p3 o3 eq_refl).
  destruct (c_align C && (1 <? length (p_robots p3))); [|exact Y].
  set (p4 := set_robots p3 (nsort (p_robots p3))).
  assert (Y4 : within (n + length (filter (sp_odometry sp nv) (betweens FS))) p4) by (eapply within_trajs; [|exact Y]; reflexivity).
  destruct (align (so_pcm W) p4 vs) as [v' []| |u]; cbn [ps_pcm]; auto.
Qed.

Lemma finish_pcm r (s : solver) : match finish r s with Ok s' _ | Throw s' _ => s_pcm s' = s_pcm s | Undef _ => True end.
Proof.
  unfold finish. destruct (update_values r (s_vals s, s_tvals s)) as [[v tv] []|[v tv] e|u]; auto.
  destruct (s_pcm s) eqn:E; auto.
Qed.

Lemma fixed_lcs_state (s : solver) k ws : forall i, match fixed_lcs s k ws i with Ok s' _ | Throw s' _ => s' = s | Undef _ => True end.
Proof.
  induction ws as [|w ws IH]; intro i; cbn [fixed_lcs]; auto.
  assert (X : forall f, match obind (fixed_lcs s k ws (S i)) (fun _ fs => Ok s (f ++ fs)) with Ok s' _ | Throw s' _ => s' = s | Undef _ => True end).
  { intro f. specialize (IH (S i)). destruct (fixed_lcs s k ws (S i)); cbn [obind]; auto. }
  destruct (negb (Qle_bool w (1 # 2))); [destruct (nth_error (s_nfg s) (k + i)) as [f|]|]; cbn [obind]; auto; [exact (X [f])|exact (X [])].
Qed.

Lemma fixed_graph_state (s : solver) : match fixed_graph s with Ok s' _ | Throw s' _ => s' = s | Undef _ => True end.
Proof.
  unfold fixed_graph. destruct (s_pcm s) as [p|]; auto. destruct (_ <? _); auto. destruct (_ <? _); auto.
  match goal with |- context [fixed_lcs ?a ?b ?c ?d] => pose proof (@fixed_lcs_state a b c d) as X; destruct (fixed_lcs a b c d) end; cbn [obind]; auto.
Qed.

Lemma optimize_pcm (s : solver) : match optimize C W s with Ok s' _ | Throw s' _ => s_pcm s' = s_pcm s | Undef _ => True end.
Proof.
  unfold optimize. destruct (vinsert_all (s_tvals s) (s_vals s)) as [full []|v e|u]; auto.
  destruct (gnc_branch C s) as [p|] eqn:EG.
  - destruct (c_bias C && _); auto. unfold call_opt. destruct (so_opt W _ _) as [a|]; cbn [obind]; auto.
    match goal with |- context [finish ?r ?x] => pose proof (finish_pcm r x) as Y; destruct (finish r x) end; auto.
  - assert (F : match (if c_fix C then fixed_graph s else Ok s (s_nfg s ++ s_tnfg s)) with Ok s' _ | Throw s' _ => s' = s | Undef _ => True end).
    { destruct (c_fix C); auto. apply fixed_graph_state. }
    destruct (if c_fix C then fixed_graph s else Ok s (s_nfg s ++ s_tnfg s)) as [s0 g|s0 e|u]; cbn [obind]; auto; [|subst; auto].
    unfold call_opt. destruct (so_opt W _ _) as [a|]; cbn [obind]; auto.
    destruct (length (s_w s) <? s_latest s); auto. destruct (length (s_nfg s) <? s_latest s); auto.
    destruct (s_pcm s) eqn:EP.
    + match goal with |- context [finish ?r ?x] => pose proof (finish_pcm r x) as Y; destruct (finish r x) end; cbn in Y; congruence || auto.
    + destruct (c_debug C && negb (c_gn C)); auto.
      match goal with |- context [finish ?r ?x] => pose proof (finish_pcm r x) as Y; destruct (finish r x) end; cbn in Y; congruence || auto.
Qed.

Definition sol_within (n : nat) {A} (x : outcome solver A) : Prop :=
  match x with Ok s _ | Throw s _ => forall p, s_pcm s = Some p -> within n p | Undef _ => True end.

Lemma sol_optimize n (s : solver) : (forall p, s_pcm s = Some p -> within n p) -> sol_within n (optimize C W s).
Proof. intro H. pose proof (optimize_pcm s) as X. destruct (optimize C W s); cbn; auto; rewrite X; auto. Qed.

Lemma sol_log n (s : solver) : (forall p, s_pcm s = Some p -> within n p) -> sol_within n (log_status C s).
Proof. intro H. unfold log_status. destruct (c_log C); auto. destruct (s_pcm s) eqn:E; cbn; auto. destruct (g2o_throws _); cbn; rewrite E; auto. Qed.

Lemma sol_ingest fs vs n (s : solver) : (forall p, s_pcm s = Some p -> within n p) ->
  sol_within (n + length (filter (sp_odometry sp vs) (betweens fs))) (ingest C W fs vs s).
Proof.
  intro H. unfold ingest. destruct (s_pcm s) as [p|] eqn:E.
  - unfold run_pcm. pose proof (@remove_outliers_within fs vs p (s_nfg s) (s_vals s) n (H _ eq_refl)) as X.
    destruct (remove_outliers C (so_pcm W) fs vs (PSt p (s_nfg s) (s_vals s))) as [st b|st e|u]; cbn [sol_within s_pcm set_pnv]; auto; intros p' Hp; injection Hp as <-; auto.
  - unfold add_and_check. assert (N : forall m, (forall p : pcm, None = Some p -> within m p)) by discriminate.
    destruct (vinsert_all vs _) as [v []|v e|u]; cbn [sol_within s_pcm set_vals set_nfg set_pnv]; auto; [|rewrite E; auto].
    destruct fs as [|[f|] [|f2 fs2]]; cbn [sol_within s_pcm set_vals set_nfg set_pnv]; auto; rewrite E; auto.
Qed.

Lemma sol_mono n m {A} (x : outcome solver A) : n <= m -> sol_within n x -> sol_within m x.
Proof. intros H X. destruct x; cbn in *; auto; intros p Hp; eapply within_mono; eauto. Qed.

Definition odoms_of (o : op) : nat := length (sp_odoms sp [o]).

Lemma step_within o n (s : solver) : (forall p, s_pcm s = Some p -> within n p) -> sol_within (n + odoms_of o) (step C W o s).
Proof.
  intro H. assert (H0 : forall x : outcome solver ret, sol_within n x -> sol_within (n + odoms_of o) x) by (intros x; apply sol_mono; lia).
  assert (NR : forall m (x : outcome solver unit), sol_within m x -> sol_within m (no_ret x)) by (intros m x; destruct x; auto).
  assert (RB : forall m {A B} (x : outcome solver A) (f : solver -> A -> outcome solver B), sol_within m x ->
      (forall s1 a, (forall p, s_pcm s1 = Some p -> within m p) -> sol_within m (f s1 a)) -> sol_within m (obind x f)).
  { intros m A B x f Hx Hf. destruct x; cbn [obind]; auto. }
  assert (RM : forall (x : res (pcm * option (key * key))) p, s_pcm s = Some p -> (forall p' e, x = Val (p', e) -> p_trajs p' = p_trajs p) ->
     sol_within n (edge_ret (obind (lift_removal W s x) (fun s1 e => obind (optimize C W s1) (fun s2 _ => Ok s2 e))))).
  { intros x p Hp Hx. assert (Y : sol_within n (obind (lift_removal W s x) (fun s1 e => obind (optimize C W s1) (fun s2 _ => Ok s2 e)))).
    { apply RB.
      - unfold lift_removal. destruct x as [[p' [e|]]|]; cbn [sol_within s_pcm set_pnv]; auto; intros q Hq; injection Hq as <-;
          (eapply within_trajs; [eapply Hx; reflexivity|auto]).
      - intros s1 a H1. apply RB; [apply sol_optimize; auto|]. intros s2 [] H2. exact H2. }
    destruct (obind _ _); auto. }
  assert (RL : sol_within n (edge_ret (obind (remove_last_factor s) (fun s1 e => obind (optimize C W s1) (fun s2 _ => Ok s2 e)))) ).
  { assert (Y : sol_within n (obind (remove_last_factor s) (fun s1 e => obind (optimize C W s1) (fun s2 _ => Ok s2 e)))).
    { apply RB.
      - unfold remove_last_factor. destruct (rev (s_nfg s)) as [|[f|] l]; cbn; auto. destruct (f_keys f); cbn; auto.
      - intros s1 a H1. apply RB; [apply sol_optimize; auto|]. intros s2 [] H2. exact H2. }
    destruct (obind _ _); auto. }
  destruct o as [fs vs opt|fs vs|c opt|a b| |c|c|fs vs|fs vs|]; cbn [step].
  - apply NR. unfold update, odoms_of, sp_odoms. cbn [flat_map call_of]. rewrite app_nil_r.
    apply RB; [apply sol_ingest; auto|]. intros s1 b H1.
    apply RB; [destruct (b && opt); [apply sol_optimize; auto|exact H1]|]. intros s2 [] H2. destruct opt; [apply sol_log; auto|exact H2].
  - apply NR. unfold force_update, odoms_of, sp_odoms. cbn [flat_map call_of]. rewrite app_nil_r.
    apply RB; [apply sol_ingest; auto|]. intros s1 b H1.
    apply RB; [apply sol_optimize; auto|]. intros s2 [] H2. apply sol_log; auto.
  - apply H0, NR. unfold remove_priors.
    assert (Y : forall p, s_pcm (match s_pcm s with
       | Some p => let p' := pcm_remove_priors c p in set_pnv s (Some p') (graph_of (so_pcm W) p') (s_vals s)
       | None => set_nfg s (filter (keep_prior c) (s_nfg s)) end) = Some p -> within n p).
    { destruct (s_pcm s) as [q|] eqn:E; cbn [s_pcm set_pnv set_nfg]; intros p Hp; [|congruence]. injection Hp as <-. eapply within_trajs; [|apply H; auto]. reflexivity. }
    destruct opt; [apply sol_optimize; exact Y|exact Y].
  - apply H0. unfold remove_last_id. destruct (s_pcm s) as [p|] eqn:E; [|exact RL]. apply (RM _ _ eq_refl).
    intros p' e X. apply pcm_remove_last_id_frame in X. destruct X as (lcs & -> & _). reflexivity.
  - apply H0. unfold remove_last. destruct (s_pcm s) as [p|] eqn:E; [|exact RL]. apply (RM _ _ eq_refl).
    intros p' e X. apply pcm_remove_last_frame in X. destruct X as [(_ & -> & _)|(od & id & _ & X)]; auto.
    apply pcm_remove_last_id_frame in X. destruct X as (lcs & -> & _). reflexivity.
  - apply H0, NR. unfold ignore_prefix, with_pcm. apply sol_optimize. destruct (s_pcm s) as [q|] eqn:E; cbn [s_pcm set_pnv]; intros p Hp; [|congruence].
    injection Hp as <-. eapply within_trajs; [|apply H; auto]. unfold pcm_ignore. destruct (existsb _ _); reflexivity.
  - apply H0, NR. unfold revive_prefix, with_pcm. apply sol_optimize. destruct (s_pcm s) as [q|] eqn:E; cbn [s_pcm set_pnv]; intros p Hp; [|congruence].
    injection Hp as <-. eapply within_trajs; [|apply H; auto]. reflexivity.
  - apply H0, NR. unfold temp_update. destruct (vinsert_all vs (s_tvals s)) as [tv []|tv e|u]; cbn; auto.
  - apply H0. exact H.
  - apply H0. exact H.
Qed.

Lemma run_on_within h : forall (s s' : solver) n, (forall p, s_pcm s = Some p -> within n p) -> run_on C W h s = Val s' ->
  forall p, s_pcm s' = Some p -> within (n + length (sp_odoms sp h)) p.
Proof.
  induction h as [|o h IH]; intros s s' n H HR p Hp; cbn [run_on] in HR.
  - injection HR as <-. eapply within_mono; [|apply H; exact Hp]. lia.
  - pose proof (@step_within o n s H) as X.
    assert (E : sp_odoms sp (o :: h) = sp_odoms sp [o] ++ sp_odoms sp h). { unfold sp_odoms. cbn [flat_map]. rewrite app_nil_r. reflexivity. }
    rewrite E, app_length, Nat.add_assoc. fold (odoms_of o).
    destruct (step C W o s) as [s1 r|s1 e|u]; [| |discriminate]; eapply IH; eauto.
Qed.

Lemma within_run h (s : solver) p b : run_on C W h (solver_init b) = Val s -> s_pcm s = Some p -> within (length (sp_odoms sp h)) p.
Proof.
  intros HR Hp. apply (@run_on_within h (solver_init b) s 0); auto.
  intros q Hq. cbn in Hq. destruct b; [injection Hq as <-; apply within_init|discriminate].
Qed.
End Bound.

(** ** The counter *)
Section Counter.
Variable G : geom.
Variable pp : pcm_params.
Variable C : config.
Notation O := (node_ops G pp).
Notation I := (noted_ops G).
Variable W : soracles O.
Notation sp := (c_special C).

Lemma node_within h (s : solver O) p b : run_on C W h (solver_init b) = Val s -> s_pcm s = Some p ->
  forall c k, (0 <= pn_node (tref p c k : pnode G) <= Z.of_nat (length (sp_odoms sp h)))%Z.
Proof.
  intros HR Hp.
  refine (@within_run O C W (fun n t => (0 <= pn_node (t : pnode G) <= Z.of_nat n)%Z) _ _ _ _ h s p b HR Hp).
  - intros n m t L X. lia.
  - cbn. lia.
  - cbn. lia.
  - intros n t b0 d X E. change (pn_of G b0 = Some d) in E. destruct b0 as [x1 x2 x3 [c|]]; cbn in E; [|discriminate E].
    injection E as <-. change (0 <= pn_node (t : pnode G) + 1 <= Z.of_nat (S n))%Z. lia.
Qed.

Variable ref : N -> key -> pnode G.
Variable n : Z.
Hypothesis n_small : (0 <= n <= 268435456)%Z.
Hypothesis ref_n : forall c k, (0 <= pn_node (ref c k) <= n)%Z.

Definition fine (m : Z) (a : noted G) : Prop := snd a = true /\ (0 <= pn_node (fst a) <= m)%Z.

Lemma fits_ok z : (- 2147483648 <= z < 2147483648)%Z -> fits z = true.
Proof. intro H. unfold fits. apply andb_true_iff. rewrite Z.leb_le, Z.ltb_lt. lia. Qed.

Lemma fine_between a b m : fine m a -> fine m b -> (m < 2147483648)%Z -> fine m (noted_between a b).
Proof.
  intros [A1 A2] [B1 B2] L. unfold fine, noted_between. cbn [fst snd pn_between pn_node]. rewrite A1, B1, !fits_ok; cbn [andb]; lia.
Qed.
Lemma fine_comp a b m1 m2 : fine m1 a -> fine m2 b -> (m1 + m2 < 2147483648)%Z -> fine (m1 + m2) (noted_comp a b).
Proof.
  intros [A1 A2] [B1 B2] L. unfold fine, noted_comp. cbn [fst snd pn_comp pn_node]. rewrite A1, B1, fits_ok; cbn [andb]; lia.
Qed.
Lemma fine_inv a m : fine m a -> fine m (pn_inv (fst a), snd a).
Proof. intros [A1 A2]. split; auto. Qed.
Lemma fine_ref c k : fine n (given_ref ref c k).
Proof. split; auto. apply ref_n. Qed.
Lemma fine_mono a m1 m2 : (m1 <= m2)%Z -> fine m1 a -> fine m2 a.
Proof. intros L [A1 A2]. split; auto. lia. Qed.
Lemma fine_of b m : t_of I b = Some m -> fine 1 m.
Proof.
  destruct b as [x1 x2 x3 [c|]]; intro E; cbn in E; [|discriminate E]. injection E as <-. split; cbn; auto. lia.
Qed.

Lemma fine_rel c a b : fine (n + n + n) (sp_rel (O := I) (given_ref ref) c a b).
Proof.
  unfold sp_rel. cbn [t_between t_comp t_inv noted_ops]. destruct (chr a =? chr b)%N.
  - eapply fine_mono; [|apply (@fine_between _ _ n)]; try apply fine_ref; lia.
  - apply fine_comp; [apply fine_comp; [apply fine_inv|..]|..]; try (apply fine_between; try apply fine_ref); lia.
Qed.

Lemma odom_no_overflow b : sp_odom_test (O := I) (given_ref ref) b <> Some false.
Proof.
  unfold sp_odom_test. destruct (t_of I b) as [m|] eqn:E; [|discriminate]. apply fine_of in E.
  cbn [t_odom_ok t_comp t_inv noted_ops].
  destruct (@fine_comp _ _ (n + n + n) 1 (fine_rel (chr (b_from b)) (b_from b) (b_to b)) (fine_inv E)) as [X _]; [lia|].
  rewrite X. discriminate.
Qed.

Lemma loop_no_overflow f1 f2 : sp_loop_test (O := I) (given_ref ref) f1 f2 <> Some false.
Proof.
  unfold sp_loop_test. destruct (t_of I f1) as [m1|] eqn:E1; [|discriminate]. destruct (t_of I f2) as [m2|] eqn:E2; [|discriminate].
  apply fine_of in E1. apply fine_of in E2. cbn zeta. cbn [t_loop_ok t_comp t_inv noted_ops].
  match goal with |- context [noted_comp (noted_comp (_ (fst (noted_comp ?r1 _)), _) _) ?r2] =>
    assert (R1 : fine (n + n + n) r1) by apply fine_rel; assert (R2 : fine (n + n + n) r2) by apply fine_rel;
    assert (X1 : fine (n + n + n + 1) (noted_comp r1 m2)) by (apply fine_comp; auto; lia);
    assert (X2 : fine (n + n + n + 1 + 1) (noted_comp (pn_inv (fst (noted_comp r1 m2)), snd (noted_comp r1 m2)) m1))
      by (apply fine_comp; try apply fine_inv; auto; lia);
    assert (X3 : fine (n + n + n + 1 + 1 + (n + n + n)) (noted_comp (noted_comp (pn_inv (fst (noted_comp r1 m2)), snd (noted_comp r1 m2)) m1) r2))
      by (apply fine_comp; auto; lia) end.
  destruct X3 as [X3 _]. rewrite X3. discriminate.
Qed.

Lemma lm_no_overflow f1 f2 : sp_lm_test (O := I) (given_ref ref) f1 f2 <> Some false.
Proof.
  unfold sp_lm_test. destruct (t_of I f1) as [m1|] eqn:E1; [|discriminate]. destruct (t_of I f2) as [m2|] eqn:E2; [|discriminate].
  apply fine_of in E1. apply fine_of in E2. cbn [t_loop_ok t_comp t_inv noted_ops].
  pose proof (fine_rel (chr (b_from f1)) (b_from f1) (b_from f2)) as R.
  assert (X1 : fine (n + n + n + 1) (noted_comp (sp_rel (O := I) (given_ref ref) (chr (b_from f1)) (b_from f1) (b_from f2)) m2)) by (apply fine_comp; auto; lia).
  destruct (@fine_comp _ _ (n + n + n + 1) 1 (fine_inv X1) E1) as [X _]; [lia|]. rewrite X. discriminate.
Qed.
End Counter.

Lemma c66 G pp C (W : soracles (node_ops G pp)) h s p b :
  run_on C W h (solver_init b) = Val s -> s_pcm s = Some p -> (Z.of_nat (length (sp_odoms (c_special C) h)) <= 268435456)%Z ->
  (forall c k, (0 <= pn_node (tref p c k : pnode G) <= Z.of_nat (length (sp_odoms (c_special C) h)))%Z) /\
  (forall c k, fits (pn_node (tref p c k : pnode G) + 1) = true) /\
  (forall f, sp_odom_test (O := noted_ops G) (given_ref (tref p)) f <> Some false) /\
  (forall f1 f2, sp_loop_test (O := noted_ops G) (given_ref (tref p)) f1 f2 <> Some false) /\
  (forall f1 f2, sp_lm_test (O := noted_ops G) (given_ref (tref p)) f1 f2 <> Some false).
Proof.
  intros HR Hp HL. pose proof (@node_within G pp C W h s p b HR Hp) as X. split; auto. split.
  { intros c k. apply fits_ok. specialize (X c k). lia. }
  split; [|split]; intros.
  - eapply odom_no_overflow; [|exact X]. lia.
  - eapply loop_no_overflow; [|exact X]. lia.
  - eapply lm_no_overflow; [|exact X]. lia.
Qed.

(** ** The arrays of the searches *)

Lemma offs_bound (nb : nat -> list nat) n d : (forall v, v < n -> length (nb v) <= d) -> forall i, i <= n -> offs nb i <= i * d.
Proof.
  intros H i. induction i as [|i IH]; intro Hi; [cbn; lia|]. rewrite offs_S. specialize (H i). cbn [Nat.mul]. lia.
Qed.
Lemma offs_exact (nb : nat -> list nat) n d : (forall v, v < n -> length (nb v) = d) -> forall i, i <= n -> offs nb i = i * d.
Proof.
  intros H i. induction i as [|i IH]; intro Hi; [reflexivity|]. rewrite offs_S. specialize (H i). cbn [Nat.mul]. lia.
Qed.

Lemma filter_one {A} (f : A -> bool) l x : In x l -> f x = false -> length (filter f l) <= length l - 1.
Proof.
  intros Hi Hf. destruct (in_split _ _ Hi) as (l1 & l2 & ->). rewrite filter_app, !app_length. cbn [filter length]. rewrite Hf.
  pose proof (filter_length_le f l1). pose proof (filter_length_le f l2). lia.
Qed.

Lemma row_degree m v : v < m_rows m -> length (read_nodelist m v) <= m_rows m - 1.
Proof.
  intro H. rewrite read_nodelist_spec. unfold nbl. eapply Nat.le_trans; [apply (@filter_one _ _ _ v)|rewrite seq_length; lia].
  - apply in_seq. lia.
  - apply adjb_irr.
Qed.

Lemma read_eigen_arrays m g : read_eigen m = Val g ->
  g_vs g = map (offs (read_nodelist m)) (seq 0 (m_rows m + 1)) /\ g_es g = flat_map (read_nodelist m) (seq 0 (m_rows m)) /\
  calc_max_degree (g_vs g) = Val (g_maxdeg g).
Proof.
  unfold read_eigen. rewrite read_csr_spec. destruct (calc_max_degree _) as [mx|] eqn:E; cbn [rbind]; [|discriminate].
  intro H. injection H as <-. auto.
Qed.

Lemma arrays_fit m g : read_eigen m = Val g -> (Z.of_nat (m_rows m) <= 46341)%Z ->
  (forall x, In x (g_vs g) -> fits (Z.of_nat x) = true) /\ (forall x, In x (g_es g) -> fits (Z.of_nat x + 1) = true) /\
  fits (Z.of_nat (length (g_es g))) = true /\ fits (g_maxdeg g + 1) = true.
Proof.
  intros H L. destruct (read_eigen_arrays _ H) as (E1 & E2 & E3).
  assert (B : forall i, i <= m_rows m -> (Z.of_nat (offs (read_nodelist m) i) <= 2147483647)%Z).
  { intros i Hi. pose proof (@offs_bound (read_nodelist m) (m_rows m) (m_rows m - 1) (@row_degree m) i Hi) as X.
    assert (i * (m_rows m - 1) <= m_rows m * (m_rows m - 1)) by (apply Nat.mul_le_mono_r; auto).
    destruct (m_rows m) as [|r]; [cbn in *; lia|].
    assert (Y : (Z.of_nat (offs (read_nodelist m) i) <= Z.of_nat (S r) * Z.of_nat r)%Z).
    { rewrite <- Nat2Z.inj_mul. apply Nat2Z.inj_le. cbn [Nat.sub] in *. rewrite Nat.sub_0_r in *. lia. }
    assert (Z.of_nat (S r) * Z.of_nat r <= 46341 * 46340)%Z by (apply Z.mul_le_mono_nonneg; lia). lia. }
  split; [|split; [|split]].
  - intros x Hx. rewrite E1 in Hx. apply in_map_iff in Hx. destruct Hx as (i & <- & Hi). apply in_seq in Hi.
    apply fits_ok. specialize (B i). lia.
  - intros x Hx. rewrite E2 in Hx. apply in_flat_map in Hx. destruct Hx as (v & _ & Hx). rewrite read_nodelist_spec in Hx.
    apply nbl_In in Hx. apply fits_ok. lia.
  - apply fits_ok. rewrite E2. fold (offs (read_nodelist m) (m_rows m)). specialize (B (m_rows m)). lia.
  - apply fits_ok. rewrite E1 in E3. destruct (calc_max_degree_spec (m_rows m) (read_nodelist m)) as (mx & F & _ & G).
    rewrite F in E3. injection E3 as <-. destruct G as [(v & Hv & ->)|[_ ->]]; [|lia]. pose proof (row_degree _ Hv). lia.
Qed.

Lemma filter_all_true {A} (f : A -> bool) l : (forall x, In x l -> f x = true) -> filter f l = l.
Proof. induction l as [|a l IH]; intro H; cbn; auto. rewrite H by (left; auto). f_equal. apply IH. intros x Hx. apply H. right. auto. Qed.

Lemma full_degree n v : v < n -> length (read_nodelist (all_ones n) v) = n - 1.
Proof.
  intro H. rewrite read_nodelist_spec. cbn [m_rows all_ones]. unfold nbl.
  assert (E : filter (adjb (all_ones n) v) (seq 0 n) = seq 0 v ++ seq (S v) (n - S v)).
  { replace (seq 0 n) with (seq 0 (v + S (n - S v))) by (f_equal; lia). rewrite seq_app, filter_app. cbn [seq plus filter].
    rewrite adjb_irr. f_equal; (apply filter_all_true; intros w Hw; apply in_seq in Hw).
    - unfold adjb, all_ones. cbn [m_rows m_cols m_at]. replace (w <? v) with true by (symmetry; apply Nat.ltb_lt; lia).
      replace (v <? n) with true by (symmetry; apply Nat.ltb_lt; lia). replace (w <? n) with true by (symmetry; apply Nat.ltb_lt; lia). reflexivity.
    - unfold adjb, all_ones. cbn [m_rows m_cols m_at]. replace (v <? w) with true by (symmetry; apply Nat.ltb_lt; lia).
      replace (v <? n) with true by (symmetry; apply Nat.ltb_lt; lia). replace (w <? n) with true by (symmetry; apply Nat.ltb_lt; lia).
      rewrite orb_true_r. reflexivity. }
  rewrite E, app_length, !seq_length. lia.
Qed.

Lemma arrays_overflow n : (46341 < Z.of_nat n)%Z ->
  exists g x, read_eigen (all_ones n) = Val g /\ In x (g_vs g) /\ fits (Z.of_nat x) = false.
Proof.
  intro L. destruct (read_eigen_repr (all_ones n)) as (g & H & _). exists g, (offs (read_nodelist (all_ones n)) n). split; auto.
  destruct (read_eigen_arrays _ H) as (E1 & _). split.
  - rewrite E1. apply in_map. apply in_seq. cbn [m_rows all_ones]. lia.
  - rewrite (@offs_exact _ n (n - 1)); [|apply full_degree|auto]. destruct n as [|r]; [lia|].
    cbn [Nat.sub]. rewrite Nat.sub_0_r, Nat2Z.inj_mul. unfold fits.
    assert (46342 * 46341 <= Z.of_nat (S r) * Z.of_nat r)%Z by (apply Z.mul_le_mono_nonneg; lia).
    replace (Z.of_nat (S r) * Z.of_nat r <? 2147483648)%Z with false by (symmetry; apply Z.ltb_ge; lia). apply andb_false_r.
Qed.
