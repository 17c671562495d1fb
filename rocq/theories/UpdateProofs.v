(** * Proofs about single calls: C17, C19, C20, C28, C29, C30, C31, C32, C36, C40 *)
From Coq Require Import QArith Qround Permutation Lqa.
From Verif Require Import Prelude Keys KMap UMap Geometry Factors Clique Pcm Solver ValuesProofs
  PcmSpec PcmProofs PcmInv PcmStore HistSpec SolverProofs HistProofs PlainProofs GraphProofs.
Set Implicit Arguments.
Local Open Scope nat_scope.

Section U.
Variable O : tops.
Variable C : config.
Variable W : soracles O.
Notation bf := (bf O).
Notation factor := (factor O).
Notation values := (values O).
Notation graph_t := (graph_t O).
Notation pcm := (pcm O).
Notation solver := (solver O).
Notation op := (op O).
Notation sp := (c_special C).

(** ** C17 *)

Lemma triggers_spec (vs : values) (fs : graph_t) : sp_triggers sp vs fs =
  negb (length (others fs) =? 0) || negb (length (filter (sp_candidate sp vs) (betweens fs)) =? 0).
Proof.
  induction fs as [|[f|] fs IH]; [reflexivity| |].
  - change (Some f :: fs) with ([Some f] ++ fs). rewrite betweens_app, others_app, filter_app, !app_length.
    unfold sp_triggers. cbn [existsb app]. fold (sp_triggers sp vs fs). rewrite IH.
    destruct f as [b|k x|k t|ks t]; cbn [betweens others flat_map app filter length]; auto.
    destruct (sp_candidate sp vs b); cbn [length plus orb]; auto. rewrite orb_true_r. auto.
  - unfold sp_triggers. cbn [existsb orb]. exact IH.
Qed.

Lemma ro_bool fs nv vals (p p' : pcm) b : ro_pcm C fs nv vals p p' b -> b = sp_triggers sp nv fs.
Proof.
  rewrite triggers_spec. intro H. inversion H; subst.
  - reflexivity.
  - apply proc_factors_frame in H1. destruct H1 as (_ & _ & _ & _ & _ & _ & _ & _ & E1 & E2).
    cbn in E1, E2. rewrite <- E1, E2. cbn. rewrite orb_false_r. auto.
  - apply proc_factors_frame in H1. destruct H1 as (_ & _ & _ & _ & _ & _ & _ & _ & E1 & E2).
    cbn in E1, E2. rewrite <- E1. destruct lcs; [congruence|]. cbn. rewrite orb_true_r. auto.
Qed.

Lemma remove_outliers_bool fs nv (s s' : pst O) b : remove_outliers C (so_pcm W) fs nv s = Ok s' b ->
  b = sp_triggers sp nv fs.
Proof.
  intro H. apply remove_outliers_inv in H. destruct H as (vs & u & p' & _ & H & _). eapply ro_bool; eauto.
Qed.

Lemma remove_outliers_vals fs nv (s s' : pst O) b : remove_outliers C (so_pcm W) fs nv s = Ok s' b ->
  c_align C = false -> vinsert_all nv (ps_vals s) = Ok (ps_vals s') tt.
Proof.
  intros H HA. apply remove_outliers_inv in H. destruct H as (vs & [] & p' & HV & _ & _ & _ & H3 & _).
  rewrite (H3 HA). exact HV.
Qed.

Lemma update_inv fs vs opt (s s' : solver) p : s_pcm s = Some p -> update C W fs vs opt s = Ok s' tt ->
  exists s1 p1, s_pcm s1 = Some p1 /\
    remove_outliers C (so_pcm W) fs vs (PSt p (s_nfg s) (s_vals s))
      = Ok (PSt p1 (s_nfg s1) (s_vals s1)) (sp_triggers sp vs fs) /\
    same_opt_state s s1 /\ s_tnfg s1 = s_tnfg s /\ s_tvals s1 = s_tvals s /\
    (if sp_triggers sp vs fs && opt then optimize C W s1 = Ok s' tt else s' = s1).
Proof.
  intros Hp E. unfold update, ingest in E. rewrite Hp in E.
  destruct (run_pcm C W fs vs p s) as [s1 b| |] eqn:E1; cbn [obind] in E; try discriminate.
  apply run_pcm_inv in E1. destruct E1 as (p' & P1 & P2 & P3 & P4 & P5).
  pose proof (remove_outliers_bool _ _ _ P2) as ->. exists s1, p'. repeat split; auto; try apply P5.
  destruct (sp_triggers sp vs fs && opt).
  - destruct (optimize C W s1) as [s2 []| |] eqn:E2; cbn [obind] in E; try discriminate.
    destruct opt; [apply log_status_inv in E|inversion E]; congruence.
  - cbn [obind] in E. destruct opt; [apply log_status_inv in E|inversion E]; congruence.
Qed.

Lemma c17 fs vs opt (s s' : solver) p : s_pcm s = Some p -> update C W fs vs opt s = Ok s' tt ->
  (sp_triggers sp vs fs && opt = true -> exists r, s_trace s' = s_trace s ++ [r]) /\
  (sp_triggers sp vs fs && opt = false -> s_trace s' = s_trace s /\
     (c_align C = false -> forall k v, kfind k (s_vals s) = Some v -> kfind k (s_vals s') = Some v)).
Proof.
  intros Hp H. destruct (update_inv _ _ _ _ Hp H) as (s1 & p1 & P1 & P2 & P3 & P4 & P5 & P6).
  destruct (sp_triggers sp vs fs && opt); (split; [|]); intro E; try discriminate.
  - apply optimize_inv in P6. destruct P6 as (r & a & full & Hz). exists r. rewrite (oz_trace Hz).
    f_equal. apply P3.
  - subst s1. split; [apply P3|]. intros HA k v Hk. pose proof (remove_outliers_vals _ _ _ P2 HA) as HV.
    cbn [ps_vals] in HV. apply vinsert_all_ok in HV. destruct HV as [HV _]. rewrite HV, Hk. auto.
Qed.

(** ** C19 *)

Lemma vinsert_all_dup (news : values) : forall vs, (exists k, In k (kkeys news) /\ kmem k vs = true) ->
  exists pre k x post vs', news = pre ++ (k, x) :: post /\ vinsert_all pre vs = Ok vs' tt /\ kmem k vs' = true /\
    vinsert_all news vs = Throw vs' (KeyAlreadyExists k).
Proof.
  induction news as [|[k0 x0] news IH]; intros vs (k & Hin & Hm); [destruct Hin|].
  cbn [vinsert_all]. destruct (kmem k0 vs) eqn:E.
  - exists [], k0, x0, news, vs. repeat split; auto.
  - destruct Hin as [Hk|Hin]; [cbn in Hk; congruence|].
    destruct (IH (kset k0 x0 vs)) as (pre & k1 & x1 & post & vs' & -> & P1 & P2 & P3).
    { exists k. split; auto. rewrite kmem_kset, Hm. apply orb_true_r. }
    exists ((k0, x0) :: pre), k1, x1, post, vs'. repeat split; auto. cbn [vinsert_all]. rewrite E. auto.
Qed.

Lemma c19 fs vs (s : solver) p : s_pcm s = Some p ->
  (exists k, In k (map fst vs) /\ In k (map fst (s_vals s))) ->
  exists pre k x post vs', vs = pre ++ (k, x) :: post /\ vinsert_all pre (s_vals s) = Ok vs' tt /\
    In k (map fst vs') /\
    (forall opt, update C W fs vs opt s = Throw (set_vals s vs') (KeyAlreadyExists k)) /\
    force_update C W fs vs s = Throw (set_vals s vs') (KeyAlreadyExists k).
Proof.
  intros Hp (k & H1 & H2). destruct (@vinsert_all_dup vs (s_vals s)) as (pre & k1 & x1 & post & vs' & E & P1 & P2 & P3).
  { exists k. split; auto. apply kmem_In. auto. }
  exists pre, k1, x1, post, vs'. split; auto. split; auto. split; [apply (proj1 (kmem_In k1 vs') P2)|].
  assert (G : ingest C W fs vs s = Throw (set_vals s vs') (KeyAlreadyExists k1)).
  { unfold ingest, run_pcm, remove_outliers. rewrite Hp. cbn [ps_vals]. rewrite P3. cbn [ps_pcm ps_nfg ps_vals].
    unfold set_vals. rewrite Hp. auto. }
  split; [intro opt; unfold update|unfold force_update]; rewrite G; reflexivity.
Qed.

(** ** C20 *)

Definition accepted (w : oracles O) (p : pcm) : list bf :=
  flat_map (fun '(_, m) => me_cons m) (uiter (w_lc_order w) (p_lcs p)).

Definition allowed (p : pcm) (b : bf) : bool :=
  negb (existsb (N.eqb (chr (b_from b))) (p_ignored p)) && negb (existsb (N.eqb (chr (b_to b))) (p_ignored p)).

Lemma build_lcs_filter w (p : pcm) Q Ql : stored_ok C Q Ql p ->
  build_lcs w p = filter (allowed p) (accepted w p).
Proof.
  intros [S _ _ _]. unfold build_lcs, accepted.
  assert (F : Forall (lc_ok C Q) (uiter (w_lc_order w) (p_lcs p))).
  { rewrite Forall_forall in *. intros x Hx. apply S.
    apply (Permutation_in _ (uiter_perm (w_lc_order w) (p_lcs p))). auto. }
  induction F as [|[id m] l [H1 H2] F IH]; cbn [flat_map]; auto.
  rewrite filter_app, IH. f_equal. cbn [fst snd] in *.
  rewrite Forall_forall in H1.
  assert (G : forall b, In b (me_cons m) -> allowed p b = negb (ignored p id)).
  { intros b Hb. destruct (H1 b (H2 b Hb)) as (E & _). rewrite (ignored_pair p b id E). unfold allowed.
    rewrite negb_orb. auto. }
  clear - G. destruct (ignored p id); cbn [negb] in G.
  - induction (me_cons m) as [|b bs IHb]; cbn [filter]; auto.
    rewrite (G b) by (left; auto). apply IHb. intros; apply G; right; auto.
  - symmetry. apply filter_all. auto.
Qed.

Lemma existsb_In (c : N) l : existsb (N.eqb c) l = true <-> In c l.
Proof.
  rewrite existsb_exists. split.
  - intros (x & H & E). apply N.eqb_eq in E. subst; auto.
  - intro H. exists c. split; auto. apply N.eqb_refl.
Qed.

Lemma allowed_spec h (s : solver) p b : hist_inv C W h s p -> allowed p b = sp_not_ignored h b.
Proof.
  intro I. unfold allowed, sp_not_ignored.
  assert (G : forall c, existsb (N.eqb c) (p_ignored p) = sp_ignored h c).
  { intro c. apply eq_true_iff_eq. rewrite existsb_In. apply (hi_ign I). }
  rewrite !G. auto.
Qed.

Lemma c20_graph h (s : solver) p : hist_inv C W h s p ->
  s_nfg s = map Some (map FBetween (p_odom p) ++ p_special p) ++
            map (fun b => Some (FBetween b)) (filter (sp_not_ignored h) (accepted (so_pcm W) p)) ++
            map (fun b => Some (FBetween b)) (build_lms (so_pcm W) p).
Proof.
  intro I. rewrite (hi_nfg I). unfold graph_of, build.
  rewrite (build_lcs_filter _ (hi_stored I)), !map_app, !map_map, <- app_assoc.
  rewrite (filter_ext (allowed p) (sp_not_ignored h)) by (intro; eapply allowed_spec; eauto). auto.
Qed.

Lemma step_hist h (s : solver) rs p o s' r : run C W h (solver_init true) = Ok s rs -> hist_inv C W h s p ->
  step C W o s = Ok s' r -> exists p', hist_inv C W (h ++ [o]) s' p' /\
  (forall c, o = OpIgnore c -> p' = pcm_ignore c p) /\ (forall c, o = OpRevive c -> p' = pcm_revive c p).
Proof.
  intros HR I Hs. assert (X : exists p', hist_inv C W (h ++ [o]) s' p') by (eapply hist_step; eauto).
  destruct X as [p' I']. exists p'. split; auto.
  destruct (step_inv C W o s (hi_pcm I) Hs) as (s1 & p1 & b & [E0 E] & _ & _ & _ & Ho).
  assert (E1 : s_pcm s' = s_pcm s1).
  { destruct (optimises o b); [apply optimize_same in Ho; apply Ho|congruence]. }
  assert (p1 = p') by (pose proof (hi_pcm I'); congruence). subst p1.
  split; intros c ->; cbn in E; tauto.
Qed.

Lemma c20 h (s : solver) rs : run C W h (solver_init true) = Ok s rs ->
  exists pre acc post,
    s_nfg s = pre ++ map (fun b => Some (FBetween b)) (filter (sp_not_ignored h) acc) ++ post /\
    (forall c s' r, step C W (OpIgnore c) s = Ok s' r ->
       s_nfg s' = pre ++ map (fun b => Some (FBetween b)) (filter (sp_not_ignored (h ++ [OpIgnore c])) acc) ++ post) /\
    (forall c s' r, step C W (OpRevive c) s = Ok s' r ->
       s_nfg s' = pre ++ map (fun b => Some (FBetween b)) (filter (sp_not_ignored (h ++ [OpRevive c])) acc) ++ post).
Proof.
  intro H. destruct (hist_run _ _ _ H) as [p I].
  eexists _, _, _. split; [apply (c20_graph I)|]. split.
  - intros c s' r Hs. destruct (step_hist _ H I Hs) as (p' & I' & E & _). specialize (E c eq_refl).
    rewrite (c20_graph I'). subst p'.
    unfold pcm_ignore, accepted, build_lms. destruct (existsb (N.eqb c) (p_ignored p)); auto.
  - intros c s' r Hs. destruct (step_hist _ H I Hs) as (p' & I' & _ & E). specialize (E c eq_refl).
    rewrite (c20_graph I'). subst p'. auto.
Qed.

Lemma c20_roundtrip h (s : solver) rs c s' rs' : run C W h (solver_init true) = Ok s rs ->
  sp_ignored h c = false ->
  run C W [OpIgnore c; OpRevive c] s = Ok s' rs' -> s_nfg s' = s_nfg s.
Proof.
  intros H Hc HR. destruct (hist_run _ _ _ H) as [p I].
  cbn [run] in HR. destruct (step C W (OpIgnore c) s) as [s1 r1| |] eqn:E1; cbn [obind] in HR; try discriminate.
  destruct (step C W (OpRevive c) s1) as [s2 r2| |] eqn:E2; cbn [obind] in HR; try discriminate.
  inversion HR; subst s2.
  destruct (step_hist _ H I E1) as (p1 & I1 & Ep1 & _). specialize (Ep1 c eq_refl).
  assert (H1 : run C W (h ++ [OpIgnore c]) (solver_init true) = Ok s1 (rs ++ [r1])).
  { eapply run_app_ok; eauto. cbn [run]. rewrite E1. reflexivity. }
  destruct (step_hist _ H1 I1 E2) as (p2 & I2 & _ & Ep2). specialize (Ep2 c eq_refl).
  rewrite (hi_nfg I2), (hi_nfg I). f_equal. subst p2 p1.
  assert (Hn : existsb (N.eqb c) (p_ignored p) = false).
  { apply not_true_iff_false. rewrite existsb_In, (hi_ign I), Hc. discriminate. }
  unfold pcm_revive, pcm_ignore. rewrite Hn. unfold set_ignored. cbn.
  rewrite filter_app. cbn [filter]. rewrite N.eqb_refl. cbn [negb]. rewrite app_nil_r.
  replace (filter (fun x => negb (x =? c)%N) (p_ignored p)) with (p_ignored p); [destruct p; auto|].
  symmetry. apply filter_all. intros x Hx. apply negb_true_iff, N.eqb_neq.
  intros ->. apply not_true_iff_false in Hn. apply Hn, existsb_In. auto.
Qed.

Lemma c20_list h (s : solver) rs : run C W h (solver_init true) = Ok s rs ->
  NoDup (get_ignored s) /\ forall c, In c (get_ignored s) <-> sp_ignored h c = true.
Proof.
  intro H. destruct (hist_run _ _ _ H) as [p I]. unfold get_ignored. rewrite (hi_pcm I).
  split; [apply (hi_igndup I)|apply (hi_ign I)].
Qed.

(** ** C28, C29: temporary factors and the calls of the optimiser *)

Lemma sp_temps_snoc (h : list op) o : sp_temps (h ++ [o]) =
  match o with
  | OpTempUpdate fs _ => sp_temps h ++ fs
  | OpTempReplace fs _ => fs
  | OpTempClear => []
  | _ => sp_temps h
  end.
Proof. unfold sp_temps. rewrite fold_left_app. cbn. destruct o; auto. Qed.

(** A request made after the calls [h1]. *)
Definition request_ok (h1 : list op) (r : request O) : Prop :=
  exists tail,
    let stable := map FBetween (sp_odoms sp h1) ++ sp_others h1 in
    (rq_known r <> None \/ c_fix C = false ->
      rq_graph r = map Some (stable ++ map FBetween tail) ++ sp_temps h1) /\
    (forall f, In f (stable ++ map FBetween tail) -> delivered h1 f) /\
    (forall l, rq_known r = Some l -> c_gnc C = true /\ l = seq 0 (length stable)).

Lemma trace_inv h (s : solver) rs : run C W h (solver_init true) = Ok s rs ->
  s_tnfg s = sp_temps h /\
  Forall (fun r => exists h1 h2, h = h1 ++ h2 /\ request_ok h1 r) (s_trace s).
Proof.
  apply (run_ind C W (fun h s => s_tnfg s = sp_temps h /\
     Forall (fun r => exists h1 h2, h = h1 ++ h2 /\ request_ok h1 r) (s_trace s))).
  { split; [reflexivity|constructor]. }
  clear h s rs. intros h s o s' r rs HR [HT HF] Hs.
  destruct (hist_run _ _ _ HR) as [p I].
  assert (X : exists p', hist_inv C W (h ++ [o]) s' p') by (eapply hist_step; eauto).
  destruct X as [p' I'].
  destruct (step_inv C W o s (hi_pcm I) Hs) as (s1 & p1 & b & [E0 E] & ET & (_ & _ & _ & _ & ETr) & _ & Ho).
  assert (HT1 : s_tnfg s1 = sp_temps (h ++ [o])).
  { rewrite sp_temps_snoc. destruct o; cbn in ET; destruct ET as [ET1 ET2]; congruence. }
  assert (HF' : Forall (fun r => exists h1 h2, h ++ [o] = h1 ++ h2 /\ request_ok h1 r) (s_trace s)).
  { eapply Forall_impl; [|exact HF]. intros x (h1 & h2 & -> & Hx). exists h1, (h2 ++ [o]). split; auto.
    rewrite <- app_assoc. auto. }
  destruct (optimises o b).
  - apply optimize_inv in Ho. destruct Ho as (q & a & full & Hz).
    split; [rewrite (oz_tnfg Hz); auto|]. rewrite (oz_trace Hz), ETr. apply Forall_app. split; auto.
    constructor; auto. exists (h ++ [o]), []. split; [rewrite app_nil_r; auto|].
    assert (Hp1 : p1 = p').
    { pose proof (hi_pcm I') as X. rewrite (oz_pcm Hz), E0 in X. congruence. }
    subst p1.
    exists (build_lcs (so_pcm W) p' ++ build_lms (so_pcm W) p').
    assert (HG : s_nfg s1 ++ s_tnfg s1 =
       map Some ((map FBetween (sp_odoms sp (h ++ [o])) ++ sp_others (h ++ [o])) ++
         map FBetween (build_lcs (so_pcm W) p' ++ build_lms (so_pcm W) p')) ++ sp_temps (h ++ [o])).
    { rewrite HT1, <- (oz_nfg Hz), (graph_split I'), app_assoc. auto. }
    assert (HD : forall f, In f ((map FBetween (sp_odoms sp (h ++ [o])) ++ sp_others (h ++ [o])) ++
         map FBetween (build_lcs (so_pcm W) p' ++ build_lms (so_pcm W) p')) -> delivered (h ++ [o]) f).
    { intros f Hf. eapply (c09 C W true).
      - eapply run_app_ok; [exact HR|]. cbn [run]. rewrite Hs. reflexivity.
      - rewrite (graph_split I'), app_assoc. apply in_map. exact Hf. }
    pose proof (oz_branch Hz) as HB. cbv zeta. destruct (gnc_branch C s1) as [pp|] eqn:EG.
    + destruct HB as (-> & _). split; [|split; [exact HD|]].
      * intros _. exact HG.
      * intros l Hl. cbn in Hl. inversion Hl; subst.
        unfold gnc_branch in EG. rewrite E0 in EG.
        destruct (c_gnc C); [|discriminate]. cbn [andb] in EG.
        destruct (negb (c_fix C && (p_total p' =? s_latest s1))); inversion EG; subst.
        split; auto. unfold num_odom_special.
        rewrite app_length, map_length, (hi_odom I'), (hi_special I'). auto.
    + destruct HB as (HB1 & _ & HB2 & _). split; [|split; [exact HD|]].
      * intros [X|X]; [congruence|]. rewrite (HB2 X). exact HG.
      * intros l Hl. congruence.
  - subst s'. split; auto. rewrite ETr. auto.
Qed.

Lemma c28_temporary h (s : solver) rs : run C W h (solver_init true) = Ok s rs ->
  s_tnfg s = sp_temps h /\
  (forall f, In (Some f) (s_nfg s) -> delivered h f) /\
  (forall k, In k (map fst (s_vals s)) <-> supplied h k) /\
  forall r, In r (s_trace s) -> c_fix C = false ->
    exists h1 h2 g, h = h1 ++ h2 /\ rq_graph r = g ++ sp_temps h1 /\ forall f, In (Some f) g -> delivered h1 f.
Proof.
  intro H. destruct (trace_inv _ H) as [T1 T2]. split; auto.
  split; [intros; eapply (c09 C W true); eauto|]. split; [eapply (c18 C W true); eauto|].
  intros r Hr Hf. rewrite Forall_forall in T2. destruct (T2 r Hr) as (h1 & h2 & E & tail & G1 & G2 & _).
  exists h1, h2. eexists. split; [exact E|]. split; [apply G1; auto|].
  intros f Hin. apply G2. apply in_map_iff in Hin. destruct Hin as (x & Hx & Hin). congruence.
Qed.

Lemma c29 h (s : solver) rs r l : run C W h (solver_init true) = Ok s rs -> In r (s_trace s) -> rq_known r = Some l ->
  exists h1 h2 lcs, h = h1 ++ h2 /\ c_gnc C = true /\
    rq_graph r = map Some (map FBetween (sp_odoms sp h1) ++ sp_others h1)
                 ++ map Some (map FBetween lcs) ++ sp_temps h1 /\
    forall i, In i l <-> i < length (sp_odoms sp h1) + length (sp_others h1).
Proof.
  intros H Hr Hl. destruct (trace_inv _ H) as [_ T]. rewrite Forall_forall in T.
  destruct (T r Hr) as (h1 & h2 & E & tail & G1 & _ & G3). exists h1, h2, tail. split; auto.
  destruct (G3 l Hl) as [G4 ->]. split; auto. split.
  - rewrite G1 by (left; congruence). rewrite map_app, <- app_assoc. auto.
  - intro i. rewrite in_seq, app_length, map_length. lia.
Qed.

(** ** C30 *)

Lemma c30_lengths (s s' : solver) : optimize C W s = Ok s' tt ->
  s_nfg s' = s_nfg s /\ s_tnfg s' = s_tnfg s /\
  length (s_w s') = length (s_nfg s') /\ length (s_tw s') = length (s_tnfg s').
Proof.
  intro H. apply optimize_inv in H. destruct H as (r & a & full & Hz).
  rewrite (oz_nfg Hz), (oz_tnfg Hz). split; auto. split; auto.
  pose proof (oz_branch Hz) as HB. destruct (gnc_branch C s).
  - destruct HB as (_ & _ & -> & -> & _). rewrite !map_length, !seq_length. auto.
  - destruct HB as (_ & _ & _ & _ & L1 & L2 & -> & -> & _). unfold ones.
    rewrite app_length, !repeat_length, skipn_length. split; auto. lia.
Qed.

Lemma qsum_app a b : (qsum (a ++ b) == qsum a + qsum b)%Q.
Proof. unfold qsum. induction a as [|x a IH]; cbn [app fold_right]; [ring|rewrite IH; ring]. Qed.

Lemma qsum_ones l : Forall (fun w => w == 1)%Q l -> (qsum l == inject_Z (Z.of_nat (length l)))%Q.
Proof.
  induction l as [|w l IH]; intro H; [reflexivity|]. inversion H; subst.
  cbn [qsum fold_right length]. fold (qsum l). rewrite IH, H2 by auto.
  rewrite Nat2Z.inj_succ, <- Z.add_1_l, inject_Z_plus. reflexivity.
Qed.

Lemma Qfloor_plus_Z (q : Q) z : Qfloor (inject_Z z + q) = (z + Qfloor q)%Z.
Proof.
  destruct q as [n d]. unfold Qfloor, inject_Z, Qplus. cbn [Qnum Qden].
  rewrite Z.mul_1_r. change (1 * d)%positive with d.
  rewrite Z.add_comm, Z.div_add by discriminate. lia.
Qed.

Lemma c30_inliers (s s' : solver) p : optimize C W s = Ok s' tt -> gnc_branch C s = Some p ->
  let k := num_odom_special p in
  k <= length (s_nfg s') -> Forall (fun w => w == 1)%Q (firstn k (s_w s')) ->
  (0 <= Qfloor (qsum (skipn k (s_w s'))) < size_t_mod)%Z ->
  c_gnc C = true /\ get_num_inliers C s' = Val (Qfloor (qsum (skipn k (s_w s')))).
Proof.
  intros H HG k Hk H1 HR. pose proof (c30_lengths _ H) as (_ & _ & L1 & _).
  apply optimize_inv in H. destruct H as (r & a & full & Hz).
  pose proof (oz_branch Hz) as HB. rewrite HG in HB. destruct HB as (_ & _ & _ & _ & HN).
  assert (Hc : c_gnc C = true).
  { unfold gnc_branch in HG. destruct (s_pcm s); [|discriminate]. destruct (c_gnc C); auto. discriminate. }
  split; auto. unfold get_num_inliers. rewrite Hc, HN. f_equal. unfold inlier_count. fold k.
  assert (E : (qsum (s_w s') == inject_Z (Z.of_nat k) + qsum (skipn k (s_w s')))%Q).
  { rewrite <- (firstn_skipn k (s_w s')) at 1. rewrite qsum_app, qsum_ones by auto.
    rewrite firstn_length. replace (Nat.min k (length (s_w s'))) with k by lia. reflexivity. }
  rewrite (Qfloor_comp _ _ E), Qfloor_plus_Z.
  replace (Z.of_nat k + Qfloor (qsum (skipn k (s_w s'))) - Z.of_nat k)%Z with (Qfloor (qsum (skipn k (s_w s')))) by lia.
  apply Z.mod_small. auto.
Qed.

(** ** C31 *)

(** With GNC and without fixed inliers no run ever leaves the weight vectors. *)
Lemma c31_gnc h (s : solver) rs u : run C W h (solver_init true) = Ok s rs ->
  c_gnc C = true -> c_fix C = false -> optimize C W s <> Undef u.
Proof.
  intros H HG HF. destruct (run_synced _ _ _ H) as (p & Hp & Hn). unfold optimize.
  destruct (vinsert_all (s_tvals s) (s_vals s)) as [full []| |] eqn:EV; try discriminate.
  2:{ exfalso. eapply vinsert_all_not_undef; eauto. }
  unfold gnc_branch. rewrite Hp, HG, HF. cbn [andb negb].
  assert (L : length (s_nfg s ++ s_tnfg s) <? num_odom_special p = false).
  { apply Nat.ltb_ge. rewrite Hn. unfold graph_of, build, num_odom_special.
    rewrite app_length, map_length, !app_length, !map_length. lia. }
  rewrite L, andb_false_r. unfold call_opt. destruct (so_opt W _ _); cbn [obind]; [|discriminate].
  unfold finish. destruct (update_values _ _) as [[v tv] []|[v tv] e|u'] eqn:E; try discriminate.
  exfalso. revert E. generalize (answer_values a full). cbn [s_vals s_tvals set_weights add_trace].
  intros l. generalize (s_vals s) (s_tvals s). clear. induction l as [|[k x] l IH]; intros v tv; cbn [update_values fst snd]; [discriminate|].
  destruct (kfind k v) as [x0|]; [destruct (same_type x0 x); [apply IH|discriminate]|].
  destruct (kfind k tv) as [x0|]; [destruct (same_type x0 x); [apply IH|discriminate]|]. apply IH.
Qed.

Lemma update_values_not_undef l u : forall v tv : values, update_values l (v, tv) <> Undef u.
Proof.
  induction l as [|[k x] l IH]; intros v tv; cbn [update_values fst snd]; [discriminate|].
  destruct (kfind k v) as [x0|]; [destruct (same_type x0 x); [apply IH|discriminate]|].
  destruct (kfind k tv) as [x0|]; [destruct (same_type x0 x); [apply IH|discriminate]|]. apply IH.
Qed.

(** Without outlier rejection nothing goes wrong unless inliers are to be fixed or a debug
    message is printed. *)
Lemma c31_plain h (s : solver) rs u : run C W h (solver_init false) = Ok s rs ->
  c_fix C = false -> c_debug C && negb (c_gn C) = false -> optimize C W s <> Undef u.
Proof.
  intros H HF HD. apply plain_run in H. unfold optimize.
  destruct (vinsert_all (s_tvals s) (s_vals s)) as [full []| |] eqn:EV; try discriminate.
  2:{ exfalso. eapply vinsert_all_not_undef; eauto. }
  unfold gnc_branch. rewrite (pi_pcm H), HF, (pi_latest H). cbn [obind].
  unfold call_opt. destruct (so_opt W _ _) as [a|]; cbn [obind]; [|discriminate].
  rewrite !Nat.ltb_irrefl || idtac. cbn [Nat.ltb Nat.leb]. 
  rewrite HD. unfold finish. cbn [s_pcm set_weights add_trace].
  destruct (update_values _ _) as [[v tv] []|[v tv] e|u'] eqn:E; try discriminate.
  exfalso. eapply update_values_not_undef; eauto.
Qed.

(** An optimisation completes when the optimiser does and the weight vectors fit. *)
Definition disjoint_temps (s : solver) : Prop :=
  ksorted (s_vals s) /\ NoDup (kkeys (s_tvals s)) /\ forall k, In k (kkeys (s_tvals s)) -> kmem k (s_vals s) = false.
Definition total_optimiser : Prop := forall tr r, so_opt W tr r <> None.

Definition weights_fit (s : solver) : Prop :=
  match gnc_branch C s with
  | Some p => c_bias C = true -> num_odom_special p <= length (s_nfg s ++ s_tnfg s)
  | None => c_fix C = false /\ s_latest s <= length (s_w s) /\ s_latest s <= length (s_nfg s) /\
            (s_pcm s = None -> c_debug C && negb (c_gn C) = false)
  end.

Lemma finish_ok (a : answer O) full (s : solver) : disjoint_temps s ->
  vinsert_all (s_tvals s) (s_vals s) = Ok full tt -> exists s', finish (answer_values a full) s = Ok s' tt.
Proof.
  intros (H1 & H2 & H3) HV. unfold finish. pose proof (vinsert_all_ok _ _ HV) as (V1 & V2 & V3 & V4).
  destruct (@update_values_answer O a full (s_vals s) (s_tvals s)) as (v' & tv' & E & _).
  - apply ksorted_NoDup. auto.
  - intros k x Hin. apply (kfind_sorted_In _ _ (V4 H1)) in Hin. rewrite V1 in Hin.
    destruct (kfind k (s_vals s)) as [x0|]; [inversion Hin; apply same_type_refl|].
    rewrite Hin. apply same_type_refl.
  - rewrite E. eauto.
Qed.

Lemma optimize_ok (s : solver) : disjoint_temps s -> total_optimiser -> weights_fit s ->
  exists s', optimize C W s = Ok s' tt.
Proof.
  intros HD HT HW. destruct HD as (H1 & H2 & H3).
  destruct (@vinsert_all_fresh O (s_tvals s) (s_vals s) H2 H3) as [full EV].
  unfold optimize. rewrite EV. unfold weights_fit in HW. unfold call_opt.
  destruct (gnc_branch C s) as [p|].
  - destruct (c_bias C && (length (s_nfg s ++ s_tnfg s) <? num_odom_special p)) eqn:EB.
    { apply andb_true_iff in EB. destruct EB as [EB1 EB2]. apply Nat.ltb_lt in EB2. specialize (HW EB1). lia. }
    match goal with |- context [so_opt W ?tr ?r] => destruct (so_opt W tr r) as [a|] eqn:EA end; [|elim (HT _ _ EA)].
    cbn [obind]. apply finish_ok; auto. split; auto.
  - destruct HW as (HF & L1 & L2 & HP). rewrite HF. cbn [obind].
    match goal with |- context [so_opt W ?tr ?r] => destruct (so_opt W tr r) as [a|] eqn:EA end; [|elim (HT _ _ EA)].
    cbn [obind].
    replace (length (s_w s) <? s_latest s) with false by (symmetry; apply Nat.ltb_ge; lia).
    replace (length (s_nfg s) <? s_latest s) with false by (symmetry; apply Nat.ltb_ge; lia).
    match goal with |- exists s', match _ with Some _ => ?x | None => _ end = _ =>
      assert (G : exists s', x = Ok s' tt) by (apply finish_ok; auto; split; auto) end.
    destruct (s_pcm s); [exact G|]. rewrite HP by auto. exact G.
Qed.

(** ** C35 *)

Lemma c35_graph h (s : solver) rs : run C W h (solver_init false) = Ok s rs ->
  (forall o, In o h -> only_adds o = true) -> s_nfg s = sp_all h.
Proof. intros H HA. apply plain_run in H. rewrite (pi_nfg H). apply sp_plain_all. auto. Qed.

Lemma c35_completes h (s : solver) rs fs vs opt : run C W h (solver_init false) = Ok s rs ->
  c_fix C = false -> c_log C = false -> c_debug C && negb (c_gn C) = false -> total_optimiser ->
  NoDup (map fst vs ++ map fst (s_tvals s)) ->
  (forall k, In k (map fst vs ++ map fst (s_tvals s)) -> ~ supplied h k) ->
  fs <> [None] ->
  (exists s', update C W fs vs opt s = Ok s' tt) /\ (exists s', force_update C W fs vs s = Ok s' tt).
Proof.
  intros HR HF HL HD HT HN HS Hfs. apply plain_run in HR. destruct HR as [I1 I2 I3 I4 I5].
  assert (FR : forall k, In k (map fst vs ++ map fst (s_tvals s)) -> kmem k (s_vals s) = false).
  { intros k Hk. apply not_true_iff_false. rewrite I3. auto. }
  assert (HN1 : NoDup (kkeys vs)).
  { unfold kkeys. clear - HN. induction (map fst vs) as [|x l IH]; [constructor|]. inversion HN; subst.
    constructor; auto. intro Hx. apply H1, in_or_app. auto. }
  assert (HN2 : NoDup (kkeys (s_tvals s))).
  { unfold kkeys. clear - HN. induction (map fst vs) as [|x l IH]; auto. inversion HN; subst. auto. }
  destruct (@vinsert_all_fresh O vs (s_vals s)) as [v EV]; auto.
  { intros k Hk. apply FR, in_or_app. auto. }
  assert (G : exists s1 b, add_and_check fs vs s = Ok s1 b).
  { unfold add_and_check. cbn [s_vals set_nfg set_pnv]. rewrite EV.
    destruct fs as [|[f|] [|f2 fs]]; eauto. congruence. }
  destruct G as (s1 & b & G). pose proof G as G'. apply add_and_check_inv in G'.
  destruct G' as (A1 & A2 & A3 & A4 & (A5 & A6 & A7 & A8 & A9) & A10 & _).
  assert (G2 : exists s2, optimize C W s1 = Ok s2 tt).
  { apply optimize_ok; auto.
    - apply vinsert_all_ok in A10. destruct A10 as (V1 & V2 & V3 & V4).
      split; [auto|]. rewrite A4. split; [auto|]. intros k Hk.
      unfold kmem. rewrite V1. assert (Hv : kmem k (s_vals s) = false) by (apply FR, in_or_app; auto).
      unfold kmem in Hv. destruct (kfind k (s_vals s)); [discriminate|].
      destruct (kfind k vs) eqn:Ek; auto. exfalso.
      assert (Hin : In k (map fst vs)) by (apply (kmem_In k vs); unfold kmem; rewrite Ek; auto).
      apply in_split in Hin. destruct Hin as (l1 & l2 & E). rewrite E in HN.
      rewrite <- app_assoc in HN. cbn [app] in HN. apply NoDup_remove_2 in HN. apply HN.
      apply in_or_app. right. apply in_or_app. auto.
    - unfold weights_fit, gnc_branch. rewrite A1, I1. repeat split; auto; rewrite ?A8, I5; lia. }
  destruct G2 as [s2 G2]. split.
  - unfold update, ingest. rewrite I1, G. cbn [obind].
    destruct (b && opt); [rewrite G2|]; cbn [obind]; unfold log_status; rewrite HL; destruct opt; eauto.
  - unfold force_update, ingest. rewrite I1, G. cbn [obind]. rewrite G2. cbn [obind].
    unfold log_status. rewrite HL. eauto.
Qed.

(** ** C32 *)

Definition kept (l : list (option factor)) (ws : list Q) : list (option factor) :=
  map fst (filter (fun fw => negb (Qle_bool (snd fw) (1 # 2))) (combine l ws)).

Lemma fixed_lcs_ok (s : solver) ws : forall k i, length (s_nfg s) = k + i + length ws ->
  fixed_lcs s k ws i = Ok s (kept (skipn (k + i) (s_nfg s)) ws).
Proof.
  induction ws as [|w ws IH]; intros k i L; cbn [fixed_lcs].
  - unfold kept. rewrite skipn_all2 by (cbn [length] in L; lia). reflexivity.
  - cbn [length] in L. rewrite IH by lia.
    assert (E : exists f, nth_error (s_nfg s) (k + i) = Some f /\ skipn (k + i) (s_nfg s) = f :: skipn (k + S i) (s_nfg s)).
    { replace (k + S i) with (S (k + i)) by lia. assert (L' : k + i < length (s_nfg s)) by lia.
      revert L'. clear. generalize (s_nfg s) (k + i). intros l n. revert n.
      induction l as [|x l IH]; intros [|n] L'; cbn in *; try lia; [eauto|]. apply IH. lia. }
    destruct E as (f & E1 & E2). rewrite E1, E2. unfold kept. cbn [combine filter snd].
    destruct (Qle_bool w (1 # 2)); cbn [negb obind app map fst]; auto.
Qed.

(** When every counted loop closure of the previous run is in the graph, the fixed graph keeps the
    non-loop part, exactly the loop closures with a weight above one half, and the temporaries. *)
Lemma c32_aligned (s : solver) p : s_pcm s = Some p ->
  length (s_nfg s) = num_odom_special p + s_latest s -> s_latest s <= length (s_w s) ->
  fixed_graph s = Ok s (firstn (num_odom_special p) (s_nfg s) ++
     kept (skipn (num_odom_special p) (s_nfg s)) (skipn (length (s_w s) - s_latest s) (s_w s)) ++ s_tnfg s).
Proof.
  intros Hp L1 L2. unfold fixed_graph. rewrite Hp.
  replace (length (s_nfg s) <? num_odom_special p) with false by (symmetry; apply Nat.ltb_ge; lia).
  replace (length (s_w s) <? s_latest s) with false by (symmetry; apply Nat.ltb_ge; lia).
  rewrite fixed_lcs_ok.
  - cbn [obind]. rewrite Nat.add_0_r. auto.
  - rewrite skipn_length. lia.
Qed.

Lemma c32_request (s s' : solver) p : s_pcm s = Some p -> c_fix C = true -> p_total p = s_latest s ->
  length (s_nfg s) = num_odom_special p + s_latest s -> optimize C W s = Ok s' tt ->
  exists r wl, s_trace s' = s_trace s ++ [r] /\ rq_known r = None /\
    wl = skipn (length (s_w s) - s_latest s) (s_w s) /\ length wl = s_latest s /\
    rq_graph r = firstn (num_odom_special p) (s_nfg s) ++
                 kept (skipn (num_odom_special p) (s_nfg s)) wl ++ s_tnfg s /\
    s_w s' = ones (num_odom_special p) ++ wl.
Proof.
  intros Hp HF HT HL H. apply optimize_inv in H. destruct H as (r & a & full & Hz).
  pose proof (oz_branch Hz) as HB. unfold gnc_branch in HB. rewrite Hp, HF, HT, Nat.eqb_refl in HB.
  cbn [andb negb] in HB. rewrite andb_false_r in HB.
  destruct HB as (B1 & _ & _ & B2 & L1 & L2 & B3 & _). destruct (B2 eq_refl) as [s0 B4].
  exists r, (skipn (length (s_w s) - s_latest s) (s_w s)). split; [apply (oz_trace Hz)|]. split; auto.
  split; auto. split; [rewrite skipn_length; lia|]. rewrite (c32_aligned _ Hp HL L1) in B4. injection B4 as _ B5.
  split; [symmetry; exact B5|]. rewrite B3.
  replace (length (s_nfg s) - s_latest s) with (num_odom_special p) by lia. reflexivity.
Qed.

(** ** C36 *)

Lemma c36 with_pcm h (s : solver) rs fs vs s' r f :
  run C W h (solver_init with_pcm) = Ok s rs -> step C W (OpForce fs vs) s = Ok s' r -> In (Some f) fs ->
  with_pcm = false \/ (forall b, f = FBetween b -> sp_odometry sp vs b = true) ->
  In (Some f) (s_nfg s').
Proof.
  intros H Hs Hin Hf.
  assert (H' : run C W (h ++ [OpForce fs vs]) (solver_init with_pcm) = Ok s' (rs ++ [r])).
  { eapply run_app_ok; [exact H|]. cbn [run]. rewrite Hs. reflexivity. }
  destruct with_pcm.
  - destruct Hf as [Hf|Hf]; [discriminate|]. destruct (c08 _ _ _ H') as [tail ->]. apply in_map.
    destruct f as [b|k x|k t|ks t].
    + apply in_or_app. left. apply in_map. rewrite sp_odoms_snoc. apply in_or_app. right. cbn [call_of].
      apply filter_In. split; auto. apply In_betweens. auto.
    + apply in_or_app. right. apply in_or_app. left. rewrite sp_others_snoc. cbn [sp_others_step].
      apply in_or_app. right. apply in_flat_map. exists (Some (FPrior k x)). split; auto. left; auto.
    + apply in_or_app. right. apply in_or_app. left. rewrite sp_others_snoc. cbn [sp_others_step].
      apply in_or_app. right. apply in_flat_map. exists (Some (FPriorOther k t)). split; auto. left; auto.
    + apply in_or_app. right. apply in_or_app. left. rewrite sp_others_snoc. cbn [sp_others_step].
      apply in_or_app. right. apply in_flat_map. exists (Some (FOther ks t)). split; auto. left; auto.
  - apply plain_run in H'. rewrite (pi_nfg H'). unfold sp_plain. rewrite fold_left_app. cbn [fold_left].
    apply in_or_app. auto.
Qed.

(** ** C40 *)

Lemma c40 fs vs opt (s s' : solver) p : s_pcm s = Some p -> c_align C = false ->
  (forall of, In of fs -> exists b, of = Some (FBetween b) /\ sp_odometry sp vs b = true) ->
  update C W fs vs opt s = Ok s' tt ->
  s_trace s' = s_trace s /\ forall k v, kfind k (s_vals s) = Some v -> kfind k (s_vals s') = Some v.
Proof.
  intros Hp HA HO H. apply (c17 _ _ _ _ Hp) in H. destruct H as [_ H].
  assert (E : sp_triggers sp vs fs = false).
  { unfold sp_triggers. apply not_true_iff_false. intro E. apply existsb_exists in E.
    destruct E as (of & Hin & E). destruct (HO _ Hin) as (b & -> & Hb).
    unfold sp_candidate in E. rewrite Hb in E. discriminate. }
  rewrite E in H. destruct (H eq_refl) as [H1 H2]. auto.
Qed.

End U.
