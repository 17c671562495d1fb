(** * Histories: what the graph, the variables and the stored loop closures are *)
From Coq Require Import Permutation QArith.
From Verif Require Import Prelude Keys KMap UMap Geometry Factors Clique Pcm Solver ValuesProofs
  PcmSpec PcmProofs PcmInv PcmStore HistSpec SolverProofs.
Set Implicit Arguments.
Local Open Scope nat_scope.

Section Hist.
Variable O : tops.
Variable C : config.
Variable W : soracles O.
Notation bf := (bf O).
Notation factor := (factor O).
Notation values := (values O).
Notation graph_t := (graph_t O).
Notation pcm := (pcm O).
Notation solver := (solver O).
Notation op := (op O).
Notation sp := (c_special C).
Notation start := (solver_init (O := O) true).

Lemma sp_odoms_snoc (h : list op) (o : op) : sp_odoms sp (h ++ [o]) = sp_odoms sp h ++
  match call_of o with Some (fs, vs) => filter (sp_odometry sp vs) (betweens fs) | None => [] end.
Proof. unfold sp_odoms. rewrite flat_map_app. cbn [flat_map]. rewrite app_nil_r. auto. Qed.
Lemma sp_others_snoc (h : list op) o : sp_others (h ++ [o]) = sp_others_step (sp_others h) o.
Proof. unfold sp_others. rewrite fold_left_app. auto. Qed.
Lemma sp_ignored_snoc (h : list op) o c : sp_ignored (h ++ [o]) c =
  match o with
  | OpIgnore c' => if (c' =? c)%N then true else sp_ignored h c
  | OpRevive c' => if (c' =? c)%N then false else sp_ignored h c
  | _ => sp_ignored h c
  end.
Proof. unfold sp_ignored. rewrite fold_left_app. cbn. destruct o; auto. Qed.

Lemma supplied_snoc (h : list op) o k : supplied (h ++ [o]) k <->
  supplied h k \/ exists fs vs, call_of o = Some (fs, vs) /\ In k (map fst vs).
Proof.
  unfold supplied. split.
  - intros (o' & fs & vs & Hin & H). apply in_app_or in Hin. destruct Hin as [Hin|[<-|[]]]; [left|right]; eauto 6.
  - intros [(o' & fs & vs & Hin & H)|(fs & vs & H)].
    + exists o', fs, vs. split; auto. apply in_or_app; auto.
    + exists o, fs, vs. split; auto. apply in_or_app. right; left; auto.
Qed.

Lemma delivered_snoc (h : list op) (o : op) f : delivered h f -> delivered (h ++ [o]) f.
Proof. intros (o' & fs & vs & Hin & H). exists o', fs, vs. split; auto. apply in_or_app; auto. Qed.

(** The circumstances under which a pose-pose loop closure was stored: it was handed over by some
    call as a candidate, at a time when both keys had values, and it passed the odometry test
    with the reference poses known after that call. *)
Definition entered (h : list op) (b : bf) : Prop :=
  exists h1 o h2 fs vs s1 p1 rs,
    h = h1 ++ o :: h2 /\ call_of o = Some (fs, vs) /\ In (Some (FBetween b)) fs /\
    sp_candidate sp vs b = true /\
    run C W (h1 ++ [o]) start = Ok s1 rs /\ s_pcm s1 = Some p1 /\
    supplied (h1 ++ [o]) (b_from b) /\ supplied (h1 ++ [o]) (b_to b) /\
    (chr (b_from b) = chr (b_to b) -> c_odom_check C = true -> sp_odom_test (tref p1) b = Some true).

Lemma entered_snoc h o b : entered h b -> entered (h ++ [o]) b.
Proof.
  intros (h1 & o1 & h2 & fs & vs & s1 & p1 & rs & -> & H). exists h1, o1, (h2 ++ [o]), fs, vs, s1, p1, rs.
  split; auto. rewrite <- app_assoc. reflexivity.
Qed.

Record hist_inv (h : list op) (s : solver) (p : pcm) : Prop := {
  hi_pcm : s_pcm s = Some p;
  hi_nfg : s_nfg s = graph_of (so_pcm W) p;
  hi_odom : p_odom p = sp_odoms sp h;
  hi_special : p_special p = sp_others h;
  hi_ign : forall c, In c (p_ignored p) <-> sp_ignored h c = true;
  hi_igndup : NoDup (p_ignored p);
  hi_keys : forall k, kmem k (s_vals s) = true <-> supplied h k;
  hi_sorted : ksorted (s_vals s);
  hi_stored : stored_ok C (entered h) (fun b => delivered h (FBetween b)) p }.

Lemma align_rest_ok w (p : pcm) r0 rs : forall vs vs' u, align_rest w p r0 rs vs = Ok vs' u ->
  (forall k, kmem k vs' = kmem k vs) /\ (ksorted vs -> ksorted vs').
Proof.
  induction rs as [|r rs IH]; intros vs vs' u H; cbn [align_rest] in H.
  - inversion H; subst. auto.
  - destruct (align_one w p r0 r vs) as [vs1 []| |] eqn:E; cbn [obind] in H; try discriminate.
    apply IH in H. destruct H as [H1 H2].
    assert (G : (forall k, kmem k vs1 = kmem k vs) /\ (ksorted vs -> ksorted vs1)).
    { unfold align_one in E. destruct (lc_find (r0, r) (p_lcs p)) as [m|]; [|inversion E; subst; auto].
      destruct (frame_all p r0 r (me_cons m)) as [ts|]; [|inversion E; subst; auto].
      destruct (w_avg w ts) as [tf|]; [|discriminate].
      destruct (robot_odom_values p r tf) as [rv|]; [|inversion E; subst; auto].
      apply vupdate_all_ok in E. tauto. }
    destruct G as [G1 G2]. split; auto. intro k. rewrite H1. auto.
Qed.

Lemma align_ok w (p : pcm) vs vs' u : align w p vs = Ok vs' u ->
  (forall k, kmem k vs' = kmem k vs) /\ (ksorted vs -> ksorted vs').
Proof.
  unfold align. destruct (p_robots p) as [|r0 rs]; [intro H; inversion H; subst; auto|].
  destruct (robot_odom_values p r0 (t_pid O)) as [rv|]; [|discriminate].
  destruct (vupdate_all rv vs) as [vs1 []| |] eqn:E; cbn [obind]; try discriminate.
  intro H. apply align_rest_ok in H. destruct H as [H1 H2]. apply vupdate_all_ok in E.
  destruct E as (E1 & _ & E2 & _). split; auto. intro k. rewrite H1. auto.
Qed.

(** Everything a call of [removeOutliers] does, in one statement. *)
Lemma remove_outliers_ok fs nv (p p' : pcm) nfg nfg' v v' b :
  remove_outliers C (so_pcm W) fs nv (PSt p nfg v) = Ok (PSt p' nfg' v') b ->
  p_odom p' = p_odom p ++ filter (sp_odometry sp nv) (betweens fs) /\
  p_special p' = p_special p ++ others fs /\ p_ignored p' = p_ignored p /\
  (forall k, kmem k v' = kmem k v || kmem k nv) /\ (ksorted v -> ksorted v') /\
  (forall Q Ql : bf -> Prop,
    (forall x, In (Some (FBetween x)) fs -> sp_candidate sp nv x = true ->
       admissible C v' (tref p') x -> Q x) ->
    (forall x, In (Some (FBetween x)) fs -> is_landmark_factor C x = true -> Ql x) ->
    stored_ok C Q Ql p -> stored_ok C Q Ql p').
Proof.
  intro H. apply remove_outliers_inv in H. cbn [ps_pcm ps_nfg ps_vals] in H.
  destruct H as (vs & u & p1 & HV & HR & _ & _ & H3 & H4).
  apply ro_pcm_ok in HR. destruct HR as (R1 & R2 & R3 & R4).
  pose proof (vinsert_all_ok nv v HV) as (_ & _ & _ & Hs).
  assert (HK : forall k, kmem k vs = kmem k v || kmem k nv) by (intro; eapply vinsert_all_mem; eauto).
  assert (E : (p_odom p' = p_odom p1 /\ p_special p' = p_special p1 /\ p_ignored p' = p_ignored p1 /\
              p_lcs p' = p_lcs p1 /\ p_lms p' = p_lms p1 /\ p_trajs p' = p_trajs p1) /\
              (forall k, kmem k v' = kmem k vs) /\ (ksorted vs -> ksorted v')).
  { destruct (c_align C).
    - destruct (H4 eq_refl) as [[-> ->]|(_ & _ & -> & H5)]; [repeat split; auto|].
      apply align_ok in H5. destruct H5. repeat split; auto.
    - specialize (H3 eq_refl). inversion H3; subst. repeat split; auto. }
  destruct E as ((E1 & E2 & E3 & E4 & E5 & E6) & K1 & K2).
  split; [congruence|]. split; [congruence|]. split; [congruence|].
  split; [intro k; rewrite K1; auto|]. split; [auto|].
  intros Q Ql HQ HQl S. eapply stored_ok_frame; [exact E4|exact E5|].
  apply (R4 Q Ql); auto. intros x Hx Hc (A1 & A2 & A3 & A4). apply HQ; auto.
  repeat split; auto; try (rewrite K1; auto).
  intros X Y. rewrite <- (A4 X Y). apply sp_odom_test_ext. intros. apply tref_trajs. auto.
Qed.

Lemma candidate_neq nv (b : bf) : sp_candidate sp nv b = true -> b_from b <> b_to b.
Proof.
  unfold sp_candidate. rewrite !andb_true_iff. intros [_ H]. apply negb_true_iff, N.eqb_neq in H. auto.
Qed.

Lemma hist_inv_init : hist_inv [] start pcm_init.
Proof.
  split; try reflexivity.
  - intro c. cbn. split; [intros []|discriminate].
  - constructor.
  - intro k. cbn. split; [discriminate|]. intros (o & fs & vs & [] & _).
  - constructor.
  - apply stored_ok_init.
Qed.

Lemma ignored_update (l : list N) (c x : N) :
  In x (if existsb (N.eqb c) l then l else l ++ [c]) <-> x = c \/ In x l.
Proof.
  destruct (existsb (N.eqb c) l) eqn:E.
  - apply existsb_exists in E. destruct E as (y & Hy & E). apply N.eqb_eq in E. subst y.
    split; auto. intros [->|]; auto.
  - rewrite in_app_iff. cbn [In]. split; intros [H|H]; auto. destruct H as [H|[]]; auto.
Qed.

Lemma hist_step h s o s' r rs p : run C W h start = Ok s rs -> hist_inv h s p -> step C W o s = Ok s' r ->
  exists p', hist_inv (h ++ [o]) s' p'.
Proof.
  intros Hrun I Hs. pose proof (step_inv C W o s (hi_pcm I) Hs) as (s1 & p' & b & E & _ & _ & _ & Ho).
  pose proof (call_synced E (hi_nfg I)) as Hn1.
  assert (HG : same_graphs s1 s').
  { destruct (optimises o b); [apply (optimize_same C W s1 Ho)|subst; apply same_graphs_refl]. }
  destruct HG as (G1 & G2 & _ & G3 & _ & G4 & _).
  assert (Hrun' : run C W (h ++ [o]) start = Ok s' (rs ++ [r])).
  { eapply run_app_ok; eauto. cbn [run]. rewrite Hs. reflexivity. }
  destruct E as [Hp' E]. destruct I as [I1 I2 I3 I4 I5 I6 I7 I8 I9].
  assert (MQ : stored_ok C (entered (h ++ [o])) (fun x => delivered (h ++ [o]) (FBetween x)) p).
  { eapply stored_ok_imp; [| |exact I9]; intros; [apply entered_snoc|apply delivered_snoc]; auto. }
  exists p'.
  assert (Hp2 : s_pcm s' = Some p') by congruence.
  assert (KEY : call_of o = None -> s_vals s1 = s_vals s ->
            (forall k, kmem k (s_vals s') = true <-> supplied (h ++ [o]) k) /\ ksorted (s_vals s')).
  { intros Hc Hv. split.
    - intro k. rewrite G3, Hv, I7, supplied_snoc, Hc. split; auto.
      intros [?|(fs & vs & HH & _)]; auto. discriminate.
    - apply G4. rewrite Hv. auto. }
  assert (CALL : forall fs vs b, (o = OpForce fs vs \/ exists opt, o = OpUpdate fs vs opt) ->
      remove_outliers C (so_pcm W) fs vs (PSt p (s_nfg s) (s_vals s)) = Ok (PSt p' (s_nfg s1) (s_vals s1)) b ->
      hist_inv (h ++ [o]) s' p').
  { intros fs vs b' Ho' HR. pose proof HR as HR'; apply remove_outliers_ok in HR'; destruct HR' as (R1 & R2 & R3 & R4 & R5 & R6).
    assert (Hc : call_of o = Some (fs, vs)) by (destruct Ho' as [->|[opt ->]]; reflexivity).
    assert (HK : forall k, kmem k (s_vals s') = true <-> supplied (h ++ [o]) k).
    { intro k. rewrite G3, R4, orb_true_iff, I7, supplied_snoc, Hc, kmem_In. split; intros [H|H]; auto.
      - right. exists fs, vs. auto.
      - destruct H as (? & ? & HH & ?). inversion HH; subst. auto. }
    split; auto.
    - congruence.
    - rewrite R1, I3, sp_odoms_snoc, Hc. auto.
    - rewrite R2, I4, sp_others_snoc. destruct Ho' as [->|[opt ->]]; reflexivity.
    - intro c. rewrite R3, I5, sp_ignored_snoc. destruct Ho' as [->|[opt ->]]; reflexivity.
    - rewrite R3. auto.
    - apply R6; auto.
      + intros x Hx Hc' (A1 & A2 & A3 & A4).
        exists h, o, [], fs, vs, s', p', (rs ++ [r]). split; auto. split; auto. split; auto. split; auto.
        split; [exact Hrun'|]. split; [exact Hp2|]. split; [apply HK; rewrite G3; auto|].
        split; [apply HK; rewrite G3; auto|]. exact A4.
      + intros x Hx _. exists o, fs, vs. split; [apply in_or_app; right; left; auto|]. split; auto. }
  assert (REM : forall lcs od e, p' = set_lcs (set_order p od) lcs -> (e = None -> lcs = p_lcs p) ->
      (forall x, e = Some x -> exists id m m' b, lc_find id (p_lcs p) = Some m /\ lcs = lc_set id m' (p_lcs p) /\
         me_factors m = me_factors m' ++ [b] /\ x = edge_of b /\ incl (me_cons m') (me_factors m')) ->
      stored_ok C (entered (h ++ [o])) (fun x => delivered (h ++ [o]) (FBetween x)) p').
  { intros lcs od e -> H1 H2. destruct e as [x|].
    - destruct (H2 x eq_refl) as (id & m & m' & b' & F1 & -> & F2 & _ & F3).
      eapply stored_ok_frame; [| |eapply (@remove_stored_ok _ C id m m' b' p); eauto]; reflexivity.
    - rewrite H1 by auto. eapply stored_ok_frame; [| |exact MQ]; reflexivity. }
  destruct o as [fs vs opt|fs vs|c opt|a0 b0| |c|c|fs vs|fs vs|]; cbn in E.
  - destruct E as [b' E]. eapply CALL; eauto.
  - destruct E as [b' E]. eapply CALL; eauto.
  - destruct E as (-> & EN & EV). destruct (KEY eq_refl EV) as [K1 K2].
    split; auto; try (rewrite sp_odoms_snoc; cbn; rewrite ?app_nil_r; auto; fail).
    + congruence.
    + rewrite sp_others_snoc. cbn. rewrite I4. apply filter_ext. intros [x|k x|k t|ks t]; reflexivity.
    + intro x. rewrite sp_ignored_snoc. apply I5.
    + eapply stored_ok_frame; [| |exact MQ]; reflexivity.
  - destruct E as (e & _ & HR & EN & EV). destruct (KEY eq_refl EV) as [K1 K2].
    apply pcm_remove_last_id_frame in HR. destruct HR as (lcs & -> & F1 & F2).
    split; auto; cbn [p_odom p_special p_ignored set_lcs].
    + congruence.
    + rewrite sp_odoms_snoc; cbn; rewrite ?app_nil_r; auto.
    + rewrite sp_others_snoc. auto.
    + intro x. rewrite sp_ignored_snoc. apply I5.
    + apply (REM lcs (p_order p) e); auto.
      intros x Hx. destruct (F2 x Hx) as (m & m' & b' & HH). exists (a0, b0), m, m', b'. auto.
  - destruct E as (e & _ & HR & EN & EV). destruct (KEY eq_refl EV) as [K1 K2].
    apply pcm_remove_last_frame in HR. destruct HR as [(Hod & -> & ->)|(od & id & Hod & HR)].
    + split; auto.
      * congruence.
      * rewrite sp_odoms_snoc; cbn; rewrite ?app_nil_r; auto.
      * rewrite sp_others_snoc. auto.
      * intro x. rewrite sp_ignored_snoc. apply I5.
    + apply pcm_remove_last_id_frame in HR. destruct HR as (lcs & -> & F1 & F2).
      split; auto; cbn [p_odom p_special p_ignored set_lcs set_order].
      * congruence.
      * rewrite sp_odoms_snoc; cbn; rewrite ?app_nil_r; auto.
      * rewrite sp_others_snoc. auto.
      * intro x. rewrite sp_ignored_snoc. apply I5.
      * apply (REM lcs od e); auto.
        intros x Hx. destruct (F2 x Hx) as (m & m' & b' & HH). exists id, m, m', b'. auto.
  - destruct E as (-> & EN & EV). destruct (KEY eq_refl EV) as [K1 K2].
    assert (FR : p_odom (pcm_ignore c p) = p_odom p /\ p_special (pcm_ignore c p) = p_special p /\
      p_lcs (pcm_ignore c p) = p_lcs p /\ p_lms (pcm_ignore c p) = p_lms p).
    { unfold pcm_ignore. destruct (existsb (N.eqb c) (p_ignored p)); cbn; auto. }
    destruct FR as (FR1 & FR2 & FR3 & FR4).
    assert (FI : p_ignored (pcm_ignore c p) = if existsb (N.eqb c) (p_ignored p) then p_ignored p else p_ignored p ++ [c]).
    { unfold pcm_ignore. destruct (existsb (N.eqb c) (p_ignored p)); cbn; auto. }
    split; auto.
    + congruence.
    + rewrite sp_odoms_snoc; cbn; rewrite ?app_nil_r; congruence.
    + rewrite sp_others_snoc. cbn. congruence.
    + intro x. rewrite FI, ignored_update, sp_ignored_snoc, I5.
      destruct (N.eqb_spec c x) as [->|Hne]; [split; auto|]. split; auto. intros [->|]; congruence.
    + rewrite FI. destruct (existsb (N.eqb c) (p_ignored p)) eqn:EX; auto.
      apply (Permutation_NoDup (Permutation_cons_append (p_ignored p) c)). constructor; auto.
      intro Hin. apply not_true_iff_false in EX. apply EX. apply existsb_exists. exists c. split; auto. apply N.eqb_refl.
    + eapply stored_ok_frame; [| |exact MQ]; auto.
  - destruct E as (-> & EN & EV). destruct (KEY eq_refl EV) as [K1 K2]. unfold pcm_revive in *.
    split; auto; cbn [p_odom p_special p_ignored set_ignored].
    + congruence.
    + rewrite sp_odoms_snoc; cbn; rewrite ?app_nil_r; auto.
    + rewrite sp_others_snoc. auto.
    + intro x. rewrite filter_In, sp_ignored_snoc, I5, negb_true_iff, N.eqb_neq.
      destruct (N.eqb_spec c x) as [->|Hne]; [split; [intros [_ H]; congruence|discriminate]|].
      split; [tauto|]. intro; split; auto.
    + apply NoDup_filter. auto.
    + eapply stored_ok_frame; [| |exact MQ]; reflexivity.
  - destruct E as (-> & EN & EV). destruct (KEY eq_refl EV) as [K1 K2].
    split; auto.
    + congruence.
    + rewrite sp_odoms_snoc; cbn; rewrite ?app_nil_r; auto.
    + rewrite sp_others_snoc. auto.
    + intro x. rewrite sp_ignored_snoc. apply I5.
  - destruct E as (-> & EN & EV). destruct (KEY eq_refl EV) as [K1 K2].
    split; auto.
    + congruence.
    + rewrite sp_odoms_snoc; cbn; rewrite ?app_nil_r; auto.
    + rewrite sp_others_snoc. auto.
    + intro x. rewrite sp_ignored_snoc. apply I5.
  - destruct E as (-> & EN & EV). destruct (KEY eq_refl EV) as [K1 K2].
    split; auto.
    + congruence.
    + rewrite sp_odoms_snoc; cbn; rewrite ?app_nil_r; auto.
    + rewrite sp_others_snoc. auto.
    + intro x. rewrite sp_ignored_snoc. apply I5.
Qed.

Lemma hist_run h s rs : run C W h start = Ok s rs -> exists p, hist_inv h s p.
Proof.
  apply (run_ind C W (fun h s => exists p, hist_inv h s p)).
  - exists pcm_init. apply hist_inv_init.
  - intros h' s' o s'' r rs' HR [p I] HS. eapply hist_step; eauto.
Qed.

End Hist.
