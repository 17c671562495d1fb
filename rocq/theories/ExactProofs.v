(** * Exactly which closures and sightings are accepted: proofs *)
From Coq Require Import Lia.
From Verif Require Import Prelude Keys KMap UMap Geometry Factors Clique CliqueSpec CliqueRead Pcm Solver ValuesProofs PcmSpec PcmProofs PcmInv PcmStore HistSpec StoreSpec
  SolverProofs HistProofs GraphProofs StoreProofs AcceptProofs LiveProofs StoreThms ItemProofs SafeProofs RemoveSpec RemoveExact RecordProofs IncSpec IncProofs
  ApartSpec ApartProofs ApartMore HeuSpec CliqueExact CliqueHeu HeuProofs ExactSpec.
Set Implicit Arguments.
Local Open Scope nat_scope.

(** ** The search looks at agreement only *)
Section Ext.
Variables (n : nat) (f f' : nat -> nat -> bool).
Hypothesis E : forall i j, f i j = f' i j.
Lemma around_ext c : around n f c = around n f' c.
Proof. apply filter_ext. auto. Qed.
Lemma enough_ext b x : enough n f b x = enough n f' b x.
Proof. unfold enough. rewrite around_ext. auto. Qed.
Lemma grow_ext b : forall fuel P S0, grow n f fuel b P S0 = grow n f' fuel b P S0.
Proof.
  induction fuel as [|fuel IH]; intros P S0; cbn [grow]; auto. destruct P as [|x P]; auto.
  rewrite (filter_ext _ (fun y => f' (last (x :: P) 0) y && enough n f' b y)) by (intro y; rewrite E, enough_ext; auto). rewrite IH. auto.
Qed.
Lemma attempt_ext b c : attempt n f b c = attempt n f' b c.
Proof. unfold attempt. rewrite around_ext, (filter_ext _ (enough n f' b)) by (intro; apply enough_ext). rewrite grow_ext. auto. Qed.
Lemma search_ext : forall cs b l, search n f cs b l = search n f' cs b l.
Proof. induction cs as [|c cs IH]; intros b l; cbn [search]; auto. rewrite enough_ext, attempt_ext, !IH. auto. Qed.
End Ext.

Section X.
Variable O : tops.
Variable C : config.
Variable W : soracles O.
Notation bf := (bf O).
Notation op := (op O).
Notation pcm := (pcm O).
Notation meas := (meas O).
Notation solver := (solver O).
Notation start := (@solver_init O true).
Notation lc_get := (uget oid_eqb (@meas_default O)).
Notation item := (bf * (N -> key -> t_T O))%type.
Notation live := (@live_items O C W).

Lemma faithful_agreeb (test : item -> item -> option bool) L m : faithful test L m -> forall i j, adjb m i j = agreeb test L i j.
Proof.
  intros HF i j. apply eq_true_iff_eq. rewrite adjb_edge, (faithful_edge i j HF). unfold agree, agreeb, passes. split.
  - intros (x & y & -> & -> & [[H T]|[H T]]).
    + destruct (Nat.ltb_spec i j); [|lia]. rewrite T. auto.
    + destruct (Nat.ltb_spec i j); [lia|]. destruct (Nat.ltb_spec j i); [|lia]. rewrite T. auto.
  - destruct (nth_error L i) as [x|]; [|discriminate]. destruct (nth_error L j) as [y|]; [|discriminate]. intro H. exists x, y. split; auto. split; auto.
    destruct (Nat.ltb_spec i j); [left; split; auto; destruct (test x y); congruence|]. destruct (Nat.ltb_spec j i); [|discriminate].
    right. split; auto. destruct (test y x); congruence.
Qed.
Lemma places_eq (L : list item) extra idx cs : (forall i, In i idx -> i < length L) ->
  Forall2 (fun i b => nth_error (map fst L ++ extra) i = Some b) idx cs -> cs = at_places L idx.
Proof.
  intros HB HF. induction HF as [|i b idx cs Hb HF IH]; auto. cbn [at_places flat_map]. fold (at_places L idx).
  assert (Hi : i < length L) by (apply HB; left; auto). rewrite nth_error_app1 in Hb by (rewrite map_length; auto). rewrite nth_error_map in Hb.
  destruct (nth_error L i) as [x|]; [|discriminate]. cbn in Hb. injection Hb as <-. cbn [app]. f_equal. apply IH. intros; apply HB; right; auto.
Qed.

(** A record that says what its tests say: the selection from it. *)
Lemma heu_selection test (L : list item) extra (m : meas) : faithful test L (me_adj m) -> L <> [] -> me_factors m = map fst L ++ extra ->
  heu_inliers m = Val m -> me_cons m = selection test L.
Proof.
  intros HF NE EF H. apply heu_inliers_inv in H. destruct H as (k & data & cs & V1 & V2 & V3). pose proof HF as (F1 & _).
  assert (Hr : 0 < m_rows (me_adj m)) by (rewrite F1; destruct L; [congruence|cbn; lia]).
  destruct (heu_exact (me_adj m) Hr) as (data' & X1 & X2 & X3). rewrite V1 in X1. injection X1 as -> ->.
  apply select_inv in V2. destruct V2 as (_ & _ & V2). rewrite Nat2Z.id, X2, EF in V2. rewrite V3. cbn [me_cons]. unfold selection.
  assert (EG : greedy (length L) (agreeb test L) = greedy (m_rows (me_adj m)) (adjb (me_adj m))).
  { rewrite F1. unfold greedy. symmetry. apply search_ext. apply faithful_agreeb; auto. }
  rewrite EG. eapply places_eq; eauto. intros i Hi. rewrite <- F1.
  destruct (@find_heu_star _ _ _ Hr V1) as (_ & c & l & E & Hc & Hs). rewrite Nat2Z.id, X2 in E. rewrite E in Hi. destruct Hi as [<-|Hi]; auto. apply Hs in Hi. apply Hi.
Qed.

Lemma inc_selection test (L : list item) new (m : meas) cs : faithful test L (me_adj m) -> new <= length L -> (Z.of_nat (length L) < size_t_mod)%Z ->
  me_factors m = map fst L -> inc_inliers new (Meas (me_factors m) cs (me_adj m)) = Val m -> me_cons m = selection_new test L new cs.
Proof.
  intros HF HN HZ EF H. pose proof HF as (F1 & _). unfold inc_inliers in H. cbn [me_adj me_cons me_factors] in H.
  destruct (@inc_exact (me_adj m) new (length cs)) as (data & X1 & X2 & X3); [rewrite F1; auto|rewrite F1; auto|].
  assert (EG : greedy_new (length L) (agreeb test L) new (length cs) = greedy_new (m_rows (me_adj m)) (adjb (me_adj m)) new (length cs)).
  { rewrite F1. unfold greedy_new. symmetry. apply search_ext. apply faithful_agreeb; auto. }
  unfold selection_new. rewrite EG. rewrite X1 in H. cbn [rbind] in H.
  destruct (@find_inc_ok (me_adj m) new (length cs)) as [(d & Y)|(picks & d & c & Y & Y1 & _ & _ & _ & (_ & c' & l & Y2 & Y3 & Y4) & _)]; [rewrite F1; auto|rewrite F1; auto| |].
  - rewrite Y in X1. injection X1 as X1 _. destruct (greedy_new _ _ new (length cs)) as [|i idx]; [|discriminate X1].
    cbn in H. injection H as H. apply (f_equal (@me_cons O)) in H. cbn [me_cons] in H. auto.
  - rewrite Y in X1. injection X1 as X0 ->. apply Nat2Z.inj in X0. rewrite X0 in Y2. rewrite X2 in Y2.
    destruct (greedy_new _ _ new (length cs)) as [|i idx] eqn:EGn; [discriminate Y2|].
    destruct (Z.of_nat (length (i :: idx)) =? 0)%Z eqn:E0; [apply Z.eqb_eq in E0; cbn in E0; lia|].
    destruct (select _ _ _) as [cs2|] eqn:ES; cbn [rbind] in H; [|discriminate]. injection H as H. apply (f_equal (@me_cons O)) in H. cbn [me_cons] in H. rewrite <- H.
    apply select_inv in ES. destruct ES as (_ & _ & ES). rewrite Nat2Z.id, X2, EF, <- (app_nil_r (map fst L)) in ES. eapply places_eq; eauto.
    intros x Hx. rewrite Y2 in Hx. rewrite <- F1. destruct Hx as [<-|Hx]; auto. apply Y4 in Hx. apply Hx.
Qed.

Lemma accepted_snoc id h o : accepted C W id (h ++ [o]) = accept_step C W id h o (accepted C W id h).
Proof.
  unfold accepted. assert (G : forall todo done was, accepted_from C W id done (todo ++ [o]) was = accept_step C W id (done ++ todo) o (accepted_from C W id done todo was)).
  { induction todo as [|x todo IH]; intros done was; cbn [app accepted_from]; [rewrite app_nil_r; auto|]. rewrite IH, <- app_assoc. auto. }
  apply (G h [] []).
Qed.

(** Not incremental: selecting again changes nothing if nothing was stored. *)
Lemma again_same h o (s s' : solver) rs rs' p p' id : run C W h start = Ok s rs -> run C W (h ++ [o]) start = Ok s' rs' -> s_pcm s = Some p -> s_pcm s' = Some p' ->
  records_sound C W (h ++ [o]) -> c_loop_check C = true -> c_incremental C = false -> takes_back C W id h o = false ->
  filter (fun x => of_pair id (fst x)) (newly C W h o) = [] -> me_cons (lc_get id (p_lcs p')) = me_cons (lc_get id (p_lcs p)).
Proof.
  intros H H' Hp Hp' HK HC HI ET EN. pose proof (@sound_before _ C W _ _ HK) as HK0.
  destruct (@chosen_run _ C W _ HC HI _ _ H HK0) as (x & X1 & X2). assert (x = p) by congruence. subst x. destruct (X2 id) as (X3 & X4).
  destruct (@chosen_run _ C W _ HC HI _ _ H' HK) as (x & Y1 & Y2). assert (x = p') by congruence. subst x. destruct (Y2 id) as (Y3 & Y4).
  assert (EL : live id (h ++ [o]) = live id h) by (rewrite live_one, ET, EN, app_nil_r; auto).
  assert (ER : pair_record C W id (h ++ [o]) = pair_record C W id h) by (rewrite record_one, ET, EN; auto).
  unfold chosen in X3, Y3. rewrite EL, ER in *. destruct (live id h) as [|x0 L0] eqn:E0; [rewrite X4, Y4; auto|].
  destruct (_ =? _); [|congruence].
  destruct (@record_pre _ C W _ _ _ id H HK0 HC) as (x & tl & P1 & P0 & P3 & _ & P2). assert (x = p) by congruence. subst x.
  destruct (@record_pre _ C W _ _ _ id H' HK HC) as (x & tl' & Q1 & Q0 & Q3 & _ & Q2). assert (x = p') by congruence. subst x.
  rewrite ER in Q2. rewrite EL, E0 in *.
  assert (NE : pair_record C W id h <> []) by (rewrite P3; discriminate). specialize (P2 NE). specialize (Q2 NE).
  apply (@heu_same O _ (@lc_test O) eq (pair_record C W id h) (pair_record C W id h)); auto.
  - intros a b a' b' -> ->. auto.
  - clear. induction (pair_record C W id h); constructor; auto.
  - congruence.
  - apply Y3. discriminate.
  - apply X3. discriminate.
Qed.

Lemma accepted_run h : c_loop_check C = true -> forall (s : solver) rs, run C W h start = Ok s rs -> records_sound C W h -> small C (length (sp_stored C W h)) ->
  exists p, s_pcm s = Some p /\ forall id, me_cons (lc_get id (p_lcs p)) = accepted C W id h.
Proof.
  intro HC. induction h as [|o h IH] using rev_ind; intros s rs H HK HZ.
  { injection H as <- <-. exists pcm_init. split; auto. }
  assert (HZh : small C (length (sp_stored C W h))) by (intro X; specialize (HZ X); rewrite sp_stored_snoc, app_length in HZ; lia).
  destruct (changed C W h o H) as (s0 & rs0 & p & p' & A1 & A2 & A3 & A4). pose proof (@sound_before _ C W _ _ HK) as HK0.
  destruct (IH _ _ A1 HK0 HZh) as (p0 & B1 & B2). assert (p0 = p) by congruence. subst p0.
  exists p'. split; auto. intro id. specialize (A4 id). specialize (B2 id). rewrite accepted_snoc.
  destruct (@record_pre _ C W _ _ _ id H HK HC) as (q & tl' & R1 & R2 & R3 & R4 & R5). assert (q = p') by congruence. subst q.
  assert (LEN : c_incremental C = true -> (Z.of_nat (length (live id (h ++ [o]))) < size_t_mod)%Z).
  { intro HI. specialize (HZ HI). pose proof (items_le C W (h ++ [o])) as X. pose proof (filter_le (fun x => of_pair id (fst x)) (sp_items C W (h ++ [o]))) as Y.
    unfold live_items. fold (sp_items C W (h ++ [o])). lia. }
  unfold changes in A4. unfold accept_step. destruct (takes_back C W id h o) eqn:ET.
  - destruct A4 as (A4 & A5). destruct (length (live id h) <=? 2) eqn:E2.
    + apply Nat.leb_le in E2. auto.
    + apply Nat.leb_gt in E2. destruct (A5 E2) as (_ & A6).
      assert (ER : pair_record C W id (h ++ [o]) = live id (h ++ [o])).
      { rewrite record_one, ET. destruct (3 <=? length (live id h)) eqn:E3; auto. apply Nat.leb_gt in E3. lia. }
      assert (NE : live id (h ++ [o]) <> []).
      { rewrite live_one, ET. destruct (live id h) as [|a [|b l]]; cbn in E2 |- *; try lia. discriminate. }
      rewrite ER in R5. eapply heu_selection with (extra := []); eauto. rewrite app_nil_r. auto.
  - assert (ER : filter (fun x => of_pair id (fst x)) (newly C W h o) <> [] -> pair_record C W id (h ++ [o]) = live id (h ++ [o]) /\ live id (h ++ [o]) <> []).
    { intro X. rewrite record_one, ET. destruct (filter (fun x => of_pair id (fst x)) (newly C W h o)) as [|y l] eqn:EN; [congruence|]. split; auto.
      rewrite live_one, ET, EN. intro Z. apply app_eq_nil in Z. destruct Z. discriminate. }
    assert (LL : length (filter (fun x => of_pair id (fst x)) (newly C W h o)) <= length (live id (h ++ [o]))) by (rewrite live_one, ET, app_length; lia).
    destruct (filter (fun x => of_pair id (fst x)) (newly C W h o)) as [|y l] eqn:EN.
    + destruct A4 as [[A4 _]|[_ A4]]; [congruence|]. destruct (c_incremental C) eqn:HI.
      * cbn in A4. congruence.
      * rewrite <- B2. eapply again_same; eauto.
    + destruct (ER ltac:(discriminate)) as (E1 & NE). rewrite E1 in R5. specialize (R5 NE). destruct A4 as [[_ A4]|[_ A4]]; [discriminate A4|].
      destruct (c_incremental C) eqn:HI.
      * cbn [length reselects] in A4. rewrite <- B2. eapply inc_selection; eauto.
      * destruct A4 as [A4|A4].
        { exfalso. rewrite A4 in R2. cbn in R2. symmetry in R2. apply map_fst_nil in R2. auto. }
        unfold pair_inliers in A4. rewrite HC in A4. eapply heu_selection with (extra := []); eauto. rewrite app_nil_r. auto.
Qed.

Theorem pairs_exact h (s : solver) rs id : c_loop_check C = true -> run C W h start = Ok s rs -> records_sound C W h -> small C (length (sp_stored C W h)) ->
  graph_lcs C h id (s_nfg s) = if pair_ignored h id then [] else accepted C W id h.
Proof.
  intros HC H HK HZ. destruct (@accepted_run h HC _ _ H HK HZ) as (p & Hp & X). destruct (hist_run C W _ H) as [p0 I].
  assert (p0 = p) by (pose proof (hi_pcm I); congruence). subst p0. rewrite (graph_lcs_eq id I), X. auto.
Qed.

Theorem landmarks_exact h (s : solver) rs l : run C W h start = Ok s rs -> graph_lms C h l (s_nfg s) = accepted_sightings C W l h.
Proof.
  intro H. destruct (store_hist C W _ H) as (p & I & J). rewrite (graph_lms_eq l I).
  pose proof (ho_lms (si_lm J) l) as H1. pose proof (ho_lmrec (si_lm J) l) as H2. unfold accepted_sightings.
  destruct (current C l (sp_sightings C W h)) as [|x L] eqn:EL.
  { cbn [map] in H1. unfold uget in *. destruct (settled_get N.eqb _ l (si_lms J)) as [E|(v & E & Hv)]; rewrite E in *; auto.
    rewrite (heu_none Hv H1). auto. }
  unfold uget in *. destruct (settled_get N.eqb _ l (si_lms J)) as [E|(v & E & Hv)]; rewrite E in *; [discriminate H1|].
  assert (NE : recorded l (x :: L) <> []) by (apply recorded_nonempty; discriminate).
  assert (PRE : exists extra, x :: L = recorded l (x :: L) ++ extra).
  { unfold recorded. destruct (_ || _); [exists []; rewrite app_nil_r; auto|]. exists [last (x :: L) x]. apply app_removelast_last. discriminate. }
  destruct PRE as (extra & PRE).
  apply (@heu_selection (@lm_test O) (recorded l (x :: L)) (map fst extra) v); auto. rewrite <- map_app, <- PRE. exact H1.
Qed.
End X.
