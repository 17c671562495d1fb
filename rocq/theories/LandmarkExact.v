(** * Landmark containers after any completed history, whichever way round the observations are *)
From Verif Require Import Prelude Num Keys KMap UMap Geometry Factors Clique CliqueSpec CliqueHeu Pcm Solver ValuesProofs
  PcmSpec PcmProofs PcmInv PcmStore HistSpec StoreSpec SolverProofs HistProofs GraphProofs UpdateProofs StoreProofs AcceptProofs LiveProofs
  StoreThms SafeProofs RemoveSpec.
Set Implicit Arguments.
Local Open Scope nat_scope.

Section Landmarks.
Variable O : tops.
Variable C : config.
Variable W : soracles O.
Notation bf := (bf O).
Notation factor := (factor O).
Notation values := (values O).
Notation graph_t := (graph_t O).
Notation T := (t_T O).
Notation pcm := (pcm O).
Notation meas := (meas O).
Notation sp := (c_special C).
Notation op := (op O).
Notation solver := (solver O).
Notation start := (@solver_init O true).
Notation lm_get := (uget N.eqb (@meas_default O)).
Notation tested := (@StoreSpec.tested O).
Notation backward_last := (@RemoveSpec.backward_last O).

(** ** One container *)
(** In step, and then all observations end at the landmark or there is just one; or one row short,
    and then one of at least two starts from it. *)
Definition lm_state (l : key) (m : meas) : Prop :=
  me_factors m <> [] /\ m_cols (me_adj m) = m_rows (me_adj m) /\ backward_last l (me_factors m) /\
  ((m_rows (me_adj m) = length (me_factors m) /\ (length (me_factors m) = 1 \/ forall f, In f (me_factors m) -> b_from f <> l)) \/
   (S (m_rows (me_adj m)) = length (me_factors m) /\ 1 <= m_rows (me_adj m) /\ exists f, In f (me_factors m) /\ b_from f = l)).

Definition lm_states (p : pcm) : Prop := Forall (fun kv : key * meas => lm_state (fst kv) (snd kv)) (p_lms p).

Lemma lm_states_frame (p q : pcm) : p_lms q = p_lms p -> lm_states p -> lm_states q.
Proof. unfold lm_states. intros ->. auto. Qed.

Lemma lm_states_get p l : lm_states p -> lm_get l (p_lms p) = meas_default \/ lm_state l (lm_get l (p_lms p)).
Proof.
  intros B. unfold uget. destruct (ufind N.eqb l (p_lms p)) as [m|] eqn:E; auto. right.
  apply ufind_In in E. destruct E as (k & Hk & Hin). apply N.eqb_eq in Hk. subst k. unfold lm_states in B. rewrite Forall_forall in B. apply (B _ Hin).
Qed.

Lemma backward_last_le l (L : list bf) : length L <= 2 -> backward_last l L.
Proof. intros H X. lia. Qed.

Lemma backward_last_snoc l (L : list bf) b : (2 <= length L -> forall f, In f L -> b_from f <> l) -> backward_last l (L ++ [b]).
Proof.
  intros H X. rewrite app_length in X. cbn in X. rewrite removelast_last. apply H. lia.
Qed.

Lemma in_removelast_prefix (L K : list bf) b f : In f L -> In f (removelast (L ++ b :: K)).
Proof.
  intro H. rewrite removelast_app by discriminate. apply in_or_app. auto.
Qed.

(** The records in step are exactly these: *)
Lemma lm_state_in_step l m : lm_state l m -> (length (me_factors m) = 1 \/ forall f, In f (me_factors m) -> b_from f <> l) ->
  m_rows (me_adj m) = length (me_factors m).
Proof.
  intros (H1 & H2 & H3 & [[H4 H5]|(H4 & H5 & f & H6 & H7)]) H; auto. destruct H as [H|H]; [lia|].
  exfalso. apply (H _ H6 H7).
Qed.

(** ** Invariant *)
Lemma parsed_states vals b (p p' : pcm) o : parsed C vals b p p' o -> lm_states p -> lm_states p'.
Proof.
  intros HP HL. inversion HP as [Hm|tr K1 K2 Hl Hc Ho Ht|adj tr K1 K2 Hl Hg Ht|adj tr (K1 & K2 & Hl & Ha) Hg Ht]; subst; clear HP;
    try (eapply lm_states_frame; [|exact HL]; reflexivity).
  set (l := sp_landmark_key sp b) in *. unfold lm_states, store_lm. cbn [p_lms set_trajs set_total set_lms].
  apply Forall_uset; [apply HL|]. intros k' Hk.
  assert (k' = l) as -> by (destruct Hk as [Hk| ->]; auto; apply N.eqb_eq in Hk; auto).
  cbn [fst snd]. fold l. unfold lm_state. cbn [me_factors me_adj].
  set (old := lm_get l (p_lms p)) in *.
  split; [destruct (me_factors old); discriminate|].
  destruct Hg as [[H0 ->]|(H0 & D1 & D2 & Hg)].
  - fold old in H0. destruct (me_factors old) eqn:EF; [|discriminate H0]. cbn. split; auto.
    split; [apply backward_last_le; cbn; lia|]. auto.
  - fold old in H0, D1, D2, Hg. destruct (lm_states_get l HL) as [Z|G]; [fold old in Z; rewrite Z in H0; cbn in H0; lia|fold old in G].
    assert (BK : backward_last l (me_factors old ++ [b])).
    { apply backward_last_snoc. intros H2 f Hf. destruct G as (_ & _ & _ & [[_ [G|G]]|(G & _)]); auto; lia. }
    rewrite app_length. cbn [length]. destruct Hg as [(-> & f & Hf & E)|(bits & -> & Hn & _)].
    + split; [lia|]. split; auto. right. split; [lia|]. split; [lia|]. eauto.
    + cbn. split; auto. split; auto. left. split; [lia|]. right. rewrite Forall_forall in Hn. auto.
Qed.

Lemma parsed_list_states vals bs : forall p p' : pcm, parsed_list C vals bs p p' -> lm_states p -> lm_states p'.
Proof.
  intros p p' H. induction H as [p|b bs p o p1 p2 HP H IH]; intros HL; auto. apply IH. eapply parsed_states; eauto.
Qed.

Lemma firsts_states fs (p q : pcm) : p_lms q = store_firsts C fs (p_lms p) -> lm_states p -> lm_states q.
Proof.
  revert q. induction fs as [|b fs IH] using rev_ind; intros q Hq HH.
  - eapply lm_states_frame; [|exact HH]. auto.
  - rewrite store_firsts_snoc in Hq. pose proof (IH (set_lms p (store_firsts C fs (p_lms p))) eq_refl HH) as H1.
    unfold lm_states in *. cbn [p_lms set_lms] in H1. rewrite Hq. apply Forall_uset; auto. intros k' Hk. cbn [fst snd].
    unfold lm_state. cbn. split; [discriminate|]. split; auto. split; [apply backward_last_le; cbn; lia|]. auto.
Qed.

Lemma selected_states (p p' : pcm) : selected p p' -> lm_states p -> lm_states p'.
Proof.
  intros (_ & E2 & _) B. unfold lm_states in *. induction E2 as [|a b l l' [H1 (H2 & H3 & _)] H IH]; auto. inversion B; subst. constructor; auto.
  unfold lm_state in *. rewrite H1, H2, H3. auto.
Qed.

Lemma lms_run h : forall (s : solver) rs, run C W h start = Ok s rs -> exists p, s_pcm s = Some p /\ lm_states p.
Proof.
  induction h as [|o h IH] using rev_ind; intros s rs H.
  - injection H as <- <-. exists pcm_init. split; auto. constructor.
  - rewrite run_snoc_eq in H.
    destruct (run C W h start) as [s0 rs0| |] eqn:HR; cbn [obind] in H; try discriminate.
    destruct (step C W o s0) as [s1 r| |] eqn:HS; cbn [obind] in H; try discriminate. injection H as <- <-.
    destruct (IH _ _ eq_refl) as (p & Hp & HL).
    pose proof (step_inv C W o s0 Hp HS) as (s3 & p' & b & [E0 E] & _ & _ & _ & Ho).
    exists p'. split.
    { destruct (optimises o b); [|congruence]. destruct (optimize_same C W s3 Ho) as (G & _). congruence. }
    assert (CALL : forall fs vs, call_of o = Some (fs, vs) ->
      (exists b, remove_outliers C (so_pcm W) fs vs (PSt p (s_nfg s0) (s_vals s0)) = Ok (PSt p' (s_nfg s3) (s_vals s3)) b) -> lm_states p').
    { intros fs vs Hc [b' HX].
      apply remove_outliers_inv in HX. cbn [ps_pcm ps_nfg ps_vals] in HX. destruct HX as (vs' & u & q & EV & HRO & _ & _ & HN & HA).
      assert (F1 : p_lms p' = p_lms q).
      { destruct (c_align C).
        - destruct (HA eq_refl) as [[-> _]|(_ & _ & -> & _)]; auto.
        - specialize (HN eq_refl). injection HN as -> _. auto. }
      eapply lm_states_frame; [exact F1|].
      inversion HRO as [X0|p1 opt Hne EP|p1 lcs opt p2 p3 Hne EP Hlc HP HSel HFI]; subst; auto;
        apply proc_factors_frame in EP; destruct EP as (_ & _ & _ & _ & _ & _ & _ & P8 & _ & _);
        pose proof (@firsts_states _ p _ P8 HL) as X; auto.
      eapply selected_states; [exact HSel|]. eapply parsed_list_states; [exact HP|exact X]. }
    assert (REM : forall id (q : pcm) e, p_lms q = p_lms p -> pcm_remove_last_id (so_pcm W) id q = Val (p', e) -> lm_states p').
    { intros id q e Hq X. eapply lm_states_frame; [|exact HL]. rewrite <- Hq. unfold pcm_remove_last_id in X.
      destruct (lc_find id (p_lcs q)) as [m|]; [|injection X as -> _; auto]. destruct (m_rows (me_adj m) <=? 0); [injection X as -> _; auto|].
      destruct (rev (me_factors m)); [discriminate|].
      match type of X with rbind ?r _ = _ => destruct r end; cbn [rbind] in X; [|discriminate]. injection X as <- _. auto. }
    destruct o as [fs vs opt|fs vs|c opt|a0 b0| |c|c|fs vs|fs vs|].
    + apply (CALL fs vs); auto.
    + apply (CALL fs vs); auto.
    + destruct E as (-> & _). auto.
    + destruct E as (e & _ & X & _). eapply REM; [|exact X]; auto.
    + destruct E as (e & _ & X & _). apply pcm_remove_last_frame in X. destruct X as [(_ & -> & _)|(od & id0 & X & Y)]; auto.
      apply (REM id0 (set_order p od) e); auto.
    + destruct E as (-> & _). unfold pcm_ignore. destruct (existsb _ _); auto.
    + destruct E as (-> & _). auto.
    + destruct E as (-> & _). auto.
    + destruct E as (-> & _). auto.
    + destruct E as (-> & _). auto.
Qed.

(** ** What it says about histories *)
Lemma current_In l (M : list (sighting O)) x : In x (current C l M) -> exists y, In y M /\ si_obs y = x /\ of_landmark C l (fst x) = true.
Proof.
  induction M as [|y M IH] using rev_ind; [intros []|]. rewrite current_snoc.
  assert (G : In x (current C l M) -> exists y0, In y0 (M ++ [y]) /\ si_obs y0 = x /\ of_landmark C l (fst x) = true).
  { intro H. destruct (IH H) as (z & A & B). exists z. split; auto. apply in_or_app. auto. }
  destruct (of_landmark C l (fst (si_obs y))) eqn:E; auto.
  assert (G' : si_obs y = x -> exists y0, In y0 (M ++ [y]) /\ si_obs y0 = x /\ of_landmark C l (fst x) = true).
  { intros <-. exists y. split; auto. apply in_or_app. right. left. auto. }
  destruct (si_first y).
  - intros [H|[]]. auto.
  - intro H. apply in_app_or in H. destruct H as [H|[H|[]]]; auto.
Qed.

Lemma sighted_delivered h o x : In x (sighted C W h o) -> In (Some (FBetween (fst (si_obs x)))) (given o).
Proof.
  unfold sighted, given. destruct (call_of o) as [[fs vs]|]; [|intros []]. intro H. apply in_app_or in H.
  destruct H as [H|H]; apply in_map_iff in H; destruct H as (b & <- & Hb); cbn.
  - apply filter_In in Hb. destruct Hb as [Hb _]. apply In_betweens in Hb. auto.
  - apply filter_In in Hb. destruct Hb as [Hb _]. apply filter_In in Hb. destruct Hb as [Hb _]. apply In_betweens in Hb. auto.
Qed.

Lemma sightings_delivered h x : In x (sp_sightings C W h) -> delivered h (FBetween (fst (si_obs x))).
Proof.
  induction h as [|o h IH] using rev_ind; [intros []|]. rewrite sp_sightings_snoc. intro H. apply in_app_or in H. destruct H as [H|H].
  - destruct (IH H) as (o' & fs & vs & A & B). exists o', fs, vs. split; auto. apply in_or_app. auto.
  - apply sighted_delivered in H. unfold given in H. destruct (call_of o) as [[fs vs]|] eqn:E; [|destruct H].
    exists o, fs, vs. split; [apply in_or_app; right; left; auto|]. auto.
Qed.

Lemma seen_delivered l h b : In b (seen C W l h) -> delivered h (FBetween b).
Proof.
  unfold seen. intro H. apply in_map_iff in H. destruct H as (x & <- & H). apply current_In in H. destruct H as (y & H & <- & _).
  apply sightings_delivered. auto.
Qed.

(** Whatever completed, at most the last of three or more observations starts from the landmark. *)
Lemma completed_backward h (s : solver) rs l : run C W h start = Ok s rs -> backward_last l (seen C W l h).
Proof.
  intro H. destruct (lms_run _ H) as (p & Hp & HL). destruct (store_run C W h H) as (p' & Hp' & J).
  assert (p' = p) by congruence. subst p'. unfold seen. rewrite <- (ho_lms (si_lm J) l).
  destruct (lm_states_get l HL) as [->|G]; [apply backward_last_le; cbn; lia|]. apply G.
Qed.

(** The size of the record. *)
Lemma record_size h (s : solver) rs l : run C W h start = Ok s rs ->
  exists p, s_pcm s = Some p /\ me_factors (lm_get l (p_lms p)) = seen C W l h /\
    (seen C W l h <> [] ->
      (m_rows (me_adj (lm_get l (p_lms p))) = length (seen C W l h) /\
        (length (seen C W l h) = 1 \/ forall f, In f (seen C W l h) -> b_from f <> l)) \/
      (S (m_rows (me_adj (lm_get l (p_lms p)))) = length (seen C W l h) /\
        2 <= length (seen C W l h) /\ exists f, In f (seen C W l h) /\ b_from f = l)).
Proof.
  intro H. destruct (lms_run _ H) as (p & Hp & HL). destruct (store_run C W h H) as (p' & Hp' & J).
  assert (p' = p) by congruence. subst p'. exists p. split; auto. pose proof (ho_lms (si_lm J) l) as E. fold (seen C W l h) in E. split; auto.
  intro Hne. rewrite <- E in *. destruct (lm_states_get l HL) as [Z|(_ & _ & _ & G)]; [rewrite Z in Hne; cbn in Hne; congruence|].
  destruct G as [G|(G1 & G2 & G3)]; [left; auto|right]. split; auto. split; auto. lia.
Qed.

(** ** Storing an observation *)
Lemma lm_bits_total' l fs new : tested new -> forall (p : pcm) bits, Forall tested fs -> exists r, lm_bits l fs new p bits = Val r.
Proof.
  unfold StoreSpec.tested. intros Hn. induction fs as [|f fs IH]; intros p bits Hf; cbn [lm_bits]; [eauto|]. inversion Hf; subst.
  destruct ((b_from f =? l)%N || (b_from new =? l)%N); [eauto|].
  destruct (t_of O f); [|congruence]. destruct (t_of O new); [|congruence].
  destruct (traj_between p (chr (b_from f)) (b_from f) (b_from new)) as [x p']. apply IH; auto.
Qed.

Lemma increment_lm_total' l b old (p : pcm) : lm_get l (p_lms p) = meas_add old b -> tested b -> Forall tested (me_factors old) ->
  (me_factors old = [] \/ m_rows (me_adj old) = length (me_factors old) /\ m_cols (me_adj old) = length (me_factors old)) ->
  exists p', increment_landmark_adj l b p = Val p'.
Proof.
  intros Hg Hb Hd Ho. unfold increment_landmark_adj. rewrite Hg. unfold meas_add. cbn [me_factors me_adj me_cons].
  rewrite app_length. cbn [length]. destruct (length (me_factors old) + 1 <=? 1) eqn:E; [eauto|]. apply Nat.leb_gt in E.
  destruct Ho as [Ho|[D1 D2]]; [rewrite Ho in E; cbn in E; lia|].
  replace (length (me_factors old) + 1 - 1) with (length (me_factors old)) by lia.
  assert (dims_are (me_adj old) (length (me_factors old)) = true) as -> by (apply dims_are_spec; auto).
  rewrite firstn_app, firstn_all, Nat.sub_diag. cbn [firstn]. rewrite app_nil_r.
  destruct (lm_bits_total' l Hb p [] Hd) as [[[bits|] p'] ->]; cbn [rbind]; eauto.
Qed.

Lemma states_total (p : pcm) : lm_states p -> exists m', umapM (heu_inliers (O:=O)) (p_lms p) = Val m'.
Proof.
  intros B. apply umapM_total. eapply Forall_impl; [|exact B]. intros kv (G1 & _ & _ & G). apply length_pos in G1.
  apply heu_total; destruct G as [[G _]|(G & G' & _)]; lia.
Qed.

(** Observations of a list that get stored, in order. *)
Definition to_store (vals : values) (l : key) (bs : list bf) : list bf :=
  filter (of_landmark C l) (filter (stores_lm C (fun k => kmem k vals)) bs).
Definition lm_factors (p : pcm) (l : key) : list bf := me_factors (lm_get l (p_lms p)).
Definition lm_free (vals : values) (p : pcm) (bs : list bf) : Prop :=
  forall l, backward_last l (lm_factors p l ++ to_store vals l bs).

Lemma parsed_lm_factors vals b (p p' : pcm) o l : parsed C vals b p p' o ->
  lm_factors p' l = lm_factors p l ++ to_store vals l [b].
Proof.
  intro HP. destruct (parsed_stores (tref p) HP ltac:(auto)) as (_ & S1 & S2). unfold to_store. cbn [filter].
  destruct (stores_lm C (fun k => kmem k vals) b) eqn:ES.
  - destruct ((proj1 S1) eq_refl) as (adj & tr & -> & _ & Hg). unfold lm_factors, store_lm. cbn [p_lms set_trajs set_total set_lms filter].
    rewrite n_get_set. unfold of_landmark. rewrite (N.eqb_sym l). destruct (N.eqb_spec (sp_landmark_key sp b) l) as [<-|Hne].
    + reflexivity.
    + rewrite app_nil_r. auto.
  - cbn. rewrite app_nil_r. unfold lm_factors. f_equal. f_equal. apply S2. auto.
Qed.

Lemma lm_free_step vals b bs (p p' : pcm) o : parsed C vals b p p' o -> lm_free vals p (b :: bs) -> lm_free vals p' bs.
Proof.
  intros HP HF l. rewrite (parsed_lm_factors l HP). specialize (HF l). unfold to_store in *. cbn [filter] in *.
  destruct (stores_lm C (fun k => kmem k vals) b); cbn [filter] in *; [destruct (of_landmark C l b)|]; rewrite <- ?app_assoc, ?app_nil_r in *; auto.
Qed.

Lemma lm_free_now vals b bs (p : pcm) : lm_states p -> lm_free vals p (b :: bs) -> stores_lm C (fun k => kmem k vals) b = true ->
  let l := sp_landmark_key sp b in
  lm_factors p l = [] \/ m_rows (me_adj (lm_get l (p_lms p))) = length (lm_factors p l) /\ m_cols (me_adj (lm_get l (p_lms p))) = length (lm_factors p l).
Proof.
  intros HL HF HS l. specialize (HF l). unfold to_store in HF. cbn [filter] in HF. rewrite HS in HF. cbn [filter] in HF.
  unfold of_landmark in HF at 1. fold l in HF. rewrite N.eqb_refl in HF.
  destruct (lm_states_get l HL) as [Z|G]; [left; unfold lm_factors; rewrite Z; auto|]. right.
  assert (E : m_rows (me_adj (lm_get l (p_lms p))) = length (lm_factors p l)).
  { apply (lm_state_in_step G). destruct G as (G1 & _ & _ & _). fold (lm_factors p l) in *.
    destruct (le_lt_dec 2 (length (lm_factors p l))) as [H2|H2].
    - right. intros f Hf. apply (HF ltac:(rewrite app_length; cbn; lia)). apply in_removelast_prefix. auto.
    - left. apply length_pos in G1. lia. }
  split; auto. destruct G as (_ & G2 & _). rewrite G2. auto.
Qed.

(** After the first sightings of a call, the observations to come are those of the whole history. *)
Lemma lm_free_call h o fs vs (p p1 : pcm) vals : call_of o = Some (fs, vs) -> holds_lm C (sp_sightings C W h) p ->
  p_lms p1 = store_firsts C (filter (sp_first sp vs) (betweens fs)) (p_lms p) ->
  (forall k, knows (h ++ [o]) k = kmem k vals) ->
  (forall l, backward_last l (seen C W l (h ++ [o]))) -> lm_free vals p1 (candidates C fs vs).
Proof.
  intros Hc HH HP HK HB l. specialize (HB l). unfold seen in HB. rewrite sp_sightings_snoc in HB. unfold sighted in HB. rewrite Hc in HB.
  rewrite app_assoc in HB. rewrite current_app_again in HB.
  2:{ intros x Hx _. apply in_map_iff in Hx. destruct Hx as (b & <- & _). auto. }
  pose proof (@firsts_holds O C (refs_after C W (h ++ [o])) _ _ p p1 HP HH) as [H1 _].
  unfold lm_factors. rewrite H1. rewrite map_app in HB.
  match type of HB with RemoveSpec.backward_last _ (_ ++ ?x) => assert (x = to_store vals l (candidates C fs vs)) as E end; [|rewrite <- E; auto].
  unfold to_store, candidates. rewrite map_map.
  assert (X : forall b : bf, stores_lm C (knows (h ++ [o])) b = stores_lm C (fun k => kmem k vals) b) by (intro b; unfold stores_lm; rewrite !HK; auto).
  rewrite (filter_ext _ _ X). generalize (filter (stores_lm C (fun k => kmem k vals)) (filter (sp_candidate sp vs) (betweens fs))). intro L.
  induction L as [|b L IH]; auto. cbn. destruct (of_landmark C l b); cbn; rewrite IH; auto.
Qed.
End Landmarks.
