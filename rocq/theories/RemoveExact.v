(** * Exactly when a removal, or a call after removals, is undefined *)
From Verif Require Import Prelude Num Keys KMap UMap Geometry Factors Clique CliqueSpec CliqueHeu Pcm Solver ValuesProofs
  PcmSpec PcmProofs PcmInv PcmStore HistSpec StoreSpec SolverProofs HistProofs GraphProofs UpdateProofs StoreProofs AcceptProofs LiveProofs
  SafeProofs RemoveSpec.
Set Implicit Arguments.
Local Open Scope nat_scope.

Section Exact.
Variable O : tops.
Variable C : config.
Variable W : soracles O.
Notation bf := (bf O).
Notation factor := (factor O).
Notation values := (values O).
Notation graph_t := (graph_t O).
Notation T := (t_T O).
Notation pcm := (pcm O).
Notation meas := (meas O).
Notation sp := (c_special C).
Notation refs := (N -> key -> T).
Notation op := (op O).
Notation solver := (solver O).
Notation start := (@solver_init O true).
Notation lc_get := (uget oid_eqb (@meas_default O)).
Notation lm_get := (uget N.eqb (@meas_default O)).
Notation decent := (@StoreSpec.decent O C).
Notation small := (StoreSpec.small C).
Notation stale := (@stale O C W).
Notation live_of := (@live_of O C W).
Notation new_of := (@new_of O C W).

(** ** The size of the pairwise records *)
Definition fits (st : bool) (m : meas) : Prop :=
  m_cols (me_adj m) = m_rows (me_adj m) /\
  if c_loop_check C
  then if st then length (me_factors m) < m_rows (me_adj m) <= 2
       else 1 <= length (me_factors m) /\ m_rows (me_adj m) = length (me_factors m)
  else m_rows (me_adj m) = 1.
Definition shape (st : obsid -> bool) (p : pcm) : Prop :=
  forall id m, lc_find id (p_lcs p) = Some m -> fits (st id) m.

Lemma shape_frame st (p p' : pcm) : p_lcs p' = p_lcs p -> shape st p -> shape st p'.
Proof. intros H X id m. rewrite H. auto. Qed.
Lemma shape_ext st st' (p : pcm) : (forall id, st id = st' id) -> shape st p -> shape st' p.
Proof. intros H X id m E. rewrite <- H. auto. Qed.

Definition after_store (b : bf) (st : obsid -> bool) : obsid -> bool := fun id => st id && negb (of_pair id b).

Lemma stored_shape st (p : pcm) b adj tr : shape st p ->
  (if c_loop_check C then grows (tref p) (lc_get (pair_of b) (p_lcs p)) b adj
   else adj = me_adj (lc_get (pair_of b) (p_lcs p))) -> shape (after_store b st) (store_lc p b adj tr).
Proof.
  intros HS Hg id m. unfold store_lc. cbn [p_lcs set_trajs set_total set_order set_lcs]. rewrite oid_find_set.
  unfold after_store, of_pair. change (chr (b_from b), chr (b_to b)) with (pair_of b). rewrite (oid_eqb_sym (pair_of b) id).
  destruct (oid_eqb id (pair_of b)) eqn:E.
  - intro X. injection X as <-. unfold fits. cbn [me_factors me_adj negb]. rewrite andb_false_r, app_length. cbn [length].
    destruct (c_loop_check C) eqn:HC.
    + destruct Hg as [[H0 ->]|(H0 & D1 & D2 & bits & -> & _)]; cbn; lia.
    + subst adj. unfold uget. destruct (lc_find (pair_of b) (p_lcs p)) as [m|] eqn:EF; [|cbn; auto].
      specialize (HS _ _ EF). unfold fits in HS. rewrite HC in HS. auto.
  - intro X. rewrite andb_true_r. auto.
Qed.

Lemma parsed_shape st vals b (p p' : pcm) o (ref : refs) : parsed C vals b p p' o -> (forall c k, tref p c k = ref c k) -> shape st p ->
  shape (if stores C (fun k => kmem k vals) ref b then after_store b st else st) p'.
Proof.
  intros HP HR HS. destruct (parsed_stores _ HP HR) as (-> & _).
  inversion HP as [Hm|tr K1 K2 Hl Hc Ho Ht|adj tr K1 K2 Hl|adj tr (K1 & K2 & Hl & Ha) Hg Ht]; subst; clear HP;
    try (eapply shape_frame; [|exact HS]; reflexivity).
  apply stored_shape; auto.
Qed.

Definition after_stores (bs : list bf) (st : obsid -> bool) : obsid -> bool :=
  fun id => st id && (length (filter (of_pair id) bs) =? 0).

Lemma after_stores_cons b bs st id : after_stores bs (after_store b st) id = after_stores (b :: bs) st id.
Proof.
  unfold after_stores, after_store. cbn [filter]. destruct (of_pair id b); cbn [length negb Nat.eqb]; rewrite ?andb_false_r, ?andb_true_r; auto.
Qed.

Lemma parsed_list_shape vals bs (ref : refs) : forall (p p' : pcm) st, parsed_list C vals bs p p' ->
  (forall c k, tref p c k = ref c k) -> shape st p ->
  shape (after_stores (filter (stores C (fun k => kmem k vals) ref) bs) st) p'.
Proof.
  intros p p' st H. revert st. induction H as [p|b bs p o p1 p2 HP H IH]; intros st HR HS.
  - eapply shape_ext; [|exact HS]. intro id. unfold after_stores. cbn. rewrite andb_true_r. auto.
  - pose proof (parsed_shape ref HP HR HS) as X. apply IH in X; [|intros c k; rewrite (parsed_tref HP); auto].
    cbn [filter]. destruct (stores C _ ref b); [|exact X]. eapply shape_ext; [|exact X]. intro id. apply after_stores_cons.
Qed.

Lemma selected_shape st (p p' : pcm) : selected p p' -> shape st p -> shape st p'.
Proof.
  intros (E1 & _ & _) HS id m Hm. pose proof (entrywise_find oid_eqb id E1) as X. rewrite Hm in X.
  destruct (lc_find id (p_lcs p)) as [m0|] eqn:E; [|contradiction]. specialize (HS _ _ E). destruct X as (X1 & X2 & _).
  unfold fits in *. rewrite X1, X2. auto.
Qed.

Lemma remove_outliers_shape fs nv (p p' : pcm) nfg nfg' v v' b (ref : refs) known st :
  remove_outliers C (so_pcm W) fs nv (PSt p nfg v) = Ok (PSt p' nfg' v') b ->
  (forall c k, tref p' c k = ref c k) -> (forall k, known k = kmem k v') -> shape st p ->
  shape (after_stores (filter (stores C known ref) (filter (sp_candidate sp nv) (betweens fs))) st) p'.
Proof.
  intros H HR HK HS0. pose proof (remove_outliers_ok C W _ _ _ _ _ H) as (_ & _ & _ & KV & _).
  apply remove_outliers_inv in H. cbn [ps_pcm ps_nfg ps_vals] in H.
  destruct H as (vs & u & q & EV & HRO & _ & _ & HN & HA).
  assert (KVS : forall k, known k = kmem k vs).
  { intro k. rewrite HK, KV. symmetry. apply vinsert_all_ok in EV. destruct EV as (EV & _). unfold kmem. rewrite EV. destruct (kfind k v); auto. }
  assert (FIN : p_lcs p' = p_lcs q /\ p_trajs p' = p_trajs q).
  { destruct (c_align C).
    - destruct (HA eq_refl) as [[-> _]|(_ & _ & -> & _)]; auto.
    - specialize (HN eq_refl). injection HN as -> _. auto. }
  destruct FIN as (F1 & F3).
  assert (HQ : forall c k, tref q c k = ref c k) by (intros c k; rewrite <- HR; symmetry; apply tref_trajs; auto).
  replace (filter (stores C known ref) (filter (sp_candidate sp nv) (betweens fs)))
    with (filter (stores C (fun k => kmem k vs) ref) (filter (sp_candidate sp nv) (betweens fs)))
    by (apply filter_ext; intro x; unfold stores; rewrite !KVS; auto).
  eapply shape_frame; [exact F1|].
  assert (NONE : filter (sp_candidate sp nv) (betweens fs) = [] -> forall q0 : pcm, shape st q0 ->
    shape (after_stores (filter (stores C (fun k => kmem k vs) ref) (filter (sp_candidate sp nv) (betweens fs))) st) q0).
  { intros -> q0 X. eapply shape_ext; [|exact X]. intro id. unfold after_stores. cbn. rewrite andb_true_r. auto. }
  inversion HRO as [E0|p1 opt Hne EP|p1 lcs opt p2 p3 Hne EP Hlc HP HS _]; subst.
  - apply NONE; auto.
  - apply proc_factors_frame in EP. destruct EP as (_ & _ & P3 & P4 & _ & _ & _ & _ & P9 & _). cbn in P9.
    apply NONE; auto. eapply shape_frame; eauto.
  - apply proc_factors_frame in EP. destruct EP as (_ & _ & P3 & P4 & _ & _ & _ & _ & P9 & _). cbn in P9. subst lcs.
    eapply selected_shape; [exact HS|]. apply (parsed_list_shape ref HP).
    + intros c k. pose proof (parsed_list_ok HP) as (_ & _ & _ & _ & _ & T1 & _).
      rewrite <- T1, <- HQ. symmetry. apply tref_trajs. pose proof (selected_ok C HS) as (_ & _ & _ & _ & _ & _ & S7 & _). auto.
    + eapply shape_frame; eauto.
Qed.

(** A stored closure of a pair out of step would meet a record of the wrong size. *)
Lemma stuck_store st vals b (p p' : pcm) o : parsed C vals b p p' o -> o <> None -> shape st p -> c_loop_check C = true ->
  st (pair_of b) = true -> me_factors (lc_get (pair_of b) (p_lcs p)) = [].
Proof.
  intros HP Ho HS HC Hst.
  inversion HP as [Hm|tr K1 K2 Hl Hc Ho' Ht|adj tr K1 K2 Hl|adj tr (K1 & K2 & Hl & Ha) Hg Ht]; subst; try congruence.
  rewrite HC in Hg. destruct Hg as [[H0 _]|(H0 & D1 & D2 & _)]; [apply length_zero_iff_nil; auto|].
  unfold uget in *. destruct (lc_find (pair_of b) (p_lcs p)) as [m|] eqn:E; [|auto].
  specialize (HS _ _ E). unfold fits in HS. rewrite HC, Hst in HS. lia.
Qed.

(** ** Removal *)
Definition after_removal (id0 : obsid) (n : nat) (st : obsid -> bool) : obsid -> bool :=
  fun id => st id || oid_eqb id id0 && (1 <=? n) && (n <=? 2).

Lemma removed_shape w id0 (p p' : pcm) e st : pcm_remove_last_id w id0 p = Val (p', e) -> shape st p ->
  (forall a b, oid_eqb a b = true -> st a = st b) ->
  shape (after_removal id0 (length (me_factors (lc_get id0 (p_lcs p)))) st) p'.
Proof.
  intros H HS HE. unfold pcm_remove_last_id in H. unfold uget. destruct (lc_find id0 (p_lcs p)) as [m|] eqn:E.
  2:{ injection H as <- <-. eapply shape_ext; [|exact HS]. intro id. unfold after_removal. cbn. rewrite andb_false_r, orb_false_r. auto. }
  pose proof (HS _ _ E) as HF. destruct (m_rows (me_adj m) <=? 0) eqn:E0.
  { exfalso. apply Nat.leb_le in E0. unfold fits in HF. destruct (c_loop_check C); [destruct (st id0)|]; lia. }
  apply Nat.leb_gt in E0.
  destruct (rev (me_factors m)) as [|x rest] eqn:ER; [discriminate|].
  assert (HM : me_factors m = rev rest ++ [x]) by (rewrite <- (rev_involutive (me_factors m)), ER; reflexivity).
  rewrite HM, removelast_last in H.
  match type of H with rbind ?r _ = _ => destruct r as [m'|] eqn:EM end; cbn [rbind] in H; [|discriminate].
  injection H as <- <-. intros id m1. cbn [p_lcs set_lcs]. rewrite oid_find_set. unfold after_removal.
  assert (HL : length (me_factors m) = length (rev rest) + 1) by (rewrite HM, app_length; auto).
  destruct (oid_eqb id id0) eqn:EI; [|cbn [andb]; rewrite orb_false_r; auto].
  intro X. injection X as <-. rewrite (HE _ _ EI). cbn [andb].
  destruct (length (rev rest) <? 2) eqn:E2.
  - apply Nat.ltb_lt in E2. injection EM as <-. unfold fits in *. cbn [me_factors me_adj].
    replace (1 <=? length (me_factors m)) with true by (symmetry; apply Nat.leb_le; lia).
    replace (length (me_factors m) <=? 2) with true by (symmetry; apply Nat.leb_le; lia). cbn [andb]. rewrite orb_true_r.
    destruct HF as [HF1 HF2]. split; auto. destruct (c_loop_check C); auto. destruct (st id0); lia.
  - apply Nat.ltb_ge in E2. destruct (m_cols (me_adj m) =? m_rows (me_adj m)) eqn:EC; [|discriminate].
    apply heu_inliers_inv in EM. destruct EM as (k & data & cs & K1 & K2 & ->). cbn [me_factors me_adj] in *.
    replace (length (me_factors m) <=? 2) with false by (symmetry; apply Nat.leb_gt; lia). rewrite andb_false_r, orb_false_r.
    unfold fits in *. cbn [me_factors me_adj]. destruct HF as [HF1 HF2]. cbn [m_cols m_rows shrink_mat]. split; auto.
    destruct (c_loop_check C); [destruct (st id0); lia|]. exfalso.
    destruct (find_heu_bounds (shrink_mat w (me_adj m))) as [B0 _]. rewrite B0 in K1 by (cbn; lia). injection K1 as <- <-. discriminate K2.
Qed.

(** ** Histories *)
Lemma stale_from_snoc id done todo o was :
  stale_from C W id done (todo ++ [o]) was = stale_step C W id (done ++ todo) o (stale_from C W id done todo was).
Proof.
  revert done was. induction todo as [|x todo IH]; intros done was; cbn [stale_from app].
  - rewrite app_nil_r. auto.
  - rewrite IH, <- app_assoc. auto.
Qed.
Lemma stale_snoc id h o : stale id (h ++ [o]) = stale_step C W id h o (stale id h).
Proof. unfold RemoveSpec.stale. rewrite stale_from_snoc. auto. Qed.

Lemma live_of_ext a b h : oid_eqb a b = true -> live_of a h = live_of b h.
Proof. intro H. apply filter_ext. intro x. apply of_pair_ext. auto. Qed.
Lemma new_of_ext a b h o : oid_eqb a b = true -> new_of a h o = new_of b h o.
Proof. intro H. apply filter_ext. intro x. apply of_pair_ext. auto. Qed.
Lemma stale_ext a b h : oid_eqb a b = true -> stale a h = stale b h.
Proof.
  intro H. induction h as [|o h IH] using rev_ind; auto. rewrite !stale_snoc, IH. unfold stale_step.
  rewrite (live_of_ext _ _ _ H), (new_of_ext _ _ _ _ H). destruct (target C W h o) as [id|]; auto.
  replace (oid_eqb a id) with (oid_eqb b id); auto. apply eq_true_iff_eq. split; intro X.
  - eapply oid_eqb_trans; eauto.
  - eapply oid_eqb_trans; [|exact X]. rewrite oid_eqb_sym. auto.
Qed.

Lemma shape_run h (s : solver) rs : run C W h start = Ok s rs ->
  exists p, hist_inv C W h s p /\ live_inv C W h p /\ shape (fun id => stale id h) p /\
    forall id, lc_find id (p_lcs p) = None <-> ever C W id h = false.
Proof.
  intro H. assert (X : exists p, s_pcm s = Some p /\ shape (fun id => stale id h) p /\ forall id, lc_find id (p_lcs p) = None <-> ever C W id h = false).
  { revert h s rs H. apply (run_ind C W (fun h s => exists p, s_pcm s = Some p /\ shape (fun id => stale id h) p /\
      forall id, lc_find id (p_lcs p) = None <-> ever C W id h = false)).
    - exists pcm_init. split; auto. split; [intros id m X; discriminate X|]. intro id. cbn. tauto.
    - intros h s1 o s2 r rs HR (p & Hp & HS & HK) HO.
      destruct (live_run C W _ HR) as (p0 & I & L). assert (p0 = p) by (pose proof (hi_pcm I); congruence). subst p0.
      pose proof (step_inv C W o s1 Hp HO) as (s3 & p' & b & [E0 E] & _ & _ & _ & Ho).
      assert (Hp' : s_pcm s2 = Some p').
      { destruct (optimises o b); [|congruence]. destruct (optimize_same C W s3 Ho) as (G & _). congruence. }
      assert (HR' : run C W (h ++ [o]) start = Ok s2 (rs ++ [r])).
      { eapply run_app_ok; eauto. cbn [run]. rewrite HO. reflexivity. }
      exists p'. split; auto.
      assert (EV : forall id, ever C W id (h ++ [o]) = ever C W id h || negb (length (new_of id h o) =? 0)).
      { intro id. unfold ever. rewrite sp_stored_snoc, existsb_app. f_equal. unfold RemoveSpec.new_of.
        clear. induction (newly C W h o) as [|x l IH]; auto. cbn. destruct (of_pair id (fst x)); auto. }
      assert (NN : call_of o = None -> forall id, new_of id h o = []) by (intros Hc id; unfold RemoveSpec.new_of; rewrite newly_none; auto).
      assert (FR : call_of o = None -> is_removal o = false -> p_lcs p' = p_lcs p ->
         shape (fun id => stale id (h ++ [o])) p' /\ forall id, lc_find id (p_lcs p') = None <-> ever C W id (h ++ [o]) = false).
      { intros Hc Hr L1. split.
        - eapply shape_frame; [exact L1|]. eapply shape_ext; [|exact HS]. intro id. rewrite stale_snoc. unfold stale_step.
          destruct o; try discriminate; cbn [target]; rewrite NN, andb_true_r; auto.
        - intro id. rewrite L1, EV, NN by auto. cbn. rewrite orb_false_r. auto. }
      assert (CALL : forall fs vs, call_of o = Some (fs, vs) -> is_removal o = false ->
        (exists b, remove_outliers C (so_pcm W) fs vs (PSt p (s_nfg s1) (s_vals s1)) = Ok (PSt p' (s_nfg s3) (s_vals s3)) b) ->
         shape (fun id => stale id (h ++ [o])) p' /\ forall id, lc_find id (p_lcs p') = None <-> ever C W id (h ++ [o]) = false).
      { intros fs vs Hc Hr [b' HX].
        pose proof (remove_outliers_ok C W _ _ _ _ _ HX) as (_ & _ & _ & KV & _).
        assert (KN : forall k, knows (h ++ [o]) k = kmem k (s_vals s3)).
        { intro k. rewrite KV. apply eq_true_iff_eq. rewrite knows_supplied, supplied_snoc, orb_true_iff, (hi_keys I).
          rewrite kmem_In. split; (intros [X|X]; [auto|right]).
          + destruct X as (fs' & vs' & X & Y). rewrite Hc in X. injection X as <- <-. exact Y.
          + exists fs, vs. auto. }
        assert (RF : forall c k, tref p' c k = refs_after C W (h ++ [o]) c k) by (intros c k; rewrite (refs_after_run C W _ HR' Hp'); auto).
        assert (EN : map fst (newly C W h o) = filter (stores C (knows (h ++ [o])) (refs_after C W (h ++ [o]))) (filter (sp_candidate sp vs) (betweens fs))).
        { unfold newly. rewrite Hc, map_map. apply map_id. }
        split.
        - pose proof (@remove_outliers_shape fs vs p p' _ _ _ _ b' (refs_after C W (h ++ [o])) (knows (h ++ [o])) _ HX RF KN HS) as X.
          rewrite <- EN in X. eapply shape_ext; [|exact X]. intro id. rewrite stale_snoc. unfold stale_step, after_stores.
          destruct o; try discriminate; auto.
        - pose proof (@remove_outliers_extends O C W fs vs p p' _ _ _ _ b' (refs_after C W (h ++ [o])) (knows (h ++ [o])) HX RF KN) as X.
          rewrite <- EN in X. intro id. rewrite (ex_keys X), HK, EV, orb_false_iff, negb_false_iff, Nat.eqb_eq, length_zero_iff_nil. tauto. }
      assert (REM : forall id0 q e, p_lcs q = p_lcs p -> target C W h o = Some id0 -> call_of o = None ->
         pcm_remove_last_id (so_pcm W) id0 q = Val (p', e) ->
         shape (fun id => stale id (h ++ [o])) p' /\ forall id, lc_find id (p_lcs p') = None <-> ever C W id (h ++ [o]) = false).
      { intros id0 q e Hq Ht Hc X. assert (HSq : shape (fun id => stale id h) q) by (eapply shape_frame; eauto). split.
        - pose proof (@removed_shape _ _ _ _ _ _ X HSq ltac:(intros; apply stale_ext; auto)) as Y. eapply shape_ext; [|exact Y].
          intro id. rewrite stale_snoc. unfold stale_step, after_removal. rewrite Ht, Hq, (li_lcs L). fold (live_of id0 h).
          destruct (oid_eqb id id0) eqn:EI; auto. rewrite (live_of_ext _ _ _ EI). auto.
        - destruct id0 as [a0 b0]. apply remove_id_live in X; [|unfold has_rows; rewrite Hq; apply L].
          destruct X as (_ & _ & _ & X & _). intro id. rewrite X, Hq, HK, EV, NN by auto. cbn. rewrite orb_false_r. tauto. }
      destruct o as [fs vs opt|fs vs|c opt|a0 b0| |c|c|fs vs|fs vs|]; cbn [call_of is_removal] in *.
      all: try (apply FR; auto; destruct E as (-> & _); unfold pcm_ignore; try destruct (existsb _ _); auto; fail).
      + apply (CALL fs vs eq_refl eq_refl E).
      + apply (CALL fs vs eq_refl eq_refl E).
      + destruct E as (e & _ & X & _). apply REM with (a0, b0) p e; auto.
      + destruct E as (e & _ & X & _). apply pcm_remove_last_frame in X. destruct X as [(X & -> & _)|(od & id0 & X & Y)].
        * split.
          -- eapply shape_ext; [|exact HS]. intro id. rewrite stale_snoc. unfold stale_step. cbn [target].
             rewrite <- (li_order L), X. cbn [rev]. rewrite NN by auto. cbn [length Nat.eqb]. rewrite andb_true_r. auto.
          -- intro id. rewrite EV, NN by auto. cbn. rewrite orb_false_r. auto.
        * apply REM with id0 (set_order p od) e; auto. cbn [target]. rewrite <- (li_order L), X, rev_app_distr. auto. }
  destruct X as (p & Hp & X). destruct (live_run C W _ H) as (p' & J & L). exists p'.
  assert (p' = p) by (pose proof (hi_pcm J); congruence). subst p'. tauto.
Qed.

(** ** Exactly when a removal is undefined *)
Definition dead (id : obsid) (h : list op) : Prop :=
  ever C W id h = true /\ (live_of id h = [] \/ c_loop_check C = false /\ 3 <= length (live_of id h)).

Lemma remove_id_dead w (m : meas) id (p : pcm) st : lc_find id (p_lcs p) = Some m -> fits st m ->
  (me_factors m = [] \/ c_loop_check C = false /\ 3 <= length (me_factors m)) -> exists u, pcm_remove_last_id w id p = Bad u.
Proof.
  intros E HF H. unfold pcm_remove_last_id. rewrite E.
  replace (m_rows (me_adj m) <=? 0) with false.
  2:{ symmetry. apply Nat.leb_gt. unfold fits in HF. destruct (c_loop_check C); [destruct st|]; lia. }
  destruct H as [H|[HC H]]; [rewrite H; cbn; eauto|].
  destruct (rev (me_factors m)) as [|x rest] eqn:ER; [eauto|].
  assert (HM : me_factors m = rev rest ++ [x]) by (rewrite <- (rev_involutive (me_factors m)), ER; reflexivity).
  rewrite HM, removelast_last. rewrite HM, app_length in H. cbn [length] in H.
  replace (length (rev rest) <? 2) with false by (symmetry; apply Nat.ltb_ge; lia).
  unfold fits in HF. rewrite HC in HF. destruct HF as [F1 F2]. rewrite F1, Nat.eqb_refl.
  unfold heu_inliers. cbn [me_adj]. destruct (find_heu_bounds (shrink_mat w (me_adj m))) as [B0 _].
  rewrite B0 by (cbn; lia). cbn [rbind]. unfold select. cbn. eauto.
Qed.

Lemma remove_id_alive w id (p : pcm) st : shape st p ->
  (lc_find id (p_lcs p) <> None -> me_factors (lc_get id (p_lcs p)) <> [] /\
     (c_loop_check C = false -> length (me_factors (lc_get id (p_lcs p))) <= 2)) ->
  exists p' e, pcm_remove_last_id w id p = Val (p', e) /\ num_odom_special p' = num_odom_special p /\ (e = None -> p' = p).
Proof.
  intros HS H. unfold pcm_remove_last_id. unfold uget in H. destruct (lc_find id (p_lcs p)) as [m|] eqn:E.
  2:{ exists p, None. auto. }
  destruct H as [H1 H2]; [discriminate|]. pose proof (HS _ _ E) as HF.
  replace (m_rows (me_adj m) <=? 0) with false.
  2:{ symmetry. apply Nat.leb_gt. unfold fits in HF. destruct (c_loop_check C); [destruct (st id)|]; lia. }
  destruct (rev (me_factors m)) as [|x rest] eqn:ER.
  { exfalso. apply H1. rewrite <- (rev_involutive (me_factors m)), ER. auto. }
  assert (HM : me_factors m = rev rest ++ [x]) by (rewrite <- (rev_involutive (me_factors m)), ER; reflexivity).
  assert (HL : length (me_factors m) = length (rev rest) + 1) by (rewrite HM, app_length; auto).
  rewrite HM, removelast_last. destruct (length (rev rest) <? 2) eqn:E2.
  - cbn [rbind]. eexists _, _. split; [reflexivity|]. split; [auto|discriminate].
  - apply Nat.ltb_ge in E2. unfold fits in HF. destruct (c_loop_check C); [|specialize (H2 eq_refl); lia].
    destruct HF as [F1 F2]. rewrite F1, Nat.eqb_refl. destruct (st id); [lia|].
    destruct (@heu_total O (Meas (rev rest) [] (shrink_mat w (me_adj m)))) as [m' ->]; cbn [me_adj me_factors m_rows shrink_mat]; try lia.
    cbn [rbind]. eexists _, _. split; [reflexivity|]. split; [auto|discriminate].
Qed.

Lemma dead_removal h (s : solver) rs o id : run C W h start = Ok s rs -> target C W h o = Some id -> dead id h ->
  exists u, step C W o s = Undef u.
Proof.
  intros H Ht [HE HD]. destruct (shape_run _ H) as (p & I & L & HS & HK).
  destruct (lc_find id (p_lcs p)) as [m|] eqn:E; [|apply HK in E; congruence].
  assert (HM : me_factors m = live_of id h) by (unfold RemoveSpec.live_of; rewrite <- (li_lcs L id); unfold uget; rewrite E; auto).
  pose proof (HS _ _ E) as HF. cbv beta in HF. rewrite <- HM in HD.
  destruct o; try discriminate Ht; cbn [target] in Ht; cbn [step].
  - injection Ht as <-. unfold remove_last_id. rewrite (hi_pcm I).
    destruct (@remove_id_dead (so_pcm W) m _ p _ E HF HD) as [u ->]. cbn. eauto.
  - unfold remove_last. rewrite (hi_pcm I). unfold pcm_remove_last. rewrite (li_order L).
    destruct (rev (sp_order C W h)) as [|id' l]; [discriminate|]. injection Ht as ->.
    destruct (@remove_id_dead (so_pcm W) m id (set_order p (removelast (sp_order C W h))) _ E HF HD) as [u ->]. cbn. eauto.
Qed.

Lemma alive_removal h (s : solver) rs o u : run C W h start = Ok s rs -> is_removal o = true ->
  (forall id, target C W h o = Some id -> ~ dead id h) -> c_gnc C = true -> c_fix C = false -> step C W o s <> Undef u.
Proof.
  intros H Hr HD HG HX. destruct (shape_run _ H) as (p & I & L & HS & HK).
  assert (HR : forall q : pcm, num_odom_special q = num_odom_special p -> room C s q).
  { intros q E _. rewrite E, (hi_nfg I). apply graph_of_room. }
  assert (RM : forall x : res (pcm * option (key * key)), (exists p' e, x = Val (p', e) /\ num_odom_special p' = num_odom_special p) ->
     edge_ret (obind (lift_removal W s x) (fun s1 e => obind (optimize C W s1) (fun s2 _ => Ok s2 e))) <> Undef u).
  { intros x (p' & e & -> & HN). destruct e as [e|]; cbn [lift_removal obind].
    - match goal with |- context [optimize C W ?s1] => pose proof (@optimize_keeps O C W s1 p' eq_refl HG HX) as K; destruct (optimize C W s1) eqn:EO end;
        cbn; try discriminate. intros _. apply K. intros _. apply graph_of_room.
    - match goal with |- context [optimize C W ?s1] => pose proof (@optimize_keeps O C W s1 p' eq_refl HG HX) as K; destruct (optimize C W s1) eqn:EO end;
        cbn; try discriminate. intros _. apply K. apply HR. auto. }
  assert (AL : forall id, target C W h o = Some id -> lc_find id (p_lcs p) <> None -> me_factors (lc_get id (p_lcs p)) <> [] /\
     (c_loop_check C = false -> length (me_factors (lc_get id (p_lcs p))) <= 2)).
  { intros id Ht Hf. specialize (HD id Ht). unfold dead in HD. rewrite (li_lcs L). fold (live_of id h).
    assert (HE : ever C W id h = true) by (destruct (ever C W id h) eqn:X; auto; apply HK in X; congruence). split.
    - intro X. apply HD. auto.
    - intro HC. destruct (Nat.le_gt_cases (length (live_of id h)) 2) as [Z|Z]; auto. exfalso. apply HD. auto. }
  destruct o; try discriminate Hr; cbn [target] in *; cbn [step].
  - unfold remove_last_id. rewrite (hi_pcm I). apply RM.
    destruct (@remove_id_alive (so_pcm W) _ p _ HS (AL _ eq_refl)) as (p' & e & A & B & _). eauto.
  - unfold remove_last. rewrite (hi_pcm I). apply RM. unfold pcm_remove_last. rewrite (li_order L).
    destruct (rev (sp_order C W h)) as [|id l] eqn:E.
    + exists p, None. auto.
    + destruct (@remove_id_alive (so_pcm W) id (set_order p (removelast (sp_order C W h))) _ HS (AL _ eq_refl)) as (p' & e & A & B & _).
      exists p', e. auto.
Qed.

Lemma removal_undefined_iff h (s : solver) rs o id : run C W h start = Ok s rs -> target C W h o = Some id ->
  c_gnc C = true -> c_fix C = false -> (exists u, step C W o s = Undef u) <-> dead id h.
Proof.
  intros H Ht HG HX. split; [|eapply dead_removal; eauto]. intros [u Hu].
  assert (Hr : is_removal o = true) by (destruct o; auto; discriminate).
  assert (X : forall id', target C W h o = Some id' -> id' = id) by congruence.
  unfold dead. destruct (ever C W id h) eqn:EE.
  - destruct (live_of id h) as [|x l] eqn:EL; [auto|]. destruct (c_loop_check C) eqn:EC.
    + exfalso. revert Hu; apply (@alive_removal h s rs o u H Hr); auto. intros id' Ht'. rewrite (X id' Ht').
      intros [_ [Y|[Y _]]]; congruence.
    + split; auto. right. split; auto. destruct (Nat.le_gt_cases 3 (length (x :: l))) as [Z|Z]; auto. exfalso.
      revert Hu; apply (@alive_removal h s rs o u H Hr); auto. intros id' Ht'. rewrite (X id' Ht'). intros [_ [Y|[_ Y]]]; [congruence|].
      rewrite EL in Y. lia.
  - exfalso. revert Hu; apply (@alive_removal h s rs o u H Hr); auto. intros id' Ht'. rewrite (X id' Ht'). intros [Y _]. congruence.
Qed.

Lemma drop_last_incl {A} (F : A -> bool) l : incl (drop_last F l) l.
Proof.
  assert (G : forall l' : list A, incl (drop_first F l') l').
  { induction l' as [|x l' IH]; cbn; [apply incl_refl|]. destruct (F x); [apply incl_tl, incl_refl|].
    intros y [->|Hy]; [left; auto|right; apply IH; auto]. }
  intros x Hx. unfold drop_last in Hx. apply in_rev in Hx. apply G in Hx. apply in_rev. auto.
Qed.

Lemma sp_live_snoc h o : sp_live C W (h ++ [o]) =
  match target C W h o with Some id => drop_last (of_pair id) (sp_live C W h) | None => sp_live C W h ++ map fst (newly C W h o) end.
Proof.
  change (sp_live C W (h ++ [o])) with (fst (livepair C W (h ++ [o]))). rewrite livepair_snoc, livepair_eq.
  destruct o; cbn [live_step target fst]; auto.
  destruct (rev (sp_order C W h)); cbn [fst]; auto. rewrite newly_none by auto. rewrite app_nil_r. auto.
Qed.

Lemma live_stored h : incl (sp_live C W h) (map fst (sp_stored C W h)).
Proof.
  induction h as [|o h IH] using rev_ind; [intros x []|]. rewrite sp_live_snoc, sp_stored_snoc, map_app. destruct (target C W h o) as [id|].
  - intros x Hx. apply drop_last_incl in Hx. apply in_or_app. left. apply IH. auto.
  - apply incl_app; [apply incl_appl; auto|apply incl_appr, incl_refl].
Qed.

Lemma stale_ever id h : stale id h = true -> ever C W id h = true.
Proof.
  induction h as [|x h IH] using rev_ind; [discriminate|].
  rewrite stale_snoc. unfold ever. rewrite sp_stored_snoc, existsb_app. unfold stale_step. intro H1. apply orb_true_iff. left.
  destruct (target C W h x) as [id'|].
  - apply orb_true_iff in H1. destruct H1 as [H1|H1]; [apply IH; auto|].
    apply andb_true_iff in H1. destruct H1 as [H1 _]. apply andb_true_iff in H1. destruct H1 as [_ H1]. apply Nat.leb_le in H1.
    destruct (live_of id h) as [|y l] eqn:EL; [cbn in H1; lia|].
    assert (Hy : In y (live_of id h)) by (rewrite EL; left; auto). apply filter_In in Hy. destruct Hy as [Hy1 Hy2].
    apply live_stored in Hy1. apply in_map_iff in Hy1. destruct Hy1 as (z & <- & Hz). apply existsb_exists. eauto.
  - apply andb_true_iff in H1. destruct H1 as [H1 _]. apply IH; auto.
Qed.

(** ** Calls after removals: what a completed call shows *)
Lemma stuck_list vals bs (ref : refs) id : forall (p p' : pcm) st, parsed_list C vals bs p p' -> (forall c k, tref p c k = ref c k) ->
  shape st p -> (forall a b, oid_eqb a b = true -> st a = st b) -> c_loop_check C = true -> st id = true ->
  me_factors (lc_get id (p_lcs p)) <> [] -> filter (of_pair id) (filter (stores C (fun k => kmem k vals) ref) bs) = [].
Proof.
  intros p p' st H. revert st. induction H as [p|b bs p o p1 p2 HP H IH]; intros st HR HS HE HC Hst Hne; auto.
  cbn [filter]. pose proof (parsed_shape ref HP HR HS) as X. pose proof (parsed_extends ref HP HR) as Y.
  destruct (parsed_stores _ HP HR) as (Z & _). rewrite Z in *.
  assert (NEXT : forall st', shape st' p1 -> (forall a b, oid_eqb a b = true -> st' a = st' b) -> st' id = true ->
    filter (of_pair id) (filter (stores C (fun k => kmem k vals) ref) bs) = []).
  { intros st' A1 A2 A3. apply (IH st'); auto.
    - intros c k. rewrite (parsed_tref HP). auto.
    - rewrite (ex_lcs Y). intro W1. apply app_eq_nil in W1. apply Hne. apply W1. }
  destruct o as [oo|]; [|apply (NEXT st); auto].
  cbn [filter]. destruct (of_pair id b) eqn:EP.
  - exfalso. apply Hne. assert (EQ : oid_eqb (pair_of b) id = true) by exact EP.
    pose proof (@stuck_store st vals b p p1 (Some oo) HP ltac:(discriminate) HS HC ltac:(rewrite (HE _ _ EQ); auto)) as K.
    rewrite <- K. f_equal. unfold uget. rewrite (oid_find_congr _ _ _ EQ). auto.
  - apply (NEXT (after_store b st)); auto.
    + intros a c Hac. unfold after_store. rewrite (HE _ _ Hac), (of_pair_ext _ _ b Hac). auto.
    + unfold after_store. rewrite Hst, EP. auto.
Qed.

Lemma umapM_In {K} (F : meas -> res meas) (m m' : umap K meas) k v : umapM F m = Val m' -> In (k, v) m -> exists v', F v = Val v'.
Proof.
  revert m'. induction m as [|[k0 v0] m IH]; intros m' H Hin; [destruct Hin|]. cbn [umapM] in H.
  destruct (F v0) as [v1|] eqn:E; cbn [rbind] in H; [|discriminate]. destruct (umapM F m) as [m1|] eqn:E1; [|discriminate].
  destruct Hin as [X|X]; [injection X as <- <-; eauto|eauto].
Qed.

Lemma empty_unselectable (m : meas) : me_factors m = [] -> 1 <= m_rows (me_adj m) -> forall m', heu_inliers m <> Val m'.
Proof.
  intros H1 H2 m' H. apply heu_inliers_inv in H. destruct H as (k & data & cs & K1 & K2 & _).
  destruct (find_heu_bounds (me_adj m)) as [_ B]. destruct (B ltac:(lia)) as (k' & data' & B1 & B2 & _). rewrite B1 in K1. injection K1 as <- <-.
  rewrite H1 in K2. unfold select in K2. replace (Z.of_nat k' <? 0)%Z with false in K2 by (symmetry; apply Z.ltb_ge; lia).
  rewrite Nat2Z.id in K2. destruct k' as [|k']; [lia|]. rewrite <- cons_seq in K2. cbn [rfold] in K2.
  destruct (vget data' 0) as [ix|]; cbn [rbind] in K2; [|discriminate].
  assert (vget (@nil bf) ix = Bad OutOfBounds) as X by (unfold vget; destruct ix; auto).
  rewrite X in K2. discriminate.
Qed.

Lemma call_after_removals h (s : solver) rs o s' r fs vs id : run C W h start = Ok s rs -> step C W o s = Ok s' r ->
  call_of o = Some (fs, vs) -> c_loop_check C = true -> stale id h = true ->
  (new_of id h o <> [] -> live_of id h = []) /\
  (c_incremental C = false -> candidates C fs vs <> [] -> live_of id h = [] -> new_of id h o <> []).
Proof.
  intros HR HO Hc HC Hst. destruct (shape_run _ HR) as (p & I & L & HS & HK).
  pose proof (step_inv C W o s (hi_pcm I) HO) as (s3 & p' & b & [E0 E] & _ & _ & _ & Ho).
  assert (Hp' : s_pcm s' = Some p').
  { destruct (optimises o b); [|congruence]. destruct (optimize_same C W s3 Ho) as (G & _). congruence. }
  assert (HR' : run C W (h ++ [o]) start = Ok s' (rs ++ [r])).
  { eapply run_app_ok; eauto. cbn [run]. rewrite HO. reflexivity. }
  assert (HX : exists b', remove_outliers C (so_pcm W) fs vs (PSt p (s_nfg s) (s_vals s)) = Ok (PSt p' (s_nfg s3) (s_vals s3)) b').
  { destruct o; try discriminate Hc; injection Hc as <- <-; exact E. }
  destruct HX as [b' HX].
  pose proof (remove_outliers_ok C W _ _ _ _ _ HX) as (_ & _ & _ & KV & _).
  assert (KN : forall k, knows (h ++ [o]) k = kmem k (s_vals s3)).
  { intro k. rewrite KV. apply eq_true_iff_eq. rewrite knows_supplied, supplied_snoc, orb_true_iff, (hi_keys I).
    rewrite kmem_In. split; (intros [X|X]; [auto|right]).
    + destruct X as (fs' & vs' & X & Y). rewrite Hc in X. injection X as <- <-. exact Y.
    + exists fs, vs. auto. }
  set (ref := refs_after C W (h ++ [o])).
  assert (RF : forall c k, tref p' c k = ref c k) by (intros c k; unfold ref; rewrite (refs_after_run C W _ HR' Hp'); auto).
  assert (EN : new_of id h o = filter (of_pair id) (filter (stores C (knows (h ++ [o])) ref) (candidates C fs vs))).
  { unfold RemoveSpec.new_of, newly, candidates. rewrite Hc, map_map. f_equal. apply map_id. }
  apply remove_outliers_inv in HX. cbn [ps_pcm ps_nfg ps_vals] in HX.
  destruct HX as (vs' & u & q & EV & HRO & _ & _ & HN & HA).
  assert (KVS : forall k, knows (h ++ [o]) k = kmem k vs').
  { intro k. rewrite KN, KV. symmetry. apply vinsert_all_ok in EV. destruct EV as (EV & _). unfold kmem. rewrite EV. destruct (kfind k (s_vals s)); auto. }
  assert (FIN : p_lcs p' = p_lcs q /\ p_trajs p' = p_trajs q).
  { destruct (c_align C).
    - destruct (HA eq_refl) as [[-> _]|(_ & _ & -> & _)]; auto.
    - specialize (HN eq_refl). injection HN as -> _. auto. }
  destruct FIN as (F1 & F3).
  assert (HQ : forall c k, tref q c k = ref c k) by (intros c k; rewrite <- RF; symmetry; apply tref_trajs; auto).
  assert (EN2 : new_of id h o = filter (of_pair id) (filter (stores C (fun k => kmem k vs') ref) (candidates C fs vs))).
  { rewrite EN. f_equal. apply filter_ext; intro x; unfold stores; rewrite !KVS; auto. }
  rewrite EN2. unfold candidates in *.
  inversion HRO as [X0|p1 opt Hne EP|p1 lcs opt p2 p3 Hne EP Hlc HP HSel HFI]; subst.
  - cbn. split; intros; congruence.
  - apply proc_factors_frame in EP. destruct EP as (_ & _ & P3 & P4 & _ & _ & _ & _ & P9 & _). cbn in P9.
    rewrite <- P9. cbn. split; intros; congruence.
  - apply proc_factors_frame in EP. destruct EP as (_ & _ & P3 & P4 & _ & _ & _ & _ & P9 & _). cbn in P9. subst lcs.
    assert (HT1 : forall c k, tref p1 c k = ref c k).
    { intros c k. pose proof (parsed_list_ok HP) as (_ & _ & _ & _ & _ & T1 & _).
      rewrite <- T1, <- HQ. symmetry. apply tref_trajs. pose proof (selected_ok C HSel) as (_ & _ & _ & _ & _ & _ & S7 & _). auto. }
    assert (HS1 : shape (fun id => stale id h) p1) by (eapply shape_frame; eauto).
    assert (LV : live_of id h = me_factors (lc_get id (p_lcs p1))) by (rewrite P3, (li_lcs L); auto).
    split.
    + intro X. destruct (live_of id h) as [|x l] eqn:EL; auto. exfalso. apply X.
      apply (@stuck_list vs' _ ref id p1 p2 (fun id => stale id h) HP HT1 HS1); auto.
      * intros; apply stale_ext; auto.
      * rewrite <- LV. discriminate.
    + intros HI _ HLv HNil. specialize (HFI HI).
      pose proof (parsed_list_shape ref HP HT1 HS1) as SH. pose proof (parsed_list_extends ref HP HT1) as EX.
      assert (F0 : me_factors (lc_get id (p_lcs p2)) = []) by (rewrite (ex_lcs EX), <- LV, HLv, HNil; auto).
      destruct (lc_find id (p_lcs p2)) as [m|] eqn:EF.
      2:{ apply (ex_keys EX) in EF. destruct EF as [EF _]. rewrite P3 in EF. apply HK in EF.
          apply stale_ever in Hst. congruence. }
      specialize (SH _ _ EF). unfold after_stores in SH. rewrite Hst, HNil in SH. cbn in SH. unfold fits in SH. rewrite HC in SH.
      unfold uget in F0. rewrite EF in F0. apply ufind_In in EF. destruct EF as (k & _ & Hin).
      unfold find_inliers in HFI. destruct (umapM (pair_inliers C) (p_lcs p2)) as [l|] eqn:EU; [|discriminate].
      destruct (umapM_In _ _ _ _ EU Hin) as [m' HM]. unfold pair_inliers in HM. rewrite HC in HM.
      apply (@empty_unselectable m F0) in HM; auto. lia.
Qed.

Lemma order_stored h : Forall (fun id => ever C W id h = true) (sp_order C W h).
Proof.
  induction h as [|o h IH] using rev_ind; [constructor|].
  assert (M : forall id, ever C W id h = true -> ever C W id (h ++ [o]) = true).
  { intros id X. unfold ever in *. rewrite sp_stored_snoc, existsb_app, X. auto. }
  assert (IH' : Forall (fun id => ever C W id (h ++ [o]) = true) (sp_order C W h)) by (eapply Forall_impl; [|exact IH]; auto).
  change (sp_order C W (h ++ [o])) with (snd (livepair C W (h ++ [o]))). rewrite livepair_snoc, livepair_eq.
  assert (NEW : Forall (fun id => ever C W id (h ++ [o]) = true) (map (fun x => (chr (b_from (fst x)), chr (b_to (fst x)))) (newly C W h o))).
  { apply Forall_forall. intros id Hin. apply in_map_iff in Hin. destruct Hin as (x & <- & Hx). unfold ever. apply existsb_exists.
    exists x. split; [rewrite sp_stored_snoc; apply in_or_app; auto|]. unfold of_pair. apply oid_eqb_refl. }
  destruct o; cbn [live_step snd]; auto; try (apply Forall_app; auto).
  destruct (rev (sp_order C W h)); cbn [snd]; auto. clear -IH'.
  rewrite Forall_forall in *. intros x Hx. apply IH'. clear -Hx. induction (sp_order C W h) as [|y l IHl]; [destruct Hx|].
  cbn [removelast] in Hx. destruct l; [destruct Hx|]. destruct Hx as [->|Hx]; [left; auto|right; auto].
Qed.

Lemma c22_undefined_iff h (s : solver) rs : run C W h start = Ok s rs -> c_gnc C = true -> c_fix C = false ->
  ((exists u, step C W OpRemoveLast s = Undef u) <->
   exists order id, sp_order C W h = order ++ [id] /\
     (live_of id h = [] \/ c_loop_check C = false /\ 3 <= length (live_of id h))).
Proof.
  intros H HG HX. pose proof (order_stored h) as OS. destruct (rev (sp_order C W h)) as [|id l] eqn:E.
  - assert (EO : sp_order C W h = []) by (rewrite <- (rev_involutive (sp_order C W h)), E; auto). split.
    + intros [u Hu]. exfalso. revert Hu. apply (@alive_removal h s rs OpRemoveLast u H eq_refl); auto.
      intros id Ht. cbn [target] in Ht. rewrite E in Ht. discriminate.
    + intros (order & id & X & _). rewrite EO in X. destruct order; discriminate.
  - assert (EO : sp_order C W h = rev l ++ [id]) by (rewrite <- (rev_involutive (sp_order C W h)), E; auto).
    rewrite (@removal_undefined_iff h s rs OpRemoveLast id H); auto; [|cbn [target]; rewrite E; auto].
    unfold dead. rewrite EO in OS. apply Forall_app in OS. destruct OS as [_ OS]. inversion OS; subst. split.
    + intros [_ X]. exists (rev l), id. auto.
    + intros (order & id' & X & Y). rewrite EO in X. apply app_inj_tail in X. destruct X as [_ <-]. auto.
Qed.
End Exact.
