(** * Which loop closures are stored, in which order, with which pairwise record *)
From Verif Require Import Prelude Num Keys KMap UMap Geometry Factors Clique Pcm Solver ValuesProofs
  PcmSpec PcmProofs PcmInv PcmStore HistSpec StoreSpec SolverProofs HistProofs GraphProofs TrajProofs.
Set Implicit Arguments.
Local Open Scope nat_scope.

Lemma Forall2_nth {A B} (P : A -> B -> Prop) l l' : Forall2 P l l' -> forall i x, nth_error l i = Some x ->
  exists y, nth_error l' i = Some y /\ P x y.
Proof.
  induction 1 as [|a b l l' H1 H2 IH]; intros [|i] x Hx; try discriminate Hx; cbn in *; [injection Hx as <-; eauto|eauto].
Qed.

(** ** Pairwise records *)
Section Faithful.
Variable A : Type.
Variable test : A -> A -> option bool.

Lemma faithful_nil m : m_rows m = 0 -> m_cols m = 0 -> faithful test [] m.
Proof.
  intros H1 H2. split; auto. split; auto. split; [cbn; lia|]. intros i j x y _ H. destruct i; discriminate H.
Qed.

Lemma faithful_one x : faithful test [x] (zero_mat 1).
Proof.
  split; auto. split; auto. split; [reflexivity|]. intros i j a b Hij Ha Hb.
  assert (j < 1) by (apply (nth_error_Some [x] j); congruence). lia.
Qed.

Lemma faithful_snoc L m y bits : faithful test L m -> Forall2 (fun x r => test x y = Some r) L bits ->
  faithful test (L ++ [y]) (grow_mat m bits (length L)).
Proof.
  intros (F1 & F2 & F3 & F4) HB. unfold faithful. rewrite app_length. cbn [length grow_mat m_rows m_cols m_at].
  split; [lia|]. split; [lia|]. split.
  - intros i Hi. destruct (i <? length L) eqn:E; cbn [andb].
    + apply Nat.ltb_lt in E. auto.
    + rewrite !andb_false_r. auto.
  - intros i j x z Hij Hx Hz.
    assert (Hj : j < length (L ++ [y])) by (apply nth_error_Some; congruence).
    rewrite app_length in Hj. cbn in Hj.
    assert (Hi : i < length L) by lia. rewrite nth_error_app1 in Hx by lia.
    destruct (Nat.eq_dec j (length L)) as [->|Hne].
    + rewrite nth_error_app2 in Hz by lia. rewrite Nat.sub_diag in Hz. injection Hz as <-.
      destruct (Forall2_nth HB i Hx) as (r & Hr & Ht). exists r. split; auto.
      rewrite Nat.ltb_irrefl, Nat.eqb_refl, !andb_false_r. cbn [andb].
      replace (i <? length L) with true by (symmetry; apply Nat.ltb_lt; lia).
      replace (i =? length L) with false by (symmetry; apply Nat.eqb_neq; lia). cbn [andb].
      assert (nth i bits false = r) by (apply nth_error_nth; auto). auto.
    + rewrite nth_error_app1 in Hz by lia. destruct (F4 i j x z Hij Hx Hz) as (r & R1 & R2 & R3).
      exists r. split; auto. replace (i <? length L) with true by (symmetry; apply Nat.ltb_lt; lia).
      replace (j <? length L) with true by (symmetry; apply Nat.ltb_lt; lia). cbn [andb]. auto.
Qed.
End Faithful.

Lemma oid_eqb_ext_r a b c : oid_eqb a b = true -> oid_eqb c a = oid_eqb c b.
Proof.
  intro H. apply eq_true_iff_eq. split; intro X.
  - eapply oid_eqb_trans; eauto.
  - eapply oid_eqb_trans; eauto. rewrite oid_eqb_sym. auto.
Qed.

Section Store.
Variable O : tops.
Variable C : config.
Notation bf := (bf O).
Notation factor := (factor O).
Notation values := (values O).
Notation graph_t := (graph_t O).
Notation T := (t_T O).
Notation pcm := (pcm O).
Notation meas := (meas O).
Notation sp := (c_special C).
Notation refs := (N -> key -> T).

(** ** One call *)
Notation lc_get := (uget oid_eqb (@meas_default O)).
Notation lm_get := (uget N.eqb (@meas_default O)).

Definition record_ok {A} (test : A -> A -> option bool) (L : list A) (m : matrix) : Prop := L <> [] -> faithful test L m.


Lemma passes_odom_true (ref : refs) b : passes_odom C ref b = true <->
  (chr (b_from b) = chr (b_to b) -> c_odom_check C = true -> sp_odom_test ref b = Some true).
Proof.
  unfold passes_odom. destruct (chr (b_from b) =? chr (b_to b))%N eqn:E; cbn [andb].
  - apply N.eqb_eq in E. destruct (c_odom_check C); [|split; auto; congruence].
    destruct (sp_odom_test ref b) as [[|]|]; split; auto; intro H; try discriminate; specialize (H E eq_refl); discriminate.
  - apply N.eqb_neq in E. split; auto; congruence.
Qed.

(** State of the containers in terms of the items stored so far. *)
Record holds_lc (L : list (bf * refs)) (p : pcm) : Prop := {
  ho_lcs : forall id, me_factors (lc_get id (p_lcs p)) = filter (of_pair id) (map fst L);
  ho_adj : c_loop_check C = true -> forall id,
    record_ok (@lc_test O) (filter (fun x => of_pair id (fst x)) L) (me_adj (lc_get id (p_lcs p))) }.

Record holds_lm (M : list (sighting O)) (p : pcm) : Prop := {
  ho_lms : forall l, me_factors (lm_get l (p_lms p)) = map fst (current C l M);
  ho_lmrec : forall l, record_ok (@lm_test O) (recorded l (current C l M)) (me_adj (lm_get l (p_lms p))) }.

Lemma recorded_all l (L : list (bf * refs)) : length L <= 1 \/ (forall x, In x L -> b_from (fst x) <> l) -> recorded l L = L.
Proof.
  intro H. unfold recorded. replace ((length L <=? 1) || _) with true; auto. symmetry. apply orb_true_iff. destruct H as [H|H].
  - left. apply Nat.leb_le. auto.
  - right. apply forallb_forall. intros x Hx. apply negb_true_iff, N.eqb_neq. auto.
Qed.

Lemma recorded_but_last l (L : list (bf * refs)) x : L <> [] -> (exists y, In y (L ++ [x]) /\ b_from (fst y) = l) -> recorded l (L ++ [x]) = L.
Proof.
  intros HL (y & Hy & E). unfold recorded. rewrite app_length. cbn [length].
  destruct (length L + 1 <=? 1) eqn:E1. { apply Nat.leb_le in E1. destruct L; [congruence|cbn in E1; lia]. }
  destruct (forallb _ _) eqn:E2; cbn [orb].
  - rewrite forallb_forall in E2. specialize (E2 y Hy). apply negb_true_iff, N.eqb_neq in E2. destruct (E2 E).
  - apply removelast_last.
Qed.

Lemma recorded_full l (L : list (bf * refs)) : length (recorded l L) = length L -> recorded l L = L.
Proof.
  unfold recorded. destruct ((length L <=? 1) || _) eqn:E; auto. apply orb_false_iff in E. destruct E as [E _]. apply Nat.leb_gt in E.
  destruct L as [|x L] using rev_ind; [cbn in E; lia|]. rewrite removelast_last, app_length. cbn. lia.
Qed.

Lemma recorded_nonempty l (L : list (bf * refs)) : L <> [] -> recorded l L <> [].
Proof.
  intro H. unfold recorded. destruct ((length L <=? 1) || _) eqn:E; auto. apply orb_false_iff in E. destruct E as [E _].
  apply Nat.leb_gt in E. destruct L as [|x [|y L]]; cbn in E; try lia. discriminate.
Qed.

Lemma recorded_prefix l (L : list (bf * refs)) : exists extra, L = recorded l L ++ extra.
Proof.
  unfold recorded. destruct ((length L <=? 1) || _) eqn:E; [exists []; rewrite app_nil_r; auto|].
  destruct L as [|x L] using rev_ind; [discriminate|]. rewrite removelast_last. eauto.
Qed.

Lemma ho_lmadj M p l : holds_lm M p -> (forall x, In x (current C l M) -> b_from (fst x) <> l) ->
  record_ok (@lm_test O) (current C l M) (me_adj (lm_get l (p_lms p))).
Proof. intros H HD. rewrite <- (@recorded_all l (current C l M)) by auto. apply (ho_lmrec H). Qed.

Lemma filter_fst (P : bf -> bool) (L : list (bf * refs)) : map fst (filter (fun x => P (fst x)) L) = filter P (map fst L).
Proof. induction L as [|x L IH]; cbn; auto. destruct (P (fst x)); cbn; rewrite IH; auto. Qed.

Lemma Forall2_map_l {A B D} (f : A -> D) (P : D -> B -> Prop) l l' :
  Forall2 P (map f l) l' -> Forall2 (fun x y => P (f x) y) l l'.
Proof. revert l'. induction l as [|a l IH]; intros l' H; inversion H; subst; constructor; auto. Qed.

Lemma current_snoc l (M : list (sighting O)) x : current C l (M ++ [x]) =
  if of_landmark C l (fst (si_obs x)) then if si_first x then [si_obs x] else current C l M ++ [si_obs x] else current C l M.
Proof. unfold current. rewrite fold_left_app. auto. Qed.

Lemma holds_lc_frame L (p q : pcm) : p_lcs q = p_lcs p -> p_order q = p_order p -> holds_lc L p -> holds_lc L q.
Proof. intros E1 E2 []. split; rewrite ?E1, ?E2; auto. Qed.
Lemma holds_lm_frame M (p q : pcm) : p_lms q = p_lms p -> holds_lm M p -> holds_lm M q.
Proof. intros E1 []. split; rewrite ?E1; auto. Qed.

Lemma passes_odom_ext (r r' : refs) b : (forall c k, r c k = r' c k) -> passes_odom C r b = passes_odom C r' b.
Proof. intro H. unfold passes_odom. rewrite (sp_odom_test_ext r r' b H). auto. Qed.

Lemma parsed_stores vals b (p p' : pcm) o (ref : refs) : parsed C vals b p p' o ->
  (forall c k, tref p c k = ref c k) ->
  stores C (fun k => kmem k vals) ref b = match o with Some _ => true | None => false end /\
  (stores_lm C (fun k => kmem k vals) b = true <-> (exists adj tr, p' = store_lm C p b adj tr /\ o = None /\
     lm_grows (tref p) (sp_landmark_key sp b) (lm_get (sp_landmark_key sp b) (p_lms p)) b adj)) /\
  (stores_lm C (fun k => kmem k vals) b = false -> p_lms p' = p_lms p).
Proof.
  intros HP HR. unfold stores, stores_lm.
  assert (NE : forall adj tr q, p_total q = p_total p -> q <> store_lm C p b adj tr).
  { intros adj tr q E X. subst q. cbn in E. lia. }
  inversion HP as [Hm|tr K1 K2 Hl Hc Ho Ht|adj tr K1 K2 Hl Hg|adj tr (K1 & K2 & Hl & Ha) Hg Ht]; subst.
  - split; [destruct Hm as [-> | ->]; cbn [andb]; rewrite ?andb_false_r; auto|]. split; auto.
    split; [intro X|intros (adj & tr & X & _); exfalso; revert X; apply NE; auto].
    rewrite !andb_true_iff in X. destruct Hm; destruct X as [[X1 X2] X3]; congruence.
  - rewrite K1, K2. unfold is_landmark_factor in Hl. unfold sp_lmk. rewrite Hl. cbn [andb negb]. split.
    { rewrite <- (passes_odom_ext _ _ b HR). unfold passes_odom. apply N.eqb_eq in Hc. rewrite Hc, Ho, Ht. auto. }
    split; auto. split; [discriminate|]. intros (adj & tr' & X & _). exfalso. revert X. apply NE. auto.
  - unfold is_landmark_factor in Hl. unfold sp_lmk. rewrite Hl, K1, K2. cbn [negb andb]. split; auto.
    split; [|discriminate]. split; auto. intros _. exists adj, tr. auto.
  - rewrite K1, K2. unfold is_landmark_factor in Hl. unfold sp_lmk. rewrite Hl. cbn [andb negb].
    split; [rewrite <- (passes_odom_ext _ _ b HR); apply passes_odom_true; auto|]. split; auto.
    split; [discriminate|]. intros (? & ? & _ & X & _). discriminate.
Qed.

Lemma parsed_lc vals b (p p' : pcm) o L (ref : refs) : parsed C vals b p p' o -> holds_lc L p ->
  (forall c k, tref p c k = ref c k) ->
  holds_lc (L ++ (if stores C (fun k => kmem k vals) ref b then [(b, ref)] else [])) p'.
Proof.
  intros HP HH HR. destruct (parsed_stores _ HP HR) as (-> & _).
  inversion HP as [Hm|tr K1 K2 Hl Hc Ho Ht|adj tr K1 K2 Hl|adj tr (K1 & K2 & Hl & Ha) Hg Ht]; subst; clear HP;
    try (rewrite app_nil_r; eapply holds_lc_frame; [..|exact HH]; reflexivity).
  destruct HH as [H1 H3]. split; unfold store_lc; cbn [p_lcs p_order set_trajs set_total set_order set_lcs].
  - intro id. rewrite oid_get_set, map_app, filter_app. cbn [map filter fst]. unfold of_pair at 2.
    change (chr (b_from b), chr (b_to b)) with (pair_of b).
    rewrite (oid_eqb_sym id). destruct (oid_eqb (pair_of b) id) eqn:E; [|rewrite app_nil_r; auto].
    cbn [me_factors]. f_equal. rewrite H1. apply filter_ext. intro x. unfold of_pair.
    apply oid_eqb_ext_r. auto.
  - intros HC id. rewrite HC in Hg. rewrite oid_get_set, filter_app. cbn [filter fst]. unfold of_pair at 2.
    change (chr (b_from b), chr (b_to b)) with (pair_of b).
    rewrite (oid_eqb_sym id). destruct (oid_eqb (pair_of b) id) eqn:E; [|rewrite app_nil_r; apply H3; auto].
    intros _. cbn [me_adj].
    assert (EF : filter (fun x : bf * refs => of_pair (pair_of b) (fst x)) L = filter (fun x => of_pair id (fst x)) L).
    { apply filter_ext. intro x. unfold of_pair. apply oid_eqb_ext_r. auto. }
    specialize (H3 HC (pair_of b)). rewrite EF in H3.
    assert (HF : me_factors (lc_get (pair_of b) (p_lcs p)) = map fst (filter (fun x => of_pair id (fst x)) L)).
    { rewrite H1, <- EF. symmetry. apply filter_fst. }
    destruct Hg as [[Hn ->]|(Hn & D1 & D2 & bits & -> & HB)].
    + rewrite HF, map_length in Hn. destruct (filter _ L); [|discriminate Hn]. apply faithful_one.
    + rewrite HF, map_length. apply faithful_snoc.
      { apply H3. intro X. rewrite HF, map_length, X in Hn. cbn in Hn. lia. }
      rewrite HF in HB. apply Forall2_map_l in HB. eapply Forall2_imp; [|exact HB].
      cbn. intros x r Hx. rewrite <- Hx. unfold lc_test. cbn. apply sp_loop_test_ext. intros. symmetry. auto.
Qed.

Lemma parsed_lm vals b (p p' : pcm) o M (ref : refs) : parsed C vals b p p' o -> holds_lm M p ->
  (forall c k, tref p c k = ref c k) ->
  holds_lm (M ++ (if stores_lm C (fun k => kmem k vals) b then [Sight false (b, ref)] else [])) p'.
Proof.
  intros HP HH HR. destruct (parsed_stores _ HP HR) as (_ & S1 & S2).
  destruct (stores_lm C (fun k => kmem k vals) b) eqn:ES.
  2:{ rewrite app_nil_r. eapply holds_lm_frame; [|exact HH]. auto. }
  destruct ((proj1 S1) eq_refl) as (adj & tr & -> & _ & Hg). destruct HH as [H1 H2].
  set (l0 := sp_landmark_key sp b) in *.
  split; unfold store_lm; cbn [p_lms set_trajs set_total set_lms]; intro l; fold l0; rewrite current_snoc;
    cbn [si_obs si_first fst]; unfold of_landmark; fold l0; rewrite n_get_set, (N.eqb_sym l);
    (destruct (N.eqb_spec l0 l) as [<-|Hne]; [|auto]).
  - cbn [me_factors]. rewrite H1, map_app. auto.
  - intros _. cbn [me_adj]. specialize (H2 l0). specialize (H1 l0).
    destruct Hg as [[Hn ->]|(Hn & D1 & D2 & Hg)].
    + rewrite H1, map_length in Hn. destruct (current C l0 M); [|discriminate Hn]. apply faithful_one.
    + rewrite H1, map_length in Hn, D1, D2. rewrite H1 in Hg.
      assert (NE : current C l0 M <> []) by (intro X; rewrite X in Hn; cbn in Hn; lia).
      assert (NR : recorded l0 (current C l0 M) <> []) by (apply recorded_nonempty; auto).
      specialize (H2 NR). assert (ER : recorded l0 (current C l0 M) = current C l0 M).
      { apply recorded_full. destruct H2 as (F1 & _). lia. }
      rewrite ER in H2. destruct Hg as [(-> & f & Hf & Hl)|(bits & -> & HN & HB)].
      * rewrite recorded_but_last; auto. apply in_app_or in Hf. destruct Hf as [Hf|[<-|[]]].
        -- apply in_map_iff in Hf. destruct Hf as (x & <- & Hx). exists x. split; auto. apply in_or_app. auto.
        -- exists (b, ref). split; auto. apply in_or_app. right. left. auto.
      * rewrite recorded_all.
        2:{ right. rewrite Forall_forall in HN. intros x Hx. apply HN. apply in_app_or in Hx. apply in_or_app.
            destruct Hx as [Hx|[<-|[]]]; [left; apply in_map; auto|right; left; auto]. }
        rewrite map_length. apply faithful_snoc; auto.
        apply Forall2_map_l in HB. eapply Forall2_imp; [|exact HB].
        cbn. intros x r Hx. rewrite <- Hx. unfold lm_test. cbn. apply sp_lm_test_ext. intros. symmetry. auto.
Qed.

Lemma parsed_total vals b (p p' : pcm) o (ref : refs) : parsed C vals b p p' o -> (forall c k, tref p c k = ref c k) ->
  p_total p' = p_total p + (if stores C (fun k => kmem k vals) ref b then 1 else 0) +
    (if stores_lm C (fun k => kmem k vals) b then 1 else 0).
Proof.
  intros HP HR. destruct (parsed_stores _ HP HR) as (E & S1 & S2). rewrite E.
  destruct (stores_lm C (fun k => kmem k vals) b) eqn:ES.
  - destruct ((proj1 S1) eq_refl) as (adj & tr & -> & -> & _). cbn. lia.
  - inversion HP; subst; cbn; try lia. exfalso.
    destruct S1 as [_ S1]. discriminate S1. eauto.
Qed.

Lemma parsed_list_holds vals bs (ref : refs) : forall (p p' : pcm) , parsed_list C vals bs p p' ->
  (forall c k, tref p c k = ref c k) ->
  (forall L, holds_lc L p -> holds_lc (L ++ map (fun b => (b, ref)) (filter (stores C (fun k => kmem k vals) ref) bs)) p') /\
  (forall M, holds_lm M p -> holds_lm (M ++ map (fun b => Sight false (b, ref)) (filter (stores_lm C (fun k => kmem k vals)) bs)) p') /\
  p_total p' = p_total p + length (filter (stores C (fun k => kmem k vals) ref) bs) +
    length (filter (stores_lm C (fun k => kmem k vals)) bs).
Proof.
  intros p p' H. induction H as [p|b bs p o p1 p2 HP H IH]; intro HR.
  - cbn. split; [intros; rewrite app_nil_r; auto|]. split; [intros; rewrite app_nil_r; auto|]. lia.
  - destruct IH as (I1 & I2 & I3). { intros c k. rewrite (parsed_tref HP). auto. }
    cbn [filter]. split; [|split].
    + intros L HL. pose proof (I1 _ (parsed_lc ref HP HL HR)) as X. rewrite <- app_assoc in X.
      destruct (stores C _ ref b); exact X.
    + intros M HM. pose proof (I2 _ (parsed_lm ref HP HM HR)) as X. rewrite <- app_assoc in X.
      destruct (stores_lm C _ b); exact X.
    + rewrite I3, (parsed_total ref HP HR). destruct (stores C _ ref b), (stores_lm C _ b); cbn; lia.
Qed.

(** ** First sightings and inlier selection *)

Definition settled_lc (p : pcm) : Prop := Forall (fun kv => pair_inliers C (snd kv) = Val (snd kv)) (p_lcs p).
Definition settled_lm (p : pcm) : Prop := Forall (fun kv => heu_inliers (snd kv) = Val (snd kv)) (p_lms p).

Lemma heu_inliers_idem (m m' : meas) : heu_inliers m = Val m' -> heu_inliers m' = Val m'.
Proof.
  intro H. apply heu_inliers_inv in H. destruct H as (k & data & cs & H1 & H2 & ->).
  unfold heu_inliers. cbn [me_adj me_factors]. rewrite H1. cbn [rbind]. rewrite H2. auto.
Qed.

Lemma pair_inliers_idem (m m' : meas) : pair_inliers C m = Val m' -> pair_inliers C m' = Val m'.
Proof.
  unfold pair_inliers. destruct (c_loop_check C); [apply heu_inliers_idem|].
  intro H. injection H as <-. auto.
Qed.

Lemma umapM_settled {K} (f : meas -> res meas) (m m' : umap K meas) :
  (forall a b, f a = Val b -> f b = Val b) -> umapM f m = Val m' -> Forall (fun kv => f (snd kv) = Val (snd kv)) m'.
Proof.
  intros Hf H. apply umapM_inv in H. induction H as [|kv kv' l l' [_ H1] H IH]; constructor; auto. eapply Hf; eauto.
Qed.

Lemma find_inliers_settled (p p' : pcm) : find_inliers C p = Val p' -> settled_lc p'.
Proof.
  unfold find_inliers, settled_lc. destruct (umapM (pair_inliers C) (p_lcs p)) as [lcs|] eqn:E1; cbn [rbind]; [|discriminate].
  destruct (umapM (heu_inliers (O:=O)) (p_lms p)) as [lms|] eqn:E2; cbn [rbind]; [|discriminate].
  intro H. injection H as <-. cbn. eapply umapM_settled; [|exact E1]. apply pair_inliers_idem.
Qed.

Lemma find_settled_lm (b : bool) nn (p p' : pcm) :
  (if b then find_inliers_inc nn p else find_inliers C p) = Val p' -> settled_lm p'.
Proof.
  unfold settled_lm. destruct b.
  - unfold find_inliers_inc. match goal with |- context [rfold ?f nn (p_lcs p)] => destruct (rfold f nn (p_lcs p)) as [lcs|] end;
      cbn [rbind]; [|discriminate].
    destruct (umapM (heu_inliers (O:=O)) (p_lms p)) as [lms|] eqn:E2; cbn [rbind]; [|discriminate].
    intro H. injection H as <-. cbn. eapply umapM_settled; [|exact E2]. apply heu_inliers_idem.
  - unfold find_inliers. destruct (umapM (pair_inliers C) (p_lcs p)) as [lcs|] eqn:E1; cbn [rbind]; [|discriminate].
    destruct (umapM (heu_inliers (O:=O)) (p_lms p)) as [lms|] eqn:E2; cbn [rbind]; [|discriminate].
    intro H. injection H as <-. cbn. eapply umapM_settled; [|exact E2]. apply heu_inliers_idem.
Qed.

Lemma heu_inliers_one (b : bf) : heu_inliers (Meas [b] [b] (zero_mat 1)) = Val (Meas [b] [b] (zero_mat 1)).
Proof. reflexivity. Qed.

Lemma store_firsts_snoc fs b (lms : umap key meas) : store_firsts C (fs ++ [b]) lms =
  n_set (sp_landmark_key sp b) (Meas [b] [b] (zero_mat 1)) (store_firsts C fs lms).
Proof. unfold store_firsts. rewrite fold_left_app. auto. Qed.

Lemma firsts_holds (ref : refs) fs M (p q : pcm) : p_lms q = store_firsts C fs (p_lms p) -> holds_lm M p ->
  holds_lm (M ++ map (fun b => Sight true (b, ref)) fs) q.
Proof.
  revert q. induction fs as [|b fs IH] using rev_ind; intros q Hq HH.
  - cbn. rewrite app_nil_r. eapply holds_lm_frame; [exact Hq|auto].
  - rewrite store_firsts_snoc in Hq.
    destruct (IH (set_lms p (store_firsts C fs (p_lms p))) eq_refl HH) as [H1 H2]. cbn [p_lms set_lms] in H1, H2.
    rewrite map_app, app_assoc. cbn [map].
    split; rewrite Hq; intro l; rewrite current_snoc; cbn [si_obs si_first fst]; unfold of_landmark;
      rewrite n_get_set, (N.eqb_sym l); (destruct (N.eqb_spec (sp_landmark_key sp b) l) as [<-|Hne]; [|auto]).
    + reflexivity.
    + intros _. apply faithful_one.
Qed.

Lemma firsts_settled fs lms : Forall (fun kv : key * meas => heu_inliers (snd kv) = Val (snd kv)) lms ->
  Forall (fun kv : key * meas => heu_inliers (snd kv) = Val (snd kv)) (store_firsts C fs lms).
Proof.
  intro H. induction fs as [|b fs IH] using rev_ind; auto.
  rewrite store_firsts_snoc. apply Forall_uset; auto.
Qed.

Lemma entrywise_get {K} (eqb : K -> K -> bool) id (m m' : umap K meas) : entrywise (@reselected O) m m' ->
  me_factors (uget eqb (@meas_default O) id m') = me_factors (uget eqb (@meas_default O) id m) /\
  me_adj (uget eqb (@meas_default O) id m') = me_adj (uget eqb (@meas_default O) id m).
Proof.
  intro H. apply (entrywise_find eqb id) in H. unfold uget.
  destruct (ufind eqb id m), (ufind eqb id m'); try contradiction; auto. destruct H as (H1 & H2 & _). auto.
Qed.

Lemma selected_holds (p p' : pcm) : selected p p' ->
  (forall L, holds_lc L p -> holds_lc L p') /\ (forall M, holds_lm M p -> holds_lm M p').
Proof.
  intros (E1 & E2 & E3). split.
  - intros L [H1 H3]. split.
    + intro id. rewrite (proj1 (entrywise_get oid_eqb id E1)). auto.
    + intros HC id. rewrite (proj2 (entrywise_get oid_eqb id E1)). auto.
  - intros M [H1 H2]. split.
    + intro l. rewrite (proj1 (entrywise_get N.eqb l E2)). auto.
    + intros l. rewrite (proj2 (entrywise_get N.eqb l E2)). auto.
Qed.

(** ** A whole call *)
Variable W : soracles O.

Lemma remove_outliers_store fs nv (p p' : pcm) nfg nfg' v v' b (ref : refs) known :
  remove_outliers C (so_pcm W) fs nv (PSt p nfg v) = Ok (PSt p' nfg' v') b ->
  (forall c k, tref p' c k = ref c k) -> (forall k, known k = kmem k v') ->
  let cand := filter (sp_candidate sp nv) (betweens fs) in
  let firsts := filter (sp_first sp nv) (betweens fs) in
  (forall L, holds_lc L p -> holds_lc (L ++ map (fun x => (x, ref)) (filter (stores C known ref) cand)) p') /\
  (forall M, holds_lm M p -> holds_lm (M ++ map (fun x => Sight true (x, ref)) firsts ++
     map (fun x => Sight false (x, ref)) (filter (stores_lm C known) cand)) p') /\
  p_total p' = p_total p + length (filter (stores C known ref) cand) + length firsts + length (filter (stores_lm C known) cand) /\
  (settled_lm p -> settled_lm p') /\
  (c_incremental C = false -> settled_lc p -> settled_lc p') /\
  (cand <> [] -> p_good p' = count_cons (p_lcs p') + count_cons (p_lms p')) /\
  (cand = [] -> p_lcs p' = p_lcs p /\ p_good p' = p_good p /\ p_lms p' = store_firsts C firsts (p_lms p)).
Proof.
  intros H HR HK cand firsts. pose proof (remove_outliers_ok C W _ _ _ _ _ H) as (_ & _ & _ & KV & _).
  unfold remove_outliers in H. cbn [ps_pcm ps_nfg ps_vals] in H.
  destruct (vinsert_all nv v) as [vs u| |] eqn:EV; try discriminate.
  assert (KVS : forall k, known k = kmem k vs).
  { intro k. rewrite HK, KV. symmetry. apply vinsert_all_ok in EV. destruct EV as (EV & _). unfold kmem. rewrite EV. destruct (kfind k v); auto. }
  destruct fs as [|of fs'].
  { injection H as <- <- <- <-. subst cand firsts. cbn.
    split; [intros; rewrite app_nil_r; auto|]. split; [intros; rewrite app_nil_r; auto|]. split; [lia|].
    split; [auto|]. split; [auto|]. split; [congruence|]. auto. }
  set (FS := of :: fs') in *.
  destruct (proc_factors C nv vs FS p ([], false)) as [p1 [lcs opt]| |] eqn:EP; try discriminate.
  match type of H with (match ?r with Bad _ => _ | Val _ => _ end) = _ => destruct r as [[p3 opt']|] eqn:ER end; [|discriminate].
  assert (FIN : p_lcs p' = p_lcs p3 /\ p_order p' = p_order p3 /\ p_lms p' = p_lms p3 /\ p_total p' = p_total p3 /\
                p_good p' = p_good p3 /\ p_trajs p' = p_trajs p3).
  { destruct (c_align C && (1 <? length (p_robots p3))).
    - destruct (align (so_pcm W) (set_robots p3 (nsort (p_robots p3))) vs) as [vs' []| |]; try discriminate.
      injection H as <- _ _ _. auto 7.
    - injection H as <- _ _ _. auto 7. }
  destruct FIN as (F1 & F2 & F3 & F4 & F5 & F6).
  pose proof (proc_factors_frame _ _ _ _ _ _ EP) as (_ & _ & P3 & P4 & P5 & _ & P7 & P8 & P9 & _).
  cbn [fst app] in P9. fold cand in P9. fold firsts in P7, P8. subst lcs.
  assert (HR3 : forall c k, tref p3 c k = ref c k).
  { intros c k. rewrite <- HR. symmetry. apply tref_trajs. auto. }
  assert (FL : forall L, holds_lc L p3 -> holds_lc L p') by (intro L; apply holds_lc_frame; auto).
  assert (FM : forall M, holds_lm M p3 -> holds_lm M p') by (intro M; apply holds_lm_frame; auto).
  assert (E1 : filter (stores C known ref) cand = filter (stores C (fun k => kmem k vs) ref) cand).
  { apply filter_ext. intro x. unfold stores. rewrite !KVS. auto. }
  assert (E2 : filter (stores_lm C known) cand = filter (stores_lm C (fun k => kmem k vs)) cand).
  { apply filter_ext. intro x. unfold stores_lm. rewrite !KVS. auto. }
  assert (SL1 : settled_lm p -> settled_lm p1).
  { unfold settled_lm. rewrite P8. apply firsts_settled. }
  rewrite E1, E2. clearbody cand.
  destruct cand as [|b0 bs] eqn:EC.
  - injection ER as <- <-. cbn [filter map length]. rewrite app_nil_r.
    split. { intros L HL. rewrite app_nil_r. apply FL. eapply holds_lc_frame; [..|exact HL]; auto. }
    split. { intros M HM. apply FM. eapply firsts_holds; eauto. }
    split; [lia|]. split. { intro X. unfold settled_lm. rewrite F3. apply SL1. auto. }
    split. { intros _ X. unfold settled_lc. rewrite F1, P3. auto. }
    split; [congruence|]. intros _. split; [congruence|]. split; congruence.
  - assert (NC : cand <> []) by congruence. rewrite <- EC in *. clear b0 bs EC.
    destruct (parse_all C vs cand p1) as [[p2 nn]|] eqn:EA; cbn [rbind] in ER; [|discriminate].
    destruct (if c_incremental C then find_inliers_inc nn p2 else find_inliers C p2) as [q|] eqn:EF;
      cbn [rbind] in ER; [|discriminate]. injection ER as <- <-.
    apply parse_all_inv in EA. destruct EA as [HP Ha].
    assert (HS : selected p2 q).
    { destruct (c_incremental C); [eapply find_inliers_inc_selected; eauto|apply (find_inliers_selected C); auto]. }
    pose proof (selected_ok C HS) as (_ & _ & _ & _ & S5 & _ & S7 & S8 & _).
    pose proof (parsed_list_ok HP) as (_ & _ & _ & _ & _ & T1 & _).
    assert (HR1 : forall c k, tref p1 c k = ref c k).
    { intros c k. rewrite <- T1, <- HR3. symmetry. apply tref_trajs. auto. }
    destruct (parsed_list_holds ref HP HR1) as (Q1 & Q2 & Q3).
    destruct (selected_holds HS) as (R1 & R2).
    split. { intros L HL. apply FL, R1, Q1. eapply holds_lc_frame; [..|exact HL]; auto. }
    split. { intros M HM. rewrite app_assoc. apply FM, R2, Q2. eapply firsts_holds; eauto. }
    split; [lia|]. split. { intros _. unfold settled_lm. rewrite F3. eapply find_settled_lm; eauto. }
    split. { intros X _. rewrite X in EF. unfold settled_lc. rewrite F1. eapply find_inliers_settled; eauto. }
    split. { intros _. congruence. }
    intro X. contradiction.
Qed.

(** ** Histories *)
Notation op := (op O).
Notation solver := (solver O).
Notation start := (@solver_init O true).

Lemma along_snoc {A} (f : list op -> op -> list A) done todo o :
  along f done (todo ++ [o]) = along f done todo ++ f (done ++ todo) o.
Proof.
  revert done. induction todo as [|x todo IH]; intro done; cbn [along app].
  - rewrite !app_nil_r. auto.
  - rewrite IH, <- !app_assoc. auto.
Qed.

Lemma sp_stored_snoc h o : sp_stored C W (h ++ [o]) = sp_stored C W h ++ newly C W h o.
Proof. apply along_snoc. Qed.
Lemma sp_sightings_snoc h o : sp_sightings C W (h ++ [o]) = sp_sightings C W h ++ sighted C W h o.
Proof. apply along_snoc. Qed.

Lemma knows_supplied (h : list op) k : knows h k = true <-> supplied h k.
Proof.
  unfold knows, supplied. rewrite existsb_exists. split.
  - intros (o & Hin & H). destruct (call_of o) as [[fs vs]|] eqn:E; [|discriminate].
    exists o, fs, vs. split; auto. split; auto. unfold sp_supplied in H. destruct (in_dec _ _ _); auto. discriminate.
  - intros (o & fs & vs & Hin & E & H). exists o. split; auto. rewrite E. unfold sp_supplied.
    destruct (in_dec _ _ _); auto.
Qed.

Lemma refs_after_run h (s : solver) rs p : run C W h start = Ok s rs -> s_pcm s = Some p -> refs_after C W h = tref p.
Proof. intros H Hp. unfold refs_after. rewrite H, Hp. auto. Qed.

Record store_inv (h : list op) (p : pcm) : Prop := {
  si_total : p_total p = length (sp_stored C W h) + length (sp_sightings C W h);
  si_lm : holds_lm (sp_sightings C W h) p;
  si_lms : settled_lm p;
  si_lc : no_removal h -> holds_lc (sp_stored C W h) p;
  si_lcset : no_removal h -> c_incremental C = false -> settled_lc p }.

Lemma store_inv_init : store_inv [] pcm_init.
Proof.
  split; cbn; auto; try (intros; constructor); cbn; auto.
  - intros l X. cbn in X. congruence.
  - intros _ id X. congruence.
Qed.

Lemma store_inv_step h (s : solver) o (s' : solver) r rs p : run C W h start = Ok s rs -> s_pcm s = Some p -> store_inv h p ->
  step C W o s = Ok s' r -> exists p', s_pcm s' = Some p' /\ store_inv (h ++ [o]) p'.
Proof.
  intros HR Hp [I1 I2 I3 I4 I5] Hs. pose proof (step_inv C W o s Hp Hs) as (s1 & p' & b & [E0 E] & _ & _ & _ & Ho).
  assert (Hp' : s_pcm s' = Some p' /\ s_vals s' = s_vals s' ).
  { destruct (optimises o b); [|split; congruence]. destruct (optimize_same C W s1 Ho) as (G & _). split; congruence. }
  destruct Hp' as [Hp' _]. exists p'. split; auto.
  assert (HR' : run C W (h ++ [o]) start = Ok s' (rs ++ [r])).
  { eapply run_app_ok; eauto. cbn [run]. rewrite Hs. reflexivity. }
  assert (NR : forall h', no_removal (h' ++ [o]) -> no_removal h') by (intros h' X x Hx; apply X, in_or_app; auto).
  assert (NRo : no_removal (h ++ [o]) -> is_removal o = false) by (intro X; apply X, in_or_app; right; left; auto).
  assert (FR : call_of o = None -> p_lms p' = p_lms p -> p_total p' = p_total p ->
     (is_removal o = false -> p_lcs p' = p_lcs p /\ p_order p' = p_order p) -> store_inv (h ++ [o]) p').
  { intros Hc L1 L2 L3. split; rewrite ?sp_stored_snoc, ?sp_sightings_snoc; unfold newly, sighted; rewrite ?Hc, ?app_nil_r.
    - congruence.
    - eapply holds_lm_frame; eauto.
    - unfold settled_lm. rewrite L1. auto.
    - intro X. destruct (L3 (NRo X)). eapply holds_lc_frame; eauto.
    - intros X Y. destruct (L3 (NRo X)) as [H _]. unfold settled_lc. rewrite H. apply I5; eauto. }
  assert (CALL : forall fs vs, call_of o = Some (fs, vs) -> is_removal o = false ->
    (exists b, remove_outliers C (so_pcm W) fs vs (PSt p (s_nfg s) (s_vals s)) = Ok (PSt p' (s_nfg s1) (s_vals s1)) b) ->
    store_inv (h ++ [o]) p').
  { intros fs vs Hc Hr [b' HO].
    destruct (hist_run C W _ HR) as [p0 I0]. assert (p0 = p) by (pose proof (hi_pcm I0); congruence). subst p0.
    pose proof (remove_outliers_ok C W _ _ _ _ _ HO) as (_ & _ & _ & KV & _).
    pose proof (@remove_outliers_store fs vs p p' _ _ _ _ b' (refs_after C W (h ++ [o])) (knows (h ++ [o])) HO) as R.
    destruct R as (R1 & R2 & R3 & R4 & R5 & _).
    - intros c k. rewrite (refs_after_run _ HR' Hp'). auto.
    - intro k. rewrite KV. apply eq_true_iff_eq. rewrite knows_supplied, supplied_snoc, orb_true_iff, (hi_keys I0).
      rewrite kmem_In. split; (intros [X|X]; [auto|right]).
      + destruct X as (fs' & vs' & X & Y). rewrite Hc in X. injection X as <- <-. exact Y.
      + exists fs, vs. auto.
    - split; rewrite ?sp_stored_snoc, ?sp_sightings_snoc; unfold newly, sighted; rewrite ?Hc.
      + rewrite R3, I1, !app_length, !map_length. lia.
      + apply R2; auto.
      + auto.
      + intro X. apply R1. auto.
      + intros X Y. apply R5; auto. }
  destruct o as [fs vs opt|fs vs|c opt|a0 b0| |c|c|fs vs|fs vs|]; cbn [call_of is_removal] in *.
  1,2: apply CALL with fs vs; auto.
  all: apply FR; auto; clear FR CALL.
  all: try (destruct E as (-> & _)); cbn; auto.
  all: try (intros _; split; reflexivity).
  - destruct E as (e & _ & X & _). apply pcm_remove_last_id_frame in X. destruct X as (lcs & -> & _). auto.
  - destruct E as (e & _ & X & _). apply pcm_remove_last_id_frame in X. destruct X as (lcs & -> & _). auto.
  - discriminate.
  - destruct E as (e & _ & X & _). apply pcm_remove_last_frame in X. destruct X as [(_ & -> & _)|(od & id & _ & X)]; auto.
    apply pcm_remove_last_id_frame in X. destruct X as (lcs & -> & _). auto.
  - destruct E as (e & _ & X & _). apply pcm_remove_last_frame in X. destruct X as [(_ & -> & _)|(od & id & _ & X)]; auto.
    apply pcm_remove_last_id_frame in X. destruct X as (lcs & -> & _). auto.
  - discriminate.
  - unfold pcm_ignore. destruct (existsb _ _); auto.
  - unfold pcm_ignore. destruct (existsb _ _); auto.
  - unfold pcm_ignore. destruct (existsb _ _); auto.
Qed.

Lemma store_run h (s : solver) rs : run C W h start = Ok s rs -> exists p, s_pcm s = Some p /\ store_inv h p.
Proof.
  apply (run_ind C W (fun h s => exists p, s_pcm s = Some p /\ store_inv h p)).
  - exists pcm_init. split; auto. apply store_inv_init.
  - intros h' s1 o s2 r rs' HR (p & Hp & I) HS. eapply store_inv_step; eauto.
Qed.
End Store.
