(** * Which stored loop closures and landmark observations are in the graph *)
From Coq Require Import Permutation.
From Verif Require Import Prelude Num Keys KMap UMap Geometry Factors Clique CliqueSpec CliqueHeu Pcm Solver ValuesProofs
  PcmSpec PcmProofs PcmInv PcmStore HistSpec StoreSpec SolverProofs HistProofs GraphProofs StoreProofs.
Set Implicit Arguments.
Local Open Scope nat_scope.

Section Pick.
Variables (K V B : Type) (eqb : K -> K -> bool).
Hypothesis eqb_sym : forall a b, eqb a b = eqb b a.
Hypothesis eqb_trans : forall a b c, eqb a b = true -> eqb b c = true -> eqb a c = true.

Lemma filter_distinct id (m : umap K V) : ukeys_distinct eqb m ->
  filter (fun kv => eqb id (fst kv)) m = match ufind eqb id m with
    | None => []
    | Some v => filter (fun kv => eqb id (fst kv)) m
    end /\
  forall v, ufind eqb id m = Some v -> exists k, filter (fun kv => eqb id (fst kv)) m = [(k, v)].
Proof.
  unfold ukeys_distinct. induction m as [|[k0 v0] m IH]; intro H.
  - cbn. split; auto. discriminate.
  - inversion H as [|? ? Hf Ho]; subst. destruct (IH Ho) as [I1 I2]. cbn [filter ufind fst].
    destruct (eqb id k0) eqn:E.
    + split; auto. intros v X. injection X as <-. exists k0. f_equal.
      rewrite Forall_forall in Hf. clear -Hf E eqb_sym eqb_trans.
      induction m as [|[k v] m IH]; auto. cbn [filter fst].
      assert (Hk : eqb k0 k = false) by (apply (Hf (k, v)); left; auto).
      destruct (eqb id k) eqn:E2.
      * exfalso. apply not_true_iff_false in Hk. apply Hk. eapply eqb_trans; [|exact E2]. rewrite eqb_sym. auto.
      * apply IH. intros x Hx. apply Hf. right. auto.
    + split; auto.
Qed.

Lemma pick (F : B -> bool) (g : K * V -> list B) (hh : V -> list B) (d : V) order id (m : umap K V) :
  ukeys_distinct eqb m -> hh d = [] ->
  (forall kv, In kv m -> filter F (g kv) = if eqb id (fst kv) then hh (snd kv) else []) ->
  filter F (flat_map g (uiter order m)) = hh (uget eqb d id m).
Proof.
  intros HD H0 HG. pose proof (uiter_perm order m) as HP. set (l := uiter order m) in *. clearbody l.
  assert (E1 : filter F (flat_map g l) = flat_map (fun kv => hh (snd kv)) (filter (fun kv => eqb id (fst kv)) l)).
  { assert (HG' : forall kv, In kv l -> filter F (g kv) = if eqb id (fst kv) then hh (snd kv) else []).
    { intros kv Hk. apply HG. eapply Permutation_in; eauto. }
    clear -HG'. induction l as [|kv l IH]; auto. cbn [flat_map filter].
    rewrite filter_app, HG', IH by (intros; try apply HG'; cbn; auto).
    destruct (eqb id (fst kv)); auto. }
  rewrite E1. destruct (filter_distinct id HD) as [D1 D2]. unfold uget.
  assert (HPf : Permutation (filter (fun kv => eqb id (fst kv)) l) (filter (fun kv => eqb id (fst kv)) m)).
  { clear -HP. induction HP; cbn; auto.
    - destruct (eqb id (fst x)); auto.
    - destruct (eqb id (fst x)), (eqb id (fst y)); auto. apply perm_swap.
    - etransitivity; eauto. }
  destruct (ufind eqb id m) as [v|] eqn:E.
  - destruct (D2 v eq_refl) as [k Hk]. rewrite Hk in HPf. apply Permutation_sym, Permutation_length_1_inv in HPf.
    rewrite HPf. cbn. apply app_nil_r.
  - rewrite D1 in HPf. apply Permutation_sym, Permutation_nil in HPf. rewrite HPf, H0. auto.
Qed.
End Pick.

Section Accept.
Variable O : tops.
Variable C : config.
Variable W : soracles O.
Notation bf := (bf O).
Notation factor := (factor O).
Notation values := (values O).
Notation graph_t := (graph_t O).
Notation T := (t_T O).
Notation pcm := (pcm O).
Notation meas := (meas O).
Notation sp := (c_special C).
Notation refs := (N -> key -> T).
Notation op := (op O).
Notation solver := (solver O).
Notation start := (@solver_init O true).
Notation lc_get := (uget oid_eqb (@meas_default O)).
Notation lm_get := (uget N.eqb (@meas_default O)).

Lemma betweens_map_Some (l : list bf) : betweens (map Some (map FBetween l)) = l.
Proof. induction l as [|b l IH]; cbn; auto. unfold betweens in IH. rewrite IH. auto. Qed.

Lemma graph_extra_eq h (s : solver) p : hist_inv C W h s p ->
  graph_extra C h (s_nfg s) = build_lcs (so_pcm W) p ++ build_lms (so_pcm W) p.
Proof.
  intro I. unfold graph_extra. rewrite (graph_split I), app_assoc, map_app.
  replace (length (sp_odoms sp h) + length (sp_others h)) with
    (length (map Some (map FBetween (sp_odoms sp h) ++ sp_others h)) + 0) by (rewrite map_length, app_length, map_length; lia).
  rewrite skipn_app, skipn_all2 by lia. rewrite Nat.add_0_r, Nat.sub_diag. cbn [app skipn]. apply betweens_map_Some.
Qed.

Lemma filter_none {A} (F : A -> bool) l : (forall x, In x l -> F x = false) -> filter F l = [].
Proof. induction l as [|x l IH]; intro H; cbn; auto. rewrite H by (left; auto). apply IH. intros; apply H; right; auto. Qed.
Lemma filter_all {A} (F : A -> bool) l : (forall x, In x l -> F x = true) -> filter F l = l.
Proof. induction l as [|x l IH]; intro H; cbn; auto. rewrite H by (left; auto). f_equal. apply IH. intros; apply H; right; auto. Qed.


Lemma ignored_eq h (s : solver) p id : hist_inv C W h s p -> ignored p id = pair_ignored h id.
Proof.
  intro I. unfold ignored, pair_ignored.
  assert (G : forall c, existsb (N.eqb c) (p_ignored p) = sp_ignored h c).
  { intro c. apply eq_true_iff_eq. rewrite <- (hi_ign I), existsb_exists. split.
    - intros (x & Hx & E). apply N.eqb_eq in E. subst. auto.
    - intro H. exists c. split; auto. apply N.eqb_refl. }
  rewrite !G. auto.
Qed.

Lemma pair_ignored_ext h id id' : oid_eqb id id' = true -> @pair_ignored O h id = pair_ignored h id'.
Proof.
  rewrite oid_eqb_spec. unfold pair_ignored. intros [[-> ->]|[-> ->]]; auto. apply orb_comm.
Qed.

Lemma graph_lcs_eq h (s : solver) p id : hist_inv C W h s p ->
  graph_lcs C h id (s_nfg s) = if pair_ignored h id then [] else me_cons (lc_get id (p_lcs p)).
Proof.
  intro I. unfold graph_lcs. rewrite (graph_extra_eq I), filter_app.
  pose proof (hi_stored I) as [S1 S2 S3 S4]. rewrite Forall_forall in S1, S2.
  rewrite (filter_none _ (build_lms (so_pcm W) p)).
  2:{ intros x Hx. unfold build_lms in Hx. apply in_flat_map in Hx. destruct Hx as ([k m] & Hk & Hx).
      eapply Permutation_in in Hk; [|apply uiter_perm]. destruct (S2 _ Hk) as [L1 L2]. cbn [fst snd] in *.
      rewrite Forall_forall in L1. apply L2, L1 in Hx. destruct Hx as (_ & Hx & _). unfold is_landmark_factor in Hx.
      unfold sp_lmk. rewrite Hx. apply andb_false_r. }
  rewrite app_nil_r. unfold build_lcs.
  rewrite (@pick _ _ _ oid_eqb oid_eqb_sym oid_eqb_trans _ _ (fun m => if pair_ignored h id then [] else me_cons m) (@meas_default O) _ id).
  - destruct (pair_ignored h id); auto.
  - auto.
  - destruct (pair_ignored h id); auto.
  - intros [k m] Hk. cbn [fst snd]. destruct (S1 _ Hk) as [L1 L2]. cbn [fst snd] in *. rewrite Forall_forall in L1.
    rewrite (ignored_eq _ I). destruct (oid_eqb id k) eqn:E.
    + rewrite (pair_ignored_ext h _ _ E). destruct (pair_ignored h k); auto. apply filter_all.
      intros x Hx. apply L2, L1 in Hx. destruct Hx as (Hx & Hl & _). unfold is_landmark_factor in Hl. unfold sp_lmk. rewrite Hl, andb_true_r.
      unfold of_pair. change (chr (b_from x), chr (b_to x)) with (pair_of x).
      rewrite (oid_eqb_ext_r _ _ (pair_of x) E). auto.
    + destruct (pair_ignored h k); auto. apply filter_none.
      intros x Hx. apply L2, L1 in Hx. destruct Hx as (Hx & Hl & _). apply andb_false_iff. left.
      unfold of_pair. change (chr (b_from x), chr (b_to x)) with (pair_of x). rewrite oid_eqb_sym.
      rewrite (oid_eqb_ext_r _ _ id Hx). auto.
Qed.

Lemma graph_lms_eq h (s : solver) p l : hist_inv C W h s p ->
  graph_lms C h l (s_nfg s) = me_cons (lm_get l (p_lms p)).
Proof.
  intro I. unfold graph_lms. rewrite (graph_extra_eq I), filter_app.
  pose proof (hi_stored I) as [S1 S2 S3 S4]. rewrite Forall_forall in S1, S2.
  rewrite (filter_none _ (build_lcs (so_pcm W) p)).
  2:{ intros x Hx. unfold build_lcs in Hx. apply in_flat_map in Hx. destruct Hx as ([k m] & Hk & Hx).
      eapply Permutation_in in Hk; [|apply uiter_perm]. destruct (S1 _ Hk) as [L1 L2]. cbn [fst snd] in *.
      destruct (ignored p k); [destruct Hx|].
      rewrite Forall_forall in L1. apply L2, L1 in Hx. destruct Hx as (_ & Hx & _). unfold is_landmark_factor in Hx.
      unfold sp_lmk. rewrite Hx. apply andb_false_r. }
  cbn [app]. unfold build_lms.
  rewrite (@pick _ _ _ N.eqb N.eqb_sym Neqb_trans _ _ (fun m => me_cons m) (@meas_default O) _ l); auto.
  intros [k m] Hk. cbn [fst snd]. destruct (S2 _ Hk) as [L1 L2]. cbn [fst snd] in *. rewrite Forall_forall in L1.
  destruct (N.eqb_spec l k) as [->|Hne].
  - apply filter_all. intros x Hx. apply L2, L1 in Hx. destruct Hx as (Hx & Hl & _). unfold is_landmark_factor in Hl.
    unfold sp_lmk, of_landmark. rewrite Hl, andb_true_r, Hx. apply N.eqb_refl.
  - apply filter_none. intros x Hx. apply L2, L1 in Hx. destruct Hx as (Hx & _). apply andb_false_iff. left.
    unfold of_landmark. apply N.eqb_neq. congruence.
Qed.

(** ** Adjacency and agreement *)

Lemma faithful_edge (test : bf * refs -> bf * refs -> option bool) L m i j : faithful test L m ->
  edge m i j <-> agree test L i j.
Proof.
  intros (F1 & F2 & F3 & F4). unfold edge, agree. rewrite F1, F2. split.
  - intros (Hi & Hj & H). destruct (nth_error L i) as [x|] eqn:Ei; [|apply nth_error_None in Ei; lia].
    destruct (nth_error L j) as [y|] eqn:Ej; [|apply nth_error_None in Ej; lia].
    exists x, y. split; auto. split; auto. destruct H as [(H & _ & Hm)|(H & _ & Hm)].
    + right. split; auto. destruct (F4 j i y x H Ej Ei) as (r & R1 & R2 & R3). congruence.
    + left. split; auto. destruct (F4 i j x y H Ei Ej) as (r & R1 & R2 & R3). congruence.
  - intros (x & y & Hx & Hy & H).
    assert (Li : i < length L) by (apply nth_error_Some; congruence).
    assert (Lj : j < length L) by (apply nth_error_Some; congruence).
    split; auto. split; auto. destruct H as [[H Ht]|[H Ht]].
    + right. destruct (F4 i j x y H Hx Hy) as (r & R1 & R2 & R3). repeat split; auto. congruence.
    + left. destruct (F4 j i y x H Hy Hx) as (r & R1 & R2 & R3). repeat split; auto. congruence.
Qed.

Lemma NoDup_perm_select {A} (L : list A) idx cs :
  Forall2 (fun i b => nth_error L i = Some b) idx cs -> Permutation idx (seq 0 (length L)) -> Permutation cs L.
Proof.
  intros HF HP. 
  assert (G : forall idx idx', Permutation idx idx' -> forall cs, Forall2 (fun i b => nth_error L i = Some b) idx cs ->
     exists cs', Forall2 (fun i b => nth_error L i = Some b) idx' cs' /\ Permutation cs cs').
  { clear. intros idx idx' HP. induction HP as [|x l l' HP IH|x y l|l1 l2 l3 H1 IH1 H2 IH2]; intros cs HF.
    - inversion HF; subst. exists []. auto.
    - inversion HF as [|? b ? cs0 Hb HF']; subst. destruct (IH _ HF') as (cs' & A1 & A2). exists (b :: cs'). auto.
    - inversion HF as [|? b ? cs0 Hb HF']; subst. inversion HF' as [|? b' ? cs1 Hb' HF'']; subst.
      exists (b' :: b :: cs1). split; auto. apply perm_swap.
    - destruct (IH1 _ HF) as (c1 & A1 & A2). destruct (IH2 _ A1) as (c2 & B1 & B2). exists c2. split; auto. etransitivity; eauto. }
  destruct (G _ _ HP _ HF) as (cs' & H1 & H2). rewrite H2. clear -H1.
  assert (E : forall a (L1 L2 : list A) cs', L = L1 ++ L2 -> length L1 = a ->
     Forall2 (fun i b => nth_error L i = Some b) (seq a (length L2)) cs' -> cs' = L2).
  { clear. intros a L1 L2. revert a L1. induction L2 as [|x L2 IH]; intros a L1 cs' HL Ha HF; cbn [length seq] in HF.
    - inversion HF. auto.
    - inversion HF as [|? b ? cs0 Hb HF']; subst. rewrite nth_error_app2, Nat.sub_diag in Hb by lia. cbn in Hb.
      injection Hb as ->. f_equal. apply (IH (S (length L1)) (L1 ++ [b])); auto.
      + rewrite <- app_assoc. auto.
      + rewrite app_length. cbn. lia. }
  rewrite (E 0 [] L cs'); auto.
Qed.

Lemma Forall2_In_imp {A B} (P Q : A -> B -> Prop) l l' : (forall a b, In a l -> P a b -> Q a b) -> Forall2 P l l' -> Forall2 Q l l'.
Proof. intros H F. induction F; constructor; auto with datatypes. Qed.

(** Items beyond the record cannot be selected. *)
Lemma heu_star (test : bf * refs -> bf * refs -> option bool) L extra m k data cs : L <> [] -> faithful test L m ->
  find_max_clique_heu m = Val (k, data) -> select (map fst L ++ extra) k data = Val cs -> star_of test L cs.
Proof.
  intros HL HF HK HS. pose proof HF as (F1 & F2 & _).
  assert (Hr : 0 < m_rows m) by (rewrite F1; destruct L; [congruence|cbn; lia]).
  apply select_inv in HS. destruct HS as (Hk & Hlen & HS).
  assert (HE : forall x y, edge m x y <-> agree test L x y) by (intros; apply faithful_edge; auto).
  assert (HI : forall i, In i (firstn (Z.to_nat k) data) -> i < length L).
  { destruct (@find_heu_star _ _ _ Hr HK) as (_ & c & l & E & Hc & Hs). rewrite E, <- F1. intros i [<-|Hi]; auto. apply Hs in Hi. apply Hi. }
  apply (@Forall2_In_imp _ _ _ (fun i b => nth_error (map fst L) i = Some b)) in HS.
  2:{ intros i b Hi Hb. rewrite nth_error_app1 in Hb; auto. rewrite map_length. auto. }
  exists (firstn (Z.to_nat k) data). split; auto. split; [|split; [|split]].
  - destruct (@find_heu_star _ _ _ Hr HK) as (_ & c & l & E & _ & Hs). exists c, l. split; auto. intros x Hx. apply HE. auto.
  - intro H2. apply (@find_heu_small _ _ _ HK). rewrite firstn_length in H2.
    assert (Z.to_nat k <= 2) by lia. lia.
  - intro Ht. destruct (@find_heu_trans_spec m) as (l & rest & c & E & (HC & Hmax) & _); auto.
    { intros x y z A B D. apply HE. apply (Ht x y z); auto; apply HE; auto. }
    rewrite E in HK. injection HK as <- <-. rewrite Nat2Z.id, firstn_app, firstn_all, Nat.sub_diag. cbn [firstn].
    rewrite app_nil_r. destruct HC as (C1 & C2 & C3). split; auto. split.
    + intros x y X Y N. apply HE. auto.
    + intros idx' D1 D2 D3. apply Hmax. split; auto. split; [rewrite F1; auto|]. intros x y X Y N. apply HE. auto.
  - intro Hc. destruct (@find_heu_complete m) as (l & rest & E & HP); auto.
    { intros x y X Y N. apply HE. rewrite F1 in *. auto. }
    rewrite E in HK. injection HK as <- <-. rewrite Nat2Z.id, F1 in HS.
    assert (LL : length l = length L).
    { apply Permutation_length in HP. rewrite seq_length, F1 in HP. auto. }
    rewrite <- LL, firstn_app, firstn_all, Nat.sub_diag in HS. cbn [firstn] in HS. rewrite app_nil_r in HS.
    eapply NoDup_perm_select; eauto. rewrite map_length, <- F1. auto.
Qed.

(** ** Whole histories *)

Lemma store_hist h (s : solver) rs : run C W h start = Ok s rs -> exists p, hist_inv C W h s p /\ store_inv C W h p.
Proof.
  intro H. destruct (hist_run _ _ _ H) as [p I]. destruct (store_run C W h H) as (p' & Hp & J).
  exists p. split; auto. rewrite (hi_pcm I) in Hp. injection Hp as <-. auto.
Qed.

Lemma settled_get {K} (eqb : K -> K -> bool) (f : meas -> res meas) id m :
  Forall (fun kv : K * meas => f (snd kv) = Val (snd kv)) m ->
  ufind eqb id m = None \/ exists v, ufind eqb id m = Some v /\ f v = Val v.
Proof.
  intro H. destruct (ufind eqb id m) as [v|] eqn:E; auto. right. exists v. split; auto.
  apply ufind_In in E. destruct E as (k & _ & Hin). rewrite Forall_forall in H. apply (H _ Hin).
Qed.

Lemma accepted_off h (s : solver) rs id : run C W h start = Ok s rs -> no_removal h -> c_incremental C = false ->
  c_loop_check C = false -> pair_ignored h id = false ->
  graph_lcs C h id (s_nfg s) = map fst (pair_items C W id h).
Proof.
  intros H NR HI HC HG. destruct (store_hist _ H) as (p & I & J). rewrite (graph_lcs_eq id I), HG.
  unfold pair_items. rewrite filter_fst. rewrite <- (ho_lcs (si_lc J NR)).
  unfold uget. destruct (settled_get oid_eqb _ id (si_lcset J NR HI)) as [->|(v & -> & Hv)]; auto.
  unfold pair_inliers in Hv. rewrite HC in Hv. injection Hv as Hv. rewrite <- Hv at 1. auto.
Qed.

Lemma accepted_on h (s : solver) rs id : run C W h start = Ok s rs -> no_removal h -> c_incremental C = false ->
  c_loop_check C = true -> pair_ignored h id = false -> pair_items C W id h <> [] ->
  star_of (@lc_test O) (pair_items C W id h) (graph_lcs C h id (s_nfg s)).
Proof.
  intros H NR HI HC HG HN. destruct (store_hist _ H) as (p & I & J). rewrite (graph_lcs_eq id I), HG.
  pose proof (ho_lcs (si_lc J NR) id) as H1. pose proof (ho_adj (si_lc J NR) HC id HN) as H2.
  fold (pair_items C W id h) in H2. rewrite <- filter_fst in H1. fold (pair_items C W id h) in H1.
  unfold uget in *. destruct (settled_get oid_eqb _ id (si_lcset J NR HI)) as [E|(v & E & Hv)]; rewrite E in *.
  - cbn in H1. destruct (pair_items C W id h); [congruence|discriminate H1].
  - unfold pair_inliers in Hv. rewrite HC in Hv. apply heu_inliers_inv in Hv. destruct Hv as (k & data & cs & V1 & V2 & V3).
    assert (me_cons v = cs) as -> by (rewrite V3; auto). rewrite H1, <- (app_nil_r (map fst _)) in V2. eapply heu_star; eauto.
Qed.

Lemma accepted_lm h (s : solver) rs l : run C W h start = Ok s rs ->
  current C l (sp_sightings C W h) <> [] ->
  star_of (@lm_test O) (recorded l (current C l (sp_sightings C W h))) (graph_lms C h l (s_nfg s)).
Proof.
  intros H HN. destruct (store_hist _ H) as (p & I & J). rewrite (graph_lms_eq l I).
  pose proof (ho_lms (si_lm J) l) as H1. pose proof (ho_lmrec (si_lm J) l (recorded_nonempty l HN)) as H2.
  unfold uget in *. destruct (settled_get N.eqb _ l (si_lms J)) as [E|(v & E & Hv)]; rewrite E in *.
  - cbn in H1. destruct (current C l (sp_sightings C W h)); [congruence|discriminate H1].
  - apply heu_inliers_inv in Hv. destruct Hv as (k & data & cs & V1 & V2 & V3).
    assert (me_cons v = cs) as -> by (rewrite V3; auto). rewrite H1 in V2.
    destruct (recorded_prefix l (current C l (sp_sightings C W h))) as [extra E']. rewrite E', map_app in V2.
    eapply heu_star; [apply recorded_nonempty; exact HN|exact H2|exact V1|exact V2].
Qed.
End Accept.
