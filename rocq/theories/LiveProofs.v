(** * Removal of loop closures *)
From Verif Require Import Prelude Num Keys KMap UMap Geometry Factors Clique CliqueSpec CliqueHeu Pcm Solver ValuesProofs
  PcmSpec PcmProofs PcmInv PcmStore HistSpec StoreSpec SolverProofs HistProofs GraphProofs StoreProofs AcceptProofs.
Set Implicit Arguments.
Local Open Scope nat_scope.

Lemma filter_rev' {A} (F : A -> bool) l : filter F (rev l) = rev (filter F l).
Proof.
  induction l as [|x l IH]; cbn; auto. rewrite filter_app, IH. cbn. destruct (F x); cbn; auto. apply app_nil_r.
Qed.

Lemma drop_first_filter {A} (F : A -> bool) l : filter F (drop_first F l) = tl (filter F l).
Proof. induction l as [|x l IH]; cbn; auto. destruct (F x) eqn:E; cbn; auto. rewrite E. auto. Qed.
Lemma drop_first_other {A} (F G : A -> bool) l : (forall x, F x = true -> G x = false) -> filter G (drop_first F l) = filter G l.
Proof.
  intro H. induction l as [|x l IH]; cbn; auto. destruct (F x) eqn:E.
  - rewrite (H _ E). auto.
  - cbn. rewrite IH. auto.
Qed.
Lemma drop_first_none {A} (F : A -> bool) l : filter F l = [] -> drop_first F l = l.
Proof. induction l as [|x l IH]; cbn; auto. destruct (F x) eqn:E; [discriminate|]. intro H. rewrite IH; auto. Qed.
Lemma drop_first_ext {A} (F G : A -> bool) l : (forall x, F x = G x) -> drop_first F l = drop_first G l.
Proof. intro H. induction l as [|x l IH]; cbn; auto. rewrite H, IH. auto. Qed.

Lemma tl_rev {A} (l : list A) : rev (tl (rev l)) = removelast l.
Proof.
  destruct l as [|x l] using rev_ind; auto. rewrite rev_app_distr. cbn. rewrite rev_involutive, removelast_last. auto.
Qed.

Lemma drop_last_filter {A} (F : A -> bool) l : filter F (drop_last F l) = removelast (filter F l).
Proof. unfold drop_last. rewrite filter_rev', drop_first_filter, filter_rev'. apply tl_rev. Qed.
Lemma drop_last_other {A} (F G : A -> bool) l : (forall x, F x = true -> G x = false) -> filter G (drop_last F l) = filter G l.
Proof. intro H. unfold drop_last. rewrite filter_rev', drop_first_other, filter_rev' by auto. apply rev_involutive. Qed.
Lemma drop_last_none {A} (F : A -> bool) l : filter F l = [] -> drop_last F l = l.
Proof. intro H. unfold drop_last. rewrite drop_first_none; [apply rev_involutive|]. rewrite filter_rev', H. auto. Qed.
Lemma drop_last_snoc {A} (F : A -> bool) l x : F x = true -> drop_last F (l ++ [x]) = l.
Proof. intro H. unfold drop_last. rewrite rev_app_distr. cbn. rewrite H. apply rev_involutive. Qed.

Lemma oid_find_congr {V} a b (m : umap obsid V) : oid_eqb a b = true -> lc_find a m = lc_find b m.
Proof. intro H. exact (@ufind_congr _ V oid_eqb oid_eqb_sym oid_eqb_trans a b m H). Qed.

Section Live.
Variable O : tops.
Variable C : config.
Variable W : soracles O.
Notation bf := (bf O).
Notation factor := (factor O).
Notation values := (values O).
Notation graph_t := (graph_t O).
Notation T := (t_T O).
Notation pcm := (pcm O).
Notation meas := (meas O).
Notation sp := (c_special C).
Notation refs := (N -> key -> T).
Notation op := (op O).
Notation solver := (solver O).
Notation start := (@solver_init O true).
Notation lc_get := (uget oid_eqb (@meas_default O)).
Notation lm_get := (uget N.eqb (@meas_default O)).

Lemma live_from_snoc done todo o acc :
  live_from C W done (todo ++ [o]) acc = live_step C W (done ++ todo) o (live_from C W done todo acc).
Proof.
  revert done acc. induction todo as [|x todo IH]; intros done acc; cbn [live_from app].
  - rewrite app_nil_r. auto.
  - rewrite IH, <- app_assoc. auto.
Qed.

Definition livepair (h : list op) := live_from C W [] h ([], []).
Lemma livepair_snoc h o : livepair (h ++ [o]) = live_step C W h o (livepair h).
Proof. unfold livepair. rewrite live_from_snoc. auto. Qed.
Lemma livepair_eq h : livepair h = (sp_live C W h, sp_order C W h).
Proof. unfold sp_live, sp_order, livepair. destruct (live_from C W [] h ([], [])); auto. Qed.

(** ** Effect of storing, without reference to the past *)

Definition has_rows (p : pcm) : Prop := Forall (fun kv : obsid * meas => 1 <= m_rows (me_adj (snd kv))) (p_lcs p).

Record extends (new : list bf) (p p' : pcm) : Prop := {
  ex_lcs : forall id, me_factors (lc_get id (p_lcs p')) = me_factors (lc_get id (p_lcs p)) ++ filter (of_pair id) new;
  ex_order : p_order p' = p_order p ++ map (@pair_of O) new;
  ex_rows : has_rows p -> has_rows p';
  ex_keys : forall id, lc_find id (p_lcs p') = None <-> lc_find id (p_lcs p) = None /\ filter (of_pair id) new = [] }.

Lemma extends_frame (p p' : pcm) : p_lcs p' = p_lcs p -> p_order p' = p_order p -> extends [] p p'.
Proof.
  intros H1 H2. split; cbn; rewrite ?H1, ?H2; try (intros; rewrite app_nil_r; auto).
  - unfold has_rows. rewrite H1. auto.
  - intro id. tauto.
Qed.

Lemma extends_trans a b (p p1 p2 : pcm) : extends a p p1 -> extends b p1 p2 -> extends (a ++ b) p p2.
Proof.
  intros [A1 A2 A3 A4] [B1 B2 B3 B4]. split; auto.
  - intro id. rewrite B1, A1, filter_app, app_assoc. auto.
  - rewrite B2, A2, map_app, app_assoc. auto.
  - intro id. rewrite B4, A4, filter_app. split; [intros [[X ->] ->]; auto|]. intros [X Y]. apply app_eq_nil in Y. tauto.
Qed.

Lemma grow_rows (p : pcm) b adj : 
  (if c_loop_check C then grows (tref p) (lc_get (pair_of b) (p_lcs p)) b adj
   else adj = me_adj (lc_get (pair_of b) (p_lcs p))) -> has_rows p -> 1 <= m_rows adj.
Proof.
  intros Hg HR. destruct (c_loop_check C).
  - destruct Hg as [[_ ->]|(_ & _ & _ & bits & -> & _)]; cbn; lia.
  - subst adj. unfold uget. destruct (lc_find (pair_of b) (p_lcs p)) as [m|] eqn:E; [|cbn; lia].
    apply ufind_In in E. destruct E as (k & _ & Hin). unfold has_rows in HR. rewrite Forall_forall in HR. apply (HR _ Hin).
Qed.

Lemma parsed_extends vals b (p p' : pcm) o (ref : refs) : parsed C vals b p p' o -> (forall c k, tref p c k = ref c k) ->
  extends (if stores C (fun k => kmem k vals) ref b then [b] else []) p p'.
Proof.
  intros HP HR. destruct (parsed_stores _ HP HR) as (-> & _).
  inversion HP as [Hm|tr K1 K2 Hl Hc Ho Ht|adj tr K1 K2 Hl|adj tr (K1 & K2 & Hl & Ha) Hg Ht]; subst; clear HP;
    try (apply extends_frame; reflexivity).
  split; unfold store_lc; cbn [p_lcs p_order set_trajs set_total set_order set_lcs].
  - intro id. rewrite oid_get_set. cbn [filter]. unfold of_pair. change (chr (b_from b), chr (b_to b)) with (pair_of b).
    rewrite oid_eqb_sym. destruct (oid_eqb (pair_of b) id) eqn:E; [|rewrite app_nil_r; auto].
    cbn [me_factors]. f_equal. f_equal. unfold uget. rewrite (oid_find_congr _ _ _ E). auto.
  - auto.
  - intro X. apply Forall_uset; auto. intros k' _. cbn [snd me_adj]. eapply grow_rows; eauto.
  - intro id. rewrite oid_find_set. cbn [filter]. unfold of_pair. change (chr (b_from b), chr (b_to b)) with (pair_of b).
    rewrite oid_eqb_sym. destruct (oid_eqb (pair_of b) id); [split; [discriminate|intros [_ X]; discriminate X]|tauto].
Qed.

Lemma parsed_list_extends vals bs (ref : refs) : forall p p' : pcm, parsed_list C vals bs p p' ->
  (forall c k, tref p c k = ref c k) -> extends (filter (stores C (fun k => kmem k vals) ref) bs) p p'.
Proof.
  intros p p' H. induction H as [p|b bs p o p1 p2 HP H IH]; intro HR.
  - apply extends_frame; auto.
  - assert (X := extends_trans (parsed_extends ref HP HR) (IH ltac:(intros c k; rewrite (parsed_tref HP); auto))).
    cbn [filter]. destruct (stores C _ ref b); exact X.
Qed.

Lemma selected_extends (p p' : pcm) : selected p p' -> extends [] p p'.
Proof.
  intros (E1 & E2 & E3). split.
  - intro id. cbn. rewrite app_nil_r. apply (entrywise_get oid_eqb id E1).
  - rewrite E3. cbn. rewrite app_nil_r. auto.
  - unfold has_rows. intro X. clear E3. induction E1 as [|a b l l' [_ (_ & H2 & _)] H IH]; auto.
    inversion X; subst. constructor; auto. rewrite H2. auto.
  - intro id. pose proof (entrywise_find oid_eqb id E1) as X. cbn.
    destruct (lc_find id (p_lcs p)), (lc_find id (p_lcs p')); try contradiction; split; try discriminate; auto; intros [Y _]; discriminate.
Qed.

Lemma remove_outliers_extends fs nv (p p' : pcm) nfg nfg' v v' b (ref : refs) known :
  remove_outliers C (so_pcm W) fs nv (PSt p nfg v) = Ok (PSt p' nfg' v') b ->
  (forall c k, tref p' c k = ref c k) -> (forall k, known k = kmem k v') ->
  extends (filter (stores C known ref) (filter (sp_candidate sp nv) (betweens fs))) p p'.
Proof.
  intros H HR HK. pose proof (remove_outliers_ok C W _ _ _ _ _ H) as (_ & _ & _ & KV & _).
  apply remove_outliers_inv in H. cbn [ps_pcm ps_nfg ps_vals] in H.
  destruct H as (vs & u & q & EV & HRO & _ & _ & HN & HA).
  assert (KVS : forall k, known k = kmem k vs).
  { intro k. rewrite HK, KV. symmetry. apply vinsert_all_ok in EV. destruct EV as (EV & _). unfold kmem. rewrite EV. destruct (kfind k v); auto. }
  assert (FIN : p_lcs p' = p_lcs q /\ p_order p' = p_order q /\ p_trajs p' = p_trajs q).
  { destruct (c_align C).
    - destruct (HA eq_refl) as [[-> _]|(_ & _ & -> & _)]; auto.
    - specialize (HN eq_refl). injection HN as -> _. auto. }
  destruct FIN as (F1 & F2 & F3).
  assert (HQ : forall c k, tref q c k = ref c k) by (intros c k; rewrite <- HR; symmetry; apply tref_trajs; auto).
  replace (filter (stores C known ref) (filter (sp_candidate sp nv) (betweens fs)))
    with (filter (stores C (fun k => kmem k vs) ref) (filter (sp_candidate sp nv) (betweens fs)))
    by (apply filter_ext; intro x; unfold stores; rewrite !KVS; auto).
  rewrite <- (app_nil_r (filter _ _)). eapply extends_trans; [|apply extends_frame; eauto].
  inversion HRO as [E0|p1 opt Hne EP|p1 lcs opt p2 p3 Hne EP Hlc HP HS _]; subst.
  - apply extends_frame; auto.
  - apply proc_factors_frame in EP. destruct EP as (_ & _ & P3 & P4 & _ & _ & _ & _ & P9 & _). cbn in P9.
    rewrite <- P9. apply extends_frame; auto.
  - apply proc_factors_frame in EP. destruct EP as (_ & _ & P3 & P4 & _ & _ & _ & _ & P9 & _). cbn in P9. subst lcs.
    rewrite <- (app_nil_l (filter _ _)). eapply extends_trans; [apply extends_frame; eauto|].
    rewrite <- (app_nil_r (filter _ _)). eapply extends_trans; [|apply selected_extends; eauto].
    apply parsed_list_extends; auto. intros c k. pose proof (parsed_list_ok HP) as (_ & _ & _ & _ & _ & T1 & _).
    rewrite <- T1, <- HQ. symmetry. apply tref_trajs. pose proof (selected_ok C HS) as (_ & _ & _ & _ & _ & _ & S7 & _). auto.
Qed.

(** ** Removal *)

Lemma remove_id_live w a0 b0 (p p' : pcm) e : pcm_remove_last_id w (a0, b0) p = Val (p', e) -> has_rows p ->
  has_rows p' /\ p_order p' = p_order p /\
  (forall id, me_factors (lc_get id (p_lcs p')) =
     if oid_eqb id (a0, b0) then removelast (me_factors (lc_get id (p_lcs p))) else me_factors (lc_get id (p_lcs p))) /\
  (forall id, lc_find id (p_lcs p') = None <-> lc_find id (p_lcs p) = None) /\
  match lc_find (a0, b0) (p_lcs p) with
  | None => e = None
  | Some m => exists fs x, me_factors m = fs ++ [x] /\ e = Some (b_from x, b_to x)
  end.
Proof.
  intros H HR. unfold pcm_remove_last_id in H. destruct (lc_find (a0, b0) (p_lcs p)) as [m|] eqn:E.
  2:{ injection H as <- <-. repeat split; auto. intro id. destruct (oid_eqb id (a0, b0)) eqn:E2; auto.
      unfold uget. rewrite (oid_find_congr _ _ _ E2), E. auto. }
  assert (Hm : 1 <= m_rows (me_adj m)).
  { apply ufind_In in E. destruct E as (k & _ & Hin). unfold has_rows in HR. rewrite Forall_forall in HR. apply (HR _ Hin). }
  destruct (m_rows (me_adj m) <=? 0) eqn:E0; [apply Nat.leb_le in E0; lia|].
  destruct (rev (me_factors m)) as [|x rest] eqn:ER; [discriminate|].
  assert (HF : me_factors m = rev rest ++ [x]) by (rewrite <- (rev_involutive (me_factors m)), ER; reflexivity).
  rewrite HF, removelast_last in H.
  match type of H with rbind ?r _ = _ => destruct r as [m'|] eqn:EM end; cbn [rbind] in H; [|discriminate].
  injection H as <- <-.
  assert (HM : me_factors m' = rev rest /\ 1 <= m_rows (me_adj m')).
  { destruct (length (rev rest) <? 2).
    - injection EM as <-. auto.
    - destruct (m_cols (me_adj m) =? m_rows (me_adj m)); [|discriminate].
      apply heu_inliers_inv in EM. destruct EM as (k & data & cs & K1 & K2 & ->). cbn [me_factors me_adj] in *.
      split; auto. destruct (find_heu_bounds (shrink_mat w (me_adj m))) as [B0 _].
      destruct (Nat.eq_dec (m_rows (shrink_mat w (me_adj m))) 0) as [Z|Z]; [|lia].
      rewrite (B0 Z) in K1. injection K1 as <- <-. discriminate K2. }
  destruct HM as [HM1 HM2]. cbn [p_lcs p_order set_lcs]. split; [|split; [auto|split; [|split]]].
  - apply Forall_uset; auto.
  - intro id. rewrite oid_get_set. destruct (oid_eqb id (a0, b0)) eqn:E2; auto.
    unfold uget. rewrite (oid_find_congr _ _ _ E2), E, HM1, HF, removelast_last. auto.
  - intro id. rewrite oid_find_set. destruct (oid_eqb id (a0, b0)) eqn:E2; [|tauto].
    rewrite (oid_find_congr _ _ _ E2), E. split; discriminate.
  - exists (rev rest), x. auto.
Qed.

Record live_inv (h : list op) (p : pcm) : Prop := {
  li_lcs : forall id, me_factors (lc_get id (p_lcs p)) = filter (of_pair id) (sp_live C W h);
  li_order : p_order p = sp_order C W h;
  li_rows : has_rows p }.

Lemma live_inv_init : live_inv [] pcm_init.
Proof. split; cbn; auto. constructor. Qed.

Lemma of_pair_disjoint id id' (x : bf) : oid_eqb id id' = false -> of_pair id' x = true -> of_pair id x = false.
Proof.
  unfold of_pair. intros H1 H2. apply not_true_iff_false. intro H3. apply not_true_iff_false in H1. apply H1.
  eapply oid_eqb_trans; [|exact H2]. rewrite oid_eqb_sym. auto.
Qed.

Lemma of_pair_ext id id' (x : bf) : oid_eqb id id' = true -> of_pair id x = of_pair id' x.
Proof. intro H. unfold of_pair. apply oid_eqb_ext_r. auto. Qed.

Lemma remove_live_step h (p q : pcm) a0 b0 e : live_inv h p -> p_lcs q = p_lcs p -> forall p', pcm_remove_last_id (so_pcm W) (a0, b0) q = Val (p', e) ->
  has_rows p' /\ p_order p' = p_order q /\
  (forall id, me_factors (lc_get id (p_lcs p')) = filter (of_pair id) (drop_last (of_pair (a0, b0)) (sp_live C W h))) /\
  e = option_map (fun x => (b_from x, b_to x)) (last_of (of_pair (a0, b0)) (sp_live C W h)).
Proof.
  intros [L1 L2 L3] HQ p' H. assert (HRq : has_rows q) by (unfold has_rows; rewrite HQ; auto).
  apply remove_id_live in H; auto. destruct H as (R1 & R2 & R3 & R4 & R5). rewrite HQ in *. split; auto. split; auto. split.
  - intro id. rewrite R3. destruct (oid_eqb id (a0, b0)) eqn:E.
    + rewrite L1. rewrite (filter_ext _ _ (fun x => of_pair_ext _ _ x E)).
      rewrite (filter_ext _ _ (fun x => of_pair_ext _ _ x E)). symmetry. apply drop_last_filter.
    + rewrite L1. symmetry. apply drop_last_other. intros x Hx. eapply of_pair_disjoint; eauto.
  - unfold last_of. rewrite <- L1. unfold uget. destruct (lc_find (a0, b0) (p_lcs p)) as [m|] eqn:E.
    + destruct R5 as (fs & x & -> & ->). rewrite rev_app_distr. auto.
    + auto.
Qed.

Lemma newly_none h o : call_of o = None -> newly C W h o = [].
Proof. unfold newly. intros ->. auto. Qed.

Lemma live_step_inv h (s : solver) o (s' : solver) r rs p : run C W h start = Ok s rs -> s_pcm s = Some p -> live_inv h p ->
  step C W o s = Ok s' r -> exists p', s_pcm s' = Some p' /\ live_inv (h ++ [o]) p' /\
  (forall a b, o = OpRemoveId a b -> r = Some (option_map (fun x => (b_from x, b_to x)) (last_of (of_pair (a, b)) (sp_live C W h)))) /\
  (o = OpRemoveLast -> r = Some (match rev (sp_order C W h) with [] => None | id :: _ =>
       option_map (fun x => (b_from x, b_to x)) (last_of (of_pair id) (sp_live C W h)) end)).
Proof.
  intros HR Hp I Hs. pose proof I as [I1 I2 I3].
  pose proof (step_inv C W o s Hp Hs) as (s1 & p' & b & [E0 E] & _ & _ & _ & Ho).
  assert (Hp' : s_pcm s' = Some p').
  { destruct (optimises o b); [|congruence]. destruct (optimize_same C W s1 Ho) as (G & _). congruence. }
  exists p'. split; auto.
  assert (HR' : run C W (h ++ [o]) start = Ok s' (rs ++ [r])).
  { eapply run_app_ok; eauto. cbn [run]. rewrite Hs. reflexivity. }
  assert (LP : forall l d, live_step C W h o (sp_live C W h, sp_order C W h) = (l, d) ->
            (forall id, me_factors (lc_get id (p_lcs p')) = filter (of_pair id) l) -> p_order p' = d -> has_rows p' ->
            live_inv (h ++ [o]) p').
  { intros l d X Y Z U. rewrite <- livepair_eq, <- livepair_snoc, livepair_eq in X. injection X as <- <-. split; auto. }
  assert (FR : call_of o = None -> is_removal o = false -> p_lcs p' = p_lcs p -> p_order p' = p_order p -> live_inv (h ++ [o]) p').
  { intros Hc Hr L1 L2. apply (LP (sp_live C W h) (sp_order C W h)); rewrite ?L1, ?L2; auto.
    - destruct o; try discriminate; cbn [live_step]; rewrite newly_none by auto; cbn; rewrite !app_nil_r; auto.
    - unfold has_rows. rewrite L1. auto. }
  assert (CALL : forall fs vs, call_of o = Some (fs, vs) -> is_removal o = false ->
    (exists b, remove_outliers C (so_pcm W) fs vs (PSt p (s_nfg s) (s_vals s)) = Ok (PSt p' (s_nfg s1) (s_vals s1)) b) ->
    live_inv (h ++ [o]) p').
  { intros fs vs Hc Hr [b' HO].
    destruct (hist_run C W _ HR) as [p0 I0]. assert (p0 = p) by (pose proof (hi_pcm I0); congruence). subst p0.
    pose proof (remove_outliers_ok C W _ _ _ _ _ HO) as (_ & _ & _ & KV & _).
    pose proof (@remove_outliers_extends fs vs p p' _ _ _ _ b' (refs_after C W (h ++ [o])) (knows (h ++ [o])) HO) as R.
    destruct R as [R1 R2 R3 R4].
    - intros c k. rewrite (refs_after_run C W _ HR' Hp'). auto.
    - intro k. rewrite KV. apply eq_true_iff_eq. rewrite knows_supplied, supplied_snoc, orb_true_iff, (hi_keys I0).
      rewrite kmem_In. split; (intros [X|X]; [auto|right]).
      + destruct X as (fs' & vs' & X & Y). rewrite Hc in X. injection X as <- <-. exact Y.
      + exists fs, vs. auto.
    - assert (EN : map fst (newly C W h o) = filter (stores C (knows (h ++ [o])) (refs_after C W (h ++ [o]))) (filter (sp_candidate sp vs) (betweens fs))).
      { unfold newly. rewrite Hc, map_map. apply map_id. }
      rewrite <- EN in *.
      apply (LP (sp_live C W h ++ map fst (newly C W h o)) (sp_order C W h ++ map (fun x => pair_of (fst x)) (newly C W h o))).
      + destruct o; try discriminate; auto.
      + intro id. rewrite R1, I1, filter_app. auto.
      + rewrite R2, I2, map_map. auto.
      + auto. }
  destruct o as [fs vs opt|fs vs|c opt|a0 b0| |c|c|fs vs|fs vs|]; cbn [call_of is_removal] in *;
    (split; [|split; [intros ? ? X; try discriminate X|intro X; try discriminate X]]).
  - apply CALL with fs vs; auto.
  - apply CALL with fs vs; auto.
  - destruct E as (-> & _). apply FR; auto.
  - destruct E as (e & _ & X & _). destruct (@remove_live_step _ _ _ _ _ _ I eq_refl _ X) as (A1 & A2 & A3 & A4).
    apply (LP (drop_last (of_pair (a0, b0)) (sp_live C W h)) (sp_order C W h)); auto. congruence.
  - injection X as <- <-. destruct E as (e & -> & X & _). destruct (@remove_live_step _ _ _ _ _ _ I eq_refl _ X) as (A1 & A2 & A3 & ->). auto.
  - destruct E as (e & _ & X & _). apply pcm_remove_last_frame in X. destruct X as [(X & -> & _)|(od & [a0 b0] & X & Y)].
    + apply (LP (sp_live C W h) (sp_order C W h)); auto. cbn [live_step]. rewrite <- I2, X. auto.
    + destruct (@remove_live_step _ _ (set_order p od) _ _ _ I eq_refl _ Y) as (A1 & A2 & A3 & A4).
      apply (LP (drop_last (of_pair (a0, b0)) (sp_live C W h)) od); auto.
      cbn [live_step]. rewrite <- I2, X, rev_app_distr. cbn. rewrite removelast_last. auto.
  - destruct E as (e & -> & Y & _). apply pcm_remove_last_frame in Y. destruct Y as [(Y & -> & ->)|(od & [a0 b0] & Y & Z)].
    + rewrite <- I2, Y. auto.
    + destruct (@remove_live_step _ _ (set_order p od) _ _ _ I eq_refl _ Z) as (A1 & A2 & A3 & ->).
      rewrite <- I2, Y, rev_app_distr. auto.
  - destruct E as (-> & _). apply FR; auto; unfold pcm_ignore; destruct (existsb _ _); auto.
  - destruct E as (-> & _). apply FR; auto.
  - destruct E as (-> & _). apply FR; auto.
  - destruct E as (-> & _). apply FR; auto.
  - destruct E as (-> & _). apply FR; auto.
Qed.

Lemma live_run h (s : solver) rs : run C W h start = Ok s rs -> exists p, hist_inv C W h s p /\ live_inv h p.
Proof.
  intro H. assert (X : exists p, s_pcm s = Some p /\ live_inv h p).
  { revert h s rs H. apply (run_ind C W (fun h s => exists p, s_pcm s = Some p /\ live_inv h p)).
    - exists pcm_init. split; auto. apply live_inv_init.
    - intros h' s1 o s2 r rs' HR (p & Hp & I) HS. destruct (live_step_inv _ HR Hp I HS) as (p' & A & B & _). eauto. }
  destruct X as (p & Hp & I). destruct (hist_run _ _ _ H) as [p' J]. exists p'. split; auto.
  rewrite (hi_pcm J) in Hp. injection Hp as ->. auto.
Qed.
End Live.
