(** * Thresholds, parameter setters, robot pairs and the base class *)
From Coq Require Import Permutation.
From Verif Require Import Prelude Num Keys KMap UMap Geometry Factors Clique Pcm Params ParamSpec Solver ValuesProofs
  PcmSpec PcmProofs PcmInv PcmStore HistSpec SolverProofs HistProofs GraphProofs.
Set Implicit Arguments.
Local Open Scope nat_scope.

(** ** C15: zero thresholds *)

(** Either sign of zero. *)
Definition is_dzero (x : double) : Prop := exists s, x = S754_zero s.

(** The odometry thresholds that the chosen method compares with are all zero. *)
Definition zero_odom (P : params) : Prop :=
  match pr_method P with
  | MSimple2D | MSimple3D => is_dzero (pp_odom_trans (pr_pcm P)) \/ is_dzero (pp_odom_rot (pr_pcm P))
  | _ => is_dzero (pp_odom (pr_pcm P))
  end.

Lemma pn_nonneg G (a : pnode G) : (0 <= pn_node a)%Z -> dnonneg (pn_avg_trans a) /\ dnonneg (pn_avg_rot a).
Proof.
  intro H. apply dofZ_nonneg in H. unfold pn_avg_trans, pn_avg_rot. split.
  - apply ddiv_nonneg; [apply dsqrt_nonneg|]. destruct (dofZ (pn_node a)); exact H.
  - destruct (pn_rot a); [|exact I]. apply ddiv_nonneg; [apply dsqrt_nonneg|]. destruct (dofZ (pn_node a)); exact H.
Qed.

Lemma pn_odom_zero G pp (a : pnode G) : (0 <= pn_node a)%Z ->
  is_dzero (pp_odom_trans pp) \/ is_dzero (pp_odom_rot pp) -> pn_odom_ok pp a = false.
Proof.
  intros H Hz. apply pn_nonneg in H. destruct H as [H1 H2]. unfold pn_odom_ok.
  destruct Hz as [[s ->]|[s ->]].
  - rewrite (dnonneg_not_lt_any_zero _ s H1). auto.
  - rewrite (dnonneg_not_lt_any_zero _ s H2). apply andb_false_r.
Qed.

Lemma pc_odom_zero G pp (a : pcov G) : is_dzero (pp_odom pp) -> pc_odom_ok pp a = false.
Proof. intros [s E]. unfold pc_odom_ok. rewrite E. apply dnonneg_not_lt_any_zero. apply dsqrt_nonneg. Qed.

Lemma zero_odom_node G pp (ref : N -> key -> t_T (node_ops G pp)) b :
  is_dzero (pp_odom_trans pp) \/ is_dzero (pp_odom_rot pp) ->
  chr (b_from b) = chr (b_to b) -> sp_odom_test ref b <> Some true.
Proof.
  unfold sp_odom_test. intros Hz Hc H.
  assert (E : (chr (b_from b) =? chr (b_to b))%N = true) by (apply N.eqb_eq; auto).
  assert (X : (0 <= pn_node (sp_rel ref (chr (b_from b)) (b_from b) (b_to b)))%Z)
    by (unfold sp_rel; rewrite E; cbn; lia).
  cbn [t_of node_ops t_T t_odom_ok] in *.
  destruct (pn_of G b) as [m|] eqn:Em; [|discriminate H]. injection H as H.
  rewrite pn_odom_zero in H; [discriminate H| |exact Hz].
  assert (Hm : pn_node m = 1%Z) by (unfold pn_of in Em; destruct b as [f t x [c|]]; cbn in Em; inversion Em; reflexivity).
  cbn [t_comp t_inv node_ops]. unfold pn_comp, pn_inv. cbn [pn_node]. rewrite Hm.
  apply Z.add_nonneg_nonneg; [exact X|lia].
Qed.

Lemma zero_odom_cov G pp (ref : N -> key -> t_T (cov_ops G pp)) b :
  is_dzero (pp_odom pp) -> sp_odom_test ref b <> Some true.
Proof.
  unfold sp_odom_test. intros Hz H. cbn [t_of cov_ops t_T t_odom_ok] in *.
  destruct (pc_of G b); [|discriminate H]. injection H as H. rewrite pc_odom_zero in H; [discriminate|auto].
Qed.

Lemma zero_odom_test G P (ref : N -> key -> t_T (tops_of G P)) b : zero_odom P ->
  chr (b_from b) = chr (b_to b) -> sp_odom_test ref b <> Some true.
Proof.
  destruct P as [g m l v lg q al gn fx bi]. unfold zero_odom. destruct m; intros Hz Hc.
  - apply (@zero_odom_cov G q ref b). exact Hz.
  - apply (@zero_odom_cov G q ref b). exact Hz.
  - apply (@zero_odom_cov G q ref b). exact Hz.
  - apply (@zero_odom_node G q ref b); auto.
  - apply (@zero_odom_node G q ref b); auto.
Qed.

Lemma others_no_between O (fs : graph_t O) b : ~ In (FBetween b) (others fs).
Proof.
  unfold others. rewrite in_flat_map. intros ([[x|x|x|x]|] & _ & H); try destruct H as [H|[]]; try discriminate; destruct H.
Qed.

Lemma sp_others_no_between O (h : list (op O)) b : ~ In (FBetween b) (sp_others h).
Proof.
  induction h as [|o h IH] using rev_ind; [intros []|]. rewrite sp_others_snoc.
  destruct o as [fs vs opt|fs vs|c opt|a0 b0| |c|c|fs vs|fs vs|]; cbn [sp_others_step]; auto; intro Hin.
  - apply in_app_or in Hin. destruct Hin as [Hin|Hin]; auto. eapply others_no_between; eauto.
  - apply in_app_or in Hin. destruct Hin as [Hin|Hin]; auto. eapply others_no_between; eauto.
  - apply filter_In in Hin. tauto.
Qed.

Lemma c15 G P (W : soracles (tops_of G P)) h s rs b :
  zero_odom P -> odom_check (pr_pcm P) = true ->
  run (config_of P) W h (solver_init true) = Ok s rs ->
  In (Some (FBetween b)) (s_nfg s) -> chr (b_from b) = chr (b_to b) ->
  In b (sp_odoms (pr_special P) h) \/ sp_landmark (pr_special P) (b_from b) || sp_landmark (pr_special P) (b_to b) = true.
Proof.
  intros Hz Hc H Hin Hb. apply c10 in H. destruct H as (lcs & lms & E & Hm & Hl).
  rewrite E in Hin. apply in_map_iff in Hin. destruct Hin as (f & Hf & Hin). injection Hf as ->.
  rewrite !in_app_iff, !in_map_iff in Hin. destruct Hin as [(x & Ex & Hin)|[Hin|(x & Ex & Hin)]].
  - injection Ex as ->. auto.
  - exfalso. eapply sp_others_no_between; eauto.
  - injection Ex as ->. apply in_app_or in Hin. destruct Hin as [Hin|Hin].
    + exfalso. apply Hl in Hin.
      destruct Hin as (_ & _ & _ & _ & _ & h1 & o & h2 & fs & vs & s1 & p1 & rs1 & _ & _ & _ & _ & _ & _ & _ & _ & Ht).
      apply (@zero_odom_test G P (tref p1) b Hz Hb). apply Ht; auto.
    + right. apply Hm in Hin. tauto.
Qed.

(** ** C16: setters *)

(** The thresholds last given for each method. *)
Definition sp_maha (l : list setter) : double * double :=
  fold_left (fun acc s => match s with SetPcm _ o lc _ => (o, lc) | _ => acc end) l (dofZ 10, dofZ 5).
Definition sp_simple (l : list setter) : (double * double) * (double * double) :=
  fold_left (fun acc s => match s with
                          | SetPcmSimple _ t r _ => ((t, r), (t, r))
                          | SetPcmSimple4 _ ot orr pt pr _ => ((ot, orr), (pt, pr))
                          | _ => acc
                          end) l ((dlit 5 100, dlit 5 1000), (dlit 1 100, dlit 1 1000)).
Definition sp_method (l : list setter) : method :=
  fold_left (fun acc s => match s with
                          | SetNoRejection _ => MNone
                          | SetPcm d _ _ _ => if d then MPcm3D else MPcm2D
                          | SetPcmSimple d _ _ _ | SetPcmSimple4 d _ _ _ _ _ => if d then MSimple3D else MSimple2D
                          | _ => acc
                          end) l MPcm3D.

Lemma setters_spec l :
  (pp_odom (pr_pcm (params_after l)), pp_lc (pr_pcm (params_after l))) = sp_maha l /\
  ((pp_odom_trans (pr_pcm (params_after l)), pp_odom_rot (pr_pcm (params_after l))),
   (pp_dist_trans (pr_pcm (params_after l)), pp_dist_rot (pr_pcm (params_after l)))) = sp_simple l /\
  pr_method (params_after l) = sp_method l.
Proof.
  unfold params_after, sp_maha, sp_simple, sp_method.
  assert (G : forall p a b m, (pp_odom (pr_pcm p), pp_lc (pr_pcm p)) = a ->
    ((pp_odom_trans (pr_pcm p), pp_odom_rot (pr_pcm p)), (pp_dist_trans (pr_pcm p), pp_dist_rot (pr_pcm p))) = b ->
    pr_method p = m ->
    let p' := fold_left apply_setter l p in
    (pp_odom (pr_pcm p'), pp_lc (pr_pcm p')) = fold_left (fun acc s => match s with SetPcm _ o lc _ => (o, lc) | _ => acc end) l a /\
    ((pp_odom_trans (pr_pcm p'), pp_odom_rot (pr_pcm p')), (pp_dist_trans (pr_pcm p'), pp_dist_rot (pr_pcm p'))) =
      fold_left (fun acc s => match s with
                          | SetPcmSimple _ t r _ => ((t, r), (t, r))
                          | SetPcmSimple4 _ ot orr pt pr _ => ((ot, orr), (pt, pr))
                          | _ => acc
                          end) l b /\
    pr_method p' = fold_left (fun acc s => match s with
                          | SetNoRejection _ => MNone
                          | SetPcm d _ _ _ => if d then MPcm3D else MPcm2D
                          | SetPcmSimple d _ _ _ | SetPcmSimple4 d _ _ _ _ _ => if d then MSimple3D else MSimple2D
                          | _ => acc
                          end) l m).
  { induction l as [|s l IH]; intros p a b m <- <- <-; cbn [fold_left]; [auto|].
    apply IH; destruct s; reflexivity. }
  apply G; reflexivity.
Qed.

Lemma c16 l :
  let '(o, lc) := sp_maha l in
  let '((ot, orr), (pt, pr)) := sp_simple l in
  odom_check (pr_pcm (params_after l)) = negb (dneg o) && negb (dneg orr) && negb (dneg ot) /\
  loop_check (pr_pcm (params_after l)) = negb (dneg lc) && negb (dneg pr) && negb (dneg pt).
Proof.
  destruct (setters_spec l) as (A & B & _).
  destruct (sp_maha l) as [o lc]. destruct (sp_simple l) as [[ot orr] [pt pr]].
  injection A as <- <-. injection B as <- <- <- <-. unfold odom_check, loop_check.
  rewrite !negb_orb. auto.
Qed.

(** If the other method's thresholds were never negative, both checks are on exactly as chosen. *)
Definition nonneg_setter (s : setter) : Prop :=
  match s with
  | SetPcmSimple _ t r _ => dneg t = false /\ dneg r = false
  | SetPcmSimple4 _ ot orr pt pr _ => dneg ot = false /\ dneg orr = false /\ dneg pt = false /\ dneg pr = false
  | SetPcm _ o lc _ => dneg o = false /\ dneg lc = false
  | _ => True
  end.
Definition is_simple (s : setter) : bool :=
  match s with SetPcmSimple _ _ _ _ | SetPcmSimple4 _ _ _ _ _ _ => true | _ => false end.
Definition is_maha (s : setter) : bool := match s with SetPcm _ _ _ _ => true | _ => false end.

Lemma sp_simple_nonneg l : (forall s, In s l -> is_simple s = true -> nonneg_setter s) ->
  let '((ot, orr), (pt, pr)) := sp_simple l in
  dneg ot = false /\ dneg orr = false /\ dneg pt = false /\ dneg pr = false.
Proof.
  intro H. unfold sp_simple.
  assert (G : forall acc : (double * double) * (double * double),
    (let '((ot, orr), (pt, pr)) := acc in dneg ot = false /\ dneg orr = false /\ dneg pt = false /\ dneg pr = false) ->
    let '((ot, orr), (pt, pr)) := fold_left (fun acc s => match s with
                          | SetPcmSimple _ t r _ => ((t, r), (t, r))
                          | SetPcmSimple4 _ ot orr pt pr _ => ((ot, orr), (pt, pr))
                          | _ => acc
                          end) l acc in dneg ot = false /\ dneg orr = false /\ dneg pt = false /\ dneg pr = false).
  { induction l as [|s l IH]; intros acc Ha; cbn [fold_left]; [exact Ha|].
    apply IH; [intros; apply H; auto; right; auto|].
    pose proof (H s (or_introl eq_refl)) as Hs. destruct s; auto.
    - destruct (Hs eq_refl). auto.
    - exact (Hs eq_refl). }
  apply G. vm_compute. auto.
Qed.

Lemma sp_maha_nonneg l : (forall s, In s l -> is_maha s = true -> nonneg_setter s) ->
  let '(o, lc) := sp_maha l in dneg o = false /\ dneg lc = false.
Proof.
  intro H. unfold sp_maha.
  assert (G : forall acc : double * double, (let '(o, lc) := acc in dneg o = false /\ dneg lc = false) ->
    let '(o, lc) := fold_left (fun acc s => match s with SetPcm _ o lc _ => (o, lc) | _ => acc end) l acc in
    dneg o = false /\ dneg lc = false).
  { induction l as [|s l IH]; intros acc Ha; cbn [fold_left]; [exact Ha|].
    apply IH; [intros; apply H; auto; right; auto|].
    pose proof (H s (or_introl eq_refl)) as Hs. destruct s; auto. exact (Hs eq_refl). }
  apply G. vm_compute. auto.
Qed.

Lemma c16_maha l d o lc v :
  (forall s, In s l -> is_simple s = true -> nonneg_setter s) ->
  let P := params_after (l ++ [SetPcm d o lc v]) in
  pr_method P = (if d then MPcm3D else MPcm2D) /\
  odom_check (pr_pcm P) = negb (dneg o) /\ loop_check (pr_pcm P) = negb (dneg lc).
Proof.
  intros H P. destruct (setters_spec (l ++ [SetPcm d o lc v])) as (_ & _ & M).
  pose proof (c16 (l ++ [SetPcm d o lc v])) as E. fold P in E, M.
  assert (H' : forall s, In s (l ++ [SetPcm d o lc v]) -> is_simple s = true -> nonneg_setter s).
  { intros s Hs Hi. apply in_app_or in Hs. destruct Hs as [Hs|[<-|[]]]; auto. discriminate. }
  pose proof (sp_simple_nonneg _ H') as N. split.
  - rewrite M. unfold sp_method. rewrite fold_left_app. reflexivity.
  - destruct (sp_simple (l ++ [SetPcm d o lc v])) as [[ot orr] [pt pr]].
    assert (X : sp_maha (l ++ [SetPcm d o lc v]) = (o, lc)) by (unfold sp_maha; rewrite fold_left_app; reflexivity).
    rewrite X in E. destruct N as (N1 & N2 & N3 & N4). rewrite N1, N2, N3, N4 in E.
    cbn [negb] in E. rewrite !andb_true_r in E. auto.
Qed.

Lemma c16_simple l d ot orr pt pr v :
  (forall s, In s l -> is_maha s = true -> nonneg_setter s) ->
  let P := params_after (l ++ [SetPcmSimple4 d ot orr pt pr v]) in
  pr_method P = (if d then MSimple3D else MSimple2D) /\
  odom_check (pr_pcm P) = negb (dneg ot) && negb (dneg orr) /\
  loop_check (pr_pcm P) = negb (dneg pt) && negb (dneg pr).
Proof.
  intros H P. set (x := SetPcmSimple4 d ot orr pt pr v) in *.
  destruct (setters_spec (l ++ [x])) as (_ & _ & M).
  pose proof (c16 (l ++ [x])) as E. fold P in E, M.
  assert (H' : forall s, In s (l ++ [x]) -> is_maha s = true -> nonneg_setter s).
  { intros s Hs Hi. apply in_app_or in Hs. destruct Hs as [Hs|[<-|[]]]; auto. discriminate. }
  pose proof (sp_maha_nonneg _ H') as N. split.
  - rewrite M. unfold sp_method. rewrite fold_left_app. reflexivity.
  - assert (X : sp_simple (l ++ [x]) = ((ot, orr), (pt, pr))) by (unfold sp_simple; rewrite fold_left_app; reflexivity).
    rewrite X in E. destruct (sp_maha (l ++ [x])) as [o lc]. destruct N as [N1 N2]. rewrite N1, N2 in E.
    cbn [negb andb] in E. destruct E as [-> ->].
    rewrite (andb_comm (negb (dneg orr))), (andb_comm (negb (dneg pr))). auto.
Qed.

(** ** C37: robot pairs *)

Definition same_pair (a b : obsid) : Prop :=
  (fst a = fst b /\ snd a = snd b) \/ (fst a = snd b /\ snd a = fst b).

Lemma distinct_entries {K V} (eqb : K -> K -> bool) (m : umap K V) x y :
  ukeys_distinct eqb m -> (forall a b, eqb a b = eqb b a) -> In x m -> In y m -> eqb (fst x) (fst y) = true -> x = y.
Proof.
  intros D Hs. induction D as [|z m F D IH]; [intros []|].
  rewrite Forall_forall in F. intros [<-|Hx] [<-|Hy] E; auto.
  - specialize (F _ Hy). congruence.
  - specialize (F _ Hx). rewrite Hs in F. congruence.
Qed.

Lemma c37 O C (W : soracles O) h s rs p :
  run C W h (solver_init true) = Ok s rs -> s_pcm s = Some p ->
  forall e e' b b', In e (p_lcs p) -> In e' (p_lcs p) -> In b (me_factors (snd e)) -> In b' (me_factors (snd e')) ->
    (same_pair (chr (b_from b), chr (b_to b)) (chr (b_from b'), chr (b_to b')) <-> e = e').
Proof.
  intros H Hp. destruct (hist_run _ _ _ H) as [p' I]. assert (p' = p) by (pose proof (hi_pcm I); congruence). subst p'.
  pose proof (hi_stored I) as ST. destruct ST as [S1 _ S3 _]. rewrite Forall_forall in S1.
  intros [id m] [id' m'] b b' He He' Hb Hb'. cbn [fst snd] in *.
  destruct (S1 _ He) as [F _]. destruct (S1 _ He') as [F' _]. cbn [fst snd] in *. rewrite Forall_forall in F, F'.
  destruct (F _ Hb) as (E & _). destruct (F' _ Hb') as (E' & _). unfold pair_of in *.
  split.
  - intro SP. apply (@distinct_entries _ _ oid_eqb _ (id, m) (id', m') S3 oid_eqb_sym He He'). cbn [fst].
    apply oid_eqb_trans with (chr (b_from b), chr (b_to b)); [rewrite oid_eqb_sym; auto|].
    apply oid_eqb_trans with (chr (b_from b'), chr (b_to b')); auto. apply oid_eqb_spec. exact SP.
  - intro X. injection X as <- <-. apply oid_eqb_spec. apply oid_eqb_trans with id; auto. rewrite oid_eqb_sym. auto.
Qed.

(** ** C42: the base class *)
Section Generic.
Variable O : tops.
Variable C : config.
Variable W : soracles O.

Lemma list_set_nth_error {A} (l : list A) i x j : i < length l ->
  nth_error (list_set l i x) j = if j =? i then Some x else nth_error l j.
Proof.
  revert i j. induction l as [|y l IH]; intros [|i] [|j] H; cbn in *; try lia; auto. apply IH. lia.
Qed.

Lemma reset_slots_spec rm : forall (g g' : graph_t O), reset_slots rm g = Val g' ->
  length g' = length g /\ (forall i, In i rm -> i < length g) /\
  forall i, nth_error g' i = if existsb (Nat.eqb i) rm then Some None else nth_error g i.
Proof.
  induction rm as [|j rm IH]; intros g g' H; cbn [reset_slots] in H.
  - injection H as <-. repeat split; auto. intros i [].
  - unfold vset in H. destruct (Nat.ltb_spec j (length g)); cbn [rbind] in H; [|discriminate].
    apply IH in H. destruct H as (L & B & N). rewrite list_set_length in L, B. repeat split; auto.
    + intros i [<-|Hi]; auto.
    + intro i. rewrite N. cbn [existsb]. destruct (existsb (Nat.eqb i) rm); [rewrite orb_true_r; auto|].
      rewrite orb_false_r, list_set_nth_error by auto. auto.
Qed.

Lemma reset_slots_ok rm : forall g : graph_t O, (forall i, In i rm -> i < length g) -> exists g', reset_slots rm g = Val g'.
Proof.
  induction rm as [|j rm IH]; intros g H; cbn [reset_slots]; [eauto|].
  rewrite vset_ok by (apply H; left; auto). cbn [rbind]. apply IH. rewrite list_set_length. intros. apply H. right; auto.
Qed.

(** One two-key factor with one value (an odometry step), or nothing at all. *)
Definition sp_quiet (fs : graph_t O) (vs : values O) : bool :=
  match fs, vs with
  | [], [] => true
  | [Some f], [_] => length (f_keys f) =? 2
  | _, _ => false
  end.

Lemma add_and_check_inv fs vs (s s' : solver O) b : add_and_check fs vs s = Ok s' b ->
  exists v, vinsert_all vs (s_vals s) = Ok v tt /\ s' = set_vals (set_nfg s (s_nfg s ++ fs)) v /\ b = negb (sp_quiet fs vs).
Proof.
  unfold add_and_check. cbn [s_vals set_nfg set_pnv].
  destruct (vinsert_all vs (s_vals s)) as [v []| |] eqn:E; try discriminate.
  intro H. exists v. split; auto. unfold sp_quiet.
  destruct fs as [|[f|] [|g fs]]; try discriminate; injection H as <- <-; split; auto.
  - destruct vs; auto.
  - destruct vs as [|x [|y vs]]; cbn [length Nat.eqb]; rewrite ?andb_false_r, ?andb_true_r; auto.
Qed.

Lemma c42 fs vs rm (s s' : solver O) : generic_update W fs vs rm s = Ok s' tt ->
  (forall i, In i rm -> i < length (s_nfg s)) /\
  length (s_nfg s') = length (s_nfg s) + length fs /\
  (forall i, i < length (s_nfg s) ->
     (In i rm -> nth_error (s_nfg s') i = Some None) /\
  (~ In i rm -> nth_error (s_nfg s') i = nth_error (s_nfg s) i)) /\
  skipn (length (s_nfg s)) (s_nfg s') = fs /\
  (sp_quiet fs vs = true /\ rm = [] ->
     s_trace s' = s_trace s /\ vinsert_all vs (s_vals s) = Ok (s_vals s') tt /\ s_tvals s' = s_tvals s) /\
  (~ (sp_quiet fs vs = true /\ rm = []) -> exists r, s_trace s' = s_trace s ++ [r] /\
  rq_graph r = s_nfg s' ++ s_tnfg s /\ rq_known r = None) /\
  s_pcm s' = s_pcm s /\ s_tnfg s' = s_tnfg s.
Proof.
  unfold generic_update. destruct (reset_slots rm (s_nfg s)) as [g|] eqn:E; [|discriminate].
  apply reset_slots_spec in E. destruct E as (L & B & N).
  destruct (add_and_check fs vs (set_nfg s g)) as [s1 b| |] eqn:EA; cbn [obind]; try discriminate.
  apply add_and_check_inv in EA. destruct EA as (v & Hv & -> & ->). cbn [s_nfg s_vals s_tvals s_tnfg set_vals set_nfg set_pnv] in *.
  intro H.
  assert (G : s_nfg s' = g ++ fs /\ s_pcm s' = s_pcm s /\ s_tnfg s' = s_tnfg s /\
  (sp_quiet fs vs = true /\ rm = [] ->
     s_trace s' = s_trace s /\ vinsert_all vs (s_vals s) = Ok (s_vals s') tt /\ s_tvals s' = s_tvals s) /\
  (~ (sp_quiet fs vs = true /\ rm = []) -> exists r, s_trace s' = s_trace s ++ [r] /\
  rq_graph r = (g ++ fs) ++ s_tnfg s /\ rq_known r = None)).
  { destruct (negb (sp_quiet fs vs) || negb (length rm =? 0)) eqn:EB.
    - destruct (vinsert_all (s_tvals s) v) as [full []| |]; try discriminate.
      unfold call_opt in H. destruct (so_opt W _ _) as [a|]; cbn [obind] in H; [|discriminate].
      match type of H with match update_values ?x ?y with _ => _ end = _ => destruct (update_values x y) as [[v1 tv] []|[]|] end;
        try discriminate.
      injection H as <-. cbn. do 3 (split; [auto|]). split.
      + intros [Q ->]. rewrite Q in EB. discriminate.
      + intros _. eexists. split; [reflexivity|]. auto.
    - injection H as <-. cbn. do 3 (split; [auto|]). split; [auto|].
      intro X. exfalso. apply X. apply orb_false_iff in EB. destruct EB as [E1 E2].
      apply negb_false_iff in E1, E2. apply Nat.eqb_eq in E2. destruct rm; [auto|discriminate]. }
  destruct G as (G1 & G2 & G3 & G4 & G5). rewrite G1. split; auto.
  split; [rewrite app_length; lia|]. split.
  { intros i Hi. rewrite nth_error_app1 by lia. rewrite N. split; intro Hr.
    - assert (X : existsb (Nat.eqb i) rm = true) by (apply existsb_exists; exists i; split; auto; apply Nat.eqb_refl).
      rewrite X. auto.
    - assert (X : existsb (Nat.eqb i) rm = false).
      { apply not_true_iff_false. intro X. apply existsb_exists in X. destruct X as (j & Hj & X). apply Nat.eqb_eq in X. subst. auto. }
      rewrite X. auto. }
  split; [rewrite <- L; rewrite skipn_app, skipn_all, Nat.sub_diag; auto|]. auto.
Qed.

(** Removing slots without an update changes nothing but those slots. *)
Lemma c42_remove rm (s s' : solver O) : remove_factors_no_update rm s = Ok s' tt ->
  (forall i, In i rm -> i < length (s_nfg s)) /\ length (s_nfg s') = length (s_nfg s) /\
  (forall i, (In i rm -> nth_error (s_nfg s') i = Some None) /\
  (~ In i rm -> nth_error (s_nfg s') i = nth_error (s_nfg s) i)) /\
  s' = set_nfg s (s_nfg s').
Proof.
  unfold remove_factors_no_update. destruct (reset_slots rm (s_nfg s)) as [g|] eqn:E; [|discriminate].
  apply reset_slots_spec in E. destruct E as (L & B & N). intro H. injection H as <-. cbn [s_nfg set_nfg set_pnv].
  do 2 (split; [auto|]). split; [|auto]. intro i. rewrite N. split; intro Hr.
  - assert (X : existsb (Nat.eqb i) rm = true) by (apply existsb_exists; exists i; split; auto; apply Nat.eqb_refl).
    rewrite X. auto.
  - assert (X : existsb (Nat.eqb i) rm = false).
    { apply not_true_iff_false. intro X. apply existsb_exists in X. destruct X as (j & Hj & X). apply Nat.eqb_eq in X. subst. auto. }
    rewrite X. auto.
Qed.

End Generic.

(** ** C60: every setting *)

Lemma last_said_steps {X Y A} (next : Y -> X -> Y) (y0 : Y) (get : Y -> A) (f : X -> option A) :
  (forall p s, get (next p s) = match f s with Some v => v | None => get p end) ->
  forall l, last_said f (get y0) l (get (fold_left next l y0)).
Proof.
  intros H l. induction l as [|s l IH] using rev_ind; [right; auto|].
  rewrite fold_left_app. cbn [fold_left]. rewrite H. destruct (f s) as [v|] eqn:E.
  - left. exists l, s, []. auto.
  - destruct IH as [(l1 & x & l2 & -> & Hx & Hl)|[Hl Hd]].
    + left. exists l1, x, (l2 ++ [s]). rewrite <- app_assoc. split; auto. split; auto. apply Forall_app. auto.
    + right. split; auto. apply Forall_app. auto.
Qed.

Lemma last_said_fold {A} (get : params -> A) (f : setter -> option A) :
  (forall p s, get (apply_setter p s) = match f s with Some v => v | None => get p end) ->
  forall l, last_said f (get params_default) l (get (params_after l)).
Proof. intros H l. exact (last_said_steps apply_setter params_default get f H l). Qed.

Lemma switch_fold (get : params -> bool) (t : setter -> bool) : get params_default = false ->
  (forall p s, get (apply_setter p s) = t s || get p) -> forall l, get (params_after l) = existsb t l.
Proof.
  intros H0 H l. unfold params_after. induction l as [|s l IH] using rev_ind; auto.
  rewrite fold_left_app, existsb_app. cbn [fold_left existsb]. rewrite H, IH, orb_false_r. apply orb_comm.
Qed.

Theorem settings l : let P := params_after l in let C := config_of P in
  last_said says_method MPcm3D l (pr_method P) /\
  (has_pcm P = false <-> pr_method P = MNone) /\
  last_said says_special [] l (c_special C) /\
  last_said says_align false l (c_align C) /\
  last_said says_fix false l (c_fix C) /\
  last_said says_bias false l (c_bias C) /\
  last_said says_gn false l (c_gn C) /\
  (exists v, last_said says_verbosity VUpdate l v /\ (c_debug C = false <-> v = VQuiet)) /\
  (c_gnc C = true <-> exists f b, In (SetGnc f b) l) /\
  (c_incremental C = true <-> In SetIncremental l) /\
  (c_log C = true <-> In LogOutput l).
Proof.
  cbn zeta.
  assert (HS : forall (t : setter -> bool) (get : params -> bool), get params_default = false ->
    (forall p s, get (apply_setter p s) = t s || get p) -> (get (params_after l) = true <-> exists s, In s l /\ t s = true)).
  { intros t get H0 H. rewrite (switch_fold get t H0 H). apply existsb_exists. }
  split; [apply (last_said_fold pr_method); intros p []; reflexivity|].
  split; [unfold has_pcm; destruct (pr_method (params_after l)); split; (reflexivity || discriminate)|].
  split; [apply (last_said_fold pr_special); intros p []; reflexivity|].
  split; [apply (last_said_fold pr_align); intros p []; reflexivity|].
  split; [apply (last_said_fold pr_fix); intros p []; reflexivity|].
  split; [apply (last_said_fold pr_bias); intros p []; reflexivity|].
  split; [apply (last_said_fold pr_gn); intros p []; reflexivity|].
  split.
  { exists (pr_verb (params_after l)). split; [apply (last_said_fold pr_verb); intros p []; reflexivity|].
    cbn [config_of c_debug]. destruct (pr_verb (params_after l)); split; (reflexivity || discriminate). }
  split; [|split].
  - change (c_gnc (config_of (params_after l))) with (pr_gnc (params_after l)).
    rewrite (HS (fun s => match s with SetGnc _ _ => true | _ => false end) pr_gnc) by (try (intros p []); reflexivity).
    split; [intros (s & Hs & E); destruct s; try discriminate; eauto|intros (f & b & Hs); eauto].
  - change (c_incremental (config_of (params_after l))) with (pp_incremental (pr_pcm (params_after l))).
    rewrite (HS (fun s => match s with SetIncremental => true | _ => false end) (fun p => pp_incremental (pr_pcm p))) by (try (intros p []); reflexivity).
    split; [intros (s & Hs & E); destruct s; try discriminate; auto|intro Hs; eauto].
  - change (c_log (config_of (params_after l))) with (pr_log (params_after l)).
    rewrite (HS (fun s => match s with LogOutput => true | _ => false end) pr_log) by (try (intros p []); reflexivity).
    split; [intros (s & Hs & E); destruct s; try discriminate; auto|intro Hs; eauto].
Qed.

(** The relation determines the value. *)
Lemma last_said_fun {D A} (f : D -> option A) d l : forall v w, last_said f d l v -> last_said f d l w -> v = w.
Proof.
  intros v w. unfold last_said. induction l as [|s l IH] using rev_ind.
  - intros [(l1 & x & l2 & E & _)|[_ ->]]; [destruct l1; discriminate|].
    intros [(l1 & x & l2 & E & _)|[_ ->]]; [destruct l1; discriminate|auto].
  - assert (G : forall u, (exists l1 x l2, l ++ [s] = l1 ++ x :: l2 /\ f x = Some u /\ Forall (fun y => f y = None) l2) ->
      f s = Some u \/ (f s = None /\ exists l1 x l2, l = l1 ++ x :: l2 /\ f x = Some u /\ Forall (fun y => f y = None) l2)).
    { intros u (l1 & x & l2 & E & Hx & Hl). destruct (exists_last (l := x :: l2) ltac:(discriminate)) as (m & y & Em).
      rewrite Em, app_assoc in E. apply app_inj_tail in E. destruct E as [E ->]. destruct m as [|z m].
      - cbn in Em. injection Em as -> ->. left. auto.
      - cbn in Em. injection Em as -> ->. apply Forall_app in Hl. destruct Hl as [Hl1 Hl2]. inversion Hl2; subst. right. split; auto.
        exists l1, z, m. auto. }
    assert (G0 : forall u, (Forall (fun y => f y = None) (l ++ [s]) /\ u = d) -> f s = None /\ Forall (fun y => f y = None) l /\ u = d).
    { intros u [H ->]. apply Forall_app in H. destruct H as [H1 H2]. inversion H2; subst. auto. }
    intros [H|H] [H'|H'].
    + destruct (G v H) as [E|[E X]], (G w H') as [E'|[E' X']]; try congruence. apply IH; auto.
    + destruct (G v H) as [E|[E X]], (G0 w H') as (E' & X'); try congruence. apply IH; auto.
    + destruct (G0 v H) as (E & X), (G w H') as [E'|[E' X']]; try congruence. apply IH; auto.
    + destruct (G0 v H) as (E & X & ->), (G0 w H') as (E' & X' & ->); auto.
Qed.
