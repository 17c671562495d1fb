(** * Counts of loop closures and inliers *)
From Coq Require Import QArith Qround Permutation Lqa.
From Verif Require Import Prelude Num Keys KMap UMap Geometry Factors Clique Pcm Solver ValuesProofs
  PcmSpec PcmProofs PcmInv PcmStore HistSpec StoreSpec SolverProofs HistProofs GraphProofs UpdateProofs StoreProofs AcceptProofs StoreThms.
Set Implicit Arguments.
Local Open Scope nat_scope.

(** ** Sums of weights *)
Lemma qsum_bounds l : Forall (fun w => 0 <= w <= 1)%Q l -> (0 <= qsum l <= inject_Z (Z.of_nat (length l)))%Q.
Proof.
  induction l as [|w l IH]; intro H; [cbn; split; apply Qle_refl|]. inversion H as [|x y Hx Hy E]; subst. specialize (IH Hy).
  cbn [qsum fold_right length]. fold (qsum l). rewrite Nat2Z.inj_succ, <- Z.add_1_l, inject_Z_plus. 
  change (inject_Z 1) with 1%Q. destruct IH, Hx. split; lra.
Qed.

Lemma qsum_binary l : Forall (fun w => w == 0 \/ w == 1)%Q l ->
  (qsum l == inject_Z (Z.of_nat (length (filter (fun w => negb (Qle_bool w (1 # 2))) l))))%Q.
Proof.
  induction l as [|w l IH]; intro H; [reflexivity|]. inversion H as [|x y Hx Hy E]; subst. specialize (IH Hy).
  cbn [qsum fold_right filter]. fold (qsum l). destruct Hx as [Hx|Hx].
  - assert (E : Qle_bool w (1 # 2) = true) by (apply Qle_bool_iff; rewrite Hx; discriminate). rewrite E. cbn [negb]. rewrite Hx, IH. ring.
  - assert (E : Qle_bool w (1 # 2) = false).
    { destruct (Qle_bool w (1 # 2)) eqn:E; auto. apply Qle_bool_iff in E. rewrite Hx in E. exfalso. revert E. apply Qlt_not_le. reflexivity. }
    rewrite E. cbn [negb length]. rewrite Hx, IH, Nat2Z.inj_succ, <- Z.add_1_l, inject_Z_plus. reflexivity.
Qed.

Lemma Qfloor_bounds q n : (0 <= q <= inject_Z n)%Q -> (0 <= Qfloor q <= n)%Z.
Proof.
  intros [H1 H2]. split.
  - change 0%Z with (Qfloor (inject_Z 0)). apply Qfloor_resp_le. auto.
  - rewrite <- (Qfloor_Z n). apply Qfloor_resp_le. auto.
Qed.

Section Count.
Variable O : tops.
Variable C : config.
Variable W : soracles O.
Notation bf := (bf O).
Notation values := (values O).
Notation graph_t := (graph_t O).
Notation pcm := (pcm O).
Notation sp := (c_special C).
Notation op := (op O).
Notation solver := (solver O).
Notation start := (@solver_init O true).

(** ** C65 *)
Lemma c65 h o (s s' : solver) rs r q l a : run C W h start = Ok s rs -> step C W o s = Ok s' r ->
  s_trace s' = s_trace s ++ [q] -> rq_known q = Some l -> so_opt W (s_trace s) q = Some a ->
  (forall i, In i l -> an_w a i == 1)%Q -> (forall i, 0 <= an_w a i <= 1)%Q ->
  (Z.of_nat (length (s_nfg s')) < size_t_mod)%Z ->
  let k := length (sp_odoms sp (h ++ [o])) + length (sp_others (h ++ [o])) in
  s_w s' = map (an_w a) (seq 0 (length (s_nfg s'))) /\
  length (s_nfg s') = k + length (graph_extra C (h ++ [o]) (s_nfg s')) /\
  exists n, get_num_inliers C s' = Val n /\ n = Qfloor (qsum (skipn k (s_w s'))) /\
    (0 <= n <= Z.of_nat (length (graph_extra C (h ++ [o]) (s_nfg s'))))%Z /\
    ((forall i, an_w a i == 0 \/ an_w a i == 1)%Q ->
       n = Z.of_nat (length (filter (fun w => negb (Qle_bool w (1 # 2))) (skipn k (s_w s'))))).
Proof.
  intros HR HS HT HQ HA K1 K2 HZ k.
  assert (HR' : run C W (h ++ [o]) start = Ok s' (rs ++ [r])).
  { eapply run_app_ok; [exact HR|]. cbn [run]. rewrite HS. reflexivity. }
  destruct (hist_run C W _ HR) as [p0 I0]. destruct (hist_run C W _ HR') as [p I].
  destruct (step_inv C W _ _ (hi_pcm I0) HS) as (s1 & p' & b & [Hp1 _] & _ & (_ & _ & _ & _ & T1) & _ & E5).
  destruct (optimises o b). 2:{ subst s'. rewrite T1 in HT. apply (f_equal (@length _)) in HT. rewrite app_length in HT. cbn in HT. lia. }
  destruct (optimize_inv C W _ E5) as (q' & a' & full & Hz).
  assert (q' = q). { pose proof (oz_trace Hz) as X. rewrite HT, T1 in X. apply app_inj_tail in X. destruct X; auto. } subst q'.
  assert (a' = a). { pose proof (oz_ans Hz) as X. rewrite T1 in X. congruence. } subst a'.
  assert (p' = p). { pose proof (hi_pcm I) as X. rewrite (oz_pcm Hz) in X. congruence. } subst p'.
  assert (EK : num_odom_special p = k) by (unfold k, num_odom_special; rewrite (hi_odom I), (hi_special I); auto).
  pose proof (oz_branch Hz) as HB. destruct (gnc_branch C s1) as [p2|] eqn:EG; [|destruct HB as (HB & _); congruence].
  assert (p2 = p). { unfold gnc_branch in EG. rewrite Hp1 in EG. destruct (_ && _) in EG; congruence. } subst p2.
  destruct HB as (B1 & _ & B3 & _). assert (l = seq 0 k). { rewrite B1 in HQ. cbn in HQ. rewrite EK in HQ. congruence. } subst l.
  rewrite <- (oz_nfg Hz) in B3. split; [exact B3|].
  assert (LN : length (s_nfg s') = k + length (graph_extra C (h ++ [o]) (s_nfg s'))).
  { rewrite (graph_extra_eq I). rewrite (graph_split I), map_length, !app_length, !map_length, app_length. unfold k. lia. }
  split; [exact LN|].
  assert (LW : length (s_w s') = length (s_nfg s')) by (rewrite B3, map_length, seq_length; auto).
  assert (Fw : Forall (fun w => 0 <= w <= 1)%Q (skipn k (s_w s'))).
  { apply Forall_forall. intros w Hw. assert (X : In w (s_w s')) by (rewrite <- (firstn_skipn k (s_w s')); apply in_or_app; auto).
    rewrite B3 in X. apply in_map_iff in X. destruct X as (i & <- & _). apply K2. }
  assert (LX : length (skipn k (s_w s')) = length (graph_extra C (h ++ [o]) (s_nfg s'))) by (rewrite skipn_length; lia).
  pose proof (Qfloor_bounds (qsum_bounds Fw)) as BD. rewrite LX in BD.
  destruct (@c30_inliers O C W s1 s' p E5 EG) as (HG & HN); rewrite ?EK; auto.
  - lia.
  - rewrite B3, LN, firstn_map, firstn_seq by lia. apply Forall_forall. intros w Hw. apply in_map_iff in Hw.
    destruct Hw as (i & <- & Hi). auto.
  - lia.
  - rewrite EK in HN. exists (Qfloor (qsum (skipn k (s_w s')))). split; auto. split; auto. split; auto.
    intro HB. assert (Fb : Forall (fun w => w == 0 \/ w == 1)%Q (skipn k (s_w s'))).
    { apply Forall_forall. intros w Hw. assert (X : In w (s_w s')) by (rewrite <- (firstn_skipn k (s_w s')); apply in_or_app; auto).
      rewrite B3 in X. apply in_map_iff in X. destruct X as (i & <- & _). apply HB. }
    rewrite (Qfloor_comp _ _ (qsum_binary Fb)). apply Qfloor_Z.
Qed.

(** Calls that do not run GNC keep the count. *)
Lemma c65_kept h o (s s' : solver) rs r : run C W h start = Ok s rs -> step C W o s = Ok s' r -> c_gnc C = true ->
  (forall q l, s_trace s' = s_trace s ++ [q] -> rq_known q <> Some l) -> get_num_inliers C s' = get_num_inliers C s.
Proof.
  intros HR HS HG HN. unfold get_num_inliers. rewrite HG. f_equal.
  destruct (hist_run C W _ HR) as [p0 I0].
  destruct (step_inv C W _ _ (hi_pcm I0) HS) as (s1 & p' & b & [Hp1 _] & _ & (_ & _ & E3 & _ & T1) & _ & E5).
  destruct (optimises o b); [|subst s'; auto].
  destruct (optimize_inv C W _ E5) as (q & a & full & Hz). pose proof (oz_branch Hz) as HB.
  destruct (gnc_branch C s1) as [p2|].
  - destruct HB as (B1 & _). exfalso. apply (HN q (seq 0 (num_odom_special p2))); [rewrite <- T1; apply (oz_trace Hz)|]. rewrite B1. auto.
  - destruct HB as (_ & _ & _ & _ & _ & _ & _ & _ & ->). auto.
Qed.

(** ** C24 *)
Lemma c24_kept h o (s s' : solver) rs r : run C W h start = Ok s rs -> step C W o s = Ok s' r -> c_gnc C = false ->
  (forall fs vs, call_of o = Some (fs, vs) -> filter (sp_candidate sp vs) (betweens fs) = []) ->
  get_num_inliers C s' = get_num_inliers C s.
Proof.
  intros HR HS HG HN.
  assert (HR' : run C W (h ++ [o]) start = Ok s' (rs ++ [r])).
  { eapply run_app_ok; [exact HR|]. cbn [run]. rewrite HS. reflexivity. }
  destruct (hist_run C W _ HR) as [p0 I0].
  destruct (step_inv C W _ _ (hi_pcm I0) HS) as (s1 & p' & b & [Hp1 HE] & _ & _ & _ & E5).
  assert (HP : s_pcm s' = Some p').
  { destruct (optimises o b); [|congruence]. destruct (optimize_inv C W _ E5) as (q & a & full & Hz). rewrite (oz_pcm Hz); auto. }
  unfold get_num_inliers. rewrite HG, HP, (hi_pcm I0). f_equal. f_equal.
  destruct (call_of o) as [[fs vs]|] eqn:EC.
  - destruct (@run_call O C W _ _ _ _ _ _ HR' EC) as (s0 & rs0 & p1 & p2 & nfg & v & b' & HR0 & I1 & Hp & HO & HF & HK).
    assert (s0 = s) by congruence. subst s0. assert (p1 = p0) by (pose proof (hi_pcm I1); pose proof (hi_pcm I0); congruence). subst p1.
    assert (p2 = p') by congruence. subst p2.
    destruct (@remove_outliers_store _ C W _ _ _ _ _ _ _ _ _ _ _ HO HF HK) as (_ & _ & _ & _ & _ & _ & G).
    destruct (G (HN _ _ eq_refl)) as (_ & -> & _). auto.
  - clear HN HR'. destruct o; try discriminate EC; cbn in HE.
    + destruct HE as (-> & _). auto.
    + destruct HE as (e & _ & HE & _). apply pcm_remove_last_id_frame in HE. destruct HE as (lcs & -> & _). auto.
    + destruct HE as (e & _ & HE & _). apply pcm_remove_last_frame in HE. destruct HE as [(_ & -> & _)|(od & id & _ & HE)]; auto.
      apply pcm_remove_last_id_frame in HE. destruct HE as (lcs & -> & _). auto.
    + destruct HE as (-> & _). unfold pcm_ignore. destruct (existsb _ _); auto.
    + destruct HE as (-> & _). auto.
    + destruct HE as (-> & _). auto.
    + destruct HE as (-> & _). auto.
    + destruct HE as (-> & _). auto.
Qed.

(** Loop closures of ignored robots are counted although they are not in the graph. *)
Lemma flat_some {A B} (f g : A -> list B) l : (forall x, length (f x) <= length (g x)) -> length (flat_map f l) <= length (flat_map g l).
Proof. intro H. induction l as [|x l IH]; cbn; auto. rewrite !app_length. specialize (H x). lia. Qed.

Lemma c24_at_least h o fs vs (s : solver) rs : run C W (h ++ [o]) start = Ok s rs -> call_of o = Some (fs, vs) ->
  c_gnc C = false -> filter (sp_candidate sp vs) (betweens fs) <> [] ->
  exists n, get_num_inliers C s = Val n /\ (Z.of_nat (length (graph_extra C (h ++ [o]) (s_nfg s))) <= n)%Z.
Proof.
  intros H Hc Hg HN. destruct (@run_call O C W _ _ _ _ _ _ H Hc) as (s0 & rs0 & p0 & p & nfg & v & b & HR & I0 & Hp & HO & HF & HK).
  destruct (@remove_outliers_store _ C W _ _ _ _ _ _ _ _ _ _ _ HO HF HK) as (_ & _ & _ & _ & _ & G & _). specialize (G HN).
  unfold get_num_inliers. rewrite Hg, Hp, G. eexists. split; [reflexivity|]. apply inj_le.
  destruct (hist_run C W _ H) as (p' & I). assert (p' = p) by (pose proof (hi_pcm I); congruence). subst p'.
  rewrite (graph_extra_eq I), app_length, !count_cons_flat. apply Nat.add_le_mono.
  - unfold build_lcs. rewrite (flat_map_perm _ (uiter_perm (w_lc_order (so_pcm W)) (p_lcs p))).
    apply flat_some. intros [id m]. destruct (ignored p id); cbn; lia.
  - unfold build_lms. rewrite (flat_map_perm _ (uiter_perm (w_lm_order (so_pcm W)) (p_lms p))).
    apply flat_some. intros [id m]. cbn. lia.
Qed.
End Count.
