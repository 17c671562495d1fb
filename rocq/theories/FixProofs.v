(** * Which loop closures are kept when the previous inliers are fixed *)
From Coq Require Import QArith.
From Verif Require Import Prelude Num Keys KMap UMap Geometry Factors Clique CliqueSpec CliqueHeu Pcm Solver ValuesProofs
  PcmSpec PcmProofs PcmInv PcmStore HistSpec StoreSpec SolverProofs HistProofs GraphProofs UpdateProofs StoreProofs AcceptProofs FixSpec.
Set Implicit Arguments.
Local Open Scope nat_scope.

Section Fix.
Variable O : tops.
Variable C : config.
Variable W : soracles O.
Notation bf := (bf O).
Notation factor := (factor O).
Notation values := (values O).
Notation graph_t := (graph_t O).
Notation pcm := (pcm O).
Notation meas := (meas O).
Notation sp := (c_special C).
Notation op := (op O).
Notation solver := (solver O).
Notation start := (@solver_init O true).

(** ** Calls that store nothing *)
Lemma parsed_same vals b (p p' : pcm) o : parsed C vals b p p' o -> p_total p <= p_total p' /\
  (p_total p' = p_total p -> o = None /\ p_lcs p' = p_lcs p /\ p_lms p' = p_lms p /\ p_ignored p' = p_ignored p).
Proof.
  intro HP. inversion HP; subst; auto.
  - cbn. split; [lia|]. intro X. lia.
  - cbn. split; [lia|]. intro X. lia.
Qed.

Lemma parse_same vals bs : forall (p p' : pcm) nn nn', rfold (parse_one C vals) bs (p, nn) = Val (p', nn') ->
  p_total p <= p_total p' /\
  (p_total p' = p_total p -> nn' = nn /\ p_lcs p' = p_lcs p /\ p_lms p' = p_lms p /\ p_ignored p' = p_ignored p).
Proof.
  induction bs as [|b bs IH]; intros p p' nn nn' H; cbn [rfold] in H.
  - injection H as <- <-. auto.
  - destruct (parse_one C vals b (p, nn)) as [[p1 nn1]|] eqn:E; cbn [rbind] in H; [|discriminate].
    apply parse_one_inv in E. destruct E as (o & HP & ->). apply parsed_same in HP. destruct HP as [P1 P2].
    apply IH in H. destruct H as [H1 H2]. split; [lia|]. intro X.
    destruct (H2 ltac:(lia)) as (A1 & A2 & A3 & A4). destruct (P2 ltac:(lia)) as (B1 & B2 & B3 & B4). subst o.
    split; auto. split; [congruence|]. split; congruence.
Qed.

Lemma umapM_same {K} (f : meas -> res meas) (m : umap K meas) : Forall (fun kv => f (snd kv) = Val (snd kv)) m -> umapM f m = Val m.
Proof. intro H. induction H as [|[k v] m Hv H IH]; cbn [umapM]; auto. cbn [snd] in Hv. rewrite Hv, IH. auto. Qed.

Lemma nothing_stored fs nv (p p' : pcm) nfg nfg' v v' b :
  remove_outliers C (so_pcm W) fs nv (PSt p nfg v) = Ok (PSt p' nfg' v') b ->
  p_total p <= p_total p' /\
  ((c_incremental C = false -> settled_lc C p) -> settled_lm p -> p_total p' = p_total p ->
   p_lcs p' = p_lcs p /\ p_lms p' = p_lms p /\ p_ignored p' = p_ignored p).
Proof.
  intro H. unfold remove_outliers in H. cbn [ps_pcm ps_nfg ps_vals] in H.
  destruct (vinsert_all nv v) as [vs u| |] eqn:EV; try discriminate.
  destruct fs as [|of fs']. { injection H as <- <- <- <-. auto. }
  set (FS := of :: fs') in *.
  destruct (proc_factors C nv vs FS p ([], false)) as [p1 [lcs opt]| |] eqn:EP; try discriminate.
  match type of H with (match ?r with Bad _ => _ | Val _ => _ end) = _ => destruct r as [[p3 opt']|] eqn:ER end; [|discriminate].
  assert (FIN : p_lcs p' = p_lcs p3 /\ p_lms p' = p_lms p3 /\ p_total p' = p_total p3 /\ p_ignored p' = p_ignored p3).
  { destruct (c_align C && (1 <? length (p_robots p3))).
    - destruct (align (so_pcm W) (set_robots p3 (nsort (p_robots p3))) vs) as [vs' []| |]; try discriminate.
      injection H as <- _ _ _. auto.
    - injection H as <- _ _ _. auto. }
  clear H. destruct FIN as (F1 & F2 & F3 & F4). rewrite F1, F2, F3, F4. clear F1 F2 F3 F4 p' nfg' v' b.
  pose proof (proc_factors_frame _ _ _ _ _ _ EP) as (_ & _ & P3 & _ & _ & P6 & P7 & P8 & _). 
  assert (N1 : p_total p1 = p_total p -> p_lms p1 = p_lms p).
  { intro X. rewrite P8. destruct (filter (sp_first sp nv) (betweens FS)); [reflexivity|cbn in P7; lia]. }
  destruct lcs as [|b0 bs].
  - injection ER as <- <-. split; [lia|]. intros _ _ X. auto.
  - set (cand := b0 :: bs) in *. destruct (parse_all C vs cand p1) as [[p2 nn]|] eqn:EA; cbn [rbind] in ER; [|discriminate].
    destruct (if c_incremental C then find_inliers_inc nn p2 else find_inliers C p2) as [q|] eqn:EF; cbn [rbind] in ER; [|discriminate].
    injection ER as <- <-. apply parse_same in EA. destruct EA as [A1 A2].
    assert (T : p_total q = p_total p2).
    { destruct (c_incremental C); [unfold find_inliers_inc in EF|unfold find_inliers in EF].
      - match type of EF with rbind ?r _ = _ => destruct r as [lc'|] end; cbn [rbind] in EF; [|discriminate].
        destruct (umapM _ (p_lms p2)); cbn [rbind] in EF; [|discriminate]. injection EF as <-. auto.
      - match type of EF with rbind ?r _ = _ => destruct r as [lc'|] end; cbn [rbind] in EF; [|discriminate].
        destruct (umapM _ (p_lms p2)); cbn [rbind] in EF; [|discriminate]. injection EF as <-. auto. }
    split; [lia|]. intros SC SM X. destruct (A2 ltac:(lia)) as (-> & B2 & B3 & B4). specialize (N1 ltac:(lia)).
    assert (ML : umapM (heu_inliers (O:=O)) (p_lms p2) = Val (p_lms p2)) by (apply umapM_same; rewrite B3, N1; exact SM).
    destruct (c_incremental C) eqn:EI.
    + unfold find_inliers_inc in EF. cbn [rfold rbind] in EF. rewrite ML in EF. cbn [rbind] in EF. injection EF as <-. cbn.
      split; [congruence|]. split; congruence.
    + unfold find_inliers in EF. rewrite umapM_same in EF by (rewrite B2, P3; apply SC; auto). cbn [rbind] in EF.
      rewrite ML in EF. cbn [rbind] in EF. injection EF as <-. cbn. split; [congruence|]. split; congruence.
Qed.

(** ** The weights remembered are those of the last GNC run *)
Definition closures (s : solver) (p : pcm) : graph_t := skipn (num_odom_special p) (s_nfg s).

Definition from_last_gnc (tr : list (request O)) (n : nat) (cls : graph_t) (wl : list Q) : Prop :=
  exists tr1 r0 tr2 a k0, tr = tr1 ++ r0 :: tr2 /\ rq_known r0 = Some (seq 0 k0) /\ (forall q, In q tr2 -> rq_known q = None) /\
    so_opt W tr1 r0 = Some a /\ wl = map (an_w a) (seq k0 n) /\ cls = firstn n (skipn k0 (rq_graph r0)).

Record weights_inv (s : solver) (p : pcm) : Prop := {
  wi_le : s_latest s <= p_total p;
  wi_gnc : s_latest s = p_total p -> length (closures s p) = p_total p -> 0 < p_total p ->
    from_last_gnc (s_trace s) (s_latest s) (closures s p) (skipn (length (s_w s) - s_latest s) (s_w s)) }.

Lemma closures_build (s : solver) p : s_nfg s = graph_of (so_pcm W) p -> 
  s_nfg s = firstn (num_odom_special p) (s_nfg s) ++ closures s p /\
  length (s_nfg s) = num_odom_special p + length (closures s p) /\
  closures s p = map Some (map FBetween (build_lcs (so_pcm W) p) ++ map FBetween (build_lms (so_pcm W) p)).
Proof.
  intro H. unfold closures. split; [symmetry; apply firstn_skipn|]. rewrite H. unfold graph_of, build, num_odom_special.
  rewrite !app_assoc, <- app_assoc, (map_app Some (_ ++ _)).
  assert (E : length (p_odom p) + length (p_special p) = length (map Some (map FBetween (p_odom p) ++ p_special p)))
    by (rewrite map_length, app_length, map_length; auto).
  rewrite E, skipn_app, skipn_all, Nat.sub_diag. cbn [skipn app]. split; auto. rewrite app_length. auto.
Qed.

Lemma closures_same (s s1 : solver) p p' : s_nfg s = graph_of (so_pcm W) p -> s_nfg s1 = graph_of (so_pcm W) p' ->
  p_lcs p' = p_lcs p -> p_lms p' = p_lms p -> p_ignored p' = p_ignored p -> closures s1 p' = closures s p.
Proof.
  intros H H' E1 E2 E3. destruct (closures_build _ _ H) as (_ & _ & ->). destruct (closures_build _ _ H') as (_ & _ & ->).
  unfold build_lcs, build_lms, ignored. rewrite E1, E2, E3. auto.
Qed.

Lemma skipn_ones n (wl : list Q) : skipn (length (ones n ++ wl) - length wl) (ones n ++ wl) = wl.
Proof.
  unfold ones. rewrite app_length, repeat_length, Nat.add_sub, skipn_app, skipn_all2 by (rewrite repeat_length; lia).
  rewrite repeat_length, Nat.sub_diag. auto.
Qed.

Lemma from_gnc_app tr n cls wl q : from_last_gnc tr n cls wl -> rq_known q = None -> from_last_gnc (tr ++ [q]) n cls wl.
Proof.
  intros (tr1 & r0 & tr2 & a & k0 & A1 & A2 & A3 & A4) Hq. exists tr1, r0, (tr2 ++ [q]), a, k0. split; [rewrite A1, <- app_assoc; auto|].
  split; auto. split; auto. intros x Hx. apply in_app_or in Hx. destruct Hx as [Hx|[<-|[]]]; auto.
Qed.

(** One optimisation. *)
Lemma weights_optimize (s s' : solver) p : s_pcm s = Some p -> s_nfg s = graph_of (so_pcm W) p -> c_gnc C = true -> c_fix C = true ->
  weights_inv s p -> optimize C W s = Ok s' tt -> weights_inv s' p.
Proof.
  intros Hp HN HG HF [I1 I3] H. apply optimize_inv in H. destruct H as (r & a & full & Hz).
  pose proof (oz_branch Hz) as HB. unfold gnc_branch in HB. rewrite Hp, HG, HF in HB. cbn [andb] in HB.
  assert (L : s_latest s' = p_total p). { rewrite (oz_latest Hz). unfold latest_after. rewrite Hp. auto. }
  assert (CL : closures s' p = closures s p) by (unfold closures; rewrite (oz_nfg Hz); auto).
  destruct (closures_build _ _ HN) as (_ & LN & _).
  destruct (p_total p =? s_latest s) eqn:ET; cbn [negb] in HB.
  - apply Nat.eqb_eq in ET. destruct HB as (B1 & _ & _ & _ & L1 & L2 & B3 & _).
    set (wl := skipn (length (s_w s) - s_latest s) (s_w s)) in *.
    assert (WL : length wl = p_total p) by (unfold wl; rewrite skipn_length; lia).
    split; rewrite ?L, ?CL; auto.
    intros _ X Y. rewrite (oz_trace Hz). apply from_gnc_app; auto.
    assert (SK : skipn (length (s_w s') - p_total p) (s_w s') = wl) by (rewrite B3, <- WL; apply skipn_ones).
    rewrite SK, ET. apply I3; auto.
  - destruct HB as (B1 & _ & B3 & _). split; rewrite ?L, ?CL; auto.
    intros _ X Y. exists (s_trace s), r, [], a, (num_odom_special p). split; [apply (oz_trace Hz)|].
    split; [rewrite B1; auto|]. split; [intros q []|]. split; [apply (oz_ans Hz)|]. split.
    + rewrite B3, map_length, seq_length, LN, X. replace (num_odom_special p + p_total p - p_total p) with (num_odom_special p) by lia.
        rewrite skipn_map, skipn_seq. reflexivity.
    + rewrite B1. cbn [rq_graph]. unfold closures in *. rewrite skipn_app. rewrite firstn_app, X, Nat.sub_diag. cbn [firstn].
        rewrite app_nil_r, <- X, firstn_all. auto.
Qed.

(** One call before its optimisation. *)
Lemma weights_call h o (s s1 : solver) rt rs p p' : run C W h start = Ok s rs -> no_removal h -> steady o = true ->
  s_pcm s = Some p -> s_nfg s = graph_of (so_pcm W) p -> call_effect C W o s s1 p p' rt -> same_opt_state s s1 ->
  weights_inv s p -> weights_inv s1 p'.
Proof.
  intros HR NR HS Hp HN HE HO [I1 I3].
  pose proof (call_synced HE HN) as HN1. destruct HE as [Hp' HE]. destruct HO as (O1 & _ & _ & O4 & O5).
  assert (X : p_total p <= p_total p' /\ (p_total p' = p_total p -> p_lcs p' = p_lcs p /\ p_lms p' = p_lms p /\ p_ignored p' = p_ignored p)).
  { destruct (store_run C W _ HR) as (q & Hq & J). rewrite Hp in Hq. injection Hq as <-.
    destruct o; try discriminate HS; cbn in HE.
    1-2: destruct HE as [b' HE]; destruct (nothing_stored _ _ _ _ _ HE) as [Y1 Y2]; split; auto; intro Z; apply Y2; auto;
         [apply (si_lcset J NR)|apply (si_lms J)].
    1-4: destruct HE as (-> & _); auto. }
  destruct X as [X1 X2]. split; rewrite O4; [lia|]. intros Y1 Y2 Y3.
  assert (Z : p_total p' = p_total p) by lia. destruct (X2 Z) as (Z1 & Z2 & Z3).
  rewrite (closures_same _ _ _ _ HN HN1 Z1 Z2 Z3) in *. rewrite O1, O5. rewrite Z in *. auto.
Qed.

Lemma steady_no_removal (h : list op) : steady_all h -> no_removal h.
Proof. intros H o Ho. specialize (H o Ho). destruct o; cbn in *; auto; discriminate. Qed.

Lemma weights_run h (s : solver) rs : c_gnc C = true -> c_fix C = true -> run C W h start = Ok s rs ->
  steady_all h -> exists p, s_pcm s = Some p /\ s_nfg s = graph_of (so_pcm W) p /\ weights_inv s p.
Proof.
  intros HG HF. revert h s rs. refine (run_ind C W (fun h s => steady_all h -> exists p, s_pcm s = Some p /\ s_nfg s = graph_of (so_pcm W) p /\ weights_inv s p) _ _ _).
  - intros _. exists pcm_init. split; auto. split; auto. split; cbn; auto. lia.
  - intros h s o s' r rs HR IH HS HA.
    assert (A1 : steady_all h) by (intros x Hx; apply HA, in_or_app; auto).
    assert (A2 : steady o = true) by (apply HA, in_or_app; cbn; auto).
    destruct (IH A1) as (p & Hp & HN & I). destruct (step_inv C W _ _ Hp HS) as (s1 & p' & b & E1 & _ & E3 & _ & E5).
    pose proof (weights_call HR (steady_no_removal A1) A2 Hp HN E1 E3 I) as I'.
    pose proof (call_synced E1 HN) as HN1. destruct E1 as [Hp1 _]. exists p'. destruct (optimises o b).
    + destruct (optimize_inv C W _ E5) as (q & a & full & Hz). split; [rewrite (oz_pcm Hz); auto|].
      split; [rewrite (oz_nfg Hz); auto|]. eapply weights_optimize; eauto.
    + subst s'. auto.
Qed.

(** An optimisation that leaves the loop closures to the previous run. *)
Lemma c32_history h o (s s' : solver) rs r q : c_gnc C = true -> c_fix C = true -> steady_all (h ++ [o]) ->
  run C W h start = Ok s rs -> step C W o s = Ok s' r -> s_trace s' = s_trace s ++ [q] -> rq_known q = None ->
  let k := length (sp_odoms sp (h ++ [o])) + length (sp_others (h ++ [o])) in
  let n := length (sp_stored C W (h ++ [o])) + length (sp_sightings C W (h ++ [o])) in
  length (s_nfg s') = k + n -> 0 < n ->
  exists tr1 r0 tr2 a k0,
    s_trace s = tr1 ++ r0 :: tr2 /\ rq_known r0 = Some (seq 0 k0) /\ (forall x, In x tr2 -> rq_known x = None) /\
    so_opt W tr1 r0 = Some a /\
    skipn k (s_nfg s') = firstn n (skipn k0 (rq_graph r0)) /\
    rq_graph q = firstn k (s_nfg s') ++ kept (skipn k (s_nfg s')) (map (an_w a) (seq k0 n)) ++ s_tnfg s'.
Proof.
  intros HG HF HA HR HS HT HQ k n HL Hn.
  assert (A1 : steady_all h) by (intros x Hx; apply HA, in_or_app; auto).
  assert (A2 : steady o = true) by (apply HA, in_or_app; cbn; auto).
  assert (HR' : run C W (h ++ [o]) start = Ok s' (rs ++ [r])).
  { eapply run_app_ok; [exact HR|]. cbn [run]. rewrite HS. reflexivity. }
  destruct (weights_run HG HF HR A1) as (p & Hp & HN & I).
  destruct (step_inv C W _ _ Hp HS) as (s1 & p' & b & E1 & _ & E3 & _ & E5).
  pose proof (weights_call HR (steady_no_removal A1) A2 Hp HN E1 E3 I) as I'.
  pose proof (call_synced E1 HN) as HN1. destruct E1 as [Hp1 _]. destruct E3 as (_ & _ & _ & _ & T1).
  destruct (optimises o b). 2:{ subst s'. rewrite T1 in HT. apply (f_equal (@length _)) in HT. rewrite app_length in HT. cbn in HT. lia. }
  destruct (optimize_inv C W _ E5) as (q' & a' & full & Hz).
  assert (q' = q). { pose proof (oz_trace Hz) as X. rewrite HT, T1 in X. apply app_inj_tail in X. destruct X; auto. } subst q'.
  destruct (hist_run C W _ HR') as (p2 & J). pose proof (hi_pcm J) as Hp2. rewrite (oz_pcm Hz), Hp1 in Hp2. injection Hp2 as <-.
  destruct (store_run C W _ HR') as (p2 & Hp2 & K). rewrite (oz_pcm Hz), Hp1 in Hp2. injection Hp2 as <-.
  assert (EK : k = num_odom_special p') by (unfold k, num_odom_special; rewrite (hi_odom J), (hi_special J); auto).
  assert (EN : n = p_total p') by (symmetry; apply (si_total K)).
  clearbody k n. subst k n.
  assert (ET : p_total p' = s_latest s1).
  { pose proof (oz_branch Hz) as HB. unfold gnc_branch in HB. rewrite Hp1, HG, HF in HB. cbn [andb] in HB.
    destruct (p_total p' =? s_latest s1) eqn:ET; [apply Nat.eqb_eq; auto|]. cbn [negb] in HB. destruct HB as (HB & _). rewrite HB in HQ. discriminate HQ. }
  rewrite (oz_nfg Hz) in *.
  destruct (closures_build _ _ HN1) as (_ & LN & _).
  destruct (@c32_request O C W _ _ _ Hp1 HF ET ltac:(lia) E5) as (q' & wl & C1 & _ & C2 & _ & C4 & _).
  assert (q' = q). { rewrite HT, T1 in C1. apply app_inj_tail in C1. destruct C1; auto. } subst q'.
  destruct (wi_gnc I' (eq_sym ET) ltac:(lia) Hn) as (tr1 & r0 & tr2 & a & k0 & D1 & D2 & D3 & D4 & D5 & D6).
  exists tr1, r0, tr2, a, k0. rewrite <- T1. split; auto. split; auto. split; auto. split; auto.
  rewrite ET at 1. split; [exact D6|]. rewrite C4, C2, D5, ET. rewrite (oz_tnfg Hz). auto.
Qed.
End Fix.
