(** * A robust solver used through its base class: proofs *)
From Verif Require Import Prelude Keys KMap Geometry Factors Pcm Solver PcmSpec PcmProofs PcmInv HistSpec SolverProofs HistProofs
  ParamProofs PlainProofs CallsSpec CallsProofs Base BaseSpec.
Set Implicit Arguments.
Local Open Scope nat_scope.

Section Base.
Variable O : tops.
Variable C : config.
Variable W : soracles O.
Notation solver := (solver O).
Notation op := (op O).
Notation bop := (bop O).
Notation sp := (c_special C).

Lemma brun_snoc h (o : bop) : forall (s s' : solver) rs, brun C W (h ++ [o]) s = Ok s' rs ->
  exists s1 rs1 r, brun C W h s = Ok s1 rs1 /\ bstep C W o s1 = Ok s' r /\ rs = rs1 ++ [r].
Proof.
  induction h as [|o' h IH]; intros s s' rs H; cbn [app brun] in H.
  - destruct (bstep C W o s) as [s1 r| |] eqn:E; cbn [obind] in H; try discriminate.
    inversion H; subst. exists s, [], r. repeat split; auto.
  - destruct (bstep C W o' s) as [s1 r| |] eqn:E; cbn [obind] in H; try discriminate.
    destruct (brun C W (h ++ [o]) s1) as [s2 rs2| |] eqn:E2; cbn [obind] in H; try discriminate.
    inversion H; subst. apply IH in E2. destruct E2 as (s3 & rs3 & r3 & R1 & R2 & ->).
    exists s3, (r :: rs3), r3. split; [|split; auto]. cbn [brun]. rewrite E. cbn [obind]. rewrite R1. reflexivity.
Qed.

(** ** With outlier rejection *)

Lemma step_keys o (s s' : solver) r p : s_pcm s = Some p -> step C W o s = Ok s' r ->
  forall k, kmem k (s_vals s') = kmem k (s_vals s) || match call_of o with Some (_, vs) => kmem k vs | None => false end.
Proof.
  intros Hp H k. pose proof (step_inv C W o s Hp H) as (s1 & p' & b & [E0 E] & _ & _ & _ & Ho).
  assert (X : kmem k (s_vals s') = kmem k (s_vals s1)).
  { destruct (optimises o b); [|congruence]. destruct (optimize_same C W s1 Ho) as (_ & _ & _ & G & _). apply G. }
  rewrite X. destruct o as [fs vs opt|fs vs|c opt|a0 b0| |c|c|fs vs|fs vs|]; cbn [call_of];
    try (rewrite orb_false_r; f_equal; tauto).
  1,2: destruct E as [x E]; apply remove_outliers_ok in E; destruct E as (_ & _ & _ & E & _); apply E.
  all: rewrite orb_false_r; f_equal; destruct E as (e & _ & _ & _ & E); auto.
Qed.

Lemma step_hands o (s s' : solver) r p : s_pcm s = Some p -> step C W o s = Ok s' r -> hands_over o r ->
  exists p', s_pcm s' = Some p' /\ s_nfg s' = graph_of (so_pcm W) p'.
Proof.
  intros Hp H HH. pose proof (step_inv C W o s Hp H) as (s1 & p' & b & [E0 E] & _ & _ & _ & Ho).
  assert (X : s_pcm s' = Some p' /\ s_nfg s' = s_nfg s1).
  { destruct (optimises o b); [|subst; auto]. destruct (optimize_same C W s1 Ho) as (G1 & G2 & _). split; congruence. }
  destruct X as [X1 X2]. exists p'. split; auto. rewrite X2.
  assert (RO : forall fs vs x, fs <> [] ->
    remove_outliers C (so_pcm W) fs vs (PSt p (s_nfg s) (s_vals s)) = Ok (PSt p' (s_nfg s1) (s_vals s1)) x ->
    s_nfg s1 = graph_of (so_pcm W) p').
  { intros fs vs x Hn G. apply remove_outliers_inv in G. destruct G as (v & u & q & _ & _ & _ & G1 & G2 & G3).
    specialize (G1 Hn). cbn [ps_nfg ps_pcm ps_vals] in *. rewrite G1. destruct (c_align C).
    - destruct (G3 eq_refl) as [[-> _]|(_ & _ & -> & _)]; reflexivity.
    - specialize (G2 eq_refl). injection G2 as -> _. reflexivity. }
  destruct o as [fs vs opt|fs vs|c opt|a0 b0| |c|c|fs vs|fs vs|]; cbn [hands_over] in HH; try (exfalso; exact HH); try tauto.
  1,2: destruct E as [x E]; eauto.
  1,2: destruct E as (e & Hr & _ & G & _); destruct e; [exact G|subst; exfalso; apply HH; reflexivity].
Qed.

Lemma edit_keeps (o : bop) (s s' : solver) r : graph_edit o = true -> bstep C W o s = Ok s' r ->
  s_pcm s' = s_pcm s /\ s_vals s' = s_vals s.
Proof.
  destruct o as [o|fs vs rm|rm| |c|vs]; cbn [graph_edit bstep]; try discriminate; intros _ H.
  - unfold no_ret, remove_factors_no_update in H. destruct (reset_slots rm (s_nfg s)); cbn [obind] in H; [|discriminate].
    injection H as <- _. auto.
  - unfold edge_ret in H. destruct (remove_last_factor s) as [s1 e| |] eqn:E; cbn [obind] in H; try discriminate.
    injection H as <- _. apply remove_last_factor_inv in E. tauto.
  - injection H as <- _. auto.
Qed.

Lemma calls_app (h1 h2 : list bop) : calls_of (h1 ++ h2) = calls_of h1 ++ calls_of h2.
Proof. unfold calls_of. apply flat_map_app. Qed.

Lemma edits_lockstep : forall (h : list bop) (s t : solver) rs rt,
  edits_only h -> starts_supplied sp (calls_of h) ->
  brun C W h (solver_init true) = Ok s rs -> run C W (calls_of h) (solver_init true) = Ok t rt ->
  s_pcm s = s_pcm t /\ (forall k, kmem k (s_vals s) = kmem k (s_vals t)) /\
  forall g o r, h = g ++ [BCall o] -> last rs None = r -> hands_over o r -> s_nfg s = s_nfg t.
Proof.
  induction h as [|x g IH] using rev_ind; intros s t rs rt HE HS H1 H2.
  { injection H1 as <- <-. injection H2 as <- <-. split; [auto|]. split; [auto|]. intros [|] o r X; discriminate. }
  rewrite calls_app in HS, H2. apply brun_snoc in H1. destruct H1 as (s1 & rs1 & r1 & R1 & S1 & ->).
  assert (HE' : edits_only g) by (intros o Ho; apply HE, in_or_app; auto).
  destruct x as [o|fs vs rm|rm| |c|vs].
  2,6: match type of HE with edits_only (_ ++ [?x]) => pose proof (HE x (in_elt x g [])) as X end; discriminate X.
  2-4: cbn [calls_of flat_map] in HS, H2; rewrite app_nil_r in HS, H2; destruct (IH s1 t rs1 rt HE' HS R1 H2) as (I1 & I2 & _);
    apply edit_keeps in S1; [|reflexivity]; destruct S1 as [K1 K2]; rewrite K1, K2; split; [auto|]; split; [auto|];
    intros g' o' r' E'; apply app_inj_tail in E'; destruct E'; discriminate.
  cbn [calls_of flat_map app] in HS, H2. pose proof (run_snoc C W _ _ _ H2) as (t1 & rt1 & q1 & R2 & S2 & ->).
  destruct (IH s1 t1 rs1 rt1 HE' (@starts_app O C _ _ HS) R1 R2) as (I1 & I2 & _).
  destruct (hist_run C W _ R2) as [p I]. pose proof (hi_pcm I) as P2. assert (P1 : s_pcm s1 = Some p) by congruence.
  cbn [bstep] in S1.
  assert (A : s_pcm s = s_pcm t /\ (bare o <> [] -> r1 = q1)).
  { destruct (bare o) eqn:EB.
    - destruct (@step_temp O C W _ _ _ _ _ P1 EB S1) as [-> _]. destruct (@step_temp O C W _ _ _ _ _ P2 EB S2) as [-> _].
      split; auto. intro X. destruct X; auto.
    - destruct (@step_agree O C W W o o s1 t1 s t r1 q1 p) as [Z1 Z2]; auto.
      + rewrite EB. discriminate.
      + eapply run_tracked; eauto.
      + intros fs vs Hc l1 b l2 Hl Hn'. rewrite (hi_odom I) in Hn'. eapply (HS (calls_of g) o []); eauto. }
  destruct A as [A1 A2]. split; auto. split.
  { intro k. rewrite (step_keys o _ P1 S1), (step_keys o _ P2 S2), I2. auto. }
  intros g' o' r' E' HL HH. apply app_inj_tail in E'. destruct E' as [<- E']. injection E' as <-.
  rewrite last_last in HL. subst r'.
  assert (NB : bare o <> []) by (destruct o; cbn [hands_over bare] in *; try discriminate; intros _; exact HH).
  rewrite <- (A2 NB) in *.
  destruct (step_hands _ _ P1 S1 HH) as (p1 & Q1 & ->). destruct (step_hands _ _ P2 S2 HH) as (p2 & Q2 & ->). congruence.
Qed.

(** ** Without *)

Lemma nth_ext_error {A} (l l' : list A) : (forall i, nth_error l i = nth_error l' i) -> l = l'.
Proof.
  revert l'. induction l as [|a l IH]; intros [|b l'] H; auto.
  - specialize (H 0). discriminate.
  - specialize (H 0). discriminate.
  - pose proof (H 0) as H0. injection H0 as ->. f_equal. apply IH. intro i. apply (H (S i)).
Qed.

Lemma combine_seq_nth {A} (g : list A) : forall n i, nth_error (combine (seq n (length g)) g) i = option_map (fun x => (n + i, x)) (nth_error g i).
Proof.
  induction g as [|a g IH]; intros n [|i]; cbn [length seq combine nth_error option_map]; auto.
  - rewrite Nat.add_0_r. auto.
  - rewrite IH. rewrite Nat.add_succ_r. auto.
Qed.

Lemma empty_slots_nth rm (g : graph_t O) i :
  nth_error (empty_slots rm g) i = option_map (fun f => if existsb (Nat.eqb i) rm then None else f) (nth_error g i).
Proof.
  unfold empty_slots. rewrite nth_error_map, combine_seq_nth. destruct (nth_error g i); auto.
Qed.

Lemma reset_empty rm (g g' : graph_t O) : reset_slots rm g = Val g' -> g' = empty_slots rm g.
Proof.
  intro H. apply reset_slots_spec in H. destruct H as (L & B & N). apply nth_ext_error. intro i.
  rewrite empty_slots_nth, N. destruct (existsb (Nat.eqb i) rm) eqn:E; [|destruct (nth_error g i); auto].
  apply existsb_exists in E. destruct E as (j & Hj & E). apply Nat.eqb_eq in E. subst j.
  destruct (nth_error g i) eqn:X; auto. apply nth_error_None in X. specialize (B _ Hj). lia.
Qed.

Lemma optimize_plain (s s' : solver) : optimize C W s = Ok s' tt -> s_pcm s' = s_pcm s /\ s_nfg s' = s_nfg s.
Proof. intro H. destruct (optimize_same C W s H) as (G1 & G2 & _). split; congruence. Qed.

Lemma plain_bstep (o : bop) (s s' : solver) r : s_pcm s = None -> bstep C W o s = Ok s' r ->
  s_pcm s' = None /\ s_nfg s' = edited o (s_nfg s).
Proof.
  intros Hp H.
  assert (PK : forall c, filter (keep_prior c) (s_nfg s) = filter (fun f => negb (any_prior_on c f)) (s_nfg s)).
  { intro c. apply filter_ext. intros [[x|k x|k t|ks t]|]; reflexivity. }
  assert (CALL : forall fs vs s1 b, add_and_check fs vs s = Ok s1 b -> s_pcm s1 = None /\ s_nfg s1 = s_nfg s ++ fs).
  { intros fs vs s1 b HA. apply PlainProofs.add_and_check_inv in HA. destruct HA as (A1 & A2 & _). split; congruence. }
  destruct o as [o|fs vs rm|rm| |c|vs]; cbn [bstep edited] in *.
  - destruct o as [fs vs opt|fs vs|c opt|a0 b0| |c|c|fs vs|fs vs|]; cbn [step] in H; unfold no_ret, edge_ret in H.
    + destruct (update C W fs vs opt s) as [s2 []| |] eqn:E; cbn [obind] in H; try discriminate.
      injection H as <- _. unfold update, ingest in E. rewrite Hp in E.
      destruct (add_and_check fs vs s) as [s1 b| |] eqn:E1; cbn [obind] in E; try discriminate.
      apply CALL in E1. destruct E1 as [A1 A2]. destruct (b && opt).
      * destruct (optimize C W s1) as [s3 []| |] eqn:E2; cbn [obind] in E; try discriminate.
        apply optimize_plain in E2. destruct E2 as [B1 B2].
        assert (s2 = s3) by (destruct opt; [apply log_status_inv in E; auto|injection E as <-; auto]). subst. split; congruence.
      * cbn [obind] in E. assert (s2 = s1) by (destruct opt; [apply log_status_inv in E; auto|injection E as <-; auto]). subst. auto.
    + destruct (force_update C W fs vs s) as [s2 []| |] eqn:E; cbn [obind] in H; try discriminate.
      injection H as <- _. unfold force_update, ingest in E. rewrite Hp in E.
      destruct (add_and_check fs vs s) as [s1 b| |] eqn:E1; cbn [obind] in E; try discriminate.
      apply CALL in E1. destruct E1 as [A1 A2].
      destruct (optimize C W s1) as [s3 []| |] eqn:E2; cbn [obind] in E; try discriminate.
      apply optimize_plain in E2. destruct E2 as [B1 B2]. apply log_status_inv in E. subst. split; congruence.
    + destruct (remove_priors C W c opt s) as [s2 []| |] eqn:E; cbn [obind] in H; try discriminate.
      injection H as <- _. unfold remove_priors in E. rewrite Hp in E. rewrite <- PK. destruct opt.
      * apply optimize_plain in E. destruct E as [B1 B2]. rewrite B1, B2. auto.
      * injection E as <-. auto.
    + destruct (remove_last_id C W a0 b0 s) as [s2 e| |] eqn:E; cbn [obind] in H; try discriminate.
      injection H as <- _. unfold remove_last_id in E. rewrite Hp in E.
      destruct (remove_last_factor s) as [s1 e1| |] eqn:E1; cbn [obind] in E; try discriminate.
      destruct (optimize C W s1) as [s3 []| |] eqn:E2; cbn [obind] in E; try discriminate. injection E as <- _.
      apply remove_last_factor_inv in E1. destruct E1 as (F1 & F2 & _). apply optimize_plain in E2. destruct E2. split; congruence.
    + destruct (remove_last C W s) as [s2 e| |] eqn:E; cbn [obind] in H; try discriminate.
      injection H as <- _. unfold remove_last in E. rewrite Hp in E.
      destruct (remove_last_factor s) as [s1 e1| |] eqn:E1; cbn [obind] in E; try discriminate.
      destruct (optimize C W s1) as [s3 []| |] eqn:E2; cbn [obind] in E; try discriminate. injection E as <- _.
      apply remove_last_factor_inv in E1. destruct E1 as (F1 & F2 & _). apply optimize_plain in E2. destruct E2. split; congruence.
    + destruct (ignore_prefix C W c s) as [s2 []| |] eqn:E; cbn [obind] in H; try discriminate.
      injection H as <- _. unfold ignore_prefix, with_pcm in E. rewrite Hp in E. apply optimize_plain in E. destruct E. split; congruence.
    + destruct (revive_prefix C W c s) as [s2 []| |] eqn:E; cbn [obind] in H; try discriminate.
      injection H as <- _. unfold revive_prefix, with_pcm in E. rewrite Hp in E. apply optimize_plain in E. destruct E. split; congruence.
    + unfold temp_update in H. destruct (vinsert_all vs (s_tvals s)) as [tv u| |]; cbn [obind] in H; try discriminate.
      injection H as <- _. auto.
    + unfold temp_replace in H. cbn [obind] in H. injection H as <- _. auto.
    + unfold temp_clear in H. cbn [obind] in H. injection H as <- _. auto.
  - unfold no_ret in H. destruct (generic_update W fs vs rm s) as [s1 []| |] eqn:E; cbn [obind] in H; try discriminate.
    injection H as <- _. pose proof (c42 _ _ _ _ _ E) as (_ & _ & _ & _ & _ & _ & P & _). split; [congruence|].
    unfold generic_update in E. destruct (reset_slots rm (s_nfg s)) as [g|] eqn:ER; [|discriminate]. apply reset_empty in ER. subst g.
    destruct (add_and_check fs vs (set_nfg s (empty_slots rm (s_nfg s)))) as [s2 b| |] eqn:EA; cbn [obind] in E; try discriminate.
    apply PlainProofs.add_and_check_inv in EA. destruct EA as (_ & A & _). cbn [s_nfg set_nfg set_pnv] in A. rewrite <- A.
    destruct (b || negb (length rm =? 0)); [|injection E as <-; auto].
    destruct (vinsert_all (s_tvals s2) (s_vals s2)) as [full []| |]; try discriminate.
    unfold call_opt in E. destruct (so_opt W _ _) as [a|]; cbn [obind] in E; [|discriminate].
    match type of E with match update_values ?x ?y with _ => _ end = _ => destruct (update_values x y) as [[v1 tv] []|[]|] end;
      try discriminate. injection E as <-. reflexivity.
  - unfold no_ret, remove_factors_no_update in H. destruct (reset_slots rm (s_nfg s)) as [g|] eqn:E; cbn [obind] in H; [|discriminate].
    apply reset_empty in E. injection H as <- _. subst. auto.
  - unfold edge_ret in H. destruct (remove_last_factor s) as [s1 e| |] eqn:E; cbn [obind] in H; try discriminate.
    injection H as <- _. apply remove_last_factor_inv in E. destruct E as (F1 & F2 & _). split; congruence.
  - injection H as <- _. cbn. auto.
  - unfold no_ret, base_values in H. destruct (update_values vs (s_vals s, s_tvals s)) as [[v tv] []|[]|]; cbn [obind] in H; try discriminate.
    injection H as <- _. auto.
Qed.

Lemma plain_brun (h : list bop) : forall (s s' : solver) rs, s_pcm s = None -> brun C W h s = Ok s' rs ->
  s_pcm s' = None /\ s_nfg s' = fold_left (fun g o => edited o g) h (s_nfg s).
Proof.
  induction h as [|o h IH]; intros s s' rs Hp H; cbn [brun] in H.
  - injection H as <- _. auto.
  - destruct (bstep C W o s) as [s1 r| |] eqn:E; cbn [obind] in H; try discriminate.
    destruct (brun C W h s1) as [s2 rs2| |] eqn:E2; cbn [obind] in H; try discriminate. injection H as <- _.
    apply plain_bstep in E; auto. destruct E as [E1 E3]. cbn [fold_left]. rewrite <- E3. eapply IH; eauto.
Qed.

Lemma edited_empty (o : bop) (g : graph_t O) i : keeps_slots o -> nth_error g i = Some None -> nth_error (edited o g) i = Some None.
Proof.
  intros K H.
  assert (E : forall rm, nth_error (empty_slots rm g) i = Some None).
  { intro rm. rewrite empty_slots_nth, H. cbn [option_map]. destruct (existsb _ _); auto. }
  assert (A : forall l fs : graph_t O, nth_error l i = Some None -> nth_error (l ++ fs) i = Some None).
  { intros l fs X. rewrite nth_error_app1; auto. apply nth_error_Some. congruence. }
  destruct o as [[]| | | | |]; cbn [edited keeps_slots] in *; auto; contradiction.
Qed.

Lemma edits_empty (h : list bop) : forall (g : graph_t O) i, (forall o, In o h -> keeps_slots o) -> nth_error g i = Some None ->
  nth_error (fold_left (fun g o => edited o g) h g) i = Some None.
Proof.
  induction h as [|o h IH]; intros g i K H; cbn [fold_left]; auto.
  apply IH; [intros; apply K; right; auto|]. apply edited_empty; auto. apply K. left. auto.
Qed.

Lemma plain_dropped (h1 h2 : list bop) rm i (s : solver) rs : In i rm -> (forall o, In o h2 -> keeps_slots o) ->
  brun C W (h1 ++ BDrop rm :: h2) (solver_init false) = Ok s rs -> nth_error (s_nfg s) i = Some None.
Proof.
  intros Hi K H.
  assert (B : forall h (a b : solver) q, brun C W (h ++ BDrop rm :: h2) a = Ok b q -> s_pcm a = None -> nth_error (s_nfg b) i = Some None).
  { clear h1 H. induction h as [|o h IH]; intros a b q H Hp; cbn [app brun] in H.
    - cbn [bstep] in H. unfold no_ret in H. destruct (remove_factors_no_update rm a) as [a1 []| |] eqn:E; cbn [obind] in H; try discriminate.
      destruct (brun C W h2 a1) as [b2 q2| |] eqn:E2; cbn [obind] in H; try discriminate. injection H as <- _.
      apply c42_remove in E. destruct E as (B1 & B2 & B3 & B4).
      assert (P1 : s_pcm a1 = None) by (rewrite B4; exact Hp).
      destruct (plain_brun _ _ P1 E2) as [_ ->]. apply edits_empty; auto. apply B3. auto.
    - destruct (bstep C W o a) as [a1 r| |] eqn:E; cbn [obind] in H; try discriminate.
      destruct (brun C W (h ++ BDrop rm :: h2) a1) as [b2 q2| |] eqn:E2; cbn [obind] in H; try discriminate. injection H as <- _.
      apply plain_bstep in E; auto. destruct E. eapply IH; eauto. }
  eapply B; eauto.
Qed.
End Base.
