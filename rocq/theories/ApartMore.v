(** * What is accepted between two robots: every mode, and with removals *)
From Coq Require Import QArith Lia.
From Verif Require Import Prelude Keys KMap UMap Geometry Factors Clique CliqueRead Pcm Solver ValuesProofs PcmSpec PcmProofs PcmInv PcmStore HistSpec StoreSpec
  SolverProofs HistProofs GraphProofs StoreProofs AcceptProofs LiveProofs StoreThms ItemProofs TrajProofs CallsProofs StreamSpec StreamProofs MixSpec MixProofs ShuffleProofs
  SafeProofs RemoveSpec RemoveExact RecordProofs IncSpec IncProofs ApartSpec ApartProofs.
Set Implicit Arguments.
Local Open Scope nat_scope.

(** ** The clique search reads the matrix below its diagonal *)
Lemma read_below m m' : m_rows m = m_rows m' -> m_cols m = m_cols m' ->
  (forall i j, j < i < m_rows m -> m_at m i j = m_at m' i j) -> read_eigen m = read_eigen m'.
Proof.
  intros E1 E2 E3. unfold read_eigen. rewrite <- E1. replace (read_nodelist m') with (read_nodelist m); auto.
  unfold read_nodelist. rewrite <- E1, <- E2.
  assert (G : forall l nl, fold_left (fun nl j => fold_left (fun nl i => read_body m j i nl) (seq j (m_rows m - j)) nl) l nl =
    fold_left (fun nl j => fold_left (fun nl i => read_body m' j i nl) (seq j (m_rows m - j)) nl) l nl); [|apply G].
  induction l as [|j l IH]; intro nl; cbn [fold_left]; auto. rewrite <- IH. f_equal.
  assert (K : forall l nl, (forall i, In i l -> j <= i < m_rows m) -> fold_left (fun nl i => read_body m j i nl) l nl = fold_left (fun nl i => read_body m' j i nl) l nl).
  { clear - E3. induction l as [|i l IH]; intros nl H; cbn [fold_left]; auto. rewrite IH by (intros; apply H; right; auto). f_equal.
    unfold read_body. destruct (Nat.eqb_spec i j) as [->|N]; cbn [orb]; auto. rewrite E3 by (specialize (H i (or_introl eq_refl)); lia). reflexivity. }
  apply K. intros i Hi. apply in_seq in Hi. lia.
Qed.

Section One.
Variable O : tops.
Variable C : config.
Variable W : soracles O.
Notation T := (t_T O).
Notation bf := (bf O).
Notation solver := (solver O).
Notation op := (op O).
Notation pcm := (pcm O).
Notation meas := (meas O).
Notation start := (@solver_init O true).
Notation refs := (N -> key -> T).
Notation lc_get := (uget oid_eqb (@meas_default O)).
Notation live := (@live_items O C W).
Notation takes := (takes_back C W).
Notation fresh_of id h o := (filter (fun x => of_pair id (fst x)) (newly C W h o)).

Lemma takes_removal id h o : takes id h o = true -> is_removal o = true.
Proof. unfold takes_back. destruct o; cbn [target is_removal]; auto; discriminate. Qed.
Lemma newly_removal h o : is_removal o = true -> newly C W h o = [].
Proof. destruct o; try discriminate; reflexivity. Qed.

Lemma live_one id h o : live id (h ++ [o]) = if takes id h o then removelast (live id h) else live id h ++ fresh_of id h o.
Proof.
  destruct (is_removal o) eqn:ER.
  - rewrite (newly_removal _ _ ER). cbn [filter]. rewrite app_nil_r. unfold live_items, takes_back. fold (sp_items C W (h ++ [o])) (sp_items C W h). rewrite sp_items_snoc.
    assert (G : forall id', filter (fun x : bf * refs => of_pair id (fst x)) (drop_last (fun x => of_pair id' (fst x)) (sp_items C W h)) =
      if oid_eqb id id' then removelast (filter (fun x => of_pair id (fst x)) (sp_items C W h)) else filter (fun x => of_pair id (fst x)) (sp_items C W h)).
    { intro id'. destruct (oid_eqb id id') eqn:E.
      - rewrite !(filter_ext _ _ (fun x => of_pair_ext _ _ (fst x) E)). apply drop_last_filter.
      - apply drop_last_other. intros y Hy. eapply of_pair_disjoint; eauto. }
    destruct o; try discriminate ER; cbn [items_step target]; [apply G|]. destruct (rev (sp_order C W h)) as [|id' l]; [auto|apply G].
  - rewrite live_snoc by auto. destruct (takes id h o) eqn:ET; auto. apply takes_removal in ET. congruence.
Qed.

Lemma record_one id h o : pair_record C W id (h ++ [o]) =
  if takes id h o then if 3 <=? length (live id h) then live id (h ++ [o]) else pair_record C W id h
  else match fresh_of id h o with [] => pair_record C W id h | _ => live id (h ++ [o]) end.
Proof.
  rewrite pair_record_snoc. unfold record_step, takes_back. rewrite live_of_map, map_length, new_of_map.
  destruct (target C W h o) as [id'|] eqn:ET.
  - rewrite newly_removal by (destruct o; try discriminate; auto). destruct (oid_eqb id id'); cbn [andb filter]; auto.
  - destruct (fresh_of id h o); auto.
Qed.

(** What one call does to the accepted closures of a pair. *)
Definition changes (id : obsid) (h : list op) (o : op) (m m1 : meas) : Prop :=
  if takes id h o
  then (length (live id h) <= 2 -> me_cons m1 = map fst (live id (h ++ [o]))) /\
       (3 <= length (live id h) -> c_loop_check C = true /\ heu_inliers m1 = Val m1)
  else m1 = m /\ fresh_of id h o = [] \/
       call_of o <> None /\
       if c_incremental C then reselects (length (fresh_of id h o)) m m1
       else m1 = @meas_default O \/ pair_inliers C m1 = Val m1.

Lemma changed h o (s' : solver) rs : run C W (h ++ [o]) start = Ok s' rs ->
  exists s rs0 p p', run C W h start = Ok s rs0 /\ s_pcm s = Some p /\ s_pcm s' = Some p' /\
    forall id, changes id h o (lc_get id (p_lcs p)) (lc_get id (p_lcs p')).
Proof.
  intro H. pose proof H as HR. apply run_snoc in HR. destruct HR as (s & rs0 & r & HR & HS & _).
  destruct (call_of o) as [[fs vs]|] eqn:Hc.
  - assert (NT : forall id, takes id h o = false).
    { intro id. destruct (takes id h o) eqn:E; auto. apply takes_removal in E. destruct o; discriminate. }
    destruct (c_incremental C) eqn:HI.
    + destruct (@call_step _ C W _ _ _ _ _ _ H Hc HI) as (s0 & r0 & p & p' & A1 & A2 & A3 & A4). exists s0, r0, p, p'. split; auto. split; auto. split; auto.
      intro id. unfold changes. rewrite NT, HI, Hc. right. split; [discriminate|]. specialize (A4 id). rewrite new_of_map, map_length in A4. exact A4.
    + destruct (@call_heu _ C W _ _ _ _ _ _ H Hc HI) as (s0 & r0 & p & p' & A1 & A2 & A3 & A4). exists s0, r0, p, p'. split; auto. split; auto. split; auto.
      intro id. unfold changes. rewrite NT, HI, Hc. destruct A4 as [[A4 A5]|A4].
      * left. rewrite A4, A5. auto.
      * right. split; [discriminate|]. unfold uget. destruct (settled_get oid_eqb _ id A4) as [E|(v & E & Hv)]; rewrite E; auto.
  - destruct (@shape_run _ C W _ _ _ HR) as (p & I & L & SH & HK). pose proof (hi_pcm I) as Hp.
    pose proof (step_inv C W o s Hp HS) as (s1 & p' & b & [E0 E] & _ & _ & _ & Ho).
    assert (Hp' : s_pcm s' = Some p').
    { destruct (optimises o b); [|congruence]. destruct (optimize_same C W s1 Ho) as (G & _). congruence. }
    exists s, rs0, p, p'. split; auto. split; auto. split; auto. intro id.
    assert (FR : p_lcs p' = p_lcs p -> takes id h o = false -> changes id h o (lc_get id (p_lcs p)) (lc_get id (p_lcs p'))).
    { intros X Y. unfold changes. rewrite Y, X. left. split; auto. unfold newly. rewrite Hc. auto. }
    assert (REM : forall id0 q e, target C W h o = Some id0 -> p_lcs q = p_lcs p -> pcm_remove_last_id (so_pcm W) id0 q = Val (p', e) ->
      changes id h o (lc_get id (p_lcs p)) (lc_get id (p_lcs p'))).
    { intros [a0 b0] q e HT HQ X. pose proof (li_rows L) as RW. assert (RWq : has_rows q) by (unfold has_rows; rewrite HQ; auto).
      unfold changes. rewrite live_one. unfold takes_back. rewrite HT.
      assert (NN : newly C W h o = []) by (apply newly_removal; destruct o; try discriminate; auto).
      assert (LF : me_factors (lc_get id (p_lcs p)) = map fst (live id h)) by (rewrite (li_lcs L), <- live_of_map; auto).
      unfold pcm_remove_last_id in X. rewrite HQ in X. destruct (oid_eqb id (a0, b0)) eqn:EI.
      - unfold uget in *. rewrite (oid_find_congr _ _ (p_lcs p) EI) in *. destruct (lc_find (a0, b0) (p_lcs p)) as [m|] eqn:EF.
        2:{ injection X as <- <-. rewrite HQ, (oid_find_congr _ _ (p_lcs p) EI), EF. cbn in LF. destruct (live id h); [|discriminate]. cbn. split; auto. lia. }
        pose proof (ufind_In oid_eqb _ _ EF) as (k & _ & Hin). unfold has_rows in RW. rewrite Forall_forall in RW. specialize (RW _ Hin). cbn [snd] in RW.
        destruct (m_rows (me_adj m) <=? 0) eqn:E0x; [apply Nat.leb_le in E0x; lia|].
        destruct (rev (me_factors m)) as [|x rest] eqn:ERV; [discriminate|].
        assert (HM : me_factors m = rev rest ++ [x]) by (rewrite <- (rev_involutive (me_factors m)), ERV; reflexivity).
        rewrite HM, removelast_last in X.
        match type of X with rbind ?r _ = _ => destruct r as [m'|] eqn:EM end; cbn [rbind] in X; [|discriminate].
        injection X as <- <-. cbn [p_lcs set_lcs]. change (match lc_find id (lc_set (a0, b0) m' (p_lcs p)) with Some v => v | None => @meas_default O end) with (lc_get id (lc_set (a0, b0) m' (p_lcs p))). rewrite oid_get_set, EI.
        rewrite HM in LF. assert (LL : length (live id h) = length (rev rest) + 1) by (rewrite <- (map_length fst), <- LF, app_length; auto).
        assert (LR : map fst (removelast (live id h)) = rev rest).
        { destruct (live id h) as [|y l] eqn:EL using rev_ind; [destruct (rev rest); discriminate LF|]. rewrite removelast_last.
          rewrite map_app in LF. apply app_inj_tail in LF. destruct LF. auto. }
        destruct (length (rev rest) <? 2) eqn:E2.
        + apply Nat.ltb_lt in E2. injection EM as <-. cbn [me_cons]. split; [auto|lia].
        + apply Nat.ltb_ge in E2. split; [lia|]. intros _. split.
          * destruct (c_loop_check C) eqn:HC; auto. exfalso. destruct (@dead_removal _ C W h s rs0 o (a0, b0) HR HT) as [u U]; [|congruence]. split.
            -- destruct (ever C W (a0, b0) h) eqn:EV; auto. apply HK in EV. congruence.
            -- right. split; auto. unfold RemoveSpec.live_of. rewrite <- (li_lcs L). unfold uget. rewrite EF, HM, app_length. cbn. lia.
          * destruct (m_cols (me_adj m) =? m_rows (me_adj m)); [|discriminate]. apply heu_inliers_idem in EM. exact EM.
      - rewrite NN. left. split; auto. destruct (lc_find (a0, b0) (p_lcs p)) as [m|] eqn:EF; [|injection X as <- <-; rewrite HQ; auto].
        destruct (m_rows (me_adj m) <=? 0); [injection X as <- <-; rewrite HQ; auto|]. destruct (rev (me_factors m)) as [|x rest]; [discriminate|].
        match type of X with rbind ?r _ = _ => destruct r as [m'|] eqn:EM end; cbn [rbind] in X; [|discriminate].
        injection X as <- <-. cbn [p_lcs set_lcs]. rewrite oid_get_set, EI. auto. }
    destruct o as [fs vs opt|fs vs|c opt|a0 b0| |c|c|fs vs|fs vs|]; cbn [call_of is_removal] in *; try discriminate Hc.
    2:{ destruct E as (e & _ & X & _). eapply REM with (q := p); eauto; reflexivity. }
    2:{ destruct E as (e & _ & X & _). unfold pcm_remove_last in X. rewrite (li_order L) in X.
        destruct (rev (sp_order C W h)) as [|id0 l] eqn:ER.
        - injection X as <- <-. apply FR; auto. unfold takes_back. cbn [target]. rewrite ER. auto.
        - eapply REM with (q := set_order p (removelast (sp_order C W h))); eauto; try reflexivity. cbn [target]. rewrite ER. auto. }
    all: apply FR; auto; destruct E as (-> & _); auto.
    all: unfold pcm_ignore; destruct (existsb (N.eqb c) (p_ignored p)); auto.
Qed.

(** Not incremental: the accepted closures come from the record, or the record is out of step and all are. *)
Definition chosen (id : obsid) (h : list op) (m : meas) : Prop :=
  if length (pair_record C W id h) =? length (live id h)
  then live id h <> [] -> heu_inliers m = Val m
  else me_cons m = map fst (live id h).

Lemma record_pre h (s : solver) rs id : run C W h start = Ok s rs -> records_sound C W h -> c_loop_check C = true ->
  exists p tl, s_pcm s = Some p /\ me_factors (lc_get id (p_lcs p)) = map fst (live id h) /\
    pair_record C W id h = live id h ++ tl /\ (tl <> [] -> length (pair_record C W id h) <= 2) /\
    (pair_record C W id h <> [] -> faithful (@lc_test O) (pair_record C W id h) (me_adj (lc_get id (p_lcs p)))).
Proof.
  intros H HK HC. destruct (@record_every _ C W h s rs id H HK HC) as (p & tl & A1 & A2 & A3 & _ & A4 & A5). exists p, tl. auto.
Qed.

Lemma sound_before h o : records_sound C W (h ++ [o]) -> records_sound C W h.
Proof. intros [X|X]; [left; auto|right]. intros h1 o' h2 id E. apply (X h1 o' (h2 ++ [o]) id). rewrite E, <- app_assoc. auto. Qed.

Lemma empty_cons (m : meas) : heu_inliers m = Val m -> me_factors m = [] -> me_cons m = [].
Proof. apply heu_none. Qed.

Lemma chosen_run h : c_loop_check C = true -> c_incremental C = false -> forall (s : solver) rs, run C W h start = Ok s rs -> records_sound C W h ->
  exists p, s_pcm s = Some p /\ forall id, chosen id h (lc_get id (p_lcs p)) /\ (live id h = [] -> me_cons (lc_get id (p_lcs p)) = []).
Proof.
  intros HC HI. induction h as [|o h IH] using rev_ind; intros s rs H HK.
  { injection H as <- <-. exists pcm_init. split; auto. intro id. split; [|auto]. unfold chosen. cbn. intro X. congruence. }
  destruct (changed _ _ H) as (s0 & rs0 & p & p' & A1 & A2 & A3 & A4). destruct (IH _ _ A1 (sound_before _ _ HK)) as (p0 & B1 & B2).
  assert (p0 = p) by congruence. subst p0. exists p'. split; auto. intro id. specialize (A4 id). destruct (B2 id) as (B3 & B4). clear B2.
  destruct (@record_pre _ _ _ id A1 (sound_before _ _ HK) HC) as (q & tl & Q1 & Q2 & Q3 & Q4 & Q5). assert (q = p) by congruence. subst q.
  destruct (@record_pre _ _ _ id H HK HC) as (q & tl' & R1 & R2 & R3 & R4 & R5). assert (q = p') by congruence. subst q.
  unfold changes in A4. unfold chosen in *. rewrite record_one in *. rewrite HI in A4. destruct (takes_back C W id h o) eqn:ET.
  - destruct A4 as (A4 & A5). destruct (3 <=? length (live id h)) eqn:E3.
    + apply Nat.leb_le in E3. rewrite Nat.eqb_refl. destruct (A5 E3) as (_ & A6). split; auto. intro X. apply empty_cons; auto. rewrite R2, X. auto.
    + apply Nat.leb_gt in E3. rewrite A4 by lia. split; [|intros ->; auto].
      destruct (length (pair_record C W id h) =? length (live id (h ++ [o]))) eqn:EL; auto. apply Nat.eqb_eq in EL.
      intro NE. exfalso. apply (f_equal (@length _)) in Q3. rewrite app_length in Q3. rewrite live_one, ET in EL, NE.
      destruct (live id h) as [|y l] using rev_ind; [apply NE; auto|]. rewrite removelast_last in EL. rewrite app_length in Q3. cbn in Q3. lia.
  - destruct A4 as [[A4 A5]|[_ [A4|A4]]].
    + rewrite A4, A5. rewrite live_one, ET, A5, app_nil_r. auto.
    + rewrite A4 in *. cbn in R2. symmetry in R2. apply map_fst_nil in R2. rewrite R2. split; auto.
      match goal with |- if ?b then _ else _ => destruct b end; auto. congruence.
    + unfold pair_inliers in A4. rewrite HC in A4.
      assert (X0 : live id (h ++ [o]) = [] -> me_cons (lc_get id (p_lcs p')) = []) by (intro X; apply empty_cons; auto; rewrite R2, X; auto). split; auto.
      match goal with |- if ?b then _ else _ => destruct b eqn:EL end; auto. apply Nat.eqb_neq in EL.
      rewrite R3 in EL. rewrite app_length in EL. assert (NT : tl' <> []) by (intros ->; cbn in EL; lia).
      specialize (R4 NT). rewrite R3 in R4. rewrite app_length in R4. destruct tl' as [|t tl']; [congruence|]. cbn [length] in *.
      destruct (live id (h ++ [o])) as [|x [|x' l]]; [auto| |cbn in R4; lia]. cbn [length] in R4. assert (tl' = []) as -> by (destruct tl'; auto; cbn in R4; lia).
      destruct (R5 ltac:(rewrite R3; discriminate)) as (F1 & F2 & _). rewrite R3 in F1, F2. cbn in F1, F2.
      unfold heu_inliers in A4. rewrite R2 in A4. destruct (lc_get id (p_lcs p')) as [fs cs adj]. cbn [me_adj me_cons me_factors] in *. destruct adj as [r c f].
      cbn [m_rows m_cols] in F1, F2. subst r c. rewrite two_heu in A4. destruct (f 1 0); cbn [rbind] in A4; [cbv in A4; discriminate|].
      injection A4 as A4 A5. rewrite <- A5. reflexivity.
Qed.
End One.

Section Two.
Variable O : tops.
Variable C : config.
Notation T := (t_T O).
Notation bf := (bf O).
Notation solver := (solver O).
Notation op := (op O).
Notation pcm := (pcm O).
Notation meas := (meas O).
Notation sp := (c_special C).
Notation start := (@solver_init O true).
Notation lc_get := (uget oid_eqb (@meas_default O)).
Variable R : N -> bool.
Variable F : bf -> bool.
Variable K : key -> bool.
Hypothesis RK : forall k, R (chr k) = true -> sp_landmark sp k = false -> K k = true.
Variable id : obsid.
Hypothesis FP : forall b, F b = of_pair id b && negb (sp_lmk C b).
Notation looks := (@looks O R).
Notation fresh_R := (@fresh_R O C R).
Notation near := (@near O R F K).

Lemma removals_prefix (W W' : soracles O) h o h' o' : same_removals C W W' id (h ++ [o]) (h' ++ [o']) -> same_removals C W W' id h h'.
Proof.
  intros H h1 x h2 h1' x' h2' E E' L. apply (H h1 x (h2 ++ [o]) h1' x' (h2' ++ [o'])); auto; [rewrite E|rewrite E']; rewrite <- app_assoc; auto.
Qed.

Lemma F2_removelast A (P : A -> A -> Prop) l l' : Forall2 P l l' -> Forall2 P (removelast l) (removelast l').
Proof. induction 1 as [|x y l l' H HF IH]; cbn [removelast]; [constructor|]. inversion HF; subst; constructor; auto. Qed.

(** Two runs, call by call. *)
Lemma records_same (W W' : soracles O) h : forall h', same_share sp R F K h h' -> same_removals C W W' id h h' ->
  forall (s s' : solver) rs rs', fresh_R h -> fresh_R h' -> near h ->
  run C W h start = Ok s rs -> run C W' h' start = Ok s' rs' ->
  Forall2 looks (live_items C W id h) (live_items C W' id h') /\ Forall2 looks (pair_record C W id h) (pair_record C W' id h').
Proof.
  induction h as [|o h IH] using rev_ind; intros h' SS SR s s' rs rs' FR FR' NN H H'.
  { inversion SS; subst. split; constructor. }
  pose proof SS as SS0. apply Forall2_app_inv_l in SS. destruct SS as (g & g' & SS & SO & ->). inversion SO as [|? o' ? ? EO SN]; subst. inversion SN; subst. clear SO SN.
  pose proof H as G. pose proof H' as G'. apply run_snoc in G, G'. destruct G as (t & ts & r & HR & _), G' as (t' & ts' & r' & HR' & _).
  destruct (IH g SS (@removals_prefix _ _ _ _ _ _ SR) t t' ts ts' (@fresh_prefix _ _ _ _ _ FR) (@fresh_prefix _ _ _ _ _ FR') (@near_prefix _ _ _ _ _ _ NN) HR HR') as (I1 & I2).
  assert (EN : Forall2 looks (filter (fun x => of_pair id (fst x)) (newly C W h o)) (filter (fun x => of_pair id (fst x)) (newly C W' g o'))).
  { eapply (@newly_same O C R F K RK id FP); eauto. }
  assert (ET : takes_back C W id h o = takes_back C W' id g o').
  { apply (SR h o [] g o' []); auto. apply (Forall2_len SS). }
  assert (LV : Forall2 looks (live_items C W id (h ++ [o])) (live_items C W' id (g ++ [o']))).
  { rewrite !live_one, <- ET. destruct (takes_back C W id h o); [apply F2_removelast; auto|apply Forall2_app; auto]. }
  split; auto. rewrite !record_one, <- ET, <- (Forall2_len I1). destruct (takes_back C W id h o).
  - destruct (3 <=? _); auto.
  - inversion EN; subst; auto.
Qed.

(** Selecting from the same record gives the same. *)
Lemma same_below L L' (m m' : matrix) : Forall2 looks L L' -> faithful (@lc_test O) L m -> faithful (@lc_test O) L' m' -> read_eigen m = read_eigen m' /\ m_rows m = m_rows m'.
Proof.
  intros HF A1 A2. destruct (faithful_same (@lc_test_same O R) HF A1 A2) as (E1 & E2 & E3). split; auto. apply read_below; auto. intros i j Hij. apply E3. lia.
Qed.
Lemma inc_same n (m m' v v' : meas) : me_factors v = me_factors v' -> me_cons m = me_cons m' -> read_eigen (me_adj v) = read_eigen (me_adj v') ->
  inc_inliers n (Meas (me_factors v) (me_cons m) (me_adj v)) = Val v -> inc_inliers n (Meas (me_factors v') (me_cons m') (me_adj v')) = Val v' ->
  me_cons v = me_cons v'.
Proof.
  intros E1 E2 E3 H H'. unfold inc_inliers in H, H'. cbn [me_adj me_cons me_factors] in H, H'.
  unfold find_max_clique_heu_inc in H, H'. rewrite <- E3, <- E2, <- E1 in H'.
  match type of H with rbind ?r _ = _ => destruct r as [[k data]|] end; cbn [rbind] in H, H'; [|discriminate].
  destruct (k =? 0)%Z.
  - injection H as H. injection H' as H'. rewrite <- H, <- H'. auto.
  - destruct (select _ _ _) as [cs|]; cbn [rbind] in H, H'; [|discriminate]. injection H as H. injection H' as H'. rewrite <- H, <- H'. auto.
Qed.

Definition sound_with (W : soracles O) h : Prop := c_loop_check C = true -> records_sound C W h.

Lemma one_adj (W : soracles O) h (s : solver) rs p : run C W h start = Ok s rs -> s_pcm s = Some p -> c_loop_check C = false ->
  m_rows (me_adj (lc_get id (p_lcs p))) = 1 /\ m_cols (me_adj (lc_get id (p_lcs p))) = 1.
Proof.
  intros H Hp HC. destruct (@shape_run _ C W _ _ _ H) as (q & Iq & L & SH & _). assert (q = p) by (pose proof (hi_pcm Iq); congruence). subst q.
  unfold uget. destruct (lc_find id (p_lcs p)) as [m|] eqn:EF; [|auto]. specialize (SH _ _ EF). unfold fits in SH. rewrite HC in SH. destruct SH as (S1 & S2). rewrite S1, S2. auto.
Qed.
Lemma factors_live (W : soracles O) h (s : solver) rs p : run C W h start = Ok s rs -> s_pcm s = Some p -> me_factors (lc_get id (p_lcs p)) = map fst (live_items C W id h).
Proof.
  intros H Hp. destruct (@shape_run _ C W _ _ _ H) as (q & Iq & L & _). assert (q = p) by (pose proof (hi_pcm Iq); congruence). subst q.
  rewrite (li_lcs L), <- live_of_map. auto.
Qed.

Lemma cons_same (W W' : soracles O) h : forall h', same_share sp R F K h h' -> same_removals C W W' id h h' ->
  forall (s s' : solver) rs rs' p p', fresh_R h -> fresh_R h' -> near h -> sound_with W h -> sound_with W' h' -> c_incremental C = true ->
  run C W h start = Ok s rs -> run C W' h' start = Ok s' rs' -> s_pcm s = Some p -> s_pcm s' = Some p' ->
  me_cons (lc_get id (p_lcs p)) = me_cons (lc_get id (p_lcs p')).
Proof.
  induction h as [|o h IH] using rev_ind; intros h' SS SR s s' rs rs' p p' FR FR' NN KS KS' HI H H' Hp Hp'.
  { inversion SS; subst. injection H as <- <-. injection H' as <- <-. cbn in Hp, Hp'. congruence. }
  pose proof SS as SS0. pose proof (@records_same W W' _ _ SS SR _ _ _ _ FR FR' NN H H') as (RL & RR).
  apply Forall2_app_inv_l in SS. destruct SS as (g & g' & SS & SO & ->). inversion SO as [|? o' ? ? EO SN]; subst. inversion SN; subst. clear SO SN.
  destruct (@changed _ C W _ _ _ _ H) as (t & ts & q & q1 & A1 & A2 & A3 & A4). destruct (@changed _ C W' _ _ _ _ H') as (t' & ts' & q' & q1' & B1 & B2 & B3 & B4).
  assert (q1 = p) by congruence. assert (q1' = p') by congruence. subst q1 q1'. specialize (A4 id). specialize (B4 id).
  assert (SB : forall W h o, sound_with W (h ++ [o]) -> sound_with W h) by (intros W0 h0 o0 X HC; apply (@sound_before _ _ _ _ _ (X HC))).
  pose proof (IH g SS (@removals_prefix _ _ _ _ _ _ SR) t t' ts ts' q q' (@fresh_prefix _ _ _ _ _ FR) (@fresh_prefix _ _ _ _ _ FR') (@near_prefix _ _ _ _ _ _ NN)
    (SB _ _ _ KS) (SB _ _ _ KS') HI A1 B1 A2 B2) as EQ.
  destruct (@records_same W W' _ _ SS (@removals_prefix _ _ _ _ _ _ SR) _ _ _ _ (@fresh_prefix _ _ _ _ _ FR) (@fresh_prefix _ _ _ _ _ FR') (@near_prefix _ _ _ _ _ _ NN) A1 B1) as (QL & QR).
  assert (EN : Forall2 looks (filter (fun x => of_pair id (fst x)) (newly C W h o)) (filter (fun x => of_pair id (fst x)) (newly C W' g o'))).
  { eapply (@newly_same O C R F K RK id FP); eauto. }
  assert (ET : takes_back C W id h o = takes_back C W' id g o') by (apply (SR h o [] g o' []); auto; apply (Forall2_len SS)).
  pose proof (factors_live W _ H Hp) as F1. pose proof (factors_live W' _ H' Hp') as F1'.
  assert (EF : me_factors (lc_get id (p_lcs p)) = me_factors (lc_get id (p_lcs p'))) by (rewrite F1, F1'; apply (looks_fst RL)).
  assert (EA : pair_record C W id (h ++ [o]) <> [] -> c_loop_check C = true ->
     read_eigen (me_adj (lc_get id (p_lcs p))) = read_eigen (me_adj (lc_get id (p_lcs p')))).
  { intros NR HC. destruct (@record_pre _ C W _ _ _ id H (KS HC) HC) as (x & tl & X1 & _ & _ & _ & X2). assert (x = p) by congruence. subst x.
    destruct (@record_pre _ C W' _ _ _ id H' (KS' HC) HC) as (x & tl' & Y1 & _ & _ & _ & Y2). assert (x = p') by congruence. subst x.
    apply (same_below RR); [apply X2; auto|apply Y2]. intro Z. rewrite Z in RR. inversion RR; subst. congruence. }
  unfold changes in A4, B4. rewrite <- ET in B4. rewrite HI in A4, B4. destruct (takes_back C W id h o) eqn:ETT.
  - destruct A4 as (A4 & A5), B4 as (B4 & B5). rewrite <- (Forall2_len QL) in B4, B5. destruct (le_lt_dec (length (live_items C W id h)) 2) as [E|E].
    + rewrite (A4 E), (B4 E). apply (looks_fst RL).
    + destruct (A5 E) as (HC & A6), (B5 E) as (_ & B6). apply heu_inliers_inv in A6, B6.
      destruct A6 as (k & data & cs & V1 & V2 & V3), B6 as (k' & data' & cs' & V1' & V2' & V3').
      unfold find_max_clique_heu in V1, V1'. rewrite EA in V1; auto.
      2:{ rewrite record_one, ETT. destruct (3 <=? length (live_items C W id h)) eqn:E3; [|apply Nat.leb_gt in E3; lia]. rewrite live_one, ETT.
          destruct (live_items C W id h) as [|a [|b l]]; cbn in E |- *; try lia. discriminate. }
      rewrite V1 in V1'. injection V1' as <- <-. rewrite EF, V2' in V2. injection V2 as <-. rewrite V3, V3'. reflexivity.
  - assert (LN := Forall2_len EN). destruct A4 as [[A4 A5]|[_ A4]], B4 as [[B4 B5]|[_ B4]].
    + rewrite A4, B4. exact EQ.
    + rewrite A5 in LN. rewrite <- LN in B4. cbn in B4. rewrite A4, B4. exact EQ.
    + rewrite B5 in LN. rewrite LN in A4. cbn in A4. rewrite A4, B4. exact EQ.
    + rewrite <- LN in B4. unfold reselects in A4, B4. destruct (length (filter (fun x => of_pair id (fst x)) (newly C W h o))) as [|n] eqn:E; [congruence|].
      apply (@inc_same _ _ _ _ _ EF EQ) in A4; auto. destruct (c_loop_check C) eqn:HC.
      * apply EA; auto. rewrite record_one, ETT, live_one, ETT. destruct (filter (fun x => of_pair id (fst x)) (newly C W h o)) as [|y l]; [discriminate|].
        intro X. apply app_eq_nil in X. destruct X. discriminate.
      * destruct (one_adj W _ H Hp HC) as (X1 & X2), (one_adj W' _ H' Hp' HC) as (Y1 & Y2). apply read_below; [congruence..|]. intros i j Hij. lia.
Qed.

Theorem pair_same_always (W W' : soracles O) h h' (s s' : solver) rs rs' : same_share sp R F K h h' -> same_removals C W W' id h h' ->
  fresh_R h -> fresh_R h' -> near h -> sound_with W h -> sound_with W' h' ->
  run C W h start = Ok s rs -> run C W' h' start = Ok s' rs' ->
  pair_ignored h id = pair_ignored h' id -> graph_lcs C h id (s_nfg s) = graph_lcs C h' id (s_nfg s').
Proof.
  intros SS SR FR FR' NN KS KS' H H' PI. destruct (hist_run C W _ H) as [p I], (hist_run C W' _ H') as [p' I'].
  rewrite (graph_lcs_eq id I), (graph_lcs_eq id I'), PI. destruct (pair_ignored h' id); auto.
  pose proof (hi_pcm I) as Hp. pose proof (hi_pcm I') as Hp'.
  destruct (c_incremental C) eqn:HI; [eapply cons_same; eauto|].
  pose proof (@records_same W W' _ _ SS SR _ _ _ _ FR FR' NN H H') as (RL & RR).
  pose proof (factors_live W _ H Hp) as F1. pose proof (factors_live W' _ H' Hp') as F1'.
  assert (EF : me_factors (lc_get id (p_lcs p)) = me_factors (lc_get id (p_lcs p'))) by (rewrite F1, F1'; apply (looks_fst RL)).
  destruct (c_loop_check C) eqn:HC.
  - destruct (@chosen_run _ C W _ HC HI _ _ H (KS HC)) as (x & X1 & X2). assert (x = p) by congruence. subst x. destruct (X2 id) as (X3 & X4).
    destruct (@chosen_run _ C W' _ HC HI _ _ H' (KS' HC)) as (x & Y1 & Y2). assert (x = p') by congruence. subst x. destruct (Y2 id) as (Y3 & Y4).
    unfold chosen in X3, Y3. rewrite <- (Forall2_len RL), <- (Forall2_len RR) in Y3.
    destruct (live_items C W id h) as [|x0 L0] eqn:EL.
    { rewrite X4 by auto. inversion RL; subst. symmetry. apply Y4. auto. }
    destruct (_ =? _).
    + assert (NE : live_items C W' id h' <> []) by (intro Z; rewrite Z in RL; inversion RL).
      specialize (X3 ltac:(discriminate)). specialize (Y3 NE).
      destruct (@record_pre _ C W _ _ _ id H (KS HC) HC) as (x & tl & P1 & _ & P3 & _ & P2). assert (x = p) by congruence. subst x.
      destruct (@record_pre _ C W' _ _ _ id H' (KS' HC) HC) as (x & tl' & Q1 & _ & Q3 & _ & Q2). assert (x = p') by congruence. subst x.
      apply (heu_same (@lc_test_same O R) RR); auto; [apply P2; rewrite P3, EL; discriminate|apply Q2; rewrite Q3; intro Z; apply app_eq_nil in Z; tauto].
    + rewrite X3, Y3. apply (looks_fst RL).
  - assert (SM : forall (W : soracles O) h, small C (length (sp_stored C W h))) by (intros W0 h0 X; congruence).
    assert (SD : forall (W : soracles O) h, sound C W h) by (intros W0 h0 X; congruence).
    destruct (@picked_run _ C W _ _ _ H (SD _ _) (SM _ _)) as (x & X1 & X2). assert (x = p) by congruence. subst x.
    destruct (@picked_run _ C W' _ _ _ H' (SD _ _) (SM _ _)) as (x & Y1 & Y2). assert (x = p') by congruence. subst x.
    specialize (X2 id). specialize (Y2 id). unfold picked in X2, Y2. rewrite HC, HI in X2, Y2. rewrite X2, Y2. apply (looks_fst RL).
Qed.
End Two.

Section Three.
Variable O : tops.
Variable C : config.
Notation sp := (c_special C).
Notation op := (op O).

Theorem two_robots (W W' : soracles O) (h h' : list op) (s s' : solver O) rs rs' x y :
  same_share sp (fun c => (c =? x) || (c =? y))%N (between_robots sp x y) (fun k => (chr k =? x) || (chr k =? y))%N h h' ->
  same_removals C W W' (x, y) h h' ->
  starts_fresh sp x h -> starts_fresh sp y h -> starts_fresh sp x h' -> starts_fresh sp y h' ->
  (c_loop_check C = true -> records_sound C W h /\ records_sound C W' h') ->
  run C W h (solver_init true) = Ok s rs -> run C W' h' (solver_init true) = Ok s' rs' ->
  pair_ignored h (x, y) = pair_ignored h' (x, y) ->
  graph_lcs C h (x, y) (s_nfg s) = graph_lcs C h' (x, y) (s_nfg s').
Proof.
  intros SS SR A1 A2 B1 B2 KS. apply (@pair_same_always O C (fun c => (c =? x) || (c =? y))%N (between_robots sp x y) (fun k => (chr k =? x) || (chr k =? y))%N); auto.
  - intros c Hc. apply orb_true_iff in Hc. rewrite !N.eqb_eq in Hc. destruct Hc; subst c; auto.
  - intros c Hc. apply orb_true_iff in Hc. rewrite !N.eqb_eq in Hc. destruct Hc; subst c; auto.
  - intros b _ Fb. unfold between_robots in Fb. apply andb_true_iff in Fb. destruct Fb as [Fb _]. apply oid_eqb_spec in Fb. cbn [fst snd] in Fb.
    rewrite !orb_true_iff, !N.eqb_eq. tauto.
  - intro HC. apply KS. exact HC.
  - intro HC. apply KS. exact HC.
Qed.

Lemma removals_none (W W' : soracles O) id (h h' : list op) : no_removal h -> no_removal h' -> same_removals C W W' id h h'.
Proof.
  intros NR NR' h1 o h2 h1' o' h2' E E' _.
  assert (G : forall (W : soracles O) h h1 o h2, no_removal h -> h = h1 ++ o :: h2 -> takes_back C W id h1 o = false).
  { intros W0 h0 k1 x k2 N ->. destruct (takes_back C W0 id k1 x) eqn:X; auto. apply takes_removal in X. rewrite N in X; [discriminate|]. apply in_or_app. right. left. auto. }
  rewrite (G W h h1 o h2), (G W' h' h1' o' h2'); auto.
Qed.
Lemma sound_none (W : soracles O) (h : list op) : no_removal h -> records_sound C W h.
Proof.
  intro NR. right. intros h1 o h2 id -> HT. exfalso. assert (X : is_removal o = false) by (apply NR, in_or_app; right; left; auto).
  destruct o; discriminate.
Qed.
End Three.
