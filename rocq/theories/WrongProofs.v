(** * Histories with wrong measurements among true ones: exactly these are left out *)
From Coq Require Import ZArith Bool List Lia Permutation.
From Verif Require Import Prelude Num Keys KMap UMap Geometry Factors Clique Pcm Params Solver PcmSpec HistSpec StoreSpec RemoveSpec ApartSpec IncSpec HeuSpec ExactSpec
  PcmProofs PcmInv PcmStore SolverProofs HistProofs StoreProofs TrajProofs TrajRel AlgProofs ItemProofs ApartProofs ApartMore NanProofs OutlierSpec GroupSpec GroupProofs OutlierProofs LatticeSpec LatticeProofs LatticeHist
  TrueSpec TrueAny TrueProofs WholeSpec WholeAny WrongSpec WrongAny.
Set Implicit Arguments.
Local Open Scope nat_scope.

Section Wrong.
Variable G : geom.
Hypothesis PG : pose_group G.
Hypothesis Lt : g_log_tsq G (g_id G) = dzero.
Hypothesis Lr : g_log_rsq G (g_id G) = dzero.
Variable X : key -> g_pose G.
Variable F : N -> g_pose G.
Variable pp : pcm_params.
Notation O := (node_ops G pp).
Variable C : config.
Variable W : soracles O.
Variable first : N -> key.
Variable wrong : bf O -> bool.
Notation op := (op O).
Notation bf := (bf O).
Notation straight := (drives_straight (G := G) X F C W first).
Notation been := (been (O := O) C first).
Notation right := (fun b => negb (wrong b)).
Hypothesis Pt : dpositive (pp_dist_trans pp).
Hypothesis Pr : dpositive (pp_dist_rot pp).

Lemma exact_world : rigid_world (exact_lat G) X F.
Proof. split; intros; exact Logic.I. Qed.

Lemma round_known (ref : N -> key -> pnode G) (x y : bfactor (g_pose G) (g_cov G)) n1 n2 : steps G ref (b_from x) (b_from y) = n1 -> steps G ref (b_to x) (b_to y) = n2 ->
  round G ref x y = (n1 + n2 + 2)%Z.
Proof. unfold round. intros -> ->. reflexivity. Qed.
Lemma round_lm_known (ref : N -> key -> pnode G) (x y : bfactor (g_pose G) (g_cov G)) n1 : steps G ref (b_from x) (b_from y) = n1 -> round_lm G ref x y = (n1 + 2)%Z.
Proof. unfold round_lm. intros ->. reflexivity. Qed.
Lemma turns_known (ref : N -> key -> pnode G) (x y : bfactor (g_pose G) (g_cov G)) a b : chr (b_from x) = a -> chr (b_from y) = a -> chr (b_to x) = b -> chr (b_to y) = b ->
  pn_rot (ref a (b_from x)) = true -> pn_rot (ref a (b_from y)) = true -> pn_rot (ref b (b_to x)) = true -> pn_rot (ref b (b_to y)) = true ->
  round_turns G ref x y = turns G x && turns G y.
Proof.
  intros A1 A2 B1 B2 P1 P2 Q1 Q2. unfold round_turns, ref_turns. cbn [forallb]. rewrite A1, A2, B1, B2, P1, P2, Q1, Q2. cbn [andb]. apply andb_true_r.
Qed.
Lemma turns_lm_known (ref : N -> key -> pnode G) (x y : bfactor (g_pose G) (g_cov G)) a : chr (b_from x) = a -> chr (b_from y) = a ->
  pn_rot (ref a (b_from x)) = true -> pn_rot (ref a (b_from y)) = true -> round_turns_lm G ref x y = turns G x && turns G y.
Proof.
  intros A1 A2 P1 P2. unfold round_turns_lm, ref_turns. cbn [forallb]. rewrite A1, A2, P1, P2. cbn [andb]. apply andb_true_r.
Qed.

Section Whole.
Variable h : list op.
Variable s : solver O.
Variable rs : list ret.
Hypothesis R : run C W h (solver_init true) = Ok s rs.

Lemma pn_of_node (b : bfactor (g_pose G) (g_cov G)) t : pn_of G b = Some t -> pn_node t = 1%Z.
Proof. unfold pn_of. destruct (b_noise b); [|discriminate]. intro H. injection H as <-. reflexivity. Qed.
(** Rotations stay known along the odometry. *)
Lemma fold_turns (bs : list bf) (ts : list (pnode G)) : Forall2 (fun b t => pn_of G b = Some t) bs ts -> Forall (fun b : bf => turns G b = true) bs ->
  forall i a, pn_rot a = true -> pn_rot (fold_left (@pn_comp G) (firstn i ts) a) = true.
Proof.
  induction 1 as [|b t bs ts Hb H2 IH]; intros FT i a Ha; destruct i as [|i]; cbn [firstn fold_left]; auto.
  inversion FT as [|? ? T1 T2]; subst. apply IH; auto. cbn [pn_comp pn_rot]. rewrite Ha. cbn [andb].
  unfold pn_of in Hb. unfold turns in T1. destruct (b_noise b); [|discriminate]. injection Hb as <-. exact T1.
Qed.

Lemma been_all c P T k : straight c h -> h = P ++ T -> been c P k ->
  chr k = c /\ seen_right G X F (refs_after C W P) k /\ knows P k = true /\ pn_rot (refs_after C W P c k : pnode G) = true /\
  (pn_node (refs_after C W P c k : pnode G) = Z.of_N k - Z.of_N (first c))%Z /\ (0 <= Z.of_N k - Z.of_N (first c) < 2 ^ 50)%Z.
Proof.
  intros ((ST & HC & CH & TM & LB & WI) & TU) EP BE. pose proof BE as BE0. destruct BE as (NE & i & Hi & EK).
  assert (DR : drives (exact_lat G) X F C W first c h) by exact (conj ST (conj HC (conj CH (conj TM (conj LB WI))))).
  destruct (@been_place G (exact_lat G) (exact_laws PG Lt Lr) X F exact_world pp C W first h s rs R c P T k DR EP BE0) as (B1 & (B2 & _) & B3 & _).
  split; [exact B1|]. split; [exact B2|]. split; [exact B3|].
  destruct ST as (h1 & o & h2 & s1 & rs1 & fs & vs & x0 & E & R1 & CO & NM & OD & KN & VA & SH).
  assert (E2 := E). rewrite EP in E2. symmetry in E2. destruct (split_at _ _ _ _ _ E2) as [[l El]|[l El]].
  2:{ exfalso. apply NE. rewrite El in NM. apply unmentioned_odoms. intros b Hb. apply NM. destruct Hb as (o' & fs' & vs' & Hin & Z). exists o', fs', vs'. split; auto. apply in_or_app. auto. }
  assert (R2 := R). rewrite EP in R2. destruct (run_app C W P T _ R2) as (sp & rp & rt & RP & _). rewrite El in RP.
  assert (LE : robot_odoms C c h = robot_odoms C c P ++ robot_odoms C c T) by (rewrite EP; apply robot_odoms_app).
  assert (LL : length (robot_odoms C c P) <= length (robot_odoms C c h)) by (rewrite LE, app_length; apply Nat.le_add_r).
  destruct (hist_run C W _ RP) as [p HI]. pose proof (hi_pcm HI) as Hp.
  assert (RF : refs_after C W P = tref p) by (rewrite El; exact (refs_after_run C W _ RP Hp)).
  assert (CP : chain (first c) (robot_odoms C c P)) by (rewrite LE in CH; apply chain_prefix in CH; exact CH).
  assert (TP : Forall (fun b : bf => turns G b = true) (robot_odoms C c P)) by (rewrite LE in TU; apply Forall_app in TU; exact (proj1 TU)).
  rewrite El in CP, TP, Hi, LL.
  destruct (@c33 O C W h1 o l s1 rs1 sp rp p fs vs c (first c) x0 R1 RP Hp CO NM OD VA CP) as (ts & D & _ & EF).
  assert (EL : length (robot_odoms C c (h1 ++ o :: l)) = length ts) by (clear - D; induction D; cbn; [reflexivity|f_equal; assumption]).
  assert (Hi' : i <= length ts) by (rewrite <- EL; exact Hi). rewrite RF, EK. rewrite (EF i Hi').
  split; [exact (@fold_turns _ _ D TP i (pn_init G x0) eq_refl)|].
  assert (FN : forall (l : list (pnode G)) a, (forall t, In t l -> pn_node t = 1%Z) -> pn_node (fold_left (@pn_comp G) l a) = (pn_node a + Z.of_nat (length l))%Z).
  { clear. induction l as [|t l IH]; intros a H; cbn [fold_left length]; [lia|]. rewrite IH by (intros; apply H; right; auto). cbn [pn_comp pn_node]. rewrite (H t (or_introl eq_refl)). lia. }
  split.
  - refine (eq_trans (FN (firstn i ts : list (pnode G)) (pn_init G x0) _) _); [|rewrite firstn_length_le by exact Hi'; cbn [pn_init pn_node]; clear; lia].
    intros t Ht. assert (Ht' : In t ts) by (rewrite <- (firstn_skipn i ts); apply in_or_app; left; exact Ht). clear - D Ht'.
      induction D as [|b t0 bs ts Hb D IH]; [destruct Ht'|]. destruct Ht' as [<-|Ht']; [|apply IH; exact Ht'].
      exact (@pn_of_node b t0 Hb).
  - clear - Hi LL LB. lia.
Qed.

Lemma steps_apart P T c a b : straight c h -> h = P ++ T -> been c P a -> been c P b -> steps G (refs_after C W P) a b = apart a b.
Proof.
  intros D E A B. destruct (@been_all _ _ _ _ D E A) as (A1 & _ & _ & _ & A2 & _). destruct (@been_all _ _ _ _ D E B) as (B1 & _ & _ & _ & B2 & _).
  unfold steps, apart. rewrite A1, B1. refine (eq_trans (f_equal Z.abs (f_equal2 Z.sub B2 A2)) _). clear. lia.
Qed.
Lemma apart_small P T c a b : straight c h -> h = P ++ T -> been c P a -> been c P b -> (0 <= apart a b < 2 ^ 50)%Z.
Proof.
  intros D E A B. destruct (@been_all _ _ _ _ D E A) as (_ & _ & _ & _ & _ & A2). destruct (@been_all _ _ _ _ D E B) as (_ & _ & _ & _ & _ & B2).
  unfold apart. revert A2 B2. generalize (2 ^ 50)%Z. clear. lia.
Qed.

Section Pair.
Variable id : obsid.
Hypothesis D1 : straight (fst id) h.
Hypothesis D2 : straight (snd id) h.
Hypothesis MC : mixed_closures X C first wrong id h.
Hypothesis OC : c_odom_check C = true -> fst id = snd id -> dpositive (pp_odom_trans pp) /\ dpositive (pp_odom_rot pp).

Definition mfine (P : list op) (b : bf) : Prop :=
  gaussian G b /\ (wrong b = false -> b_meas b = true_step G X b) /\ been (fst id) P (b_from b) /\ been (snd id) P (b_to b).

Lemma mfine_stores P o T b : h = (P ++ [o]) ++ T -> mfine (P ++ [o]) b -> right b = true -> sp_lmk C b = false ->
  stores C (knows (P ++ [o])) (refs_after C W (P ++ [o])) b = true.
Proof.
  intros E (F1 & F2 & F3 & F4) Rb LM. apply negb_true_iff in Rb. apply (@fine_stores G (exact_lat G) (exact_laws PG Lt Lr) X F exact_world pp C W first h s rs R id (proj1 D1) (proj1 D2) OC P o T b E); [|exact LM].
  split; [exact F1|]. split; [|split; [exact F3|exact F4]].
  exists (b_meas b). split; [reflexivity|]. split; [exact Logic.I|]. split; [exact Logic.I|].
  refine (eq_trans (f_equal (g_comp G (X (b_from b))) (F2 Rb)) _). exact (pg_cancel_l' PG (X (b_from b)) (X (b_to b))).
Qed.

Lemma mfine_told P T x y : h = P ++ T -> mfine P x -> mfine P y -> In x (closures_in C id h) -> In y (closures_in C id h) ->
  told_apart right (fun _ _ => true) (@lc_test O) (x, refs_after C W P) (y, refs_after C W P).
Proof.
  intros E (X1 & X2 & X3 & X4) (Y1 & Y2 & Y3 & Y4) IX IY.
  destruct (@been_all _ _ _ _ D1 E X3) as (A1 & A2 & _ & A3 & _). destruct (@been_all _ _ _ _ D2 E X4) as (B1 & B2 & _ & B3 & _).
  destruct (@been_all _ _ _ _ D1 E Y3) as (A1' & A2' & _ & A3' & _). destruct (@been_all _ _ _ _ D2 E Y4) as (B1' & B2' & _ & B3' & _).
  set (ref := refs_after C W P) in *.
  assert (RD : round G ref x y = way_around x y).
  { exact (@round_known ref x y _ _ (@steps_apart P T _ _ _ D1 E X3 Y3) (@steps_apart P T _ _ _ D2 E X4 Y4)). }
  assert (RT : round_turns G ref x y = turns G x && turns G y) by exact (@turns_known ref x y _ _ A1 A1' B1 B1' A3 A3' B3 B3').
  assert (TE : lc_test (x, ref) (y, ref) = Some (small_error G pp (way G X x y) (way_around x y) (turns G x && turns G y))).
  { rewrite <- RD, <- RT. apply (@way_test G PG X F pp ref x y X1 Y1); [exact (eq_trans A1 (eq_sym A1'))|exact (eq_trans B1 (eq_sym B1'))|].
    intros k [<-|[<-|[<-|[<-|[]]]]]; assumption. }
  destruct MC as (_ & MO & _).
  unfold told_apart. cbn [fst]. rewrite TE. split; [|split; [|intros _ _ Q; discriminate Q]].
  - intros Gx Gy. apply negb_true_iff in Gx, Gy. rewrite (way_later PG X x y (X2 Gx)), (off_none PG X y (Y2 Gy)). rewrite (none_small G pp Lt Lr Pt Pr); auto.
    pose proof (@apart_small P T _ _ _ D1 E X3 Y3) as S1. pose proof (@apart_small P T _ _ _ D2 E X4 Y4) as S2. unfold way_around. clear - S1 S2. revert S1 S2.
    change (2 ^ 53)%Z with (8 * 2 ^ 50)%Z. assert (Q : (1 <= 2 ^ 50)%Z) by (vm_compute; discriminate). revert Q. generalize (2 ^ 50)%Z. lia.
  - intro NE. destruct (wrong x) eqn:Gx, (wrong y) eqn:Gy; try (exfalso; apply NE; reflexivity).
    + rewrite (way_earlier PG X x y (Y2 eq_refl)). destruct (MO y x IY IX Gy Gx) as [_ L2]. unfold large in L2. f_equal.
      assert (W2 : way_around y x = way_around x y) by (unfold way_around, apart; clear; lia). rewrite W2, andb_comm in L2. exact L2.
    + rewrite (way_later PG X x y (X2 eq_refl)). destruct (MO x y IX IY Gx Gy) as [L1 _]. exact (f_equal Some L1).
Qed.

Theorem closures_mixed : c_loop_check C = true -> no_removal h -> small C (length (sp_stored C W h)) -> pair_ignored h id = false ->
  Permutation (graph_lcs C h id (s_nfg s)) (filter right (closures_in C id h)).
Proof.
  intros HL NR SM IG. apply (@mixed_pair O C W right (fun _ _ => true) (fun _ => eq_refl) h s rs R id mfine); auto.
  - intros P T b (A & B & U & V). split; [|split; [|split]]; auto; apply been_more; auto.
  - exact (proj1 MC).
  - exact mfine_stores.
  - exact mfine_told.
  - apply mostly_outnumbered. exact (proj2 (proj2 MC)).
Qed.
End Pair.

Section Landmark.
Variable c : N.
Variable l : key.
Hypothesis DC : straight c h.
Hypothesis MS : mixed_sightings X C first wrong c l h.

Definition mclear (P : list op) (b : bf) : Prop :=
  gaussian G b /\ (wrong b = false -> b_meas b = true_step G X b) /\ (b_to b = l /\ sp_lmk C b = true) /\ been c P (b_from b) /\ In b (sightings_in C l h).

Lemma seen_in h1 o h2 b : h = h1 ++ o :: h2 -> In b (all_betweens o) -> sees C l b = true -> In b (sightings_in C l h).
Proof.
  intros E Hb SE. unfold sightings_in. apply filter_In. split; [|exact SE]. unfold non_odometry. apply in_flat_map. exists o.
  split; [rewrite E; apply in_or_app; right; left; reflexivity|]. unfold all_betweens in Hb. destruct (call_of o) as [[fs vs]|]; [|destruct Hb].
  apply filter_In. split; [exact Hb|]. unfold sees in SE. apply andb_true_iff in SE. rewrite (lmk_not_odometry C vs b (proj2 SE)). reflexivity.
Qed.

Lemma mclear_told P T x y : h = P ++ T -> mclear P x -> mclear P y -> told_apart right (fun _ _ => true) (@lm_test O) (x, refs_after C W P) (y, refs_after C W P).
Proof.
  intros E (X1 & X2 & (X3 & _) & X4 & IX) (Y1 & Y2 & (Y3 & _) & Y4 & IY).
  destruct (@been_all _ _ _ _ DC E X4) as (A1 & A2 & _ & A3 & _). destruct (@been_all _ _ _ _ DC E Y4) as (A1' & A2' & _ & A3' & _).
  set (ref := refs_after C W P) in *.
  assert (RD : round_lm G ref x y = way_around_lm x y).
  { exact (@round_lm_known ref x y _ (@steps_apart P T _ _ _ DC E X4 Y4)). }
  assert (RT : round_turns_lm G ref x y = turns G x && turns G y) by exact (@turns_lm_known ref x y _ A1 A1' A3 A3').
  assert (TO : b_to x = b_to y) by exact (eq_trans X3 (eq_sym Y3)).
  assert (TE : lm_test (x, ref) (y, ref) = Some (small_error G pp (way_lm G X x y) (way_around_lm x y) (turns G x && turns G y))).
  { rewrite <- RD, <- RT. apply (@way_test_lm G PG X F pp ref x y X1 Y1); [exact (eq_trans A1 (eq_sym A1'))|].
    intros k [<-|[<-|[]]]; assumption. }
  destruct MS as (_ & MO).
  unfold told_apart. cbn [fst]. rewrite TE. split; [|split; [|intros _ _ Q; discriminate Q]].
  - intros Gx Gy. apply negb_true_iff in Gx, Gy. rewrite (way_later_lm PG X x y TO (X2 Gx)), (off_none PG X y (Y2 Gy)). rewrite (none_small G pp Lt Lr Pt Pr); auto.
    pose proof (@apart_small P T _ _ _ DC E X4 Y4) as S1. unfold way_around_lm. clear - S1. revert S1.
    change (2 ^ 53)%Z with (8 * 2 ^ 50)%Z. assert (Q : (1 <= 2 ^ 50)%Z) by (vm_compute; discriminate). revert Q. generalize (2 ^ 50)%Z. lia.
  - intro NE. destruct (wrong x) eqn:Gx, (wrong y) eqn:Gy; try (exfalso; apply NE; reflexivity).
    + rewrite (way_earlier_lm PG X x y TO (Y2 eq_refl)). destruct (MO y x IY IX Gy Gx) as [_ L2]. unfold large in L2. f_equal.
      assert (W2 : way_around_lm y x = way_around_lm x y) by (unfold way_around_lm, apart; clear; lia). rewrite W2, andb_comm in L2. exact L2.
    + rewrite (way_later_lm PG X x y TO (X2 eq_refl)). destruct (MO x y IX IY Gx Gy) as [L1 _]. exact (f_equal Some L1).
Qed.

Theorem sightings_mixed : mostly right (map fst (current C l (sp_sightings C W h))) ->
  graph_lms C h l (s_nfg s) = filter right (map fst (current C l (sp_sightings C W h))).
Proof.
  intro MO. apply (@mixed_lm O C W right (fun _ _ => true) (fun _ => eq_refl) h s rs R l mclear).
  - intros P T b (A & B & U & V & I). split; [|split; [|split; [|split]]]; auto. apply been_more; auto.
  - intros h1 o h2 b E A K B. assert (SE : sees C l b = true) by (unfold sees; rewrite K, B; reflexivity).
    destruct (proj1 MS _ _ _ _ E A SE) as (T1 & T2 & T3 & T4). split; [exact T1|]. split; [exact T2|]. split; [split; [exact T3|exact B]|]. split; [exact T4|]. exact (@seen_in _ _ _ _ E A SE).
  - intros b (_ & _ & (TO & LK) & BE & _) EL.
    pose proof (@robot_not_landmark G (exact_lat G) (exact_laws PG Lt Lr) X F exact_world pp C W first h s rs R c (proj1 DC) h _ BE (ex_intro _ [] (eq_sym (app_nil_r h)))) as NL.
    unfold sp_lmk in LK. assert (EQ : b_to b = b_from b) by exact (eq_trans TO (eq_sym EL)).
    assert (NL2 : sp_landmark (c_special C) (b_to b) = false) by exact (eq_trans (f_equal (sp_landmark (c_special C)) EQ) NL).
    assert (LK2 : false || false = true) by exact (eq_trans (eq_sym (f_equal2 orb NL NL2)) LK). discriminate LK2.
  - exact mclear_told.
  - apply mostly_outnumbered. exact MO.
Qed.
End Landmark.

Theorem wrong_left_out : only_calls h -> mixed_history X F C W first wrong h -> c_loop_check C = true -> small C (length (sp_stored C W h)) ->
  Permutation (s_nfg s ++ map Some (map FBetween (filter wrong (non_odometry C h)))) (map Some (given h)).
Proof.
  intros OC MH HL SM.
  assert (ND : forall b, In b (non_odometry C h) -> b_from b <> b_to b) by (intros b Hb; exact (proj1 (MH b Hb))).
  rewrite (filter_ext_on wrong (fun b => negb (right b)) (non_odometry C h)) by (intros b _; symmetry; apply negb_involutive).
  apply (@any_graph_keep O C W h s rs R OC right ND).
  - intros x Hx E. destruct (MH x Hx) as (_ & HP & _). destruct (HP E) as (id & ID & D1 & D2 & MC & OD). exists id. split; [exact ID|].
    apply (@closures_mixed id D1 D2 MC OD HL (calls_no_removal OC) SM). unfold pair_ignored. rewrite !calls_not_ignored by auto. auto.
  - intros x Hx E. destruct (MH x Hx) as (_ & _ & HP). destruct (HP E) as (IN & c & DC & MS & MO).
    assert (TS : forall P o T b, h = P ++ o :: T -> In b (all_betweens o) -> sees C (sp_landmark_key (c_special C) x) b = true ->
      b_to b = sp_landmark_key (c_special C) x /\ knows (P ++ [o]) (b_from b) = true).
    { intros P o T b EH IB SE. destruct (proj1 MS _ _ _ _ EH IB SE) as (_ & _ & T3 & T4). split; [exact T3|].
      assert (EH' : h = (P ++ [o]) ++ T) by (rewrite EH, <- app_assoc; auto). exact (proj1 (proj2 (proj2 (@been_all _ _ _ _ DC EH' T4)))). }
    split; [exact IN|]. split; [|exact TS]. apply (@sightings_mixed c _ DC MS).
    refine (mostly_perm (Permutation_sym (@current_all O C W h ND _ IN TS)) MO).
Qed.
End Whole.
End Wrong.
