(** * Noisy measurements that fit each other are kept, any number of disagreeing wrong ones are left out *)
From Coq Require Import ZArith Bool List Lia Permutation.
From Verif Require Import Prelude Num Keys KMap UMap Geometry Factors Clique Pcm Params Solver PcmSpec HistSpec StoreSpec RemoveSpec ApartSpec IncSpec HeuSpec ExactSpec
  PcmProofs PcmInv PcmStore SolverProofs HistProofs StoreProofs TrajProofs TrajRel AlgProofs ItemProofs ApartProofs ApartMore NanProofs OutlierSpec GroupSpec GroupProofs OutlierProofs LatticeSpec LatticeProofs LatticeHist
  TrueSpec TrueAny TrueProofs WholeSpec WholeAny WrongSpec WrongAny WrongProofs GridWrongSpec ManySpec ManyProofs GridWrongProofs NoisySpec.
Set Implicit Arguments.
Local Open Scope nat_scope.

Section Wrong.
Variable G : geom.
Variable L : lattice G.
Hypothesis LW : laws L.
Variable X : key -> la_t L.
Variable F : N -> la_t L.
Hypothesis RW : rigid_world L X F.
Variable pp : pcm_params.
Notation O := (node_ops G pp).
Variable C : config.
Variable W : soracles O.
Variable first : N -> key.
Variable reads : bf O -> la_t L.
Variable wrong : bf O -> bool.
Variable friends : bf O -> bf O -> bool.
Hypothesis FR : forall b, friends b b = true.
Notation op := (op O).
Notation bf := (bf O).
Infix "@" := (la_comp L) (at level 40, left associativity).
Notation straight := (drives_known (G := G) L X F C W first).
Notation readable := (readable L X reads (fun _ => true)).
Notation legible := (legible (pp := pp) L reads).
Notation lands := (lands L X reads).
Notation been := (been (O := O) C first).
Notation right := (fun b => negb (wrong b)).
Section Whole.
Variable h : list op.
Variable s : solver O.
Variable rs : list ret.
Hypothesis R : run C W h (solver_init true) = Ok s rs.

Lemma legible_readable (b : bf) : legible b -> readable b.
Proof. intros (A & B & D & E). split; [exact A|]. split; [exact B|]. split; [exact D|]. split; [exact E|]. intro Q. discriminate Q. Qed.
Lemma small_odom e n r : pn_odom_ok pp (PN G e n r) = small_odometry G pp e n r.
Proof. unfold pn_odom_ok, pn_avg_trans, pn_avg_rot, small_odometry. cbn [pn_pose pn_node pn_rot]. destruct r; reflexivity. Qed.
Section Odom.
Variable ref : N -> key -> t_T O.
Lemma odom_near (b : bf) : legible b -> near_odometry L X reads b -> chr (b_from b) = chr (b_to b) ->
  in_place L X F ref (b_from b) -> in_place L X F ref (b_to b) -> steps G ref (b_from b) (b_to b) = apart (b_from b) (b_to b) ->
  pn_rot (ref (chr (b_from b)) (b_from b) : pnode G) = true -> pn_rot (ref (chr (b_to b)) (b_to b) : pnode G) = true ->
  sp_odom_test (O := O) ref b = Some true.
Proof.
  intros (G1 & S1 & R1 & W1) NO EC I1 I2 SA T1 T2. pose proof reach_48 as RB. set (r := LatticeSpec.reach) in *.
  assert (Q1 : leads L (6 * r) (pn_pose (sp_rel (O := O) ref (chr (b_from b)) (b_from b) (b_to b))) (X (b_from b)) (X (b_to b))).
  { apply (@rel_leads G L LW X F RW pp ref); assumption. }
  set (a := X (b_to b) @ lw_inv LW (reads b)).
  assert (EA : a @ reads b = X (b_to b)).
  { unfold a. rewrite <- (lw_assoc LW), (lw_inv_l LW _ R1). apply (lw_id_r LW). }
  assert (RA : la_rigid L a) by (apply (lw_rigid_comp LW); [exact (proj1 RW _)|apply (lw_rigid_inv LW); exact R1]).
  assert (Q2 : leads L r (b_meas b : g_pose G) a (X (b_to b))) by (exists (reads b); split; [exact S1|split; [exact R1|split; [exact W1|exact EA]]]).
  assert (B : (0 <= r /\ 3 * r < lim /\ 0 <= 6 * r /\ 0 <= 3 * r /\ 6 * r + 3 * (3 * r) < lim)%Z) by (clear - RB; lia). destruct B as (B1 & B2 & B3 & B4 & B5).
  pose proof (@leads_inv G L LW r _ _ _ B1 B2 Q2) as Q3.
  pose proof (@leads_comp G L LW (6 * r) (3 * r) _ _ _ _ _ B3 B4 B5 Q1 Q3) as (e & SE & _ & _ & EE).
  unfold sp_odom_test. change (t_of O b) with (pn_of G b). rewrite (of_gaussian G1). f_equal.
  refine (eq_trans _ (NO a e RA EA EE _ SE)). rewrite <- small_odom. change (t_odom_ok O) with (@pn_odom_ok G pp). f_equal.
  pose proof (@rel_steps G pp ref _ _ EC) as S2. pose proof (@rel_turns G pp ref _ _ EC) as T3. rewrite T1, T2 in T3. rewrite <- SA, <- S2.
  change (t_comp O) with (@pn_comp G). change (t_inv O) with (@pn_inv G).
  set (r1 := sp_rel ref (chr (b_from b)) (b_from b) (b_to b)) in *. unfold pn_comp, pn_inv. cbn [pn_pose pn_node pn_rot].
  f_equal. exact (f_equal (fun x => x && turns G b) T3).
Qed.
End Odom.

Section Pair.
Variable id : obsid.
Hypothesis D1 : straight (fst id) h.
Hypothesis D2 : straight (snd id) h.
Hypothesis MC : noisy_closures L X C first reads wrong friends id h.
Definition mfine (P : list op) (b : bf) : Prop := legible b /\ been (fst id) P (b_from b) /\ been (snd id) P (b_to b) /\
  (c_odom_check C = true -> fst id = snd id -> wrong b = false -> near_odometry L X reads b).

Lemma mfine_stores P o T b : h = (P ++ [o]) ++ T -> mfine (P ++ [o]) b -> right b = true -> sp_lmk C b = false ->
  stores C (knows (P ++ [o])) (refs_after C W (P ++ [o])) b = true.
Proof.
  intros E (F1 & F3 & F4 & F5) Rb LM. apply negb_true_iff in Rb.
  destruct (@been_all G L LW X F RW pp C W first h s rs R _ _ _ _ D1 E F3) as (A1 & A2 & A3 & A4 & _). destruct (@been_all G L LW X F RW pp C W first h s rs R _ _ _ _ D2 E F4) as (B1 & B2 & B3 & B4 & _).
  unfold stores. rewrite A3, B3, LM. cbn [andb negb]. unfold passes_odom. destruct (N.eqb_spec (chr (b_from b)) (chr (b_to b))) as [EC|]; auto.
  destruct (c_odom_check C) eqn:OE; auto. cbn [andb].
  assert (EI : fst id = snd id) by exact (eq_trans (eq_sym A1) (eq_trans EC B1)).
  rewrite (@odom_near (refs_after C W (P ++ [o])) b F1 (F5 eq_refl EI Rb) EC A2 B2); auto.
  - apply (@steps_apart G L LW X F RW pp C W first h s rs R _ _ _ _ _ D1 E F3). rewrite EI. exact F4.
  - rewrite A1. exact A4.
  - rewrite B1. exact B4.
Qed.

Lemma mfine_told P T x y : h = P ++ T -> mfine P x -> mfine P y -> In x (closures_in C id h) -> In y (closures_in C id h) ->
  told_apart right friends (@lc_test O) (x, refs_after C W P) (y, refs_after C W P).
Proof.
  intros E (X1' & X3 & X4 & _) (Y1' & Y3 & Y4 & _) IX IY. pose proof (legible_readable X1') as X1. pose proof (legible_readable Y1') as Y1.
  destruct (@been_all G L LW X F RW pp C W first h s rs R _ _ _ _ D1 E X3) as (A1 & A2 & _ & A3 & _). destruct (@been_all G L LW X F RW pp C W first h s rs R _ _ _ _ D2 E X4) as (B1 & B2 & _ & B3 & _).
  destruct (@been_all G L LW X F RW pp C W first h s rs R _ _ _ _ D1 E Y3) as (A1' & A2' & _ & A3' & _). destruct (@been_all G L LW X F RW pp C W first h s rs R _ _ _ _ D2 E Y4) as (B1' & B2' & _ & B3' & _).
  set (ref := refs_after C W P) in *.
  assert (RD : round G ref x y = way_around x y).
  { exact (@round_known G ref x y _ _ (@steps_apart G L LW X F RW pp C W first h s rs R P T _ _ _ D1 E X3 Y3) (@steps_apart G L LW X F RW pp C W first h s rs R P T _ _ _ D2 E X4 Y4)). }
  assert (RT : round_turns G ref x y = turns G x && turns G y) by exact (@turns_known G ref x y _ _ A1 A1' B1 B1' A3 A3' B3 B3').
  assert (EF : chr (b_from x) = chr (b_from y)) by exact (eq_trans A1 (eq_sym A1')). assert (ET : chr (b_to x) = chr (b_to y)) by exact (eq_trans B1 (eq_sym B1')).
  assert (TE : lc_test (x, ref) (y, ref) = Some (small_error G pp (trip ref x y) (way_around x y) (turns G x && turns G y))).
  { rewrite <- RD, <- RT. exact (@trip_test G pp ref x y (proj1 X1) (proj1 Y1) EF ET). }
  destruct (@trip_leads G L LW X F RW pp reads (fun _ => true) ref x y X1 Y1 EF ET) as (z & EZ & TL). { intros k [<-|[<-|[<-|[<-|[]]]]]; assumption. }
  destruct MC as (_ & MF & MO & _).
  unfold told_apart. cbn [fst]. rewrite TE. split; [|split].
  - intros Gx Gy. apply negb_true_iff in Gx, Gy. destruct TL as (e & SE & _ & _ & EE). f_equal. exact (MF x y IX IY Gx Gy e z EZ EE _ SE).
  - intro NE. destruct TL as (e & SE & _ & _ & EE). f_equal. destruct (wrong x) eqn:Gx, (wrong y) eqn:Gy; try (exfalso; apply NE; reflexivity).
    + exact (proj2 (MO y x IY IX Gx (or_introl Gy)) e z EZ EE _ SE).
    + exact (proj1 (MO x y IX IY Gy (or_introl Gx)) e z EZ EE _ SE).
  - intros Gx Gy FF. destruct TL as (e & SE & _ & _ & EE). f_equal. apply negb_false_iff in Gx, Gy. apply andb_false_iff in FF. destruct FF as [FF|FF].
    + exact (proj1 (MO x y IX IY Gy (or_intror FF)) e z EZ EE _ SE).
    + exact (proj2 (MO y x IY IX Gx (or_intror FF)) e z EZ EE _ SE).
Qed.

Theorem closures_noisy : c_loop_check C = true -> no_removal h -> small C (length (sp_stored C W h)) -> pair_ignored h id = false ->
  Permutation (graph_lcs C h id (s_nfg s)) (filter right (closures_in C id h)).
Proof.
  intros HL NR SM IG. apply (@mixed_pair O C W right friends FR h s rs R id mfine); auto.
  - intros P T b (A & U & V & Q). split; [exact A|]. split; [apply been_more; exact U|]. split; [apply been_more; exact V|exact Q].
  - exact (proj1 MC).
  - exact mfine_stores.
  - exact mfine_told.
  - exact (proj2 (proj2 (proj2 MC))).
Qed.
End Pair.

Section Landmark.
Variable c : N.
Variable l : key.
Hypothesis DC : straight c h.
Hypothesis MS : noisy_sightings L X C first reads wrong friends c l h.

Definition mclear (P : list op) (b : bf) : Prop := legible b /\ (b_to b = l /\ sp_lmk C b = true) /\ been c P (b_from b) /\ In b (sightings_in C l h).

Lemma mclear_told P T x y : h = P ++ T -> mclear P x -> mclear P y -> told_apart right friends (@lm_test O) (x, refs_after C W P) (y, refs_after C W P).
Proof.
  intros E (X1' & (X3 & _) & X4 & IX) (Y1' & (Y3 & _) & Y4 & IY). pose proof (legible_readable X1') as X1. pose proof (legible_readable Y1') as Y1.
  destruct (@been_all G L LW X F RW pp C W first h s rs R _ _ _ _ DC E X4) as (A1 & A2 & _ & A3 & _). destruct (@been_all G L LW X F RW pp C W first h s rs R _ _ _ _ DC E Y4) as (A1' & A2' & _ & A3' & _).
  set (ref := refs_after C W P) in *.
  assert (RD : round_lm G ref x y = way_around_lm x y).
  { exact (@round_lm_known G ref x y _ (@steps_apart G L LW X F RW pp C W first h s rs R P T _ _ _ DC E X4 Y4)). }
  assert (RT : round_turns_lm G ref x y = turns G x && turns G y) by exact (@turns_lm_known G ref x y _ A1 A1' A3 A3').
  assert (EF : chr (b_from x) = chr (b_from y)) by exact (eq_trans A1 (eq_sym A1')).
  assert (TE : lm_test (x, ref) (y, ref) = Some (small_error G pp (trip_lm ref x y) (way_around_lm x y) (turns G x && turns G y))).
  { rewrite <- RD, <- RT. exact (@trip_test_lm G pp ref x y (proj1 X1) (proj1 Y1) EF). }
  assert (TL : leads L (30 * LatticeSpec.reach) (trip_lm ref x y) (lands y) (lands x)).
  { apply (@trip_lm_leads G L LW X F RW pp reads (fun _ => true) ref x y X1 Y1 EF). intros k [<-|[<-|[]]]; assumption. }
  destruct MS as (_ & MF & MO).
  unfold told_apart. cbn [fst]. rewrite TE. split; [|split].
  - intros Gx Gy. apply negb_true_iff in Gx, Gy. destruct TL as (e & SE & _ & _ & EE). f_equal. exact (MF x y IX IY Gx Gy e EE _ SE).
  - intro NE. destruct TL as (e & SE & _ & _ & EE). f_equal. destruct (wrong x) eqn:Gx, (wrong y) eqn:Gy; try (exfalso; apply NE; reflexivity).
    + exact (proj2 (MO y x IY IX Gx (or_introl Gy)) e EE _ SE).
    + exact (proj1 (MO x y IX IY Gy (or_introl Gx)) e EE _ SE).
  - intros Gx Gy FF. destruct TL as (e & SE & _ & _ & EE). f_equal. apply negb_false_iff in Gx, Gy. apply andb_false_iff in FF. destruct FF as [FF|FF].
    + exact (proj1 (MO x y IX IY Gy (or_intror FF)) e EE _ SE).
    + exact (proj2 (MO y x IY IX Gx (or_intror FF)) e EE _ SE).
Qed.

Theorem sightings_noisy : outnumbered right friends (map fst (current C l (sp_sightings C W h))) ->
  graph_lms C h l (s_nfg s) = filter right (map fst (current C l (sp_sightings C W h))).
Proof.
  intro MO. apply (@mixed_lm O C W right friends FR h s rs R l mclear).
  - intros P T b (A & U & V & I). split; [exact A|]. split; [exact U|]. split; [apply been_more; exact V|exact I].
  - intros h1 o h2 b E A K B. assert (SE : sees C l b = true) by (unfold sees; rewrite K, B; reflexivity).
    destruct (proj1 MS _ _ _ _ E A SE) as (T1 & T3 & T4). split; [exact T1|]. split; [split; [exact T3|exact B]|]. split; [exact T4|]. exact (@seen_in G pp C h l _ _ _ _ E A SE).
  - intros b (_ & (TO & LK) & BE & _) EL.
    pose proof (@robot_not_landmark G L LW X F RW pp C W first h s rs R c (proj1 DC) h _ BE (ex_intro _ [] (eq_sym (app_nil_r h)))) as NL.
    unfold sp_lmk in LK. assert (EQ : b_to b = b_from b) by exact (eq_trans TO (eq_sym EL)).
    assert (NL2 : sp_landmark (c_special C) (b_to b) = false) by exact (eq_trans (f_equal (sp_landmark (c_special C)) EQ) NL).
    assert (LK2 : false || false = true) by exact (eq_trans (eq_sym (f_equal2 orb NL NL2)) LK). discriminate LK2.
  - exact mclear_told.
  - exact MO.
Qed.
End Landmark.

Theorem noisy_left_out : only_calls h -> noisy_history L X F C W first reads wrong friends h -> c_loop_check C = true -> small C (length (sp_stored C W h)) ->
  Permutation (s_nfg s ++ map Some (map FBetween (filter wrong (non_odometry C h)))) (map Some (given h)).
Proof.
  intros OC MH HL SM.
  assert (ND : forall b, In b (non_odometry C h) -> b_from b <> b_to b) by (intros b Hb; exact (proj1 (MH b Hb))).
  rewrite (filter_ext_on wrong (fun b => negb (right b)) (non_odometry C h)) by (intros b _; symmetry; apply negb_involutive).
  apply (@any_graph_keep O C W h s rs R OC right ND).
  - intros x Hx E. destruct (MH x Hx) as (_ & HP & _). destruct (HP E) as (id & ID & D1 & D2 & MC). exists id. split; [exact ID|].
    apply (@closures_noisy id D1 D2 MC HL (calls_no_removal OC) SM). unfold pair_ignored. rewrite !calls_not_ignored by auto. auto.
  - intros x Hx E. destruct (MH x Hx) as (_ & _ & HP). destruct (HP E) as (IN & c & DC & MS & MO).
    assert (TS : forall P o T b, h = P ++ o :: T -> In b (all_betweens o) -> sees C (sp_landmark_key (c_special C) x) b = true ->
      b_to b = sp_landmark_key (c_special C) x /\ knows (P ++ [o]) (b_from b) = true).
    { intros P o T b EH IB SE. destruct (proj1 MS _ _ _ _ EH IB SE) as (_ & T3 & T4). split; [exact T3|].
      assert (EH' : h = (P ++ [o]) ++ T) by (rewrite EH, <- app_assoc; auto). exact (proj1 (proj2 (proj2 (@been_all G L LW X F RW pp C W first h s rs R _ _ _ _ DC EH' T4)))). }
    split; [exact IN|]. split; [|exact TS]. apply (@sightings_noisy c _ DC MS).
    refine (outnumbered_perm (Permutation_sym (@current_all O C W h ND _ IN TS)) MO).
Qed.
End Whole.
End Wrong.

(** True measurements fit. *)
Section Exact.
Variable G : geom.
Variable L : lattice G.
Hypothesis LW : laws L.
Variable X : key -> la_t L.
Variable F : N -> la_t L.
Hypothesis RW : rigid_world L X F.
Variable pp : pcm_params.
Notation O := (node_ops G pp).
Variable C : config.
Variable W : soracles O.
Variable first : N -> key.
Variable reads : bf O -> la_t L.
Variable wrong : bf O -> bool.
Variable friends : bf O -> bf O -> bool.
Notation op := (op O).
Notation bf := (bf O).
Infix "@" := (la_comp L) (at level 40, left associativity).
Notation straight := (drives_known (G := G) L X F C W first).
Notation readable := (readable L X reads wrong).
Notation legible := (legible (pp := pp) L reads).
Notation lands := (lands L X reads).
Notation been := (been (O := O) C first).
Notation right := (fun b => negb (wrong b)).
Hypothesis Pt : dpositive (pp_dist_trans pp).
Hypothesis Pr : dpositive (pp_dist_rot pp).
Variable h : list op.
Variable s : solver O.
Variable rs : list ret.
Hypothesis R : run C W h (solver_init true) = Ok s rs.
Notation small_way := (@apart_small G L LW X F RW pp C W first h s rs R).

Lemma stays a e p : la_rigid L a -> la_shows L p e -> a @ e = a -> g_log_tsq G p = dzero /\ g_log_rsq G p = dzero.
Proof.
  intros RA SP E. assert (Q : e = lw_id LW) by (apply (@cancel G L LW a _ _ RA); rewrite E, (lw_id_r LW); reflexivity). subst e.
  split; [apply (lw_tsq LW); exact SP|apply (lw_rsq LW); exact SP].
Qed.
Lemma zero_small a e n (f1 f2 : bf) : la_rigid L a -> a @ e = a -> (0 < n < 2 ^ 53)%Z -> small_enough L e n f1 f2.
Proof.
  intros RA E Hn p SP. destruct (@stays a e p RA SP E) as [A B]. unfold small_error. rewrite A, B, zero_passes by auto. cbn [andb]. destruct (turns G f1 && turns G f2); [apply zero_passes; auto|exact Pr].
Qed.
Lemma within_two a b : (0 <= a < 2 ^ 50)%Z -> (0 <= b < 2 ^ 50)%Z -> (0 < a + b + 2 < 2 ^ 53)%Z.
Proof. change (2 ^ 53)%Z with (8 * 2 ^ 50)%Z. assert (Q : (1 <= 2 ^ 50)%Z) by (vm_compute; discriminate). revert Q. generalize (2 ^ 50)%Z. lia. Qed.
Lemma within_one a : (0 <= a < 2 ^ 50)%Z -> (0 < a + 2 < 2 ^ 53)%Z /\ (0 < a + 1 < 2 ^ 53)%Z.
Proof. change (2 ^ 53)%Z with (8 * 2 ^ 50)%Z. assert (Q : (1 <= 2 ^ 50)%Z) by (vm_compute; discriminate). revert Q. generalize (2 ^ 50)%Z. lia. Qed.
Lemma readable_legible (b : bf) : readable b -> legible b.
Proof. intros (A & B & D & E & _). split; [exact A|]. split; [exact B|]. split; [exact D|exact E]. Qed.
Lemma to_end c h1 o h2 k : h = h1 ++ o :: h2 -> been c (h1 ++ [o]) k -> been c h k.
Proof. intros E H. replace h with ((h1 ++ [o]) ++ h2) by (rewrite E, <- app_assoc; reflexivity). apply been_more. exact H. Qed.
Lemma here : h = h ++ [].
Proof. symmetry. apply app_nil_r. Qed.

Lemma exact_closures id : straight (fst id) h -> straight (snd id) h -> many_closures L X C first reads wrong friends id h ->
  (c_odom_check C = true -> fst id = snd id -> dpositive (pp_odom_trans pp) /\ dpositive (pp_odom_rot pp)) ->
  noisy_closures L X C first reads wrong friends id h.
Proof.
  intros D1 D2 (A & B & D) OC.
  assert (AC : forall b, In b (closures_in C id h) -> readable b /\ been (fst id) h (b_from b) /\ been (snd id) h (b_to b)).
  { intros b Hb. destruct (@closure_in G pp C id h b Hb) as (h1 & o & h2 & E & Ho & K). destruct (A _ _ _ _ E Ho K) as (Q1 & Q2 & Q3).
    split; [exact Q1|]. split; apply (@to_end _ _ _ _ _ E); assumption. }
  split; [|split; [|split; [exact B|exact D]]].
  - intros h1 o h2 b E Ho K. destruct (A _ _ _ _ E Ho K) as (Q1 & Q2 & Q3). split; [apply readable_legible; exact Q1|]. split; [exact Q2|]. split; [exact Q3|].
    intros OD EI WB a e RA EA EE p SP. destruct (OC OD EI) as [P1 P2].
    assert (LX : X (b_from b) @ reads b = X (b_to b)) by exact (proj2 (proj2 (proj2 (proj2 Q1))) WB).
    assert (AX : a = X (b_from b)).
    { pose proof (proj1 (proj2 (proj2 Q1))) as RR. rewrite <- (lw_id_r LW a), <- (lw_id_r LW (X (b_from b))), <- (lw_inv_r LW _ RR), !(lw_assoc LW), EA, LX. reflexivity. }
    rewrite AX in EE. destruct (@stays _ e p (proj1 RW _) SP EE) as [T1 T2].
    assert (BT : been (fst id) h (b_to b)) by (rewrite EI; exact (@to_end _ _ _ _ _ E Q3)).
    pose proof (proj2 (within_one (small_way _ D1 here (@to_end _ _ _ _ _ E Q2) BT))) as NB.
    unfold small_odometry. rewrite T1, T2, zero_passes by auto. cbn [andb]. destruct (turns G b); [apply zero_passes; auto|exact P2].
  - intros f1 f2 I1 I2 W1 W2 e z EZ EE. destruct (AC f1 I1) as (Q1 & U1 & V1). destruct (AC f2 I2) as (Q2 & U2 & V2).
    pose proof (proj2 (proj2 (proj2 (proj2 Q1))) W1) as L1. pose proof (proj2 (proj2 (proj2 (proj2 Q2))) W2) as L2. rewrite L1, L2, EZ in EE.
    apply (@zero_small _ e _ f1 f2 (proj1 RW _) EE). exact (within_two (small_way _ D1 here U1 U2) (small_way _ D2 here V1 V2)).
Qed.
Lemma exact_sightings c l : straight c h -> many_sightings L X C first reads wrong friends c l h -> noisy_sightings L X C first reads wrong friends c l h.
Proof.
  intros D1 (A & B).
  assert (AC : forall b, In b (sightings_in C l h) -> readable b /\ b_to b = l /\ been c h (b_from b)).
  { intros b Hb. destruct (@sighting_in G pp C l h b Hb) as (h1 & o & h2 & E & Ho & K). destruct (A _ _ _ _ E Ho K) as (Q1 & Q2 & Q3).
    split; [exact Q1|]. split; [exact Q2|]. apply (@to_end _ _ _ _ _ E). exact Q3. }
  split; [|split; [|exact B]].
  - intros h1 o h2 b E Ho K. destruct (A _ _ _ _ E Ho K) as (Q1 & Q2 & Q3). split; [apply readable_legible; exact Q1|]. split; [exact Q2|exact Q3].
  - intros f1 f2 I1 I2 W1 W2 e EE. destruct (AC f1 I1) as (Q1 & U1 & V1). destruct (AC f2 I2) as (Q2 & U2 & V2).
    pose proof (eq_trans (proj2 (proj2 (proj2 (proj2 Q1))) W1) (f_equal X U1)) as L1. pose proof (eq_trans (proj2 (proj2 (proj2 (proj2 Q2))) W2) (f_equal X U2)) as L2. rewrite L1, L2 in EE.
    apply (@zero_small _ e _ f1 f2 (proj1 RW _) EE). exact (proj1 (within_one (small_way _ D1 here V1 V2))).
Qed.
Theorem exact_fit : many_history L X F C W first reads wrong friends h -> noisy_history L X F C W first reads wrong friends h.
Proof.
  intros H b Hb. destruct (H b Hb) as (A & B & D). split; [exact A|]. split.
  - intro E. destruct (B E) as (id & B1 & B2 & B3 & B4 & B5). exists id. split; [exact B1|]. split; [exact B2|]. split; [exact B3|]. exact (@exact_closures id B2 B3 B4 B5).
  - intros E l. destruct (D E) as (D1 & c & D2 & D3 & D4). split; [exact D1|]. exists c. split; [exact D2|]. split; [apply exact_sightings; assumption|exact D4].
Qed.
End Exact.
