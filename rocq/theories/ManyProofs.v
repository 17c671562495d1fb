(** * Many wrong measurements among true ones, without rounding or on a grid: exactly these are left out *)
From Coq Require Import ZArith Bool List Lia Permutation.
From Verif Require Import Prelude Num Keys KMap UMap Geometry Factors Clique Pcm Params Solver PcmSpec HistSpec StoreSpec RemoveSpec ApartSpec IncSpec HeuSpec ExactSpec
  PcmProofs PcmInv PcmStore SolverProofs HistProofs StoreProofs TrajProofs TrajRel AlgProofs ItemProofs ApartProofs ApartMore NanProofs OutlierSpec GroupSpec GroupProofs OutlierProofs LatticeSpec LatticeProofs LatticeHist
  TrueSpec TrueAny TrueProofs WholeSpec WholeAny WrongSpec WrongAny WrongProofs GridWrongSpec ManySpec.
Set Implicit Arguments.
Local Open Scope nat_scope.

Section Wrong.
Variable G : geom.
Variable L : lattice G.
Hypothesis LW : laws L.
Variable X : key -> la_t L.
Variable F : N -> la_t L.
Hypothesis RW : rigid_world L X F.
Variable pp : pcm_params.
Notation O := (node_ops G pp).
Variable C : config.
Variable W : soracles O.
Variable first : N -> key.
Variable reads : bf O -> la_t L.
Variable wrong : bf O -> bool.
Variable friends : bf O -> bf O -> bool.
Hypothesis FR : forall b, friends b b = true.
Notation op := (op O).
Notation bf := (bf O).
Infix "@" := (la_comp L) (at level 40, left associativity).
Notation straight := (drives_known (G := G) L X F C W first).
Notation readable := (readable L X reads wrong).
Notation lands := (lands L X reads).
Notation been := (been (O := O) C first).
Notation right := (fun b => negb (wrong b)).
Hypothesis Pt : dpositive (pp_dist_trans pp).
Hypothesis Pr : dpositive (pp_dist_rot pp).

Section Ref.
Variable ref : N -> key -> t_T O.
Notation bn := (bfactor (g_pose G) (g_cov G)).
(** What is tested, with the poses as computed. *)
Definition trip (f1 f2 : bn) : g_pose G :=
  g_comp G (g_comp G (g_inv G (g_comp G (pn_pose (sp_rel (O := O) ref (chr (b_from f1)) (b_from f1) (b_from f2) : pnode G)) (b_meas f2))) (b_meas f1))
    (pn_pose (sp_rel (O := O) ref (chr (b_to f1)) (b_to f1) (b_to f2) : pnode G)).
Definition trip_lm (f1 f2 : bn) : g_pose G :=
  g_comp G (g_inv G (g_comp G (pn_pose (sp_rel (O := O) ref (chr (b_from f1)) (b_from f1) (b_from f2) : pnode G)) (b_meas f2))) (b_meas f1).
Lemma trip_test (f1 f2 : bn) : gaussian G f1 -> gaussian G f2 -> chr (b_from f1) = chr (b_from f2) -> chr (b_to f1) = chr (b_to f2) ->
  sp_loop_test (O := O) ref f1 f2 = Some (small_error G pp (trip f1 f2) (round G ref f1 f2) (round_turns G ref f1 f2)).
Proof.
  intros G1 G2 E1 E2. rewrite (@loop_test_same O ref f1 f2 _ _ (of_gaussian G1) (of_gaussian G2) E1).
  f_equal. rewrite <- loop_small. change (t_loop_ok O) with (@pn_loop_ok G pp). f_equal.
  pose proof (@rel_steps G pp ref _ _ E1) as S1. pose proof (@rel_steps G pp ref _ _ E2) as S2.
  pose proof (@rel_turns G pp ref _ _ E1) as T1. pose proof (@rel_turns G pp ref _ _ E2) as T2.
  change (t_comp O) with (@pn_comp G). change (t_inv O) with (@pn_inv G). unfold trip.
  set (r1 := sp_rel ref (chr (b_from f1)) (b_from f1) (b_from f2)) in *. set (r2 := sp_rel ref (chr (b_to f1)) (b_to f1) (b_to f2)) in *.
  unfold pn_comp, pn_inv. cbn [pn_pose pn_node pn_rot].
  f_equal.
  - unfold round. rewrite <- S1, <- S2. exact (plus_two (pn_node (r1 : pnode G)) (pn_node (r2 : pnode G))).
  - exact (@turns_two _ _ _ _ _ _ _ _ T1 T2).
Qed.
Lemma trip_test_lm (f1 f2 : bn) : gaussian G f1 -> gaussian G f2 -> chr (b_from f1) = chr (b_from f2) ->
  sp_lm_test (O := O) ref f1 f2 = Some (small_error G pp (trip_lm f1 f2) (round_lm G ref f1 f2) (round_turns_lm G ref f1 f2)).
Proof.
  intros G1 G2 E1. unfold sp_lm_test. change (t_of O f1) with (pn_of G f1). change (t_of O f2) with (pn_of G f2).
  rewrite (of_gaussian G1), (of_gaussian G2).
  f_equal. rewrite <- loop_small. change (t_loop_ok O) with (@pn_loop_ok G pp). f_equal.
  pose proof (@rel_steps G pp ref _ _ E1) as S1. pose proof (@rel_turns G pp ref _ _ E1) as T1.
  change (t_comp O) with (@pn_comp G). change (t_inv O) with (@pn_inv G). unfold trip_lm.
  set (r1 := sp_rel ref (chr (b_from f1)) (b_from f1) (b_from f2)) in *.
  unfold pn_comp, pn_inv. cbn [pn_pose pn_node pn_rot].
  f_equal.
  - unfold round_lm. rewrite <- S1. exact (plus_one (pn_node (r1 : pnode G))).
  - exact (@turns_one _ _ _ _ _ T1).
Qed.
Lemma reads_leads (b : bf) : readable b -> leads L LatticeSpec.reach (b_meas b : g_pose G) (X (b_from b)) (lands b).
Proof. intros (_ & A & B & D & _). exists (reads b). split; [exact A|]. split; [exact B|]. split; [exact D|reflexivity]. Qed.
Lemma leads_moved N p a b a' : leads L N p a b -> exists z, a @ z = b /\ leads L N p a' (a' @ z).
Proof. intros (z & A & B & D & E). exists z. split; [exact E|]. exists z. auto. Qed.

(** The way around starts where [f2] leads and passes the second pose of [f1]. *)
Lemma trip_leads (f1 f2 : bf) : readable f1 -> readable f2 -> chr (b_from f1) = chr (b_from f2) -> chr (b_to f1) = chr (b_to f2) ->
  (forall k, In k [b_from f1; b_to f1; b_from f2; b_to f2] -> in_place L X F ref k) ->
  exists z, X (b_to f1) @ z = X (b_to f2) /\ leads L (48 * LatticeSpec.reach) (trip f1 f2) (lands f2) (lands f1 @ z).
Proof.
  intros R1 R2 E1 E2 HP. pose proof (reads_leads R1) as L1. pose proof (reads_leads R2) as L2. pose proof reach_48 as RB. set (r := LatticeSpec.reach) in *.
  assert (Q1 : leads L (6 * r) (pn_pose (sp_rel (O := O) ref (chr (b_from f1)) (b_from f1) (b_from f2))) (X (b_from f1)) (X (b_from f2))).
  { apply (@rel_leads G L LW X F RW pp ref); [exact E1| |]; apply HP; [left|right; right; left]; reflexivity. }
  assert (Q2 : leads L (6 * r) (pn_pose (sp_rel (O := O) ref (chr (b_to f1)) (b_to f1) (b_to f2))) (X (b_to f1)) (X (b_to f2))).
  { apply (@rel_leads G L LW X F RW pp ref); [exact E2| |]; apply HP; [right; left|right; right; right; left]; reflexivity. }
  destruct (leads_moved (lands f1) Q2) as (z & EZ & Q2'). exists z. split; [exact EZ|].
  assert (B : (0 <= 6 * r /\ 0 <= r /\ 6 * r + 3 * r < lim /\ 0 <= 6 * r + 3 * r /\ 3 * (6 * r + 3 * r) < lim /\ 0 <= 3 * (6 * r + 3 * r) /\ 3 * (6 * r + 3 * r) + 3 * r < lim /\
    0 <= 3 * (6 * r + 3 * r) + 3 * r /\ 3 * (6 * r + 3 * r) + 3 * r + 3 * (6 * r) < lim)%Z) by (clear - RB; lia).
  destruct B as (B1 & B2 & B3 & B4 & B5 & B6 & B7 & B8 & B9).
  pose proof (@leads_comp G L LW (6 * r) r _ _ _ _ _ B1 B2 B3 Q1 L2) as Q3.
  pose proof (@leads_inv G L LW (6 * r + 3 * r) _ _ _ B4 B5 Q3) as Q4.
  pose proof (@leads_comp G L LW (3 * (6 * r + 3 * r)) r _ _ _ _ _ B6 B2 B7 Q4 L1) as Q5.
  pose proof (@leads_comp G L LW (3 * (6 * r + 3 * r) + 3 * r) (6 * r) _ _ _ _ _ B8 B1 B9 Q5 Q2') as Q6.
  replace (48 * r)%Z with (3 * (6 * r + 3 * r) + 3 * r + 3 * (6 * r))%Z by (clear; lia). exact Q6.
Qed.
Lemma trip_lm_leads (f1 f2 : bf) : readable f1 -> readable f2 -> chr (b_from f1) = chr (b_from f2) ->
  (forall k, In k [b_from f1; b_from f2] -> in_place L X F ref k) ->
  leads L (30 * LatticeSpec.reach) (trip_lm f1 f2) (lands f2) (lands f1).
Proof.
  intros R1 R2 E1 HP. pose proof (reads_leads R1) as L1. pose proof (reads_leads R2) as L2. pose proof reach_48 as RB. set (r := LatticeSpec.reach) in *.
  assert (Q1 : leads L (6 * r) (pn_pose (sp_rel (O := O) ref (chr (b_from f1)) (b_from f1) (b_from f2))) (X (b_from f1)) (X (b_from f2))).
  { apply (@rel_leads G L LW X F RW pp ref); [exact E1| |]; apply HP; [left|right; left]; reflexivity. }
  assert (B : (0 <= 6 * r /\ 0 <= r /\ 6 * r + 3 * r < lim /\ 0 <= 6 * r + 3 * r /\ 3 * (6 * r + 3 * r) < lim /\ 0 <= 3 * (6 * r + 3 * r) /\ 3 * (6 * r + 3 * r) + 3 * r < lim)%Z) by (clear - RB; lia).
  destruct B as (B1 & B2 & B3 & B4 & B5 & B6 & B7).
  pose proof (@leads_comp G L LW (6 * r) r _ _ _ _ _ B1 B2 B3 Q1 L2) as Q3.
  pose proof (@leads_inv G L LW (6 * r + 3 * r) _ _ _ B4 B5 Q3) as Q4.
  pose proof (@leads_comp G L LW (3 * (6 * r + 3 * r)) r _ _ _ _ _ B6 B2 B7 Q4 L1) as Q5.
  replace (30 * r)%Z with (3 * (6 * r + 3 * r) + 3 * r)%Z by (clear; lia). exact Q5.
Qed.
End Ref.

Lemma loop_small_error N p a n r : la_rigid L a -> leads L N p a a -> (0 < n < 2 ^ 53)%Z -> small_error G pp p n r = true.
Proof.
  intros RA H Hn. destruct (@leads_loop G L LW N p a RA H) as [A B]. unfold small_error. rewrite A, B, zero_passes by auto. cbn [andb]. destruct r; [apply zero_passes; auto|exact Pr].
Qed.

Section Whole.
Variable h : list op.
Variable s : solver O.
Variable rs : list ret.
Hypothesis R : run C W h (solver_init true) = Ok s rs.

Lemma been_all c P T k : straight c h -> h = P ++ T -> been c P k ->
  chr k = c /\ in_place L X F (refs_after C W P) k /\ knows P k = true /\ pn_rot (refs_after C W P c k : pnode G) = true /\
  (pn_node (refs_after C W P c k : pnode G) = Z.of_N k - Z.of_N (first c))%Z /\ (0 <= Z.of_N k - Z.of_N (first c) < 2 ^ 50)%Z.
Proof.
  intros ((ST & HC & CH & TM & LB & WI) & TU) EP BE. pose proof BE as BE0. destruct BE as (NE & i & Hi & EK).
  assert (DR : drives L X F C W first c h) by exact (conj ST (conj HC (conj CH (conj TM (conj LB WI))))).
  destruct (@been_place G L LW X F RW pp C W first h s rs R c P T k DR EP BE0) as (B1 & B2 & B3 & _).
  split; [exact B1|]. split; [exact B2|]. split; [exact B3|].
  destruct ST as (h1 & o & h2 & s1 & rs1 & fs & vs & x0 & E & R1 & CO & NM & OD & KN & VA & SH).
  assert (E2 := E). rewrite EP in E2. symmetry in E2. destruct (split_at _ _ _ _ _ E2) as [[l El]|[l El]].
  2:{ exfalso. apply NE. rewrite El in NM. apply unmentioned_odoms. intros b Hb. apply NM. destruct Hb as (o' & fs' & vs' & Hin & Z). exists o', fs', vs'. split; auto. apply in_or_app. auto. }
  assert (R2 := R). rewrite EP in R2. destruct (run_app C W P T _ R2) as (sp & rp & rt & RP & _). rewrite El in RP.
  assert (LE : robot_odoms C c h = robot_odoms C c P ++ robot_odoms C c T) by (rewrite EP; apply robot_odoms_app).
  assert (LL : length (robot_odoms C c P) <= length (robot_odoms C c h)) by (rewrite LE, app_length; apply Nat.le_add_r).
  destruct (hist_run C W _ RP) as [p HI]. pose proof (hi_pcm HI) as Hp.
  assert (RF : refs_after C W P = tref p) by (rewrite El; exact (refs_after_run C W _ RP Hp)).
  assert (CP : chain (first c) (robot_odoms C c P)) by (rewrite LE in CH; apply chain_prefix in CH; exact CH).
  assert (TP : Forall (fun b : bf => turns G b = true) (robot_odoms C c P)) by (rewrite LE in TU; apply Forall_app in TU; exact (proj1 TU)).
  rewrite El in CP, TP, Hi, LL.
  destruct (@c33 O C W h1 o l s1 rs1 sp rp p fs vs c (first c) x0 R1 RP Hp CO NM OD VA CP) as (ts & D & _ & EF).
  assert (EL : length (robot_odoms C c (h1 ++ o :: l)) = length ts) by (clear - D; induction D; cbn; [reflexivity|f_equal; assumption]).
  assert (Hi' : i <= length ts) by (rewrite <- EL; exact Hi). rewrite RF, EK. rewrite (EF i Hi').
  split; [exact (@fold_turns G pp _ _ D TP i (pn_init G x0) eq_refl)|].
  assert (FN : forall (l : list (pnode G)) a, (forall t, In t l -> pn_node t = 1%Z) -> pn_node (fold_left (@pn_comp G) l a) = (pn_node a + Z.of_nat (length l))%Z).
  { clear. induction l as [|t l IH]; intros a H; cbn [fold_left length]; [lia|]. rewrite IH by (intros; apply H; right; auto). cbn [pn_comp pn_node]. rewrite (H t (or_introl eq_refl)). lia. }
  split.
  - refine (eq_trans (FN (firstn i ts : list (pnode G)) (pn_init G x0) _) _); [|rewrite firstn_length_le by exact Hi'; cbn [pn_init pn_node]; clear; lia].
    intros t Ht. assert (Ht' : In t ts) by (rewrite <- (firstn_skipn i ts); apply in_or_app; left; exact Ht). clear - D Ht'.
      induction D as [|b t0 bs ts Hb D IH]; [destruct Ht'|]. destruct Ht' as [<-|Ht']; [|apply IH; exact Ht'].
      exact (@pn_of_node G b t0 Hb).
  - clear - Hi LL LB. lia.
Qed.

Lemma steps_apart P T c a b : straight c h -> h = P ++ T -> been c P a -> been c P b -> steps G (refs_after C W P) a b = apart a b.
Proof.
  intros D E A B. destruct (@been_all _ _ _ _ D E A) as (A1 & _ & _ & _ & A2 & _). destruct (@been_all _ _ _ _ D E B) as (B1 & _ & _ & _ & B2 & _).
  unfold steps, apart. rewrite A1, B1. refine (eq_trans (f_equal Z.abs (f_equal2 Z.sub B2 A2)) _). clear. lia.
Qed.
Lemma apart_small P T c a b : straight c h -> h = P ++ T -> been c P a -> been c P b -> (0 <= apart a b < 2 ^ 50)%Z.
Proof.
  intros D E A B. destruct (@been_all _ _ _ _ D E A) as (_ & _ & _ & _ & _ & A2). destruct (@been_all _ _ _ _ D E B) as (_ & _ & _ & _ & _ & B2).
  unfold apart. revert A2 B2. generalize (2 ^ 50)%Z. clear. lia.
Qed.

Section Pair.
Variable id : obsid.
Hypothesis D1 : straight (fst id) h.
Hypothesis D2 : straight (snd id) h.
Hypothesis MC : many_closures L X C first reads wrong friends id h.
Hypothesis OC : c_odom_check C = true -> fst id = snd id -> dpositive (pp_odom_trans pp) /\ dpositive (pp_odom_rot pp).

Definition mfine (P : list op) (b : bf) : Prop := readable b /\ been (fst id) P (b_from b) /\ been (snd id) P (b_to b).

Lemma mfine_stores P o T b : h = (P ++ [o]) ++ T -> mfine (P ++ [o]) b -> right b = true -> sp_lmk C b = false ->
  stores C (knows (P ++ [o])) (refs_after C W (P ++ [o])) b = true.
Proof.
  intros E (F1 & F3 & F4) Rb LM. apply negb_true_iff in Rb. apply (@fine_stores G L LW X F RW pp C W first h s rs R id (proj1 D1) (proj1 D2) OC P o T b E); [|exact LM].
  destruct F1 as (Q1 & Q2 & Q3 & Q4 & Q5). split; [exact Q1|]. split; [|split; [exact F3|exact F4]].
  exists (reads b). split; [exact Q2|]. split; [exact Q3|]. split; [exact Q4|exact (Q5 Rb)].
Qed.

Lemma mfine_told P T x y : h = P ++ T -> mfine P x -> mfine P y -> In x (closures_in C id h) -> In y (closures_in C id h) ->
  told_apart right friends (@lc_test O) (x, refs_after C W P) (y, refs_after C W P).
Proof.
  intros E (X1 & X3 & X4) (Y1 & Y3 & Y4) IX IY.
  destruct (@been_all _ _ _ _ D1 E X3) as (A1 & A2 & _ & A3 & _). destruct (@been_all _ _ _ _ D2 E X4) as (B1 & B2 & _ & B3 & _).
  destruct (@been_all _ _ _ _ D1 E Y3) as (A1' & A2' & _ & A3' & _). destruct (@been_all _ _ _ _ D2 E Y4) as (B1' & B2' & _ & B3' & _).
  set (ref := refs_after C W P) in *.
  assert (RD : round G ref x y = way_around x y).
  { exact (@round_known G ref x y _ _ (@steps_apart P T _ _ _ D1 E X3 Y3) (@steps_apart P T _ _ _ D2 E X4 Y4)). }
  assert (RT : round_turns G ref x y = turns G x && turns G y) by exact (@turns_known G ref x y _ _ A1 A1' B1 B1' A3 A3' B3 B3').
  assert (EF : chr (b_from x) = chr (b_from y)) by exact (eq_trans A1 (eq_sym A1')). assert (ET : chr (b_to x) = chr (b_to y)) by exact (eq_trans B1 (eq_sym B1')).
  assert (TE : lc_test (x, ref) (y, ref) = Some (small_error G pp (trip ref x y) (way_around x y) (turns G x && turns G y))).
  { rewrite <- RD, <- RT. exact (@trip_test ref x y (proj1 X1) (proj1 Y1) EF ET). }
  destruct (@trip_leads ref x y X1 Y1 EF ET) as (z & EZ & TL). { intros k [<-|[<-|[<-|[<-|[]]]]]; assumption. }
  destruct MC as (_ & MO & _). pose proof (proj2 (proj2 (proj2 (proj2 X1)))) as X2. pose proof (proj2 (proj2 (proj2 (proj2 Y1)))) as Y2.
  unfold told_apart. cbn [fst]. rewrite TE. split; [|split].
  - intros Gx Gy. apply negb_true_iff in Gx, Gy. f_equal. rewrite (X2 Gx), (Y2 Gy), EZ in TL. apply (@loop_small_error _ _ _ _ _ (proj1 RW (b_to y)) TL).
    pose proof (@apart_small P T _ _ _ D1 E X3 Y3) as S1. pose proof (@apart_small P T _ _ _ D2 E X4 Y4) as S2. unfold way_around. clear - S1 S2. revert S1 S2.
    change (2 ^ 53)%Z with (8 * 2 ^ 50)%Z. assert (Q : (1 <= 2 ^ 50)%Z) by (vm_compute; discriminate). revert Q. generalize (2 ^ 50)%Z. lia.
  - intro NE. destruct TL as (e & SE & _ & _ & EE). f_equal. destruct (wrong x) eqn:Gx, (wrong y) eqn:Gy; try (exfalso; apply NE; reflexivity).
    + exact (proj2 (MO y x IY IX Gx (or_introl Gy)) e z EZ EE _ SE).
    + exact (proj1 (MO x y IX IY Gy (or_introl Gx)) e z EZ EE _ SE).
  - intros Gx Gy FF. destruct TL as (e & SE & _ & _ & EE). f_equal. apply negb_false_iff in Gx, Gy. apply andb_false_iff in FF. destruct FF as [FF|FF].
    + exact (proj1 (MO x y IX IY Gy (or_intror FF)) e z EZ EE _ SE).
    + exact (proj2 (MO y x IY IX Gx (or_intror FF)) e z EZ EE _ SE).
Qed.

Theorem closures_many : c_loop_check C = true -> no_removal h -> small C (length (sp_stored C W h)) -> pair_ignored h id = false ->
  Permutation (graph_lcs C h id (s_nfg s)) (filter right (closures_in C id h)).
Proof.
  intros HL NR SM IG. apply (@mixed_pair O C W right friends FR h s rs R id mfine); auto.
  - intros P T b (A & U & V). split; [exact A|]. split; apply been_more; auto.
  - exact (proj1 MC).
  - exact mfine_stores.
  - exact mfine_told.
  - exact (proj2 (proj2 MC)).
Qed.
End Pair.

Section Landmark.
Variable c : N.
Variable l : key.
Hypothesis DC : straight c h.
Hypothesis MS : many_sightings L X C first reads wrong friends c l h.

Definition mclear (P : list op) (b : bf) : Prop := readable b /\ (b_to b = l /\ sp_lmk C b = true) /\ been c P (b_from b) /\ In b (sightings_in C l h).

Lemma mclear_told P T x y : h = P ++ T -> mclear P x -> mclear P y -> told_apart right friends (@lm_test O) (x, refs_after C W P) (y, refs_after C W P).
Proof.
  intros E (X1 & (X3 & _) & X4 & IX) (Y1 & (Y3 & _) & Y4 & IY).
  destruct (@been_all _ _ _ _ DC E X4) as (A1 & A2 & _ & A3 & _). destruct (@been_all _ _ _ _ DC E Y4) as (A1' & A2' & _ & A3' & _).
  set (ref := refs_after C W P) in *.
  assert (RD : round_lm G ref x y = way_around_lm x y).
  { exact (@round_lm_known G ref x y _ (@steps_apart P T _ _ _ DC E X4 Y4)). }
  assert (RT : round_turns_lm G ref x y = turns G x && turns G y) by exact (@turns_lm_known G ref x y _ A1 A1' A3 A3').
  assert (EF : chr (b_from x) = chr (b_from y)) by exact (eq_trans A1 (eq_sym A1')).
  assert (TE : lm_test (x, ref) (y, ref) = Some (small_error G pp (trip_lm ref x y) (way_around_lm x y) (turns G x && turns G y))).
  { rewrite <- RD, <- RT. exact (@trip_test_lm ref x y (proj1 X1) (proj1 Y1) EF). }
  assert (TL : leads L (30 * LatticeSpec.reach) (trip_lm ref x y) (lands y) (lands x)).
  { apply (@trip_lm_leads ref x y X1 Y1 EF). intros k [<-|[<-|[]]]; assumption. }
  destruct MS as (_ & MO). pose proof (proj2 (proj2 (proj2 (proj2 X1)))) as X2. pose proof (proj2 (proj2 (proj2 (proj2 Y1)))) as Y2.
  assert (X2' : wrong x = false -> lands x = X l) by (intro Q; exact (eq_trans (X2 Q) (f_equal X X3))).
  assert (Y2' : wrong y = false -> lands y = X l) by (intro Q; exact (eq_trans (Y2 Q) (f_equal X Y3))).
  unfold told_apart. cbn [fst]. rewrite TE. split; [|split].
  - intros Gx Gy. apply negb_true_iff in Gx, Gy. f_equal. rewrite (X2' Gx), (Y2' Gy) in TL. apply (@loop_small_error _ _ _ _ _ (proj1 RW l) TL).
    pose proof (@apart_small P T _ _ _ DC E X4 Y4) as S1. unfold way_around_lm. clear - S1. revert S1.
    change (2 ^ 53)%Z with (8 * 2 ^ 50)%Z. assert (Q : (1 <= 2 ^ 50)%Z) by (vm_compute; discriminate). revert Q. generalize (2 ^ 50)%Z. lia.
  - intro NE. destruct TL as (e & SE & _ & _ & EE). f_equal. destruct (wrong x) eqn:Gx, (wrong y) eqn:Gy; try (exfalso; apply NE; reflexivity).
    + exact (proj2 (MO y x IY IX Gx (or_introl Gy)) e EE _ SE).
    + exact (proj1 (MO x y IX IY Gy (or_introl Gx)) e EE _ SE).
  - intros Gx Gy FF. destruct TL as (e & SE & _ & _ & EE). f_equal. apply negb_false_iff in Gx, Gy. apply andb_false_iff in FF. destruct FF as [FF|FF].
    + exact (proj1 (MO x y IX IY Gy (or_intror FF)) e EE _ SE).
    + exact (proj2 (MO y x IY IX Gx (or_intror FF)) e EE _ SE).
Qed.

Theorem sightings_many : outnumbered right friends (map fst (current C l (sp_sightings C W h))) ->
  graph_lms C h l (s_nfg s) = filter right (map fst (current C l (sp_sightings C W h))).
Proof.
  intro MO. apply (@mixed_lm O C W right friends FR h s rs R l mclear).
  - intros P T b (A & U & V & I). split; [exact A|]. split; [exact U|]. split; [apply been_more; exact V|exact I].
  - intros h1 o h2 b E A K B. assert (SE : sees C l b = true) by (unfold sees; rewrite K, B; reflexivity).
    destruct (proj1 MS _ _ _ _ E A SE) as (T1 & T3 & T4). split; [exact T1|]. split; [split; [exact T3|exact B]|]. split; [exact T4|]. exact (@seen_in G pp C h l _ _ _ _ E A SE).
  - intros b (_ & (TO & LK) & BE & _) EL.
    pose proof (@robot_not_landmark G L LW X F RW pp C W first h s rs R c (proj1 DC) h _ BE (ex_intro _ [] (eq_sym (app_nil_r h)))) as NL.
    unfold sp_lmk in LK. assert (EQ : b_to b = b_from b) by exact (eq_trans TO (eq_sym EL)).
    assert (NL2 : sp_landmark (c_special C) (b_to b) = false) by exact (eq_trans (f_equal (sp_landmark (c_special C)) EQ) NL).
    assert (LK2 : false || false = true) by exact (eq_trans (eq_sym (f_equal2 orb NL NL2)) LK). discriminate LK2.
  - exact mclear_told.
  - exact MO.
Qed.
End Landmark.

Theorem many_left_out : only_calls h -> many_history L X F C W first reads wrong friends h -> c_loop_check C = true -> small C (length (sp_stored C W h)) ->
  Permutation (s_nfg s ++ map Some (map FBetween (filter wrong (non_odometry C h)))) (map Some (given h)).
Proof.
  intros OC MH HL SM.
  assert (ND : forall b, In b (non_odometry C h) -> b_from b <> b_to b) by (intros b Hb; exact (proj1 (MH b Hb))).
  rewrite (filter_ext_on wrong (fun b => negb (right b)) (non_odometry C h)) by (intros b _; symmetry; apply negb_involutive).
  apply (@any_graph_keep O C W h s rs R OC right ND).
  - intros x Hx E. destruct (MH x Hx) as (_ & HP & _). destruct (HP E) as (id & ID & D1 & D2 & MC & OD). exists id. split; [exact ID|].
    apply (@closures_many id D1 D2 MC OD HL (calls_no_removal OC) SM). unfold pair_ignored. rewrite !calls_not_ignored by auto. auto.
  - intros x Hx E. destruct (MH x Hx) as (_ & _ & HP). destruct (HP E) as (IN & c & DC & MS & MO).
    assert (TS : forall P o T b, h = P ++ o :: T -> In b (all_betweens o) -> sees C (sp_landmark_key (c_special C) x) b = true ->
      b_to b = sp_landmark_key (c_special C) x /\ knows (P ++ [o]) (b_from b) = true).
    { intros P o T b EH IB SE. destruct (proj1 MS _ _ _ _ EH IB SE) as (_ & T3 & T4). split; [exact T3|].
      assert (EH' : h = (P ++ [o]) ++ T) by (rewrite EH, <- app_assoc; auto). exact (proj1 (proj2 (proj2 (@been_all _ _ _ _ DC EH' T4)))). }
    split; [exact IN|]. split; [|exact TS]. apply (@sightings_many c _ DC MS).
    refine (outnumbered_perm (Permutation_sym (@current_all O C W h ND _ IN TS)) MO).
Qed.
End Whole.
End Wrong.

