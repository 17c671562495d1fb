(** * Histories without a wrong measurement: everything is accepted *)
From Coq Require Import ZArith Bool List Lia Permutation.
From Verif Require Import Prelude Num Keys KMap UMap Geometry Factors Clique Pcm Params Solver PcmSpec HistSpec StoreSpec RemoveSpec ApartSpec IncSpec
  PcmProofs PcmInv PcmStore SolverProofs HistProofs StoreProofs TrajProofs TrajRel AlgProofs ItemProofs ApartProofs ApartMore NanProofs OutlierSpec LatticeSpec LatticeProofs LatticeHist TrueSpec TrueAny.
Set Implicit Arguments.
Local Open Scope nat_scope.

Lemma exact_laws G : pose_group G -> g_log_tsq G (g_id G) = dzero -> g_log_rsq G (g_id G) = dzero -> laws (exact_lat G).
Proof.
  intros PG HT HR. refine (@Laws G (exact_lat G) (g_id G) (g_inv G) _ _ _ _ _ _ _ _ _ _ _); cbn; try tauto.
  - apply (pg_assoc PG).
  - apply (pg_id_l PG).
  - apply (pg_id_r PG).
  - intros a _. apply (pg_inv_l PG).
  - intros a _. apply (pg_inv_r PG).
  - intros M N a b p q _ _ _ _ _ _ _ -> ->. auto.
  - intros N a p _ _ _ _ ->. auto.
  - intros p ->. exact HT.
  - intros p ->. exact HR.
Qed.
Lemma unrounded_laws G (L : lattice G) : unrounded_poses L -> inhabited (laws L).
Proof. destruct 1 as [G L H|G PG HT HR]; [apply right_laws; auto|constructor; apply exact_laws; auto]. Qed.

Lemma nodes_bound G (ref : N -> key -> pnode G) a b ca cb i j : chr a = ca -> chr b = cb -> pn_node (ref ca a) = Z.of_nat i -> pn_node (ref cb b) = Z.of_nat j ->
  (Z.of_nat i < 2 ^ 50)%Z -> (Z.of_nat j < 2 ^ 50)%Z -> (nodes ref a b < 2 ^ 51)%Z.
Proof. unfold nodes. intros -> -> -> ->. lia. Qed.

Section True.
Variable G : geom.
Variable L : lattice G.
Variable LW : laws L.
Variable X : key -> la_t L.
Variable F : N -> la_t L.
Hypothesis RW : rigid_world L X F.
Variable pp : pcm_params.
Notation O := (node_ops G pp).
Variable C : config.
Variable W : soracles O.
Variable first : N -> key.
Notation op := (op O).
Notation bf := (bf O).
Notation drives := (drives L X F (pp := pp) C W first).
Notation been := (been (O := O) C first).

Section Whole.
Variable h : list op.
Variable s : solver O.
Variable rs : list ret.
Hypothesis R : run C W h (solver_init true) = Ok s rs.

Lemma been_place c P T k : drives c h -> h = P ++ T -> been c P k ->
  chr k = c /\ in_place L X F (refs_after C W P) k /\ knows P k = true /\
  exists i, (Z.of_nat i < 2 ^ 50)%Z /\ pn_node (refs_after C W P c k : pnode G) = Z.of_nat i.
Proof.
  intros (ST & HC & CH & TM & LB & WI) EP (NE & i & Hi & ->).
  destruct ST as (h1 & o & h2 & s1 & rs1 & fs & vs & x0 & E & R1 & CO & NM & OD & KN & VA & SH).
  assert (E2 := E). rewrite EP in E2. symmetry in E2. destruct (split_at _ _ _ _ _ E2) as [[l El]|[l El]].
  2:{ exfalso. apply NE. rewrite El in NM. apply unmentioned_odoms. intros b Hb. apply NM. destruct Hb as (o' & fs' & vs' & Hin & Z). exists o', fs', vs'. split; auto. apply in_or_app. auto. }
  assert (R2 := R). rewrite EP in R2. destruct (run_app C W P T _ R2) as (sp & rp & rt & RP & _). rewrite El in RP.
  assert (LE : robot_odoms C c h = robot_odoms C c P ++ robot_odoms C c T) by (rewrite EP; apply robot_odoms_app).
  assert (LL : length (robot_odoms C c P) <= length (robot_odoms C c h)) by (rewrite LE, app_length; apply Nat.le_add_r).
  assert (CK : chr (first c + N.of_nat i)%N = c).
  { apply (@chain_chr O c (first c) (robot_odoms C c h)); auto; [apply robot_odoms_to|lia]. }
  destruct (hist_run C W _ RP) as [p HI]. pose proof (hi_pcm HI) as Hp.
  assert (RF : refs_after C W P = tref p) by (rewrite El; exact (refs_after_run C W _ RP Hp)).
  assert (CP : chain (first c) (robot_odoms C c P)) by (rewrite LE in CH; apply chain_prefix in CH; exact CH).
  assert (TP : Forall (true_meas L X) (robot_odoms C c P)) by (rewrite LE in TM; apply Forall_app in TM; tauto).
  assert (DR : la_shows L (pn_pose (tref p c (first c + N.of_nat i)%N : pnode G)) (la_comp L (F c) (X (first c + N.of_nat i)%N)) /\
    pn_node (tref p c (first c + N.of_nat i)%N : pnode G) = Z.of_nat i).
  { rewrite El in CP, TP, Hi, LL.
    refine (@dead_reckoning_true G L LW X F RW pp C W h1 o l s1 rs1 _ _ p fs vs c (first c) x0 R1 RP Hp CO NM OD VA CP TP SH _ i Hi).
    intros j Hj. apply WI. eapply Nat.le_trans; eauto. }
  destruct DR as [D1 D2]. split; [exact CK|]. split; [|split].
  - unfold in_place, seen. rewrite CK, RF. split; [exact D1|]. apply WI. lia.
  - destruct i as [|i].
    + cbn. rewrite N.add_0_r, El. replace (h1 ++ o :: l) with ((h1 ++ [o]) ++ l) by (rewrite <- app_assoc; auto). apply knows_app, KN.
    + destruct (nth_error (robot_odoms C c P) i) as [b|] eqn:EN; [|apply nth_error_None in EN; lia].
      rewrite <- (chain_to _ _ CP i EN). apply (@odom_known O C c P b). exact (nth_error_In _ _ EN).
  - exists i. split; [clear - Hi LL LB; lia|]. rewrite RF. exact D2.
Qed.

(** ** Closures *)
Section Pair.
Variable id : obsid.
Hypothesis D1 : drives (fst id) h.
Hypothesis D2 : drives (snd id) h.
Hypothesis TC : true_closures L X C first id h.
Hypothesis OC : c_odom_check C = true -> fst id = snd id -> dpositive (pp_odom_trans pp) /\ dpositive (pp_odom_rot pp).

Definition fine (P : list op) (b : bf) : Prop :=
  with_cov G b /\ true_meas L X b /\ been (fst id) P (b_from b) /\ been (snd id) P (b_to b).

Lemma fine_stores P o T b : h = (P ++ [o]) ++ T -> fine (P ++ [o]) b -> sp_lmk C b = false ->
  stores C (knows (P ++ [o])) (refs_after C W (P ++ [o])) b = true.
Proof.
  intros E (F1 & F2 & F3 & F4) LM. destruct (@been_place _ _ _ _ D1 E F3) as (A1 & A2 & A3 & i & A4 & A5). destruct (@been_place _ _ _ _ D2 E F4) as (B1 & B2 & B3 & j & B4 & B5).
  unfold stores. rewrite A3, B3, LM. cbn [andb negb]. unfold passes_odom. destruct (N.eqb_spec (chr (b_from b)) (chr (b_to b))) as [EC|]; auto.
  destruct (c_odom_check C) eqn:OE; auto. cbn [andb]. destruct OC as [P1 P2]; [auto|congruence|].
  rewrite (@odom_true G L LW X F RW pp (refs_after C W (P ++ [o])) b F1 F2 EC A2 B2); auto.
  pose proof (@nodes_bound G (refs_after C W (P ++ [o])) (b_from b) (b_to b) _ _ i j A1 B1 A5 B5 A4 B4) as NB. clear - NB.
  change (nodes (G := G) (refs_after C W (P ++ [o])) (b_from b) (b_to b) + 1 < 2 ^ 53)%Z.
  eapply Z.le_lt_trans; [apply Z.add_le_mono_r, Z.lt_le_incl, NB|reflexivity].
Qed.

Theorem closures_all : dpositive (pp_dist_trans pp) -> dpositive (pp_dist_rot pp) -> c_loop_check C = true -> no_removal h ->
  small C (length (sp_stored C W h)) -> pair_ignored h id = false ->
  Permutation (graph_lcs C h id (s_nfg s)) (closures_in C id h).
Proof.
  intros Pt Pr HL NR SM IG. apply (@any_closures O C W h s rs R id fine); auto.
  - intros P T b (A & B & U & V). split; [|split; [|split]]; auto; apply been_more; auto.
  - exact fine_stores.
  - intros P T x y E (X1 & X2 & X3 & X4) (Y1 & Y2 & Y3 & Y4).
    destruct (@been_place _ _ _ _ D1 E X3) as (A1 & A2 & A3 & i & A4 & A5). destruct (@been_place _ _ _ _ D2 E X4) as (B1 & B2 & B3 & j & B4 & B5).
    destruct (@been_place _ _ _ _ D1 E Y3) as (A1' & A2' & _ & i' & A4' & A5'). destruct (@been_place _ _ _ _ D2 E Y4) as (B1' & B2' & _ & j' & B4' & B5').
    apply (@pair_true G L LW X F RW pp); auto.
    + exact (eq_trans A1 (eq_sym A1')).
    + exact (eq_trans B1 (eq_sym B1')).
    + intros k [<-|[<-|[<-|[<-|[]]]]]; auto.
    + pose proof (@nodes_bound G (refs_after C W P) (b_from x) (b_from y) _ _ i i' A1 A1' A5 A5' A4 A4') as NA.
      pose proof (@nodes_bound G (refs_after C W P) (b_to x) (b_to y) _ _ j j' B1 B1' B5 B5' B4 B4') as NB. clear - NA NB.
      eapply Z.le_lt_trans; [apply Z.add_le_mono_r, Z.add_le_mono; [apply Z.lt_le_incl, NA|apply Z.lt_le_incl, NB]|reflexivity].
Qed.
End Pair.

(** ** Sightings of a landmark *)
Section Landmark.
Variable c : N.
Variable l : key.
Hypothesis DC : drives c h.
Hypothesis TS : true_sightings L X C first c l h.

Definition clear (P : list op) (b : bf) : Prop := with_cov G b /\ true_meas L X b /\ (b_to b = l /\ sp_lmk C b = true) /\ been c P (b_from b).
Lemma robot_not_landmark P k : been c P k -> (exists T, h = P ++ T) -> sp_landmark (c_special C) k = false.
Proof.
  intros HB [T E]. pose proof (proj1 (@been_place _ _ _ _ DC E HB)) as CK. destruct HB as (NE & _).
  destruct (robot_odoms C c P) as [|b bs] eqn:EO; [contradiction|].
  assert (HI : In b (robot_odoms C c P)) by (rewrite EO; left; auto).
  pose proof (robot_odoms_to C c P) as FT. rewrite Forall_forall in FT. specialize (FT b HI). unfold to_robot in FT. apply N.eqb_eq in FT.
  apply filter_In in HI. destruct HI as [HI _]. apply in_flat_map in HI. destruct HI as (o & _ & HI). destruct (call_of o) as [[fs vs]|]; [|destruct HI].
  apply filter_In in HI. destruct HI as [_ HI]. unfold sp_odometry in HI. rewrite !andb_true_iff in HI. destruct HI as (((_ & HI) & _) & _). apply negb_true_iff in HI.
  unfold sp_landmark in *. rewrite CK, <- FT. exact HI.
Qed.

Theorem sightings_all : dpositive (pp_dist_trans pp) -> dpositive (pp_dist_rot pp) ->
  graph_lms C h l (s_nfg s) = map fst (current C l (sp_sightings C W h)).
Proof.
  intros Pt Pr. apply (@any_sightings O C W h s rs R l clear).
  - intros P T b (A & B & U & V). split; [|split; [|split]]; auto. apply been_more; auto.
  - intros h1 o h2 b E A K B. destruct (@TS _ _ _ _ E A K B) as (T1 & T2 & T3 & T4). split; [|split; [|split; [split|]]]; auto.
  - intros b (_ & _ & (TO & LK) & BE) EL.
    pose proof (@robot_not_landmark h _ BE (ex_intro _ [] (eq_sym (app_nil_r h)))) as NL. unfold sp_lmk in LK. assert (EQ : b_to b = b_from b) by exact (eq_trans TO (eq_sym EL)).
    assert (NL2 : sp_landmark (c_special C) (b_to b) = false) by exact (eq_trans (f_equal (sp_landmark (c_special C)) EQ) NL).
    assert (LK2 : false || false = true) by exact (eq_trans (eq_sym (f_equal2 orb NL NL2)) LK). discriminate LK2.
  - intros P T x y E (X1 & X2 & (X3 & _) & X4) (Y1 & Y2 & (Y3 & _) & Y4).
    destruct (@been_place _ _ _ _ DC E X4) as (A1 & A2 & A3 & i & A4 & A5). destruct (@been_place _ _ _ _ DC E Y4) as (A1' & A2' & _ & i' & A4' & A5').
    apply (@landmark_true G L LW X F RW pp); auto.
    + exact (eq_trans A1 (eq_sym A1')).
    + exact (eq_trans X3 (eq_sym Y3)).
    + pose proof (@nodes_bound G (refs_after C W P) (b_from x) (b_from y) _ _ i i' A1 A1' A5 A5' A4 A4') as NA.
      eapply Z.le_lt_trans; [apply Z.add_le_mono_r; apply Z.lt_le_incl; exact NA|reflexivity].
Qed.
End Landmark.
End Whole.
End True.
