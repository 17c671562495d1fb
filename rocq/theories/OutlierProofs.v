(** * Wrong measurements among exact ones: proofs *)
From Coq Require Import Lia Permutation.
From Verif Require Import Prelude Num Keys KMap UMap Geometry Factors Clique Pcm Solver PcmSpec HistSpec StoreSpec RemoveSpec ApartSpec IncSpec HeuSpec ExactSpec
  AlgProofs GroupSpec GroupProofs OutlierSpec.
Set Implicit Arguments.
Local Open Scope nat_scope.

Section Group.
Variable G : geom.
Hypothesis L : pose_group G.
Variables (X : key -> g_pose G) (F : N -> g_pose G) (pp : pcm_params).
Notation O := (node_ops G pp).
Notation bn := (bfactor (g_pose G) (g_cov G)).
Notation "a * b" := (g_comp G a b).
Notation "/ a" := (g_inv G a).

Ltac group := unfold g_between; rewrite ?(pg_inv_comp L), ?(pg_inv_inv L), <- ?(pg_assoc L);
  repeat (rewrite (pg_cancel_l L) || rewrite (pg_cancel_l' L)).

Section Ref.
Variable ref : N -> key -> t_T O.
Notation right := (seen_right G X F ref).

Lemma right_placed k : right k -> placed G X F O (@pn_pose G) ref k.
Proof. auto. Qed.

Lemma rel_right a b : chr a = chr b -> right a -> right b -> pn_pose (sp_rel (O := O) ref (chr a) a b : pnode G) = g_between G (X a) (X b).
Proof. intros E Ha Hb. apply (@rel_exact G L X F O (@pn_pose G)); auto. Qed.
Lemma rel_steps a b : chr a = chr b -> pn_node (sp_rel (O := O) ref (chr a) a b : pnode G) = steps G ref a b.
Proof. intro E. unfold sp_rel. rewrite E, N.eqb_refl. unfold steps. rewrite E. reflexivity. Qed.
Lemma rel_turns a b : chr a = chr b -> pn_rot (sp_rel (O := O) ref (chr a) a b : pnode G) = pn_rot (ref (chr a) a : pnode G) && pn_rot (ref (chr b) b : pnode G).
Proof. intro E. unfold sp_rel. rewrite E, N.eqb_refl. reflexivity. Qed.

Lemma of_gaussian (f : bn) : gaussian G f -> pn_of G f = Some (PN G (b_meas f) 1 (turns G f)).
Proof. intros [c E]. unfold pn_of, turns. rewrite E. auto. Qed.

Lemma loop_small e n r : pn_loop_ok pp (PN G e n r) = small_error G pp e n r.
Proof. reflexivity. Qed.

Lemma plus_two (a b : Z) : (a + 1 + 1 + b = a + b + 2)%Z.
Proof. lia. Qed.
Lemma plus_one (a : Z) : (a + 1 + 1 = a + 2)%Z.
Proof. lia. Qed.

Lemma turns_two t1 t2 q1 q2 a b c d : q1 = a && b -> q2 = c && d -> q1 && t2 && t1 && q2 = t1 && t2 && (a && (b && (c && (d && true)))).
Proof. intros -> ->. destruct t1, t2, a, b, c, d; reflexivity. Qed.
Lemma turns_one t1 t2 q1 a b : q1 = a && b -> q1 && t2 && t1 = t1 && t2 && (a && (b && true)).
Proof. intros ->. destruct t1, t2, a, b; reflexivity. Qed.

Definition way (f1 f2 : bn) : g_pose G :=
  (/ (g_between G (X (b_from f1)) (X (b_from f2)) * b_meas f2) * b_meas f1) * g_between G (X (b_to f1)) (X (b_to f2)).
Definition way_lm (f1 f2 : bn) : g_pose G := / (g_between G (X (b_from f1)) (X (b_from f2)) * b_meas f2) * b_meas f1.

Lemma way_test (f1 f2 : bn) : gaussian G f1 -> gaussian G f2 -> chr (b_from f1) = chr (b_from f2) -> chr (b_to f1) = chr (b_to f2) ->
  (forall k, In k [b_from f1; b_to f1; b_from f2; b_to f2] -> right k) ->
  sp_loop_test (O := O) ref f1 f2 = Some (small_error G pp (way f1 f2) (round G ref f1 f2) (round_turns G ref f1 f2)).
Proof.
  intros G1 G2 E1 E2 HR. rewrite (@loop_test_same O ref f1 f2 _ _ (of_gaussian G1) (of_gaussian G2) E1).
  f_equal. rewrite <- loop_small. change (t_loop_ok O) with (@pn_loop_ok G pp). f_equal.
  pose proof (rel_right E1 (HR _ (or_introl eq_refl)) (HR _ (or_intror (or_intror (or_introl eq_refl))))) as P1.
  pose proof (rel_right E2 (HR _ (or_intror (or_introl eq_refl))) (HR _ (or_intror (or_intror (or_intror (or_introl eq_refl)))))) as P2.
  pose proof (rel_steps _ _ E1) as S1. pose proof (rel_steps _ _ E2) as S2.
  pose proof (rel_turns _ _ E1) as T1. pose proof (rel_turns _ _ E2) as T2.
  change (t_comp O) with (@pn_comp G). change (t_inv O) with (@pn_inv G).
  set (r1 := sp_rel ref (chr (b_from f1)) (b_from f1) (b_from f2)) in *. set (r2 := sp_rel ref (chr (b_to f1)) (b_to f1) (b_to f2)) in *.
  unfold pn_comp, pn_inv. cbn [pn_pose pn_node pn_rot]. unfold way. rewrite <- P1, <- P2.
  f_equal.
  - unfold round. rewrite <- S1, <- S2. exact (plus_two (pn_node (r1 : pnode G)) (pn_node (r2 : pnode G))).
  - exact (@turns_two _ _ _ _ _ _ _ _ T1 T2).
Qed.

Lemma way_test_lm (f1 f2 : bn) : gaussian G f1 -> gaussian G f2 -> chr (b_from f1) = chr (b_from f2) ->
  (forall k, In k [b_from f1; b_from f2] -> right k) ->
  sp_lm_test (O := O) ref f1 f2 = Some (small_error G pp (way_lm f1 f2) (round_lm G ref f1 f2) (round_turns_lm G ref f1 f2)).
Proof.
  intros G1 G2 E1 HR. unfold sp_lm_test. change (t_of O f1) with (pn_of G f1). change (t_of O f2) with (pn_of G f2).
  rewrite (of_gaussian G1), (of_gaussian G2).
  f_equal. rewrite <- loop_small. change (t_loop_ok O) with (@pn_loop_ok G pp). f_equal.
  pose proof (rel_right E1 (HR _ (or_introl eq_refl)) (HR _ (or_intror (or_introl eq_refl)))) as P1.
  pose proof (rel_steps _ _ E1) as S1. pose proof (rel_turns _ _ E1) as T1.
  change (t_comp O) with (@pn_comp G). change (t_inv O) with (@pn_inv G).
  set (r1 := sp_rel ref (chr (b_from f1)) (b_from f1) (b_from f2)) in *.
  unfold pn_comp, pn_inv. cbn [pn_pose pn_node pn_rot]. unfold way_lm. rewrite <- P1.
  f_equal.
  - unfold round_lm. rewrite <- S1. exact (plus_one (pn_node (r1 : pnode G))).
  - exact (@turns_one _ _ _ _ _ T1).
Qed.

Lemma way_later f1 f2 : b_meas f1 = true_step G X f1 -> way f1 f2 = off G X f2.
Proof. intro E. unfold way, off, true_step in *. rewrite E. group. auto. Qed.
Lemma way_earlier f1 f2 : b_meas f2 = true_step G X f2 -> way f1 f2 = off_from G X (b_to f2) f1.
Proof.
  intro E. unfold way, off_from, moved_by, off, true_step in *. rewrite E. group. auto.
Qed.
Lemma way_later_lm f1 f2 : b_to f1 = b_to f2 -> b_meas f1 = true_step G X f1 -> way_lm f1 f2 = off G X f2.
Proof. intros T E. unfold way_lm, off, true_step in *. rewrite E, T. group. auto. Qed.
Lemma way_earlier_lm f1 f2 : b_to f1 = b_to f2 -> b_meas f2 = true_step G X f2 -> way_lm f1 f2 = / off G X f1.
Proof. intros T E. unfold way_lm, off, true_step in *. rewrite E, T. group. auto. Qed.
End Ref.

Hypothesis Lt : g_log_tsq G (g_id G) = dzero.
Hypothesis Lr : g_log_rsq G (g_id G) = dzero.
Hypothesis Pt : dpositive (pp_dist_trans pp).
Hypothesis Pr : dpositive (pp_dist_rot pp).

Lemma none_small n r : (0 < n < 2 ^ 53)%Z -> small_error G pp (g_id G) n r = true.
Proof.
  intro H. unfold small_error. rewrite Lt, Lr, zero_passes by auto. cbn [andb]. destruct r; [apply zero_passes; auto|exact Pr].
Qed.
Lemma off_none f : b_meas f = true_step G X f -> off G X f = g_id G.
Proof. intro E. unfold off. rewrite E. apply (pg_inv_l L). Qed.
Lemma steps_pos ref a b : (0 <= steps G ref a b)%Z.
Proof. unfold steps. lia. Qed.
Lemma round_pos ref f1 f2 : (0 < round G ref f1 f2)%Z.
Proof. unfold round. pose proof (steps_pos ref (b_from f1) (b_from f2)). pose proof (steps_pos ref (b_to f1) (b_to f2)). lia. Qed.
Lemma round_lm_pos ref f1 f2 : (0 < round_lm G ref f1 f2)%Z.
Proof. unfold round_lm. pose proof (steps_pos ref (b_from f1) (b_from f2)). lia. Qed.

(** Any way of testing with these answers makes the exact ones a separate group. *)
Lemma majority A (M : list A) (test : A -> A -> option bool) good :
  (forall i j x y, nth_error M i = Some x -> nth_error M j = Some y -> i < j ->
     (good i = true -> good j = true -> test x y = Some true) /\
     (good i <> good j -> test x y = Some false)) ->
  most (length M) good ->
  (forall i j, i < length M -> j < length M -> i <> j -> good i = true -> good j = true ->
     exists x y, nth_error M i = Some x /\ nth_error M j = Some y /\ (if i <? j then passes (test x y) else if j <? i then passes (test y x) else false) = true) /\
  (forall i j, i < length M -> j < length M -> good i = true -> good j = false ->
     forall x y, nth_error M i = Some x -> nth_error M j = Some y -> (if i <? j then passes (test x y) else if j <? i then passes (test y x) else false) = false).
Proof.
  intros H HM. split.
  - intros i j Hi Hj N Gi Gj. destruct (nth_error M i) as [x|] eqn:Ex; [|apply nth_error_None in Ex; lia].
    destruct (nth_error M j) as [y|] eqn:Ey; [|apply nth_error_None in Ey; lia].
    exists x, y. split; [auto|split; [auto|]]. destruct (Nat.ltb_spec i j) as [Lij|Lij].
    + rewrite (proj1 (H _ _ _ _ Ex Ey Lij) Gi Gj). reflexivity.
    + destruct (Nat.ltb_spec j i) as [Lji|Lji]; [|lia]. rewrite (proj1 (H _ _ _ _ Ey Ex Lji) Gj Gi). reflexivity.
  - intros i j Hi Hj Gi Gj x y Ex Ey. destruct (Nat.ltb_spec i j) as [Lij|Lij].
    + rewrite (proj2 (H _ _ _ _ Ex Ey Lij)) by congruence. reflexivity.
    + destruct (Nat.ltb_spec j i) as [Lji|Lji]; [|auto]. rewrite (proj2 (H _ _ _ _ Ey Ex Lji)) by congruence. reflexivity.
Qed.

Lemma filter_split A (p : A -> bool) l : length (filter p l) + length (filter (fun x => negb (p x)) l) = length l.
Proof. induction l as [|a l IH]; cbn; auto. destruct (p a); cbn; lia. Qed.

Lemma few_agree n (agrees : nat -> nat -> bool) good j : j < n -> good j = false -> agrees j j = false ->
  (forall i, i < n -> good i = true -> agrees j i = false) -> S (length (filter (agrees j) (seq 0 n))) <= length (filter (fun i => negb (good i)) (seq 0 n)).
Proof.
  intros Hj Gj Ij H.
  assert (ND : NoDup (j :: filter (agrees j) (seq 0 n))).
  { constructor; [|apply NoDup_filter, seq_NoDup]. rewrite filter_In. intros [_ E]. congruence. }
  change (S (length (filter (agrees j) (seq 0 n)))) with (length (j :: filter (agrees j) (seq 0 n))).
  apply (NoDup_incl_length ND). intros i [<-|Hi]; apply filter_In; [split; [apply in_seq; lia|rewrite Gj; auto]|].
  apply filter_In in Hi. destruct Hi as [Si Ai]. split; auto. apply in_seq in Si. destruct (good i) eqn:E; auto. rewrite H in Ai; auto; lia.
Qed.

Lemma majority_separate (M : list (bf O * (N -> key -> t_T O))) test good :
  (forall i j x y, nth_error M i = Some x -> nth_error M j = Some y -> i < j ->
     (good i = true -> good j = true -> test x y = Some true) /\
     (good i <> good j -> test x y = Some false)) ->
  most (length M) good -> separate_group (length M) (agreeb test M) good.
Proof.
  intros H HM. destruct (@majority _ M test good H HM) as [A B].
  assert (B' : forall i j, i < length M -> j < length M -> good i = true -> good j = false -> agreeb test M i j = false).
  { intros i j Hi Hj Gi Gj. unfold agreeb. destruct (nth_error M i) as [x|] eqn:Ex; [|auto]. destruct (nth_error M j) as [y|] eqn:Ey; [|auto].
    apply (B i j Hi Hj Gi Gj); auto. }
  split; [|split; [exact B'|]].
  - intros i j Hi Hj N Gi Gj. destruct (A i j Hi Hj N Gi Gj) as (x & y & Ex & Ey & E). unfold agreeb. rewrite Ex, Ey. exact E.
  - intros j Hj Gj. unfold most in HM. pose proof (filter_split good (seq 0 (length M))) as FS. rewrite seq_length in FS.
    assert (FA := @few_agree (length M) (agreeb test M) good j Hj Gj (agreeb_irr test M j)).
    assert (S (length (filter (agreeb test M j) (seq 0 (length M)))) <= length (filter (fun i => negb (good i)) (seq 0 (length M)))).
    { apply FA. intros i Hi Gi. rewrite agreeb_sym. apply B'; auto. }
    unfold members. lia.
Qed.

Lemma closures_separate (M : list (bf O * (N -> key -> t_T O))) good : comparable G X F M -> exact_goods G X M good -> off_others G X pp M good ->
  most (length M) good -> separate_group (length M) (agreeb (@lc_test O) M) good.
Proof.
  intros (HG & HD & HP) HE HO. apply majority_separate. intros i j x y Ex Ey Lij.
  pose proof (nth_error_In _ _ Ex) as Ix. pose proof (nth_error_In _ _ Ey) as Iy.
  destruct (HP i j x y (Nat.lt_le_incl _ _ Lij) Ex Ey) as (P1 & P2 & HN). destruct (HP j j y y (le_n _) Ey Ey) as (P3 & P4 & _).
  assert (T : lc_test x y = Some (small_error G pp (way (fst x) (fst y)) (round G (snd y) (fst x) (fst y)) (round_turns G (snd y) (fst x) (fst y)))).
  { apply way_test; auto; try apply HD; auto. intros k [<-|[<-|[<-|[<-|[]]]]]; auto. }
  destruct (HO _ _ _ _ Ex Ey Lij) as [O1 O2]. rewrite T. split.
  - intros Gi Gj. rewrite way_later by (apply (HE i); auto). rewrite off_none by (apply (HE j); auto).
    rewrite none_small; auto. split; [apply round_pos|exact HN].
  - intro N. destruct (good i) eqn:Gi, (good j) eqn:Gj; try congruence.
    + rewrite way_later by (apply (HE i); auto). exact (f_equal Some (O1 eq_refl eq_refl)).
    + rewrite way_earlier by (apply (HE j); auto). exact (f_equal Some (O2 eq_refl eq_refl)).
Qed.

Lemma sightings_separate (M : list (bf O * (N -> key -> t_T O))) good : comparable_lm G X F M -> exact_goods G X M good -> off_others_lm G X pp M good ->
  most (length M) good -> separate_group (length M) (agreeb (@lm_test O) M) good.
Proof.
  intros (HG & HD & HP) HE HO. apply majority_separate. intros i j x y Ex Ey Lij.
  pose proof (nth_error_In _ _ Ex) as Ix. pose proof (nth_error_In _ _ Ey) as Iy.
  destruct (HP i j x y (Nat.lt_le_incl _ _ Lij) Ex Ey) as (P1 & HN). destruct (HP j j y y (le_n _) Ey Ey) as (P3 & _).
  assert (T : lm_test x y = Some (small_error G pp (way_lm (fst x) (fst y)) (round_lm G (snd y) (fst x) (fst y)) (round_turns_lm G (snd y) (fst x) (fst y)))).
  { apply way_test_lm; auto; try apply HD; auto. intros k [<-|[<-|[]]]; auto. }
  destruct (HO _ _ _ _ Ex Ey Lij) as [O1 O2]. rewrite T. destruct (HD x y Ix Iy) as [_ HT]. split.
  - intros Gi Gj. rewrite way_later_lm by (auto; apply (HE i); auto). rewrite off_none by (apply (HE j); auto).
    rewrite none_small; auto. split; [apply round_lm_pos|exact HN].
  - intro N. destruct (good i) eqn:Gi, (good j) eqn:Gj; try congruence.
    + rewrite way_later_lm by (auto; apply (HE i); auto). exact (f_equal Some (O1 eq_refl eq_refl)).
    + rewrite way_earlier_lm by (auto; apply (HE j); auto). exact (f_equal Some (O2 eq_refl eq_refl)).
Qed.

Theorem outliers_out C (W : soracles O) h s rs id good :
  c_loop_check C = true -> run C W h (solver_init true) = Ok s rs -> records_sound C W h -> small C (length (sp_stored C W h)) ->
  (c_incremental C = true -> no_removal h) -> pair_ignored h id = false ->
  let M := live_items C W id h in
  comparable G X F M -> exact_goods G X M good -> off_others G X pp M good -> most (length M) good ->
  Permutation (graph_lcs C h id (s_nfg s)) (at_places M (members (length M) good)).
Proof. intros HL R RS SM NR IG M HC HE HO HM. apply (@pairs_group O C W h s rs id good HL R RS SM NR IG). apply closures_separate; auto. Qed.

Theorem wrong_sightings_out C (W : soracles O) h s rs l good : run C W h (solver_init true) = Ok s rs ->
  let M := recorded l (current C l (sp_sightings C W h)) in
  comparable_lm G X F M -> exact_goods G X M good -> off_others_lm G X pp M good -> most (length M) good ->
  graph_lms C h l (s_nfg s) = at_places M (members (length M) good).
Proof. intros R M HC HE HO HM. apply (@landmarks_group O C W h s rs l good R). apply sightings_separate; auto. Qed.
End Group.
