(** * C86: exactly the wrong measurements are left out *)
From Coq Require Import ZArith Bool List Lia Permutation.
From Verif Require Import Prelude Num Keys KMap UMap Geometry Factors Clique Pcm Params Solver PcmSpec HistSpec StoreSpec RemoveSpec ApartSpec IncSpec ExactSpec PcmProofs TrajProofs AlgProofs
  OutlierSpec LatticeSpec LatticeHist TrueSpec TrueAny WholeSpec WholeAny WrongSpec WrongProofs Grid Scenes PropApart PropExact PropTraj PropOutlier PropTrueCov.
Import TrueSpec.
Local Open Scope nat_scope.

(** [wrong] says which measurements are; the others are true.  With error-free odometry, wrong closures and
    sightings off by more than the thresholds, and true ones in the majority for each pair of robots and
    each landmark: what is missing from the graph is what is wrong. *)
Theorem C86_left_out : forall G, pose_group G -> g_log_tsq G (g_id G) = dzero -> g_log_rsq G (g_id G) = dzero ->
  forall X F pp C (W : soracles (node_ops G pp)) first wrong, dpositive (pp_dist_trans pp) -> dpositive (pp_dist_rot pp) ->
  forall h s rs, run C W h (solver_init true) = Ok s rs ->
  only_calls h -> mixed_history X F C W first wrong h -> c_loop_check C = true -> small C (length (sp_stored C W h)) ->
  Permutation (s_nfg s ++ map Some (map FBetween (filter wrong (non_odometry C h)))) (map Some (given h)).
Proof. intros G PG Lt Lr X F pp C W first wrong Pt Pr h s rs R. exact (@wrong_left_out G PG Lt Lr X F pp C W first wrong Pt Pr h s rs R). Qed.
Print Assumptions C86_left_out.

(** Each pair of robots and each landmark by itself, whatever else the history has. *)
Theorem C86_closures : forall G, pose_group G -> g_log_tsq G (g_id G) = dzero -> g_log_rsq G (g_id G) = dzero ->
  forall X F pp C (W : soracles (node_ops G pp)) first wrong, dpositive (pp_dist_trans pp) -> dpositive (pp_dist_rot pp) ->
  forall h s rs, run C W h (solver_init true) = Ok s rs ->
  forall id, drives_straight X F C W first (fst id) h -> drives_straight X F C W first (snd id) h -> mixed_closures X C first wrong id h ->
  (c_odom_check C = true -> fst id = snd id -> dpositive (pp_odom_trans pp) /\ dpositive (pp_odom_rot pp)) ->
  c_loop_check C = true -> no_removal h -> small C (length (sp_stored C W h)) -> pair_ignored h id = false ->
  Permutation (graph_lcs C h id (s_nfg s)) (filter (fun b => negb (wrong b)) (closures_in C id h)).
Proof. intros G PG Lt Lr X F pp C W first wrong Pt Pr h s rs R. exact (@closures_mixed G PG Lt Lr X F pp C W first wrong Pt Pr h s rs R). Qed.
Print Assumptions C86_closures.
Theorem C86_sightings : forall G, pose_group G -> g_log_tsq G (g_id G) = dzero -> g_log_rsq G (g_id G) = dzero ->
  forall X F pp C (W : soracles (node_ops G pp)) first wrong, dpositive (pp_dist_trans pp) -> dpositive (pp_dist_rot pp) ->
  forall h s rs, run C W h (solver_init true) = Ok s rs ->
  forall c l, drives_straight X F C W first c h -> mixed_sightings X C first wrong c l h ->
  let seen := map fst (current C l (sp_sightings C W h)) in
  mostly (fun b => negb (wrong b)) seen -> graph_lms C h l (s_nfg s) = filter (fun b => negb (wrong b)) seen.
Proof. intros G PG Lt Lr X F pp C W first wrong Pt Pr h s rs R. exact (@sightings_mixed G PG Lt Lr X F pp C W first wrong Pt Pr h s rs R). Qed.
Print Assumptions C86_sightings.

(** ** Example *)
(** Robot [a] drives a corner, robot [b] has its own frame.  Two of five closures between them are wrong,
    the first one among these, as is the first sighting of the landmark. *)
Definition Xw (k : key) : gpose :=
  if (k =? ka 0)%N then GP 0 0 R0 else if (k =? ka 1)%N then GP 10 0 R0 else if (k =? ka 2)%N then GP 20 0 R1 else
  if (k =? kb 0)%N then GP 20 50 R1 else if (k =? kb 1)%N then GP 20 60 R2 else GP 15 15 R0.
Definition Fw (c : N) : gpose := if (c =? 97)%N then gp_id else GP 100 3 R1.
Definition firstw (c : N) : key := if (c =? 97)%N then ka 0 else kb 0.
Definition truly (i j : key) : option (factor O1) := bet i j (gp_comp (gp_inv (Xw i)) (Xw j)).
Definition falsely (i j : key) (e : gpose) : option (factor O1) := bet i j (gp_comp (gp_comp (gp_inv (Xw i)) (Xw j)) e).
Definition valw (k : key) : key * value O1 := val k (gp_comp (Fw (chr k)) (Xw k)).
Definition startw : op O1 := OpUpdate [truly (ka 0) (ka 1)] [valw (ka 0); valw (ka 1)] true.
Definition movew : op O1 := OpUpdate [truly (ka 1) (ka 2)] [valw (ka 2)] true.
Definition startwb : op O1 := OpUpdate [truly (kb 0) (kb 1)] [valw (kb 0); valw (kb 1)] true.
Definition seew : op O1 := OpUpdate [falsely (ka 0) (kl 0) (GP 90 0 R0)] [valw (kl 0)] true.
Definition afterwb : list (op O1) :=
  [OpUpdate [falsely (ka 0) (kb 0) (GP 900 (-40) R2)] [] true; seew; OpUpdate [truly (ka 0) (ka 2)] [] true;
   OpUpdate [truly (ka 0) (kb 0); truly (ka 1) (kl 0); truly (ka 2) (kb 1)] [] true;
   OpForce [falsely (ka 1) (kb 1) (GP 0 77 R0); truly (ka 1) (kb 0)] []; OpUpdate [truly (ka 2) (kl 0)] [] true].
Definition worldw : list (op O1) := startw :: movew :: startwb :: afterwb.
Definition exactwb (b : bf O1) : bool := gpose_eqb (b_meas b) (true_step grid Xw b).
Definition wrongw (b : bf O1) : bool := negb (exactwb b).
Definition gaussw (b : bf O1) : bool := gaussb b && turns grid b.

Lemma worldw_all : forallb (fun o => forallb gaussw (all_betweens o)) worldw = true.
Proof. vm_compute. reflexivity. Qed.
Lemma worldw_gauss o b : In o worldw -> In b (all_betweens o) -> gaussian grid b /\ turns grid b = true.
Proof.
  intros Ho Hb. pose proof (proj1 (forallb_forall _ _) worldw_all o Ho) as H. pose proof (proj1 (forallb_forall _ _) H b Hb) as Q. unfold gaussw in Q.
  apply andb_true_iff in Q. destruct Q as [Q1 Q2]. split; [apply gaussb_ok; exact Q1|exact Q2].
Qed.
Lemma right_exact b : wrongw b = false -> b_meas b = true_step grid Xw b.
Proof. intro H. apply negb_false_iff in H. apply gpose_eqb_ok. exact H. Qed.
Definition drivewb (c : N) : bool :=
  (chr (firstw c) =? c)%N && rowb (O := O1) (firstw c) (robot_odoms C1 c worldw) && forallb exactwb (robot_odoms C1 c worldw) && (length (robot_odoms C1 c worldw) <=? 100).
Lemma drivesw c : starts (exact_lat grid) Xw Fw C1 W1 firstw c worldw -> drivewb c = true -> drives_straight (G := grid) Xw Fw C1 W1 firstw c worldw.
Proof.
  intros ST H. unfold drivewb in H. apply andb_true_iff in H. destruct H as [H H4]. apply andb_true_iff in H. destruct H as [H H3]. apply andb_true_iff in H. destruct H as [H1 H2].
  apply Nat.leb_le in H4. split.
  - split; [exact ST|]. split; [apply N.eqb_eq; exact H1|]. split; [apply rowb_ok; exact H2|]. split; [|split].
    + apply Forall_forall. intros b Hb. pose proof (proj1 (forallb_forall _ _) H3 b Hb) as Q. apply gpose_eqb_ok in Q. exists (b_meas b).
      split; [reflexivity|]. split; [exact Logic.I|]. split; [exact Logic.I|]. refine (eq_trans (f_equal (gp_comp (Xw (b_from b))) Q) _). exact (pg_cancel_l' grid_group (Xw (b_from b)) (Xw (b_to b))).
    + change (Z.of_nat (length (robot_odoms (O := O1) C1 c worldw)) < 2 ^ 50)%Z. revert H4. generalize (length (robot_odoms (O := O1) C1 c worldw)). clear. intros n Hn. apply Z.le_lt_trans with 100%Z; [lia|reflexivity].
    + intros. exact Logic.I.
  - apply Forall_forall. intros b Hb. destruct (@odoms_betweens O1 C1 c worldw b Hb) as (o & Ho & Hb'). exact (proj2 (@worldw_gauss o b Ho Hb')).
Qed.
Lemma startsw c h1 o h2 fs vs : worldw = h1 ++ o :: h2 -> runsb C1 W1 h1 = true -> call_of o = Some (fs, vs) -> unnamedb c h1 = true ->
  (1 <=? length (robot_odoms C1 c [o])) = true -> knows (h1 ++ [o]) (firstw c) = true ->
  kfind (firstw c) vs = Some (@VPose O1 (gp_comp (Fw c) (Xw (firstw c)))) -> starts (exact_lat grid) Xw Fw C1 W1 firstw c worldw.
Proof.
  intros E R E2 U Od K V. unfold runsb in R. destruct (run C1 W1 h1 (solver_init true)) as [s1 rs1| |] eqn:ER; try discriminate R.
  exists h1, o, h2, s1, rs1, fs, vs, (gp_comp (Fw c) (Xw (firstw c))). split; [exact E|]. split; [exact ER|]. split; [exact E2|]. split; [apply unnamedb_ok; exact U|].
  split; [intro Z0; pose proof (f_equal (@length _) Z0 : length (robot_odoms (O := O1) C1 c [o]) = 0) as Z1; rewrite Z1 in Od; discriminate Od|]. split; [exact K|]. split; [right; exact V|reflexivity].
Qed.
Lemma worldw_a : drives_straight (G := grid) Xw Fw C1 W1 firstw 97%N worldw.
Proof.
  apply drivesw; [|vm_compute; reflexivity]. eapply (@startsw 97%N [] startw (tl worldw) _ _ eq_refl); [vm_compute; reflexivity|reflexivity|vm_compute; reflexivity|vm_compute; reflexivity|vm_compute; reflexivity|reflexivity].
Qed.
Lemma worldw_b : drives_straight (G := grid) Xw Fw C1 W1 firstw 98%N worldw.
Proof.
  apply drivesw; [|vm_compute; reflexivity]. eapply (@startsw 98%N [startw; movew] startwb afterwb _ _ eq_refl); [vm_compute; reflexivity|reflexivity|vm_compute; reflexivity|vm_compute; reflexivity|vm_compute; reflexivity|reflexivity].
Qed.
Definition largeb (e : gpose) (n : Z) (f1 f2 : bf O1) : bool := negb (small_error grid pp1 e n (turns grid f1 && turns grid f2)).
Lemma largeb_ok e n f1 f2 : largeb e n f1 f2 = true -> large (G := grid) (pp := pp1) e n f1 f2.
Proof. intro H. apply negb_true_iff in H. exact H. Qed.
Definition closedwb (id : obsid) (h : list (op O1)) : bool :=
  stepsb (O := O1) (fun h1 o => forallb (fun b => negb (closure C1 id b) || wasb C1 firstw (fst id) (h1 ++ [o]) (b_from b) && wasb C1 firstw (snd id) (h1 ++ [o]) (b_to b)) (candidates C1 o)) [] h &&
  forallb (fun f1 => forallb (fun f2 => wrongw f1 || negb (wrongw f2) || largeb (off grid Xw f2) (way_around (G := grid) (pp := pp1) f1 f2) f1 f2 && largeb (off_from grid Xw (b_to f1) f2) (way_around (G := grid) (pp := pp1) f1 f2) f1 f2)
    (closures_in C1 id h)) (closures_in C1 id h) &&
  (length (closures_in C1 id h) <? 2 * length (filter (fun b => negb (wrongw b)) (closures_in C1 id h))).
Lemma closuresw id (h : list (op O1)) (HG : forall o b, In o h -> In b (all_betweens o) -> gaussian grid b /\ turns grid b = true) : closedwb id h = true -> mixed_closures (G := grid) (pp := pp1) Xw C1 firstw wrongw id h.
Proof.
  intro H. unfold closedwb in H. apply andb_true_iff in H. destruct H as [H H3]. apply andb_true_iff in H. destruct H as [H H2]. split; [|split].
  - intros h1 o h2 b E Hb K. pose proof (@stepsb_ok O1 _ _ _ H h1 o h2 E) as Q. cbv beta in Q. rewrite forallb_forall in Q. specialize (Q b Hb). pose proof (f_equal negb K : negb (closure (O := O1) C1 id b) = false) as KK. rewrite KK in Q. cbn [orb app] in Q.
    apply andb_true_iff in Q. destruct Q as [Q1 Q2].
    assert (Ho : In o h) by (rewrite E; apply in_or_app; right; left; reflexivity).
    split; [exact (proj1 (HG o b Ho (@candidates_betweens O1 C1 o b Hb)))|]. split; [apply right_exact|]. split; apply wasb_ok; assumption.
  - intros f1 f2 I1 I2 W1' W2'. pose proof (proj1 (forallb_forall _ _) H2 f1 I1) as Q. cbv beta in Q. pose proof (proj1 (forallb_forall _ _) Q f2 I2) as Q'. cbv beta in Q'. rewrite W1', W2' in Q'. cbn [negb orb] in Q'.
    apply andb_true_iff in Q'. destruct Q' as [Q1 Q2]. clear - Q1 Q2. exact (conj (@largeb_ok _ _ _ _ Q1) (@largeb_ok _ _ _ _ Q2)).
  - apply Nat.ltb_lt in H3. exact H3.
Qed.
Definition seenwb (c : N) (l : key) (h : list (op O1)) : bool :=
  stepsb (O := O1) (fun h1 o => forallb (fun b => negb (sees C1 l b) || (b_to b =? l)%N && wasb C1 firstw c (h1 ++ [o]) (b_from b)) (all_betweens o)) [] h &&
  forallb (fun f1 => forallb (fun f2 => wrongw f1 || negb (wrongw f2) || largeb (off grid Xw f2) (way_around_lm (G := grid) (pp := pp1) f1 f2) f1 f2 && largeb (gp_inv (off grid Xw f2)) (way_around_lm (G := grid) (pp := pp1) f1 f2) f1 f2)
    (sightings_in (G := grid) (pp := pp1) C1 l h)) (sightings_in (G := grid) (pp := pp1) C1 l h).
Lemma sightingsw c l (h : list (op O1)) (HG : forall o b, In o h -> In b (all_betweens o) -> gaussian grid b /\ turns grid b = true) : seenwb c l h = true -> mixed_sightings (G := grid) (pp := pp1) Xw C1 firstw wrongw c l h.
Proof.
  intro H. unfold seenwb in H. apply andb_true_iff in H. destruct H as [H H2]. split.
  - intros h1 o h2 b E Hb K. pose proof (@stepsb_ok O1 _ _ _ H h1 o h2 E) as Q. cbv beta in Q. rewrite forallb_forall in Q. specialize (Q b Hb). pose proof (f_equal negb K : negb (sees (O := O1) C1 l b) = false) as KK. rewrite KK in Q. cbn [orb app] in Q.
    apply andb_true_iff in Q. destruct Q as [Q1 Q2].
    assert (Ho : In o h) by (rewrite E; apply in_or_app; right; left; reflexivity).
    split; [exact (proj1 (HG o b Ho Hb))|]. split; [apply right_exact|]. split; [apply N.eqb_eq; exact Q1|apply wasb_ok; exact Q2].
  - intros f1 f2 I1 I2 W1' W2'. pose proof (proj1 (forallb_forall _ _) H2 f1 I1) as Q. cbv beta in Q. pose proof (proj1 (forallb_forall _ _) Q f2 I2) as Q'. cbv beta in Q'. rewrite W1', W2' in Q'. cbn [negb orb] in Q'.
    apply andb_true_iff in Q'. destruct Q' as [Q1 Q2]. clear - Q1 Q2. exact (conj (@largeb_ok _ _ _ _ Q1) (@largeb_ok _ _ _ _ Q2)).
Qed.
Definition kindwb (b : bf O1) : bool :=
  negb (b_from b =? b_to b)%N && (if sp_lmk C1 b then (sp_landmark_key [108%N] b =? kl 0)%N else of_pair (97, 98)%N b || of_pair (97, 97)%N b).
Lemma kindsw : forallb kindwb (non_odometry C1 worldw) = true.
Proof. vm_compute. reflexivity. Qed.
Lemma introducedw : introduced C1 (kl 0) worldw.
Proof.
  exists [startw; movew; startwb; hd startw afterwb], seew, (tl (tl afterwb)). eexists.
  split; [reflexivity|]. split; [intros o Ho; repeat (destruct Ho as [<-|Ho]; [reflexivity|]); destruct Ho|]. split; [reflexivity|]. split; [vm_compute; reflexivity|].
  intros o Ho. repeat (destruct Ho as [<-|Ho]; [reflexivity|]). destruct Ho.
Qed.
Example C86_meets : g_log_tsq grid (g_id grid) = dzero /\ g_log_rsq grid (g_id grid) = dzero /\ pose_group grid /\ only_calls worldw /\
  mixed_history (G := grid) (pp := pp1) Xw Fw C1 W1 firstw wrongw worldw /\ dpositive (pp_dist_trans pp1) /\ dpositive (pp_dist_rot pp1) /\
  c_loop_check C1 = true /\ small C1 (length (sp_stored C1 W1 worldw)) /\ length (filter wrongw (non_odometry C1 worldw)) = 3.
Proof.
  split; [reflexivity|]. split; [reflexivity|]. split; [exact grid_group|].
  split; [intros o Ho; repeat (destruct Ho as [<-|Ho]; [discriminate|]); destruct Ho|].
  split; [|split; [vm_compute; reflexivity|split; [vm_compute; reflexivity|split; [reflexivity|split; [intros _; vm_compute; reflexivity|vm_compute; reflexivity]]]]].
  intros b Hb. pose proof (proj1 (forallb_forall _ _) kindsw b Hb) as K. unfold kindwb in K. apply andb_true_iff in K. destruct K as [K1 K2].
  split; [apply N.eqb_neq, negb_true_iff; exact K1|]. split; intro E.
  - assert (E' : sp_lmk (O := O1) C1 b = false) by exact E. rewrite E' in K2. apply orb_true_iff in K2. destruct K2 as [K2|K2]; [exists (97, 98)%N|exists (97, 97)%N]; (split; [exact K2|]); (split; [exact worldw_a|]).
    + split; [exact worldw_b|]. split; [apply (@closuresw _ worldw worldw_gauss); vm_compute; reflexivity|]. intros _ _. split; vm_compute; reflexivity.
    + split; [exact worldw_a|]. split; [apply (@closuresw _ worldw worldw_gauss); vm_compute; reflexivity|]. intros _ _. split; vm_compute; reflexivity.
  - cbv zeta. assert (E' : sp_lmk (O := O1) C1 b = true) by exact E. rewrite E' in K2. apply N.eqb_eq in K2.
    assert (K3 : sp_landmark_key (O := node_ops grid pp1) (c_special C1) b = kl 0) by exact K2. rewrite K3. split; [exact introducedw|]. exists 97%N. split; [exact worldw_a|].
    split; [apply (@sightingsw _ _ worldw worldw_gauss); vm_compute; reflexivity|]. apply Nat.ltb_lt. vm_compute. reflexivity.
Qed.

(** The same run: all true closures and sightings, in either mode. *)
Example C86_example : after C1 worldw (fun s => keys_of (s_nfg s)) = Some
    [[ka 0; ka 1]; [ka 1; ka 2]; [kb 0; kb 1]; [ka 0; kb 0]; [ka 2; kb 1]; [ka 1; kb 0]; [ka 0; ka 2]; [ka 1; kl 0]; [ka 2; kl 0]] /\
  after C1_inc worldw (fun s => keys_of (s_nfg s)) = Some
    [[ka 0; ka 1]; [ka 1; ka 2]; [kb 0; kb 1]; [ka 1; kb 0]; [ka 0; kb 0]; [ka 2; kb 1]; [ka 0; ka 2]; [ka 1; kl 0]; [ka 2; kl 0]].
Proof. split; vm_compute; reflexivity. Qed.
