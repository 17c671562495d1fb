(** * Property C88: any number of wrong measurements is left out if they do not agree with each other *)
From Coq Require Import ZArith Bool List Lia Permutation SpecFloat.
From Verif Require Import Prelude Num Keys KMap UMap Geometry Factors Clique Pcm Params Solver Lie Floats PcmSpec HistSpec StoreSpec RemoveSpec ApartSpec IncSpec
  PcmProofs PcmInv PcmStore TrajProofs AlgProofs UpdateProofs Grid Scenes OutlierSpec LatticeSpec LatticeProofs LatticeHist PropLattice PlainProofs TrueSpec TrueAny TrueProofs PropTrue WholeSpec WholeAny PropWhole
  WrongSpec WrongAny GridWrongSpec ManySpec ManyProofs GridWrongProofs PropGridWrong.
Set Implicit Arguments.
Local Open Scope nat_scope.

(** There may be more wrong measurements than true ones: each wrong one has fewer others that it may agree
    with, itself counted, than there are true ones. *)
Theorem C88_left_out : forall G (L : lattice G), unrounded_poses L -> forall X F, rigid_world L X F ->
  forall pp C (W : soracles (node_ops G pp)) first reads wrong friends, (forall b, friends b b = true) -> dpositive (pp_dist_trans pp) -> dpositive (pp_dist_rot pp) ->
  forall h s rs, run C W h (solver_init true) = Ok s rs ->
  only_calls h -> many_history L X F C W first reads wrong friends h -> c_loop_check C = true -> small C (length (sp_stored C W h)) ->
  Permutation (s_nfg s ++ map Some (map FBetween (filter wrong (non_odometry C h)))) (map Some (given h)).
Proof. intros G L U X F RW pp C W first reads wrong friends FR Pt Pr h s rs R. destruct (unrounded_laws U) as [LW]. exact (@many_left_out G L LW X F RW pp C W first reads wrong friends FR Pt Pr h s rs R). Qed.
Print Assumptions C88_left_out.
Theorem C88_as_never_given : forall G (L : lattice G), unrounded_poses L -> forall X F, rigid_world L X F ->
  forall pp C (W : soracles (node_ops G pp)) first reads wrong friends, (forall b, friends b b = true) -> dpositive (pp_dist_trans pp) -> dpositive (pp_dist_rot pp) ->
  forall h s rs, run C W h (solver_init true) = Ok s rs ->
  only_calls h -> many_history L X F C W first reads wrong friends h -> c_loop_check C = true -> small C (length (sp_stored C W h)) ->
  forall C' (W' : soracles (node_ops G pp)) s' rs', run C' W' (map (corrected C wrong) h) (solver_init false) = Ok s' rs' ->
  (forall o fs vs, In o h -> call_of o = Some (fs, vs) -> ~ In None fs) -> Permutation (s_nfg s) (s_nfg s').
Proof.
  intros G L U X F RW pp C W first reads wrong friends FR Pt Pr h s rs R OC TH HL SM C' W' s' rs' R' NN.
  rewrite (@c35_graph (node_ops G pp) C' W' _ s' rs' R'), <- (@given_all (node_ops G pp) (map (corrected C wrong) h));
    [|apply corrected_not_null; exact NN|apply calls_add, corrected_only; exact OC].
  pose proof (@C88_left_out G L U X F RW pp C W first reads wrong friends FR Pt Pr h s rs R OC TH HL SM) as Q.
  pose proof (Permutation_map Some (given_corrected C wrong h)) as K. rewrite map_app in K.
  exact (Permutation_app_inv_r _ _ _ (perm_trans Q (Permutation_sym K))).
Qed.
Print Assumptions C88_as_never_given.

(** Each pair of robots and each landmark by itself. *)
Theorem C88_closures : forall G (L : lattice G), unrounded_poses L -> forall X F, rigid_world L X F ->
  forall pp C (W : soracles (node_ops G pp)) first reads wrong friends, (forall b, friends b b = true) -> dpositive (pp_dist_trans pp) -> dpositive (pp_dist_rot pp) ->
  forall h s rs, run C W h (solver_init true) = Ok s rs ->
  forall id, drives_known L X F C W first (fst id) h -> drives_known L X F C W first (snd id) h -> many_closures L X C first reads wrong friends id h ->
  (c_odom_check C = true -> fst id = snd id -> dpositive (pp_odom_trans pp) /\ dpositive (pp_odom_rot pp)) ->
  c_loop_check C = true -> no_removal h -> small C (length (sp_stored C W h)) -> pair_ignored h id = false ->
  Permutation (graph_lcs C h id (s_nfg s)) (filter (fun b => negb (wrong b)) (closures_in C id h)).
Proof. intros G L U X F RW pp C W first reads wrong friends FR Pt Pr h s rs R. destruct (unrounded_laws U) as [LW]. exact (@closures_many G L LW X F RW pp C W first reads wrong friends FR Pt Pr h s rs R). Qed.
Print Assumptions C88_closures.
Theorem C88_sightings : forall G (L : lattice G), unrounded_poses L -> forall X F, rigid_world L X F ->
  forall pp C (W : soracles (node_ops G pp)) first reads wrong friends, (forall b, friends b b = true) -> dpositive (pp_dist_trans pp) -> dpositive (pp_dist_rot pp) ->
  forall h s rs, run C W h (solver_init true) = Ok s rs ->
  forall c l, drives_known L X F C W first c h -> many_sightings L X C first reads wrong friends c l h ->
  let seen := map fst (current C l (sp_sightings C W h)) in
  outnumbered (fun b => negb (wrong b)) friends seen -> graph_lms C h l (s_nfg s) = filter (fun b => negb (wrong b)) seen.
Proof. intros G L U X F RW pp C W first reads wrong friends FR Pt Pr h s rs R. destruct (unrounded_laws U) as [LW]. exact (@sightings_many G L LW X F RW pp C W first reads wrong friends FR Pt Pr h s rs R). Qed.
Print Assumptions C88_sightings.

(** ** Example *)
(** The world of C83: three true closures between the robots among five wrong ones, of which two agree
    with each other; two true sightings among three wrong ones. The last update brings several at once: were they
    counted before another optimisation, the weights would be too short (C31). *)
Definition see2 : op Of := OpUpdate [fwrong (ka 1) (kl 0) (zpose 1 0 0 1)] [fval (kl 0)] true.
Definition wlc (f t : key) (e : se2 zs) : op Of := OpUpdate [fwrong f t e] [] true.
Definition after_bm : list (op Of) :=
  [see2; flc (ka 2) (kl 0); wlc (ka 0) (kl 0) (zpose 1 0 5 5); wlc (ka 0) (kb 1) (zpose 1 0 1 0); wlc (ka 1) (kb 0) (zpose 1 0 (-3) 0);
   fodo 3; flc (ka 0) (kb 0); OpForce [fwrong (ka 1) (kb 2) (zpose 0 1 0 0); fbet (ka 2) (kb 2)] []; flc (ka 0) (ka 4); flc (ka 3) (kl 0);
   OpUpdate [fwrong (ka 4) (kl 0) (zpose 0 (-1) 2 0); fwrong (ka 0) (kb 1) (zpose 1 0 1 0); fbet (ka 3) (kb 1); fwrong (ka 2) (kb 0) (zpose (-1) 0 0 7)] [] true].
Definition after_am : list (op Of) := [fodo 1; fodo 2; start_b] ++ after_bm.
Definition worldm : list (op Of) := start_a :: after_am.
Definition friendsm (b b' : bf Of) : bool := (b_from b =? b_from b')%N && (b_to b =? b_to b')%N.
Lemma friendsm_refl b : friendsm b b = true.
Proof. unfold friendsm. rewrite !N.eqb_refl. reflexivity. Qed.

Definition clashb (f1 f2 : bf Of) : bool :=
  let z := se2_comp (se2_inv (Xf (b_to f1))) (Xf (b_to f2)) in let y := se2_comp (landsw f1) z in
  stepb (Xf (b_to f1)) (Xf (b_to f2)) && stepb (landsw f2) y && largew (se2_comp (se2_inv (landsw f2)) y) (way_around (G := fgeom2) (pp := pf) f1 f2) f1 f2.
Lemma clashb_ok f1 f2 : clashb f1 f2 = true -> clash (pp := pf) (lat2 2) Xf readsw f1 f2.
Proof.
  unfold clashb. cbv zeta. intro H. apply andb_true_iff in H. destruct H as [H H3]. apply andb_true_iff in H. destruct H as [H1 H2].
  intros e z EZ EE. rewrite (@stepb_ok _ _ z H1 EZ) in EE. rewrite (@stepb_ok _ _ e H2 EE). apply largew_ok. exact H3.
Qed.
Definition clashb_lm (f1 f2 : bf Of) : bool :=
  stepb (landsw f2) (landsw f1) && largew (se2_comp (se2_inv (landsw f2)) (landsw f1)) (way_around_lm (G := fgeom2) (pp := pf) f1 f2) f1 f2.
Lemma clashb_lm_ok f1 f2 : clashb_lm f1 f2 = true -> clash_lm (pp := pf) (lat2 2) Xf readsw f1 f2.
Proof.
  unfold clashb_lm. intro H. apply andb_true_iff in H. destruct H as [H1 H2]. intros e EE. rewrite (@stepb_ok _ _ e H1 EE). apply largew_ok. exact H2.
Qed.
Definition all_clashb (cb : bf Of -> bf Of -> bool) (l : list (bf Of)) : bool :=
  forallb (fun f1 => forallb (fun f2 => negb (wrongw3 f2) || wrongw3 f1 && friendsm f1 f2 || cb f1 f2 && cb f2 f1) l) l.
Lemma all_clashb_ok cb (cl : bf Of -> bf Of -> Prop) l : (forall f1 f2, cb f1 f2 = true -> cl f1 f2) -> all_clashb cb l = true -> all_clash (pp := pf) wrongw3 friendsm cl l.
Proof.
  intros HC H f1 f2 I1 I2 W2 K. pose proof (proj1 (forallb_forall _ _) H f1 I1) as Q. cbv beta in Q. pose proof (proj1 (forallb_forall _ _) Q f2 I2) as Q'. cbv beta in Q'.
  assert (E : wrongw3 f1 && friendsm f1 f2 = false) by (destruct K as [K|K]; rewrite K; [reflexivity|apply andb_false_r]). rewrite W2, E in Q'. cbn [negb orb] in Q'. clear - HC Q'.
  apply andb_true_iff in Q'. destruct Q' as [Q1 Q2]. split; apply HC; assumption.
Qed.
Definition outnumberedb (l : list (bf Of)) : bool :=
  forallb (fun a => negb (wrongw3 a) || (length (filter (fun b => negb (negb (wrongw3 b)) && friendsm a b) l) <? length (filter (fun b => negb (wrongw3 b)) l))) l.
Lemma outnumberedb_ok l : outnumberedb l = true -> outnumbered (fun b => negb (wrongw3 b)) friendsm l.
Proof.
  intros H a Ia Wa. pose proof (proj1 (forallb_forall _ _) H a Ia) as Q. cbv beta in Q. rewrite Wa in Q. cbn [orb] in Q. apply Nat.ltb_lt. exact Q.
Qed.
Definition closedm (id : obsid) (h : list (op Of)) : bool :=
  splits (fun h1 o => forallb (fun b : bf Of => negb (closure C1 id b) || readb b && beenb (fst id) (h1 ++ [o]) (b_from b) && beenb (snd id) (h1 ++ [o]) (b_to b))
    (candidates C1 o)) [] h && all_clashb clashb (closures_in C1 id h) && outnumberedb (closures_in C1 id h).
Lemma closedm_ok id h : closedm id h = true -> many_closures (pp := pf) (lat2 2) Xf C1 first2 readsw wrongw3 friendsm id h.
Proof.
  intro H. unfold closedm in H. apply andb_true_iff in H. destruct H as [H H3]. apply andb_true_iff in H. destruct H as [H H2]. split; [|split].
  - intros h1 o h2 b E Hb K. pose proof (@splits_ok _ _ _ H h1 o h2 E) as Q. cbv beta in Q. rewrite forallb_forall in Q. specialize (Q b Hb). pose proof (f_equal negb K : negb (closure (O := Of) C1 id b) = false) as KK. rewrite KK in Q. cbn [orb app] in Q.
    apply andb_true_iff in Q. destruct Q as [Q Q3]. apply andb_true_iff in Q. destruct Q as [Q1 Q2]. split; [apply readb_ok; exact Q1|]. split; apply beenb_ok; [exact Q2|exact Q3].
  - exact (@all_clashb_ok clashb _ _ clashb_ok H2).
  - apply outnumberedb_ok. exact H3.
Qed.
Definition seenm (c : N) (l : key) (h : list (op Of)) : bool :=
  splits (fun h1 o => forallb (fun b : bf Of => negb (sees C1 l b) || readb b && (b_to b =? l)%N && beenb c (h1 ++ [o]) (b_from b)) (all_betweens o)) [] h &&
  all_clashb clashb_lm (sightings_in (G := fgeom2) (pp := pf) C1 l h).
Lemma seenm_ok c l h : seenm c l h = true -> many_sightings (pp := pf) (lat2 2) Xf C1 first2 readsw wrongw3 friendsm c l h.
Proof.
  intro H. unfold seenm in H. apply andb_true_iff in H. destruct H as [H H2]. split; [|exact (@all_clashb_ok clashb_lm _ _ clashb_lm_ok H2)].
  intros h1 o h2 b E Hb K. pose proof (@splits_ok _ _ _ H h1 o h2 E) as Q. cbv beta in Q. rewrite forallb_forall in Q. specialize (Q b Hb). pose proof (f_equal negb K : negb (sees (O := Of) C1 l b) = false) as KK. rewrite KK in Q. cbn [orb app] in Q.
  apply andb_true_iff in Q. destruct Q as [Q Q3]. apply andb_true_iff in Q. destruct Q as [Q1 Q2]. split; [apply readb_ok; exact Q1|]. split; [apply N.eqb_eq; exact Q2|apply beenb_ok; exact Q3].
Qed.
Lemma worldm_a : drives_known (lat2 2) Xf Ff C1 Wf first2 97%N worldm.
Proof.
  apply knownw; [|vm_compute; reflexivity]. apply drivesb_ok; [|vm_compute; reflexivity].
  eapply (@starts_same 97%N [] start_a after_am) with (x0 := shown (Xf (ka 0))); [vm_compute; reflexivity|reflexivity|vm_compute; reflexivity|vm_compute; reflexivity|vm_compute; reflexivity|reflexivity|apply showsb_ok; vm_compute; reflexivity].
Qed.
Lemma worldm_b : drives_known (lat2 2) Xf Ff C1 Wf first2 98%N worldm.
Proof.
  apply knownw; [|vm_compute; reflexivity]. apply drivesb_ok; [|vm_compute; reflexivity].
  eapply (@starts_same 98%N before_b start_b after_bm) with (x0 := shown (Xf (kb 0))); [vm_compute; reflexivity|reflexivity|vm_compute; reflexivity|vm_compute; reflexivity|vm_compute; reflexivity|reflexivity|apply showsb_ok; vm_compute; reflexivity].
Qed.
Lemma kinds_m : forallb kindsb (non_odometry C1 worldm) = true.
Proof. vm_compute. reflexivity. Qed.
Lemma introduced_m : introduced C1 (kl 0) worldm.
Proof.
  exists (before_b ++ [start_b]), see2, (tl after_bm). eexists.
  split; [reflexivity|]. split; [intros o Ho; repeat (destruct Ho as [<-|Ho]; [reflexivity|]); destruct Ho|]. split; [reflexivity|]. split; [vm_compute; reflexivity|].
  intros o Ho. repeat (destruct Ho as [<-|Ho]; [reflexivity|]). destruct Ho.
Qed.
Example C88_meets : unrounded_poses (lat2 2) /\ rigid_world (lat2 2) Xf Ff /\ (forall b, friendsm b b = true) /\ dpositive (pp_dist_trans pf) /\ dpositive (pp_dist_rot pf) /\ only_calls worldm /\
  many_history (pp := pf) (lat2 2) Xf Ff C1 Wf first2 readsw wrongw3 friendsm worldm /\ c_loop_check C1 = true /\ small C1 (length (sp_stored C1 Wf worldm)) /\
  map (fun b => (b_from b, b_to b)) (filter wrongw3 (non_odometry C1 worldm)) =
    [(ka 1, kl 0); (ka 0, kl 0); (ka 0, kb 1); (ka 1, kb 0); (ka 1, kb 2); (ka 4, kl 0); (ka 0, kb 1); (ka 2, kb 0)].
Proof.
  destruct C82_meets as (M1 & M2 & _). split; [exact (UR_grid M1)|]. split; [exact M2|]. split; [exact friendsm_refl|]. split; [reflexivity|]. split; [reflexivity|].
  split; [intros o Ho; repeat (destruct Ho as [<-|Ho]; [discriminate|]); destruct Ho|].
  split; [|split; [reflexivity|split; [intros _; vm_compute; reflexivity|vm_compute; reflexivity]]].
  intros b Hb. pose proof (proj1 (forallb_forall _ _) kinds_m b Hb) as K. unfold kindsb in K. apply andb_true_iff in K. destruct K as [K1 K2].
  split; [apply N.eqb_neq, negb_true_iff; exact K1|]. split; intro E.
  - assert (E' : sp_lmk (O := Of) C1 b = false) by exact E. rewrite E' in K2. apply orb_true_iff in K2. destruct K2 as [K2|K2]; [exists (97, 98)%N|exists (97, 97)%N]; (split; [exact K2|]).
    + split; [exact worldm_a|]. split; [exact worldm_b|]. split; [apply closedm_ok; vm_compute; reflexivity|intros _ Q; discriminate Q].
    + split; [exact worldm_a|]. split; [exact worldm_a|]. split; [apply closedm_ok; vm_compute; reflexivity|intros _ _; split; reflexivity].
  - assert (E' : sp_lmk (O := Of) C1 b = true) by exact E. rewrite E' in K2. apply N.eqb_eq in K2. cbv zeta. assert (K3 : sp_landmark_key (c_special C1) b = kl 0) by exact K2. rewrite K3. split; [exact introduced_m|].
    exists 97%N. split; [exact worldm_a|]. split; [apply seenm_ok; vm_compute; reflexivity|]. apply outnumberedb_ok. vm_compute. reflexivity.
Qed.
Example C88_example : kept_f worldm = Some [[ka 0; kb 0]; [ka 2; kb 2]; [ka 3; kb 1]; [ka 0; ka 4]; [ka 2; kl 0]; [ka 3; kl 0]].
Proof. vm_compute. reflexivity. Qed.
