(** * Property C87: exactly the wrong measurements are left out, in double precision *)
From Coq Require Import ZArith Bool List Lia Permutation SpecFloat.
From Verif Require Import Prelude Num Keys KMap UMap Geometry Factors Clique Pcm Params Solver Lie Floats PcmSpec HistSpec StoreSpec RemoveSpec ApartSpec IncSpec
  PcmProofs PcmInv PcmStore TrajProofs AlgProofs UpdateProofs Grid Scenes OutlierSpec LatticeSpec LatticeProofs LatticeHist PropLattice PlainProofs TrueSpec TrueAny TrueProofs PropTrue WholeSpec WholeAny PropWhole
  WrongSpec WrongAny GridWrongSpec ManySpec ManyProofs GridWrongProofs.
Set Implicit Arguments.
Local Open Scope nat_scope.

(** [wrong] says which measurements are; [reads] what each says, in exact terms. *)
Theorem C87_left_out : forall G (L : lattice G), unrounded_poses L -> forall X F, rigid_world L X F ->
  forall pp C (W : soracles (node_ops G pp)) first reads wrong, dpositive (pp_dist_trans pp) -> dpositive (pp_dist_rot pp) ->
  forall h s rs, run C W h (solver_init true) = Ok s rs ->
  only_calls h -> some_history L X F C W first reads wrong h -> c_loop_check C = true -> small C (length (sp_stored C W h)) ->
  Permutation (s_nfg s ++ map Some (map FBetween (filter wrong (non_odometry C h)))) (map Some (given h)).
Proof. intros G L U X F RW pp C W first reads wrong Pt Pr h s rs R. destruct (unrounded_laws U) as [LW]. intros OC SH. exact (@many_left_out G L LW X F RW pp C W first reads wrong _ (fun _ => eq_refl) Pt Pr h s rs R OC (some_many_history SH)). Qed.
Print Assumptions C87_left_out.

(** So it is the graph of a solver that has not been given the wrong measurements and has no outlier
    rejection, up to the order. *)
Theorem C87_as_never_given : forall G (L : lattice G), unrounded_poses L -> forall X F, rigid_world L X F ->
  forall pp C (W : soracles (node_ops G pp)) first reads wrong, dpositive (pp_dist_trans pp) -> dpositive (pp_dist_rot pp) ->
  forall h s rs, run C W h (solver_init true) = Ok s rs ->
  only_calls h -> some_history L X F C W first reads wrong h -> c_loop_check C = true -> small C (length (sp_stored C W h)) ->
  forall C' (W' : soracles (node_ops G pp)) s' rs', run C' W' (map (corrected C wrong) h) (solver_init false) = Ok s' rs' ->
  (forall o fs vs, In o h -> call_of o = Some (fs, vs) -> ~ In None fs) -> Permutation (s_nfg s) (s_nfg s').
Proof.
  intros G L U X F RW pp C W first reads wrong Pt Pr h s rs R OC TH HL SM C' W' s' rs' R' NN.
  rewrite (@c35_graph (node_ops G pp) C' W' _ s' rs' R'), <- (@given_all (node_ops G pp) (map (corrected C wrong) h));
    [|apply corrected_not_null; exact NN|apply calls_add, corrected_only; exact OC].
  pose proof (@C87_left_out G L U X F RW pp C W first reads wrong Pt Pr h s rs R OC TH HL SM) as Q.
  pose proof (Permutation_map Some (given_corrected C wrong h)) as K. rewrite map_app in K.
  exact (Permutation_app_inv_r _ _ _ (perm_trans Q (Permutation_sym K))).
Qed.
Print Assumptions C87_as_never_given.

(** Each pair of robots and each landmark by itself. *)
Theorem C87_closures : forall G (L : lattice G), unrounded_poses L -> forall X F, rigid_world L X F ->
  forall pp C (W : soracles (node_ops G pp)) first reads wrong, dpositive (pp_dist_trans pp) -> dpositive (pp_dist_rot pp) ->
  forall h s rs, run C W h (solver_init true) = Ok s rs ->
  forall id, drives_known L X F C W first (fst id) h -> drives_known L X F C W first (snd id) h -> some_closures L X C first reads wrong id h ->
  (c_odom_check C = true -> fst id = snd id -> dpositive (pp_odom_trans pp) /\ dpositive (pp_odom_rot pp)) ->
  c_loop_check C = true -> no_removal h -> small C (length (sp_stored C W h)) -> pair_ignored h id = false ->
  Permutation (graph_lcs C h id (s_nfg s)) (filter (fun b => negb (wrong b)) (closures_in C id h)).
Proof. intros G L U X F RW pp C W first reads wrong Pt Pr h s rs R. destruct (unrounded_laws U) as [LW]. intros id D1 D2 SC. exact (@closures_many G L LW X F RW pp C W first reads wrong _ (fun _ => eq_refl) Pt Pr h s rs R id D1 D2 (some_many SC)). Qed.
Print Assumptions C87_closures.
Theorem C87_sightings : forall G (L : lattice G), unrounded_poses L -> forall X F, rigid_world L X F ->
  forall pp C (W : soracles (node_ops G pp)) first reads wrong, dpositive (pp_dist_trans pp) -> dpositive (pp_dist_rot pp) ->
  forall h s rs, run C W h (solver_init true) = Ok s rs ->
  forall c l, drives_known L X F C W first c h -> some_sightings L X C first reads wrong c l h ->
  let seen := map fst (current C l (sp_sightings C W h)) in
  mostly (fun b => negb (wrong b)) seen -> graph_lms C h l (s_nfg s) = filter (fun b => negb (wrong b)) seen.
Proof. intros G L U X F RW pp C W first reads wrong Pt Pr h s rs R. destruct (unrounded_laws U) as [LW]. intros c l DC SS seen MO. exact (@sightings_many G L LW X F RW pp C W first reads wrong _ (fun _ => eq_refl) Pt Pr h s rs R c l DC (some_many_lm SS) (mostly_outnumbered _ MO)). Qed.
Print Assumptions C87_sightings.

(** ** Example *)
(** The world of C83 in quarters of a metre. Two of five closures between the robots are wrong, one by a
    quarter of a metre and one by a turn, and so is the sighting that introduces the landmark. *)
Definition fwrong (f t : key) (e : se2 zs) : option (factor Of) := Some (FBetween (fbf f t (shown (se2_comp (step f t) e)))).
Definition see1 : op Of := OpUpdate [fwrong (ka 1) (kl 0) (zpose 1 0 0 1)] [fval (kl 0)] true.
Definition after_bw : list (op Of) :=
  [see1; flc (ka 2) (kl 0); OpUpdate [fwrong (ka 0) (kb 1) (zpose 1 0 1 0)] [] true; fodo 3; flc (ka 0) (kb 0);
   OpForce [fwrong (ka 1) (kb 2) (zpose 0 1 0 0); fbet (ka 2) (kb 2)] []; flc (ka 0) (ka 4); flc (ka 3) (kb 1); flc (ka 3) (kl 0)].
Definition after_aw : list (op Of) := [fodo 1; fodo 2; start_b] ++ after_bw.
Definition world3w : list (op Of) := start_a :: after_aw.
(** The exact value of a double, in units of [2^-k]. *)
Definition exact_of (k : Z) (x : double) : Z :=
  match x with S754_finite s m e => let v := Z.shiftl (Z.pos m) (e + k) in if s then Z.opp v else v | _ => 0%Z end.
Definition readsw (b : bf Of) : se2 zs :=
  let m : se2 ds := b_meas b in zpose (exact_of 0 (e_c m)) (exact_of 0 (e_s m)) (exact_of 2 (e_x m)) (exact_of 2 (e_y m)).
Definition landsw (b : bf Of) : se2 zs := se2_comp (Xf (b_from b)) (readsw b).
Definition wrongw3 (b : bf Of) : bool := negb (sameb (landsw b) (Xf (b_to b))).

(** All doubles that show a number, and all poses. *)
Definition doubles (k z : Z) : list double := if (z =? 0)%Z then [S754_zero true; S754_zero false] else [num k z].
Lemma doubles_ok k z x : (k = 0 \/ k = 2)%Z -> is_num k z x -> In x (doubles k z).
Proof.
  intros Hk [->|[-> [[|] ->]]]; [|left; reflexivity|right; left; reflexivity]. unfold doubles. destruct (Z.eqb_spec z 0) as [->|]; [|left; reflexivity].
  destruct Hk as [->| ->]; right; left; reflexivity.
Qed.
Definition all_shown (p : se2 ds -> bool) (z : se2 zs) : bool :=
  forallb (fun c => forallb (fun s => forallb (fun x => forallb (fun y => p (@SE2 ds c s x y)) (doubles 2 (e_y z))) (doubles 2 (e_x z))) (doubles 0 (e_s z))) (doubles 0 (e_c z)).
Lemma all_shown_ok p z : all_shown p z = true -> forall q, la_shows (lat2 2) q z -> p q = true.
Proof.
  intros H q (A & B & D & E). apply doubles_ok in A, B, D, E; auto. unfold all_shown in H.
  pose proof (proj1 (forallb_forall _ _) H _ A) as H1. cbv beta in H1. pose proof (proj1 (forallb_forall _ _) H1 _ B) as H2. cbv beta in H2.
  pose proof (proj1 (forallb_forall _ _) H2 _ D) as H3. cbv beta in H3. pose proof (proj1 (forallb_forall _ _) H3 _ E) as H4. cbv beta in H4. destruct q; exact H4.
Qed.
Definition largew (e : se2 zs) (n : Z) (f1 f2 : bf Of) : bool := all_shown (fun p => negb (small_error fgeom2 pf p n (turns fgeom2 f1 && turns fgeom2 f2))) e.
Lemma largew_ok e n f1 f2 : largew e n f1 f2 = true -> too_large (pp := pf) (lat2 2) e n f1 f2.
Proof. intros H p Hp. apply negb_true_iff. exact (@all_shown_ok _ _ H p Hp). Qed.
(** The step from one pose to another. *)
Definition stepb (a b : se2 zs) : bool := unitb a && sameb (se2_comp a (se2_comp (se2_inv a) b)) b.
Lemma stepb_ok a b e : stepb a b = true -> la_comp (lat2 2) a e = b -> e = se2_comp (se2_inv a) b.
Proof.
  intros H E. unfold stepb in H. apply andb_true_iff in H. destruct H as [H1 H2]. apply sameb_ok in H2. apply Z.eqb_eq in H1.
  destruct (right_laws (RA2 (k := 2) ltac:(split; discriminate))) as [LW]. apply (@cancel _ _ LW a e _ H1). exact (eq_trans E (eq_sym H2)).
Qed.
Definition readb (b : bf Of) : bool :=
  match b_noise b with Gauss _ => showsb (b_meas b) (readsw b) && unitb (readsw b) && nearb (readsw b) | NonGauss => false end.
Lemma readb_ok b : readb b = true -> readable (pp := pf) (lat2 2) Xf readsw wrongw3 b.
Proof.
  unfold readb. destruct (b_noise b) as [c|] eqn:E; [|discriminate]. intro H. apply andb_true_iff in H. destruct H as [H H3]. apply andb_true_iff in H. destruct H as [H1 H2].
  split; [exists c; exact E|]. split; [apply showsb_ok; exact H1|]. split; [apply Z.eqb_eq; exact H2|]. split; [apply nearb_ok; exact H3|].
  intro Q. apply negb_false_iff in Q. apply sameb_ok. exact Q.
Qed.
Definition closedw (id : obsid) (h : list (op Of)) : bool :=
  splits (fun h1 o => forallb (fun b : bf Of => negb (closure C1 id b) || readb b && beenb (fst id) (h1 ++ [o]) (b_from b) && beenb (snd id) (h1 ++ [o]) (b_to b))
    (candidates C1 o)) [] h &&
  forallb (fun f1 => forallb (fun f2 => wrongw3 f1 || negb (wrongw3 f2) ||
    stepb (landsw f2) (Xf (b_to f2)) && largew (se2_comp (se2_inv (landsw f2)) (Xf (b_to f2))) (way_around (G := fgeom2) (pp := pf) f1 f2) f1 f2 &&
    (let z := se2_comp (se2_inv (Xf (b_to f2))) (Xf (b_to f1)) in stepb (Xf (b_to f2)) (Xf (b_to f1)) &&
       stepb (Xf (b_to f1)) (se2_comp (landsw f2) z) && largew (se2_comp (se2_inv (Xf (b_to f1))) (se2_comp (landsw f2) z)) (way_around (G := fgeom2) (pp := pf) f1 f2) f1 f2))
    (closures_in C1 id h)) (closures_in C1 id h) &&
  (length (closures_in C1 id h) <? 2 * length (filter (fun b => negb (wrongw3 b)) (closures_in C1 id h))).
Lemma closedw_ok id h : closedw id h = true -> some_closures (pp := pf) (lat2 2) Xf C1 first2 readsw wrongw3 id h.
Proof.
  intro H. unfold closedw in H. apply andb_true_iff in H. destruct H as [H H3]. apply andb_true_iff in H. destruct H as [H H2]. split; [|split].
  - intros h1 o h2 b E Hb K. pose proof (@splits_ok _ _ _ H h1 o h2 E) as Q. cbv beta in Q. rewrite forallb_forall in Q. specialize (Q b Hb). pose proof (f_equal negb K : negb (closure (O := Of) C1 id b) = false) as KK. rewrite KK in Q. cbn [orb app] in Q.
    apply andb_true_iff in Q. destruct Q as [Q Q3]. apply andb_true_iff in Q. destruct Q as [Q1 Q2]. split; [apply readb_ok; exact Q1|]. split; apply beenb_ok; [exact Q2|exact Q3].
  - intros f1 f2 I1 I2 W1 W2. pose proof (proj1 (forallb_forall _ _) H2 f1 I1) as Q. cbv beta in Q. pose proof (proj1 (forallb_forall _ _) Q f2 I2) as Q'. cbv beta zeta in Q'. rewrite W1, W2 in Q'. cbn [negb orb] in Q'. clear - Q'.
    apply andb_true_iff in Q'. destruct Q' as [Q1 Q2]. apply andb_true_iff in Q1. destruct Q1 as [S1 T1]. apply andb_true_iff in Q2. destruct Q2 as [Q2 T3]. apply andb_true_iff in Q2. destruct Q2 as [S2 S3]. split.
    + intros e E. rewrite (@stepb_ok _ _ e S1 E). apply largew_ok. exact T1.
    + intros e z EZ E. rewrite (@stepb_ok _ _ z S2 EZ) in E. rewrite (@stepb_ok _ _ e S3 E). apply largew_ok. exact T3.
  - apply Nat.ltb_lt in H3. exact H3.
Qed.
Definition seenw (c : N) (l : key) (h : list (op Of)) : bool :=
  splits (fun h1 o => forallb (fun b : bf Of => negb (sees C1 l b) || readb b && (b_to b =? l)%N && beenb c (h1 ++ [o]) (b_from b)) (all_betweens o)) [] h &&
  forallb (fun f1 => forallb (fun f2 => wrongw3 f1 || negb (wrongw3 f2) ||
    stepb (landsw f2) (Xf l) && largew (se2_comp (se2_inv (landsw f2)) (Xf l)) (way_around_lm (G := fgeom2) (pp := pf) f1 f2) f1 f2 &&
    (stepb (Xf l) (landsw f2) && largew (se2_comp (se2_inv (Xf l)) (landsw f2)) (way_around_lm (G := fgeom2) (pp := pf) f1 f2) f1 f2))
    (sightings_in (G := fgeom2) (pp := pf) C1 l h)) (sightings_in (G := fgeom2) (pp := pf) C1 l h).
Lemma seenw_ok c l h : seenw c l h = true -> some_sightings (pp := pf) (lat2 2) Xf C1 first2 readsw wrongw3 c l h.
Proof.
  intro H. unfold seenw in H. apply andb_true_iff in H. destruct H as [H H2]. split.
  - intros h1 o h2 b E Hb K. pose proof (@splits_ok _ _ _ H h1 o h2 E) as Q. cbv beta in Q. rewrite forallb_forall in Q. specialize (Q b Hb). pose proof (f_equal negb K : negb (sees (O := Of) C1 l b) = false) as KK. rewrite KK in Q. cbn [orb app] in Q.
    apply andb_true_iff in Q. destruct Q as [Q Q3]. apply andb_true_iff in Q. destruct Q as [Q1 Q2]. split; [apply readb_ok; exact Q1|]. split; [apply N.eqb_eq; exact Q2|apply beenb_ok; exact Q3].
  - intros f1 f2 I1 I2 W1 W2. pose proof (proj1 (forallb_forall _ _) H2 f1 I1) as Q. cbv beta in Q. pose proof (proj1 (forallb_forall _ _) Q f2 I2) as Q'. cbv beta zeta in Q'. rewrite W1, W2 in Q'. cbn [negb orb] in Q'. clear - Q'.
    apply andb_true_iff in Q'. destruct Q' as [Q1 Q2]. apply andb_true_iff in Q1. destruct Q1 as [S1 T1]. apply andb_true_iff in Q2. destruct Q2 as [S2 T2]. split.
    + intros e E. rewrite (@stepb_ok _ _ e S1 E). apply largew_ok. exact T1.
    + intros e E. rewrite (@stepb_ok _ _ e S2 E). apply largew_ok. exact T2.
Qed.
Lemma knownw c h : drives (lat2 2) Xf Ff C1 Wf first2 c h -> forallb (fun b : bf Of => turns fgeom2 b) (robot_odoms C1 c h) = true -> drives_known (lat2 2) Xf Ff C1 Wf first2 c h.
Proof. intros D H. split; [exact D|]. apply Forall_forall. intros b Hb. exact (proj1 (forallb_forall _ _) H b Hb). Qed.
Lemma world3w_a : drives_known (lat2 2) Xf Ff C1 Wf first2 97%N world3w.
Proof.
  apply knownw; [|vm_compute; reflexivity]. apply drivesb_ok; [|vm_compute; reflexivity].
  eapply (@starts_same 97%N [] start_a after_aw) with (x0 := shown (Xf (ka 0))); [vm_compute; reflexivity|reflexivity|vm_compute; reflexivity|vm_compute; reflexivity|vm_compute; reflexivity|reflexivity|apply showsb_ok; vm_compute; reflexivity].
Qed.
Lemma world3w_b : drives_known (lat2 2) Xf Ff C1 Wf first2 98%N world3w.
Proof.
  apply knownw; [|vm_compute; reflexivity]. apply drivesb_ok; [|vm_compute; reflexivity].
  eapply (@starts_same 98%N before_b start_b after_bw) with (x0 := shown (Xf (kb 0))); [vm_compute; reflexivity|reflexivity|vm_compute; reflexivity|vm_compute; reflexivity|vm_compute; reflexivity|reflexivity|apply showsb_ok; vm_compute; reflexivity].
Qed.
Lemma kinds_w : forallb kindsb (non_odometry C1 world3w) = true.
Proof. vm_compute. reflexivity. Qed.
Lemma introduced_w : introduced C1 (kl 0) world3w.
Proof.
  exists (before_b ++ [start_b]), see1, (tl after_bw). eexists.
  split; [reflexivity|]. split; [intros o Ho; repeat (destruct Ho as [<-|Ho]; [reflexivity|]); destruct Ho|]. split; [reflexivity|]. split; [vm_compute; reflexivity|].
  intros o Ho. repeat (destruct Ho as [<-|Ho]; [reflexivity|]). destruct Ho.
Qed.
Example C87_meets : unrounded_poses (lat2 2) /\ rigid_world (lat2 2) Xf Ff /\ dpositive (pp_dist_trans pf) /\ dpositive (pp_dist_rot pf) /\ only_calls world3w /\
  some_history (pp := pf) (lat2 2) Xf Ff C1 Wf first2 readsw wrongw3 world3w /\ c_loop_check C1 = true /\ small C1 (length (sp_stored C1 Wf world3w)) /\
  map (fun b => (b_from b, b_to b)) (filter wrongw3 (non_odometry C1 world3w)) = [(ka 1, kl 0); (ka 0, kb 1); (ka 1, kb 2)].
Proof.
  destruct C82_meets as (M1 & M2 & _). split; [exact (UR_grid M1)|]. split; [exact M2|]. split; [reflexivity|]. split; [reflexivity|].
  split; [intros o Ho; repeat (destruct Ho as [<-|Ho]; [discriminate|]); destruct Ho|].
  split; [|split; [reflexivity|split; [intros _; vm_compute; reflexivity|vm_compute; reflexivity]]].
  intros b Hb. pose proof (proj1 (forallb_forall _ _) kinds_w b Hb) as K. unfold kindsb in K. apply andb_true_iff in K. destruct K as [K1 K2].
  split; [apply N.eqb_neq, negb_true_iff; exact K1|]. split; intro E.
  - assert (E' : sp_lmk (O := Of) C1 b = false) by exact E. rewrite E' in K2. apply orb_true_iff in K2. destruct K2 as [K2|K2]; [exists (97, 98)%N|exists (97, 97)%N]; (split; [exact K2|]).
    + split; [exact world3w_a|]. split; [exact world3w_b|]. split; [apply closedw_ok; vm_compute; reflexivity|intros _ Q; discriminate Q].
    + split; [exact world3w_a|]. split; [exact world3w_a|]. split; [apply closedw_ok; vm_compute; reflexivity|intros _ _; split; reflexivity].
  - assert (E' : sp_lmk (O := Of) C1 b = true) by exact E. rewrite E' in K2. apply N.eqb_eq in K2. cbv zeta. assert (K3 : sp_landmark_key (c_special C1) b = kl 0) by exact K2. rewrite K3. split; [exact introduced_w|].
    exists 97%N. split; [exact world3w_a|]. split; [apply seenw_ok; vm_compute; reflexivity|]. apply Nat.ltb_lt. vm_compute. reflexivity.
Qed.
Example C87_example : kept_f world3w = Some [[ka 0; kb 0]; [ka 2; kb 2]; [ka 3; kb 1]; [ka 0; ka 4]; [ka 2; kl 0]; [ka 3; kl 0]].
Proof. vm_compute. reflexivity. Qed.
(** Without the wrong ones nothing changes; nor does it without outlier rejection, apart from the order. *)
Example C87_example_corrected : kept_f (map (corrected C1 wrongw3) world3w) = kept_f world3w /\
  match run C1 Wf (map (corrected C1 wrongw3) world3w) (solver_init false) with
  | Ok s _ => map (fun f => match f with Some f => f_keys f | None => [] end) (s_nfg s) =
      [[ka 0; ka 1]; [ka 1; ka 2]; [ka 2; ka 3]; [kb 0; kb 1]; [kb 1; kb 2]; [ka 2; kl 0]; [ka 3; ka 4]; [ka 0; kb 0]; [ka 2; kb 2]; [ka 0; ka 4]; [ka 3; kb 1]; [ka 3; kl 0]]
  | _ => False
  end.
Proof. split; vm_compute; reflexivity. Qed.
