(** * Property C89: noisy measurements that fit each other are kept, wrong ones are left out *)
From Coq Require Import ZArith Bool List Lia Permutation SpecFloat.
From Verif Require Import Prelude Num Keys KMap UMap Geometry Factors Clique Pcm Params Solver Lie Floats PcmSpec HistSpec StoreSpec RemoveSpec ApartSpec IncSpec
  PcmProofs PcmInv PcmStore TrajProofs AlgProofs UpdateProofs Grid Scenes OutlierSpec LatticeSpec LatticeProofs LatticeHist PropLattice PlainProofs TrueSpec TrueAny TrueProofs PropTrue WholeSpec WholeAny PropWhole
  WrongSpec WrongAny GridWrongSpec ManySpec ManyProofs GridWrongProofs PropGridWrong NoisySpec NoisyProofs PropMany.
Import TrueSpec.
Set Implicit Arguments.
Local Open Scope nat_scope.

(** Odometry defines the poses; measurements are right if they fit each other, and need not be exact. *)
Theorem C89_left_out : forall G (L : lattice G), unrounded_poses L -> forall X F, rigid_world L X F ->
  forall pp C (W : soracles (node_ops G pp)) first reads wrong friends, (forall b, friends b b = true) ->
  forall h s rs, run C W h (solver_init true) = Ok s rs ->
  only_calls h -> noisy_history L X F C W first reads wrong friends h -> c_loop_check C = true -> small C (length (sp_stored C W h)) ->
  Permutation (s_nfg s ++ map Some (map FBetween (filter wrong (non_odometry C h)))) (map Some (given h)).
Proof. intros G L U X F RW pp C W first reads wrong friends FR h s rs R. destruct (unrounded_laws U) as [LW]. exact (@noisy_left_out G L LW X F RW pp C W first reads wrong friends FR h s rs R). Qed.
Print Assumptions C89_left_out.
Theorem C89_as_never_given : forall G (L : lattice G), unrounded_poses L -> forall X F, rigid_world L X F ->
  forall pp C (W : soracles (node_ops G pp)) first reads wrong friends, (forall b, friends b b = true) ->
  forall h s rs, run C W h (solver_init true) = Ok s rs ->
  only_calls h -> noisy_history L X F C W first reads wrong friends h -> c_loop_check C = true -> small C (length (sp_stored C W h)) ->
  forall C' (W' : soracles (node_ops G pp)) s' rs', run C' W' (map (corrected C wrong) h) (solver_init false) = Ok s' rs' ->
  (forall o fs vs, In o h -> call_of o = Some (fs, vs) -> ~ In None fs) -> Permutation (s_nfg s) (s_nfg s').
Proof.
  intros G L U X F RW pp C W first reads wrong friends FR h s rs R OC TH HL SM C' W' s' rs' R' NN.
  rewrite (@c35_graph (node_ops G pp) C' W' _ s' rs' R'), <- (@given_all (node_ops G pp) (map (corrected C wrong) h));
    [|apply corrected_not_null; exact NN|apply calls_add, corrected_only; exact OC].
  pose proof (@C89_left_out G L U X F RW pp C W first reads wrong friends FR h s rs R OC TH HL SM) as Q.
  pose proof (Permutation_map Some (given_corrected C wrong h)) as K. rewrite map_app in K.
  exact (Permutation_app_inv_r _ _ _ (perm_trans Q (Permutation_sym K))).
Qed.
Print Assumptions C89_as_never_given.

(** Each pair of robots and each landmark by itself. *)
Theorem C89_closures : forall G (L : lattice G), unrounded_poses L -> forall X F, rigid_world L X F ->
  forall pp C (W : soracles (node_ops G pp)) first reads wrong friends, (forall b, friends b b = true) ->
  forall h s rs, run C W h (solver_init true) = Ok s rs ->
  forall id, drives_known L X F C W first (fst id) h -> drives_known L X F C W first (snd id) h -> noisy_closures L X C first reads wrong friends id h ->
  c_loop_check C = true -> no_removal h -> small C (length (sp_stored C W h)) -> pair_ignored h id = false ->
  Permutation (graph_lcs C h id (s_nfg s)) (filter (fun b => negb (wrong b)) (closures_in C id h)).
Proof. intros G L U X F RW pp C W first reads wrong friends FR h s rs R. destruct (unrounded_laws U) as [LW]. exact (@closures_noisy G L LW X F RW pp C W first reads wrong friends FR h s rs R). Qed.
Print Assumptions C89_closures.
Theorem C89_sightings : forall G (L : lattice G), unrounded_poses L -> forall X F, rigid_world L X F ->
  forall pp C (W : soracles (node_ops G pp)) first reads wrong friends, (forall b, friends b b = true) ->
  forall h s rs, run C W h (solver_init true) = Ok s rs ->
  forall c l, drives_known L X F C W first c h -> noisy_sightings L X C first reads wrong friends c l h ->
  let seen := map fst (current C l (sp_sightings C W h)) in
  outnumbered (fun b => negb (wrong b)) friends seen -> graph_lms C h l (s_nfg s) = filter (fun b => negb (wrong b)) seen.
Proof. intros G L U X F RW pp C W first reads wrong friends FR h s rs R. destruct (unrounded_laws U) as [LW]. exact (@sightings_noisy G L LW X F RW pp C W first reads wrong friends FR h s rs R). Qed.
Print Assumptions C89_sightings.

(** Histories as in C88 are among these: exact measurements fit each other, whatever the
    positive thresholds (concrete case: C88_meets). *)
Theorem C89_exact_fit : forall G (L : lattice G), unrounded_poses L -> forall X F, rigid_world L X F ->
  forall pp C (W : soracles (node_ops G pp)) first reads wrong friends, dpositive (pp_dist_trans pp) -> dpositive (pp_dist_rot pp) ->
  forall h s rs, run C W h (solver_init true) = Ok s rs ->
  many_history L X F C W first reads wrong friends h -> noisy_history L X F C W first reads wrong friends h.
Proof. intros G L U X F RW pp C W first reads wrong friends Pt Pr h s rs R. destruct (unrounded_laws U) as [LW]. exact (@exact_fit G L LW X F RW pp C W first reads wrong friends Pt Pr h s rs R). Qed.
Print Assumptions C89_exact_fit.

(** ** Example *)
(** As in C88, but with noise. The thresholds are a half and a tenth per pose (for what they
    are compared with in two dimensions see C56). *)
Definition half : double := dlit 1 2.
Definition pf_q := PcmParams half half half (dlit 1 10) half (dlit 1 10) false.
Definition Of_q : tops := node_ops fgeom2 pf_q.
Definition Wf_q : soracles Of_q := plain_soracles Of_q (@se2_id ds).
Definition fbf_q (f t : key) (m : se2 ds) : bf Of_q := BF f t (m : t_pose Of_q) (Gauss (@mone ds 3 : t_cov Of_q)).
Definition fbet_q f t : option (factor Of_q) := Some (FBetween (fbf_q f t (shown (step f t)))).
Definition fval_q (k : key) : key * value Of_q := (k, @VPose Of_q (shown (Xf k))).
Definition fodo_q (i : N) : op Of_q := OpUpdate [fbet_q (ka i) (ka (i + 1))] [fval_q (ka (i + 1))] true.
Definition kept_f_q (h : list (op Of_q)) : option (list (list key)) :=
  match run C1 Wf_q h (solver_init true) with
  | Ok s _ => Some (map (fun f => match f with Some f => f_keys f | None => [] end) (skipn 6 (s_nfg s)))
  | _ => None
  end.
Definition start_a_q : op Of_q := OpUpdate [fbet_q (ka 0) (ka 1)] [fval_q (ka 0); fval_q (ka 1)] true.
Definition start_b_q : op Of_q := OpUpdate [fbet_q (kb 0) (kb 1); fbet_q (kb 1) (kb 2)] [fval_q (kb 0); fval_q (kb 1); fval_q (kb 2)] true.
Definition before_b_q : list (op Of_q) := [start_a_q; fodo_q 1; fodo_q 2].
Definition beenb_q (c : N) (h : list (op Of_q)) (k : key) : bool :=
  let n := length (robot_odoms C1 c h) in
  (1 <=? n) && existsb (fun i => (k =? first2 c + N.of_nat i)%N) (seq 0 (S n)).
Lemma beenb_ok_q c h k : beenb_q c h k = true -> been C1 first2 c h k.
Proof.
  unfold beenb_q. cbv zeta. intro H. apply andb_true_iff in H. destruct H as [H1 H2]. apply Nat.leb_le in H1. apply existsb_exists in H2. destruct H2 as (i & Hi & E).
  apply in_seq in Hi. apply N.eqb_eq in E. split; [intro Z0; pose proof (f_equal (@length _) Z0 : length (robot_odoms C1 c h) = 0) as Z1; rewrite Z1 in H1; inversion H1|]. exists i. split; [exact (proj1 (Nat.lt_succ_r _ _) (proj2 Hi))|exact E].
Qed.
Fixpoint chainb_q (k : key) (bs : list (bf Of_q)) : bool :=
  match bs with [] => true | b :: bs' => (b_from b =? k)%N && (b_to b =? k + 1)%N && chainb_q (k + 1)%N bs' end.
Lemma chainb_ok_q bs : forall k, chainb_q k bs = true -> chain k bs.
Proof.
  induction bs as [|b bs IH]; intros k H; [exact Logic.I|]. cbn [chainb_q] in H. apply andb_true_iff in H. destruct H as [H H3]. apply andb_true_iff in H. destruct H as [H1 H2].
  apply N.eqb_eq in H1, H2. split; [exact H1|]. split; [exact H2|]. apply IH, H3.
Qed.
Fixpoint splits_q (P : list (op Of_q) -> op Of_q -> bool) (don todo : list (op Of_q)) : bool :=
  match todo with [] => true | o :: t => P don o && splits_q P (don ++ [o]) t end.
Lemma splits_ok_q P todo : forall don, splits_q P don todo = true -> forall h1 o h2, todo = h1 ++ o :: h2 -> P (don ++ h1) o = true.
Proof.
  induction todo as [|a t IH]; intros don H h1 o h2 E; [destruct h1; discriminate E|]. cbn [splits_q] in H. apply andb_true_iff in H. destruct H as [H1 H2].
  destruct h1 as [|x h1]; cbn in E; injection E as <- E.
  - rewrite app_nil_r. exact H1.
  - specialize (IH _ H2 h1 o h2 E). rewrite <- app_assoc in IH. exact IH.
Qed.
Definition silentb_q (c : N) (h : list (op Of_q)) : bool :=
  forallb (fun o => forallb (fun b => negb (chr (b_from b) =? c)%N && negb (chr (b_to b) =? c)%N) (all_betweens o)) h.
Lemma silentb_ok_q c h : silentb_q c h = true -> not_mentioned c h.
Proof.
  unfold silentb_q. rewrite forallb_forall. intros H b (o & fs & vs & Hin & E & Hb) M. specialize (H o Hin). rewrite forallb_forall in H.
  assert (Q : In b (all_betweens o)).
  { exact (@eq_ind_r _ (Some (fs, vs)) (fun q : option (graph_t Of_q * values Of_q) => In b (match q with Some (fs, _) => betweens fs | None => [] end)) (proj2 (In_betweens b fs) Hb) _ E). }
  specialize (H b Q). apply andb_true_iff in H. destruct H as [H1 H2].
  apply negb_true_iff in H1, H2. rewrite N.eqb_neq in H1, H2. destruct M as [M|M]; contradiction.
Qed.
Definition okb_q (h : list (op Of_q)) : bool := match run C1 Wf_q h (solver_init true) with Ok _ _ => true | _ => false end.
Definition drivesb_q (c : N) (h : list (op Of_q)) : bool :=
  let bs := robot_odoms C1 c h in
  (chr (first2 c) =? c)%N && chainb_q (first2 c) bs && forallb (fun b : bf Of_q => trueb b) bs && (length bs <=? 100) &&
  forallb (fun i => nearb (se2_comp (Ff c) (Xf (first2 c + N.of_nat i)%N))) (seq 0 (S (length bs))).
Lemma drivesb_ok_q c h : starts (lat2 2) Xf Ff C1 Wf_q first2 c h -> drivesb_q c h = true -> drives (lat2 2) Xf Ff C1 Wf_q first2 c h.
Proof.
  intros ST. unfold drivesb_q. cbv zeta. intro H. apply andb_true_iff in H. destruct H as [H H5]. apply andb_true_iff in H. destruct H as [H H4].
  apply andb_true_iff in H. destruct H as [H H3]. apply andb_true_iff in H. destruct H as [H1 H2]. rewrite forallb_forall in H3, H5. apply Nat.leb_le in H4.
  split; [exact ST|]. split; [apply N.eqb_eq; auto|]. split; [apply chainb_ok_q; auto|]. split; [|split].
  - apply Forall_forall. intros b Hb. exact (proj2 (trueb_ok _ (H3 b Hb))).
  - exact (few H4).
  - intros i Hi. exact (nearb_ok _ (H5 i (upto Hi))).
Qed.
Lemma starts_same_q c h1 o h2 fs vs x0 : okb_q h1 = true -> call_of o = Some (fs, vs) -> silentb_q c h1 = true -> (1 <=? length (robot_odoms C1 c [o])) = true ->
  knows (h1 ++ [o]) (first2 c) = true -> kfind (first2 c) vs = Some (VPose x0) -> la_shows (lat2 2) x0 (se2_comp (Ff c) (Xf (first2 c))) ->
  starts (lat2 2) Xf Ff C1 Wf_q first2 c (h1 ++ o :: h2).
Proof.
  intros H1 H2 H3 H4 H5 H6 H7. unfold okb_q in H1. destruct (run C1 Wf_q h1 (solver_init true)) as [s1 rs1| |] eqn:E; try discriminate H1.
  exists h1, o, h2, s1, rs1, fs, vs, x0. split; [reflexivity|]. split; [exact E|]. split; [exact H2|]. split; [apply silentb_ok_q; exact H3|].
  split; [intro Z0; pose proof (f_equal (@length _) Z0 : length (robot_odoms C1 c [o]) = 0) as Z1; rewrite Z1 in H4; discriminate H4|]. split; [exact H5|]. split; [right; exact H6|exact H7].
Qed.
Definition kindsb_q (b : bf Of_q) : bool :=
  negb (b_from b =? b_to b)%N && (if sp_lmk C1 b then (sp_landmark_key [108%N] b =? kl 0)%N else of_pair (97, 98)%N b || of_pair (97, 97)%N b).
Definition fwrong_q (f t : key) (e : se2 zs) : option (factor Of_q) := Some (FBetween (fbf_q f t (shown (se2_comp (step f t) e)))).
Definition readsw_q (b : bf Of_q) : se2 zs :=
  let m : se2 ds := b_meas b in zpose (exact_of 0 (e_c m)) (exact_of 0 (e_s m)) (exact_of 2 (e_x m)) (exact_of 2 (e_y m)).
Definition landsw_q (b : bf Of_q) : se2 zs := se2_comp (Xf (b_from b)) (readsw_q b).
Definition wrongw3_q (b : bf Of_q) : bool :=
  let p := landsw_q b in let q := Xf (b_to b) in negb ((e_c p =? e_c q)%Z && (e_s p =? e_s q)%Z && (Z.abs (e_x p - e_x q) <=? 1)%Z && (Z.abs (e_y p - e_y q) <=? 1)%Z).
Definition largew_q (e : se2 zs) (n : Z) (f1 f2 : bf Of_q) : bool := all_shown (fun p => negb (small_error fgeom2 pf_q p n (turns fgeom2 f1 && turns fgeom2 f2))) e.
Lemma largew_ok_q e n f1 f2 : largew_q e n f1 f2 = true -> too_large (pp := pf_q) (lat2 2) e n f1 f2.
Proof. intros H p Hp. apply negb_true_iff. exact (@all_shown_ok _ _ H p Hp). Qed.
Lemma knownw_q c h : drives (lat2 2) Xf Ff C1 Wf_q first2 c h -> forallb (fun b : bf Of_q => turns fgeom2 b) (robot_odoms C1 c h) = true -> drives_known (lat2 2) Xf Ff C1 Wf_q first2 c h.
Proof. intros D H. split; [exact D|]. apply Forall_forall. intros b Hb. exact (proj1 (forallb_forall _ _) H b Hb). Qed.
Definition friendsm_q (b b' : bf Of_q) : bool := (b_from b =? b_from b')%N && (b_to b =? b_to b')%N.
Lemma friendsm_refl_q b : friendsm_q b b = true.
Proof. unfold friendsm_q. rewrite !N.eqb_refl. reflexivity. Qed.
Definition clashb_q (f1 f2 : bf Of_q) : bool :=
  let z := se2_comp (se2_inv (Xf (b_to f1))) (Xf (b_to f2)) in let y := se2_comp (landsw_q f1) z in
  stepb (Xf (b_to f1)) (Xf (b_to f2)) && stepb (landsw_q f2) y && largew_q (se2_comp (se2_inv (landsw_q f2)) y) (way_around (G := fgeom2) (pp := pf_q) f1 f2) f1 f2.
Lemma clashb_ok_q f1 f2 : clashb_q f1 f2 = true -> clash (pp := pf_q) (lat2 2) Xf readsw_q f1 f2.
Proof.
  unfold clashb_q. cbv zeta. intro H. apply andb_true_iff in H. destruct H as [H H3]. apply andb_true_iff in H. destruct H as [H1 H2].
  intros e z EZ EE. rewrite (@stepb_ok _ _ z H1 EZ) in EE. rewrite (@stepb_ok _ _ e H2 EE). apply largew_ok_q. exact H3.
Qed.
Definition clashb_lm_q (f1 f2 : bf Of_q) : bool :=
  stepb (landsw_q f2) (landsw_q f1) && largew_q (se2_comp (se2_inv (landsw_q f2)) (landsw_q f1)) (way_around_lm (G := fgeom2) (pp := pf_q) f1 f2) f1 f2.
Lemma clashb_lm_ok_q f1 f2 : clashb_lm_q f1 f2 = true -> clash_lm (pp := pf_q) (lat2 2) Xf readsw_q f1 f2.
Proof.
  unfold clashb_lm_q. intro H. apply andb_true_iff in H. destruct H as [H1 H2]. intros e EE. rewrite (@stepb_ok _ _ e H1 EE). apply largew_ok_q. exact H2.
Qed.
Definition all_clashb_q (cb : bf Of_q -> bf Of_q -> bool) (l : list (bf Of_q)) : bool :=
  forallb (fun f1 => forallb (fun f2 => negb (wrongw3_q f2) || wrongw3_q f1 && friendsm_q f1 f2 || cb f1 f2 && cb f2 f1) l) l.
Lemma all_clashb_ok_q cb (cl : bf Of_q -> bf Of_q -> Prop) l : (forall f1 f2, cb f1 f2 = true -> cl f1 f2) -> all_clashb_q cb l = true -> all_clash (pp := pf_q) wrongw3_q friendsm_q cl l.
Proof.
  intros HC H f1 f2 I1 I2 W2 K. pose proof (proj1 (forallb_forall _ _) H f1 I1) as Q. cbv beta in Q. pose proof (proj1 (forallb_forall _ _) Q f2 I2) as Q'. cbv beta in Q'.
  assert (E : wrongw3_q f1 && friendsm_q f1 f2 = false) by (destruct K as [K|K]; rewrite K; [reflexivity|apply andb_false_r]). rewrite W2, E in Q'. cbn [negb orb] in Q'. clear - HC Q'.
  apply andb_true_iff in Q'. destruct Q' as [Q1 Q2]. split; apply HC; assumption.
Qed.
Definition outnumberedb_q (l : list (bf Of_q)) : bool :=
  forallb (fun a => negb (wrongw3_q a) || (length (filter (fun b => negb (negb (wrongw3_q b)) && friendsm_q a b) l) <? length (filter (fun b => negb (wrongw3_q b)) l))) l.
Lemma outnumberedb_ok_q l : outnumberedb_q l = true -> outnumbered (fun b => negb (wrongw3_q b)) friendsm_q l.
Proof.
  intros H a Ia Wa. pose proof (proj1 (forallb_forall _ _) H a Ia) as Q. cbv beta in Q. rewrite Wa in Q. cbn [orb] in Q. apply Nat.ltb_lt. exact Q.
Qed.
Definition legb_q (b : bf Of_q) : bool :=
  match b_noise b with Gauss _ => showsb (b_meas b) (readsw_q b) && unitb (readsw_q b) && nearb (readsw_q b) | NonGauss => false end.
Lemma legb_ok_q b : legb_q b = true -> legible (pp := pf_q) (lat2 2) readsw_q b.
Proof.
  unfold legb_q. destruct (b_noise b) as [c|] eqn:E; [|discriminate]. intro H. apply andb_true_iff in H. destruct H as [H H3]. apply andb_true_iff in H. destruct H as [H1 H2].
  split; [exists c; exact E|]. split; [apply showsb_ok; exact H1|]. split; [apply Z.eqb_eq; exact H2|apply nearb_ok; exact H3].
Qed.
Definition smallw_q (e : se2 zs) (n : Z) (f1 f2 : bf Of_q) : bool := all_shown (fun p => small_error fgeom2 pf_q p n (turns fgeom2 f1 && turns fgeom2 f2)) e.
Lemma smallw_ok_q e n f1 f2 : smallw_q e n f1 f2 = true -> small_enough (pp := pf_q) (lat2 2) e n f1 f2.
Proof. intros H p Hp. exact (@all_shown_ok _ _ H p Hp). Qed.
Definition fitb_q (f1 f2 : bf Of_q) : bool :=
  let z := se2_comp (se2_inv (Xf (b_to f1))) (Xf (b_to f2)) in let y := se2_comp (landsw_q f1) z in
  stepb (Xf (b_to f1)) (Xf (b_to f2)) && stepb (landsw_q f2) y && smallw_q (se2_comp (se2_inv (landsw_q f2)) y) (way_around (G := fgeom2) (pp := pf_q) f1 f2) f1 f2.
Lemma fitb_ok_q f1 f2 : fitb_q f1 f2 = true -> fits (pp := pf_q) (lat2 2) Xf readsw_q f1 f2.
Proof.
  unfold fitb_q. cbv zeta. intro H. apply andb_true_iff in H. destruct H as [H H3]. apply andb_true_iff in H. destruct H as [H1 H2].
  intros e z EZ EE. rewrite (@PropGridWrong.stepb_ok _ _ z H1 EZ) in EE. rewrite (@PropGridWrong.stepb_ok _ _ e H2 EE). apply smallw_ok_q. exact H3.
Qed.
Definition fitb_lm_q (f1 f2 : bf Of_q) : bool :=
  stepb (landsw_q f2) (landsw_q f1) && smallw_q (se2_comp (se2_inv (landsw_q f2)) (landsw_q f1)) (way_around_lm (G := fgeom2) (pp := pf_q) f1 f2) f1 f2.
Lemma fitb_lm_ok_q f1 f2 : fitb_lm_q f1 f2 = true -> fits_lm (pp := pf_q) (lat2 2) Xf readsw_q f1 f2.
Proof.
  unfold fitb_lm_q. intro H. apply andb_true_iff in H. destruct H as [H1 H2]. intros e EE. rewrite (@PropGridWrong.stepb_ok _ _ e H1 EE). apply smallw_ok_q. exact H2.
Qed.
Definition all_fitb_q (cb : bf Of_q -> bf Of_q -> bool) (l : list (bf Of_q)) : bool := forallb (fun f1 => forallb (fun f2 => wrongw3_q f1 || wrongw3_q f2 || cb f1 f2) l) l.
Lemma all_fitb_ok_q cb (cl : bf Of_q -> bf Of_q -> Prop) l : (forall f1 f2, cb f1 f2 = true -> cl f1 f2) -> all_fitb_q cb l = true -> all_fit (pp := pf_q) wrongw3_q cl l.
Proof.
  intros HC H f1 f2 I1 I2 W1 W2. pose proof (proj1 (forallb_forall _ _) H f1 I1) as Q. cbv beta in Q. pose proof (proj1 (forallb_forall _ _) Q f2 I2) as Q'. cbv beta in Q'.
  rewrite W1, W2 in Q'. cbn [orb] in Q'. exact (HC _ _ Q').
Qed.
Definition odob_q (b : bf Of_q) : bool :=
  let a := se2_comp (Xf (b_to b)) (se2_inv (readsw_q b)) in
  unitb (readsw_q b) && stepb (Xf (b_from b)) a && all_shown (fun p => small_odometry fgeom2 pf_q p (apart (b_from b) (b_to b) + 1) (turns fgeom2 b)) (se2_comp (se2_inv (Xf (b_from b))) a).
Lemma from_back_q (a y x : se2 zs) : unitb y = true -> se2_comp a y = x -> a = se2_comp x (se2_inv y).
Proof.
  unfold unitb. intros U <-. apply Z.eqb_eq in U. destruct a as [c s x0 y0], y as [c' s' x' y'].
  unfold se2_comp, se2_inv. cbn [e_c e_s e_x e_y k_t zs k0 kadd kmul ksub] in *.
  assert (V : forall p q m : Z, (q - p = m * (c' * c' + s' * s' - 1))%Z -> p = q) by (intros p q m E; rewrite U, Z.sub_diag, Z.mul_0_r in E; clear - E; lia).
  f_equal; [apply V with c|apply V with s|apply V with (- (c * x' - s * y'))%Z|apply V with (- (s * x' + c * y'))%Z]; ring.
Qed.
Lemma odob_ok_q b : odob_q b = true -> near_odometry (pp := pf_q) (lat2 2) Xf readsw_q b.
Proof.
  unfold odob_q. cbv zeta. intro H. apply andb_true_iff in H. destruct H as [H H3]. apply andb_true_iff in H. destruct H as [H1 H2].
  intros a e _ EA EE p Hp. pose proof (@from_back_q a _ _ H1 EA) as EB. rewrite EB in EE. rewrite (@PropGridWrong.stepb_ok _ _ e H2 EE) in Hp. exact (@all_shown_ok _ _ H3 p Hp).
Qed.
Definition closedn_q (id : obsid) (h : list (op Of_q)) : bool :=
  splits_q (fun h1 o => forallb (fun b : bf Of_q => negb (closure C1 id b) || legb_q b && beenb_q (fst id) (h1 ++ [o]) (b_from b) && beenb_q (snd id) (h1 ++ [o]) (b_to b) &&
    (negb (fst id =? snd id)%N || wrongw3_q b || odob_q b)) (candidates C1 o)) [] h &&
  all_fitb_q fitb_q (closures_in C1 id h) && all_clashb_q clashb_q (closures_in C1 id h) && outnumberedb_q (closures_in C1 id h).
Lemma closedn_ok_q id h : closedn_q id h = true -> noisy_closures (pp := pf_q) (lat2 2) Xf C1 first2 readsw_q wrongw3_q friendsm_q id h.
Proof.
  intro H. unfold closedn_q in H. apply andb_true_iff in H. destruct H as [H H3]. apply andb_true_iff in H. destruct H as [H H2]. apply andb_true_iff in H. destruct H as [H H1]. split; [|split; [|split]].
  - intros h1 o h2 b E Hb K. pose proof (@splits_ok_q _ _ _ H h1 o h2 E) as Q. cbv beta in Q. rewrite forallb_forall in Q. specialize (Q b Hb). pose proof (f_equal negb K : negb (closure (O := Of_q) C1 id b) = false) as KK. rewrite KK in Q. cbn [orb app] in Q.
    apply andb_true_iff in Q. destruct Q as [Q Q4]. apply andb_true_iff in Q. destruct Q as [Q Q3]. apply andb_true_iff in Q. destruct Q as [Q1 Q2]. split; [apply legb_ok_q; exact Q1|].
    split; [apply beenb_ok_q; exact Q2|]. split; [apply beenb_ok_q; exact Q3|]. intros _ EI WB. rewrite EI, N.eqb_refl, WB in Q4. cbn [negb orb] in Q4. apply odob_ok_q. exact Q4.
  - exact (@all_fitb_ok_q fitb_q _ _ fitb_ok_q H1).
  - exact (@all_clashb_ok_q clashb_q _ _ clashb_ok_q H2).
  - apply outnumberedb_ok_q. exact H3.
Qed.
Definition seenn_q (c : N) (l : key) (h : list (op Of_q)) : bool :=
  splits_q (fun h1 o => forallb (fun b : bf Of_q => negb (sees C1 l b) || legb_q b && (b_to b =? l)%N && beenb_q c (h1 ++ [o]) (b_from b)) (TrueSpec.all_betweens o)) [] h &&
  all_fitb_q fitb_lm_q (sightings_in (G := fgeom2) (pp := pf_q) C1 l h) && all_clashb_q clashb_lm_q (sightings_in (G := fgeom2) (pp := pf_q) C1 l h).
Lemma seenn_ok_q c l h : seenn_q c l h = true -> noisy_sightings (pp := pf_q) (lat2 2) Xf C1 first2 readsw_q wrongw3_q friendsm_q c l h.
Proof.
  intro H. unfold seenn_q in H. apply andb_true_iff in H. destruct H as [H H2]. apply andb_true_iff in H. destruct H as [H H1]. split; [|split; [exact (@all_fitb_ok_q fitb_lm_q _ _ fitb_lm_ok_q H1)|exact (@all_clashb_ok_q clashb_lm_q _ _ clashb_lm_ok_q H2)]].
  intros h1 o h2 b E Hb K. pose proof (@splits_ok_q _ _ _ H h1 o h2 E) as Q. cbv beta in Q. rewrite forallb_forall in Q. specialize (Q b Hb). pose proof (f_equal negb K : negb (sees (O := Of_q) C1 l b) = false) as KK. rewrite KK in Q. cbn [orb app] in Q.
  apply andb_true_iff in Q. destruct Q as [Q Q3]. apply andb_true_iff in Q. destruct Q as [Q1 Q2]. split; [apply legb_ok_q; exact Q1|]. split; [apply N.eqb_eq; exact Q2|apply beenb_ok_q; exact Q3].
Qed.

(** Noise of a quarter of a metre in either direction; the wrong ones are off by more than
    three metres. *)
Definition see_q (f : key) (x y : Z) : option (factor Of_q) := fwrong_q f (kl 0) (zpose 1 0 x y).
Definition lc_q (f t : key) (c s x y : Z) : op Of_q := OpUpdate [fwrong_q f t (zpose c s x y)] [] true.
Definition see_l_q : op Of_q := OpUpdate [see_q (ka 1) 0 30] [fval_q (kl 0)] true.
Definition after_bn_q : list (op Of_q) :=
  [see_l_q; OpUpdate [see_q (ka 2) 0 1] [] true; lc_q (ka 0) (kl 0) 1 0 50 50; lc_q (ka 0) (kb 1) 1 0 40 0; lc_q (ka 1) (kb 0) 1 0 (-90) 0;
   fodo_q 3; lc_q (ka 0) (kb 0) 1 0 1 0; OpForce [fwrong_q (ka 1) (kb 2) (zpose 0 1 60 60); fwrong_q (ka 2) (kb 2) (zpose 1 0 0 (-1))] []; lc_q (ka 0) (ka 4) 1 0 0 1; OpUpdate [see_q (ka 3) (-1) 0] [] true;
   OpUpdate [fwrong_q (ka 4) (kl 0) (zpose 0 (-1) 20 0); fwrong_q (ka 0) (kb 1) (zpose 1 0 40 0); fbet_q (ka 3) (kb 1); fwrong_q (ka 2) (kb 0) (zpose (-1) 0 0 70)] [] true].
Definition after_an_q : list (op Of_q) := [fodo_q 1; fodo_q 2; start_b_q] ++ after_bn_q.
Definition worldn : list (op Of_q) := start_a_q :: after_an_q.
Lemma worldn_a_q : drives_known (lat2 2) Xf Ff C1 Wf_q first2 97%N worldn.
Proof.
  apply knownw_q; [|vm_compute; reflexivity]. apply drivesb_ok_q; [|vm_compute; reflexivity].
  eapply (@starts_same_q 97%N [] start_a_q after_an_q) with (x0 := shown (Xf (ka 0))); [vm_compute; reflexivity|reflexivity|vm_compute; reflexivity|vm_compute; reflexivity|vm_compute; reflexivity|reflexivity|apply showsb_ok; vm_compute; reflexivity].
Qed.
Lemma worldn_b_q : drives_known (lat2 2) Xf Ff C1 Wf_q first2 98%N worldn.
Proof.
  apply knownw_q; [|vm_compute; reflexivity]. apply drivesb_ok_q; [|vm_compute; reflexivity].
  eapply (@starts_same_q 98%N before_b_q start_b_q after_bn_q) with (x0 := shown (Xf (kb 0))); [vm_compute; reflexivity|reflexivity|vm_compute; reflexivity|vm_compute; reflexivity|vm_compute; reflexivity|reflexivity|apply showsb_ok; vm_compute; reflexivity].
Qed.
Lemma kinds_n_q : forallb kindsb_q (non_odometry C1 worldn) = true.
Proof. vm_compute. reflexivity. Qed.
Lemma introduced_n_q : introduced C1 (kl 0) worldn.
Proof.
  exists (before_b_q ++ [start_b_q]), see_l_q, (tl after_bn_q). eexists.
  split; [reflexivity|]. split; [intros o Ho; repeat (destruct Ho as [<-|Ho]; [reflexivity|]); destruct Ho|]. split; [reflexivity|]. split; [vm_compute; reflexivity|].
  intros o Ho. repeat (destruct Ho as [<-|Ho]; [reflexivity|]). destruct Ho.
Qed.
Example C89_meets : unrounded_poses (lat2 2) /\ rigid_world (lat2 2) Xf Ff /\ (forall b, friendsm_q b b = true) /\ only_calls worldn /\
  noisy_history (pp := pf_q) (lat2 2) Xf Ff C1 Wf_q first2 readsw_q wrongw3_q friendsm_q worldn /\ c_loop_check C1 = true /\ small C1 (length (sp_stored C1 Wf_q worldn)) /\
  map (fun b => (b_from b, b_to b)) (filter wrongw3_q (non_odometry C1 worldn)) =
    [(ka 1, kl 0); (ka 0, kl 0); (ka 0, kb 1); (ka 1, kb 0); (ka 1, kb 2); (ka 4, kl 0); (ka 0, kb 1); (ka 2, kb 0)].
Proof.
  destruct C82_meets as (M1 & M2 & _). split; [exact (UR_grid M1)|]. split; [exact M2|]. split; [exact friendsm_refl_q|].
  split; [intros o Ho; repeat (destruct Ho as [<-|Ho]; [discriminate|]); destruct Ho|].
  split; [|split; [reflexivity|split; [intros _; vm_compute; reflexivity|vm_compute; reflexivity]]].
  intros b Hb. pose proof (proj1 (forallb_forall _ _) kinds_n_q b Hb) as K. unfold kindsb_q in K. apply andb_true_iff in K. destruct K as [K1 K2].
  split; [apply N.eqb_neq, negb_true_iff; exact K1|]. split; intro E.
  - assert (E' : sp_lmk (O := Of_q) C1 b = false) by exact E. rewrite E' in K2. apply orb_true_iff in K2. destruct K2 as [K2|K2]; [exists (97, 98)%N|exists (97, 97)%N]; (split; [exact K2|]).
    + split; [exact worldn_a_q|]. split; [exact worldn_b_q|]. apply closedn_ok_q; vm_compute; reflexivity.
    + split; [exact worldn_a_q|]. split; [exact worldn_a_q|]. apply closedn_ok_q; vm_compute; reflexivity.
  - assert (E' : sp_lmk (O := Of_q) C1 b = true) by exact E. rewrite E' in K2. apply N.eqb_eq in K2. cbv zeta. assert (K3 : sp_landmark_key (c_special C1) b = kl 0) by exact K2. rewrite K3. split; [exact introduced_n_q|].
    exists 97%N. split; [exact worldn_a_q|]. split; [apply seenn_ok_q; vm_compute; reflexivity|]. apply outnumberedb_ok_q. vm_compute. reflexivity.
Qed.
Example C89_example : kept_f_q worldn = Some [[ka 0; kb 0]; [ka 2; kb 2]; [ka 3; kb 1]; [ka 0; ka 4]; [ka 2; kl 0]; [ka 3; kl 0]].
Proof. vm_compute. reflexivity. Qed.
