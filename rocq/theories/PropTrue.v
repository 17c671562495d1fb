(** * Property C83: when every measurement is true, every closure and sighting is in the graph *)
From Coq Require Import ZArith Bool List Lia Permutation.
From Verif Require Import Prelude Num Keys KMap UMap Geometry Factors Clique Pcm Params Solver Lie Floats PcmSpec HistSpec StoreSpec RemoveSpec ApartSpec IncSpec
  PcmProofs PcmInv PcmStore TrajProofs AlgProofs Grid Scenes OutlierSpec LatticeSpec LatticeProofs LatticeHist PropLattice TrueSpec TrueProofs.
Set Implicit Arguments.
Local Open Scope nat_scope.

(** Each pose a robot has been at is known and in its true place, after every call. *)
Theorem C83_odometry : forall G (L : lattice G), unrounded_poses L -> forall X F, rigid_world L X F ->
  forall pp C (W : soracles (node_ops G pp)) first h s rs, run C W h (solver_init true) = Ok s rs ->
  forall c P T k, drives L X F C W first c h -> h = P ++ T -> been (O := node_ops G pp) C first c P k ->
  chr k = c /\ in_place L X F (refs_after C W P) k /\ knows P k = true.
Proof.
  intros G L U X F RW pp C W first h s rs R c P T k D E B. destruct (unrounded_laws U) as [LW].
  destruct (@been_place G L LW X F RW pp C W first h s rs R c P T k D E B) as (H1 & H2 & H3 & _). auto.
Qed.
Print Assumptions C83_odometry.

(** All loop closures of a pair of robots are accepted, however small the positive thresholds. *)
Theorem C83_closures : forall G (L : lattice G), unrounded_poses L -> forall X F, rigid_world L X F ->
  forall pp C (W : soracles (node_ops G pp)) first h s rs, run C W h (solver_init true) = Ok s rs ->
  forall id, drives L X F C W first (fst id) h -> drives L X F C W first (snd id) h -> true_closures (pp := pp) L X C first id h ->
  (c_odom_check C = true -> fst id = snd id -> dpositive (pp_odom_trans pp) /\ dpositive (pp_odom_rot pp)) ->
  dpositive (pp_dist_trans pp) -> dpositive (pp_dist_rot pp) -> c_loop_check C = true -> no_removal h ->
  small C (length (sp_stored C W h)) -> pair_ignored h id = false ->
  Permutation (graph_lcs C h id (s_nfg s)) (closures_in C id h).
Proof.
  intros G L U X F RW pp C W first h s rs R id D1 D2 TC OC. destruct (unrounded_laws U) as [LW].
  exact (@closures_all G L LW X F RW pp C W first h s rs R id D1 D2 TC OC).
Qed.
Print Assumptions C83_closures.

(** All sightings of a landmark since it was first seen. *)
Theorem C83_sightings : forall G (L : lattice G), unrounded_poses L -> forall X F, rigid_world L X F ->
  forall pp C (W : soracles (node_ops G pp)) first h s rs, run C W h (solver_init true) = Ok s rs ->
  forall c l, drives L X F C W first c h -> true_sightings (pp := pp) L X C first c l h ->
  dpositive (pp_dist_trans pp) -> dpositive (pp_dist_rot pp) ->
  graph_lms C h l (s_nfg s) = map fst (current C l (sp_sightings C W h)).
Proof.
  intros G L U X F RW pp C W first h s rs R c l D TS. destruct (unrounded_laws U) as [LW].
  exact (@sightings_all G L LW X F RW pp C W first h s rs R c l D TS).
Qed.
Print Assumptions C83_sightings.

(** ** Example: the smallest thresholds there are *)
Definition first2 (c : N) : key := if (c =? 97)%N then ka 0 else kb 0.
Definition start_a : op Of := OpUpdate [fbet (ka 0) (ka 1)] [fval (ka 0); fval (ka 1)] true.
Definition start_b : op Of := OpUpdate [fbet (kb 0) (kb 1); fbet (kb 1) (kb 2)] [fval (kb 0); fval (kb 1); fval (kb 2)] true.
Definition after_a : list (op Of) :=
  [fodo 1; fodo 2; start_b; OpUpdate [fbet (ka 1) (kl 0)] [fval (kl 0)] true; flc (ka 2) (kl 0); fodo 3] ++ closures ++ [flc (ka 3) (kl 0)].
Definition before_b : list (op Of) := [start_a; fodo 1; fodo 2].
Definition after_b : list (op Of) :=
  [OpUpdate [fbet (ka 1) (kl 0)] [fval (kl 0)] true; flc (ka 2) (kl 0); fodo 3] ++ closures ++ [flc (ka 3) (kl 0)].
Definition world : list (op Of) := start_a :: after_a.

Definition beenb (c : N) (h : list (op Of)) (k : key) : bool :=
  let n := length (robot_odoms C1 c h) in
  (1 <=? n) && existsb (fun i => (k =? first2 c + N.of_nat i)%N) (seq 0 (S n)).
Lemma beenb_ok c h k : beenb c h k = true -> been C1 first2 c h k.
Proof.
  unfold beenb. cbv zeta. intro H. apply andb_true_iff in H. destruct H as [H1 H2]. apply Nat.leb_le in H1. apply existsb_exists in H2. destruct H2 as (i & Hi & E).
  apply in_seq in Hi. apply N.eqb_eq in E. split; [intro Z0; pose proof (f_equal (@length _) Z0 : length (robot_odoms C1 c h) = 0) as Z1; rewrite Z1 in H1; inversion H1|]. exists i. split; [exact (proj1 (Nat.lt_succ_r _ _) (proj2 Hi))|exact E].
Qed.
Fixpoint chainb (k : key) (bs : list (bf Of)) : bool :=
  match bs with [] => true | b :: bs' => (b_from b =? k)%N && (b_to b =? k + 1)%N && chainb (k + 1)%N bs' end.
Lemma chainb_ok bs : forall k, chainb k bs = true -> chain k bs.
Proof.
  induction bs as [|b bs IH]; intros k H; [exact Logic.I|]. cbn [chainb] in H. apply andb_true_iff in H. destruct H as [H H3]. apply andb_true_iff in H. destruct H as [H1 H2].
  apply N.eqb_eq in H1, H2. split; [exact H1|]. split; [exact H2|]. apply IH, H3.
Qed.
Fixpoint splits (P : list (op Of) -> op Of -> bool) (don todo : list (op Of)) : bool :=
  match todo with [] => true | o :: t => P don o && splits P (don ++ [o]) t end.
Lemma splits_ok P todo : forall don, splits P don todo = true -> forall h1 o h2, todo = h1 ++ o :: h2 -> P (don ++ h1) o = true.
Proof.
  induction todo as [|a t IH]; intros don H h1 o h2 E; [destruct h1; discriminate E|]. cbn [splits] in H. apply andb_true_iff in H. destruct H as [H1 H2].
  destruct h1 as [|x h1]; cbn in E; injection E as <- E.
  - rewrite app_nil_r. exact H1.
  - specialize (IH _ H2 h1 o h2 E). rewrite <- app_assoc in IH. exact IH.
Qed.
Definition silentb (c : N) (h : list (op Of)) : bool :=
  forallb (fun o => forallb (fun b => negb (chr (b_from b) =? c)%N && negb (chr (b_to b) =? c)%N) (all_betweens o)) h.
Lemma silentb_ok c h : silentb c h = true -> not_mentioned c h.
Proof.
  unfold silentb. rewrite forallb_forall. intros H b (o & fs & vs & Hin & E & Hb) M. specialize (H o Hin). rewrite forallb_forall in H.
  assert (Q : In b (all_betweens o)).
  { exact (@eq_ind_r _ (Some (fs, vs)) (fun q : option (graph_t Of * values Of) => In b (match q with Some (fs, _) => betweens fs | None => [] end)) (proj2 (In_betweens b fs) Hb) _ E). }
  specialize (H b Q). apply andb_true_iff in H. destruct H as [H1 H2].
  apply negb_true_iff in H1, H2. rewrite N.eqb_neq in H1, H2. destruct M as [M|M]; contradiction.
Qed.
Definition okb (h : list (op Of)) : bool := match run C1 Wf h (solver_init true) with Ok _ _ => true | _ => false end.
Lemma few n : n <= 100 -> (Z.of_nat n < 2 ^ 50)%Z.
Proof. lia. Qed.
Lemma upto n i : i <= n -> In i (seq 0 (S n)).
Proof. intro. apply in_seq. lia. Qed.
Definition drivesb (c : N) (h : list (op Of)) : bool :=
  let bs := robot_odoms C1 c h in
  (chr (first2 c) =? c)%N && chainb (first2 c) bs && forallb (fun b : bf Of => trueb b) bs && (length bs <=? 100) &&
  forallb (fun i => nearb (se2_comp (Ff c) (Xf (first2 c + N.of_nat i)%N))) (seq 0 (S (length bs))).
Lemma drivesb_ok c h : starts (lat2 2) Xf Ff C1 Wf first2 c h -> drivesb c h = true -> drives (lat2 2) Xf Ff C1 Wf first2 c h.
Proof.
  intros ST. unfold drivesb. cbv zeta. intro H. apply andb_true_iff in H. destruct H as [H H5]. apply andb_true_iff in H. destruct H as [H H4].
  apply andb_true_iff in H. destruct H as [H H3]. apply andb_true_iff in H. destruct H as [H1 H2]. rewrite forallb_forall in H3, H5. apply Nat.leb_le in H4.
  split; [exact ST|]. split; [apply N.eqb_eq; auto|]. split; [apply chainb_ok; auto|]. split; [|split].
  - apply Forall_forall. intros b Hb. exact (proj2 (trueb_ok _ (H3 b Hb))).
  - exact (few H4).
  - intros i Hi. exact (nearb_ok _ (H5 i (upto Hi))).
Qed.
Lemma starts_same c h1 o h2 fs vs x0 : okb h1 = true -> call_of o = Some (fs, vs) -> silentb c h1 = true -> (1 <=? length (robot_odoms C1 c [o])) = true ->
  knows (h1 ++ [o]) (first2 c) = true -> kfind (first2 c) vs = Some (VPose x0) -> la_shows (lat2 2) x0 (se2_comp (Ff c) (Xf (first2 c))) ->
  starts (lat2 2) Xf Ff C1 Wf first2 c (h1 ++ o :: h2).
Proof.
  intros H1 H2 H3 H4 H5 H6 H7. unfold okb in H1. destruct (run C1 Wf h1 (solver_init true)) as [s1 rs1| |] eqn:E; try discriminate H1.
  exists h1, o, h2, s1, rs1, fs, vs, x0. split; [reflexivity|]. split; [exact E|]. split; [exact H2|]. split; [apply silentb_ok; exact H3|].
  split; [intro Z0; pose proof (f_equal (@length _) Z0 : length (robot_odoms C1 c [o]) = 0) as Z1; rewrite Z1 in H4; discriminate H4|]. split; [exact H5|]. split; [right; exact H6|exact H7].
Qed.

Lemma world_a : drives (lat2 2) Xf Ff C1 Wf first2 97%N world.
Proof.
  apply drivesb_ok; [|vm_compute; reflexivity].
  eapply (@starts_same 97%N [] start_a after_a) with (x0 := (shown (Xf (ka 0)))); [vm_compute; reflexivity|reflexivity|vm_compute; reflexivity|vm_compute; reflexivity|vm_compute; reflexivity|reflexivity|apply showsb_ok; vm_compute; reflexivity].
Qed.
Lemma world_b : drives (lat2 2) Xf Ff C1 Wf first2 98%N world.
Proof.
  apply drivesb_ok; [|vm_compute; reflexivity].
  eapply (@starts_same 98%N before_b start_b after_b) with (x0 := (shown (Xf (kb 0)))); [vm_compute; reflexivity|reflexivity|vm_compute; reflexivity|vm_compute; reflexivity|vm_compute; reflexivity|reflexivity|apply showsb_ok; vm_compute; reflexivity].
Qed.
Definition closuresb (id : obsid) (h : list (op Of)) : bool :=
  splits (fun h1 o => forallb (fun b : bf Of => negb (closure C1 id b) || trueb b && beenb (fst id) (h1 ++ [o]) (b_from b) && beenb (snd id) (h1 ++ [o]) (b_to b))
    (candidates C1 o)) [] h.
Lemma closuresb_ok id h : closuresb id h = true -> true_closures (pp := pf) (lat2 2) Xf C1 first2 id h.
Proof.
  intros H h1 o h2 b E Hb K. pose proof (@splits_ok _ _ _ H h1 o h2 E) as Q. cbv beta in Q. rewrite forallb_forall in Q. specialize (Q b Hb). pose proof (f_equal negb K : negb (closure (O := Of) C1 id b) = false) as KK. rewrite KK in Q. cbn [orb app] in Q.
  apply andb_true_iff in Q. destruct Q as [Q Q3]. apply andb_true_iff in Q. destruct Q as [Q1 Q2]. destruct (trueb_ok b Q1) as [A B].
  split; [exact A|]. split; [exact B|]. split; apply beenb_ok; auto.
Qed.
Definition sightingsb (c : N) (l : key) (h : list (op Of)) : bool :=
  splits (fun h1 o => forallb (fun b : bf Of => negb (of_landmark C1 l b && sp_lmk C1 b) || trueb b && (b_to b =? l)%N && beenb c (h1 ++ [o]) (b_from b))
    (all_betweens o)) [] h.
Lemma sightingsb_ok c l h : sightingsb c l h = true -> true_sightings (pp := pf) (lat2 2) Xf C1 first2 c l h.
Proof.
  intros H h1 o h2 b E Hb K1 K2. pose proof (@splits_ok _ _ _ H h1 o h2 E) as Q. cbv beta in Q. rewrite forallb_forall in Q. specialize (Q b Hb). pose proof (f_equal negb (f_equal2 andb K1 K2) : negb (of_landmark (O := Of) C1 l b && sp_lmk (O := Of) C1 b) = false) as KK. rewrite KK in Q. cbn [negb orb andb app] in Q.
  apply andb_true_iff in Q. destruct Q as [Q Q3]. apply andb_true_iff in Q. destruct Q as [Q1 Q2]. destruct (trueb_ok b Q1) as [A B].
  split; [exact A|]. split; [exact B|]. split; [apply N.eqb_eq; auto|apply beenb_ok; auto].
Qed.

Example C83_meets : unrounded_poses (lat2 2) /\ rigid_world (lat2 2) Xf Ff /\
  drives (lat2 2) Xf Ff C1 Wf first2 97%N world /\ drives (lat2 2) Xf Ff C1 Wf first2 98%N world /\
  true_closures (pp := pf) (lat2 2) Xf C1 first2 (97, 98)%N world /\ true_closures (pp := pf) (lat2 2) Xf C1 first2 (97, 97)%N world /\
  true_sightings (pp := pf) (lat2 2) Xf C1 first2 97%N (kl 0) world /\
  map (fun b => (b_from b, b_to b)) (closures_in C1 (97, 98)%N world) = [(ka 0, kb 0); (ka 2, kb 2); (ka 3, kb 1)] /\
  map (fun b => (b_from b, b_to b)) (closures_in C1 (97, 97)%N world) = [(ka 0, ka 4)] /\
  map (fun x => b_from (fst x)) (current C1 (kl 0) (sp_sightings C1 Wf world)) = [ka 1; ka 2; ka 3].
Proof.
  destruct C82_meets as (M1 & M2 & _). split; [exact (UR_grid M1)|]. split; [exact M2|]. split; [exact world_a|]. split; [exact world_b|].
  split; [apply closuresb_ok; vm_compute; reflexivity|]. split; [apply closuresb_ok; vm_compute; reflexivity|]. split; [apply sightingsb_ok; vm_compute; reflexivity|].
  split; [|split]; vm_compute; reflexivity.
Qed.

Example C83_example : kept_f world =
  Some [[ka 0; ka 4]; [ka 0; kb 0]; [ka 2; kb 2]; [ka 3; kb 1]; [ka 1; kl 0]; [ka 2; kl 0]; [ka 3; kl 0]].
Proof. vm_compute. reflexivity. Qed.

(** True closures of the same robots in both directions: not all accepted. *)
Definition both_ways : list (op Of) := start_a :: [fodo 1; fodo 2; start_b; fodo 3; flc (ka 0) (kb 0); flc (kb 2) (ka 2); flc (kb 1) (ka 3)].
Theorem C83_both_ways_refuted : exists h id, id = (97, 98)%N /\ h = both_ways /\ no_removal h /\
  drives (lat2 2) Xf Ff C1 Wf first2 (fst id) h /\ drives (lat2 2) Xf Ff C1 Wf first2 (snd id) h /\
  Forall (fun b : bf Of => with_cov fgeom2 b /\ true_meas (lat2 2) Xf b) (closures_in C1 id h) /\
  length (closures_in C1 id h) = 3 /\
  match run C1 Wf h (solver_init true) with Ok s _ => length (graph_lcs C1 h id (s_nfg s)) = 2 | _ => False end.
Proof.
  exists both_ways, (97, 98)%N. split; [reflexivity|]. split; [reflexivity|]. split; [intros o Ho; repeat (destruct Ho as [<-|Ho]; [reflexivity|]); destruct Ho|].
  split; [|split; [|split]].
  - apply drivesb_ok; [|vm_compute; reflexivity].
    eapply (@starts_same 97%N [] start_a (tl both_ways)) with (x0 := (shown (Xf (ka 0)))); [vm_compute; reflexivity|reflexivity|vm_compute; reflexivity|vm_compute; reflexivity|vm_compute; reflexivity|reflexivity|apply showsb_ok; vm_compute; reflexivity].
  - apply drivesb_ok; [|vm_compute; reflexivity].
    eapply (@starts_same 98%N before_b start_b (skipn 4 both_ways)) with (x0 := (shown (Xf (kb 0)))); [vm_compute; reflexivity|reflexivity|vm_compute; reflexivity|vm_compute; reflexivity|vm_compute; reflexivity|reflexivity|apply showsb_ok; vm_compute; reflexivity].
  - apply Forall_forall. intros b Hb. apply trueb_ok. revert b Hb. apply (proj1 (forallb_forall (fun b : bf Of => trueb b) _)). vm_compute. reflexivity.
  - vm_compute. split; reflexivity.
Qed.
Print Assumptions C83_both_ways_refuted.
