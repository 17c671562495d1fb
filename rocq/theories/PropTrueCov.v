(** * Property C85: when every measurement is true, everything is kept; poses with covariances *)
From Coq Require Import ZArith QArith Qcanon Bool List Lia Permutation.
From Verif Require Import Prelude Num Keys KMap UMap Geometry Factors Clique Pcm Params Solver Grid PcmSpec HistSpec StoreSpec RemoveSpec ApartSpec IncSpec
  PcmProofs PcmStore TrajProofs AlgProofs UpdateProofs Scenes PlainProofs OutlierSpec Lie LiePoses LieSpec LieProofs LieCov LiePd LieTraj LieInv LieExact LieScenes PropLie
  TrueSpec TrueAny WholeSpec WholeAny TrueCovSpec TrueCovProofs.
Set Implicit Arguments.
Local Open Scope nat_scope.

(** In space; sightings may come without information on rotations. *)
Theorem C85_pose3 : forall N pp, (forall i, logmap N p3_id i = Q2Qc 0) -> inverts (minv N) ->
  forall X F C (W : soracles (pcm3d N pp)) first h s rs, run C W h (solver_init true) = Ok s rs ->
  only_calls h -> true_history_cov (G := geom3 N) (fun c => @pd 6 c) (fun c => @sighting_cov 6 3 3 c) X F C W first h ->
  dpositive (pp_lc pp) -> c_loop_check C = true -> small C (length (sp_stored C W h)) ->
  Permutation (s_nfg s) (map Some (given h)).
Proof.
  intros N pp LI MI X F C W first.
  exact (@whole_graph_cov pose3 p3_id p3_comp p3_inv 5 3 3 _ (logmap N) (minv N) (geom3_group N) ad3_id ad3_comp eq_refl LI MI pp X F C W first).
Qed.
Print Assumptions C85_pose3.

(** In the plane; sightings have positive definite covariances too. *)
Theorem C85_pose2 : forall N pp, (forall i, logmap N p2_id i = Q2Qc 0) -> inverts (minv N) ->
  forall X F C (W : soracles (pcm2d N pp)) first h s rs, run C W h (solver_init true) = Ok s rs ->
  only_calls h -> true_history_cov (G := geom2 N) (fun c => @pd 3 c) (fun c => @pd 3 c) X F C W first h ->
  dpositive (pp_lc pp) -> c_loop_check C = true -> small C (length (sp_stored C W h)) ->
  Permutation (s_nfg s) (map Some (given h)).
Proof.
  intros N pp LI MI X F C W first h s rs R OC TH.
  apply (@whole_graph_cov pose2 p2_id p2_comp p2_inv 2 1 2 _ (logmap N) (minv N) (geom2_group N) ad2_id ad2_comp eq_refl LI MI pp X F C W first h s rs R OC).
  intros b Hb. destruct (TH b Hb) as (A & B & D). split; [exact A|]. split; [exact B|]. intro E. destruct (D E) as (I & c & DC & TS). split; [exact I|]. exists c. split; [exact DC|].
  intros h1 o h2 b' E1 E2 E3 E4. destruct (TS h1 o h2 b' E1 E2 E3 E4) as ((q & Q1 & Q2) & T). split; [|exact T]. exists q. split; [exact Q1|left; exact Q2].
Qed.
Print Assumptions C85_pose2.

(** So it is the graph kept by a solver without outlier rejection, up to the order. *)
Theorem C85_as_without_rejection : forall N pp, (forall i, logmap N p3_id i = Q2Qc 0) -> inverts (minv N) ->
  forall X F C (W : soracles (pcm3d N pp)) first h s rs, run C W h (solver_init true) = Ok s rs ->
  only_calls h -> true_history_cov (G := geom3 N) (fun c => @pd 6 c) (fun c => @sighting_cov 6 3 3 c) X F C W first h ->
  dpositive (pp_lc pp) -> c_loop_check C = true -> small C (length (sp_stored C W h)) ->
  forall C' (W' : soracles (pcm3d N pp)) s' rs', run C' W' h (solver_init false) = Ok s' rs' ->
  (forall o fs vs, In o h -> call_of o = Some (fs, vs) -> ~ In None fs) -> Permutation (s_nfg s) (s_nfg s').
Proof.
  intros N pp LI MI X F C W first h s rs R OC TH Pt HL SM C' W' s' rs' R' NN.
  rewrite (@c35_graph (pcm3d N pp) C' W' h s' rs' R'), <- (@given_all (pcm3d N pp) h); auto; [eapply C85_pose3; eauto|apply calls_add; auto].
Qed.
Print Assumptions C85_as_without_rejection.

(** Each robot pair, each landmark by itself: in histories that also have wrong measurements of other
    robots and landmarks. *)
Theorem C85_closures : forall N pp, (forall i, logmap N p3_id i = Q2Qc 0) -> inverts (minv N) ->
  forall X F C (W : soracles (pcm3d N pp)) first h s rs, run C W h (solver_init true) = Ok s rs ->
  forall id, drives_cov (G := geom3 N) (fun c => @pd 6 c) X F C W first (fst id) h -> drives_cov (G := geom3 N) (fun c => @pd 6 c) X F C W first (snd id) h ->
  true_closures_cov (G := geom3 N) (fun c => @pd 6 c) X C first id h ->
  (c_odom_check C = true -> fst id = snd id -> dpositive (pp_odom pp)) ->
  dpositive (pp_lc pp) -> c_loop_check C = true -> no_removal h ->
  small C (length (sp_stored C W h)) -> pair_ignored h id = false ->
  Permutation (graph_lcs C h id (s_nfg s)) (closures_in C id h).
Proof.
  intros N pp LI MI X F C W first h s rs R id.
  exact (@closures_all_cov pose3 p3_id p3_comp p3_inv 5 3 3 _ (logmap N) (minv N) (geom3_group N) ad3_id ad3_comp eq_refl LI MI pp X F C W first h s rs R id).
Qed.
Print Assumptions C85_closures.
Theorem C85_sightings : forall N pp, (forall i, logmap N p3_id i = Q2Qc 0) -> inverts (minv N) ->
  forall X F C (W : soracles (pcm3d N pp)) first h s rs, run C W h (solver_init true) = Ok s rs ->
  forall c l, drives_cov (G := geom3 N) (fun c => @pd 6 c) X F C W first c h ->
  true_sightings_cov (G := geom3 N) (fun c => @sighting_cov 6 3 3 c) X C first c l h -> dpositive (pp_lc pp) ->
  graph_lms C h l (s_nfg s) = map fst (current C l (sp_sightings C W h)).
Proof.
  intros N pp LI MI X F C W first h s rs R c l.
  exact (@sightings_all_cov pose3 p3_id p3_comp p3_inv 5 3 3 _ (logmap N) (minv N) (geom3_group N) ad3_id ad3_comp eq_refl LI MI pp X F C W first h s rs R c l).
Qed.
Print Assumptions C85_sightings.

(** ** Example *)
Section Check.
Variable O : tops.
Variable C : config.
Variable W : soracles O.
Variable first : N -> key.
Notation op := (op O).
Notation bf := (bf O).

Definition wasb (c : N) (h : list op) (k : key) : bool :=
  let n := length (robot_odoms C c h) in (1 <=? n) && existsb (fun i => (k =? first c + N.of_nat i)%N) (seq 0 (S n)).
Lemma wasb_ok c h k : wasb c h k = true -> been C first c h k.
Proof.
  unfold wasb. cbv zeta. intro H. apply andb_true_iff in H. destruct H as [H1 H2]. apply Nat.leb_le in H1. apply existsb_exists in H2. destruct H2 as (i & Hi & E).
  apply in_seq in Hi. apply N.eqb_eq in E. split; [intro Z0; rewrite Z0 in H1; inversion H1|]. exists i. split; [lia|exact E].
Qed.
Fixpoint rowb (k : key) (bs : list bf) : bool :=
  match bs with [] => true | b :: bs' => (b_from b =? k)%N && (b_to b =? k + 1)%N && rowb (k + 1)%N bs' end.
Lemma rowb_ok bs : forall k, rowb k bs = true -> chain k bs.
Proof.
  induction bs as [|b bs IH]; intros k H; [exact Logic.I|]. cbn [rowb] in H. apply andb_true_iff in H. destruct H as [H H3]. apply andb_true_iff in H. destruct H as [H1 H2].
  apply N.eqb_eq in H1, H2. split; [exact H1|]. split; [exact H2|]. apply IH, H3.
Qed.
Fixpoint stepsb (P : list op -> op -> bool) (don todo : list op) : bool :=
  match todo with [] => true | o :: t => P don o && stepsb P (don ++ [o]) t end.
Lemma stepsb_ok P todo : forall don, stepsb P don todo = true -> forall h1 o h2, todo = h1 ++ o :: h2 -> P (don ++ h1) o = true.
Proof.
  induction todo as [|a t IH]; intros don H h1 o h2 E; [destruct h1; discriminate E|]. cbn [stepsb] in H. apply andb_true_iff in H. destruct H as [H1 H2].
  destruct h1 as [|x h1]; cbn in E; injection E as <- E.
  - rewrite app_nil_r. exact H1.
  - specialize (IH _ H2 h1 o h2 E). rewrite <- app_assoc in IH. exact IH.
Qed.
Definition unnamedb (c : N) (h : list op) : bool :=
  forallb (fun o => forallb (fun b => negb (chr (b_from b) =? c)%N && negb (chr (b_to b) =? c)%N) (all_betweens o)) h.
Lemma unnamedb_ok c h : unnamedb c h = true -> not_mentioned c h.
Proof.
  unfold unnamedb. rewrite forallb_forall. intros H b (o & fs & vs & Hin & E & Hb) M. specialize (H o Hin). rewrite forallb_forall in H.
  assert (Q : In b (all_betweens o)) by (unfold all_betweens; rewrite E; apply In_betweens; exact Hb).
  specialize (H b Q). apply andb_true_iff in H. destruct H as [H1 H2].
  apply negb_true_iff in H1, H2. rewrite N.eqb_neq in H1, H2. destruct M as [M|M]; contradiction.
Qed.
Definition runsb (h : list op) : bool := match run C W h (solver_init true) with Ok _ _ => true | _ => false end.
Lemma odoms_betweens c (h : list op) b : In b (robot_odoms C c h) -> exists o, In o h /\ In b (all_betweens o).
Proof.
  intro H. apply filter_In in H. destruct H as [H _]. apply in_flat_map in H. destruct H as (o & Ho & H). exists o. split; auto. unfold all_betweens.
  destruct (call_of o) as [[fs vs]|]; [|destruct H]. apply filter_In in H. exact (proj1 H).
Qed.
Lemma candidates_betweens (o : op) b : In b (candidates C o) -> In b (all_betweens o).
Proof. unfold candidates, all_betweens. destruct (call_of o) as [[fs vs]|]; auto. intro H. apply filter_In in H. exact (proj1 H). Qed.
End Check.

Definition quarter3 (x y z : Q) : pose3 :=
  exist (fun p => unit3 p = true) (SE3 (K := qs) (@tab qs 3 (fun i j => match i, j with 0, 1 => Q2Qc (-1) | 1, 0 => Q2Qc 1 | 2, 2 => Q2Qc 1 | _, _ => Q2Qc 0 end))
    ((Q2Qc x, (Q2Qc y, (Q2Qc z, tt))) : cvec qs 3)) eq_refl.
Definition pp_tiny : pcm_params := PcmParams (dlit 1 1000) (dlit 1 1000) (dofZ 1) (dlit 1 100) (dofZ 10) (dofZ 10) false.
Notation O3 := (pcm3d N3 pp_tiny).
(** Robot [a] drives a corner, robot [b] has its own frame. *)
Definition X3 (k : key) : pose3 :=
  if (k =? ka 0)%N then at3 0 0 0 else if (k =? ka 1)%N then at3 10 0 0 else if (k =? ka 2)%N then quarter3 20 0 1 else
  if (k =? kb 0)%N then quarter3 20 5 1 else if (k =? kb 1)%N then at3 20 (1 # 3) 1 else if (k =? kl 0)%N then at3 15 15 7 else at3 0 0 0.
Definition F3 (c : N) : pose3 := if (c =? 97)%N then p3_id else quarter3 100 0 0.
Definition first3 (c : N) : key := if (c =? 97)%N then ka 0 else kb 0.
Definition bet3 (c : mat xs 6) (i j : key) : option (factor O3) :=
  Some (@FBetween O3 (BF i j (g_between (geom3 N3) (X3 i) (X3 j)) (Gauss (c : t_cov O3)))).
Definition val3 (k : key) : key * value O3 := (k, @VPose O3 (p3_comp (F3 (chr k)) (X3 k))).
Definition one6 : mat xs 6 := diag ones6.
Definition start3 : op O3 := OpUpdate [bet3 one6 (ka 0) (ka 1)] [val3 (ka 0); val3 (ka 1)] true.
Definition move3 : op O3 := OpUpdate [bet3 one6 (ka 1) (ka 2)] [val3 (ka 2)] true.
Definition start3b : op O3 := OpUpdate [bet3 one6 (kb 0) (kb 1)] [val3 (kb 0); val3 (kb 1)] true.
Definition see3 : op O3 := OpUpdate [bet3 nan_rot6 (ka 1) (kl 0)] [val3 (kl 0)] true.
Definition after3b : list (op O3) :=
  [see3; OpUpdate [bet3 nan_rot6 (ka 2) (kl 0)] [] true; OpUpdate [bet3 one6 (ka 0) (ka 2)] [] true;
   OpUpdate [bet3 one6 (ka 0) (kb 0); bet3 one6 (ka 2) (kb 1)] [] true; OpUpdate [bet3 one6 (ka 1) (kb 0)] [] true].
Definition world3 : list (op O3) := start3 :: move3 :: start3b :: after3b.
Definition W3 : soracles O3 := plain_soracles O3 (at3 0 0 0).

Definition true3 (b : bf O3) : Prop :=
  exact (geom3 N3) X3 b /\ (with_noise (G := geom3 N3) (pp := pp_tiny) (fun c => @pd 6 c) b \/
    chr (b_to b) = 108%N /\ with_noise (G := geom3 N3) (pp := pp_tiny) (fun c => @sighting_cov 6 3 3 c) b).
Lemma one6_pd : @pd 6 one6.
Proof. apply (@diag_pd ones6). vm_compute. reflexivity. Qed.
Lemma nan_rot6_position : @sighting_cov 6 3 3 nan_rot6.
Proof.
  right. split; [exists 0; split; [lia|reflexivity]|].
  replace (@tab xs 3 (fun i j => @get xs 6 nan_rot6 (3 + i) (3 + j))) with (diag ones3) by (vm_compute; reflexivity). apply (@diag_pd ones3). vm_compute. reflexivity.
Qed.
Lemma world3_true : Forall (fun o => Forall true3 (all_betweens o)) world3.
Proof.
  assert (A : forall i j, true3 (BF i j (g_between (geom3 N3) (X3 i) (X3 j)) (Gauss (one6 : t_cov O3)))).
  { intros i j. split; [reflexivity|]. left. exists one6. split; [reflexivity|exact one6_pd]. }
  assert (B : forall i, true3 (BF i (kl 0) (g_between (geom3 N3) (X3 i) (X3 (kl 0))) (Gauss (nan_rot6 : t_cov O3)))).
  { intros i. split; [reflexivity|]. right. split; [vm_compute; reflexivity|]. exists nan_rot6. split; [reflexivity|exact nan_rot6_position]. }
  repeat (apply Forall_cons; [repeat (apply Forall_cons; [apply A || apply B|]); apply Forall_nil|]). apply Forall_nil.
Qed.
Lemma world3_all o b : In o world3 -> In b (all_betweens o) -> true3 b.
Proof. intros Ho Hb. pose proof (proj1 (Forall_forall _ _) world3_true o Ho) as H. exact (proj1 (Forall_forall _ _) H b Hb). Qed.
Definition driveb (c : N) : bool := (chr (first3 c) =? c)%N && rowb (O := O3) (first3 c) (robot_odoms C1 c world3) && negb (c =? 108)%N.
Lemma drives3 c : starts_cov (G := geom3 N3) X3 F3 C1 W3 first3 c world3 -> driveb c = true ->
  drives_cov (G := geom3 N3) (fun c => @pd 6 c) X3 F3 C1 W3 first3 c world3.
Proof.
  intros ST H. unfold driveb in H. apply andb_true_iff in H. destruct H as [H H3]. apply andb_true_iff in H. destruct H as [H1 H2].
  assert (T : forall b, In b (robot_odoms C1 c world3) -> true3 b /\ chr (b_to b) = c).
  { intros b Hb. destruct (@odoms_betweens O3 C1 c world3 b Hb) as (o & Ho & Hb'). split; [exact (@world3_all o b Ho Hb')|].
    apply filter_In in Hb. destruct Hb as [_ Hb]. apply N.eqb_eq. exact Hb. }
  split; [exact ST|]. split; [apply N.eqb_eq; exact H1|]. split; [apply rowb_ok; exact H2|]. split; apply Forall_forall; intros b Hb; destruct (T b Hb) as ((A & B) & E).
  - exact A.
  - destruct B as [B|[B _]]; [exact B|]. rewrite E in B. rewrite B in H3. discriminate H3.
Qed.
Lemma starts3 c h1 o h2 fs vs : world3 = h1 ++ o :: h2 -> runsb C1 W3 h1 = true -> call_of o = Some (fs, vs) -> unnamedb c h1 = true ->
  (1 <=? length (robot_odoms C1 c [o])) = true -> knows (h1 ++ [o]) (first3 c) = true ->
  kfind (first3 c) vs = Some (@VPose O3 (p3_comp (F3 c) (X3 (first3 c)))) -> starts_cov (G := geom3 N3) X3 F3 C1 W3 first3 c world3.
Proof.
  intros E R E2 U O1 K V. unfold runsb in R. destruct (run C1 W3 h1 (solver_init true)) as [s1 rs1| |] eqn:ER; try discriminate R.
  exists h1, o, h2, s1, rs1, fs, vs. split; [exact E|]. split; [exact ER|]. split; [exact E2|]. split; [apply unnamedb_ok; exact U|].
  split; [intro Z0; pose proof (f_equal (@length _) Z0 : length (robot_odoms C1 c [o]) = 0) as Z1; rewrite Z1 in O1; discriminate O1|]. split; [exact K|right; exact V].
Qed.
Lemma world3_a : drives_cov (G := geom3 N3) (fun c => @pd 6 c) X3 F3 C1 W3 first3 97%N world3.
Proof.
  apply drives3; [|vm_compute; reflexivity]. eapply (@starts3 97%N [] start3 (tl world3) _ _ eq_refl); [vm_compute; reflexivity|reflexivity|vm_compute; reflexivity|vm_compute; reflexivity|vm_compute; reflexivity|reflexivity].
Qed.
Lemma world3_b : drives_cov (G := geom3 N3) (fun c => @pd 6 c) X3 F3 C1 W3 first3 98%N world3.
Proof.
  apply drives3; [|vm_compute; reflexivity]. eapply (@starts3 98%N [start3; move3] start3b after3b _ _ eq_refl); [vm_compute; reflexivity|reflexivity|vm_compute; reflexivity|vm_compute; reflexivity|vm_compute; reflexivity|reflexivity].
Qed.
Definition closed3b (id : obsid) : bool :=
  stepsb (O := O3) (fun h1 o => forallb (fun b => negb (closure C1 id b) || wasb C1 first3 (fst id) (h1 ++ [o]) (b_from b) && wasb C1 first3 (snd id) (h1 ++ [o]) (b_to b)) (candidates C1 o)) [] world3.
Lemma closures3 id : closed3b id = true -> true_closures_cov (G := geom3 N3) (pp := pp_tiny) (fun c => @pd 6 c) X3 C1 first3 id world3.
Proof.
  intros H h1 o h2 b E Hb K. pose proof (@stepsb_ok O3 _ _ _ H h1 o h2 E) as Q. cbv beta in Q. rewrite forallb_forall in Q. specialize (Q b Hb). pose proof (f_equal negb K : negb (closure (O := O3) C1 id b) = false) as KK. rewrite KK in Q. cbn [orb app] in Q.
  apply andb_true_iff in Q. destruct Q as [Q1 Q2].
  assert (Ho : In o world3) by (rewrite E; apply in_or_app; right; left; reflexivity).
  destruct (@world3_all o b Ho (@candidates_betweens O3 C1 o b Hb)) as (A & B). split; [|split; [exact A|split; apply wasb_ok; assumption]].
  destruct B as [B|[B _]]; [exact B|]. exfalso. unfold closure in K. apply andb_true_iff in K. destruct K as [_ K]. pose proof (f_equal negb K : negb (negb (sp_lmk (O := O3) C1 b)) = false) as K'. rewrite negb_involutive in K'.
  unfold sp_lmk, sp_landmark in K'. rewrite B in K'. rewrite orb_true_r in K'. discriminate K'.
Qed.
Definition seen3b (c : N) (l : key) : bool :=
  stepsb (O := O3) (fun h1 o => forallb (fun b => negb (of_landmark C1 l b && sp_lmk C1 b) || (b_to b =? l)%N && wasb C1 first3 c (h1 ++ [o]) (b_from b)) (all_betweens o)) [] world3.
Lemma sightings3 c l : seen3b c l = true -> true_sightings_cov (G := geom3 N3) (pp := pp_tiny) (fun c => @sighting_cov 6 3 3 c) X3 C1 first3 c l world3.
Proof.
  intros H h1 o h2 b E Hb K1 K2. pose proof (@stepsb_ok O3 _ _ _ H h1 o h2 E) as Q. cbv beta in Q. rewrite forallb_forall in Q. specialize (Q b Hb). pose proof (f_equal negb (f_equal2 andb K1 K2) : negb (of_landmark (O := O3) C1 l b && sp_lmk (O := O3) C1 b) = false) as KK. rewrite KK in Q. cbn [orb app] in Q.
  apply andb_true_iff in Q. destruct Q as [Q1 Q2].
  assert (Ho : In o world3) by (rewrite E; apply in_or_app; right; left; reflexivity).
  destruct (@world3_all o b Ho Hb) as (A & B). split; [|split; [exact A|split; [apply N.eqb_eq; exact Q1|apply wasb_ok; exact Q2]]].
  destruct B as [(q & B1 & B2)|[_ B]]; [exists q; split; [exact B1|left; exact B2]|exact B].
Qed.
Definition kind3b (b : bf O3) : bool :=
  negb (b_from b =? b_to b)%N && (if sp_lmk C1 b then (sp_landmark_key [108%N] b =? kl 0)%N else of_pair (97, 98)%N b || of_pair (97, 97)%N b).
Lemma kinds3 : forallb kind3b (non_odometry C1 world3) = true.
Proof. vm_compute. reflexivity. Qed.
Lemma introduced3 : introduced C1 (kl 0) world3.
Proof.
  exists [start3; move3; start3b], see3, (tl after3b), (BF (ka 1) (kl 0) (g_between (geom3 N3) (X3 (ka 1)) (X3 (kl 0))) (Gauss (nan_rot6 : t_cov O3))).
  split; [reflexivity|]. split; [intros o Ho; repeat (destruct Ho as [<-|Ho]; [reflexivity|]); destruct Ho|]. split; [reflexivity|]. split; [vm_compute; reflexivity|].
  intros o Ho. repeat (destruct Ho as [<-|Ho]; [reflexivity|]). destruct Ho.
Qed.
Example C85_meets : (forall i, logmap N3 p3_id i = Q2Qc 0) /\ inverts (minv N3) /\ only_calls world3 /\
  true_history_cov (G := geom3 N3) (fun c => @pd 6 c) (fun c => @sighting_cov 6 3 3 c) X3 F3 C1 W3 first3 world3 /\
  dpositive (pp_lc pp_tiny) /\ c_loop_check C1 = true /\ c_odom_check C1 = true.
Proof.
  split; [intro i; do 6 (destruct i as [|i]; [vm_compute; reflexivity|]); reflexivity|]. split; [exact xinv_inverts|].
  split; [intros o Ho; repeat (destruct Ho as [<-|Ho]; [discriminate|]); destruct Ho|]. split; [|split; [vm_compute; reflexivity|split; reflexivity]].
  intros b Hb. pose proof (proj1 (forallb_forall _ _) kinds3 b Hb) as K. unfold kind3b in K. apply andb_true_iff in K. destruct K as [K1 K2].
  split; [apply N.eqb_neq, negb_true_iff; exact K1|]. split; intro E.
  - assert (E' : sp_lmk (O := O3) C1 b = false) by exact E. rewrite E' in K2. apply orb_true_iff in K2. destruct K2 as [K2|K2]; [exists (97, 98)%N|exists (97, 97)%N]; (split; [exact K2|]); (split; [exact world3_a|]).
    + split; [exact world3_b|]. split; [apply closures3; vm_compute; reflexivity|]. intros _ _. vm_compute. reflexivity.
    + split; [exact world3_a|]. split; [apply closures3; vm_compute; reflexivity|]. intros _ _. vm_compute. reflexivity.
  - cbv zeta. assert (E' : sp_lmk (O := O3) C1 b = true) by exact E. rewrite E' in K2. apply N.eqb_eq in K2.
    assert (K3 : sp_landmark_key (O := cov_ops (geom3 N3) pp_tiny) (c_special C1) b = kl 0) by exact K2. rewrite K3. split; [exact introduced3|]. exists 97%N. split; [exact world3_a|]. apply sightings3. vm_compute. reflexivity.
Qed.

Definition kept3 (h : list (op O3)) : option (list (list key)) :=
  match run C1 W3 h (solver_init true) with Ok s _ => Some (map (fun f => match f with Some f => @f_keys O3 f | None => [] end) (s_nfg s)) | _ => None end.
Example C85_example : kept3 world3 = Some
  [[ka 0; ka 1]; [ka 1; ka 2]; [kb 0; kb 1]; [ka 0; ka 2]; [ka 0; kb 0]; [ka 2; kb 1]; [ka 1; kb 0]; [ka 1; kl 0]; [ka 2; kl 0]].
Proof. vm_compute. reflexivity. Qed.

(** In the plane, sightings without information on rotations (the last component of tangent vectors
    turns): rejected although true. *)
Definition position2 (c : mat xs 3) : Prop := get c 2 2 = None /\ pd (@tab xs 2 (fun i j => get c i j)).
Definition nan_rot3 : mat xs 3 := @tab xs 3 (fun i j => if i =? j then (if i <? 2 then Some (Q2Qc 1) else None) else Some (Q2Qc 0)).
(** Inverses of matrices with NaN are NaN. *)
Definition nan_in (n : nat) (A : nat -> nat -> xq) : bool :=
  existsb (fun i => existsb (fun j => match A i j with None => true | _ => false end) (seq 0 n)) (seq 0 n).
Definition xinv_nan (n : nat) (A : nat -> nat -> xq) (i j : nat) : xq := if nan_in n A then None else xinv n A i j.
Definition NN2 : numerics pose2 := Numerics log2 xinv_nan.
Lemma nan_in_iff n A : nan_in n A = true <-> exists i j, i < n /\ j < n /\ A i j = None.
Proof.
  unfold nan_in. rewrite existsb_exists. split.
  - intros (i & Hi & H). apply existsb_exists in H. destruct H as (j & Hj & H). apply in_seq in Hi. apply in_seq in Hj. exists i, j. split; [lia|]. split; [lia|].
    destruct (A i j); [discriminate H|reflexivity].
  - intros (i & j & Hi & Hj & H). exists i. split; [apply in_seq; lia|]. apply existsb_exists. exists j. split; [apply in_seq; lia|]. rewrite H. reflexivity.
Qed.
Lemma xinv_nan_inverts : inverts xinv_nan.
Proof.
  intros n A H. destruct (@xinv_inverts n A H) as (B & E & M). exists B. split; [|exact M]. intros i j Hi Hj. unfold xinv_nan.
  destruct (nan_in n A) eqn:EN; [|exact (E i j Hi Hj)]. exfalso. apply nan_in_iff in EN. destruct EN as (a & b & Ha & Hb & EN).
  destruct H as (H & _). specialize (H a b Ha Hb). rewrite get_tab in H by assumption. apply H. exact EN.
Qed.
Notation O2 := (pcm2d NN2 pp_tiny).
Definition X2 (k : key) : pose2 := if (k =? ka 0)%N then at2 0 0 else if (k =? ka 1)%N then at2 10 0 else at2 15 15.
Definition bet2 (c : mat xs 3) (i j : key) : option (factor O2) :=
  Some (@FBetween O2 (BF i j (g_between (geom2 NN2) (X2 i) (X2 j)) (Gauss (c : t_cov O2)))).
Definition val2 (k : key) : key * value O2 := (k, @VPose O2 (p2_comp p2_id (X2 k))).
Definition start2 : op O2 := OpUpdate [bet2 (diag ones3) (ka 0) (ka 1)] [val2 (ka 0); val2 (ka 1)] true.
Definition again2 : list (op O2) := [OpUpdate [bet2 nan_rot3 (ka 0) (kl 0)] [val2 (kl 0)] true; OpUpdate [bet2 nan_rot3 (ka 1) (kl 0)] [] true].
Definition world2c : list (op O2) := start2 :: again2.
Definition W2 : soracles O2 := plain_soracles O2 (at2 0 0).
Lemma world2c_a : drives_cov (G := geom2 NN2) (fun c => @pd 3 c) X2 (fun _ => p2_id) C1 W2 (fun _ => ka 0) 97%N world2c.
Proof.
  assert (E : robot_odoms C1 97%N world2c = [BF (ka 0) (ka 1) (g_between (geom2 NN2) (X2 (ka 0)) (X2 (ka 1))) (Gauss (diag ones3 : t_cov O2))]) by reflexivity.
  split; [|split; [vm_compute; reflexivity|]].
  - exists [], start2, again2. eexists. eexists. eexists. eexists. split; [reflexivity|]. split; [reflexivity|]. split; [reflexivity|].
    split; [intros b (o & fs & vs & [] & _)|]. split; [discriminate|]. split; [reflexivity|]. right. reflexivity.
  - split; [apply rowb_ok; vm_compute; reflexivity|]. split; apply Forall_forall; intros b Hb; pose proof (eq_rect _ (fun l => In b l) Hb _ E) as Hb'; destruct Hb' as [<-|[]]; [reflexivity|].
    exists (diag ones3). split; [reflexivity|]. apply (@diag_pd ones3). vm_compute. reflexivity.
Qed.
Theorem C85_plane_refuted : exists N pp X F C (W : soracles (pcm2d N pp)) first h s rs c l,
  (forall i, logmap N p2_id i = Q2Qc 0) /\ inverts (minv N) /\ (forall n A, (exists i j, i < n /\ j < n /\ A i j = None) -> forall i j, minv N n A i j = None) /\ run C W h (solver_init true) = Ok s rs /\
  drives_cov (G := geom2 N) (fun c => @pd 3 c) X F C W first c h /\ true_sightings_cov (G := geom2 N) position2 X C first c l h /\ dpositive (pp_lc pp) /\
  length (current C l (sp_sightings C W h)) = 2 /\ length (graph_lms C h l (s_nfg s)) = 1.
Proof.
  assert (H : match run C1 W2 world2c (solver_init true) with Ok s _ => length (graph_lms C1 world2c (kl 0) (s_nfg s)) = 1 | _ => False end) by (vm_compute; reflexivity).
  apply run_check in H. destruct H as (s & rs & R & E).
  exists NN2, pp_tiny, X2, (fun _ => p2_id), C1, W2, (fun _ => ka 0), world2c, s, rs, 97%N, (kl 0).
  split; [intro i; do 3 (destruct i as [|i]; [apply Qc_is_canon; vm_compute; reflexivity|]); apply Qc_is_canon; reflexivity|]. split; [exact xinv_nan_inverts|]. split; [intros n A HA i j; cbn [minv NN2]; unfold xinv_nan; rewrite (proj2 (nan_in_iff n A) HA); reflexivity|]. split; [exact R|]. split; [exact world2c_a|].
  split; [|split; [vm_compute; reflexivity|split; [vm_compute; reflexivity|exact E]]].
  assert (Q : position2 nan_rot3).
  { split; [reflexivity|]. replace (@tab xs 2 (fun i j => get nan_rot3 i j)) with (diag [1; 1]%Q) by (vm_compute; reflexivity). apply (@diag_pd [1; 1]%Q). vm_compute. reflexivity. }
  intros h1 o h2 b E1 Hb _ LM. destruct h1 as [|o1 [|o2 [|o3 h1]]]; cbn in E1; injection E1; intros; subst.
  - destruct Hb as [<-|[]]. exfalso. vm_compute in LM. discriminate LM.
  - destruct Hb as [<-|[]]. split; [exists nan_rot3; split; [reflexivity|exact Q]|]. split; [reflexivity|]. split; [reflexivity|]. apply wasb_ok. vm_compute. reflexivity.
  - destruct Hb as [<-|[]]. split; [exists nan_rot3; split; [reflexivity|exact Q]|]. split; [reflexivity|]. split; [reflexivity|]. apply wasb_ok. vm_compute. reflexivity.
  - destruct h1; discriminate.
Qed.
Print Assumptions C85_plane_refuted.
