(** * Property C82: on a grid, at right angles, double precision is exact *)
From Coq Require Import ZArith Bool List Lia Permutation.
From Verif Require Import Prelude Num Keys KMap UMap Geometry Factors Clique Pcm Params Solver Lie Floats PcmSpec HistSpec StoreSpec RemoveSpec ApartSpec IncSpec HeuSpec ExactSpec
  PcmProofs TrajProofs AlgProofs Grid Scenes LatticeSpec LatticeNum LatticeProofs LatticeHist.
Set Implicit Arguments.
Local Open Scope Z_scope.

(** Numbers [z / 2^k]: no rounding below [2^53]. *)
Theorem C82_numbers : forall k a b x y, scale k -> Z.abs a < lim -> Z.abs b < lim ->
  (is_num k a x -> is_num k b y -> Z.abs (a + b) < lim -> is_num k (a + b) (dadd x y)) /\
  (is_num k a x -> is_num k b y -> Z.abs (a - b) < lim -> is_num k (a - b) (dsub x y)) /\
  (is_num 0 a x -> is_num k b y -> Z.abs (a * b) < lim -> is_num k (a * b) (dmul x y)).
Proof. intros. split; [|split]; intros; [apply num_add|apply num_sub|apply num_mul]; auto. Qed.
Print Assumptions C82_numbers.

(** Poses: compositions and inverses are the exact ones. *)
Theorem C82_composition : forall G (L : lattice G), right_angled L -> forall M N a b p q, 0 <= M -> 0 <= N -> M + 3 * N < lim ->
  la_rigid L a -> la_rigid L b -> la_within L M a -> la_within L N b -> la_shows L p a -> la_shows L q b ->
  la_shows L (g_comp G p q) (la_comp L a b).
Proof.
  intros G L R M N a b p q HM HN HB Ra Rb Wa Wb Sa Sb. destruct (right_laws R) as [LW]. exact (proj1 (@lw_comp G L LW M N a b p q HM HN HB Ra Rb Wa Wb Sa Sb)).
Qed.
Print Assumptions C82_composition.

Theorem C82_inverse : forall G (L : lattice G), right_angled L -> forall N a p, 0 <= N -> 3 * N < lim ->
  la_rigid L a -> la_within L N a -> la_shows L p a ->
  exists z, la_shows L (g_inv G p) z /\ la_rigid L z /\ forall b, la_comp L (la_comp L b a) z = b /\ la_comp L (la_comp L b z) a = b.
Proof.
  intros G L R N a p HN HB Ra Wa Sa. destruct (right_laws R) as [LW]. exists (lw_inv LW a).
  split; [exact (proj1 (@lw_inverse G L LW N a p HN HB Ra Wa Sa))|]. split; [exact (lw_rigid_inv LW a Ra)|].
  intro b. rewrite <- !(lw_assoc LW), (lw_inv_r LW a Ra), (lw_inv_l LW a Ra), (lw_id_r LW). auto.
Qed.
Print Assumptions C82_inverse.

(** Reference poses after true odometry: the true poses seen from the robot's frame, exactly. *)
Theorem C82_dead_reckoning : forall G (L : lattice G), right_angled L -> forall X F, rigid_world L X F ->
  forall pp C (W : soracles (node_ops G pp)) h1 o h2 s1 rs1 s rs p fs vs c k0 x0,
  run C W h1 (solver_init true) = Ok s1 rs1 -> run C W (h1 ++ o :: h2) (solver_init true) = Ok s rs ->
  s_pcm s = Some p -> call_of o = Some (fs, vs) -> not_mentioned c h1 -> robot_odoms C c [o] <> [] ->
  kfind k0 (s_vals s1) = Some (VPose x0) \/ kfind k0 vs = Some (VPose x0) ->
  let bs := robot_odoms C c (h1 ++ o :: h2) in
  chain k0 bs -> Forall (true_meas L X) bs -> la_shows L (x0 : g_pose G) (la_comp L (F c) (X k0)) ->
  (forall i, (i <= length bs)%nat -> la_within L reach (la_comp L (F c) (X (k0 + N.of_nat i)%N))) ->
  forall i, (i <= length bs)%nat ->
    la_shows L (pn_pose (tref p c (k0 + N.of_nat i)%N : pnode G)) (la_comp L (F c) (X (k0 + N.of_nat i)%N)) /\
    pn_node (tref p c (k0 + N.of_nat i)%N : pnode G) = Z.of_nat i.
Proof. intros G L R X F RW. destruct (right_laws R) as [LW]. exact (@dead_reckoning_true G L LW X F RW). Qed.
Print Assumptions C82_dead_reckoning.

(** True measurements pass every test, however small the positive thresholds. *)
Theorem C82_odometry_test : forall G (L : lattice G), right_angled L -> forall X F, rigid_world L X F -> forall pp (ref : N -> key -> t_T (node_ops G pp)) f,
  with_cov G f -> true_meas L X f -> chr (b_from f) = chr (b_to f) -> in_place L X F ref (b_from f) -> in_place L X F ref (b_to f) ->
  nodes ref (b_from f) (b_to f) + 1 < 2 ^ 53 -> dpositive (pp_odom_trans pp) -> dpositive (pp_odom_rot pp) ->
  sp_odom_test (O := node_ops G pp) ref f = Some true.
Proof. intros G L R X F RW. destruct (right_laws R) as [LW]. exact (@odom_true G L LW X F RW). Qed.
Print Assumptions C82_odometry_test.

Theorem C82_pairwise_test : forall G (L : lattice G), right_angled L -> forall X F, rigid_world L X F -> forall pp (ref : N -> key -> t_T (node_ops G pp)) f1 f2,
  with_cov G f1 -> with_cov G f2 -> true_meas L X f1 -> true_meas L X f2 -> chr (b_from f1) = chr (b_from f2) -> chr (b_to f1) = chr (b_to f2) ->
  (forall k, In k [b_from f1; b_to f1; b_from f2; b_to f2] -> in_place L X F ref k) ->
  nodes ref (b_from f1) (b_from f2) + nodes ref (b_to f1) (b_to f2) + 2 < 2 ^ 53 ->
  dpositive (pp_dist_trans pp) -> dpositive (pp_dist_rot pp) -> sp_loop_test (O := node_ops G pp) ref f1 f2 = Some true.
Proof. intros G L R X F RW. destruct (right_laws R) as [LW]. exact (@pair_true G L LW X F RW). Qed.
Print Assumptions C82_pairwise_test.

Theorem C82_landmark_test : forall G (L : lattice G), right_angled L -> forall X F, rigid_world L X F -> forall pp (ref : N -> key -> t_T (node_ops G pp)) f1 f2,
  with_cov G f1 -> with_cov G f2 -> true_meas L X f1 -> true_meas L X f2 -> chr (b_from f1) = chr (b_from f2) -> b_to f1 = b_to f2 ->
  in_place L X F ref (b_from f1) -> in_place L X F ref (b_from f2) -> nodes ref (b_from f1) (b_from f2) + 2 < 2 ^ 53 ->
  dpositive (pp_dist_trans pp) -> dpositive (pp_dist_rot pp) -> sp_lm_test (O := node_ops G pp) ref f1 f2 = Some true.
Proof. intros G L R X F RW. destruct (right_laws R) as [LW]. exact (@landmark_true G L LW X F RW). Qed.
Print Assumptions C82_landmark_test.

(** What is stored is all in the graph. *)
Theorem C82_all_accepted : forall G (L : lattice G), right_angled L -> forall X F, rigid_world L X F ->
  forall pp C (W : soracles (node_ops G pp)) h s rs id, dpositive (pp_dist_trans pp) -> dpositive (pp_dist_rot pp) ->
  c_loop_check C = true -> run C W h (solver_init true) = Ok s rs -> records_sound C W h -> small C (length (sp_stored C W h)) ->
  (c_incremental C = true -> no_removal h) -> pair_ignored h id = false ->
  let M := live_items C W id h in
  all_true L X F M -> Permutation (graph_lcs C h id (s_nfg s)) (map fst M).
Proof. intros G L R X F RW. destruct (right_laws R) as [LW]. exact (@closures_true G L LW X F RW). Qed.
Print Assumptions C82_all_accepted.

Theorem C82_all_sightings_accepted : forall G (L : lattice G), right_angled L -> forall X F, rigid_world L X F ->
  forall pp C (W : soracles (node_ops G pp)) h s rs l, dpositive (pp_dist_trans pp) -> dpositive (pp_dist_rot pp) ->
  run C W h (solver_init true) = Ok s rs ->
  let M := recorded l (current C l (sp_sightings C W h)) in
  all_true_lm L X F M -> graph_lms C h l (s_nfg s) = map fst M.
Proof. intros G L R X F RW. destruct (right_laws R) as [LW]. exact (@sightings_true G L LW X F RW). Qed.
Print Assumptions C82_all_sightings_accepted.

(** ** Examples: the smallest thresholds there are *)
Definition least : double := S754_finite false 1 (-1074).
Definition pf := PcmParams least least least least least least false.
Definition Of : tops := node_ops fgeom2 pf.
Definition Wf : soracles Of := plain_soracles Of (@se2_id ds).

(** Quarters of a metre. Robot a goes round a square of 1.75 m, turning left; robot b along one side. *)
Definition zpose (c s x y : Z) : se2 zs := @SE2 zs c s x y.
Definition Xa (i : N) : se2 zs :=
  match i with 0%N => zpose 1 0 0 0 | 1%N => zpose 0 1 7 0 | 2%N => zpose (-1) 0 7 7 | 3%N => zpose 0 (-1) 0 7 | _ => zpose 1 0 0 0 end.
Definition Xb (i : N) : se2 zs := match i with 0%N => zpose 0 1 20 3 | 1%N => zpose 0 1 20 13 | _ => zpose (-1) 0 20 23 end.
Definition Xf (k : key) : se2 zs :=
  if (chr k =? 97)%N then Xa (k - ka 0)%N else if (chr k =? 98)%N then Xb (k - kb 0)%N else zpose 1 0 3 (-5).
Definition Ff (c : N) : se2 zs := zpose 1 0 0 0.
Definition shown (z : se2 zs) : se2 ds := @SE2 ds (num 0 (e_c z)) (num 0 (e_s z)) (num 2 (e_x z)) (num 2 (e_y z)).
Definition step (a b : key) : se2 zs := se2_comp (se2_inv (Xf a)) (Xf b).
Definition fbf (f t : key) (m : se2 ds) : bf Of := BF f t (m : t_pose Of) (Gauss (@mone ds 3 : t_cov Of)).
Definition fbet f t : option (factor Of) := Some (FBetween (fbf f t (shown (step f t)))).
Definition fval (k : key) : key * value Of := (k, @VPose Of (shown (Xf k))).
Definition fodo (i : N) : op Of := OpUpdate [fbet (ka i) (ka (i + 1))] [fval (ka (i + 1))] true.
Definition ftwo : list (op Of) :=
  [OpUpdate [] [fval (ka 0)] true; fodo 0; fodo 1; fodo 2; fodo 3;
   OpUpdate [fbet (kb 0) (kb 1); fbet (kb 1) (kb 2)] [fval (kb 0); fval (kb 1); fval (kb 2)] true].
Definition flc (f t : key) : op Of := OpUpdate [fbet f t] [] true.
Definition kept_f (h : list (op Of)) : option (list (list key)) :=
  match run C1 Wf h (solver_init true) with
  | Ok s _ => Some (map (fun f => match f with Some f => f_keys f | None => [] end) (skipn 6 (s_nfg s)))
  | _ => None
  end.
Definition closures : list (op Of) := [flc (ka 0) (ka 4); flc (ka 0) (kb 0); flc (ka 2) (kb 2); flc (ka 3) (kb 1)].

Definition numb (k z : Z) (x : double) : bool :=
  match x, num k z with
  | S754_zero _, _ => z =? 0
  | S754_finite s m e, S754_finite s' m' e' => Bool.eqb s s' && (m =? m')%positive && (e =? e')
  | _, _ => false
  end.
Lemma numb_ok k z x : numb k z x = true -> is_num k z x.
Proof.
  unfold numb, is_num. destruct x as [s|s| |s m e]; try discriminate.
  - intro H. right. apply Z.eqb_eq in H. eauto.
  - destruct (num k z) as [s'|s'| |s' m' e']; try discriminate. intro H. left. apply andb_true_iff in H. destruct H as [H H3]. apply andb_true_iff in H. destruct H as [H1 H2].
    apply eqb_prop in H1. apply Pos.eqb_eq in H2. apply Z.eqb_eq in H3. congruence.
Qed.
Definition showsb (p : se2 ds) (z : se2 zs) : bool :=
  numb 0 (e_c z) (e_c p) && numb 0 (e_s z) (e_s p) && numb 2 (e_x z) (e_x p) && numb 2 (e_y z) (e_y p).
Definition nearb (z : se2 zs) : bool := (Z.abs (e_x z) <=? 1000) && (Z.abs (e_y z) <=? 1000).
Definition sameb (a b : se2 zs) : bool := (e_c a =? e_c b) && (e_s a =? e_s b) && (e_x a =? e_x b) && (e_y a =? e_y b).
Definition unitb (z : se2 zs) : bool := e_c z * e_c z + e_s z * e_s z =? 1.
Ltac parts := repeat match goal with H : _ && _ = true |- _ => apply andb_true_iff in H; destruct H end.
Lemma showsb_ok p z : showsb p z = true -> la_shows (lat2 2) p z.
Proof. unfold showsb. intro H. parts. split; [|split; [|split]]; apply numb_ok; auto. Qed.
Lemma nearb_ok z : nearb z = true -> la_within (lat2 2) reach z.
Proof. unfold nearb. intro H. parts. apply Z.leb_le in H, H0. split; eapply Z.le_trans; eauto; discriminate. Qed.
Lemma sameb_ok a b : sameb a b = true -> a = b.
Proof. destruct a as [c s x y], b as [c' s' x' y']. unfold sameb. cbn. intro H. parts. rewrite Z.eqb_eq in *. congruence. Qed.
Definition placeb (ref : N -> key -> pnode fgeom2) (k : key) : bool :=
  showsb (pn_pose (ref (chr k) k)) (se2_comp (Ff (chr k)) (Xf k)) && nearb (se2_comp (Ff (chr k)) (Xf k)).
Lemma placeb_ok ref k : placeb ref k = true -> in_place (lat2 2) Xf Ff ref k.
Proof. unfold placeb. intro H. parts. split; [apply showsb_ok|apply nearb_ok]; auto. Qed.
Notation fitem := (bfactor (se2 ds) (mat ds 3) * (N -> key -> pnode fgeom2))%type.
Definition trueb (f : bfactor (se2 ds) (mat ds 3)) : bool :=
  let z := step (b_from f) (b_to f) in
  match b_noise f with Gauss _ => showsb (b_meas f) z && unitb z && nearb z && sameb (se2_comp (Xf (b_from f)) z) (Xf (b_to f)) | NonGauss => false end.
Lemma trueb_ok f : trueb f = true -> with_cov fgeom2 f /\ true_meas (lat2 2) Xf f.
Proof.
  unfold trueb. cbv zeta. destruct (b_noise f) as [c|] eqn:E; [|discriminate]. intro H. parts. split; [exists c; exact E|]. exists (step (b_from f) (b_to f)).
  split; [apply showsb_ok; auto|]. split; [apply Z.eqb_eq; auto|]. split; [apply nearb_ok; auto|]. apply sameb_ok; auto.
Qed.
Definition all_trueb (M : list fitem) : bool :=
  forallb (fun x => trueb (fst x) && forallb (fun y => (chr (b_from (fst x)) =? chr (b_from (fst y)))%N && (chr (b_to (fst x)) =? chr (b_to (fst y)))%N &&
    placeb (snd y) (b_from (fst x)) && placeb (snd y) (b_to (fst x)) &&
    (nodes (G := fgeom2) (snd y) (b_from (fst x)) (b_from (fst y)) + nodes (G := fgeom2) (snd y) (b_to (fst x)) (b_to (fst y)) + 2 <? 1000)) M) M.
Lemma all_trueb_ok (M : list fitem) : all_trueb M = true -> all_true (lat2 2) Xf Ff M.
Proof.
  unfold all_trueb. rewrite forallb_forall. intro H. split.
  - intros x Hx. specialize (H x Hx). apply andb_true_iff in H. apply trueb_ok, H.
  - split; [intros x y Hx Hy|intros i j x y _ Hx Hy; apply nth_error_In in Hx, Hy];
      specialize (H x Hx); apply andb_true_iff in H; destruct H as [_ H]; rewrite forallb_forall in H; specialize (H y Hy); cbv beta in H; parts.
    + split; apply N.eqb_eq; auto.
    + split; [apply placeb_ok; auto|]. split; [apply placeb_ok; auto|].
      match goal with E : (_ <? 1000) = true |- _ => apply Z.ltb_lt in E; eapply Z.lt_trans; [exact E|reflexivity] end.
Qed.
Lemma unitb_all k : unitb (Xf k) = true.
Proof.
  unfold Xf. destruct (chr k =? 97)%N; [|destruct (chr k =? 98)%N; [|reflexivity]].
  - unfold Xa. destruct (k - ka 0)%N as [|[[p|p|]|[p|p|]|]]; reflexivity.
  - unfold Xb. destruct (k - kb 0)%N as [|[p|p|]]; reflexivity.
Qed.

Example C82_meets : right_angled (lat2 2) /\ rigid_world (lat2 2) Xf Ff /\ dpositive (pp_dist_trans pf) /\
  all_true (lat2 2) Xf Ff (live_items C1 Wf (97, 98)%N (ftwo ++ closures)) /\ length (live_items C1 Wf (97, 98)%N (ftwo ++ closures)) = 3%nat.
Proof.
  split; [constructor; split; discriminate|]. split; [split; [intro k; apply Z.eqb_eq; apply unitb_all|intro c; reflexivity]|].
  split; [reflexivity|]. split; [apply all_trueb_ok|]; vm_compute; reflexivity.
Qed.

Example C82_example : kept_f (ftwo ++ closures) = Some [[ka 0; ka 4]; [ka 0; kb 0]; [ka 2; kb 2]; [ka 3; kb 1]].
Proof. vm_compute. reflexivity. Qed.

(** Not so for tenths: every number is the double nearest to the true one, and the closure does not pass. *)
Definition tenth (z : Z) : se2 ds := @SE2 ds done dzero (dlit z 10) dzero.
Definition tval (k : key) (z : Z) : key * value Of := (k, @VPose Of (tenth z)).
Definition tbet (f t : key) (z : Z) : option (factor Of) := Some (FBetween (fbf f t (tenth z))).
Definition tenths : list (op Of) :=
  [OpUpdate [] [tval (ka 0) 0] true; OpUpdate [tbet (ka 0) (ka 1) 1] [tval (ka 1) 1] true; OpUpdate [tbet (ka 1) (ka 2) 2] [tval (ka 2) 3] true;
   OpUpdate [tbet (ka 0) (ka 2) 3] [] true].
Theorem C82_off_the_grid_refuted : exists C (W : soracles Of) h b, h = tenths /\ b = fbf (ka 0) (ka 2) (tenth 3) /\ c_odom_check C = true /\
  dpositive (pp_odom_trans pf) /\ dpositive (pp_odom_rot pf) /\
  match run C W h (solver_init true) with
  | Ok s _ => map (fun f => match f with Some f => f_keys f | None => [] end) (s_nfg s) = [[ka 0; ka 1]; [ka 1; ka 2]]
  | _ => False
  end.
Proof.
  exists C1, Wf, tenths, (fbf (ka 0) (ka 2) (tenth 3)). split; [reflexivity|]. split; [reflexivity|]. split; [reflexivity|]. split; [reflexivity|]. split; [reflexivity|].
  vm_compute. reflexivity.
Qed.
Print Assumptions C82_off_the_grid_refuted.
