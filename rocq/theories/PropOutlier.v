(** * C80: exact closures in the majority are what is accepted *)
From Coq Require Import Lia Permutation.
From Verif Require Import Prelude Num Keys KMap UMap Geometry Factors Clique Pcm Solver PcmSpec HistSpec StoreSpec RemoveSpec ApartSpec IncSpec HeuSpec ExactSpec TrajProofs
  AlgProofs GroupSpec GroupProofs OutlierSpec OutlierProofs Grid Scenes PropApart PropExact PropGroup PropTraj.
Local Open Scope nat_scope.

(** ** What a test against an exact measurement looks at *)

(** [X]: true poses; [F]: frames of the robots' odometry.  An exact earlier closure: only what the later one
    is off by. *)
Theorem C80_later : forall G, pose_group G -> forall X F pp (ref : N -> key -> t_T (node_ops G pp)) f1 f2,
  gaussian G f1 -> gaussian G f2 -> chr (b_from f1) = chr (b_from f2) -> chr (b_to f1) = chr (b_to f2) ->
  (forall k, In k [b_from f1; b_to f1; b_from f2; b_to f2] -> seen_right G X F ref k) -> b_meas f1 = true_step G X f1 ->
  sp_loop_test (O := node_ops G pp) ref f1 f2 = Some (small_error G pp (off G X f2) (round G ref f1 f2) (round_turns G ref f1 f2)).
Proof. intros G L X F pp ref f1 f2 G1 G2 E1 E2 HR E. rewrite <- (way_later L X f1 f2 E). apply (@way_test G L X F pp); auto. Qed.
Print Assumptions C80_later.

(** An exact later closure: what the earlier one is off by, seen from the far end of the later one. *)
Theorem C80_earlier : forall G, pose_group G -> forall X F pp (ref : N -> key -> t_T (node_ops G pp)) f1 f2,
  gaussian G f1 -> gaussian G f2 -> chr (b_from f1) = chr (b_from f2) -> chr (b_to f1) = chr (b_to f2) ->
  (forall k, In k [b_from f1; b_to f1; b_from f2; b_to f2] -> seen_right G X F ref k) -> b_meas f2 = true_step G X f2 ->
  sp_loop_test (O := node_ops G pp) ref f1 f2 = Some (small_error G pp (off_from G X (b_to f2) f1) (round G ref f1 f2) (round_turns G ref f1 f2)).
Proof. intros G L X F pp ref f1 f2 G1 G2 E1 E2 HR E. rewrite <- (way_earlier L X f1 f2 E). apply (@way_test G L X F pp); auto. Qed.
Print Assumptions C80_earlier.

Theorem C80_landmark_tests : forall G, pose_group G -> forall X F pp (ref : N -> key -> t_T (node_ops G pp)) f1 f2,
  gaussian G f1 -> gaussian G f2 -> chr (b_from f1) = chr (b_from f2) -> b_to f1 = b_to f2 ->
  (forall k, In k [b_from f1; b_from f2] -> seen_right G X F ref k) ->
  (b_meas f1 = true_step G X f1 ->
     sp_lm_test (O := node_ops G pp) ref f1 f2 = Some (small_error G pp (off G X f2) (round_lm G ref f1 f2) (round_turns_lm G ref f1 f2))) /\
  (b_meas f2 = true_step G X f2 ->
     sp_lm_test (O := node_ops G pp) ref f1 f2 = Some (small_error G pp (g_inv G (off G X f1)) (round_lm G ref f1 f2) (round_turns_lm G ref f1 f2))).
Proof.
  intros G L X F pp ref f1 f2 G1 G2 E1 E2 HR. split; intro E.
  - rewrite <- (way_later_lm L X f1 f2 E2 E). apply (@way_test_lm G L X F pp); auto.
  - rewrite <- (way_earlier_lm L X f1 f2 E2 E). apply (@way_test_lm G L X F pp); auto.
Qed.
Print Assumptions C80_landmark_tests.

(** ** What is accepted *)

(** More than half of the closures of a pair are exact and the others are off by more than the
    thresholds: the exact ones are in the graph and no other is. *)
Theorem C80_majority : forall G, pose_group G -> forall X F pp, let O := node_ops G pp in
  g_log_tsq G (g_id G) = dzero -> g_log_rsq G (g_id G) = dzero -> dpositive (pp_dist_trans pp) -> dpositive (pp_dist_rot pp) ->
  forall C (W : soracles O) h s rs id good,
  c_loop_check C = true -> run C W h (solver_init true) = Ok s rs -> records_sound C W h -> small C (length (sp_stored C W h)) ->
  (c_incremental C = true -> no_removal h) -> pair_ignored h id = false ->
  let M := live_items C W id h in
  comparable G X F M -> exact_goods G X M good -> off_others G X pp M good -> most (length M) good ->
  Permutation (graph_lcs C h id (s_nfg s)) (at_places M (members (length M) good)).
Proof. intros G L X F pp O Lt Lr Pt Pr. exact (@outliers_out G L X F pp Lt Lr Pt Pr). Qed.
Print Assumptions C80_majority.

Theorem C80_landmark_majority : forall G, pose_group G -> forall X F pp, let O := node_ops G pp in
  g_log_tsq G (g_id G) = dzero -> g_log_rsq G (g_id G) = dzero -> dpositive (pp_dist_trans pp) -> dpositive (pp_dist_rot pp) ->
  forall C (W : soracles O) h s rs l good, run C W h (solver_init true) = Ok s rs ->
  let M := recorded l (current C l (sp_sightings C W h)) in
  comparable_lm G X F M -> exact_goods G X M good -> off_others_lm G X pp M good -> most (length M) good ->
  graph_lms C h l (s_nfg s) = at_places M (members (length M) good).
Proof. intros G L X F pp O Lt Lr Pt Pr. exact (@wrong_sightings_out G L X F pp Lt Lr Pt Pr). Qed.
Print Assumptions C80_landmark_majority.

(** ** Examples *)
Definition gpose_eqb (a b : gpose) : bool :=
  (gx a =? gx b)%Z && (gy a =? gy b)%Z && match gr a, gr b with R0, R0 | R1, R1 | R2, R2 | R3, R3 => true | _, _ => false end.
Lemma gpose_eqb_ok a b : gpose_eqb a b = true -> a = b.
Proof.
  destruct a as [x y r], b as [x' y' r']. unfold gpose_eqb. cbn. intro H. apply andb_true_iff in H. destruct H as [H H3].
  apply andb_true_iff in H. destruct H as [H1 H2]. apply Z.eqb_eq in H1, H2. destruct r, r'; congruence.
Qed.
Notation item1 := (bfactor (g_pose grid) (g_cov grid) * (N -> key -> pnode grid))%type.
Section Checks.
Variable X : key -> gpose.
Definition rightb (ref : N -> key -> pnode grid) (k : key) : bool := gpose_eqb (pn_pose (ref (chr k) k)) (gp_comp gp_id (X k)).
Definition gaussb (f : bfactor (g_pose grid) (g_cov grid)) : bool := match b_noise f with Gauss _ => true | NonGauss => false end.
Definition comparableb (M : list item1) : bool :=
  forallb (fun x => gaussb (fst x) && forallb (fun y => (chr (b_from (fst x)) =? chr (b_from (fst y)))%N && (chr (b_to (fst x)) =? chr (b_to (fst y)))%N &&
    (rightb (snd y) (b_from (fst x)) && rightb (snd y) (b_to (fst x))) && (round grid (snd y) (fst x) (fst y) <? 1000)%Z) M) M.
Definition comparable_lmb (M : list item1) : bool :=
  forallb (fun x => gaussb (fst x) && forallb (fun y => (chr (b_from (fst x)) =? chr (b_from (fst y)))%N && (b_to (fst x) =? b_to (fst y))%N &&
    rightb (snd y) (b_from (fst x)) && (round_lm grid (snd y) (fst x) (fst y) <? 1000)%Z) M) M.
Definition exactb (M : list item1) (good : nat -> bool) : bool :=
  forallb (fun i => match nth_error M i with Some x => negb (good i) || gpose_eqb (b_meas (fst x)) (true_step grid X (fst x)) | None => true end) (seq 0 (length M)).
Definition pairb (M : list item1) (p : nat -> nat -> item1 -> item1 -> bool) : bool :=
  forallb (fun i => forallb (fun j => match nth_error M i, nth_error M j with Some x, Some y => negb (i <? j) || p i j x y | _, _ => true end) (seq 0 (length M)))
    (seq 0 (length M)).
Definition off_p (good : nat -> bool) (i j : nat) (x y : item1) : bool :=
  let t e := negb (small_error grid pp1 e (round grid (snd y) (fst x) (fst y)) (round_turns grid (snd y) (fst x) (fst y))) in
  (negb (good i && negb (good j)) || t (off grid X (fst y))) && (negb (negb (good i) && good j) || t (off_from grid X (b_to (fst y)) (fst x))).
Definition off_lm_p (good : nat -> bool) (i j : nat) (x y : item1) : bool :=
  let t e := negb (small_error grid pp1 e (round_lm grid (snd y) (fst x) (fst y)) (round_turns_lm grid (snd y) (fst x) (fst y))) in
  (negb (good i && negb (good j)) || t (off grid X (fst y))) && (negb (negb (good i) && good j) || t (gp_inv (off grid X (fst x)))).

Lemma gaussb_ok f : gaussb f = true -> gaussian grid f.
Proof. unfold gaussb, gaussian. destruct (b_noise f) as [c|] eqn:E; [intros _; exists c; reflexivity|discriminate]. Qed.
Lemma rightb_ok ref k : rightb ref k = true -> seen_right grid X (fun _ => gp_id) ref k.
Proof. apply gpose_eqb_ok. Qed.

Ltac parts := repeat match goal with H : _ && _ = true |- _ => apply andb_true_iff in H; destruct H end.
Lemma comparableb_ok M : comparableb M = true -> comparable grid X (fun _ => gp_id) M.
Proof.
  unfold comparableb. rewrite forallb_forall. intro H.
  assert (P : forall x y, In x M -> In y M -> ((chr (b_from (fst x)) =? chr (b_from (fst y)))%N && (chr (b_to (fst x)) =? chr (b_to (fst y)))%N &&
    (rightb (snd y) (b_from (fst x)) && rightb (snd y) (b_to (fst x))) && (round grid (snd y) (fst x) (fst y) <? 1000)%Z) = true).
  { intros x y Hx Hy. specialize (H x Hx). apply andb_true_iff in H. destruct H as [_ H]. rewrite forallb_forall in H. exact (H y Hy). }
  split; [intros x Hx; specialize (H x Hx); parts; apply gaussb_ok; auto|].
  split; [intros x y Hx Hy|intros i j x y _ Hx Hy; apply nth_error_In in Hx, Hy]; specialize (P x y Hx Hy); parts.
  - split; apply N.eqb_eq; auto.
  - split; [apply rightb_ok; auto|]. split; [apply rightb_ok; auto|]. match goal with E : (round _ _ _ _ <? _)%Z = true |- _ => apply Z.ltb_lt in E; eapply Z.lt_trans; [exact E|reflexivity] end.
Qed.
Lemma comparable_lmb_ok M : comparable_lmb M = true -> comparable_lm grid X (fun _ => gp_id) M.
Proof.
  unfold comparable_lmb. rewrite forallb_forall. intro H.
  assert (P : forall x y, In x M -> In y M -> ((chr (b_from (fst x)) =? chr (b_from (fst y)))%N && (b_to (fst x) =? b_to (fst y))%N &&
    rightb (snd y) (b_from (fst x)) && (round_lm grid (snd y) (fst x) (fst y) <? 1000)%Z) = true).
  { intros x y Hx Hy. specialize (H x Hx). apply andb_true_iff in H. destruct H as [_ H]. rewrite forallb_forall in H. exact (H y Hy). }
  split; [intros x Hx; specialize (H x Hx); parts; apply gaussb_ok; auto|].
  split; [intros x y Hx Hy|intros i j x y _ Hx Hy; apply nth_error_In in Hx, Hy]; specialize (P x y Hx Hy); parts.
  - split; apply N.eqb_eq; auto.
  - split; [apply rightb_ok; auto|]. match goal with E : (round_lm _ _ _ _ <? _)%Z = true |- _ => apply Z.ltb_lt in E; eapply Z.lt_trans; [exact E|reflexivity] end.
Qed.
Lemma at_in (M : list item1) i x : nth_error M i = Some x -> In i (seq 0 (length M)).
Proof. intro E. apply in_seq. assert (i < length M) by (apply nth_error_Some; congruence). lia. Qed.
Lemma exactb_ok M good : exactb M good = true -> exact_goods grid X M good.
Proof.
  unfold exactb. rewrite forallb_forall. intros H i x E Gi. specialize (H i (at_in M i x E)). rewrite E, Gi in H. apply gpose_eqb_ok. exact H.
Qed.
Lemma pairb_ok M p : pairb M p = true -> forall i j x y, nth_error M i = Some x -> nth_error M j = Some y -> i < j -> p i j x y = true.
Proof.
  unfold pairb. rewrite forallb_forall. intros H i j x y Ex Ey Lij. specialize (H i (at_in M i x Ex)). rewrite forallb_forall in H.
  specialize (H j (at_in M j y Ey)). rewrite Ex, Ey in H. apply Nat.ltb_lt in Lij. rewrite Lij in H. exact H.
Qed.
Lemma off_ok M good : pairb M (off_p good) = true -> off_others grid X pp1 M good.
Proof.
  intros H i j x y Ex Ey Lij. pose proof (pairb_ok _ _ H i j x y Ex Ey Lij) as P. unfold off_p in P. cbv zeta in P. apply andb_true_iff in P. destruct P as [P1 P2].
  split; intros Gi Gj; [rewrite Gi, Gj in P1; apply negb_true_iff; exact P1|rewrite Gi, Gj in P2; apply negb_true_iff; exact P2].
Qed.
Lemma off_lm_ok M good : pairb M (off_lm_p good) = true -> off_others_lm grid X pp1 M good.
Proof.
  intros H i j x y Ex Ey Lij. pose proof (pairb_ok _ _ H i j x y Ex Ey Lij) as P. unfold off_lm_p in P. cbv zeta in P. apply andb_true_iff in P. destruct P as [P1 P2].
  split; intros Gi Gj; [rewrite Gi, Gj in P1; apply negb_true_iff; exact P1|rewrite Gi, Gj in P2; apply negb_true_iff; exact P2].
Qed.
End Checks.

(** The scene of [group_h], with a wrong sighting between the two right ones. *)
Definition scene_pose (k : key) : gpose := if (k =? kl 1)%N then fwd 5 else true_pose k.
Definition outlier_h : list (op O1) := group_h ++ [lm_again 0 700; lm_again 1 (-5)].
Example C80_example : forall C, C = C1 \/ C = C1_inc ->
  let M := live_items C W1 (97, 98)%N outlier_h in let S := recorded (kl 1) (current C (kl 1) (sp_sightings C W1 outlier_h)) in
  records_sound C W1 outlier_h /\ small C (length (sp_stored C W1 outlier_h)) /\ no_removal outlier_h /\ pair_ignored outlier_h (97, 98)%N = false /\
  comparable grid scene_pose (fun _ => gp_id) M /\ exact_goods grid scene_pose M group_good /\ off_others grid scene_pose pp1 M group_good /\
  most (length M) group_good /\ length M = 5 /\
  comparable_lm grid scene_pose (fun _ => gp_id) S /\ exact_goods grid scene_pose S (fun i => negb (i =? 2)) /\
  off_others_lm grid scene_pose pp1 S (fun i => negb (i =? 2)) /\ most (length S) (fun i => negb (i =? 2)) /\ length S = 4 /\
  (exists s rs, run C W1 outlier_h (solver_init true) = Ok s rs /\
     length (graph_lcs C outlier_h (97, 98)%N (s_nfg s)) = 4 /\ length (graph_lms C outlier_h (kl 1) (s_nfg s)) = 3).
Proof.
  intros C [->| ->] M S.
  all: split; [left; intros n a i j; reflexivity|].
  all: split; [intros _; vm_compute; reflexivity|].
  all: split; [intros o Ho; repeat (destruct Ho as [<-|Ho]; [reflexivity|]); destruct Ho|].
  all: split; [vm_compute; reflexivity|].
  all: split; [apply comparableb_ok; vm_compute; reflexivity|].
  all: split; [apply exactb_ok; vm_compute; reflexivity|].
  all: split; [apply off_ok; vm_compute; reflexivity|].
  all: split; [unfold most; apply Nat.ltb_lt; vm_compute; reflexivity|].
  all: split; [vm_compute; reflexivity|].
  all: split; [apply comparable_lmb_ok; vm_compute; reflexivity|].
  all: split; [apply exactb_ok; vm_compute; reflexivity|].
  all: split; [apply off_lm_ok; vm_compute; reflexivity|].
  all: split; [unfold most; apply Nat.ltb_lt; vm_compute; reflexivity|].
  all: split; [vm_compute; reflexivity|].
  all: apply run_check; vm_compute; split; reflexivity.
Qed.

(** Half of them is not enough: two wrong closures that agree with each other, then two exact ones. *)
Definition half_h : list (op O1) := [start3_a; start_b; OpUpdate [bet (ka 0) (kb 0) (fwd 900)] [] true; OpUpdate [bet (ka 1) (kb 1) (fwd 900)] [] true;
  OpUpdate [bet (ka 0) (kb 0) (fwd 100)] [] true; OpUpdate [bet (ka 1) (kb 1) (fwd 100)] [] true].
Theorem C80_half_refuted : forall C, C = C1 \/ C = C1_inc -> exists h s rs good, let M := live_items C W1 (97, 98)%N h in
  c_loop_check C = true /\ run C W1 h (solver_init true) = Ok s rs /\ records_sound C W1 h /\ small C (length (sp_stored C W1 h)) /\ no_removal h /\
  pair_ignored h (97, 98)%N = false /\
  comparable grid scene_pose (fun _ => gp_id) M /\ exact_goods grid scene_pose M good /\ off_others grid scene_pose pp1 M good /\
  length M = 2 * length (members (length M) good) /\ graph_lcs C h (97, 98)%N (s_nfg s) <> [] /\
  forall e, In e (graph_lcs C h (97, 98)%N (s_nfg s)) -> (b_meas e : gpose) <> true_step grid scene_pose e.
Proof.
  intros C HC.
  assert (E : exists s rs, run C W1 half_h (solver_init true) = Ok s rs /\
    forallb (fun e : bf O1 => negb (gpose_eqb (b_meas e) (true_step grid scene_pose e))) (graph_lcs C half_h (97, 98)%N (s_nfg s)) = true /\
    length (graph_lcs C half_h (97, 98)%N (s_nfg s)) = 2).
  { destruct HC as [->| ->]; apply run_check; vm_compute; split; reflexivity. }
  destruct E as (s & rs & R & E1 & E2). exists half_h, s, rs, (fun i => 2 <=? i). cbv zeta.
  split; [destruct HC as [->| ->]; reflexivity|]. split; [exact R|].
  split; [left; intros n a i j; reflexivity|].
  split; [intros _; destruct HC as [->| ->]; vm_compute; reflexivity|].
  split; [intros o Ho; repeat (destruct Ho as [<-|Ho]; [reflexivity|]); destruct Ho|].
  split; [reflexivity|].
  split; [apply comparableb_ok; destruct HC as [->| ->]; vm_compute; reflexivity|].
  split; [apply exactb_ok; destruct HC as [->| ->]; vm_compute; reflexivity|].
  split; [apply off_ok; destruct HC as [->| ->]; vm_compute; reflexivity|].
  split; [destruct HC as [->| ->]; vm_compute; reflexivity|].
  split; [intro X; rewrite X in E2; discriminate E2|].
  intros e He X. rewrite forallb_forall in E1. specialize (E1 e He). apply negb_true_iff in E1.
  assert (Y : gpose_eqb (b_meas e) (true_step grid scene_pose e) = true); [|congruence]. rewrite X.
  clear. destruct (true_step grid scene_pose e) as [x y r]. unfold gpose_eqb. cbn [gx gy gr]. rewrite !Z.eqb_refl. destruct r; reflexivity.
Qed.
Print Assumptions C80_half_refuted.
