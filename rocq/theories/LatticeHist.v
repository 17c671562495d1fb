(** * Worlds on a grid: dead reckoning, and what is accepted *)
From Coq Require Import ZArith Bool List Lia Permutation.
From Verif Require Import Prelude Num Keys KMap UMap Geometry Factors Clique Pcm Params Solver Lie Floats PcmSpec HistSpec StoreSpec RemoveSpec ApartSpec IncSpec HeuSpec ExactSpec
  PcmProofs TrajProofs AlgProofs GroupSpec GroupProofs OutlierProofs LatticeSpec LatticeNum LatticeProofs.
Set Implicit Arguments.
Local Open Scope Z_scope.

Lemma pn_of_form G (b : bfactor (g_pose G) (g_cov G)) d : pn_of G b = Some d -> exists c, d = PN G (b_meas b) 1 (negb (g_rot_nan G c)).
Proof. unfold pn_of. destruct (b_noise b) as [c|]; intro H; [|discriminate H]. injection H as <-. exists c. reflexivity. Qed.

Lemma flat_map_in_ext A B (f g : A -> list B) l : (forall a, In a l -> f a = g a) -> flat_map f l = flat_map g l.
Proof. induction l as [|a l IH]; intro H; cbn; auto. rewrite H, IH by (intros; auto with datatypes). auto. Qed.

Section Hist.
Variable G : geom.
Variable L : lattice G.
Variable LW : laws L.
Variable X : key -> la_t L.
Variable F : N -> la_t L.
Hypothesis RW : rigid_world L X F.
Variable pp : pcm_params.
Notation O := (node_ops G pp).

Lemma key_step (k : key) (i : nat) : (k + 1 + N.of_nat i = k + N.of_nat (S i))%N.
Proof. lia. Qed.
Lemma fold_true (bs : list (bf O)) : forall (ts : list (t_T O)) (f : la_t L) (k : key) (t : t_T O),
  Forall2 (fun b d => t_of O b = Some d) bs ts -> chain k bs -> Forall (true_meas L X) bs -> la_rigid L f ->
  la_shows L (pn_pose t) (la_comp L f (X k)) ->
  (forall i, (i <= length bs)%nat -> la_within L reach (la_comp L f (X (k + N.of_nat i)%N))) ->
  forall i, (i <= length ts)%nat ->
    let r := fold_left (t_comp O) (firstn i ts) t in
    la_shows L (pn_pose r) (la_comp L f (X (k + N.of_nat i)%N)) /\ pn_node r = pn_node t + Z.of_nat i.
Proof.
  destruct RW as [RX RF]. induction bs as [|b bs IH]; intros ts f k t HD HC HM Rf HS HB i Hi.
  - inversion HD; subst ts. cbn in Hi. replace i with 0%nat by lia. cbn. rewrite N.add_0_r. split; [exact HS|lia].
  - inversion HD as [|? d ? ts' D1 D2]; subst. inversion HM as [|? ? M1 M2]; subst. destruct HC as (E1 & E2 & HC).
    destruct i as [|i].
    { cbn. rewrite N.add_0_r. split; [exact HS|lia]. }
    cbn [firstn fold_left]. rewrite <- key_step.
    assert (D1' : exists c, d = PN G (b_meas b) 1 (negb (g_rot_nan G c))).
    { exact (@pn_of_form G b d D1). }
    destruct D1' as [c Ed]. rewrite Ed. cbn [length] in Hi. clear d D1 HD Ed. set (d := PN G (b_meas b) 1 (negb (g_rot_nan G c))). destruct M1 as (z & S1 & R1 & W1 & Z1). assert (Z2 : la_comp L (X k) z = X (k + 1)%N) by exact (eq_trans (f_equal (fun q => la_comp L (X q) z) (eq_sym E1)) (eq_trans Z1 (f_equal X E2))). pose proof reach_48 as RB.
    assert (Q : la_shows L (pn_pose (t_comp O t d)) (la_comp L f (X (k + 1)%N)) /\ la_within L (reach + 3 * reach) (la_comp L f (X (k + 1)%N))).
    { rewrite <- Z2, (lw_assoc LW). apply (@lw_comp G L LW reach reach); auto; try lia; [apply (lw_rigid_comp LW); auto|].
      pose proof (HB 0%nat ltac:(cbn; lia)) as Y. rewrite N.add_0_r in Y. exact Y. }
    destruct (IH ts' f (k + 1)%N (t_comp O t d) D2 HC M2 Rf (proj1 Q)) with (i := i) as [A1 A2].
    + intros j Hj. rewrite key_step. apply HB. cbn. lia.
    + clear - Hi; lia.
    + split; [exact A1|]. rewrite A2. change (pn_node (t_comp O t d)) with (pn_node t + 1). lia.
Qed.

Theorem dead_reckoning_true C (W : soracles O) h1 o h2 s1 rs1 s rs p fs vs c k0 x0 :
  run C W h1 (solver_init true) = Ok s1 rs1 -> run C W (h1 ++ o :: h2) (solver_init true) = Ok s rs ->
  s_pcm s = Some p -> call_of o = Some (fs, vs) ->
  not_mentioned c h1 -> robot_odoms C c [o] <> [] ->
  kfind k0 (s_vals s1) = Some (VPose x0) \/ kfind k0 vs = Some (VPose x0) ->
  let bs := robot_odoms C c (h1 ++ o :: h2) in
  chain k0 bs -> Forall (true_meas L X) bs ->
  la_shows L (x0 : g_pose G) (la_comp L (F c) (X k0)) ->
  (forall i, (i <= length bs)%nat -> la_within L reach (la_comp L (F c) (X (k0 + N.of_nat i)%N))) ->
  forall i, (i <= length bs)%nat ->
    la_shows L (pn_pose (tref p c (k0 + N.of_nat i)%N : pnode G)) (la_comp L (F c) (X (k0 + N.of_nat i)%N)) /\
    pn_node (tref p c (k0 + N.of_nat i)%N : pnode G) = Z.of_nat i.
Proof.
  intros H1 H2 H3 H4 H5 H6 H7 bs H8 HM HS HB i Hi.
  destruct (@c33 O C W h1 o h2 s1 rs1 s rs p fs vs c k0 x0 H1 H2 H3 H4 H5 H6 H7 H8) as (ts & D & _ & E).
  assert (EL : length bs = length ts) by (unfold bs; clear - D; induction D; cbn; [reflexivity|f_equal; assumption]).
  assert (Hi' : (i <= length ts)%nat) by (rewrite <- EL; exact Hi). rewrite E by exact Hi'. destruct RW as [RX RF].
  destruct (@fold_true bs ts (F c) k0 (t_init O x0) D H8 HM (RF c) HS HB i Hi') as [A B]. split; [exact A|exact B].
Qed.

Lemma all_members M : at_places (O := O) M (members (length M) (fun _ => true)) = map fst M.
Proof.
  unfold at_places, members. rewrite filter_all by auto.
  induction M as [|x M IH] using rev_ind; [reflexivity|]. rewrite app_length, Nat.add_1_r, seq_S, flat_map_app, map_app. cbn [flat_map Nat.add].
  f_equal.
  - rewrite <- IH. apply flat_map_in_ext. intros j Hj. apply in_seq in Hj. rewrite nth_error_app1 by lia. reflexivity.
  - rewrite nth_error_app2, Nat.sub_diag by lia. reflexivity.
Qed.
Lemma all_separate (test : bf O * (N -> key -> t_T O) -> bf O * (N -> key -> t_T O) -> option bool) M :
  (forall i j x y, (i < j)%nat -> nth_error M i = Some x -> nth_error M j = Some y -> test x y = Some true) ->
  separate_group (length M) (agreeb test M) (fun _ => true).
Proof.
  intro H. split; [|split; intros; discriminate]. intros i j Hi Hj N _ _. unfold agreeb.
  destruct (nth_error M i) as [x|] eqn:Ex; [|apply nth_error_None in Ex; lia]. destruct (nth_error M j) as [y|] eqn:Ey; [|apply nth_error_None in Ey; lia].
  destruct (Nat.ltb_spec i j); [rewrite (H i j x y); auto|]. destruct (Nat.ltb_spec j i); [rewrite (H j i y x); auto|lia].
Qed.

Theorem closures_true C (W : soracles O) h s rs id : dpositive (pp_dist_trans pp) -> dpositive (pp_dist_rot pp) ->
  c_loop_check C = true -> run C W h (solver_init true) = Ok s rs -> records_sound C W h -> small C (length (sp_stored C W h)) ->
  (c_incremental C = true -> no_removal h) -> pair_ignored h id = false ->
  let M := live_items C W id h in
  all_true L X F M -> Permutation (graph_lcs C h id (s_nfg s)) (map fst M).
Proof.
  intros Pt Pr HL R RS SM NR IG M (A & D & B). rewrite <- all_members. apply (@pairs_group O C W h s rs id (fun _ => true) HL R RS SM NR IG).
  apply all_separate. intros i j x y Hij Ex Ey. destruct (B i j x y (Nat.lt_le_incl _ _ Hij) Ex Ey) as (B3 & B4 & B5). destruct (B j j y y (le_n _) Ey Ey) as (B6 & B7 & _).
  apply nth_error_In in Ex, Ey. destruct (A x Ex) as [A1 A2], (A y Ey) as [A3 A4], (D x y Ex Ey) as [B1 B2].
  apply (@pair_true G L LW X F RW pp); auto. intros k [<-|[<-|[<-|[<-|[]]]]]; auto.
Qed.
Theorem sightings_true C (W : soracles O) h s rs l : dpositive (pp_dist_trans pp) -> dpositive (pp_dist_rot pp) ->
  run C W h (solver_init true) = Ok s rs ->
  let M := recorded l (current C l (sp_sightings C W h)) in
  all_true_lm L X F M -> graph_lms C h l (s_nfg s) = map fst M.
Proof.
  intros Pt Pr R M (A & D & B). rewrite <- all_members. apply (@landmarks_group O C W h s rs l (fun _ => true) R).
  apply all_separate. intros i j x y Hij Ex Ey. destruct (B i j x y (Nat.lt_le_incl _ _ Hij) Ex Ey) as (B3 & B4). destruct (B j j y y (le_n _) Ey Ey) as (B6 & _).
  apply nth_error_In in Ex, Ey. destruct (A x Ex) as [A1 A2], (A y Ey) as [A3 A4], (D x y Ex Ey) as [B1 B2].
  apply (@landmark_true G L LW X F RW pp); auto.
Qed.
End Hist.
