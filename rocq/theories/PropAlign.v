(** * Multi-robot alignment of the initial values: C39 *)
From Coq Require Import QArith.
From Verif Require Import Prelude Num Keys KMap UMap Geometry Factors Clique Pcm Params Solver Grid
  ValuesProofs PcmSpec HistSpec StoreSpec SolverProofs HistProofs UpdateProofs AlignSpec AlignProofs Scenes.
Local Open Scope nat_scope.

(** ** C39 *)
(** Every call of a tidy history: with at least two robots, the keys of the robot with the smallest
    prefix get their odometric poses, those of another robot one transform applied to its odometric
    poses (if it has closures to the first), and no other value changes. *)
Theorem C39_alignment : forall O C (W : soracles O) h s rs o fs vs s' r,
  run C W h (solver_init true) = Ok s rs -> call_of o = Some (fs, vs) -> step C W o s = Ok s' r ->
  c_align C = true -> tidy C (h ++ [o]) ->
  exists p v0 v, s_pcm s' = Some p /\ vinsert_all vs (s_vals s) = Ok v0 tt /\ working_values s s' v /\
    ((fs = [] \/ length (p_robots p) < 2) /\ v = v0 \/
     fs <> [] /\ exists r0 rs0, p_robots p = r0 :: rs0 /\ rs0 <> [] /\
       (forall c, In c rs0 -> (r0 < c)%N) /\ NoDup rs0 /\
       (forall c, In c (p_robots p) -> ufind N.eqb c (p_trajs p) <> None) /\
       forall k, kfind k v = match moved_to (so_pcm W) p r0 rs0 k with Some x => Some x | None => kfind k v0 end).
Proof. exact alignment. Qed.
Print Assumptions C39_alignment.

(** The transform comes from the closures in the graph (if neither robot is ignored). *)
Theorem C39_transform_from_graph : forall O C (W : soracles O) h s rs p r0 c,
  run C W h (solver_init true) = Ok s rs -> s_pcm s = Some p ->
  pair_ignored h (r0, c) = false -> graph_lcs C h (r0, c) (s_nfg s) <> [] ->
  frame_of (so_pcm W) p r0 c =
    match all_of (map (frame_says p r0) (graph_lcs C h (r0, c) (s_nfg s))) with Some ts => w_avg (so_pcm W) ts | None => None end.
Proof. exact frame_graph. Qed.
Print Assumptions C39_transform_from_graph.

(** A robot to which no closure was ever delivered is not moved. *)
Theorem C39_no_closure_not_moved : forall O C (W : soracles O) h s rs p r0 c,
  run C W h (solver_init true) = Ok s rs -> s_pcm s = Some p ->
  (forall b, delivered h (FBetween b) -> sp_lmk C b = false -> of_pair (r0, c) b = false) ->
  frame_of (so_pcm W) p r0 c = None.
Proof. exact frame_none. Qed.
Print Assumptions C39_no_closure_not_moved.

(** If the accepted closures to a robot agree (and the average of equal poses is that pose), all of
    them hold exactly between the new values. *)
Theorem C39_accepted_closures_hold : forall O C (W : soracles O), tgroup O -> forall h s rs o fs vs s' r,
  run C W h (solver_init true) = Ok s rs -> call_of o = Some (fs, vs) -> step C W o s = Ok s' r ->
  c_align C = true -> tidy C (h ++ [o]) -> fs <> [] ->
  (forall ts x, ts <> [] -> (forall t, In t ts -> t = x) -> w_avg (so_pcm W) ts = Some x) ->
  exists p v, s_pcm s' = Some p /\ working_values s s' v /\
    forall r0 c tf, In r0 (p_robots p) -> In c (p_robots p) -> (forall c', In c' (p_robots p) -> (r0 <= c')%N) -> r0 <> c ->
    pair_ignored (h ++ [o]) (r0, c) = false ->
    (forall b, In b (graph_lcs C (h ++ [o]) (r0, c) (s_nfg s')) -> frame_says p r0 b = Some tf) ->
    forall b, In b (graph_lcs C (h ++ [o]) (r0, c) (s_nfg s')) ->
    exists x y, kfind (b_from b) v = Some (VPose x) /\ kfind (b_to b) v = Some (VPose y) /\
      t_pcomp O (t_pinv O x) y = b_meas b.
Proof. exact accepted_hold. Qed.
Print Assumptions C39_accepted_closures_hold.

(** *** Example *)

(** An average that is exact on equal poses. *)
Definition avg_first (ts : list gpose) : option gpose := match ts with x :: _ => Some x | [] => Some gp_id end.
Definition W_avg : soracles O1 :=
  @SOracles O1 (Oracles O1 (fun _ _ => 0) (fun _ _ => 0) avg_first (fun _ a => a)) (so_opt W1).

Lemma avg_first_exact : forall ts x, ts <> [] -> (forall t, In t ts -> t = x) -> w_avg (so_pcm W_avg) ts = Some x.
Proof. intros [|t ts] x H1 H2; [congruence|]. cbn. rewrite (H2 t); auto. left; auto. Qed.

Lemma grid_tgroup : tgroup O1.
Proof. split; [exact gp_assoc|exact gp_id_l|exact gp_inv_l]. Qed.

(** Checking tidiness of a concrete history. *)
Definition all_bets (h : list (op O1)) : list (bf O1) :=
  flat_map (fun o => match call_of o with Some (fs, _) => betweens fs | None => [] end) h.
Definition tidyb (C : config) (h : list (op O1)) : bool :=
  forallb (fun b => negb (b_to b =? (b_from b + 1) mod 2 ^ 64)%N ||
     ((chr (b_from b) =? chr (b_to b))%N && (chr (b_from b) <? 128)%N)) (all_bets h) &&
  forallb (fun x => forallb (fun y => negb (sp_lmk C x && sp_lmk C y) ||
     negb (sp_landmark_key (c_special C) x =? sp_landmark_key (c_special C) y)%N ||
     (chr (observer C x) =? chr (observer C y))%N) (all_bets h)) (all_bets h).

Lemma delivered_bets h b : delivered h (FBetween b) -> In b (all_bets h).
Proof.
  intros (o & fs & vs & H1 & H2 & H3). unfold all_bets. apply in_flat_map. exists o. split; auto. rewrite H2.
  unfold betweens. apply in_flat_map. exists (Some (FBetween b)). split; auto. left; auto.
Qed.

Lemma tidyb_ok C h : tidyb C h = true -> tidy C h.
Proof.
  unfold tidyb. rewrite andb_true_iff, !forallb_forall. intros [H1 H2]. split.
  - intros b Hb E. apply delivered_bets in Hb. specialize (H1 b Hb). rewrite E, N.eqb_refl in H1. cbn [negb orb] in H1.
    apply andb_true_iff in H1. destruct H1 as [H1 H1']. apply N.eqb_eq in H1. apply N.ltb_lt in H1'. rewrite E. auto.
  - intros x y Hx Hy Lx Ly E. apply delivered_bets in Hx, Hy. specialize (H2 x Hx). rewrite forallb_forall in H2.
    specialize (H2 y Hy). rewrite Lx, Ly, E, N.eqb_refl in H2. cbn [negb orb andb] in H2. apply N.eqb_eq in H2. exact H2.
Qed.

(** Robot [b] was placed at 100, two closures (and the odometry of [b]) say 50. *)
Definition h_align : list (op O1) := base ++ [lc_ab 0 0 50].
Definition o_align : op O1 := OpUpdate [bet (ka 1) (kb 1) (fwd 50)] [] false.
Definition pose_x (s : solver O1) (k : key) : option gpose :=
  match kfind k (s_vals s) with Some (VPose x) => Some x | _ => None end.
Example C39_example :
  tidy cfg_align (h_align ++ [o_align]) /\
  match run cfg_align W_avg (h_align ++ [o_align]) (solver_init true) with
  | Ok s _ => (map (pose_x s) [ka 0; ka 1; ka 2; ka 3; kb 0; kb 1], keys_of (skipn 6 (s_nfg s)),
               option_map (fun p => p_robots p) (s_pcm s))
  | _ => ([], [], None)
  end = ([Some gp_id; Some (fwd 10); Some (fwd 20); Some (fwd 30); Some (fwd 50); Some (fwd 60)],
         [[ka 0; kb 0]; [ka 1; kb 1]], Some [97%N; 98%N]).
Proof. split; [apply tidyb_ok|]; vm_compute; reflexivity. Qed.

(** What a witness shows of a state and its successor. *)
Lemma pose_x_some (s : solver O1) k x : pose_x s k = Some x -> kfind k (s_vals s) = Some (@VPose O1 x).
Proof. unfold pose_x. destruct (kfind k (s_vals s)) as [[y|]|]; intro H; [congruence|discriminate..]. Qed.
Definition robots_are (s : solver O1) (l : list N) : Prop :=
  match s_pcm s with Some p => p_robots p = l | None => False end.
Lemma robots_are_some (s : solver O1) l : robots_are s l -> exists p, s_pcm s = Some p /\ p_robots p = l.
Proof. unfold robots_are. destruct (s_pcm s) as [p|]; intro H; [eauto|destruct H]. Qed.

(** *** What fails without tidiness, and in general *)

(** A landmark observed by two robots: robot [b] is thrown to the origin although there is no
    closure between the robots at all. *)
Definition h_share : list (op O1) := base ++ [lm_first].
Definition o_share : op O1 := OpUpdate [bet (kb 1) (kl 1) (fwd (-105))] [] false.
Definition no_closure_between (C : config) (h : list (op O1)) (id : obsid) : bool :=
  forallb (fun b => sp_lmk C b || negb (of_pair id b)) (all_bets h).
Theorem C39_other_values_kept_refuted : exists O C (W : soracles O) h s rs o fs s' r p k x y,
  run C W h (solver_init true) = Ok s rs /\ call_of o = Some (fs, []) /\ step C W o s = Ok s' r /\ c_align C = true /\
  length (s_trace s') = length (s_trace s) /\ s_pcm s' = Some p /\ p_robots p = [97; 98]%N /\ chr k = 98%N /\
  (forall b, delivered (h ++ [o]) (FBetween b) -> sp_lmk C b = false -> of_pair (97, 98)%N b = false) /\
  kfind k (s_vals s) = Some (VPose x) /\ kfind k (s_vals s') = Some (VPose y) /\ x <> y.
Proof.
  assert (N1 : no_closure_between cfg_align (h_share ++ [o_share]) (97, 98)%N = true) by (vm_compute; reflexivity).
  destruct (@run_check O1 cfg_align W_avg h_share true (fun s =>
     match step cfg_align W_avg o_share s with
     | Ok s' _ => robots_are s' [97; 98]%N /\ length (s_trace s') = length (s_trace s) /\
                  pose_x s (kb 1) = Some (fwd 110) /\ pose_x s' (kb 1) = Some gp_id
     | _ => False end)) as (s & rs & HR & H). { clear. vm_compute. repeat split. }
  destruct (step cfg_align W_avg o_share s) as [s' r| |] eqn:E; [|destruct H..].
  destruct H as (H1 & HT & Hx & Hy). apply robots_are_some in H1. destruct H1 as (p & EP & H1).
  apply pose_x_some in Hx. apply pose_x_some in Hy.
  exists O1, cfg_align, W_avg, h_share, s, rs, o_share, [bet (kb 1) (kl 1) (fwd (-105))], s', r, p, (kb 1), (fwd 110), gp_id.
  split; [exact HR|]. split; [reflexivity|]. split; [exact E|]. split; [reflexivity|]. split; [exact HT|].
  split; [exact EP|]. split; [exact H1|]. split; [reflexivity|]. split.
  { intros b Hb Hl. apply delivered_bets in Hb. unfold no_closure_between in N1. rewrite forallb_forall in N1.
    specialize (N1 b Hb). rewrite Hl in N1. cbn [orb] in N1. apply negb_true_iff in N1. exact N1. }
  split; [exact Hx|]. split; [exact Hy|]. clear. discriminate.
Qed.
Print Assumptions C39_other_values_kept_refuted.

(** A robot whose closures came before its odometry is never aligned: its accepted closures
    contradict its values for ever, even though history and average are as one could wish. *)
Definition start_d : op O1 :=
  OpUpdate [pri (sym 100 0) (fwd 500); bet (sym 100 0) (sym 100 1) (fwd 10)] [val (sym 100 0) (fwd 500); val (sym 100 1) (fwd 510)] true.
Definition h_late : list (op O1) :=
  [start_a; odo_a 0; odo_a 1; odo_a 2; start_d;
   OpUpdate [pri (kb 0) (fwd 100)] [val (kb 0) (fwd 100)] true; lc_ab 0 0 50; lc_ab 1 0 40;
   OpUpdate [bet (kb 0) (kb 1) (fwd 10)] [val (kb 1) (fwd 110)] true].
Definition o_late : op O1 := OpUpdate [bet (ka 1) (kb 1) (fwd 50)] [] false.
Theorem C39_closures_drive_alignment_refuted : exists O C (W : soracles O) h s rs o fs s' r p b b' x y,
  run C W h (solver_init true) = Ok s rs /\ call_of o = Some (fs, []) /\ step C W o s = Ok s' r /\ c_align C = true /\
  tidy C (h ++ [o]) /\ (forall ts x, ts <> [] -> (forall t, In t ts -> t = x) -> w_avg (so_pcm W) ts = Some x) /\
  s_pcm s' = Some p /\ 1 < length (p_robots p) /\
  In (Some (FBetween b)) (s_nfg s') /\ chr (b_from b) = 97%N /\ chr (b_to b) = 98%N /\
  In b' (sp_odoms (c_special C) (h ++ [o])) /\ chr (b_to b') = 98%N /\
  kfind (b_from b) (s_vals s') = Some (VPose x) /\ kfind (b_to b) (s_vals s') = Some (VPose y) /\
  t_pcomp O (t_pinv O x) y <> b_meas b.
Proof.
  set (b := nb pp1 (ka 0) (kb 0) (fwd 50)). set (b' := nb pp1 (kb 0) (kb 1) (fwd 10)).
  assert (T1 : tidyb cfg_align (h_late ++ [o_late]) = true) by (vm_compute; reflexivity).
  assert (T2 : existsb (nb_eqb b') (sp_odoms (c_special cfg_align) (h_late ++ [o_late])) = true) by (vm_compute; reflexivity).
  destruct (@run_check O1 cfg_align W_avg h_late true (fun s =>
     match step cfg_align W_avg o_late s with
     | Ok s' _ => robots_are s' [97; 100]%N /\ existsb (is_bet b) (s_nfg s') = true /\
                  pose_x s' (ka 0) = Some gp_id /\ pose_x s' (kb 0) = Some (fwd 100)
     | _ => False end)) as (s & rs & HR & H). { clear. vm_compute. repeat split. }
  destruct (step cfg_align W_avg o_late s) as [s' r| |] eqn:E; [|destruct H..].
  destruct H as (H1 & H2 & Hx & Hy). apply robots_are_some in H1. destruct H1 as (p & EP & H1).
  apply pose_x_some in Hx. apply pose_x_some in Hy.
  exists O1, cfg_align, W_avg, h_late, s, rs, o_late, [bet (ka 1) (kb 1) (fwd 50)], s', r, p, b, b', gp_id, (fwd 100).
  split; [exact HR|]. split; [reflexivity|]. split; [exact E|]. split; [reflexivity|].
  split; [apply tidyb_ok; exact T1|]. split; [exact avg_first_exact|]. split; [exact EP|]. split; [rewrite H1; cbn; lia|].
  split; [apply is_bet_In; exact H2|]. split; [reflexivity|]. split; [reflexivity|].
  split. { apply existsb_exists in T2. destruct T2 as (z & Hz & Ez). apply nb_eqb_eq in Ez. rewrite Ez. exact Hz. }
  split; [reflexivity|]. split; [exact Hx|]. split; [exact Hy|]. clear. intro X. discriminate X.
Qed.
Print Assumptions C39_closures_drive_alignment_refuted.

(** A robot with a prefix above 127: its prefix is negative as a [char], so it is the smallest and
    every other robot is aligned to it, yet it is not recognised as the origin of a closure:
    robots it has measured are not moved, although everything else is as one could wish. *)
Definition kq (i : N) : key := sym 200 i.
Definition h_high : list (op O1) :=
  [start_a; odo_a 0; odo_a 1;
   OpUpdate [pri (kq 0) gp_id; bet (kq 0) (kq 1) (fwd 10)] [val (kq 0) gp_id; val (kq 1) (fwd 10)] true;
   OpUpdate [bet (kq 0) (ka 0) (fwd 50)] [] true].
Definition o_high : op O1 := OpUpdate [bet (kq 1) (ka 1) (fwd 50)] [] false.
Definition one_robot (h : list (op O1)) : bool :=
  forallb (fun b => negb (b_to b =? (b_from b + 1) mod 2 ^ 64)%N || (chr (b_from b) =? chr (b_to b))%N) (all_bets h).
Definition no_landmark (C : config) (h : list (op O1)) : bool := forallb (fun b => negb (sp_lmk C b)) (all_bets h).
Theorem C39_high_prefix_refuted : exists O C (W : soracles O) h s rs o fs s' r p b x y,
  run C W h (solver_init true) = Ok s rs /\ call_of o = Some (fs, []) /\ step C W o s = Ok s' r /\ c_align C = true /\
  (forall b, delivered (h ++ [o]) (FBetween b) ->
     sp_lmk C b = false /\ (b_to b = (b_from b + 1) mod 2 ^ 64 -> chr (b_from b) = chr (b_to b))%N) /\
  (forall ts x, ts <> [] -> (forall t, In t ts -> t = x) -> w_avg (so_pcm W) ts = Some x) /\
  s_pcm s' = Some p /\ p_robots p = [200; 97]%N /\
  In (Some (FBetween b)) (s_nfg s') /\ chr (b_from b) = 200%N /\ chr (b_to b) = 97%N /\
  kfind (b_from b) (s_vals s') = Some (VPose x) /\ kfind (b_to b) (s_vals s') = Some (VPose y) /\
  t_pcomp O (t_pinv O x) y <> b_meas b.
Proof.
  set (b := nb pp1 (kq 0) (ka 0) (fwd 50)).
  assert (T1 : one_robot (h_high ++ [o_high]) = true) by (vm_compute; reflexivity).
  assert (T2 : no_landmark cfg_align (h_high ++ [o_high]) = true) by (vm_compute; reflexivity).
  destruct (@run_check O1 cfg_align W_avg h_high true (fun s =>
     match step cfg_align W_avg o_high s with
     | Ok s' _ => robots_are s' [200; 97]%N /\ existsb (is_bet b) (s_nfg s') = true /\
                  pose_x s' (kq 0) = Some gp_id /\ pose_x s' (ka 0) = Some gp_id
     | _ => False end)) as (s & rs & HR & H). { clear. vm_compute. repeat split. }
  destruct (step cfg_align W_avg o_high s) as [s' r| |] eqn:E; [|destruct H..].
  destruct H as (H1 & H2 & Hx & Hy). apply robots_are_some in H1. destruct H1 as (p & EP & H1).
  apply pose_x_some in Hx. apply pose_x_some in Hy.
  exists O1, cfg_align, W_avg, h_high, s, rs, o_high, [bet (kq 1) (ka 1) (fwd 50)], s', r, p, b, gp_id, gp_id.
  split; [exact HR|]. split; [reflexivity|]. split; [exact E|]. split; [reflexivity|].
  split.
  { intros c Hc. apply delivered_bets in Hc. unfold no_landmark, one_robot in *. rewrite forallb_forall in T1, T2.
    specialize (T1 c Hc). specialize (T2 c Hc). split; [apply negb_true_iff in T2; exact T2|].
    intro EC. rewrite EC, N.eqb_refl in T1. cbn [negb orb] in T1. apply N.eqb_eq in T1. rewrite EC. exact T1. }
  split; [exact avg_first_exact|]. split; [exact EP|]. split; [exact H1|].
  split; [apply is_bet_In; exact H2|]. split; [reflexivity|]. split; [reflexivity|].
  split; [exact Hx|]. split; [exact Hy|]. clear. intro X. discriminate X.
Qed.
Print Assumptions C39_high_prefix_refuted.

(** ** C40 with alignment *)
(** A call that delivers only odometry does not optimise.  It leaves the estimate of every known
    variable unchanged if fewer than two robots are known; otherwise it resets the keys of the
    robots that have odometry and a frame to their dead reckoning in that frame, whatever had been
    estimated, and leaves all others unchanged. *)
Theorem C40_with_alignment : forall O C (W : soracles O) h s rs fs vs opt s',
  run C W h (solver_init true) = Ok s rs -> c_align C = true -> tidy C (h ++ [OpUpdate fs vs opt]) ->
  (forall of, In of fs -> exists b, of = Some (FBetween b) /\ sp_odometry (c_special C) vs b = true) ->
  update C W fs vs opt s = Ok s' tt ->
  s_trace s' = s_trace s /\ exists p, s_pcm s' = Some p /\
  ((fs = [] \/ length (p_robots p) < 2) /\ (forall k v, kfind k (s_vals s) = Some v -> kfind k (s_vals s') = Some v) \/
   exists r0 rs0, p_robots p = r0 :: rs0 /\ rs0 <> [] /\ (forall c, In c rs0 -> (r0 < c)%N) /\
     forall k v, kfind k (s_vals s) = Some v ->
       kfind k (s_vals s') = Some (match moved_to (so_pcm W) p r0 rs0 k with Some x => x | None => v end)).
Proof.
  intros O C W h s rs fs vs opt s' HR HA HT HO HU.
  destruct (hist_run C W _ HR) as [p0 I].
  assert (E : sp_triggers (c_special C) vs fs = false).
  { unfold sp_triggers. apply not_true_iff_false. intro E. apply existsb_exists in E.
    destruct E as (of & Hin & E). destruct (HO _ Hin) as (b & -> & Hb).
    unfold sp_candidate in E. rewrite Hb in E. discriminate. }
  pose proof (@c17 O C W fs vs opt s s' p0 (hi_pcm I) HU) as [_ K]. rewrite E in K. destruct (K eq_refl) as [K1 _]. split; auto.
  destruct (@alignment O C W h s rs (OpUpdate fs vs opt) fs vs s' None HR eq_refl) as (p & v0 & v & A1 & A2 & A3 & A4); auto.
  { cbn [step]. rewrite HU. reflexivity. }
  exists p. split; auto.
  assert (KV : s_vals s' = v).
  { destruct A3 as [[_ A3]|(r & A3 & _)]; auto. exfalso. rewrite K1 in A3. apply (f_equal (@length _)) in A3. rewrite app_length in A3. cbn in A3. lia. }
  apply vinsert_all_ok in A2. destruct A2 as (A2 & _). rewrite KV.
  destruct A4 as [(B1 & ->)|(B0 & r0 & rs0 & B1 & B2 & B3 & _ & _ & B6)].
  - left. split; auto. intros k x Hx. rewrite A2, Hx. auto.
  - right. exists r0, rs0. split; auto. split; auto. split; auto. intros k x Hx. rewrite B6, A2, Hx. destruct (moved_to _ _ _ _ _); auto.
Qed.
Print Assumptions C40_with_alignment.

(** The optimiser had put both poses of robot [a] at 77; the next odometry of robot [a] moves the second pose
    to 87, ten from the first, which is what its odometry says. *)
Example C40_align_example :
  tidy cfg_align ([start_a; odo_a 0; start_b; lc_ab 0 0 100] ++ [odo_a 1]) /\
  (let at1 h := match run cfg_align (moving 99 (fwd 77)) h (solver_init true) with Ok s _ => pose_x s (ka 1) | _ => None end in
   (at1 [start_a; odo_a 0; start_b; lc_ab 0 0 100], at1 [start_a; odo_a 0; start_b; lc_ab 0 0 100; odo_a 1])
   = (Some (fwd 77), Some (fwd 87))).
Proof. split; [apply tidyb_ok|]; vm_compute; reflexivity. Qed.
