(** * Odometric trajectories: dead reckoning *)
From Verif Require Import Prelude Num Keys KMap UMap Geometry Factors Clique Pcm Solver ValuesProofs
  PcmSpec PcmProofs PcmInv PcmStore HistSpec SolverProofs HistProofs GraphProofs.
Set Implicit Arguments.
Local Open Scope nat_scope.

Lemma firstn_In' {A} n (l : list A) x : In x (firstn n l) -> In x l.
Proof. intro H. rewrite <- (firstn_skipn n l). apply in_or_app. auto. Qed.

Section Traj.
Variable O : tops.
Variable C : config.
Notation bf := (bf O).
Notation factor := (factor O).
Notation values := (values O).
Notation graph_t := (graph_t O).
Notation T := (t_T O).
Notation pcm := (pcm O).
Notation sp := (c_special C).
Notation lc_get := (uget oid_eqb (@meas_default O)).
Notation lm_get := (uget N.eqb (@meas_default O)).

(** ** One odometry factor *)

Lemma tref_none (p : pcm) c k : n_find c (p_trajs p) = None -> tref p c k = t_default O.
Proof.
  intro H. exact (f_equal (fun o => tget (match o with Some t => t | None => [] end) k) H).
Qed.

Lemma update_odom_inv vals b (p p' : pcm) u : b_from b <> b_to b -> update_odom vals b p = Ok p' u ->
  let c := chr (b_to b) in
  exists d, t_of O b = Some d /\ n_find c (p_trajs p') <> None /\
    (forall c', c' <> c -> n_find c' (p_trajs p') = n_find c' (p_trajs p)) /\
    ((n_find c (p_trajs p) <> None /\ p_robots p' = p_robots p /\
        forall k, tref p' c k = if (k =? b_to b)%N then t_comp O (tref p c (b_from b)) d else tref p c k) \/
     (n_find c (p_trajs p) = None /\ p_robots p' = p_robots p ++ [c] /\
        exists x, kfind (b_from b) vals = Some (VPose x) /\
        forall k, tref p' c k = if (k =? b_to b)%N then t_comp O (t_init O x) d
                                else if (k =? b_from b)%N then t_init O x else t_default O)).
Proof.
  intros Hne. unfold update_odom. destruct (t_of O b) as [d|]; [|discriminate].
  cbn [p_trajs set_odom p_robots]. set (c := chr (b_to b)).
  assert (NE : (b_from b =? b_to b)%N = false) by (apply N.eqb_neq; auto).
  destruct (n_find c (p_trajs p)) as [tr|] eqn:E; cbn [obind].
  - intro H. injection H as <-. exists d. cbn [p_trajs set_trajs set_odom p_robots].
    split; auto. split; [rewrite n_find_set, N.eqb_refl; discriminate|]. split.
    + intros c' Hc. rewrite n_find_set. apply N.eqb_neq in Hc. rewrite Hc. auto.
    + left. split; [discriminate|]. split; auto. intro k. unfold tref. cbn [p_trajs set_trajs].
      rewrite n_get_set, N.eqb_refl. unfold tget at 1. rewrite kfind_kset.
      destruct (k =? b_to b)%N; [|apply tget_ttouch]. rewrite tget_ttouch. auto.
  - destruct (kfind (b_from b) vals) as [[x|t]|] eqn:Ev; cbn [obind]; try discriminate.
    intro H. injection H as <-. exists d. cbn [p_trajs set_trajs set_odom p_robots set_robots].
    split; auto. split; [rewrite n_find_set, N.eqb_refl; discriminate|]. split.
    + intros c' Hc. rewrite !n_find_set. apply N.eqb_neq in Hc. rewrite Hc. auto.
    + right. split; auto. split; auto. exists x. split; auto. intro k. unfold tref. cbn [p_trajs set_trajs].
      rewrite n_get_set, N.eqb_refl. unfold tget at 1. rewrite kfind_kset.
      rewrite n_get_set, N.eqb_refl. destruct (k =? b_to b)%N.
      * rewrite tget_ttouch. unfold tget. cbn [kfind]. rewrite N.eqb_refl. auto.
      * change (tget (ttouch [(b_from b, t_init O x)] (b_from b)) k = if (k =? b_from b)%N then t_init O x else t_default O).
        rewrite tget_ttouch. unfold tget. cbn [kfind]. destruct (k =? b_from b)%N; auto.
Qed.

(** ** Which prefixes a consistency test touches *)

Definition mentions (c : N) (b : bf) : Prop := chr (b_from b) = c \/ chr (b_to b) = c.
Definition keeps (c : N) (p p' : pcm) : Prop := n_find c (p_trajs p') = n_find c (p_trajs p).
Definition keeps_seen (p p' : pcm) : Prop := forall c, n_find c (p_trajs p) <> None -> n_find c (p_trajs p') <> None.

Lemma traj_between_keeps (p : pcm) c0 a b t p' c : traj_between p c0 a b = (t, p') ->
  keeps_seen p p' /\ (c <> c0 -> keeps c p p').
Proof.
  unfold traj_between. destruct (get_between _ a b) as [t0 tr]. intro H. injection H as _ <-.
  unfold keeps_seen, keeps. cbn [p_trajs set_trajs]. split.
  - intros c' Hc. rewrite n_find_set. destruct (c' =? c0)%N; [discriminate|auto].
  - intro Hc. rewrite n_find_set. apply N.eqb_neq in Hc. rewrite Hc. auto.
Qed.

Lemma are_loops_keeps (p : pcm) f1 f2 r p' c : are_loops_consistent C p f1 f2 = Val (r, p') ->
  keeps_seen p p' /\ (~ mentions c f1 -> keeps c p p').
Proof.
  unfold are_loops_consistent. destruct (c_loop_check C); cbn [negb].
  2:{ intro H. injection H as _ <-. split; [intro; auto|reflexivity]. }
  destruct (t_of O f1) as [m1|]; [|discriminate]. destruct (t_of O f2) as [m2|]; [|discriminate].
  destruct (chr (b_from f1) =? chr (b_from f2))%N;
    match goal with |- context [traj_between p ?c ?a ?b] => destruct (traj_between p c a b) as [t1 p1] eqn:E1 end;
    match goal with |- context [traj_between ?q ?c ?a ?b] => destruct (traj_between q c a b) as [t2 p2] eqn:E2 end;
    intro H; injection H as _ <-;
    apply traj_between_keeps with (c := c) in E1; destruct E1 as [A1 A2];
    apply traj_between_keeps with (c := c) in E2; destruct E2 as [B1 B2];
    (split; [intros c' Hc; apply B1, A1; auto|]);
    intro Hm; unfold mentions in Hm; unfold keeps in *; rewrite B2, A2; auto.
Qed.

Lemma lc_bits_keeps fs new c : forall (p : pcm) bits bits' p', lc_bits C fs new p bits = Val (bits', p') ->
  keeps_seen p p' /\ (Forall (fun f => ~ mentions c f) fs -> keeps c p p').
Proof.
  induction fs as [|f fs IH]; intros p bits bits' p' H; cbn [lc_bits] in H.
  - injection H as _ <-. split; [intro; auto|reflexivity].
  - destruct (are_loops_consistent C p f new) as [[r p1]|] eqn:E; cbn [rbind] in H; [|discriminate].
    apply are_loops_keeps with (c := c) in E. destruct E as [A1 A2]. apply IH in H. destruct H as [B1 B2].
    split; [intros c' Hc; apply B1, A1; auto|]. intro F. inversion F; subst. unfold keeps in *. rewrite B2, A2; auto.
Qed.

Lemma lm_bits_keeps l fs new c : forall (p : pcm) bits ob p', lm_bits l fs new p bits = Val (ob, p') ->
  keeps_seen p p' /\ (Forall (fun f => ~ mentions c f) fs -> keeps c p p').
Proof.
  induction fs as [|f fs IH]; intros p bits ob p' H; cbn [lm_bits] in H.
  - injection H as _ <-. split; [intro; auto|reflexivity].
  - destruct ((b_from f =? l)%N || (b_from new =? l)%N).
    { injection H as _ <-. split; [intro; auto|reflexivity]. }
    destruct (t_of O f) as [m1|]; [|discriminate]. destruct (t_of O new) as [m2|]; [|discriminate].
    destruct (traj_between p (chr (b_from f)) (b_from f) (b_from new)) as [t p1] eqn:E.
    apply traj_between_keeps with (c := c) in E. destruct E as [A1 A2]. apply IH in H. destruct H as [B1 B2].
    split; [intros c' Hc; apply B1, A1; auto|]. intro F. inversion F; subst. unfold keeps, mentions in *.
    rewrite B2, A2; auto.
Qed.

Definition none_stored (c : N) (p : pcm) : Prop :=
  stored_ok C (fun b => ~ mentions c b) (fun b => ~ mentions c b) p.

Lemma parse_one_keeps vals b c (p p' : pcm) nn nn' : parse_one C vals b (p, nn) = Val (p', nn') ->
  keeps_seen p p' /\ (~ mentions c b -> none_stored c p -> keeps c p p').
Proof.
  unfold parse_one.
  destruct (negb (kmem (b_from b) vals) || negb (kmem (b_to b) vals)).
  { intro H. injection H as <- _. split; [intro; auto|reflexivity]. }
  destruct (is_special C (b_from b) || is_special C (b_to b)).
  - set (l := landmark_key C b). unfold increment_landmark_adj. cbn [p_lms set_total set_lms].
    rewrite n_get_set, N.eqb_refl. unfold meas_add at 1. cbn [me_factors]. 
    set (fs := me_factors (meas_add (lm_get l (p_lms p)) b)).
    match goal with |- context [lm_bits l (firstn ?n fs) b ?q []] => set (m := n); set (p1 := q) end.
    destruct (_ <=? 1); cbn [rbind].
    { intro H. injection H as <- _. split; [intro; auto|reflexivity]. }
    destruct (dims_are _ _); cbn [rbind]; [|discriminate].
    destruct (lm_bits l (firstn m fs) b p1 []) as [[ob p2]|] eqn:E; cbn [rbind]; [|discriminate].
    apply lm_bits_keeps with (c := c) in E. destruct E as [A1 A2].
    assert (G : (~ mentions c b -> none_stored c p -> keeps c p p2)).
    { intros Hb Hs. apply A2. destruct Hs as [_ S2 _ _].
      destruct (@lm_get_ok _ C _ (p_lms p) l S2) as [G _].
      rewrite Forall_forall in *. intros x Hx. apply (firstn_In' m fs x) in Hx. unfold fs, meas_add in Hx. cbn in Hx.
      apply in_app_or in Hx. destruct Hx as [Hx|[<-|[]]]; auto. apply G; auto. }
    destruct ob; intro H; injection H as <- _; split; auto.
  - destruct (if (chr (b_from b) =? chr (b_to b))%N then is_odom_consistent C p b else Val (true, p)) as [[ok p1]|] eqn:E;
      cbn [rbind]; [|discriminate].
    assert (A : keeps_seen p p1 /\ (~ mentions c b -> keeps c p p1) /\ p_lcs p1 = p_lcs p).
    { destruct (chr (b_from b) =? chr (b_to b))%N.
      - unfold is_odom_consistent in E. destruct (c_odom_check C); cbn [negb] in E.
        + destruct (traj_between p (chr (b_from b)) (b_from b) (b_to b)) as [t p2] eqn:ET.
          destruct (t_of O b); [|discriminate]. injection E as _ <-.
          destruct (traj_between_teq _ _ _ _ ET) as [_ [[tr ->] _]].
          apply traj_between_keeps with (c := c) in ET. destruct ET as [A1 A2].
          split; auto. split; auto. intro Hm. apply A2. unfold mentions in Hm. auto.
        + injection E as _ <-. split; [intro; auto|]. split; reflexivity.
      - injection E as _ <-. split; [intro; auto|]. split; reflexivity. }
    destruct A as (A1 & A2 & A3). destruct ok.
    2:{ intro H. injection H as <- _. split; auto. }
    rewrite A3. set (id := (chr (b_from b), chr (b_to b))).
    destruct (c_loop_check C).
    2:{ cbn [rbind]. intro H. injection H as <- _. split; auto. }
    unfold increment_adj. cbn [p_lcs set_total set_order set_lcs]. rewrite oid_get_set, oid_eqb_refl.
    set (fs := me_factors (meas_add (lc_get id (p_lcs p)) b)).
    match goal with |- context [lc_bits C (firstn ?n fs) b ?q []] => set (m := n); set (p3 := q) end.
    destruct (length fs <=? 1); cbn [rbind].
    { intro H. injection H as <- _. split; auto. }
    destruct (dims_are _ _); cbn [rbind]; [|discriminate].
    destruct (lc_bits C (firstn m fs) b p3 []) as [[ob p4]|] eqn:EB; cbn [rbind]; [|discriminate].
    apply lc_bits_keeps with (c := c) in EB. destruct EB as [B1 B2].
    intro H. injection H as <- _. split; [intros c' Hc; apply B1, A1; auto|].
    intros Hb Hs. unfold keeps in *. cbn [p_trajs set_lcs]. rewrite B2; [apply A2; auto|].
    destruct Hs as [S1 _ _ _]. destruct (@lc_get_ok _ C _ (p_lcs p) id S1) as [G _].
    rewrite Forall_forall in *. intros x Hx. apply (firstn_In' m fs x) in Hx. unfold fs, meas_add in Hx. cbn in Hx.
    apply in_app_or in Hx. destruct Hx as [Hx|[<-|[]]]; auto. apply G; auto.
Qed.

Lemma parse_all_keeps vals c bs : forall (p p' : pcm) nn nn', rfold (parse_one C vals) bs (p, nn) = Val (p', nn') ->
  keeps_seen p p' /\ (Forall (fun b => ~ mentions c b) bs -> none_stored c p -> keeps c p p').
Proof.
  induction bs as [|b bs IH]; intros p p' nn nn' H; cbn [rfold] in H.
  - injection H as <- _. split; [intro; auto|reflexivity].
  - destruct (parse_one C vals b (p, nn)) as [[p1 nn1]|] eqn:E; cbn [rbind] in H; [|discriminate].
    pose proof E as E'. apply parse_one_inv in E'. destruct E' as [o [HP _]].
    apply parse_one_keeps with (c := c) in E. apply IH in H. destruct E as [A1 A2], H as [B1 B2].
    split; [intros c' Hc; apply B1, A1; auto|]. intros F S. inversion F; subst. unfold keeps in *. rewrite B2, A2; auto.
    eapply parsed_stored_ok; eauto.
Qed.

(** ** A call of [removeOutliers] *)

Lemma remove_outliers_trajs (W : soracles O) fs nv (p p' : pcm) nfg nfg' v v' b :
  remove_outliers C (so_pcm W) fs nv (PSt p nfg v) = Ok (PSt p' nfg' v') b ->
  exists vs u p1 acc, vinsert_all nv v = Ok vs u /\ proc_factors C nv vs fs p ([], false) = Ok p1 acc /\
    keeps_seen p1 p' /\ (forall c k, tref p' c k = tref p1 c k) /\
    forall c, (forall x, In (Some (FBetween x)) fs -> ~ mentions c x) -> none_stored c p ->
      keeps c p1 p' /\ none_stored c p'.
Proof.
  intro H. pose proof H as H0. unfold remove_outliers in H. cbn [ps_pcm ps_nfg ps_vals] in H.
  apply remove_outliers_ok in H0. destruct H0 as (_ & _ & _ & _ & _ & R6).
  assert (NS : forall c, (forall x, In (Some (FBetween x)) fs -> ~ mentions c x) -> none_stored c p -> none_stored c p').
  { intros c Hm. apply R6; auto. }
  clear R6. destruct (vinsert_all nv v) as [vs u| |] eqn:EV; try discriminate.
  destruct fs as [|of fs].
  { injection H as <- _ _ _. exists vs, u, p, ([], false). cbn [proc_factors]. split; auto. split; auto.
    split; [intro; auto|]. split; auto. intros c Hm Hn. split; [reflexivity|]. auto. }
  set (fs' := of :: fs) in *.
  destruct (proc_factors C nv vs fs' p ([], false)) as [p1 [lcs opt]| |] eqn:EP; try discriminate.
  match type of H with context [match ?r with Bad _ => _ | Val _ => _ end] => destruct r as [[p3 opt']|] eqn:ER end;
    [|discriminate].
  exists vs, u, p1, (lcs, opt). split; auto. split; auto.
  pose proof (proc_factors_frame _ _ _ _ _ _ EP) as F. destruct F as (_ & _ & F3 & _ & _ & _ & _ & F8 & F9 & _).
  cbn [fst app] in F9.
  assert (TR : p_trajs p' = p_trajs p3).
  { destruct (c_align C && (1 <? length (p_robots p3))); [|injection H as <- _ _ _; auto].
    destruct (align (so_pcm W) (set_robots p3 (nsort (p_robots p3))) vs) as [vs' []| |]; try discriminate.
    injection H as <- _ _ _. auto. }
  assert (G : exists p2, p_trajs p3 = p_trajs p2 /\ keeps_seen p1 p2 /\
    (forall c k, tref p2 c k = tref p1 c k) /\
    (forall c, (forall x, In (Some (FBetween x)) fs' -> ~ mentions c x) -> none_stored c p -> keeps c p1 p2)).
  { assert (N1 : forall c, (forall x, In (Some (FBetween x)) fs' -> ~ mentions c x) -> none_stored c p -> none_stored c p1).
    { intros c Hm [N1 N2 N3 N4].
      assert (HF : Forall (fun b => is_landmark_factor C b = true /\ ~ mentions c b) (filter (sp_first sp nv) (betweens fs'))).
      { apply Forall_forall. intros x Hx. apply filter_In in Hx. destruct Hx as [Hx Hf].
        split; [eapply sp_first_landmark; eauto|]. apply Hm. apply In_betweens. auto. }
      destruct (store_firsts_ok HF N2 N4). split; rewrite ?F3, ?F8; auto. }
    destruct lcs as [|b0 lcs].
    - injection ER as <- _. exists p1. split; auto. split; [intro; auto|]. split; auto.
      intros c Hm Hn. reflexivity.
    - destruct (parse_all C vs (b0 :: lcs) p1) as [[p2 nn]|] eqn:EA; cbn [rbind] in ER; [|discriminate].
      destruct (if c_incremental C then find_inliers_inc nn p2 else find_inliers C p2) as [p3'|] eqn:EF;
        cbn [rbind] in ER; [|discriminate].
      injection ER as -> _. pose proof (@parse_all_inv _ _ _ _ _ _ _ EA) as [PL Ha].
      assert (SEL : selected p2 p3).
      { destruct (c_incremental C); [eapply find_inliers_inc_selected; eauto|eapply find_inliers_selected; eauto]. }
      exists p2. split; [destruct SEL as (_ & _ & ->); auto|].
      unfold parse_all in EA.
      split; [apply (@parse_all_keeps vs 0%N _ _ _ _ _ EA)|].
      split; [apply (parsed_list_ok PL)|].
      intros c Hm Hn. apply (@parse_all_keeps vs c _ _ _ _ _ EA); auto.
      apply Forall_forall. intros x Hx. rewrite F9 in Hx. apply filter_In in Hx. destruct Hx as [Hx _].
      apply Hm, In_betweens. auto. }
  destruct G as (p2 & G1 & G2 & G3 & G4). unfold keeps_seen, keeps in *.
  assert (TR2 : p_trajs p' = p_trajs p2) by congruence.
  split; [intros c Hc; rewrite TR2; auto|]. split; [intros c k; rewrite <- G3; apply tref_trajs; auto|].
  intros c Hm Hn. split; [rewrite TR2; auto|]. apply NS; auto.
Qed.

(** ** Dead reckoning *)

(** Odometry factors linking [k], [k+1], [k+2], ... *)
Fixpoint chain (k : key) (bs : list bf) : Prop :=
  match bs with
  | [] => True
  | b :: bs' => b_from b = k /\ b_to b = (k + 1)%N /\ chain (k + 1)%N bs'
  end.

Definition to_robot (c : N) (b : bf) : bool := (chr (b_to b) =? c)%N.

(** The pose after the first [i] increments. *)
Definition reckon (t0 : T) (ds : list T) (i : nat) : T := fold_left (t_comp O) (firstn i ds) t0.

Lemma chain_app k bs1 bs2 : chain k (bs1 ++ bs2) <-> chain k bs1 /\ chain (k + N.of_nat (length bs1))%N bs2.
Proof.
  revert k. induction bs1 as [|b bs1 IH]; intro k; cbn [app chain length].
  - rewrite N.add_0_r. tauto.
  - rewrite IH. rewrite Nat2N.inj_succ. replace (k + N.succ (N.of_nat (length bs1)))%N with (k + 1 + N.of_nat (length bs1))%N by lia.
    tauto.
Qed.

Lemma reckon_app1 t0 ds d i : i <= length ds -> reckon t0 (ds ++ [d]) i = reckon t0 ds i.
Proof. intro H. unfold reckon. rewrite firstn_app. replace (i - length ds) with 0 by lia. cbn [firstn]. rewrite app_nil_r. auto. Qed.
Lemma reckon_last t0 ds d : reckon t0 (ds ++ [d]) (S (length ds)) = t_comp O (reckon t0 ds (length ds)) d.
Proof.
  unfold reckon. rewrite firstn_all2 by (rewrite app_length; cbn; lia). rewrite firstn_all, fold_left_app. auto.
Qed.

Definition reckoned (p : pcm) (c : N) (k0 : key) (t0 : T) (ds : list T) : Prop :=
  n_find c (p_trajs p) <> None /\
  forall i, i <= length ds -> tref p c (k0 + N.of_nat i)%N = reckon t0 ds i.

(** Before the first and after each odometry factor of the robot. *)
Definition reck (p : pcm) (c : N) (k0 : key) (t0 : T) (ds : list T) : Prop :=
  match ds with [] => n_find c (p_trajs p) = None | _ => reckoned p c k0 t0 ds end.

Lemma odometry_neq nv (b : bf) : sp_odometry sp nv b = true -> b_from b <> b_to b.
Proof.
  unfold sp_odometry. rewrite !andb_true_iff, N.eqb_eq. intros [[_ H] _] E. rewrite <- E in H.
  assert (b_from b < 2 ^ 64)%N by (rewrite H; apply N.mod_lt; discriminate).
  destruct (N.eq_dec (b_from b) (2 ^ 64 - 1)) as [E'|E'].
  - rewrite E' in H. vm_compute in H. discriminate.
  - rewrite N.mod_small in H; lia.
Qed.

Lemma proc_factor_trajs nv vals (of : option factor) (p p' : pcm) acc acc' :
  proc_factor C nv vals of p acc = Ok p' acc' ->
  match of with
  | Some (FBetween b) => if sp_odometry sp nv b then exists u, update_odom vals b p = Ok p' u else p_trajs p' = p_trajs p
  | _ => p_trajs p' = p_trajs p
  end.
Proof.
  unfold proc_factor. destruct of as [[b|k x|k t|ks t]|]; try (intro H; injection H as <- _; auto; fail).
  rewrite classify_spec. destruct (sp_first sp nv b) eqn:EF.
  - rewrite (@first_not_odometry _ C nv b EF). intro H. injection H as <- _. auto.
  - destruct (sp_odometry sp nv b).
    + destruct (update_odom vals b p) as [p1 u| |] eqn:E; cbn [obind]; try discriminate. intro H. injection H as <- _. eauto.
    + destruct (b_from b =? b_to b)%N; intro H; injection H as <- _; auto.
Qed.

Lemma reck_keep (p p' : pcm) c k0 t0 ds : n_find c (p_trajs p') = n_find c (p_trajs p) -> reck p c k0 t0 ds -> reck p' c k0 t0 ds.
Proof.
  intro E. unfold reck. destruct ds as [|d ds]; [congruence|]. intros [H1 H2]. split; [congruence|].
  intros i Hi. rewrite <- H2 by auto. unfold tref. 
  exact (f_equal (fun o => tget (match o with Some t => t | None => [] end) (k0 + N.of_nat i)%N) E).
Qed.

Lemma proc_factors_reck nv vals c k0 x0 fs : forall (p p' : pcm) acc acc' bs0 ds0,
  proc_factors C nv vals fs p acc = Ok p' acc' ->
  let new := filter (to_robot c) (filter (sp_odometry sp nv) (betweens fs)) in
  chain k0 (bs0 ++ new) -> length ds0 = length bs0 -> reck p c k0 (t_init O x0) ds0 ->
  (ds0 = [] -> new <> [] -> kfind k0 vals = Some (VPose x0)) ->
  exists dn, Forall2 (fun b d => t_of O b = Some d) new dn /\ reck p' c k0 (t_init O x0) (ds0 ++ dn).
Proof.
  induction fs as [|of fs IH]; intros p p' acc acc' bs0 ds0 H new HC HL HR HV; cbn [proc_factors] in H.
  - injection H as <- _. exists []. split; [constructor|]. rewrite app_nil_r. auto.
  - destruct (proc_factor C nv vals of p acc) as [p1 acc1| |] eqn:E; cbn [obind] in H; try discriminate.
    apply proc_factor_trajs in E.
    assert (SAME : p_trajs p1 = p_trajs p -> new = filter (to_robot c) (filter (sp_odometry sp nv) (betweens fs)) ->
      exists dn, Forall2 (fun b d => t_of O b = Some d) new dn /\ reck p' c k0 (t_init O x0) (ds0 ++ dn)).
    { intros ET EN. rewrite EN in HC, HV |- *. eapply IH; eauto. eapply reck_keep; [|exact HR]. rewrite ET. auto. }
    destruct of as [[b|k x|k t|ks t]|]; try (apply SAME; [exact E|reflexivity]).
    unfold new in *. cbn [betweens flat_map app filter] in *. fold (betweens fs) in *.
    destruct (sp_odometry sp nv b) eqn:EO; [|apply SAME; [exact E|reflexivity]].
    destruct E as [u E]. apply update_odom_inv in E; [|eapply odometry_neq; eauto].
    destruct E as (d & Ed & E1 & E2 & E3). cbn [filter] in *. 
    destruct (to_robot c b) eqn:ER.
    2:{ unfold to_robot in ER. apply N.eqb_neq in ER. eapply IH; eauto. eapply reck_keep; [|exact HR]. apply E2. auto. }
    unfold to_robot in ER. apply N.eqb_eq in ER. rewrite ER in *.
    change (b :: filter (to_robot c) (filter (sp_odometry sp nv) (betweens fs))) with
      ([b] ++ filter (to_robot c) (filter (sp_odometry sp nv) (betweens fs))) in HC.
    rewrite app_assoc in HC. pose proof HC as HC1. rewrite <- app_assoc in HC1. apply chain_app in HC1. destruct HC1 as [_ HC1].
    cbn [app chain] in HC1. destruct HC1 as (F1 & F2 & _).
    assert (RK : reck p1 c k0 (t_init O x0) (ds0 ++ [d])).
    { assert (G : reckoned p1 c k0 (t_init O x0) (ds0 ++ [d])).
      { split; auto. intros i Hi. rewrite app_length in Hi. cbn [length] in Hi.
        destruct ds0 as [|d0 ds0].
        - cbn [reck] in HR. destruct E3 as [[E3 _]|(_ & _ & x & Ex & E3)]; [contradiction|].
          destruct bs0; [|discriminate HL]. cbn [length N.of_nat] in F1, F2. rewrite N.add_0_r in F1, F2.
          rewrite F1, HV in Ex by (auto; discriminate). injection Ex as <-. rewrite E3.
          destruct i as [|[|i]]; cbn in Hi; try lia.
          + cbn [N.of_nat]. rewrite N.add_0_r, F1, F2, N.eqb_refl.
            replace (k0 =? k0 + 1)%N with false by (symmetry; apply N.eqb_neq; lia). reflexivity.
          + cbn [N.of_nat Pos.of_succ_nat]. rewrite F2, N.eqb_refl. reflexivity.
        - destruct HR as [HR1 HR2]. destruct E3 as [(_ & _ & E3)|[E3 _]]; [|contradiction]. rewrite E3.
          destruct (Nat.eq_dec i (S (length (d0 :: ds0)))) as [->|Hne].
          + rewrite reckon_last, <- HR2 by auto. rewrite HL, F2, Nat2N.inj_succ.
            replace (k0 + N.succ (N.of_nat (length bs0)) =? k0 + N.of_nat (length bs0) + 1)%N with true
              by (symmetry; apply N.eqb_eq; lia). rewrite F1. reflexivity.
          + rewrite reckon_app1 by lia. rewrite <- HR2 by lia.
            replace (k0 + N.of_nat i =? b_to b)%N with false; auto. symmetry. apply N.eqb_neq. rewrite F2. lia. }
      destruct ds0; exact G. }
    destruct (IH p1 p' acc1 acc' (bs0 ++ [b]) (ds0 ++ [d]) H HC) as (dn & D1 & D2); auto.
    { rewrite !app_length. cbn. lia. }
    { intro X. destruct ds0; discriminate X. }
    exists (d :: dn). split; [constructor; auto|]. rewrite <- app_assoc in D2. exact D2.
Qed.

(** ** Histories *)
Variable W : soracles O.
Notation solver := (solver O).
Notation op := (op O).
Notation start := (solver_init (O := O) true).

Definition robot_odoms (c : N) (h : list op) : list bf := filter (to_robot c) (sp_odoms sp h).

Lemma sp_odoms_app (h1 h2 : list op) : sp_odoms sp (h1 ++ h2) = sp_odoms sp h1 ++ sp_odoms sp h2.
Proof. unfold sp_odoms. apply flat_map_app. Qed.

Lemma robot_odoms_app c (h1 h2 : list op) : robot_odoms c (h1 ++ h2) = robot_odoms c h1 ++ robot_odoms c h2.
Proof. unfold robot_odoms. rewrite sp_odoms_app, filter_app. auto. Qed.

Lemma step_calls o (s s' : solver) r p : s_pcm s = Some p -> step C W o s = Ok s' r ->
  exists p', s_pcm s' = Some p' /\
    (call_of o = None -> p_trajs p' = p_trajs p /\ p_robots p' = p_robots p) /\
    (forall fs vs, call_of o = Some (fs, vs) -> exists nfg' v' b,
       remove_outliers C (so_pcm W) fs vs (PSt p (s_nfg s) (s_vals s)) = Ok (PSt p' nfg' v') b).
Proof.
  intros Hp Hs. pose proof (step_inv C W o s Hp Hs) as (s1 & p' & b & [E0 E] & _ & _ & _ & Ho).
  exists p'. split.
  { destruct (optimises o b); [|congruence]. destruct (optimize_same C W s1 Ho) as (G & _). congruence. }
  destruct o as [fs vs opt|fs vs|c opt|a0 b0| |c|c|fs vs|fs vs|]; cbn [call_of] in *.
  1,2: split; [discriminate|]; intros fs' vs' X; injection X as <- <-; destruct E as [b' E]; eauto.
  all: split; [intros _|intros fs' vs' X; discriminate X].
  - destruct E as (-> & _). auto.
  - destruct E as (e & _ & HR & _). apply pcm_remove_last_id_frame in HR. destruct HR as (lcs & -> & _). auto.
  - destruct E as (e & _ & HR & _). apply pcm_remove_last_frame in HR. destruct HR as [(_ & -> & _)|(od & id & _ & HR)]; auto.
    apply pcm_remove_last_id_frame in HR. destruct HR as (lcs & -> & _). auto.
  - destruct E as (-> & _). unfold pcm_ignore. destruct (existsb _ _); auto.
  - destruct E as (-> & _). auto.
  - destruct E as (-> & _). auto.
  - destruct E as (-> & _). auto.
  - destruct E as (-> & _). auto.
Qed.

Lemma entered_delivered h b : entered C W h b -> delivered h (FBetween b).
Proof.
  intros (h1 & o & h2 & fs & vs & s1 & p1 & rs & -> & Hc & Hi & _). exists o, fs, vs. split; auto.
  apply in_or_app. right. left. auto.
Qed.

Definition not_mentioned (c : N) (h : list op) : Prop := forall b, delivered h (FBetween b) -> ~ mentions c b.

Lemma hist_none_stored h s rs c p : run C W h start = Ok s rs -> s_pcm s = Some p -> not_mentioned c h -> none_stored c p.
Proof.
  intros H Hp Hn. destruct (hist_run C W h H) as [p' I]. assert (p' = p) by (destruct I; congruence). subst p'.
  eapply stored_ok_imp; [| |exact (hi_stored I)]; intros b Hb; apply Hn; auto. apply entered_delivered. auto.
Qed.

Lemma mentions_to c b : to_robot c b = true -> mentions c b.
Proof. unfold to_robot. intro H. apply N.eqb_eq in H. right. auto. Qed.

(** A robot no factor mentions has no trajectory. *)
Lemma unmentioned h : forall s rs c p, run C W h start = Ok s rs -> s_pcm s = Some p -> not_mentioned c h ->
  n_find c (p_trajs p) = None.
Proof.
  induction h as [|o h IH] using rev_ind; intros s rs c p H Hp Hn.
  - cbn [run] in H. injection H as <- _. injection Hp as <-. reflexivity.
  - apply run_snoc in H. destruct H as (s1 & rs1 & r & R1 & R2 & ->).
    destruct (hist_run C W h R1) as [p1 I]. pose proof (hi_pcm I) as Hp1.
    assert (Hn1 : not_mentioned c h) by (intros b Hb; apply Hn, delivered_snoc; auto).
    specialize (IH s1 rs1 c p1 R1 Hp1 Hn1).
    destruct (step_calls o s1 Hp1 R2) as (p' & E1 & E2 & E3). assert (p' = p) by congruence. subst p'.
    destruct (call_of o) as [[fs vs]|] eqn:EC.
    2:{ destruct (E2 eq_refl) as [-> _]. auto. }
    destruct (E3 fs vs eq_refl) as (nfg' & v' & b & HR).
    apply remove_outliers_trajs in HR. destruct HR as (vs' & u & p2 & acc & HV & HP & _ & _ & K).
    assert (Hm : forall x, In (Some (FBetween x)) fs -> ~ mentions c x).
    { intros x Hx. apply Hn. exists o, fs, vs. split; auto. apply in_or_app. right. left. auto. }
    destruct (K c Hm) as [K1 _]; [eapply hist_none_stored; eauto|]. unfold keeps in K1. rewrite K1.
    assert (EN : filter (to_robot c) (filter (sp_odometry sp vs) (betweens fs)) = []).
    { destruct (filter (to_robot c) _) as [|x l] eqn:EF; auto. exfalso.
      assert (X : In x (x :: l)) by (left; auto). rewrite <- EF in X. apply filter_In in X. destruct X as [X1 X2].
      apply filter_In in X1. destruct X1 as [X1 _]. apply (Hm x); [apply In_betweens; auto|apply mentions_to; auto]. }
    destruct (@proc_factors_reck vs vs' c 0%N (t_pid O) fs p1 p2 _ _ [] [] HP) as (dn & D1 & D2); auto.
    { cbn [app]. rewrite EN. exact Logic.I. }
    { intros _ X. rewrite EN in X. contradiction. }
    rewrite EN in D1. inversion D1; subst. exact D2.
Qed.

Theorem c33 h1 o h2 s1 rs1 s rs p fs vs c k0 x0 :
  run C W h1 start = Ok s1 rs1 -> run C W (h1 ++ o :: h2) start = Ok s rs -> s_pcm s = Some p ->
  call_of o = Some (fs, vs) -> not_mentioned c h1 -> robot_odoms c [o] <> [] ->
  kfind k0 (s_vals s1) = Some (VPose x0) \/ kfind k0 vs = Some (VPose x0) ->
  chain k0 (robot_odoms c (h1 ++ o :: h2)) ->
  exists ds, Forall2 (fun b d => t_of O b = Some d) (robot_odoms c (h1 ++ o :: h2)) ds /\
    reckoned p c k0 (t_init O x0) ds.
Proof.
  intros R1 R2 Hp HC Hn Ho Hv Hch.
  assert (N0 : robot_odoms c h1 = []).
  { unfold robot_odoms. destruct (filter (to_robot c) _) as [|x l] eqn:EF; auto. exfalso.
    assert (X : In x (x :: l)) by (left; auto). rewrite <- EF in X. apply filter_In in X. destruct X as [X1 X2].
    apply in_flat_map in X1. destruct X1 as (o' & Y1 & Y2). destruct (call_of o') as [[fs' vs']|] eqn:EC; [|destruct Y2].
    apply filter_In in Y2. destruct Y2 as [Y2 _]. apply (Hn x); [|apply mentions_to; auto].
    exists o', fs', vs'. split; auto. split; auto. apply In_betweens. auto. }
  revert s rs p R2 Hp Hch. induction h2 as [|o2 h2 IH] using rev_ind; intros s rs p R2 Hp Hch.
  - apply run_snoc in R2. destruct R2 as (s1' & rs1' & r & R1' & RS & ->).
    assert (s1' = s1) by congruence. subst s1'. destruct (hist_run C W h1 R1) as [p1 I]. pose proof (hi_pcm I) as Hp1.
    destruct (step_calls o s1 Hp1 RS) as (p' & E1 & _ & E3). assert (p' = p) by congruence. subst p'.
    destruct (E3 fs vs HC) as (nfg' & v' & b & HR).
    apply remove_outliers_trajs in HR. destruct HR as (vs' & u & p2 & acc & HV & HP & KS & KT & _).
    assert (EN : robot_odoms c [o] = filter (to_robot c) (filter (sp_odometry sp vs) (betweens fs))).
    { unfold robot_odoms, sp_odoms. cbn [flat_map]. rewrite HC, app_nil_r. auto. }
    rewrite robot_odoms_app, N0 in *. cbn [app] in *. rewrite EN in *.
    pose proof (vinsert_all_ok _ _ HV) as (V1 & V2 & _).
    destruct (@proc_factors_reck vs vs' c k0 x0 fs p1 p2 _ _ [] [] HP) as (dn & D1 & D2); auto.
    { cbn [reck]. eapply unmentioned; eauto. }
    { intros _ _. rewrite V1. destruct Hv as [Hv|Hv]; [rewrite Hv; auto|].
      destruct (kfind k0 (s_vals s1)) eqn:EK; auto. exfalso.
      assert (X : In k0 (kkeys vs)) by (apply kmem_In; unfold kmem; rewrite Hv; auto).
      apply V2 in X. unfold kmem in X. rewrite EK in X. discriminate X. }
    exists dn. split; auto. cbn [app] in D2. destruct dn as [|d dn]; [inversion D1 as [X|]; exfalso; apply Ho; auto|].
    destruct D2 as [D2 D3]. split; [apply KS; auto|]. intros i Hi. rewrite KT. auto.
  - change (h1 ++ o :: h2 ++ [o2]) with (h1 ++ (o :: h2) ++ [o2]) in *. rewrite app_assoc in *.
    apply run_snoc in R2. destruct R2 as (s2 & rs2 & r & R2 & RS & ->).
    destruct (hist_run C W _ R2) as [p2 I]. pose proof (hi_pcm I) as Hp2.
    rewrite robot_odoms_app in Hch |- *.
    destruct (IH s2 rs2 p2 R2 Hp2) as (ds & D1 & D2); [apply chain_app in Hch; tauto|].
    destruct (step_calls o2 s2 Hp2 RS) as (p' & E1 & E2 & E3). assert (p' = p) by congruence. subst p'.
    unfold robot_odoms in Hch |- *. unfold sp_odoms at 2 in Hch. unfold sp_odoms at 2. cbn [flat_map] in *. rewrite app_nil_r in *.
    destruct (call_of o2) as [[fs2 vs2]|] eqn:EC.
    2:{ cbn [filter] in *. rewrite !app_nil_r in *. destruct (E2 eq_refl) as [E4 _]. exists ds. split; auto.
        destruct D2 as [D2 D3]. split; [rewrite E4; auto|]. intros i Hi. rewrite <- D3 by auto. apply tref_trajs. auto. }
    destruct (E3 fs2 vs2 eq_refl) as (nfg' & v' & b & HR).
    apply remove_outliers_trajs in HR. destruct HR as (vs' & u & p3 & acc & HV & HP & KS & KT & _).
    assert (NE : ds <> []).
    { intros ->. inversion D1 as [X|]. symmetry in X. rewrite robot_odoms_app in X. apply app_eq_nil in X. destruct X as [_ X].
      change (o :: h2) with ([o] ++ h2) in X. rewrite robot_odoms_app in X. apply app_eq_nil in X. destruct X as [X _]. contradiction. }
    destruct (@proc_factors_reck vs2 vs' c k0 x0 fs2 p2 p3 _ _ (robot_odoms c (h1 ++ o :: h2)) ds HP) as (dn & D3 & D4); auto.
    { symmetry. eapply Forall2_len; eauto. }
    { destruct ds; [contradiction|exact D2]. }
    { intro; contradiction. }
    exists (ds ++ dn). split; [apply Forall2_app; auto|].
    destruct ds as [|d ds]; [contradiction|]. cbn [app reck] in D4. destruct D4 as [D4 D5].
    split; [apply KS; auto|]. intros i Hi. rewrite KT. auto.
Qed.

End Traj.
