(** * Multi-robot alignment *)
From Coq Require Import Permutation.
From Verif Require Import Prelude Num Keys KMap UMap Geometry Factors Clique Pcm Solver ValuesProofs
  PcmSpec PcmProofs PcmInv PcmStore HistSpec StoreSpec SolverProofs HistProofs GraphProofs TrajProofs AcceptProofs
  DeliverProofs AlgProofs AlignSpec.
Set Implicit Arguments.
Local Open Scope nat_scope.

Section Align.
Variable O : tops.
Variable C : config.
Variable W : soracles O.
Notation bf := (bf O).
Notation factor := (factor O).
Notation values := (values O).
Notation graph_t := (graph_t O).
Notation pcm := (pcm O).
Notation solver := (solver O).
Notation op := (op O).
Notation sp := (c_special C).
Notation traj := (traj O).
Notation start := (solver_init (O := O) true).
Notation lc_get := (uget oid_eqb (@meas_default O)).
Notation lm_get := (uget N.eqb (@meas_default O)).
Notation tr_get := (uget N.eqb (@nil (N * t_T O))).

(** ** Trajectories hold keys of their own robot only *)

Definition good_traj (c : N) (tr : traj) : Prop := ksorted tr /\ forall k, kmem k tr = true -> chr k = c.
Definition own (p : pcm) : Prop := forall c tr, n_find c (p_trajs p) = Some tr -> good_traj c tr.

Lemma good_nil c : good_traj c [].
Proof. split; [constructor|]. intros k H. discriminate. Qed.

Lemma good_kset c (tr : traj) k t : good_traj c tr -> chr k = c -> good_traj c (kset k t tr).
Proof.
  intros [H1 H2] Hk. split; [apply ksorted_kset; auto|]. intros k' H. rewrite kmem_kset in H.
  apply orb_true_iff in H. destruct H as [H|H]; auto. apply N.eqb_eq in H. subst. auto.
Qed.

Lemma good_touch c (tr : traj) k : good_traj c tr -> chr k = c -> good_traj c (ttouch tr k).
Proof. intros H Hk. unfold ttouch. destruct (kfind k tr); auto. apply good_kset; auto. Qed.

Lemma own_get (p : pcm) c : own p -> good_traj c (tr_get c (p_trajs p)).
Proof.
  intro H. exact (match n_find c (p_trajs p) as o return (forall tr, o = Some tr -> good_traj c tr) ->
      good_traj c (match o with Some v => v | None => [] end) with
    | Some tr => fun h => h tr eq_refl
    | None => fun _ => good_nil c
    end (H c)).
Qed.

Lemma own_set (p p' : pcm) c tr : own p -> good_traj c tr -> p_trajs p' = n_set c tr (p_trajs p) -> own p'.
Proof.
  intros H G E c' tr'. rewrite E. rewrite n_find_set. destruct (N.eqb_spec c' c) as [->|]; [|apply H].
  intro X. injection X as <-. auto.
Qed.

Lemma own_trajs (p p' : pcm) : p_trajs p' = p_trajs p -> own p -> own p'.
Proof. intros E H c tr. rewrite E. apply H. Qed.

Lemma own_between (p p' : pcm) c a b t : own p -> chr a = c -> chr b = c -> traj_between p c a b = (t, p') -> own p'.
Proof.
  intros H Ha Hb. unfold traj_between, get_between. rewrite Ha, Hb, N.eqb_refl. intro E. injection E as _ <-.
  eapply own_set with (c := c); [exact H| |reflexivity]. apply good_touch; auto. apply good_touch; auto. apply own_get; auto.
Qed.

Lemma own_loops (p p' : pcm) f1 f2 r : own p -> oid_eqb (pair_of f1) (pair_of f2) = true ->
  are_loops_consistent C p f1 f2 = Val (r, p') -> own p'.
Proof.
  intros H Ho. unfold are_loops_consistent. destruct (c_loop_check C); cbn [negb].
  2:{ intro E. injection E as _ <-. auto. }
  destruct (t_of O f1) as [m1|]; [|discriminate]. destruct (t_of O f2) as [m2|]; [|discriminate].
  apply oid_eqb_spec in Ho. unfold pair_of in Ho.
  destruct (N.eqb_spec (chr (b_from f1)) (chr (b_from f2))) as [E0|E0];
    match goal with |- context [traj_between p ?c ?a ?b] => destruct (traj_between p c a b) as [t1 p1] eqn:E1 end;
    match goal with |- context [traj_between ?q ?c ?a ?b] => destruct (traj_between q c a b) as [t2 p2] eqn:E2 end;
    intro X; injection X as _ <-;
    (eapply own_between; [eapply own_between; [exact H| | |exact E1]| | |exact E2]; auto;
     cbn [fst snd] in Ho; destruct Ho as [[Ho1 Ho2]|[Ho1 Ho2]]; congruence).
Qed.

Lemma own_lc_bits fs new : forall (p p' : pcm) bits bits', own p ->
  Forall (fun f => oid_eqb (pair_of f) (pair_of new) = true) fs ->
  lc_bits C fs new p bits = Val (bits', p') -> own p'.
Proof.
  induction fs as [|f fs IH]; intros p p' bits bits' H F E; cbn [lc_bits] in E.
  - injection E as _ <-. auto.
  - inversion F as [|? ? F1 F2]; subst.
    destruct (are_loops_consistent C p f new) as [[r p1]|] eqn:E1; cbn [rbind] in E; [|discriminate].
    eapply IH; [|exact F2|exact E]. eapply own_loops; eauto.
Qed.

Lemma own_lm_bits l fs new : forall (p p' : pcm) bits ob, own p ->
  Forall (fun f => b_from f <> l -> b_from new <> l -> chr (b_from f) = chr (b_from new)) fs ->
  lm_bits l fs new p bits = Val (ob, p') -> own p'.
Proof.
  induction fs as [|f fs IH]; intros p p' bits ob H F E; cbn [lm_bits] in E.
  - injection E as _ <-. auto.
  - inversion F as [|? ? F1 F2]; subst.
    destruct (N.eqb_spec (b_from f) l) as [|N1]; cbn [orb] in E; [injection E as _ <-; auto|].
    destruct (N.eqb_spec (b_from new) l) as [|N2]; cbn [orb] in E; [injection E as _ <-; auto|].
    destruct (t_of O f) as [m1|]; [|discriminate]. destruct (t_of O new) as [m2|]; [|discriminate].
    destruct (traj_between p (chr (b_from f)) (b_from f) (b_from new)) as [t p1] eqn:E1.
    eapply IH; [|exact F2|exact E]. eapply own_between; [exact H| | |exact E1]; auto. symmetry. auto.
Qed.

(** [D]: the factors delivered so far. *)
Section Tidy.
Variable D : bf -> Prop.
Hypothesis tidy_odo : forall b, D b -> b_to b = ((b_from b + 1) mod 2 ^ 64)%N ->
  chr (b_from b) = chr (b_to b) /\ (chr (b_from b) < 128)%N.
Hypothesis tidy_lm : forall x y, D x -> D y -> sp_lmk C x = true -> sp_lmk C y = true ->
  sp_landmark_key sp x = sp_landmark_key sp y -> chr (observer C x) = chr (observer C y).

Lemma landmark_factor_lmk (b : bf) : is_landmark_factor C b = sp_lmk C b.
Proof. reflexivity. Qed.

Lemma observer_from (b : bf) : b_from b <> sp_landmark_key sp b -> observer C b = b_from b.
Proof. unfold observer, sp_landmark_key. destruct (sp_landmark sp (b_from b)); congruence. Qed.

Lemma own_parse_one vals b (p p' : pcm) nn nn' : own p -> D b -> stored_ok C (fun _ => True) D p ->
  parse_one C vals b (p, nn) = Val (p', nn') -> own p'.
Proof.
  intros Hown Hb [S1 S2 _ _]. unfold parse_one.
  destruct (negb (kmem (b_from b) vals) || negb (kmem (b_to b) vals)).
  { intro H. injection H as <- _. auto. }
  destruct (is_special C (b_from b) || is_special C (b_to b)) eqn:ES.
  - assert (HL : sp_lmk C b = true) by (unfold sp_lmk; rewrite <- !(is_special_spec C); exact ES).
    assert (HK : landmark_key C b = sp_landmark_key sp b) by (unfold landmark_key, sp_landmark_key; rewrite is_special_spec; auto).
    rewrite HK. set (l := sp_landmark_key sp b) in *.
    unfold increment_landmark_adj. cbn [p_lms set_total set_lms].
    rewrite n_get_set, N.eqb_refl. unfold meas_add at 1. cbn [me_factors].
    set (fs := me_factors (meas_add (lm_get l (p_lms p)) b)).
    match goal with |- context [lm_bits l (firstn ?n fs) b ?q []] => set (m := n); set (p1 := q) end.
    destruct (_ <=? 1); cbn [rbind].
    { intro H. injection H as <- _. eapply own_trajs; [|exact Hown]. reflexivity. }
    destruct (dims_are _ _); cbn [rbind]; [|discriminate].
    destruct (lm_bits l (firstn m fs) b p1 []) as [[ob p2]|] eqn:E; cbn [rbind]; [|discriminate].
    assert (G : own p2).
    { eapply own_lm_bits; [| |exact E].
      - eapply own_trajs; [|exact Hown]. reflexivity.
      - destruct (@lm_get_ok _ C _ (p_lms p) l S2) as [G _].
        rewrite Forall_forall in *. intros x Hx N1 N2. apply (firstn_In' m fs x) in Hx. unfold fs, meas_add in Hx. cbn in Hx.
        apply in_app_or in Hx. destruct Hx as [Hx|[<-|[]]]; auto.
        destruct (G _ Hx) as (G1 & G2 & G3). rewrite <- (@observer_from x), <- (@observer_from b); [|auto|congruence].
        apply tidy_lm; auto. }
    destruct ob; intro H; injection H as <- _; auto.
  - destruct (if (chr (b_from b) =? chr (b_to b))%N then is_odom_consistent C p b else Val (true, p)) as [[ok p1]|] eqn:E;
      cbn [rbind]; [|discriminate].
    assert (A : own p1 /\ p_lcs p1 = p_lcs p).
    { destruct (N.eqb_spec (chr (b_from b)) (chr (b_to b))) as [EC|EC].
      - unfold is_odom_consistent in E. destruct (c_odom_check C); cbn [negb] in E.
        + destruct (traj_between p (chr (b_from b)) (b_from b) (b_to b)) as [t p2] eqn:ET.
          destruct (t_of O b); [|discriminate]. injection E as _ <-.
          destruct (traj_between_teq _ _ _ _ ET) as [_ [[tr X] _]]. split; [|rewrite X; reflexivity].
          eapply own_between; [exact Hown| | |exact ET]; auto.
        + injection E as _ <-. auto.
      - injection E as _ <-. auto. }
    destruct A as (A1 & A3). destruct ok.
    2:{ intro H. injection H as <- _. auto. }
    rewrite A3. set (id := (chr (b_from b), chr (b_to b))).
    destruct (c_loop_check C).
    2:{ cbn [rbind]. intro H. injection H as <- _. eapply own_trajs; [|exact A1]. reflexivity. }
    unfold increment_adj. cbn [p_lcs set_total set_order set_lcs]. rewrite oid_get_set, oid_eqb_refl.
    set (fs := me_factors (meas_add (lc_get id (p_lcs p)) b)).
    match goal with |- context [lc_bits C (firstn ?n fs) b ?q []] => set (m := n); set (p3 := q) end.
    destruct (length fs <=? 1); cbn [rbind].
    { intro H. injection H as <- _. eapply own_trajs; [|exact A1]. reflexivity. }
    destruct (dims_are _ _); cbn [rbind]; [|discriminate].
    destruct (lc_bits C (firstn m fs) b p3 []) as [[ob p4]|] eqn:EB; cbn [rbind]; [|discriminate].
    intro H. injection H as <- _. apply own_trajs with p4; [reflexivity|].
    eapply own_lc_bits; [| |exact EB].
    + eapply own_trajs; [|exact A1]. reflexivity.
    + destruct (@lc_get_ok _ C _ (p_lcs p) id S1) as [G _].
      rewrite Forall_forall in *. intros x Hx. apply (firstn_In' m fs x) in Hx. unfold fs, meas_add in Hx. cbn in Hx.
      apply in_app_or in Hx. destruct Hx as [Hx|[<-|[]]]; [apply G; auto|apply oid_eqb_refl].
Qed.

Lemma own_parse_all vals bs : forall (p p' : pcm) nn nn', own p -> Forall D bs -> stored_ok C (fun _ => True) D p ->
  rfold (parse_one C vals) bs (p, nn) = Val (p', nn') -> own p'.
Proof.
  induction bs as [|b bs IH]; intros p p' nn nn' H F S E; cbn [rfold] in E.
  - injection E as <- _. auto.
  - inversion F; subst.
    destruct (parse_one C vals b (p, nn)) as [[p1 nn1]|] eqn:E1; cbn [rbind] in E; [|discriminate].
    pose proof E1 as E'. apply parse_one_inv in E'. destruct E' as [o [HP _]].
    eapply IH; [eapply own_parse_one; eauto|auto| |exact E]. eapply parsed_stored_ok; eauto.
Qed.

Lemma own_update_odom vals b (p p' : pcm) u : own p -> chr (b_from b) = chr (b_to b) -> update_odom vals b p = Ok p' u -> own p'.
Proof.
  intros H Hc. unfold update_odom. destruct (t_of O b) as [d|]; [|discriminate].
  cbn [p_trajs set_odom p_robots].
  assert (G1 : forall tr t, good_traj (chr (b_to b)) tr -> good_traj (chr (b_to b)) (kset (b_to b) t (ttouch tr (b_from b)))).
  { intros tr t G. apply good_kset; auto. apply good_touch; auto. }
  destruct (n_find (chr (b_to b)) (p_trajs p)) as [tr|] eqn:E; cbn [obind].
  - intro X. injection X as <-. eapply own_set; [exact H| |reflexivity]. apply G1. apply (own_get _ H).
  - destruct (kfind (b_from b) vals) as [[x|t]|]; cbn [obind]; try discriminate.
    intro X. injection X as <-. cbn [p_trajs set_trajs set_odom set_robots].
    set (q := set_trajs p (n_set (chr (b_to b)) [(b_from b, t_init O x)] (p_trajs p))).
    assert (Hq : own q).
    { eapply own_set; [exact H| |reflexivity]. apply (@good_kset _ [] (b_from b)); [apply good_nil|auto]. }
    eapply (@own_set q); [exact Hq| |reflexivity]. apply G1. apply (own_get _ Hq).
Qed.

(** Robots in [robot_order_] are distinct, have trajectories and prefixes below 128. *)
Definition robots_ok (p : pcm) : Prop :=
  NoDup (p_robots p) /\ forall c, In c (p_robots p) -> n_find c (p_trajs p) <> None /\ (c < 128)%N.

Lemma robots_update_odom vals b (p p' : pcm) u : b_from b <> b_to b -> (chr (b_to b) < 128)%N -> robots_ok p -> update_odom vals b p = Ok p' u -> robots_ok p'.
Proof.
  intros Hne Hl [R1 R2] H. apply (update_odom_inv _ _ _ Hne) in H.
  destruct H as (d & _ & H1 & H2 & [(H3 & H4 & _)|(H3 & H4 & _)]); rewrite ?H4; unfold robots_ok; rewrite H4.
  - split; auto. intros c Hc. destruct (N.eq_dec c (chr (b_to b))) as [->|Hn]; auto. rewrite H2; auto.
  - split.
    + apply (Permutation_NoDup (Permutation_cons_append _ _)). constructor; auto. intro Hin. apply (proj1 (R2 _ Hin) H3).
    + intros c Hc. apply in_app_or in Hc. destruct (N.eq_dec c (chr (b_to b))) as [->|Hn]; auto.
      destruct Hc as [Hc|[Hc|[]]]; [rewrite H2; auto|]. elim Hn. symmetry. exact Hc.
Qed.

Lemma odometry_succ nv (b : bf) : sp_odometry sp nv b = true -> b_to b = ((b_from b + 1) mod 2 ^ 64)%N.
Proof. unfold sp_odometry. rewrite !andb_true_iff, N.eqb_eq. tauto. Qed.

Lemma align_proc nv vals fs : forall (p p' : pcm) acc acc', (forall b, In (Some (FBetween b)) fs -> D b) ->
  own p -> robots_ok p -> proc_factors C nv vals fs p acc = Ok p' acc' -> own p' /\ robots_ok p'.
Proof.
  induction fs as [|of fs IH]; intros p p' acc acc' HD H R E; cbn [proc_factors] in E.
  - injection E as <- _. auto.
  - destruct (proc_factor C nv vals of p acc) as [p1 acc1| |] eqn:E1; cbn [obind] in E; try discriminate.
    assert (G : own p1 /\ robots_ok p1).
    { assert (HR : p_trajs p1 = p_trajs p -> p_robots p1 = p_robots p -> own p1 /\ robots_ok p1).
      { intros X Y. split; [eapply own_trajs; eauto|]. unfold robots_ok. rewrite X, Y. auto. }
      pose proof E1 as ET; apply proc_factor_trajs in ET.
      assert (HB : match of with Some (FBetween b) => if sp_odometry sp nv b then True else p_robots p1 = p_robots p
                   | _ => p_robots p1 = p_robots p end).
      { clear ET. unfold proc_factor in E1. destruct of as [[b|k x|k t|ks t]|]; try (injection E1 as <- _; reflexivity).
        rewrite classify_spec in E1. destruct (sp_first sp nv b) eqn:EF.
        - rewrite (@first_not_odometry _ C nv b EF). injection E1 as <- _. reflexivity.
        - destruct (sp_odometry sp nv b); auto. destruct (b_from b =? b_to b)%N; injection E1 as <- _; auto. }
      destruct of as [[b|k x|k t|ks t]|]; auto.
      destruct (sp_odometry sp nv b) eqn:EO; auto. destruct ET as [u ET]. split.
      - eapply own_update_odom; [exact H| |exact ET]. apply tidy_odo; [apply HD; left; auto|]. eapply odometry_succ; eauto.
      - assert (TL : chr (b_from b) = chr (b_to b) /\ (chr (b_from b) < 128)%N).
        { apply tidy_odo; [apply HD; left; auto|]. eapply odometry_succ; eauto. }
        eapply robots_update_odom; [| |exact R|exact ET]; [eapply odometry_neq; eauto|]. destruct TL as [<- TL]. exact TL. }
    destruct G as [G1 G2]. eapply IH; [|exact G1|exact G2|exact E]. intros b Hb. apply HD. right; auto.
Qed.

Lemma ninsert_perm x l : Permutation (x :: l) (ninsert x l).
Proof.
  induction l as [|y l IH]; cbn [ninsert]; auto. destruct (schar x <=? schar y)%Z; auto.
  eapply perm_trans; [apply perm_swap|]. constructor. auto.
Qed.
Lemma nsort_perm l : Permutation l (nsort l).
Proof. induction l as [|x l IH]; auto. eapply perm_trans; [apply perm_skip, IH|]. apply ninsert_perm. Qed.

Lemma robots_sort (p : pcm) : robots_ok p -> robots_ok (set_robots p (nsort (p_robots p))).
Proof.
  intros [R1 R2]. split; cbn [p_robots p_trajs set_robots].
  - apply (Permutation_NoDup (nsort_perm _)). auto.
  - intros c Hc. apply R2. apply (Permutation_in _ (Permutation_sym (nsort_perm _))). auto.
Qed.

Lemma align_ro fs nv (p p' : pcm) nfg nfg' v v' b : (forall x, In (Some (FBetween x)) fs -> D x) ->
  own p -> robots_ok p -> stored_ok C (fun _ => True) D p ->
  remove_outliers C (so_pcm W) fs nv (PSt p nfg v) = Ok (PSt p' nfg' v') b -> own p' /\ robots_ok p'.
Proof.
  intros HD HO HR HS H. unfold remove_outliers in H. cbn [ps_pcm ps_nfg ps_vals] in H.
  destruct (vinsert_all nv v) as [vs u| |] eqn:EV; try discriminate.
  destruct fs as [|of fs].
  { injection H as <- _ _ _. auto. }
  set (fs' := of :: fs) in *.
  destruct (proc_factors C nv vs fs' p ([], false)) as [p1 [lcs opt]| |] eqn:EP; try discriminate.
  match type of H with context [match ?r with Bad _ => _ | Val _ => _ end] => destruct r as [[p3 opt']|] eqn:ER end;
    [|discriminate].
  destruct (align_proc _ _ _ _ HD HO HR EP) as [O1 R1].
  assert (G : own p3 /\ robots_ok p3).
  { destruct lcs as [|b0 lcs].
    - injection ER as <- _. auto.
    - destruct (parse_all C vs (b0 :: lcs) p1) as [[p2 nn]|] eqn:EA; cbn [rbind] in ER; [|discriminate].
      destruct (if c_incremental C then find_inliers_inc nn p2 else find_inliers C p2) as [p3'|] eqn:EF;
        cbn [rbind] in ER; [|discriminate].
      injection ER as -> _. pose proof (@parse_all_inv _ _ _ _ _ _ _ EA) as [PL Ha].
      assert (SEL : selected p2 p3).
      { destruct (c_incremental C); [eapply find_inliers_inc_selected; eauto|eapply find_inliers_selected; eauto]. }
      assert (ST : p_trajs p3 = p_trajs p2 /\ p_robots p3 = p_robots p2).
      { destruct (@selected_ok _ C _ _ SEL) as (_ & _ & _ & _ & _ & X & Y & _). auto. }
      destruct ST as [ST1 ST2]. destruct (parsed_list_ok PL) as (_ & _ & _ & _ & PR & _).
      pose proof (proc_factors_frame _ _ _ _ _ _ EP) as F. destruct F as (_ & _ & F3 & _ & _ & _ & _ & F8 & F9 & _).
      cbn [fst app] in F9. unfold parse_all in EA.
      assert (SO : stored_ok C (fun _ => True) D p1).
      { destruct HS as [N1 N2 N3 N4].
        assert (HF : Forall (fun b => is_landmark_factor C b = true /\ D b) (filter (sp_first sp nv) (betweens fs'))).
        { apply Forall_forall. intros x Hx. apply filter_In in Hx. destruct Hx as [Hx Hf].
          split; [eapply sp_first_landmark; eauto|]. apply HD. apply In_betweens. auto. }
        destruct (store_firsts_ok HF N2 N4). split; rewrite ?F3, ?F8; auto. }
      split.
      + eapply own_trajs; [exact ST1|]. eapply own_parse_all; [exact O1| |exact SO|exact EA].
        apply Forall_forall. intros x Hx. rewrite F9 in Hx. apply filter_In in Hx. destruct Hx as [Hx _].
        apply HD, In_betweens. auto.
      + destruct R1 as [R1 R2]. unfold robots_ok. rewrite ST1, ST2, PR. split; auto.
        intros c Hc. destruct (R2 _ Hc). split; auto. apply (@parse_all_keeps _ _ vs 0%N _ _ _ _ _ EA). auto. }
  destruct G as [G1 G2].
  destruct (c_align C && (1 <? length (p_robots p3))); [|injection H as <- _ _ _; auto].
  destruct (align (so_pcm W) (set_robots p3 (nsort (p_robots p3))) vs) as [vs' []| |]; try discriminate.
  injection H as <- _ _ _. split; [eapply own_trajs; [|exact G1]; reflexivity|]. apply robots_sort; auto.
Qed.

End Tidy.

Lemma tidy_snoc (h : list op) o : tidy C (h ++ [o]) -> tidy C h.
Proof.
  intros [T1 T2]. split.
  - intros b Hb. apply T1. apply delivered_snoc; auto.
  - intros x y Hx Hy. apply T2; apply delivered_snoc; auto.
Qed.

Lemma stored_delivered h (s : solver) p : hist_inv C W h s p -> stored_ok C (fun _ => True) (fun b => delivered h (FBetween b)) p.
Proof. intro I. eapply stored_ok_imp; [| |exact (hi_stored I)]; auto. Qed.

Lemma own_run h (s : solver) rs : run C W h start = Ok s rs -> tidy C h ->
  exists p, hist_inv C W h s p /\ own p /\ robots_ok p.
Proof.
  intros H T. assert (G : tidy C h -> exists p, s_pcm s = Some p /\ own p /\ robots_ok p).
  2:{ destruct (hist_run _ _ _ H) as [p I]. destruct (G T) as (p' & E & G'). rewrite (hi_pcm I) in E. injection E as <-. eauto. }
  clear T. revert h s rs H. apply (run_ind C W (fun h s => tidy C h -> exists p, s_pcm s = Some p /\ own p /\ robots_ok p)).
  - intros _. exists pcm_init. split; [reflexivity|]. split; [intros c tr X; discriminate X|].
    split; [constructor|]. intros c [].
  - intros h s o s' r rs HR IH HS T. destruct (IH (tidy_snoc _ _ T)) as (p & E & HO & HRb). clear IH.
    destruct (hist_run _ _ _ HR) as [p0 I]. pose proof (hi_pcm I) as E0. rewrite E in E0. injection E0 as <-.
    pose proof (step_inv C W o s E HS) as (s1 & p' & b & [Hp' CE] & _ & _ & _ & Ho).
    assert (HG : s_pcm s' = Some p').
    { destruct (optimises o b); [|subst; auto]. apply optimize_same in Ho. destruct Ho as (X & _). congruence. }
    exists p'. split; auto.
    assert (KEEP : p_trajs p' = p_trajs p -> p_robots p' = p_robots p -> own p' /\ robots_ok p').
    { intros X Y. split; [eapply own_trajs; eauto|]. unfold robots_ok. rewrite X, Y. auto. }
    assert (CALL : forall fs vs b, call_of o = Some (fs, vs) ->
      remove_outliers C (so_pcm W) fs vs (PSt p (s_nfg s) (s_vals s)) = Ok (PSt p' (s_nfg s1) (s_vals s1)) b ->
      own p' /\ robots_ok p').
    { intros fs vs b' Hc X. destruct T as [T1 T2].
      eapply (@align_ro (fun x => delivered (h ++ [o]) (FBetween x)) T1 T2); [|exact HO|exact HRb| |exact X].
      - intros x Hx. exists o, fs, vs. split; [apply in_or_app; right; left; auto|]. auto.
      - eapply stored_ok_imp; [| |exact (stored_delivered I)]; auto. intros. apply delivered_snoc; auto. }
    destruct o as [fs vs opt|fs vs|c opt|a0 b0| |c|c|fs vs|fs vs|]; cbn in CE.
    + destruct CE as [b' CE]. eapply CALL; eauto. reflexivity.
    + destruct CE as [b' CE]. eapply CALL; eauto. reflexivity.
    + destruct CE as (-> & _). apply KEEP; reflexivity.
    + destruct CE as (e & _ & X & _). apply pcm_remove_last_id_frame in X. destruct X as (lcs & -> & _). apply KEEP; reflexivity.
    + destruct CE as (e & _ & X & _). apply pcm_remove_last_frame in X. destruct X as [(_ & -> & _)|(od & id & _ & X)]; auto.
      apply pcm_remove_last_id_frame in X. destruct X as (lcs & -> & _). apply KEEP; reflexivity.
    + destruct CE as (-> & _). unfold pcm_ignore. destruct (existsb _ _); auto.
    + destruct CE as (-> & _). apply KEEP; reflexivity.
    + destruct CE as (-> & _). auto.
    + destruct CE as (-> & _). auto.
    + destruct CE as (-> & _). auto.
Qed.

(** ** What alignment does to the values *)

Lemma kfind_nil_or (p : pcm) c k : own p -> kfind k (tr_get c (p_trajs p)) =
  if (chr k =? c)%N then match n_find c (p_trajs p) with Some tr => kfind k tr | None => None end else None.
Proof.
  intro H. destruct (N.eqb_spec (chr k) c) as [E|E].
  - exact (match n_find c (p_trajs p) as o return kfind k (match o with Some v => v | None => [] end) =
      match o with Some tr => kfind k tr | None => None end with Some _ => eq_refl | None => eq_refl end).
  - destruct (own_get c H) as [_ G]. specialize (G k).
    match goal with |- ?x = None => destruct x as [v|] eqn:X end; auto. elim E. apply G. unfold kmem.
    match goal with |- match ?y with _ => _ end = true => replace y with (Some v) end. auto.
Qed.

Lemma frame_meas_says (p : pcm) r0 ri b : own p -> (r0 < 128)%N -> r0 <> ri -> oid_eqb (pair_of b) (r0, ri) = true ->
  frame_meas p r0 ri b = frame_says p r0 b.
Proof.
  intros H Hl Hne Ho. apply oid_eqb_spec in Ho. unfold pair_of in Ho. cbn [fst snd] in Ho.
  unfold frame_meas, frame_says, odo_pose, same_char. apply N.ltb_lt in Hl. rewrite Hl, andb_true_r. clear Hl.
  destruct Ho as [[E1 E2]|[E1 E2]].
  - rewrite E1, N.eqb_refl. rewrite (kfind_nil_or r0 (b_from b) H), (kfind_nil_or ri (b_to b) H), E1, E2, !N.eqb_refl.
    destruct (n_find r0 (p_trajs p)) as [t1|]; auto. destruct (kfind (b_from b) t1); auto. cbn [option_map].
    destruct (n_find ri (p_trajs p)) as [t2|]; auto. destruct (kfind (b_to b) t2); auto.
  - rewrite E1. assert (X : (ri =? r0)%N = false) by (apply N.eqb_neq; auto). rewrite X.
    rewrite (kfind_nil_or r0 (b_to b) H), (kfind_nil_or ri (b_from b) H), E1, E2, !N.eqb_refl.
    destruct (n_find r0 (p_trajs p)) as [t1|]; auto. destruct (kfind (b_to b) t1); auto. cbn [option_map].
    destruct (n_find ri (p_trajs p)) as [t2|]; auto. destruct (kfind (b_from b) t2); auto.
Qed.

Lemma frame_all_says (p : pcm) r0 ri bs : own p -> (r0 < 128)%N -> r0 <> ri ->
  Forall (fun b => oid_eqb (pair_of b) (r0, ri) = true) bs ->
  frame_all p r0 ri bs = all_of (map (frame_says p r0) bs).
Proof.
  intros H Hl Hne. induction 1 as [|b bs Hb F IH]; cbn [frame_all map all_of]; auto.
  rewrite IH, (@frame_meas_says p r0 ri b H Hl Hne Hb). destruct (frame_says p r0 b); auto.
Qed.

(** One batch of robot values. *)
Lemma place_ok (p : pcm) c tf rv vs vs' u : own p -> robot_odom_values p c tf = Some rv -> vupdate_all rv vs = Ok vs' u ->
  forall k, kfind k vs' = match (if (chr k =? c)%N then placed p tf k else None) with Some v => Some v | None => kfind k vs end.
Proof.
  intros H. unfold robot_odom_values. destruct (n_find c (p_trajs p)) as [tr|] eqn:E; [|discriminate].
  intro X. injection X as <-. intro HU. destruct (H _ _ E) as [G1 G2].
  apply vupdate_all_ok in HU. destruct HU as (_ & U2 & _ & U4). rewrite kkeys_kmapi in *.
  specialize (U4 (ksorted_NoDup G1)). intro k.
  assert (A : placed p tf k = if (chr k =? c)%N then option_map (fun t => VPose (t_pcomp O tf (t_getpose O t))) (kfind k tr) else placed p tf k).
  { destruct (N.eqb_spec (chr k) c) as [EC|EC]; auto. unfold placed, odo_pose. rewrite EC.
    rewrite (E : ufind N.eqb c (p_trajs p) = Some tr). destruct (kfind k tr); auto. }
  destruct (kfind k tr) as [t|] eqn:EK.
  - assert (M : kmem k tr = true) by (unfold kmem; rewrite EK; auto). specialize (G2 k M).
    rewrite G2, N.eqb_refl in A |- *. rewrite A. cbn [option_map].
    apply U4. apply kfind_In. rewrite kfind_kmapi, EK. auto.
  - rewrite U2.
    + destruct (chr k =? c)%N; auto. rewrite A. auto.
    + intro Hin. apply kmem_In in Hin. unfold kmem in Hin. rewrite EK in Hin. discriminate.
Qed.

Lemma align_one_ok w (p : pcm) r0 c vs vs' u : own p -> (r0 < 128)%N -> r0 <> c -> n_find c (p_trajs p) <> None ->
  Forall (lc_ok C (fun _ => True)) (p_lcs p) -> align_one w p r0 c vs = Ok vs' u ->
  forall k, kfind k vs' =
    match (if (chr k =? c)%N then match frame_of w p r0 c with Some tf => placed p tf k | None => None end else None) with
    | Some v => Some v | None => kfind k vs end.
Proof.
  intros H Hl Hne HT HS E k. unfold align_one in E. unfold frame_of.
  destruct (lc_find (r0, c) (p_lcs p)) as [m|] eqn:EL.
  2:{ injection E as <-. destruct (chr k =? c)%N; auto. }
  assert (F : Forall (fun b => oid_eqb (pair_of b) (r0, c) = true) (me_cons m)).
  { destruct (@lc_get_ok _ C _ (p_lcs p) (r0, c) HS) as [G1 G2]. unfold uget in G1, G2. rewrite EL in G1, G2.
    rewrite Forall_forall in *. intros b Hb. apply G1, G2. auto. }
  rewrite (frame_all_says H Hl Hne F) in E.
  destruct (all_of (map (frame_says p r0) (me_cons m))) as [ts|].
  2:{ injection E as <-. destruct (chr k =? c)%N; auto. }
  destruct (w_avg w ts) as [tf|]; [|discriminate].
  destruct (robot_odom_values p c tf) as [rv|] eqn:ER.
  - apply (@place_ok p c tf rv vs vs' u H ER E).
  - unfold robot_odom_values in ER. destruct (n_find c (p_trajs p)); [discriminate|]. elim HT. auto.
Qed.

Lemma align_rest_values w (p : pcm) r0 rs : own p -> (r0 < 128)%N -> Forall (lc_ok C (fun _ => True)) (p_lcs p) ->
  forall vs vs' u, NoDup rs -> ~ In r0 rs -> (forall c, In c rs -> n_find c (p_trajs p) <> None) ->
  align_rest w p r0 rs vs = Ok vs' u ->
  forall k, kfind k vs' =
    match (if in_dec N.eq_dec (chr k) rs then match frame_of w p r0 (chr k) with Some tf => placed p tf k | None => None end else None) with
    | Some v => Some v | None => kfind k vs end.
Proof.
  intros H Hl HS. induction rs as [|c rs IH]; intros vs vs' u ND NI HT E k; cbn [align_rest] in E.
  - injection E as <-. auto.
  - destruct (align_one w p r0 c vs) as [vs1 u1| |] eqn:E1; cbn [obind] in E; try discriminate.
    inversion ND as [|? ? N1 N2]; subst.
    rewrite (IH _ _ _ N2 (fun X => NI (or_intror X)) (fun c' X => HT c' (or_intror X)) E k).
    assert (Hne : r0 <> c) by (intros ->; apply NI; left; auto).
    rewrite (@align_one_ok w p r0 c vs vs1 u1 H Hl Hne (HT c (or_introl eq_refl)) HS E1 k).
    destruct (in_dec N.eq_dec (chr k) rs) as [I1|I1]; destruct (in_dec N.eq_dec (chr k) (c :: rs)) as [I2|I2].
    + destruct (N.eqb_spec (chr k) c) as [X|X]; [subst c; tauto|auto].
    + elim I2. right; auto.
    + destruct I2 as [I2|I2]; [|tauto]. rewrite <- I2 in *. rewrite N.eqb_refl. auto.
    + destruct (N.eqb_spec (chr k) c) as [X|X]; [elim I2; left; auto|auto].
Qed.

Lemma align_values w (p : pcm) r0 rs vs vs' u : own p -> robots_ok p -> Forall (lc_ok C (fun _ => True)) (p_lcs p) ->
  p_robots p = r0 :: rs -> align w p vs = Ok vs' u ->
  forall k, kfind k vs' =
    match moved_to w p r0 rs k with Some v => Some v | None => kfind k vs end.
Proof.
  intros H [R1 R2] HS HR E k. unfold align in E. rewrite HR in E, R1.
  inversion R1 as [|? ? N1 N2]; subst.
  destruct (robot_odom_values p r0 (t_pid O)) as [rv|] eqn:ER; [|discriminate].
  destruct (vupdate_all rv vs) as [vs1 u1| |] eqn:EU; cbn [obind] in E; try discriminate.
  assert (RT : forall c, In c rs -> n_find c (p_trajs p) <> None) by (intros c X; apply R2; rewrite HR; right; auto).
  assert (Hl : (r0 < 128)%N) by (apply R2; rewrite HR; left; auto).
  unfold moved_to. rewrite (@align_rest_values w p r0 rs H Hl HS vs1 vs' u N2 N1 RT E k).
  rewrite (@place_ok p r0 (t_pid O) rv vs vs1 u1 H ER EU k).
  destruct (N.eqb_spec (chr k) r0) as [->|X]; [|reflexivity].
  destruct (in_dec N.eq_dec r0 rs); [tauto|auto].
Qed.

Lemma ro_align fs nv (p p' : pcm) nfg nfg' v v' b : c_align C = true ->
  remove_outliers C (so_pcm W) fs nv (PSt p nfg v) = Ok (PSt p' nfg' v') b ->
  exists v0 u, vinsert_all nv v = Ok v0 u /\
    ((fs = [] \/ length (p_robots p') < 2) /\ v' = v0 \/
     fs <> [] /\ 1 < length (p_robots p') /\ nsorted (p_robots p') /\ align (so_pcm W) p' v0 = Ok v' tt).
Proof.
  intros HA H. unfold remove_outliers in H. cbn [ps_pcm ps_nfg ps_vals] in H. rewrite HA in H. cbn [andb] in H.
  destruct (vinsert_all nv v) as [vs u| |] eqn:EV; try discriminate. exists vs, u. split; auto.
  destruct fs as [|of fs].
  { injection H as <- _ <- _. auto. }
  destruct (proc_factors C nv vs (of :: fs) p ([], false)) as [p1 [lcs opt]| |] eqn:EP; try discriminate.
  match type of H with context [match ?r with Bad _ => _ | Val _ => _ end] => destruct r as [[p3 opt']|] eqn:ER end;
    [|discriminate].
  destruct (Nat.ltb_spec 1 (length (p_robots p3))) as [L|L].
  - destruct (align (so_pcm W) (set_robots p3 (nsort (p_robots p3))) vs) as [vs' []| |] eqn:EA; try discriminate.
    injection H as <- _ <- _. right. cbn [p_robots set_robots]. split; [discriminate|]. rewrite nsort_length.
    split; auto. split; auto. apply nsort_sorted.
  - injection H as <- _ <- _. left. split; auto. right. lia.
Qed.

Lemma ro_working (o : op) (s s1 s' : solver) b : s_trace s1 = s_trace s -> (if optimises o b then optimize C W s1 = Ok s' tt else s' = s1) ->
  working_values s s' (s_vals s1).
Proof.
  intros HT H. unfold working_values. destruct (optimises o b).
  - right. apply optimize_inv in H. destruct H as (r & a & full & Z). exists r. split; [rewrite (oz_trace Z), HT; auto|].
    intros k x Hk. rewrite (oz_req Z). pose proof (oz_full Z) as F. apply vinsert_all_ok in F. destruct F as (F & _).
    rewrite F, Hk. auto.
  - subst. auto.
Qed.

Theorem alignment : forall h (s : solver) rs o fs vs s' r,
  run C W h start = Ok s rs -> call_of o = Some (fs, vs) -> step C W o s = Ok s' r ->
  c_align C = true -> tidy C (h ++ [o]) ->
  exists p v0 v, s_pcm s' = Some p /\ vinsert_all vs (s_vals s) = Ok v0 tt /\ working_values s s' v /\
    ((fs = [] \/ length (p_robots p) < 2) /\ v = v0 \/
     fs <> [] /\ exists r0 rs0, p_robots p = r0 :: rs0 /\ rs0 <> [] /\
       (forall c, In c rs0 -> (r0 < c)%N) /\ NoDup rs0 /\ (forall c, In c (p_robots p) -> n_find c (p_trajs p) <> None) /\
       forall k, kfind k v = match moved_to (so_pcm W) p r0 rs0 k with Some x => Some x | None => kfind k v0 end).
Proof.
  intros h s rs o fs vs s' r HR HC HS HA T.
  assert (HR' : run C W (h ++ [o]) start = Ok s' (rs ++ [r])).
  { eapply run_app_ok; eauto. cbn [run]. rewrite HS. reflexivity. }
  destruct (own_run HR' T) as (p' & I' & HO & HRb).
  destruct (hist_run _ _ _ HR) as [p I].
  pose proof (step_inv C W o s (hi_pcm I) HS) as (s1 & p1 & b & [Hp' CE] & _ & SO & RO & Ho).
  assert (HG : s_pcm s' = Some p1).
  { destruct (optimises o b); [|subst; auto]. apply optimize_same in Ho. destruct Ho as (X & _). congruence. }
  rewrite (hi_pcm I') in HG. injection HG as ->.
  assert (X : remove_outliers C (so_pcm W) fs vs (PSt p (s_nfg s) (s_vals s)) = Ok (PSt p1 (s_nfg s1) (s_vals s1)) b).
  { apply RO. destruct o; try discriminate HC; injection HC as -> ->; eauto. }
  apply ro_align in X; [|exact HA]. destruct X as (v0 & u & HV & X). destruct u.
  exists p1, v0, (s_vals s1). split; [apply (hi_pcm I')|]. split; auto.
  split; [eapply ro_working; [|exact Ho]; apply SO|].
  destruct X as [[X ->]|(X1 & X2 & X3 & X4)]; [left; auto|right]. split; auto.
  destruct (p_robots p1) as [|r0 rs0] eqn:ER; [cbn in X2; lia|]. exists r0, rs0.
  split; auto. split; [intros ->; cbn in X2; lia|]. destruct HRb as [R1 R2]. rewrite ER in R1, R2. inversion R1; subst.
  split; [|split; auto; split].
  - intros c Hc. destruct X3 as [X3 _]. specialize (X3 c Hc). assert (c <> r0) by (intros ->; auto).
    assert (c < 128)%N by (apply R2; right; auto). assert (r0 < 128)%N by (apply R2; left; auto).
    unfold schar in X3. destruct (N.ltb_spec r0 128); [|lia]. destruct (N.ltb_spec c 128); lia.
  - intros c Hc. apply R2. auto.
  - eapply align_values; [exact HO|split; rewrite ER; auto| |exact ER|exact X4].
    exact (so_lcs (stored_delivered I')).
Qed.

(** ** Robots that are moved and robots that are not *)

(** Entries of the closure store belong to delivered closures. *)
Definition keyed (D : bf -> Prop) (p : pcm) : Prop :=
  forall id m, In (id, m) (p_lcs p) -> exists b, D b /\ oid_eqb (pair_of b) id = true /\ is_landmark_factor C b = false.

Lemma keyed_imp (D D' : bf -> Prop) p : (forall b, D b -> D' b) -> keyed D p -> keyed D' p.
Proof. intros H K id m Hin. destruct (K id m Hin) as (b & X & Y). eauto. Qed.

Lemma In_uset {K V} (eqb : K -> K -> bool) (k : K) (v : V) m k' v' : In (k', v') (uset eqb k v m) ->
  (exists v0, In (k', v0) m) \/ k' = k.
Proof.
  induction m as [|[k0 v0] m IH]; cbn [uset].
  - intros [H|[]]. injection H as -> ->. auto.
  - destruct (eqb k k0) eqn:E.
    + intros [H|H]; [injection H as -> ->; left; exists v0; left; auto|left; exists v'; right; auto].
    + intros [H|H]; [injection H as -> ->; left; exists v'; left; auto|].
      destruct (IH H) as [[v1 X]|X]; auto. left. exists v1. right; auto.
Qed.

Lemma keyed_parsed (D : bf -> Prop) vals b (p p' : pcm) o : parsed C vals b p p' o -> D b -> keyed D p -> keyed D p'.
Proof.
  intros H Hb K. inversion H; subst; auto. intros id m Hin. unfold store_lc in Hin. cbn [p_lcs set_total set_order set_lcs set_trajs] in Hin.
  apply In_uset in Hin. destruct Hin as [[v0 Hin]| ->]; [eauto|]. exists b. split; auto. split; [apply oid_eqb_refl|].
  destruct H0 as (_ & _ & X & _). auto.
Qed.

Lemma keyed_parsed_list (D : bf -> Prop) vals bs (p p' : pcm) : parsed_list C vals bs p p' -> Forall D bs -> keyed D p -> keyed D p'.
Proof.
  induction 1 as [|b bs p o p1 p2 Hp Hl IH]; auto. intros F K. inversion F; subst. apply IH; auto. eapply keyed_parsed; eauto.
Qed.

Lemma keyed_selected (D : bf -> Prop) (p p' : pcm) : selected p p' -> keyed D p -> keyed D p'.
Proof.
  intros (H1 & _ & ->) K id m Hin. cbn [p_lcs set_good set_lms set_lcs] in Hin. apply entrywise_keys in H1.
  assert (X : In id (map fst (p_lcs p))).
  { rewrite <- H1. apply in_map_iff. exists (id, m). auto. }
  apply in_map_iff in X. destruct X as ([id' m'] & E & X). cbn in E. subst. eauto.
Qed.

Lemma keyed_run h (s : solver) rs : run C W h start = Ok s rs ->
  exists p, s_pcm s = Some p /\ keyed (fun b => delivered h (FBetween b)) p.
Proof.
  revert h s rs. apply (run_ind C W (fun h s => exists p, s_pcm s = Some p /\ keyed (fun b => delivered h (FBetween b)) p)).
  - exists pcm_init. split; auto. intros id m [].
  - intros h s o s' r rs HR (p & E & K) HS.
    pose proof (step_inv C W o s E HS) as (s1 & p' & b & [Hp' CE] & _ & _ & _ & Ho).
    assert (HG : s_pcm s' = Some p').
    { destruct (optimises o b); [|subst; auto]. apply optimize_same in Ho. destruct Ho as (X & _). congruence. }
    exists p'. split; auto.
    apply keyed_imp with (D' := fun b => delivered (h ++ [o]) (FBetween b)) in K; [|intros; apply delivered_snoc; auto].
    assert (KEEP : p_lcs p' = p_lcs p -> keyed (fun b => delivered (h ++ [o]) (FBetween b)) p').
    { intros X id m. rewrite X. apply K. }
    assert (REM : forall id (q q' : pcm) e, p_lcs q = p_lcs p -> pcm_remove_last_id (so_pcm W) id q = Val (q', e) ->
       keyed (fun b => delivered (h ++ [o]) (FBetween b)) q').
    { intros id q q' e Hq X. apply pcm_remove_last_id_frame in X. destruct X as (lcs & -> & X1 & X2).
      intros id' m Hin. cbn [p_lcs set_lcs] in Hin. destruct e as [x|].
      - destruct (X2 x eq_refl) as (m0 & m1 & b1 & F & -> & _). apply In_uset in Hin. rewrite Hq in *.
        destruct Hin as [[v0 Hin]| ->]; [eauto|]. apply ufind_In in F. destruct F as (k' & F1 & F2).
        destruct (K _ _ F2) as (b0 & B1 & B2 & B3). exists b0. split; auto. split; auto.
        eapply oid_eqb_trans; [exact B2|]. rewrite oid_eqb_sym. auto.
      - rewrite X1, Hq in Hin by auto. eauto. }
    assert (CALL : forall fs vs b, call_of o = Some (fs, vs) ->
      remove_outliers C (so_pcm W) fs vs (PSt p (s_nfg s) (s_vals s)) = Ok (PSt p' (s_nfg s1) (s_vals s1)) b ->
      keyed (fun b => delivered (h ++ [o]) (FBetween b)) p').
    { intros fs vs b' Hc X. apply remove_outliers_inv in X. cbn [ps_pcm ps_nfg ps_vals] in X.
      destruct X as (v1 & u & p1 & HV & HP & _ & _ & H3 & H4).
      assert (E1 : p_lcs p' = p_lcs p1).
      { destruct (c_align C).
        - destruct (H4 eq_refl) as [[-> _]|(_ & _ & -> & _)]; reflexivity.
        - specialize (H3 eq_refl). injection H3 as -> _. auto. }
      intros id m. rewrite E1. revert id m. change (keyed (fun b => delivered (h ++ [o]) (FBetween b)) p1).
      inversion HP; subst; auto.
      - apply proc_factors_frame in H0. destruct H0 as (_ & _ & F3 & _). intros id m. rewrite F3. apply K.
      - apply proc_factors_frame in H0. destruct H0 as (_ & _ & F3 & _ & _ & _ & _ & F8 & F9 & _). cbn [fst app] in F9.
        eapply keyed_selected; [eassumption|]. eapply keyed_parsed_list; [eassumption| |].
        + apply Forall_forall. intros x Hx. rewrite F9 in Hx. apply filter_In in Hx. destruct Hx as [Hx _].
          exists o, fs, vs. split; [apply in_or_app; right; left; auto|]. split; auto. apply In_betweens. auto.
        + intros id m. rewrite F3. apply K. }
    destruct o as [fs vs opt|fs vs|c opt|a0 b0| |c|c|fs vs|fs vs|]; cbn in CE.
    + destruct CE as [b' CE]. eapply CALL; eauto. reflexivity.
    + destruct CE as [b' CE]. eapply CALL; eauto. reflexivity.
    + destruct CE as (-> & _). apply KEEP; reflexivity.
    + destruct CE as (e & _ & X & _). eapply REM; [|exact X]. reflexivity.
    + destruct CE as (e & _ & X & _). apply pcm_remove_last_frame in X. destruct X as [(_ & -> & _)|(od & id & _ & X)]; auto.
      eapply REM; [|exact X]. reflexivity.
    + destruct CE as (-> & _). apply KEEP. unfold pcm_ignore. destruct (existsb _ _); auto.
    + destruct CE as (-> & _). apply KEEP; reflexivity.
    + destruct CE as (-> & _). auto.
    + destruct CE as (-> & _). auto.
    + destruct CE as (-> & _). auto.
Qed.

Theorem frame_none : forall h (s : solver) rs p r0 c, run C W h start = Ok s rs -> s_pcm s = Some p ->
  (forall b, delivered h (FBetween b) -> sp_lmk C b = false -> of_pair (r0, c) b = false) ->
  frame_of (so_pcm W) p r0 c = None.
Proof.
  intros h s rs p r0 c H HP HN. destruct (keyed_run _ H) as (p' & E & K). rewrite HP in E. injection E as <-.
  unfold frame_of. destruct (lc_find (r0, c) (p_lcs p)) as [m|] eqn:EL; auto. apply ufind_In in EL. destruct EL as (k & E1 & E2).
  destruct (K _ _ E2) as (b & B1 & B2 & B3). specialize (HN b B1 B3). exfalso.
  assert (X : oid_eqb (pair_of b) (r0, c) = true) by (eapply oid_eqb_trans; [exact B2|]; rewrite oid_eqb_sym; auto).
  unfold of_pair in HN. unfold pair_of in X. rewrite X in HN. discriminate HN.
Qed.

Theorem frame_graph : forall h (s : solver) rs p r0 c, run C W h start = Ok s rs -> s_pcm s = Some p ->
  pair_ignored h (r0, c) = false -> graph_lcs C h (r0, c) (s_nfg s) <> [] ->
  frame_of (so_pcm W) p r0 c =
    match all_of (map (frame_says p r0) (graph_lcs C h (r0, c) (s_nfg s))) with Some ts => w_avg (so_pcm W) ts | None => None end.
Proof.
  intros h s rs p r0 c H HP HI HG. destruct (hist_run _ _ _ H) as [p' I]. pose proof (hi_pcm I) as E. rewrite HP in E. injection E as <-.
  rewrite (graph_lcs_eq (r0, c) I), HI in *. unfold frame_of, uget in *.
  destruct (lc_find (r0, c) (p_lcs p)) as [m|]; auto. elim HG. reflexivity.
Qed.

(** ** Accepted loop closures hold after alignment *)
Section Group.
Hypothesis L : tgroup O.
Notation "a * b" := (t_pcomp O a b).
Notation "/ a" := (t_pinv O a).

Lemma tg_inv_r a : a * / a = t_pid O.
Proof.
  rewrite <- (tg_id_l L (a * / a)). rewrite <- (tg_inv_l L (/ a)) at 1.
  rewrite <- (tg_assoc L). rewrite (tg_assoc L (/ a) a (/ a)). rewrite (tg_inv_l L), (tg_id_l L). apply (tg_inv_l L).
Qed.
Lemma tg_id_r a : a * t_pid O = a.
Proof. rewrite <- (tg_inv_l L a), (tg_assoc L), tg_inv_r. apply (tg_id_l L). Qed.
Lemma tg_cancel a b : a * b * / b = a.
Proof. rewrite <- (tg_assoc L), tg_inv_r. apply tg_id_r. Qed.
Lemma tg_cancel' a b : a * / b * b = a.
Proof. rewrite <- (tg_assoc L), (tg_inv_l L). apply tg_id_r. Qed.

(** A closure whose reading is the transform holds between the moved poses. *)
Lemma closure_holds (p : pcm) r0 b tf x y : frame_says p r0 b = Some tf ->
  (if (chr (b_from b) =? r0)%N
   then odo_pose p (b_from b) = Some x /\ odo_pose p (b_to b) = Some y
   else odo_pose p (b_to b) = Some x /\ odo_pose p (b_from b) = Some y) ->
  if (chr (b_from b) =? r0)%N then / x * (tf * y) = b_meas b else / (tf * y) * x = b_meas b.
Proof.
  unfold frame_says. destruct (chr (b_from b) =? r0)%N; intros H [E1 E2]; rewrite E1, E2 in H; injection H as <-; rewrite tg_cancel'.
  - rewrite (tg_assoc L), (tg_inv_l L). apply (tg_id_l L).
  - assert (X : / (x * / b_meas b) * (x * / b_meas b) * b_meas b = b_meas b) by (rewrite (tg_inv_l L); apply (tg_id_l L)).
    rewrite <- (tg_assoc L), tg_cancel' in X. exact X.
Qed.

Lemma all_of_same {A B} (f : A -> option B) l x : (forall a, In a l -> f a = Some x) -> all_of (map f l) = Some (map (fun _ => x) l).
Proof.
  induction l as [|a l IH]; intro H; cbn [map all_of]; auto. rewrite (H a (or_introl eq_refl)).
  rewrite IH by (intros; apply H; right; auto). reflexivity.
Qed.

Theorem accepted_hold : forall h (s : solver) rs o fs vs s' r,
  run C W h start = Ok s rs -> call_of o = Some (fs, vs) -> step C W o s = Ok s' r ->
  c_align C = true -> tidy C (h ++ [o]) -> fs <> [] ->
  (forall ts x, ts <> [] -> (forall t, In t ts -> t = x) -> w_avg (so_pcm W) ts = Some x) ->
  exists p v, s_pcm s' = Some p /\ working_values s s' v /\
    forall r0 c tf, In r0 (p_robots p) -> In c (p_robots p) -> (forall c', In c' (p_robots p) -> (r0 <= c')%N) -> r0 <> c ->
    pair_ignored (h ++ [o]) (r0, c) = false ->
    (forall b, In b (graph_lcs C (h ++ [o]) (r0, c) (s_nfg s')) -> frame_says p r0 b = Some tf) ->
    forall b, In b (graph_lcs C (h ++ [o]) (r0, c) (s_nfg s')) ->
    exists x y, kfind (b_from b) v = Some (VPose x) /\ kfind (b_to b) v = Some (VPose y) /\ / x * y = b_meas b.
Proof.
  intros h s rs o fs vs s' r HR HC HS HA T HF HW.
  destruct (@alignment h s rs o fs vs s' r HR HC HS HA T) as (p & v0 & v & HP & _ & HV & X).
  exists p, v. split; auto. split; auto. intros r0 c tf H0 Hc Hmin Hne HI HT b Hb.
  assert (HR' : run C W (h ++ [o]) start = Ok s' (rs ++ [r])).
  { eapply run_app_ok; eauto. cbn [run]. rewrite HS. reflexivity. }
  assert (HL : graph_lcs C (h ++ [o]) (r0, c) (s_nfg s') <> []) by (intro E; rewrite E in Hb; destruct Hb).
  pose proof (@frame_graph _ _ _ p r0 c HR' HP HI HL) as FG. rewrite (all_of_same _ _ HT) in FG.
  assert (FT : frame_of (so_pcm W) p r0 c = Some tf).
  { rewrite FG. apply HW.
    - intro E. apply map_eq_nil in E. auto.
    - intros t Ht. apply in_map_iff in Ht. destruct Ht as (_ & <- & _). auto. }
  assert (OP : oid_eqb (pair_of b) (r0, c) = true).
  { unfold graph_lcs in Hb. apply filter_In in Hb. destruct Hb as [_ Hb]. apply andb_true_iff in Hb. apply Hb. }
  specialize (HT b Hb). clear Hb HL FG.
  destruct X as [[[X|X] _]|(_ & r1 & rs0 & ER & _ & Hlt & _ & _ & HK)]; [congruence| |].
  { destruct (p_robots p) as [|x [|y l]]; [destruct H0| |cbn in X; lia].
    destruct H0 as [<-|[]]. destruct Hc as [<-|[]]. congruence. }
  assert (E0 : r1 = r0).
  { rewrite ER in *. specialize (Hmin r1 (or_introl eq_refl)). destruct H0 as [H0|H0]; auto. specialize (Hlt _ H0). lia. }
  subst r1. assert (Hc' : In c rs0) by (rewrite ER in Hc; destruct Hc as [Hc|Hc]; [congruence|auto]).
  pose proof HT as HT0. unfold frame_says in HT0. apply oid_eqb_spec in OP. unfold pair_of in OP. cbn [fst snd] in OP.
  assert (Ecr : (c =? r0)%N = false) by (apply N.eqb_neq; auto).
  assert (M0 : forall k x, chr k = r0 -> odo_pose p k = Some x -> kfind k v = Some (VPose (t_pid O * x))).
  { intros k x Hk Ho. rewrite HK. unfold moved_to. rewrite Hk, N.eqb_refl. unfold placed. rewrite Ho. reflexivity. }
  assert (M1 : forall k x, chr k = c -> odo_pose p k = Some x -> kfind k v = Some (VPose (tf * x))).
  { intros k x Hk Ho. rewrite HK. unfold moved_to. rewrite Hk, Ecr.
    destruct (in_dec N.eq_dec c rs0); [|tauto]. rewrite FT. unfold placed. rewrite Ho. reflexivity. }
  pose proof (@closure_holds p r0 b tf) as CH.
  destruct OP as [[E1 E2]|[E1 E2]].
  - rewrite E1, N.eqb_refl in HT0, CH.
    destruct (odo_pose p (b_from b)) as [x|] eqn:P1; [|discriminate]. destruct (odo_pose p (b_to b)) as [y|] eqn:P2; [|discriminate].
    exists (t_pid O * x), (tf * y). split; [auto|]. split; [auto|]. rewrite (tg_id_l L). apply (CH x y HT). auto.
  - rewrite E1, Ecr in HT0, CH.
    destruct (odo_pose p (b_to b)) as [x|] eqn:P1; [|discriminate]. destruct (odo_pose p (b_from b)) as [y|] eqn:P2; [|discriminate].
    exists (tf * y), (t_pid O * x). split; [auto|]. split; [auto|]. rewrite (tg_id_l L). apply (CH x y HT). auto.
Qed.

End Group.
End Align.
