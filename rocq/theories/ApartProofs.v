(** * What is accepted for some robots depends on what is said about them *)
From Coq Require Import QArith Lia.
From Verif Require Import Prelude Keys KMap UMap Geometry Factors Clique Pcm Solver ValuesProofs PcmSpec PcmProofs PcmInv PcmStore HistSpec StoreSpec
  SolverProofs HistProofs GraphProofs StoreProofs AcceptProofs LiveProofs StoreThms TrajProofs CallsProofs StreamSpec StreamProofs MixSpec MixProofs ShuffleProofs ApartSpec.
Set Implicit Arguments.
Local Open Scope nat_scope.

(** ** The clique search reads the matrix inside its bounds *)
Lemma read_nodelist_ext m m' : m_rows m = m_rows m' -> m_cols m = m_cols m' ->
  (forall i j, j <= i < m_rows m -> m_at m i j = m_at m' i j) -> read_nodelist m = read_nodelist m'.
Proof.
  intros E1 E2 E3. unfold read_nodelist. rewrite <- E1, <- E2.
  assert (G : forall l nl, fold_left (fun nl j => fold_left (fun nl i => read_body m j i nl) (seq j (m_rows m - j)) nl) l nl =
    fold_left (fun nl j => fold_left (fun nl i => read_body m' j i nl) (seq j (m_rows m - j)) nl) l nl); [|apply G].
  induction l as [|j l IH]; intro nl; cbn [fold_left]; auto. rewrite <- IH. f_equal.
  assert (K : forall l nl, (forall i, In i l -> j <= i < m_rows m) -> fold_left (fun nl i => read_body m j i nl) l nl = fold_left (fun nl i => read_body m' j i nl) l nl).
  { clear - E3. induction l as [|i l IH]; intros nl H; cbn [fold_left]; auto. rewrite IH by (intros; apply H; right; auto). f_equal.
    unfold read_body. rewrite E3 by (apply H; left; auto). reflexivity. }
  apply K. intros i Hi. apply in_seq in Hi. lia.
Qed.
Lemma heu_ext m m' : m_rows m = m_rows m' -> m_cols m = m_cols m' ->
  (forall i j, j <= i < m_rows m -> m_at m i j = m_at m' i j) -> find_max_clique_heu m = find_max_clique_heu m'.
Proof.
  intros E1 E2 E3. unfold find_max_clique_heu, read_eigen. rewrite (read_nodelist_ext m m' E1 E2 E3), E1. reflexivity.
Qed.

Section A.
Variable O : tops.
Variable C : config.
Notation T := (t_T O).
Notation bf := (bf O).
Notation values := (values O).
Notation graph_t := (graph_t O).
Notation solver := (solver O).
Notation op := (op O).
Notation pcm := (pcm O).
Notation meas := (meas O).
Notation sp := (c_special C).
Notation start := (solver_init true).
Notation refs := (N -> key -> T).

(** ** Records of items that look the same *)
Lemma faithful_same A (test : A -> A -> option bool) (P : A -> A -> Prop) L L' m m' :
  (forall x y x' y', P x x' -> P y y' -> test x y = test x' y') -> Forall2 P L L' -> faithful test L m -> faithful test L' m' ->
  m_rows m = m_rows m' /\ m_cols m = m_cols m' /\ forall i j, j <= i < m_rows m -> m_at m i j = m_at m' i j.
Proof.
  intros HT HF (A1 & A2 & A3 & A4) (B1 & B2 & B3 & B4).
  assert (LE : length L = length L') by (clear - HF; induction HF; cbn; congruence).
  split; [congruence|]. split; [congruence|]. intros i j H. destruct (Nat.eq_dec i j) as [<-|N].
  - rewrite A3, B3 by lia. reflexivity.
  - assert (NT : forall n, n < length L -> exists x x', nth_error L n = Some x /\ nth_error L' n = Some x' /\ P x x').
    { clear - HF. induction HF as [|x x' L L' Hx HF IH]; intros n Hn; cbn [length] in Hn; [lia|]. destruct n as [|n]; cbn [nth_error]; [eauto 6|]. apply IH. lia. }
    destruct (NT i) as (x & x' & X1 & X2 & X3); [lia|]. destruct (NT j) as (y & y' & Y1 & Y2 & Y3); [lia|].
    destruct (A4 j i y x) as (r & R1 & _ & R3); auto; [lia|]. destruct (B4 j i y' x') as (r' & R1' & _ & R3'); auto; [lia|].
    rewrite R3, R3'. rewrite (HT _ _ _ _ Y3 X3), R1' in R1. congruence.
Qed.

(** ** Trajectories *)
Section Tracks.
Variable R : N -> bool.
Variable F : bf -> bool.
Variable K : key -> bool.
Hypothesis RK : forall k, R (chr k) = true -> sp_landmark sp k = false -> K k = true.

Definition alike (p p' : pcm) : Prop := forall c k, R c = true -> tref p c k = tref p' c k.

(** One odometry factor of a robot of interest on both sides. *)
Lemma odo_other vals b (p p' : pcm) u c : b_from b <> b_to b -> update_odom vals b p = Ok p' u -> chr (b_to b) <> c ->
  (forall k, tref p' c k = tref p c k) /\ n_find c (p_trajs p') = n_find c (p_trajs p).
Proof.
  intros NE H Hc. destruct (@update_odom_inv O vals b p p' u NE H) as (d & _ & _ & E & _). specialize (E c (fun X => Hc (eq_sym X))).
  split; auto. intro k. unfold tref. exact (f_equal (fun o => tget (match o with Some t => t | None => [] end) k) E).
Qed.

Lemma odo_same v v' b (p p' q q' : pcm) u u' : b_from b <> b_to b -> update_odom v b p = Ok p' u -> update_odom v' b q = Ok q' u' ->
  (n_find (chr (b_to b)) (p_trajs p) = None <-> n_find (chr (b_to b)) (p_trajs q) = None) ->
  (n_find (chr (b_to b)) (p_trajs p) = None -> kfind (b_from b) v = kfind (b_from b) v') ->
  alike p q -> alike p' q'.
Proof.
  intros NE H H' EN EV A c k Rc.
  destruct (N.eq_dec (chr (b_to b)) c) as [<-|Hc].
  - destruct (@update_odom_inv O v b p p' u NE H) as (d & D & _ & _ & X). destruct (@update_odom_inv O v' b q q' u' NE H') as (d' & D' & _ & _ & X').
    rewrite D in D'. injection D' as <-. destruct X as [(X1 & _ & X2)|(X1 & _ & x & X2 & X3)], X' as [(Y1 & _ & Y2)|(Y1 & _ & y & Y2 & Y3)].
    + rewrite X2, Y2, (A _ (b_from b) Rc), (A _ k Rc). reflexivity.
    + elim X1. apply EN. exact Y1.
    + elim Y1. apply EN. exact X1.
    + specialize (EV X1). rewrite X2, Y2 in EV. injection EV as <-. rewrite X3, Y3. reflexivity.
  - destruct (odo_other _ _ _ NE H Hc) as [E _]. destruct (odo_other _ _ _ NE H' Hc) as [E' _]. rewrite E, E'. apply A; auto.
Qed.

Notation of_R := (fun b : bf => R (chr (b_to b))).
Definition has_track (p : pcm) (c : N) : Prop := n_find c (p_trajs p) <> None.

(** All odometry of a call on both sides; the first odometry of a robot finds no trajectory. *)
Lemma odos_same v v' : forall l l' (p p' q q' : pcm) u u',
  (forall b, In b l -> b_from b <> b_to b) -> (forall b, In b l' -> b_from b <> b_to b) ->
  odo_all v l p = Ok p' u -> odo_all v' l' q = Ok q' u' -> filter of_R l = filter of_R l' -> alike p q ->
  (forall l1 b l2, l = l1 ++ b :: l2 -> R (chr (b_to b)) = true -> (forall b', In b' l1 -> chr (b_to b') <> chr (b_to b)) ->
     (n_find (chr (b_to b)) (p_trajs p) = None <-> n_find (chr (b_to b)) (p_trajs q) = None) /\
     (n_find (chr (b_to b)) (p_trajs p) = None -> kfind (b_from b) v = kfind (b_from b) v')) -> alike p' q'.
Proof.
  induction l as [|b l IH]; intros l' p p' q q' u u' NE NE' H H' EF A HS.
  - cbn [odo_all] in H. injection H as <- _. clear HS. revert q H' A. induction l' as [|b' l' IH']; intros q H' A; cbn [odo_all] in H'.
    + injection H' as <- _. exact A.
    + destruct (update_odom v' b' q) as [q1 z|q1 e|z] eqn:E; cbn [obind] in H'; try discriminate H'.
      cbn [filter] in EF. destruct (R (chr (b_to b'))) eqn:Rb; [discriminate EF|].
      apply (IH' (fun x X => NE' x (or_intror X)) EF q1 H').
      intros c k Rc. destruct (@odo_other v' b' q q1 z c (NE' b' (or_introl eq_refl)) E) as [X _]; [congruence|]. rewrite X. auto.
  - cbn [odo_all] in H. destruct (update_odom v b p) as [p1 z|p1 e|z] eqn:E; cbn [obind] in H; try discriminate H.
    pose proof (NE b (or_introl eq_refl)) as NB. destruct (R (chr (b_to b))) eqn:Rb.
    + cbn [filter] in EF. rewrite Rb in EF.
      (* skip to the same factor on the other side *)
      assert (SK : exists m1 m2 q1 q2 z2, l' = m1 ++ b :: m2 /\ filter of_R m1 = [] /\ odo_all v' m1 q = Ok q1 tt /\ update_odom v' b q1 = Ok q2 z2 /\
        odo_all v' m2 q2 = Ok q' u' /\ filter of_R l = filter of_R m2 /\ (forall c, R c = true -> n_find c (p_trajs q1) = n_find c (p_trajs q))).
      { clear - H' EF NE'. revert q H' NE'. induction l' as [|b' l' IH']; intros q H' NE'; [discriminate EF|]. cbn [odo_all] in H'.
        destruct (update_odom v' b' q) as [q1 z|q1 e|z] eqn:E; cbn [obind] in H'; try discriminate H'. cbn [filter] in EF.
        destruct (R (chr (b_to b'))) eqn:Rb.
        - injection EF as <- EF. exists [], l', q, q1, z. repeat split; auto.
        - destruct (IH' EF q1 H' (fun x X => NE' x (or_intror X))) as (m1 & m2 & r1 & r2 & z2 & M1 & M2 & M3 & M4 & M5 & M6 & M7).
          exists (b' :: m1), m2, r1, r2, z2. subst l'. repeat split; auto.
          + cbn [filter]. rewrite Rb. auto.
          + cbn [odo_all]. rewrite E. exact M3.
          + intros c Rc. rewrite M7 by auto.
            destruct (@odo_other v' b' q q1 z c (NE' b' (or_introl eq_refl)) E) as [_ X]; [congruence|]. exact X. }
      destruct SK as (m1 & m2 & q1 & q2 & z2 & M1 & M2 & M3 & M4 & M5 & M6 & M7).
      assert (A1 : alike p q1).
      { clear - A M2 M3 NE' M1. subst l'. revert q M3 A. induction m1 as [|b' m1 IH']; intros q M3 A; cbn [odo_all] in M3.
        - injection M3 as <-. exact A.
        - destruct (update_odom v' b' q) as [r z|r e|z] eqn:E; cbn [obind] in M3; try discriminate M3. cbn [filter] in M2.
          destruct (R (chr (b_to b'))) eqn:Rb; [discriminate M2|]. apply (IH' (fun x X => NE' x (or_intror X)) M2 r M3).
          intros c k Rc. destruct (@odo_other v' b' q r z c (NE' b' (or_introl eq_refl)) E) as [X _]; [congruence|]. rewrite X. auto. }
      destruct (HS [] b l eq_refl Rb) as [S1 S2]; [intros ? []|].
      assert (A2 : alike p1 q2).
      { apply (@odo_same v v' b p p1 q1 q2 z z2); auto. rewrite (M7 _ Rb). exact S1. }
      apply (IH m2 p1 p' q2 q' u u'); auto.
      * intros x X. apply NE. right. exact X.
      * intros x X. apply NE'. rewrite M1. apply in_or_app. right. right. exact X.
      * intros l1 x l2 El Rx HN. destruct (N.eq_dec (chr (b_to b)) (chr (b_to x))) as [Ec|Ec].
        -- destruct (@update_odom_inv O v b p p1 z NB E) as (d & _ & X1 & _). destruct (@update_odom_inv O v' b q1 q2 z2 NB M4) as (d' & _ & X1' & _).
           rewrite <- Ec. split; [split; intro X; [elim X1|elim X1']; exact X|intro X; elim X1; exact X].
        -- destruct (@odo_other v b p p1 z _ NB E Ec) as [_ X1]. destruct (@odo_other v' b q1 q2 z2 _ NB M4 Ec) as [_ X2].
           rewrite X1, X2, (M7 _ Rx). apply (HS (b :: l1) x l2); auto; [rewrite El; reflexivity|].
           intros b' [<-|Hb']; auto.
    + cbn [filter] in EF. rewrite Rb in EF. apply (IH l' p1 p' q q' u u'); auto.
      * intros x X. apply NE. right. exact X.
      * intros c k Rc. destruct (@odo_other v b p p1 z c NB E) as [X _]; [congruence|]. rewrite X. auto.
      * intros l1 x l2 El Rx HN. assert (Ec : chr (b_to b) <> chr (b_to x)) by congruence.
        destruct (@odo_other v b p p1 z _ NB E Ec) as [_ X1]. rewrite X1. apply (HS (b :: l1) x l2); auto; [rewrite El; reflexivity|].
        intros b' [<-|Hb']; auto.
Qed.

Lemma share_odos (o o' : op) : share sp R F K o = share sp R F K o' ->
  filter of_R (match call_of o with Some (fs, vs) => filter (sp_odometry sp vs) (betweens fs) | None => [] end) =
  filter of_R (match call_of o' with Some (fs, vs) => filter (sp_odometry sp vs) (betweens fs) | None => [] end).
Proof.
  unfold share. destruct (call_of o) as [[fs vs]|], (call_of o') as [[fs' vs']|]; intro H; try reflexivity; injection H; auto.
Qed.
Lemma share_values (o o' : op) : share sp R F K o = share sp R F K o' ->
  filter (fun kv => K (fst kv)) (match call_of o with Some (_, vs) => vs | None => [] end) =
  filter (fun kv => K (fst kv)) (match call_of o' with Some (_, vs) => vs | None => [] end).
Proof.
  unfold share. destruct (call_of o) as [[fs vs]|], (call_of o') as [[fs' vs']|]; intro H; try reflexivity; injection H; auto.
Qed.
Lemma kfind_kept k (vs : values) : K k = true -> kfind k (filter (fun kv => K (fst kv)) vs) = kfind k vs.
Proof.
  intro H. induction vs as [|[k' x] vs IH]; cbn [filter fst kfind]; auto. destruct (K k') eqn:E; cbn [kfind].
  - rewrite IH. reflexivity.
  - rewrite IH. destruct (N.eqb_spec k k') as [->|]; auto. congruence.
Qed.

Lemma step_odos (W : soracles O) o (s s' : solver) r p : s_pcm s = Some p -> step C W o s = Ok s' r ->
  exists p' vals p1, s_pcm s' = Some p' /\
    odo_all vals (match call_of o with Some (fs, vs) => filter (sp_odometry sp vs) (betweens fs) | None => [] end) p = Ok p1 tt /\
    (forall c k, tref p' c k = tref p1 c k) /\
    forall fs vs k, call_of o = Some (fs, vs) -> In k (map fst vs) -> kfind k vals = kfind k vs.
Proof.
  intros Hp Hs. destruct (@step_calls O C W o s s' r p Hp Hs) as (p' & Hp' & G1 & G2). exists p'.
  destruct (call_of o) as [[fs vs]|] eqn:EC.
  - destruct (G2 _ _ eq_refl) as (nfg' & v' & b & E). apply removal_trajs in E. destruct E as (vals & u & p1 & rr & V & P & TT). cbn [ps_pcm] in TT.
    pose proof (proc_sorted C vs vals fs p ([], false)) as X. rewrite P in X. unfold sorted_out in X.
    destruct (odo_all vals (filter (sp_odometry sp vs) (betweens fs)) p) as [q []|q e|z] eqn:EO; cbn [obind same_end] in X; try tauto.
    destruct X as [X _]. exists vals, q. split; auto. split; auto. split.
    + intros c k. rewrite TT, X. apply tref_trajs. unfold plus_special. cbn [set_special p_trajs].
      generalize (filter (sp_first sp vs) (betweens fs)). intro l. revert q EO X. clear. intros q _ _. revert q. unfold first_all.
      induction l as [|b l IH]; intro q; cbn [fold_left]; auto. rewrite IH. reflexivity.
    + intros fs0 vs0 k Y Hk. injection Y as <- <-. apply vinsert_all_ok in V. destruct V as (V1 & V2 & _). rewrite V1.
      specialize (V2 k Hk). unfold kmem in V2. destruct (kfind k (s_vals s)); [discriminate V2|reflexivity].
  - destruct (G1 eq_refl) as [E _]. exists [], p. split; auto. split; auto. split; [apply tref_trajs; exact E|]. intros fs vs k X. discriminate X.
Qed.

Definition fresh_R (h : list op) : Prop := forall c, R c = true -> starts_fresh sp c h.
Lemma fresh_prefix h1 h2 : fresh_R (h1 ++ h2) -> fresh_R h1.
Proof.
  intros H c Rc g o g' fs vs l1 b l2 E. apply (H c Rc g o (g' ++ h2) fs vs l1 b l2). rewrite E, <- app_assoc. reflexivity.
Qed.

Lemma odoms_same h h' : same_share sp R F K h h' -> filter of_R (sp_odoms sp h) = filter of_R (sp_odoms sp h').
Proof.
  induction 1 as [|o o' h h' E _ IH]; auto.
  change (o :: h) with ([o] ++ h). change (o' :: h') with ([o'] ++ h'). rewrite !sp_odoms_app, !filter_app, IH. f_equal.
  change [o] with ([] ++ [o]). change [o'] with ([] ++ [o']). rewrite !sp_odoms_snoc. cbn [sp_odoms flat_map app]. apply share_odos, E.
Qed.

Lemma run_alike (W W' : soracles O) h h' : same_share sp R F K h h' -> forall (s s' : solver) rs rs' p p', fresh_R h -> fresh_R h' ->
  run C W h start = Ok s rs -> run C W' h' start = Ok s' rs' -> s_pcm s = Some p -> s_pcm s' = Some p' -> alike p p'.
Proof.
  revert h'. induction h as [|o h IH] using rev_ind; intros h' SS s s' rs rs' p p' FR FR' H H' Hp Hp'.
  { inversion SS; subst. cbn [run] in H, H'. injection H as <- _. injection H' as <- _. injection Hp as <-. injection Hp' as <-. intros c k _. reflexivity. }
  apply Forall2_app_inv_l in SS. destruct SS as (g & g' & SS & SO & ->). inversion SO as [|? o' ? ? EO SN]; subst. inversion SN; subst. clear SO SN.
  pose proof H as HRUN. pose proof H' as HRUN'.
  apply run_snoc in H, H'. destruct H as (t & ts & r & HR & HS & _), H' as (t' & ts' & r' & HR' & HS' & _).
  destruct (hist_run C W _ HR) as [q I], (hist_run C W' _ HR') as [q' I'].
  specialize (IH g SS t t' ts ts' q q' (@fresh_prefix _ _ FR) (@fresh_prefix _ _ FR') HR HR' (hi_pcm I) (hi_pcm I')).
  destruct (@step_odos W _ _ _ _ _ (hi_pcm I) HS) as (p0 & v & q1 & P0 & Q1 & T1 & V1).
  destruct (@step_odos W' _ _ _ _ _ (hi_pcm I') HS') as (p0' & v' & q1' & P0' & Q1' & T1' & V1').
  assert (p0 = p) by congruence. assert (p0' = p') by congruence. subst p0 p0'.
  intros c k Rc. rewrite T1, T1'. revert c k Rc.
  assert (NE : forall (o : op) (b : bf), In b (match call_of o with Some (fs, vs) => filter (sp_odometry sp vs) (betweens fs) | None => [] end) -> b_from b <> b_to b).
  { clear. intros o b H. destruct (call_of o) as [[fs vs]|]; [|destruct H]. apply filter_In in H. destruct H as [_ H]. apply (@odometry_neq O C vs b H). }
  eapply odos_same; [exact (NE o)|exact (NE o')|exact Q1|exact Q1'|apply share_odos, EO|exact IH|].
  intros l1 b l2 El Rb HN. set (c := chr (b_to b)) in *.
  pose proof (odoms_same SS) as OS.
  destruct (existsb (fun b' => (chr (b_to b') =? c)%N) (sp_odoms sp h)) eqn:EX.
  - apply existsb_exists in EX. destruct EX as (b1 & B1 & B2). apply N.eqb_eq in B2.
    assert (B3 : In b1 (sp_odoms sp g)).
    { assert (X : In b1 (filter of_R (sp_odoms sp h))) by (apply filter_In; split; auto; rewrite B2; exact Rb). rewrite OS in X. apply filter_In in X. tauto. }
    pose proof (run_tracked C W _ HR (hi_pcm I)) as TR. pose proof (run_tracked C W' _ HR' (hi_pcm I')) as TR'.
    assert (X1 : n_find c (p_trajs q) <> None) by (rewrite <- B2; apply TR; rewrite (hi_odom I); exact B1).
    assert (X2 : n_find c (p_trajs q') <> None) by (rewrite <- B2; apply TR'; rewrite (hi_odom I'); exact B3).
    split; [split; intro X; [elim X1|elim X2]; exact X|intro X; elim X1; exact X].
  - assert (NO : forall b', In b' (sp_odoms sp h) -> chr (b_to b') <> c).
    { intros b' Hb' Ec. apply not_true_iff_false in EX. apply EX. apply existsb_exists. exists b'. split; auto. apply N.eqb_eq. exact Ec. }
    destruct (call_of o) as [[fs vs]|] eqn:EC; [|destruct l1; discriminate El].
    pose proof (share_odos _ _ EO) as SO. rewrite EC, El in SO. rewrite filter_app in SO. cbn [filter] in SO. fold c in SO. rewrite Rb in SO.
    symmetry in SO. destruct (filter_split _ _ _ _ _ SO) as (m1 & m2 & M1 & M2 & M3).
    destruct (call_of o') as [[fs' vs']|] eqn:EC'; [|destruct m1; discriminate M1].
    destruct (FR c Rb h o [] fs vs l1 b l2 eq_refl EC El eq_refl) as (Z1 & Z2 & Z3).
    { intros b' Hb'. apply in_app_or in Hb'. destruct Hb' as [Hb'|Hb']; auto. }
    destruct (FR' c Rb g o' [] fs' vs' m1 b m2 eq_refl EC' M1 eq_refl) as (Y1 & Y2 & Y3).
    { intros b' Hb'. apply in_app_or in Hb'. destruct Hb' as [Hb'|Hb'].
      - intro Ec. assert (X : In b' (filter of_R (sp_odoms sp g))) by (apply filter_In; split; auto; rewrite Ec; exact Rb).
        rewrite <- OS in X. apply filter_In in X. apply (NO b'); tauto.
      - intro Ec. assert (X : In b' (filter of_R m1)) by (apply filter_In; split; auto; rewrite Ec; exact Rb).
        rewrite M2 in X. apply filter_In in X. apply (HN b'); tauto. }
    assert (X1 : n_find c (p_trajs q) = None).
    { apply (@unmentioned O C W _ _ _ c _ HR (hi_pcm I)). intros b' Hb' M; destruct (Z3 b' Hb') as [? ?]; destruct M; auto. }
    assert (X2 : n_find c (p_trajs q') = None).
    { apply (@unmentioned O C W' _ _ _ c _ HR' (hi_pcm I')). intros b' Hb' M; destruct (Y3 b' Hb') as [? ?]; destruct M; auto. }
    split; [tauto|]. intros _. rewrite (V1 _ _ _ eq_refl Z2), (V1' _ _ _ eq_refl Y2).
    assert (Kb : K (b_from b) = true).
    { apply RK; [rewrite Z1; exact Rb|]. assert (X : In b (l1 ++ b :: l2)) by (apply in_or_app; right; left; auto). rewrite <- El in X.
      apply filter_In in X. destruct X as [_ X]. unfold sp_odometry in X. rewrite !andb_true_iff in X. destruct X as [[[X _] _] _]. apply negb_true_iff in X. exact X. }
    pose proof (share_values _ _ EO) as SV. rewrite EC, EC' in SV. rewrite <- (@kfind_kept _ vs Kb), <- (@kfind_kept _ vs' Kb), SV. reflexivity.
Qed.

Lemma refs_same (W W' : soracles O) h h' (s s' : solver) rs rs' : same_share sp R F K h h' -> fresh_R h -> fresh_R h' ->
  run C W h start = Ok s rs -> run C W' h' start = Ok s' rs' -> forall c k, R c = true -> refs_after C W h c k = refs_after C W' h' c k.
Proof.
  intros SS F1 F2 H H' c k Rc. destruct (hist_run C W _ H) as [q I], (hist_run C W' _ H') as [q' I'].
  rewrite (refs_after_run C W _ H (hi_pcm I)), (refs_after_run C W' _ H' (hi_pcm I')).
  exact (@run_alike W W' h h' SS s s' rs rs' q q' F1 F2 H H' (hi_pcm I) (hi_pcm I') c k Rc).
Qed.

Lemma knows_same h h' k : same_share sp R F K h h' -> K k = true -> knows h k = knows h' k.
Proof.
  intros SS Kk. apply eq_true_iff_eq. rewrite !knows_supplied.
  assert (G : forall h h', same_share sp R F K h h' -> supplied h k -> supplied h' k).
  { clear h h' SS. induction 1 as [|o o' h h' E _ IH].
    - intros (o & fs & vs & [] & _).
    - intros (x & fs & vs & [<-|Hx] & Hc & Hk).
      + pose proof (share_values _ _ E) as SV. rewrite Hc in SV. apply in_map_iff in Hk. destruct Hk as ([k' y] & <- & Hk). cbn [fst] in *.
        assert (X : In (k', y) (filter (fun kv => K (fst kv)) vs)) by (apply filter_In; auto). rewrite SV in X. apply filter_In in X. destruct X as [X _].
        destruct (call_of o') as [[fs' vs']|] eqn:EC; [|destruct X]. exists o', fs', vs'. split; [left; auto|]. split; auto. apply (in_map fst) in X. exact X.
      + destruct IH as (o2 & fs2 & vs2 & A1 & A2 & A3); [exists x, fs, vs; auto|]. exists o2, fs2, vs2. split; [right; auto|auto]. }
  split; apply G; auto. clear - SS. induction SS; constructor; auto.
Qed.
(** ** Items *)
Definition near (h : list op) : Prop := forall b, delivered h (FBetween b) -> F b = true ->
  R (chr (b_from b)) = true /\ R (chr (b_to b)) = true /\ K (b_from b) = true /\ K (b_to b) = true.
Definition looks (x x' : bf * refs) : Prop := fst x = fst x' /\ R (chr (b_from (fst x))) = true /\ R (chr (b_to (fst x))) = true /\
  forall c k, R c = true -> snd x c k = snd x' c k.
Lemma near_prefix h o : near (h ++ [o]) -> near h.
Proof. intros H b Hb. apply H. apply delivered_snoc. auto. Qed.
Lemma near_call h o fs vs b : near (h ++ [o]) -> call_of o = Some (fs, vs) -> In b (betweens fs) -> F b = true ->
  R (chr (b_from b)) = true /\ R (chr (b_to b)) = true /\ K (b_from b) = true /\ K (b_to b) = true.
Proof. intros H Hc Hb. apply H. exists o, fs, vs. split; [apply in_or_app; right; left; auto|]. split; auto. apply In_betweens. exact Hb. Qed.

Lemma rel_same (ref ref' : refs) c a b : (forall c k, R c = true -> ref c k = ref' c k) -> R c = true -> sp_rel ref c a b = sp_rel ref' c a b.
Proof. intros H Rc. unfold sp_rel. rewrite !H by exact Rc. reflexivity. Qed.
Lemma lc_test_same x y x' y' : looks x x' -> looks y y' -> lc_test x y = lc_test x' y'.
Proof.
  intros (X1 & X2 & X3 & _) (Y1 & _ & _ & Y4). unfold lc_test, sp_loop_test. rewrite <- X1, <- Y1.
  destruct (t_of O (fst x)); auto. destruct (t_of O (fst y)); auto. rewrite !(rel_same _ _ _ _ Y4) by auto. reflexivity.
Qed.
Lemma lm_test_same x y x' y' : looks x x' -> looks y y' -> lm_test x y = lm_test x' y'.
Proof.
  intros (X1 & X2 & X3 & _) (Y1 & _ & _ & Y4). unfold lm_test, sp_lm_test. rewrite <- X1, <- Y1.
  destruct (t_of O (fst x)); auto. destruct (t_of O (fst y)); auto. rewrite !(rel_same _ _ _ _ Y4) by auto. reflexivity.
Qed.

Lemma filter_two A (f g f' g' : A -> bool) (L : list A) : (forall x, In x L -> f x && g x = f' x && g' x) -> filter f (filter g L) = filter f' (filter g' L).
Proof.
  induction L as [|x L IH]; intro H; auto. assert (E := H x (or_introl eq_refl)). specialize (IH (fun y Y => H y (or_intror Y))). cbn [filter].
  destruct (g x) eqn:G, (g' x) eqn:G'; cbn [filter]; rewrite ?andb_true_r, ?andb_false_r in E; rewrite ?E, IH; auto; try rewrite <- E; auto; destruct (f' x); auto; discriminate E.
Qed.
Lemma filter_map_fst (P : bf -> bool) (ref : refs) (L : list bf) : filter (fun x => P (fst x)) (map (fun b => (b, ref)) L) = map (fun b => (b, ref)) (filter P L).
Proof. induction L as [|b L IH]; cbn [map filter fst]; auto. rewrite IH. destruct (P b); auto. Qed.
Lemma map_looks (ref ref' : refs) (L : list bf) : (forall b, In b L -> R (chr (b_from b)) = true /\ R (chr (b_to b)) = true) ->
  (forall c k, R c = true -> ref c k = ref' c k) -> Forall2 looks (map (fun b => (b, ref)) L) (map (fun b => (b, ref')) L).
Proof.
  intros H E. induction L as [|b L IH]; cbn [map]; constructor.
  - destruct (H b (or_introl eq_refl)). repeat split; cbn [fst snd]; auto.
  - apply IH. intros x X. apply H. right. exact X.
Qed.

Lemma heu_same {A} (test : A -> A -> option bool) (P : A -> A -> Prop) L L' (v v' : meas) :
  (forall x y x' y', P x x' -> P y y' -> test x y = test x' y') -> Forall2 P L L' -> faithful test L (me_adj v) -> faithful test L' (me_adj v') ->
  me_factors v = me_factors v' -> heu_inliers v = Val v -> heu_inliers v' = Val v' -> me_cons v = me_cons v'.
Proof.
  intros HT HF A1 A2 EF H H'. destruct (faithful_same HT HF A1 A2) as (E1 & E2 & E3).
  apply heu_inliers_inv in H, H'. destruct H as (k & data & cs & V1 & V2 & V3), H' as (k' & data' & cs' & V1' & V2' & V3').
  rewrite (heu_ext _ _ E1 E2 E3), V1' in V1. injection V1 as <- <-. rewrite EF, V2' in V2. injection V2 as <-. rewrite V3, V3'. reflexivity.
Qed.
Lemma heu_none (v : meas) : heu_inliers v = Val v -> me_factors v = [] -> me_cons v = [].
Proof.
  intros H E. apply heu_inliers_inv in H. destruct H as (k & data & cs & _ & V2 & V3). rewrite V3. cbn [me_cons].
  apply select_incl in V2. rewrite E in V2. destruct cs as [|b cs]; auto. destruct (V2 b). left. reflexivity.
Qed.

(** *** Closures of a pair *)
Section Pair.
Variable id : obsid.
Hypothesis FP : forall b, F b = of_pair id b && negb (sp_lmk C b).

Lemma newly_same (W W' : soracles O) h h' o o' (s s' : solver) rs rs' : share sp R F K o = share sp R F K o' -> same_share sp R F K (h ++ [o]) (h' ++ [o']) ->
  fresh_R (h ++ [o]) -> fresh_R (h' ++ [o']) -> near (h ++ [o]) -> run C W (h ++ [o]) start = Ok s rs -> run C W' (h' ++ [o']) start = Ok s' rs' ->
  Forall2 looks (filter (fun x => of_pair id (fst x)) (newly C W h o)) (filter (fun x => of_pair id (fst x)) (newly C W' h' o')).
Proof.
  intros EO SS FR FR' NN H H'. pose proof (@refs_same W W' _ _ _ _ _ _ SS FR FR' H H') as RS. unfold newly. unfold share in EO.
  set (kn := knows (h ++ [o])). set (kn' := knows (h' ++ [o'])). set (ref := refs_after C W (h ++ [o])) in *. set (ref' := refs_after C W' (h' ++ [o'])) in *.
  assert (FC : forall (k : key -> bool) (r : refs) (L : list bf), filter (of_pair id) (filter (stores C k r) L) = filter (stores C k r) (filter F L)).
  { intros k r L. apply filter_two. intros x _. rewrite FP. unfold stores. fold (sp_lmk C x). destruct (of_pair id x), (sp_lmk C x), (k (b_from x)), (k (b_to x)); cbn; auto; destruct (passes_odom C r x); auto. }
  assert (KK : forall k, K k = true -> kn k = kn' k) by (intros k Hk; apply (@knows_same _ _ _ SS Hk)).
  destruct (call_of o) as [[fs vs]|] eqn:EC, (call_of o') as [[fs' vs']|] eqn:EC'; cbn [filter]; try constructor.
  - rewrite !filter_map_fst, !FC. injection EO as _ _ EO _. rewrite <- EO.
    assert (NC : forall b, In b (filter F (filter (sp_candidate sp vs) (betweens fs))) ->
      R (chr (b_from b)) = true /\ R (chr (b_to b)) = true /\ K (b_from b) = true /\ K (b_to b) = true).
    { intros b Hb. apply filter_In in Hb. destruct Hb as [Hb Fb]. apply filter_In in Hb. destruct Hb as [Hb _]. eapply near_call; eauto. }
    rewrite (filter_ext_in (stores C kn ref) (stores C kn' ref')).
    + apply map_looks; auto. intros b Hb. apply filter_In in Hb. destruct Hb as [Hb _]. destruct (NC b Hb) as (N1 & N2 & _). auto.
    + intros b Hb. destruct (NC b Hb) as (N1 & N2 & N3 & N4). unfold stores. rewrite (KK _ N3), (KK _ N4). f_equal.
      unfold passes_odom. assert (X : sp_odom_test ref b = sp_odom_test ref' b).
      { unfold sp_odom_test. destruct (t_of O b); auto. rewrite (rel_same _ _ _ _ RS) by auto. reflexivity. }
      rewrite X. reflexivity.
  - rewrite filter_map_fst, FC. injection EO as _ _ EO _. rewrite EO. constructor.
  - rewrite filter_map_fst, FC. injection EO as _ _ EO _. rewrite <- EO. constructor.
Qed.

Lemma items_same (W W' : soracles O) h h' : same_share sp R F K h h' -> forall (s s' : solver) rs rs', fresh_R h -> fresh_R h' -> near h ->
  run C W h start = Ok s rs -> run C W' h' start = Ok s' rs' -> Forall2 looks (pair_items C W id h) (pair_items C W' id h').
Proof.
  revert h'. induction h as [|o h IH] using rev_ind; intros h' SS s s' rs rs' FR FR' NN H H'.
  { inversion SS; subst. constructor. }
  pose proof SS as SS0. apply Forall2_app_inv_l in SS. destruct SS as (g & g' & SS & SO & ->). inversion SO as [|? o' ? ? EO SN]; subst. inversion SN; subst. clear SO SN.
  unfold pair_items. rewrite !sp_stored_snoc, !filter_app. apply Forall2_app.
  - pose proof H as G. pose proof H' as G'. apply run_snoc in G, G'. destruct G as (t & ts & r & HR & _), G' as (t' & ts' & r' & HR' & _).
    exact (IH g SS t t' ts ts' (@fresh_prefix _ _ FR) (@fresh_prefix _ _ FR') (@near_prefix _ _ NN) HR HR').
  - eapply newly_same; eauto.
Qed.

Lemma looks_fst L L' : Forall2 looks L L' -> map fst L = map fst L'.
Proof. induction 1 as [|x y L L' (E & _) _ IH]; cbn [map]; congruence. Qed.

End Pair.

(** *** Sightings of a landmark *)
Section Landmark.
Variable l : key.
Hypothesis FL : forall b, F b = of_landmark C l b && sp_lmk C b.

Definition seems (x x' : sighting O) : Prop := si_first x = si_first x' /\ looks (si_obs x) (si_obs x').
Notation mine := (fun x : sighting O => of_landmark C l (fst (si_obs x))).

Lemma filter_map_sight (P : bf -> bool) q (ref : refs) (L : list bf) :
  filter (fun x => P (fst (si_obs x))) (map (fun b => Sight q (b, ref)) L) = map (fun b => Sight q (b, ref)) (filter P L).
Proof. induction L as [|b L IH]; cbn [map filter fst si_obs]; auto. rewrite IH. destruct (P b); auto. Qed.
Lemma map_seems q (ref ref' : refs) (L : list bf) : (forall b, In b L -> R (chr (b_from b)) = true /\ R (chr (b_to b)) = true) ->
  (forall c k, R c = true -> ref c k = ref' c k) -> Forall2 seems (map (fun b => Sight q (b, ref)) L) (map (fun b => Sight q (b, ref')) L).
Proof.
  intros H E. induction L as [|b L IH]; cbn [map]; constructor.
  - destruct (H b (or_introl eq_refl)). repeat split; cbn [fst snd si_obs]; auto.
  - apply IH. intros x X. apply H. right. exact X.
Qed.

Lemma sighted_same (W W' : soracles O) h h' o o' (s s' : solver) rs rs' : share sp R F K o = share sp R F K o' -> same_share sp R F K (h ++ [o]) (h' ++ [o']) ->
  fresh_R (h ++ [o]) -> fresh_R (h' ++ [o']) -> near (h ++ [o]) -> run C W (h ++ [o]) start = Ok s rs -> run C W' (h' ++ [o']) start = Ok s' rs' ->
  Forall2 seems (filter mine (sighted C W h o)) (filter mine (sighted C W' h' o')).
Proof.
  intros EO SS FR FR' NN H H'. pose proof (@refs_same W W' _ _ _ _ _ _ SS FR FR' H H') as RS. unfold sighted. unfold share in EO.
  set (kn := knows (h ++ [o])). set (kn' := knows (h' ++ [o'])). set (ref := refs_after C W (h ++ [o])) in *. set (ref' := refs_after C W' (h' ++ [o'])) in *.
  assert (FC : forall (k : key -> bool) (L : list bf), filter (of_landmark C l) (filter (stores_lm C k) L) = filter (stores_lm C k) (filter F L)).
  { intros k L. apply filter_two. intros x _. rewrite FL. unfold stores_lm. destruct (of_landmark C l x), (sp_lmk C x), (k (b_from x)), (k (b_to x)); cbn; auto. }
  assert (FF : forall vs (L : list bf), filter (of_landmark C l) (filter (sp_first sp vs) L) = filter F (filter (sp_first sp vs) L)).
  { intros vs L. apply filter_ext_in. intros x Hx. apply filter_In in Hx. destruct Hx as [_ Hx]. unfold sp_first in Hx. apply andb_true_iff in Hx. destruct Hx as [Hx _].
    rewrite FL. unfold sp_lmk. rewrite Hx, andb_true_r. reflexivity. }
  assert (KK : forall k, K k = true -> kn k = kn' k) by (intros k Hk; apply (@knows_same _ _ _ SS Hk)).
  destruct (call_of o) as [[fs vs]|] eqn:EC, (call_of o') as [[fs' vs']|] eqn:EC'; cbn [filter]; try constructor.
  - rewrite !filter_app, !filter_map_sight, !FC, !FF. injection EO as _ EO1 EO _. rewrite <- EO, <- EO1.
    assert (NC : forall b g, In b (filter F (filter g (betweens fs))) ->
      R (chr (b_from b)) = true /\ R (chr (b_to b)) = true /\ K (b_from b) = true /\ K (b_to b) = true).
    { intros b g Hb. apply filter_In in Hb. destruct Hb as [Hb Fb]. apply filter_In in Hb. destruct Hb as [Hb _]. eapply near_call; eauto. }
    apply Forall2_app.
    + apply map_seems; auto. intros b Hb. destruct (NC _ _ Hb) as (N1 & N2 & _). auto.
    + rewrite (filter_ext_in (stores_lm C kn) (stores_lm C kn')).
      * apply map_seems; auto. intros b Hb. apply filter_In in Hb. destruct Hb as [Hb _]. destruct (NC _ _ Hb) as (N1 & N2 & _). auto.
      * intros b Hb. destruct (NC _ _ Hb) as (N1 & N2 & N3 & N4). unfold stores_lm. rewrite (KK _ N3), (KK _ N4). reflexivity.
  - rewrite filter_app, !filter_map_sight, FC, FF. injection EO as _ EO1 EO _. rewrite EO, EO1. constructor.
  - rewrite filter_app, !filter_map_sight, FC, FF. injection EO as _ EO1 EO _. rewrite <- EO, <- EO1. constructor.
Qed.

Lemma sightings_same (W W' : soracles O) h h' : same_share sp R F K h h' -> forall (s s' : solver) rs rs', fresh_R h -> fresh_R h' -> near h ->
  run C W h start = Ok s rs -> run C W' h' start = Ok s' rs' -> Forall2 seems (filter mine (sp_sightings C W h)) (filter mine (sp_sightings C W' h')).
Proof.
  revert h'. induction h as [|o h IH] using rev_ind; intros h' SS s s' rs rs' FR FR' NN H H'.
  { inversion SS; subst. constructor. }
  pose proof SS as SS0. apply Forall2_app_inv_l in SS. destruct SS as (g & g' & SS & SO & ->). inversion SO as [|? o' ? ? EO SN]; subst. inversion SN; subst. clear SO SN.
  rewrite !sp_sightings_snoc, !filter_app. apply Forall2_app.
  - pose proof H as G. pose proof H' as G'. apply run_snoc in G, G'. destruct G as (t & ts & r & HR & _), G' as (t' & ts' & r' & HR' & _).
    exact (IH g SS t t' ts ts' (@fresh_prefix _ _ FR) (@fresh_prefix _ _ FR') (@near_prefix _ _ NN) HR HR').
  - eapply sighted_same; eauto.
Qed.

Notation add := (fun acc (x : sighting O) => if of_landmark C l (fst (si_obs x)) then if si_first x then [si_obs x] else acc ++ [si_obs x] else acc).
Lemma current_mine (M : list (sighting O)) : current C l M = current C l (filter mine M).
Proof.
  assert (G : forall acc, fold_left add M acc = fold_left add (filter mine M) acc); [|apply G].
  induction M as [|x M IH]; intro acc; cbn [fold_left filter]; auto.
  destruct (of_landmark C l (fst (si_obs x))) eqn:E; cbn [fold_left]; [rewrite E|]; apply IH.
Qed.
Lemma current_seems (M M' : list (sighting O)) : Forall2 seems M M' -> Forall2 looks (current C l M) (current C l M').
Proof.
  intro H. assert (G : forall acc acc', Forall2 looks acc acc' -> Forall2 looks (fold_left add M acc) (fold_left add M' acc')); [|apply G; constructor].
  induction H as [|x x' M M' [E1 E2] _ IH]; intros acc acc' HA; cbn [fold_left]; auto. apply IH.
  pose proof E2 as (E3 & _). rewrite <- E1, <- E3. destruct (of_landmark C l (fst (si_obs x))); auto.
  destruct (si_first x); [|apply Forall2_app; auto]; constructor; auto.
Qed.
Lemma recorded_looks L L' : Forall2 looks L L' -> Forall2 looks (recorded l L) (recorded l L').
Proof.
  intro H. unfold recorded. rewrite (Forall2_len H).
  assert (E : forallb (fun x => negb (b_from (fst x) =? l)%N) L = forallb (fun x => negb (b_from (fst x) =? l)%N) L').
  { induction H as [|x x' L L' (E & _) _ IH]; cbn [forallb]; auto. rewrite IH. exact (f_equal (fun y => negb (b_from y =? l)%N && _) E). }
  rewrite E. destruct (_ || _); auto. clear E. induction H as [|x x' L L' E HL IH]; [constructor|].
  cbn [removelast]. destruct HL; [constructor|]. constructor; auto.
Qed.

Theorem landmark_same (W W' : soracles O) h h' (s s' : solver) rs rs' : same_share sp R F K h h' -> fresh_R h -> fresh_R h' -> near h ->
  run C W h start = Ok s rs -> run C W' h' start = Ok s' rs' -> graph_lms C h l (s_nfg s) = graph_lms C h' l (s_nfg s').
Proof.
  intros SS FR FR' NN H H'. pose proof (current_seems (@sightings_same W W' _ _ SS _ _ _ _ FR FR' NN H H')) as IS. rewrite <- !current_mine in IS.
  destruct (store_hist C W _ H) as (p & I & J), (store_hist C W' _ H') as (p' & I' & J'). rewrite (graph_lms_eq l I), (graph_lms_eq l I').
  pose proof (ho_lms (si_lm J) l) as H1. pose proof (ho_lms (si_lm J') l) as H1'. rewrite <- (looks_fst IS) in H1'.
  pose proof (ho_lmrec (si_lm J) l) as H2. pose proof (ho_lmrec (si_lm J') l) as H2'.
  destruct (current C l (sp_sightings C W h)) as [|x L] eqn:EL.
  { cbn [map] in H1, H1'. unfold uget in *. destruct (settled_get N.eqb _ l (si_lms J)) as [E|(v & E & Hv)]; rewrite E in *;
      destruct (settled_get N.eqb _ l (si_lms J')) as [E'|(v' & E' & Hv')]; rewrite E' in *; auto; rewrite ?(heu_none Hv H1), ?(heu_none Hv' H1'); auto. }
  destruct (current C l (sp_sightings C W' h')) as [|x' L'] eqn:EL'; [inversion IS|].
  unfold uget in *. destruct (settled_get N.eqb _ l (si_lms J)) as [E|(v & E & Hv)]; rewrite E in *; [discriminate H1|].
  destruct (settled_get N.eqb _ l (si_lms J')) as [E'|(v' & E' & Hv')]; rewrite E' in *; [discriminate H1'|].
  apply (heu_same lm_test_same (recorded_looks IS)); auto; [apply H2, recorded_nonempty; discriminate|apply H2', recorded_nonempty; discriminate|congruence].
Qed.
End Landmark.
End Tracks.
End A.

(** ** For two robots and for a landmark *)
Section B.
Variable O : tops.
Variable C : config.
Notation sp := (c_special C).
Notation op := (op O).

Theorem one_landmark (W W' : soracles O) (h h' : list op) (s s' : solver O) rs rs' (R : N -> bool) l : sp_landmark sp l = true ->
  same_share sp R (sights sp l) (fun k => R (chr k) || (k =? l)%N) h h' -> seen_by sp R l h ->
  (forall c, R c = true -> starts_fresh sp c h) -> (forall c, R c = true -> starts_fresh sp c h') ->
  run C W h (solver_init true) = Ok s rs -> run C W' h' (solver_init true) = Ok s' rs' ->
  graph_lms C h l (s_nfg s) = graph_lms C h' l (s_nfg s').
Proof.
  intros LL SS SB F1 F2 H H'. set (R1 := fun c => R c || (c =? chr l)%N).
  assert (LO : forall vs (b : bf O), sp_odometry sp vs b = true -> chr (b_to b) <> chr l).
  { intros vs b Hb E. unfold sp_odometry in Hb. rewrite !andb_true_iff in Hb. destruct Hb as [[[_ Hb] _] _]. unfold sp_landmark in Hb, LL.
    rewrite E in Hb. destruct (in_dec N.eq_dec (chr l) sp); discriminate. }
  assert (FR : forall h, (forall c, R c = true -> starts_fresh sp c h) -> forall c, R1 c = true -> @starts_fresh O sp c h).
  { intros g G c Rc. unfold R1 in Rc. apply orb_true_iff in Rc. destruct Rc as [Rc|Rc]; auto. apply N.eqb_eq in Rc. subst c.
    intros h1 o h2 fs vs l1 b l2 _ _ E Ec. exfalso. apply (LO vs b); auto. assert (X : In b (l1 ++ b :: l2)) by (apply in_or_app; right; left; auto).
    rewrite <- E in X. apply filter_In in X. tauto. }
  apply (@landmark_same O C R1 (sights sp l) (fun k => R (chr k) || (k =? l)%N)) with (W := W) (W' := W') (rs := rs) (rs' := rs'); auto.
  - intros k Rk Lk. unfold R1 in Rk. apply orb_true_iff in Rk. destruct Rk as [Rk|Rk]; [rewrite Rk; auto|].
    apply N.eqb_eq in Rk. unfold sp_landmark in Lk, LL. rewrite Rk in Lk. rewrite LL in Lk. discriminate Lk.
  - clear - SS LO. induction SS as [|o o' h h' E _ IH]; constructor; auto. revert E. unfold share.
    assert (G : forall vs (L : list (bf O)), filter (fun b => R1 (chr (b_to b))) (filter (sp_odometry sp vs) L) = filter (fun b => R (chr (b_to b))) (filter (sp_odometry sp vs) L)).
    { intros vs L. apply filter_ext_in. intros b Hb. apply filter_In in Hb. destruct Hb as [_ Hb]. unfold R1. specialize (LO _ _ Hb).
      apply N.eqb_neq in LO. rewrite LO. apply orb_false_r. }
    destruct (call_of o) as [[fs vs]|], (call_of o') as [[fs' vs']|]; rewrite ?G; auto.
  - exact (FR h F1).
  - exact (FR h' F2).
  - intros b Hb Fb. destruct (SB b Hb Fb) as [S1 S2]. unfold R1.
    assert (X : forall k, R (chr k) = true \/ k = l -> R (chr k) || (chr k =? chr l)%N = true /\ R (chr k) || (k =? l)%N = true).
    { intros k [Hk|Hk]; [rewrite Hk; auto|]. subst k. rewrite !N.eqb_refl, !orb_true_r. auto. }
    destruct (X _ S1), (X _ S2). auto.
Qed.
End B.
