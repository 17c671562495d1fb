(** * When the odometry of a robot arrives does not matter *)
From Coq Require Import Permutation QArith Lia Sorted.
From Verif Require Import Prelude Keys KMap UMap Geometry Factors Clique Pcm Solver ValuesProofs
  PcmSpec PcmProofs PcmInv PcmStore HistSpec SolverProofs HistProofs GraphProofs TrajProofs AlgProofs
  DeliverProofs CallsSpec CallsProofs MoveProofs StreamSpec.
Set Implicit Arguments.
Local Open Scope nat_scope.

Section Stream.
Variable O : tops.
Variable C : config.
Notation bf := (bf O).
Notation factor := (factor O).
Notation values := (values O).
Notation graph_t := (graph_t O).
Notation pcm := (pcm O).
Notation solver := (solver O).
Notation op := (op O).
Notation sp := (c_special C).
Notation start := (solver_init (O := O) true).
Notation T := (t_T O).
Notation trajs := (umap N (traj O)).
Notation lc_get := (uget oid_eqb (@meas_default O)).
Notation lm_get := (uget N.eqb (@meas_default O)).
Notation starts := (N -> t_pose O -> Prop).
Notation known := (@known O).
Notation ends_known := (@ends_known O).

Variable M : Type.
Variable moved : M -> T -> T -> Prop.
Hypothesis mv_refl : exists m, forall t, moved m t t.
Hypothesis mv_comp : forall m a a' d, moved m a a' -> moved m (t_comp O a d) (t_comp O a' d).
Hypothesis mv_between : forall m a a' b b', moved m a a' -> moved m b b' -> t_between O a b = t_between O a' b'.

(** Two sets of trajectories that agree, up to one displacement per robot, where both are defined. *)
Definition compat (X Y : trajs) : Prop := forall c tr tr', n_find c X = Some tr -> n_find c Y = Some tr' ->
  exists m, forall k t t', kfind k tr = Some t -> kfind k tr' = Some t' -> moved m t t'.

Lemma compat_refl X : compat X X.
Proof.
  destruct mv_refl as [m Hm]. intros c tr tr' H1 H2. exists m. intros k t t' K1 K2.
  rewrite H1 in H2. injection H2 as <-. rewrite K1 in K2. injection K2 as <-. auto.
Qed.

(** ** The tests *)
Section Tests.
Variable Y : trajs.
Variable od : list bf.
Variable os : list factor.
Variable rb : list N.

Definition pure {A} (p : pcm) (r : res A) : res (A * pcm) := rmap (fun x => (x, p)) r.
(** The same stored measurements with other odometry. *)
Definition onto (p : pcm) : pcm :=
  Pcm od os (p_lcs p) Y (p_lms p) (p_order p) (p_total p) (p_good p) (p_ignored p) rb.

Definition both (X : trajs) (k : key) : Prop := known X (chr k) k /\ known Y (chr k) k.
Definition ends_both (X : trajs) (b : bf) : Prop := both X (b_from b) /\ both X (b_to b).

Lemma both_between (p : pcm) a b : compat (p_trajs p) Y -> chr a = chr b -> both (p_trajs p) a -> both (p_trajs p) b ->
  exists t, traj_between p (chr a) a b = (t, p) /\ traj_between (onto p) (chr a) a b = (t, onto p).
Proof.
  intros H Hc [Ka Ka'] [Kb Kb']. rewrite <- Hc in Kb, Kb'.
  destruct (@known_between O p (chr a) a b Hc Ka Kb) as (tr & ta & tb & Ht & Ha & Hb & E).
  destruct (@known_between O (onto p) (chr a) a b Hc Ka' Kb') as (tr' & ta' & tb' & Ht' & Ha' & Hb' & E').
  exists (t_between O ta tb). split; auto. rewrite E'. f_equal.
  destruct (H _ _ _ Ht Ht') as [m G]. symmetry. eapply mv_between; eauto.
Qed.

Lemma on_odom (p : pcm) b : compat (p_trajs p) Y -> chr (b_from b) = chr (b_to b) -> ends_both (p_trajs p) b ->
  exists r, is_odom_consistent C p b = pure p r /\ is_odom_consistent C (onto p) b = pure (onto p) r.
Proof.
  intros H Hc [Ka Kb]. unfold is_odom_consistent. destruct (c_odom_check C); cbn [negb]; [|exists (Val true); auto].
  destruct (@both_between p _ _ H Hc Ka Kb) as (t & E1 & E2). rewrite E1, E2.
  destruct (t_of O b) as [x|]; [eexists (Val _)|eexists (Bad _)]; cbn; auto.
Qed.

Lemma on_loops (p : pcm) f g : compat (p_trajs p) Y -> oid_eqb (pair_of f) (pair_of g) = true ->
  ends_both (p_trajs p) f -> ends_both (p_trajs p) g ->
  exists r, are_loops_consistent C p f g = pure p r /\ are_loops_consistent C (onto p) f g = pure (onto p) r.
Proof.
  intros H Hp [Ka Kb] [Kc Kd]. unfold are_loops_consistent. destruct (c_loop_check C); cbn [negb]; [|exists (Val true); auto].
  destruct (t_of O f) as [x|]; [|exists (Bad NullDeref); auto].
  destruct (t_of O g) as [y|]; [|exists (Bad NullDeref); auto].
  assert (G : exists c d, (if (chr (b_from f) =? chr (b_from g))%N then (b_from g, b_to g) else (b_to g, b_from g)) = (c, d) /\
    chr (b_from f) = chr c /\ chr (b_to f) = chr d /\ both (p_trajs p) c /\ both (p_trajs p) d).
  { unfold oid_eqb, pair_of in Hp. cbn [fst snd] in Hp.
    destruct (N.eqb_spec (chr (b_from f)) (chr (b_from g))) as [E|E].
    - exists (b_from g), (b_to g). split; auto. split; auto. split; [|auto].
      rewrite !orb_true_iff, !andb_true_iff, !N.eqb_eq in Hp. destruct Hp as [[A1 A2]|[A1 A2]]; congruence.
    - exists (b_to g), (b_from g). split; auto.
      rewrite !orb_true_iff, !andb_true_iff, !N.eqb_eq in Hp. destruct Hp as [[A1 A2]|[A1 A2]]; [congruence|auto]. }
  destruct G as (c & d & -> & E1 & E2 & K1 & K2).
  destruct (@both_between p _ _ H E1 Ka K1) as (t & F1 & F2). destruct (@both_between p _ _ H E2 Kb K2) as (t' & F3 & F4).
  rewrite F1, F2, F3, F4. eexists (Val _). cbn. auto.
Qed.

Lemma on_lc_bits (p : pcm) new : compat (p_trajs p) Y -> ends_both (p_trajs p) new -> forall fs bits,
  Forall (fun f => oid_eqb (pair_of f) (pair_of new) = true /\ ends_both (p_trajs p) f) fs ->
  exists r, lc_bits C fs new p bits = pure p r /\ lc_bits C fs new (onto p) bits = pure (onto p) r.
Proof.
  intros H Kn. induction fs as [|f fs IH]; intros bits F; cbn [lc_bits].
  - exists (Val bits). auto.
  - inversion F as [|? ? [F1 F2] F3]; subst. destruct (@on_loops p f new H F1 F2 Kn) as (r & E1 & E2). rewrite E1, E2.
    destruct r as [b|u]; cbn [pure rmap rbind]; [|exists (Bad u); auto]. apply IH. auto.
Qed.

Lemma on_lm_bits (p : pcm) l new : compat (p_trajs p) Y ->
  (b_from new <> l -> both (p_trajs p) (b_from new)) -> forall fs bits,
  Forall (fun f => b_from f <> l -> both (p_trajs p) (b_from f) /\
                   (b_from new <> l -> chr (b_from f) = chr (b_from new))) fs ->
  exists r, lm_bits l fs new p bits = pure p r /\ lm_bits l fs new (onto p) bits = pure (onto p) r.
Proof.
  intros H Kn. induction fs as [|f fs IH]; intros bits F; cbn [lm_bits].
  - exists (Val (Some bits)). auto.
  - inversion F as [|? ? F1 F2]; subst.
    destruct (N.eqb_spec (b_from f) l) as [|N1]; cbn [orb]; [exists (Val None); auto|].
    destruct (N.eqb_spec (b_from new) l) as [|N2]; cbn [orb]; [exists (Val None); auto|].
    destruct (t_of O f) as [x|]; [|exists (Bad NullDeref); auto].
    destruct (t_of O new) as [y|]; [|exists (Bad NullDeref); auto].
    destruct (F1 N1) as [Kf Ec]. specialize (Ec N2). specialize (Kn N2).
    destruct (@both_between p _ _ H Ec Kf Kn) as (t & E1 & E2). rewrite E1, E2. apply IH. auto.
Qed.

(** ** Storing a loop closure *)
Variable D : bf -> Prop.
Hypothesis D_one : forall x y, D x -> D y -> sp_landmark sp (b_from x) = false -> sp_landmark sp (b_from y) = false ->
  sp_landmark sp (b_to x) = true -> b_to x = b_to y -> chr (b_from x) = chr (b_from y).

Definition onto2 (x : pcm * numnew) : pcm * numnew := (onto (fst x), snd x).

Definition D_known (X : trajs) : Prop := forall x, D x -> sp_landmark sp (b_from x) = false -> sp_landmark sp (b_to x) = true ->
  both X (b_from x).

Lemma on_parse v1 v2 b (p : pcm) nn : compat (p_trajs p) Y -> D_known (p_trajs p) ->
  stored_ok C (fun x => is_landmark_factor C x = false -> ends_both (p_trajs p) x) D p -> D b ->
  kmem (b_from b) v1 = true -> kmem (b_to b) v1 = true -> kmem (b_from b) v2 = true -> kmem (b_to b) v2 = true ->
  (is_landmark_factor C b = false -> ends_both (p_trajs p) b) ->
  parse_one C v2 b (onto p, nn) = rmap onto2 (parse_one C v1 b (p, nn)) /\
  forall x, parse_one C v1 b (p, nn) = Val x -> p_trajs (fst x) = p_trajs p.
Proof.
  intros H DK [S1 S2 _ _] Hb K1 K2 K3 K4 Hk. unfold parse_one. rewrite K1, K2, K3, K4. cbn [negb orb].
  destruct (is_special C (b_from b) || is_special C (b_to b)) eqn:ES.
  - assert (HK : landmark_key C b = sp_landmark_key sp b) by (unfold landmark_key, sp_landmark_key; rewrite is_special_spec; auto).
    rewrite HK. set (l := sp_landmark_key sp b) in *.
    unfold increment_landmark_adj. cbn [p_lms p_total set_total set_lms onto].
    rewrite n_get_set, N.eqb_refl. unfold meas_add at 1 3 5 7. cbn [me_factors].
    set (fs := me_factors (meas_add (lm_get l (p_lms p)) b)).
    destruct (_ <=? 1); cbn [rbind]; [split; [reflexivity|intros x E; injection E as <-; auto]|].
    destruct (dims_are _ _); cbn [rbind]; [|split; [reflexivity|discriminate]].
    match goal with |- context [lm_bits l (firstn ?n fs) b (set_total (set_lms p ?x) ?y) []] => set (m := n); set (p1 := set_total (set_lms p x) y) end.
    assert (LK : forall x : bf, sp_landmark_key sp x = l -> b_from x <> l -> is_landmark_factor C x = true ->
      sp_landmark sp (b_from x) = false /\ sp_landmark sp (b_to x) = true /\ b_to x = l).
    { intros x E1 E2 E3. unfold sp_landmark_key in E1. unfold is_landmark_factor in E3.
      destruct (sp_landmark sp (b_from x)); [congruence|]. auto. }
    assert (Lb : is_landmark_factor C b = true) by (unfold is_landmark_factor; rewrite <- !(is_special_spec C); exact ES).
    destruct (@on_lm_bits p1 l b) with (fs := firstn m fs) (bits := @nil bool) as (r & E1 & E2).
    + exact H.
    + intro N1. destruct (LK b eq_refl N1 Lb) as (L1 & L2 & _). exact (DK b Hb L1 L2).
    + destruct (@lm_get_ok _ C _ (p_lms p) l S2) as [G _].
      rewrite Forall_forall in *. intros x Hx N1. apply (firstn_In' m fs x) in Hx. unfold fs, meas_add in Hx. cbn in Hx.
      assert (Gx : sp_landmark_key sp x = l /\ is_landmark_factor C x = true /\ D x).
      { apply in_app_or in Hx. destruct Hx as [Hx|[<-|[]]]; auto. }
      destruct Gx as (G1 & G2 & G3). destruct (LK x G1 N1 G2) as (L1 & L2 & L3).
      split; [exact (DK x G3 L1 L2)|]. intro N2. destruct (LK b eq_refl N2 Lb) as (L1' & L2' & L3').
      apply D_one; auto. congruence.
    + match goal with |- context [lm_bits l (firstn m fs) b ?q [] ] => lazymatch q with p1 => fail | _ => change q with (onto p1) end end.
      rewrite E1, E2. destruct r as [[bits|]|]; cbn [pure rmap rbind]; (split; [reflexivity|]); try discriminate;
        intros x E; injection E as <-; auto.
  - assert (Lb : is_landmark_factor C b = false) by (unfold is_landmark_factor; rewrite <- !(is_special_spec C); exact ES).
    specialize (Hk Lb).
    assert (A : exists r, (if (chr (b_from b) =? chr (b_to b))%N then is_odom_consistent C p b else Val (true, p)) = pure p r /\
                (if (chr (b_from b) =? chr (b_to b))%N then is_odom_consistent C (onto p) b else Val (true, onto p)) = pure (onto p) r).
    { destruct (N.eqb_spec (chr (b_from b)) (chr (b_to b))) as [EC|EC]; [apply on_odom; auto|exists (Val true); auto]. }
    destruct A as (r & A1 & A2). rewrite A1, A2. destruct r as [ok|]; cbn [pure rmap rbind]; [|split; [reflexivity|discriminate]].
    destruct ok; [|split; [reflexivity|intros x E; injection E as <-; auto]].
    set (id := (chr (b_from b), chr (b_to b))).
    destruct (c_loop_check C).
    2:{ cbn [rbind]. split; [reflexivity|intros x E; injection E as <-; auto]. }
    unfold increment_adj. cbn [p_lcs set_total set_order set_lcs onto p_order p_total].
    rewrite oid_get_set, oid_eqb_refl.
    set (fs := me_factors (meas_add (lc_get id (p_lcs p)) b)).
    destruct (length fs <=? 1); cbn [rbind]; [split; [reflexivity|intros x E; injection E as <-; auto]|].
    destruct (dims_are _ _); cbn [rbind]; [|split; [reflexivity|discriminate]].
    match goal with |- context [lc_bits C (firstn ?n fs) b (set_total (set_order (set_lcs p ?x) ?z) ?y) []] => set (m := n); set (p1 := set_total (set_order (set_lcs p x) z) y) end.
    destruct (@on_lc_bits p1 b H Hk (firstn m fs) []) as (r & E1 & E2).
    + destruct (@lc_get_ok _ C _ (p_lcs p) id S1) as [G _].
      rewrite Forall_forall in *. intros x Hx. apply (firstn_In' m fs x) in Hx. unfold fs, meas_add in Hx. cbn in Hx.
      apply in_app_or in Hx. destruct Hx as [Hx|[<-|[]]]; [destruct (G _ Hx) as (G1 & G3 & G2); auto|].
      split; auto. apply oid_eqb_refl.
    + match goal with |- context [lc_bits C (firstn m fs) b ?q [] ] => lazymatch q with p1 => fail | _ => change q with (onto p1) end end.
      rewrite E1, E2. destruct r as [bits|]; cbn [pure rmap rbind]; (split; [reflexivity|]); try discriminate;
        intros x E; injection E as <-; auto.
Qed.

Lemma on_parse_all v1 v2 cs : forall (p : pcm) nn, compat (p_trajs p) Y -> D_known (p_trajs p) ->
  stored_ok C (fun x => is_landmark_factor C x = false -> ends_both (p_trajs p) x) D p ->
  Forall (fun b => D b /\ kmem (b_from b) v1 = true /\ kmem (b_to b) v1 = true /\ kmem (b_from b) v2 = true /\ kmem (b_to b) v2 = true /\
                   (is_landmark_factor C b = false -> ends_both (p_trajs p) b)) cs ->
  rfold (parse_one C v2) cs (onto p, nn) = rmap onto2 (rfold (parse_one C v1) cs (p, nn)) /\
  forall x, rfold (parse_one C v1) cs (p, nn) = Val x -> p_trajs (fst x) = p_trajs p.
Proof.
  induction cs as [|b cs IH]; intros p nn H DK HS F; cbn [rfold].
  { split; [reflexivity|]. intros x E. injection E as <-. auto. }
  inversion F as [|? ? (F1 & K1 & K2 & K3 & K4 & F2) F3]; subst.
  destruct (@on_parse v1 v2 b p nn H DK HS F1 K1 K2 K3 K4 F2) as [E1 E2]. rewrite E1.
  destruct (parse_one C v1 b (p, nn)) as [[p1 nn1]|] eqn:E; cbn [rmap rbind]; [|split; [reflexivity|discriminate]].
  specialize (E2 _ eq_refl). cbn [fst] in E2. unfold onto2 at 1. cbn [fst snd].
  destruct (IH p1 nn1) as [G1 G2].
  - rewrite E2. auto.
  - rewrite E2. auto.
  - rewrite E2. apply parse_one_inv in E. destruct E as [o [HP _]]. eapply parsed_stored_ok; [exact HP| | |exact HS].
    + intros (A1 & A2 & A3 & _) _. auto.
    + auto.
  - rewrite E2. auto.
  - split; auto. intros x Hx. rewrite (G2 x Hx). auto.
Qed.

Lemma on_find (p : pcm) : find_inliers C (onto p) = rmap onto (find_inliers C p).
Proof.
  unfold find_inliers. cbn [p_lcs p_lms onto].
  destruct (umapM (pair_inliers C) (p_lcs p)); cbn [rbind rmap]; auto.
  destruct (umapM (heu_inliers (O:=O)) (p_lms p)); cbn [rbind rmap]; auto.
Qed.
Lemma on_find_inc nn (p : pcm) : find_inliers_inc nn (onto p) = rmap onto (find_inliers_inc nn p).
Proof.
  unfold find_inliers_inc. cbn [p_lcs p_lms onto].
  match goal with |- context [rfold ?f nn (p_lcs p)] => destruct (rfold f nn (p_lcs p)); cbn [rbind rmap]; auto end.
  destruct (umapM (heu_inliers (O:=O)) (p_lms p)); cbn [rbind rmap]; auto.
Qed.
End Tests.

(** ** Trajectories as functions of the odometry *)
Definition grow (tr : traj O) (b : bf) : traj O :=
  match t_of O b with
  | Some d => kset (b_to b) (t_comp O (tget tr (b_from b)) d) tr
  | None => tr
  end.
Definition built (x : t_pose O) (l : list bf) : traj O :=
  match l with [] => [] | b :: _ => fold_left grow l [(b_from b, t_init O x)] end.
(** The trajectory of a robot is its odometry chained from a start that [P] knows of. *)
Definition laid (P : starts) (c : N) (l : list bf) (X : trajs) : Prop :=
  match l with [] => n_find c X = None | _ => exists x, P c x /\ n_find c X = Some (built x l) end.

Definition end_of (b : bf) (k : key) : Prop := k = b_from b \/ k = b_to b.
Definition linked (l : list bf) : Prop := forall l1 b l2, l = l1 ++ b :: l2 -> l1 <> [] ->
  exists b', In b' l1 /\ end_of b' (b_from b).
Definition measured (l : list bf) : Prop := Forall (fun b => t_of O b <> None) l.
Definition fresh (l : list bf) : Prop := forall l1 b l2, l = l1 ++ b :: l2 ->
  forall b', In b' l1 -> b_to b <> b_from b' /\ b_to b <> b_to b'.

Lemma built_snoc x l b : l <> [] -> built x (l ++ [b]) = grow (built x l) b.
Proof. destruct l as [|a l]; [congruence|]. intros _. unfold built. cbn [app]. rewrite app_comm_cons, fold_left_app. reflexivity. Qed.
Lemma built_one x b : built x [b] = grow [(b_from b, t_init O x)] b.
Proof. reflexivity. Qed.

Lemma grow_find tr b k t : kfind k tr = Some t -> exists t', kfind k (grow tr b) = Some t'.
Proof. unfold grow. destruct (t_of O b); [|eauto]. rewrite kfind_kset. intro H. rewrite H. destruct (k =? b_to b)%N; eauto. Qed.

Lemma linked_app l b : linked (l ++ [b]) -> linked l.
Proof. intros H l1 a l2 -> Hn. apply (H l1 a (l2 ++ [b])); auto. rewrite <- app_assoc. auto. Qed.
Lemma fresh_app l l' : fresh (l ++ l') -> fresh l.
Proof. intros H l1 a l2 ->. apply (H l1 a (l2 ++ l')). rewrite <- app_assoc. auto. Qed.

Lemma built_known x l : linked l -> measured l -> forall b k, In b l -> end_of b k -> exists t, kfind k (built x l) = Some t.
Proof.
  induction l as [|a l IH] using rev_ind; intros HL HM b k Hb He; [destruct Hb|].
  apply Forall_app in HM. destruct HM as [HM Ha]. inversion Ha as [|? ? Ha' _]; subst.
  destruct (t_of O a) as [d|] eqn:Ed; [|congruence].
  assert (NEW : forall tr, exists t, kfind (b_to a) (grow tr a) = Some t).
  { intro tr. unfold grow. rewrite Ed, kfind_kset, N.eqb_refl. eauto. }
  destruct l as [|a0 l].
  - cbn [app] in *. destruct Hb as [<-|[]]. rewrite built_one. destruct He as [-> | ->]; [|auto].
    apply (grow_find _ a) with (t := t_init O x). cbn [kfind]. rewrite N.eqb_refl. auto.
  - rewrite built_snoc by discriminate. specialize (IH (@linked_app _ _ HL) HM). apply in_app_or in Hb.
    destruct Hb as [Hb|[<-|[]]].
    + destruct (IH b k Hb He) as [t Ht]. eapply grow_find; eauto.
    + destruct He as [-> | ->]; auto. destruct (HL (a0 :: l) a [] eq_refl) as (b' & B1 & B2); [discriminate|].
      destruct (IH b' _ B1 B2) as [t Ht]. eapply grow_find; eauto.
Qed.

Lemma built_keys x l : forall k t, kfind k (built x l) = Some t -> exists b, In b l /\ end_of b k.
Proof.
  induction l as [|a l IH] using rev_ind; intros k t Hk; [discriminate|].
  assert (G : forall tr, (forall t, kfind k tr = Some t -> exists b, In b (l ++ [a]) /\ end_of b k) -> kfind k (grow tr a) = Some t ->
    exists b, In b (l ++ [a]) /\ end_of b k).
  { intros tr Htr. unfold grow. destruct (t_of O a); [|apply Htr]. rewrite kfind_kset.
    destruct (N.eqb_spec k (b_to a)) as [->|]; [|apply Htr]. intros _. exists a. split; [apply in_or_app; right; left; auto|]. right. auto. }
  destruct l as [|a0 l].
  - cbn [app] in *. rewrite built_one in Hk. eapply G; [|exact Hk]. intros t' H. cbn [kfind] in H.
    destruct (N.eqb_spec k (b_from a)) as [->|]; [|discriminate]. exists a. split; [left; auto|left; auto].
  - rewrite built_snoc in Hk by discriminate. eapply G; [|exact Hk]. intros t' H. destruct (IH k t' H) as (b & B1 & B2).
    exists b. split; auto. apply in_or_app. auto.
Qed.

(** Two starts: one displacement. *)
Lemma built_moved m x x' l : moved m (t_init O x) (t_init O x') -> linked l -> measured l ->
  twin moved m (built x l) (built x' l).
Proof.
  intro Hm. induction l as [|a l IH] using rev_ind; intros HL HM; [constructor|].
  pose proof HM as HM0. apply Forall_app in HM. destruct HM as [HM Ha]. inversion Ha as [|? ? Ha' _]; subst.
  destruct (t_of O a) as [d|] eqn:Ed; [|congruence].
  assert (G : forall tr tr' t, twin moved m tr tr' -> kfind (b_from a) tr = Some t -> twin moved m (grow tr a) (grow tr' a)).
  { intros tr tr' t Ht Hf. unfold grow. rewrite Ed. apply twin_set; auto. apply mv_comp. unfold tget. rewrite Hf.
    pose proof (twin_find (b_from a) Ht) as F. rewrite Hf in F. destruct (kfind (b_from a) tr'); [auto|destruct F]. }
  destruct l as [|a0 l].
  - cbn [app]. rewrite !built_one. apply (G _ _ (t_init O x)); [repeat constructor; auto|]. cbn [kfind]. rewrite N.eqb_refl. auto.
  - rewrite !built_snoc by discriminate. specialize (IH (@linked_app _ _ HL) HM).
    destruct (HL (a0 :: l) a [] eq_refl) as (b' & B1 & B2); [discriminate|].
    destruct (@built_known x (a0 :: l) (@linked_app _ _ HL) HM b' _ B1 B2) as [t Ht]. eapply G; eauto.
Qed.

(** Later odometry leaves earlier poses alone. *)
Lemma built_later x l l2 : l <> [] -> fresh (l ++ l2) -> forall k t, kfind k (built x l) = Some t -> kfind k (built x (l ++ l2)) = Some t.
Proof.
  intros Hn. induction l2 as [|a l2 IH] using rev_ind; intros HF k t Hk; [rewrite app_nil_r; auto|].
  rewrite app_assoc in HF |- *. rewrite built_snoc by (destruct l; discriminate).
  specialize (IH (@fresh_app _ _ HF) k t Hk). unfold grow. destruct (t_of O a); auto. rewrite kfind_kset.
  destruct (N.eqb_spec k (b_to a)) as [->|]; auto. exfalso.
  destruct (built_keys _ _ _ Hk) as (b & B1 & B2). destruct (HF (l ++ l2) a [] eq_refl b) as [X1 X2]; [apply in_or_app; auto|].
  destruct B2; congruence.
Qed.

Definition starts_agree (P P' : starts) : Prop :=
  forall c x x', P c x -> P' c x' -> exists m, moved m (t_init O x) (t_init O x').

Lemma laid_compat (P P' : starts) X Y f g : starts_agree P P' -> (forall c, laid P c (f c) X) -> (forall c, laid P' c (g c) Y) ->
  (forall c, linked (f c) /\ measured (f c) /\ fresh (f c)) -> (forall c, linked (g c) /\ measured (g c) /\ fresh (g c)) ->
  (forall c, comparable (f c) (g c)) -> compat X Y.
Proof.
  intros SA LX LY GX GY HC c tr tr' H1 H2. specialize (LX c). specialize (LY c). unfold laid in LX, LY.
  destruct (GX c) as (A1 & A2 & A3), (GY c) as (B1 & B2 & B3).
  destruct (f c) as [|a l] eqn:E; [congruence|]. destruct (g c) as [|a' l'] eqn:E'; [congruence|].
  destruct LX as (x & PX & LX), LY as (x' & PY & LY). assert (Q1 : tr = built x (a :: l)) by congruence. assert (Q2 : tr' = built x' (a' :: l')) by congruence. subst tr tr'.
  destruct (SA c x x' PX PY) as [m Hm]. exists m. intros k t t' K1 K2.
  destruct (HC c) as [l0 HC']. rewrite E, E' in HC'. destruct HC' as [HC'|HC'].
  - rewrite HC' in B3, K2. pose proof (twin_find k (@built_moved m x x' _ Hm A1 A2)) as F. rewrite K1 in F.
    destruct (kfind k (built x' (a :: l))) as [t0|] eqn:E0; [|destruct F].
    rewrite (@built_later x' (a :: l) l0 ltac:(discriminate) B3 k t0 E0) in K2. injection K2 as <-. auto.
  - rewrite HC' in A3, K1. pose proof (twin_find k (@built_moved m x x' _ Hm B1 B2)) as F. rewrite K2 in F.
    destruct (kfind k (built x (a' :: l'))) as [t0|] eqn:E0; [|destruct F].
    rewrite (@built_later x (a' :: l') l0 ltac:(discriminate) A3 k t0 E0) in K1. injection K1 as <-. auto.
Qed.

Definition leads (c : N) (b : bf) : bool := (chr (b_to b) =? c)%N.

Lemma update_laid (P : starts) v b (p p' : pcm) u l : update_odom v b p = Ok p' u ->
  (l = [] -> forall x, kfind (b_from b) v = Some (VPose x) -> P (chr (b_to b)) x) ->
  laid P (chr (b_to b)) l (p_trajs p) -> linked (l ++ [b]) -> measured l ->
  laid P (chr (b_to b)) (l ++ [b]) (p_trajs p') /\ measured (l ++ [b]) /\
  forall c, c <> chr (b_to b) -> n_find c (p_trajs p') = n_find c (p_trajs p).
Proof.
  unfold update_odom. destruct (t_of O b) as [d|] eqn:Ed; [|discriminate].
  cbn [p_trajs set_odom p_robots set_trajs]. set (c := chr (b_to b)) in *. intros H HP HL HK HM.
  assert (MS : measured (l ++ [b])) by (apply Forall_app; split; auto; constructor; [congruence|constructor]).
  destruct l as [|a l]; cbn [laid app] in HL |- *.
  - rewrite HL in H. specialize (HP eq_refl). destruct (kfind (b_from b) v) as [[x|t]|]; cbn [obind] in H; try discriminate.
    cbn [p_trajs set_trajs set_odom set_robots p_robots] in H. rewrite n_get_set, N.eqb_refl in H.
    assert (EF : kfind (b_from b) [(b_from b, t_init O x)] = Some (t_init O x)) by (cbn [kfind]; rewrite N.eqb_refl; auto).
    unfold ttouch in H. rewrite EF in H. injection H as <- _. cbn [p_trajs set_trajs].
    split; [exists x; split; [auto|]; rewrite n_find_set, N.eqb_refl; unfold built, grow; cbn [fold_left]; rewrite Ed; reflexivity|].
    split; auto. intros c' Hc. rewrite !n_find_set. destruct (N.eqb_spec c' c); [congruence|auto].
  - destruct HL as (x & PX & HL). rewrite HL in H. cbn [obind] in H. cbn [p_trajs set_odom] in H.
    assert (G : uget N.eqb [] c (p_trajs p) = built x (a :: l)) by exact (f_equal (fun o => match o with Some t => t | None => [] end) HL).
    rewrite G in H. destruct (HK (a :: l) b [] eq_refl) as (b' & B1 & B2); [discriminate|].
    destruct (@built_known x (a :: l) (@linked_app _ _ HK) HM b' _ B1 B2) as [t Ht].
    unfold ttouch in H. rewrite Ht in H. injection H as <- _. cbn [p_trajs set_trajs set_odom].
    split; [|split; auto].
    + exists x. split; auto. rewrite n_find_set, N.eqb_refl. change (a :: l ++ [b]) with ((a :: l) ++ [b]).
      rewrite built_snoc by discriminate. unfold grow. rewrite Ed. auto.
    + intros c' Hc. rewrite !n_find_set. destruct (N.eqb_spec c' c); [congruence|auto].
Qed.

Lemma laid_same (P : starts) c l X Y : n_find c X = n_find c Y -> laid P c l X -> laid P c l Y.
Proof. intro E. unfold laid. rewrite E. auto. Qed.

Lemma proc_laid (P : starts) nv v fs : forall (f : N -> list bf) (p p' : pcm) acc a', proc_factors C nv v fs p acc = Ok p' a' ->
  (forall c, laid P c (f c) (p_trajs p)) -> (forall c, measured (f c)) ->
  (forall c, linked (f c ++ filter (leads c) (filter (sp_odometry sp nv) (betweens fs)))) ->
  (forall l1 b l2 x, filter (sp_odometry sp nv) (betweens fs) = l1 ++ b :: l2 -> f (chr (b_to b)) = [] -> filter (leads (chr (b_to b))) l1 = [] ->
     kfind (b_from b) v = Some (VPose x) -> P (chr (b_to b)) x) ->
  forall c, laid P c (f c ++ filter (leads c) (filter (sp_odometry sp nv) (betweens fs))) (p_trajs p') /\
            measured (f c ++ filter (leads c) (filter (sp_odometry sp nv) (betweens fs))).
Proof.
  induction fs as [|of fs IH]; intros f p p' acc a' H HL HM HK HP; cbn [proc_factors] in H.
  { injection H as <- _. intro c. cbn [betweens flat_map filter]. rewrite app_nil_r. auto. }
  destruct (proc_factor C nv v of p acc) as [p1 a1| |] eqn:E; cbn [obind] in H; try discriminate.
  assert (EB : betweens (of :: fs) = betweens [of] ++ betweens fs).
  { unfold betweens. cbn [flat_map]. rewrite app_nil_r. auto. }
  assert (SPL : forall c, f c ++ filter (leads c) (filter (sp_odometry sp nv) (betweens (of :: fs))) =
    (f c ++ filter (leads c) (filter (sp_odometry sp nv) (betweens [of]))) ++ filter (leads c) (filter (sp_odometry sp nv) (betweens fs))).
  { intro c. rewrite EB, !filter_app, app_assoc. auto. }
  intro c. rewrite SPL. revert c.
  apply (IH (fun c => f c ++ filter (leads c) (filter (sp_odometry sp nv) (betweens [of]))) p1 p' a1 a' H).
  3:{ intro c. rewrite <- SPL. auto. }
  3:{ intros l1 b l2 x El Ef Eg Ek. apply app_eq_nil in Ef. destruct Ef as [Ef Eh].
      apply (HP (filter (sp_odometry sp nv) (betweens [of]) ++ l1) b l2 x); auto.
      - rewrite EB, filter_app, El, app_assoc. auto.
      - rewrite filter_app, Eh, Eg. auto. }
  1,2: intro c; apply proc_factor_trajs in E.
  1,2: assert (NONE : p_trajs p1 = p_trajs p -> filter (sp_odometry sp nv) (betweens [of]) = [] ->
    laid P c (f c ++ filter (leads c) (filter (sp_odometry sp nv) (betweens [of]))) (p_trajs p1) /\
    measured (f c ++ filter (leads c) (filter (sp_odometry sp nv) (betweens [of]))))
    by (intros E1 E2; rewrite E1, E2; cbn [filter]; rewrite app_nil_r; auto).
  1,2: assert (GOAL : laid P c (f c ++ filter (leads c) (filter (sp_odometry sp nv) (betweens [of]))) (p_trajs p1) /\
    measured (f c ++ filter (leads c) (filter (sp_odometry sp nv) (betweens [of])))); [|apply GOAL].
  1,2: destruct of as [[b|k x|k t|ks t]|]; try (apply NONE; auto; fail).
  1,2: destruct (sp_odometry sp nv b) eqn:EO;
    [|apply NONE; auto; cbn [betweens flat_map app filter]; rewrite EO; auto].
  1,2: destruct E as [u E]; assert (EN : filter (sp_odometry sp nv) (betweens [Some (FBetween b)]) = [b])
    by (cbn [betweens flat_map app filter]; rewrite EO; auto).
  1,2: rewrite EN in *; cbn [filter].
  1,2: assert (LK : linked (f (chr (b_to b)) ++ [b])).
  1,3: specialize (HK (chr (b_to b))); rewrite EB, !filter_app, EN in HK; cbn [filter] in HK; unfold leads at 1 in HK;
    rewrite N.eqb_refl, app_assoc in HK; intros l1 b0 l2 El; apply (HK l1 b0 (l2 ++ filter (leads (chr (b_to b))) (filter (sp_odometry sp nv) (betweens fs))));
    rewrite El, <- app_assoc; reflexivity.
  1,2: assert (HPb : f (chr (b_to b)) = [] -> forall x, kfind (b_from b) v = Some (VPose x) -> P (chr (b_to b)) x)
    by (intros Ef x Ek; apply (HP [] b (filter (sp_odometry sp nv) (betweens fs)) x); auto; rewrite EB, filter_app, EN; auto).
  1,2: destruct (@update_laid P v b p p1 u _ E HPb (HL _) LK (HM _)) as (U1 & U2 & U3).
  1,2: unfold leads; destruct (N.eqb_spec (chr (b_to b)) c) as [<-|Hc]; [auto|].
  1,2: rewrite app_nil_r; split; [|auto]; apply (@laid_same P c _ (p_trajs p)); [symmetry; apply U3; auto|auto].
Qed.

Lemma filter_split {A} (F : A -> bool) l : forall l1 b l2, filter F l = l1 ++ b :: l2 ->
  exists m1 m2, l = m1 ++ b :: m2 /\ filter F m1 = l1 /\ F b = true.
Proof.
  induction l as [|a l IH]; intros l1 b l2 H; cbn [filter] in H; [destruct l1; discriminate|].
  destruct (F a) eqn:E.
  - destruct l1 as [|a1 l1]; cbn [app] in H; injection H as -> H.
    + exists [], l. auto.
    + destruct (IH _ _ _ H) as (m1 & m2 & -> & <- & Fb). exists (a1 :: m1), m2. cbn [filter app]. rewrite E. auto.
  - destruct (IH _ _ _ H) as (m1 & m2 & -> & <- & Fb). exists (a :: m1), m2. cbn [filter app]. rewrite E. auto.
Qed.

Lemma flat_map_split {A B} (f : A -> list B) h : forall L1 b L2, flat_map f h = L1 ++ b :: L2 ->
  exists g1 o g2 m1 m2, h = g1 ++ o :: g2 /\ f o = m1 ++ b :: m2 /\ L1 = flat_map f g1 ++ m1.
Proof.
  induction h as [|o h IH]; intros L1 b L2 H; cbn [flat_map] in H; [destruct L1; discriminate|].
  revert L1 H. generalize (eq_refl (f o)). generalize (f o) at 2 3. intros l El.
  assert (G : forall m L1, f o = m ++ l -> l ++ flat_map f h = L1 ++ b :: L2 ->
    exists g1 o0 g2 m1 m2, o :: h = g1 ++ o0 :: g2 /\ f o0 = m1 ++ b :: m2 /\ m ++ L1 = flat_map f g1 ++ m1).
  { clear El. induction l as [|a l IHl]; intros m L1 Em H.
    - cbn [app] in H. destruct (IH _ _ _ H) as (g1 & o0 & g2 & m1 & m2 & -> & E2 & ->).
      exists (o :: g1), o0, g2, m1, m2. cbn [flat_map app]. rewrite app_nil_r in Em. rewrite Em, app_assoc. auto.
    - destruct L1 as [|a1 L1]; cbn [app] in H; injection H as -> H.
      + exists [], o, h, m, l. cbn [flat_map app]. rewrite app_nil_r. auto.
      + destruct (IHl (m ++ [a1]) L1) as (g1 & o0 & g2 & m1 & m2 & E1 & E2 & E3); auto.
        { rewrite <- app_assoc. auto. }
        exists g1, o0, g2, m1, m2. rewrite <- app_assoc in E3. auto. }
  intros L1 H. apply (G [] L1); auto.
Qed.

Lemma track_linked h c : along_tracks sp h -> linked (robot_track sp c h).
Proof.
  intros HA l1 b l2 H Hn. apply filter_split in H. destruct H as (L1 & L2 & H & Hf & Hb). apply N.eqb_eq in Hb.
  apply flat_map_split in H. destruct H as (g1 & o & g2 & m1 & m2 & -> & Ho & ->).
  destruct (call_of o) as [[fs vs]|] eqn:EC; [|destruct m1; discriminate].
  destruct (at_odometry HA) with (h1 := g1) (o := o) (h2 := g2) (fs := fs) (vs := vs) (l1 := m1) (b := b) (l2 := m2) as (b' & B1 & B2 & B3); auto.
  - destruct l1 as [|b' l1]; [congruence|]. assert (X : In b' (b' :: l1)) by (left; auto). rewrite <- Hf in X.
    apply filter_In in X. destruct X as [X1 X2]. apply N.eqb_eq in X2. exists b'. split; [exact X1|congruence].
  - exists b'. split; auto. rewrite <- Hf. apply filter_In. split; [exact B1|]. apply N.eqb_eq. congruence.
Qed.

Lemma laid_known (P : starts) h X k : along_tracks sp h -> (forall c, laid P c (robot_track sp c h) X) -> (forall c, measured (robot_track sp c h)) ->
  on_track (sp_odoms sp h) k -> known X (chr k) k.
Proof.
  intros HA HL HM (b & B1 & B2 & B3). specialize (HL (chr k)). specialize (HM (chr k)).
  assert (Hb : In b (robot_track sp (chr k) h)) by (apply filter_In; split; [auto|apply N.eqb_eq; auto]).
  pose proof (track_linked (chr k) HA) as LK. unfold laid in HL.
  destruct (robot_track sp (chr k) h) as [|a l] eqn:E; [destruct Hb|]. destruct HL as (x & _ & HL).
  destruct (@built_known x (a :: l) LK HM b k Hb B3) as [t Ht]. exists (built x (a :: l)), t. auto.
Qed.

(** ** One call *)
Definition core (p : pcm) := (p_lcs p, p_lms p, p_order p, p_total p, p_good p, p_ignored p).
Lemma core_onto (p q : pcm) : core p = core q -> q = onto (p_trajs q) (p_odom q) (p_special q) (p_robots q) p.
Proof. unfold core, onto. destruct p, q; cbn. congruence. Qed.
Lemma onto_core Y od os rb (p : pcm) : core (onto Y od os rb p) = core p.
Proof. reflexivity. Qed.

Definition settle (u : values) (cs : list bf) (p : pcm) : res pcm :=
  match cs with
  | [] => Val p
  | _ :: _ => rbind (parse_all C u cs p) (fun '(p2, nn) => if c_incremental C then find_inliers_inc nn p2 else find_inliers C p2)
  end.

Lemma settle_onto Y od os rb (D : bf -> Prop) v1 v2 cs (p : pcm) :
  (forall x y, D x -> D y -> sp_landmark sp (b_from x) = false -> sp_landmark sp (b_from y) = false ->
     sp_landmark sp (b_to x) = true -> b_to x = b_to y -> chr (b_from x) = chr (b_from y)) ->
  compat (p_trajs p) Y -> D_known Y D (p_trajs p) ->
  stored_ok C (fun x => is_landmark_factor C x = false -> ends_both Y (p_trajs p) x) D p ->
  Forall (fun b => D b /\ kmem (b_from b) v1 = true /\ kmem (b_to b) v1 = true /\ kmem (b_from b) v2 = true /\ kmem (b_to b) v2 = true /\
                   (is_landmark_factor C b = false -> ends_both Y (p_trajs p) b)) cs ->
  settle v2 cs (onto Y od os rb p) = rmap (onto Y od os rb) (settle v1 cs p) /\
  forall x, settle v1 cs p = Val x -> p_trajs x = p_trajs p.
Proof.
  intros D1 H DK HS F. destruct cs as [|c0 cs0]; [split; [reflexivity|intros x E; injection E as <-; auto]|].
  cbn [settle]. set (cs := c0 :: cs0) in *.
  destruct (@on_parse_all Y od os rb D D1 v1 v2 cs p (@nil (obsid * nat) : numnew) H DK HS F) as [E1 E2].
  assert (G0 : parse_all C v2 cs (onto Y od os rb p) = rmap (onto2 Y od os rb) (parse_all C v1 cs p)) by exact E1.
  assert (G3 : forall x, parse_all C v1 cs p = Val x -> p_trajs (fst x) = p_trajs p) by exact E2. clear E1 E2. rename G3 into E2.
  rewrite G0.
  destruct (parse_all C v1 cs p) as [[p2 nn]|] eqn:E; cbn [rmap rbind]; [|split; [reflexivity|discriminate]].
  specialize (E2 _ eq_refl). cbn [fst] in E2. unfold onto2. cbn [fst snd].
  destruct (c_incremental C).
  - rewrite on_find_inc. split; [auto|]. intros x Hx. rewrite <- E2. unfold find_inliers_inc in Hx.
    match type of Hx with context [rfold ?f nn (p_lcs p2)] => destruct (rfold f nn (p_lcs p2)); cbn [rbind] in Hx; try discriminate end.
    destruct (umapM (heu_inliers (O:=O)) (p_lms p2)); cbn [rbind] in Hx; try discriminate. injection Hx as <-. auto.
  - rewrite on_find. split; [auto|]. intros x Hx. rewrite <- E2. unfold find_inliers in Hx.
    destruct (umapM (pair_inliers C) (p_lcs p2)); cbn [rbind] in Hx; try discriminate.
    destruct (umapM (heu_inliers (O:=O)) (p_lms p2)); cbn [rbind] in Hx; try discriminate. injection Hx as <-. auto.
Qed.

Lemma ro_split w fs nv (p : pcm) g v st b : remove_outliers C w fs nv (PSt p g v) = Ok st b ->
  exists u y p1 acc p3, vinsert_all nv v = Ok u y /\ proc_factors C nv u fs p ([], false) = Ok p1 acc /\
    settle u (fst acc) p1 = Val p3 /\ core (ps_pcm st) = core p3 /\ p_trajs (ps_pcm st) = p_trajs p3.
Proof.
  unfold remove_outliers. cbn [ps_pcm ps_nfg ps_vals].
  destruct (vinsert_all nv v) as [u y| |] eqn:E1; try discriminate.
  destruct fs as [|of fs0].
  { intro H. injection H as <- _. exists u, y, p, ([], false), p. cbn. auto. }
  set (fs := of :: fs0).
  destruct (proc_factors C nv u fs p ([], false)) as [p1 [lcs opt]| |] eqn:E2; try discriminate.
  assert (FIN : forall p3 o', settle u lcs p1 = Val p3 ->
    (if c_align C && (1 <? length (p_robots p3)) then
       match align w (set_robots p3 (nsort (p_robots p3))) u with
       | Ok vs' _ => Ok (PSt (set_robots p3 (nsort (p_robots p3))) (graph_of w p3) vs') o'
       | Throw _ e => Throw (PSt (set_robots p3 (nsort (p_robots p3))) (graph_of w p3) u) e
       | Undef u => Undef u
       end
     else Ok (PSt p3 (graph_of w p3) u) o') = Ok st b ->
    exists u0 y0 p2 acc p4, Ok u y = Ok u0 y0 /\ proc_factors C nv u0 fs p ([], false) = Ok p2 acc /\
      settle u0 (fst acc) p2 = Val p4 /\ core (ps_pcm st) = core p4 /\ p_trajs (ps_pcm st) = p_trajs p4).
  { intros p3 o' HS H. exists u, y, p1, (lcs, opt), p3. split; auto. split; auto. split; auto.
    destruct (c_align C && _).
    - destruct (align w _ u) as [? []| |]; try discriminate. injection H as <- _. auto.
    - injection H as <- _. auto. }
  destruct lcs as [|c0 lcs0].
  - intro H. eapply FIN; [reflexivity|exact H].
  - cbn [settle] in FIN. destruct (parse_all C u (c0 :: lcs0) p1) as [[p2 nn]|]; cbn [rbind] in *; try discriminate.
    destruct (if c_incremental C then find_inliers_inc nn p2 else find_inliers C p2) as [p3|] eqn:E3; cbn [rbind]; try discriminate.
    intro H. eapply FIN; [|exact H]. auto.
Qed.

(** What holds of a run along the tracks. *)
Record seen (P : starts) (W : soracles O) (h : list op) (s : solver) (p : pcm) : Prop := {
  se_hist : hist_inv C W h s p;
  se_laid : forall c, laid P c (robot_track sp c h) (p_trajs p);
  se_measured : forall c, measured (robot_track sp c h) }.

Definition tracked_ends (h : list op) (x : bf) : Prop :=
  is_landmark_factor C x = false -> on_track (sp_odoms sp h) (b_from x) /\ on_track (sp_odoms sp h) (b_to x).

Record called (P : starts) (h : list op) (fs : graph_t) (nv : values) (p p' : pcm) (u : values) (p1 : pcm) : Prop := {
  ca_laid : forall c, laid P c (robot_track sp c h) (p_trajs p1);
  ca_measured : forall c, measured (robot_track sp c h);
  ca_core : core p1 = (p_lcs p, store_firsts C (filter (sp_first sp nv) (betweens fs)) (p_lms p), p_order p,
                       p_total p + length (filter (sp_first sp nv) (betweens fs)), p_good p, p_ignored p);
  ca_stored : stored_ok C (tracked_ends h) (fun b => delivered h (FBetween b)) p1;
  ca_new : Forall (fun b => delivered h (FBetween b) /\ kmem (b_from b) u = true /\ kmem (b_to b) u = true /\ tracked_ends h b)
                  (filter (sp_candidate sp nv) (betweens fs));
  ca_settle : exists p3, settle u (filter (sp_candidate sp nv) (betweens fs)) p1 = Val p3 /\ core p' = core p3 /\ p_trajs p' = p_trajs p3 }.

Lemma robot_track_snoc c g o fs vs : call_of o = Some (fs, vs) ->
  robot_track sp c (g ++ [o]) = robot_track sp c g ++ filter (leads c) (filter (sp_odometry sp vs) (betweens fs)).
Proof. intro H. unfold robot_track. rewrite sp_odoms_snoc, H, filter_app. reflexivity. Qed.

Lemma landmark_known (P : starts) h X : along_tracks sp h -> (forall c, laid P c (robot_track sp c h) X) -> (forall c, measured (robot_track sp c h)) ->
  forall x, delivered h (FBetween x) -> sp_landmark sp (b_from x) = false -> sp_landmark sp (b_to x) = true ->
  known X (chr (b_from x)) (b_from x).
Proof.
  intros HA HL HM x (o & gs & ws & Hin & Hc & Hx) L1 L2. apply (@laid_known P h X _ HA HL HM).
  apply in_split in Hin. destruct Hin as (l1 & l2 & El). rewrite El.
  change (o :: l2) with ([o] ++ l2). rewrite app_assoc. apply on_track_odoms.
  apply (at_landmark HA) with (h2 := l2) (o := o) (fs := gs) (vs := ws); auto.
Qed.

(** [P] knows of the pose of the first variable of a robot when its odometry begins. *)
Definition opens (P : starts) (W : soracles O) (h : list op) : Prop := forall g o r (t : solver) q fs vs u y l1 b l2 x,
  h = g ++ o :: r -> run C W g start = Ok t q -> call_of o = Some (fs, vs) -> vinsert_all vs (s_vals t) = Ok u y ->
  filter (sp_odometry sp vs) (betweens fs) = l1 ++ b :: l2 ->
  (forall b', In b' (sp_odoms sp g ++ l1) -> chr (b_to b') <> chr (b_to b)) ->
  kfind (b_from b) u = Some (VPose x) -> P (chr (b_to b)) x.
Lemma opens_app P W h1 h2 : opens P W (h1 ++ h2) -> opens P W h1.
Proof. intros H g o r t q fs vs u y l1 b l2 x ->. rewrite <- app_assoc in H. exact (H g o (r ++ h2) t q fs vs u y l1 b l2 x eq_refl). Qed.

Lemma leads_nil c (l : list bf) : filter (leads c) l = [] -> forall b, In b l -> chr (b_to b) <> c.
Proof.
  intros H b Hb E. assert (X : In b (filter (leads c) l)) by (apply filter_In; split; [auto|apply N.eqb_eq; auto]).
  rewrite H in X. destruct X.
Qed.

Lemma call_seen (P : starts) W g o fs vs (t : solver) q (p p' : pcm) n v y : opens P W (g ++ [o]) -> run C W g start = Ok t q -> along_tracks sp (g ++ [o]) -> closures_supplied sp (g ++ [o]) ->
  call_of o = Some (fs, vs) -> seen P W g t p ->
  remove_outliers C (so_pcm W) fs vs (PSt p (s_nfg t) (s_vals t)) = Ok (PSt p' n v) y ->
  exists u p1, called P (g ++ [o]) fs vs p p' u p1.
Proof.
  intros OP HR HA HC Ho [I HL HM] H. apply ro_split in H. destruct H as (u & y' & p1 & acc & p3 & E1 & E2 & E3 & E4 & E5).
  pose proof (proc_factors_frame _ _ _ _ _ _ E2) as (F1 & _ & F3 & F4 & F5 & F6 & F7 & F8 & F9 & _). cbn [fst app] in F9.
  cbn [ps_pcm] in E4, E5. rewrite F9 in E3.
  assert (LK : forall c, linked (robot_track sp c g ++ filter (leads c) (filter (sp_odometry sp vs) (betweens fs)))).
  { intro c. rewrite <- (@robot_track_snoc c g o fs vs Ho). apply track_linked. auto. }
  assert (PP : forall l1 b l2 x, filter (sp_odometry sp vs) (betweens fs) = l1 ++ b :: l2 -> robot_track sp (chr (b_to b)) g = [] ->
    filter (leads (chr (b_to b))) l1 = [] -> kfind (b_from b) u = Some (VPose x) -> P (chr (b_to b)) x).
  { intros l1 b l2 x El X1 X2 X3. apply (OP g o [] t q fs vs u y' l1 b l2 x); auto.
    intros b' Hb. apply in_app_or in Hb. destruct Hb; [eapply (@leads_nil _ _ X1)|eapply (@leads_nil _ _ X2)]; eauto. }
  pose proof (@proc_laid P vs u fs (fun c => robot_track sp c g) p p1 _ _ E2 HL HM LK PP) as PL.
  assert (DV : forall b, In (Some (FBetween b)) fs -> delivered (g ++ [o]) (FBetween b)).
  { intros b Hb. exists o, fs, vs. split; auto. apply in_or_app. right. left. auto. }
  assert (SU : forall k, supplied (g ++ [o]) k -> kmem k u = true).
  { intros k Hk. rewrite (vinsert_all_mem _ _ k E1). apply supplied_snoc in Hk. apply orb_true_iff. destruct Hk as [Hk|(fs' & vs' & Hc & Hk)].
    - left. apply (hi_keys I). auto.
    - right. rewrite Ho in Hc. injection Hc as <- <-. apply kmem_In. auto. }
  exists u, p1. split.
  - intro c. rewrite (@robot_track_snoc c g o fs vs Ho). apply PL.
  - intro c. rewrite (@robot_track_snoc c g o fs vs Ho). apply PL.
  - unfold core. rewrite F3, F4, F5, F6, F7, F8. auto.
  - assert (HS : stored_ok C (tracked_ends (g ++ [o])) (fun b => delivered (g ++ [o]) (FBetween b)) p).
    { eapply stored_ok_imp; [| |exact (hi_stored I)].
      + intros b (k1 & o' & k2 & gs & ws & v1 & a1 & rs & -> & Hc & Hi & Hcand & _ & _ & U1 & U2 & _) Hl.
        destruct (@not_landmark O C _ Hl) as [L1 L2].
        assert (EG : (k1 ++ o' :: k2) ++ [o] = (k1 ++ [o']) ++ (k2 ++ [o])) by (rewrite <- !app_assoc; auto).
        rewrite EG. destruct (at_closure HA) with (h1 := k1) (h2 := k2 ++ [o]) (fs := gs) (vs := ws) (b := b) (o := o'); auto.
        * rewrite <- app_assoc. reflexivity.
        * split; apply on_track_odoms; auto.
      + intros b. apply delivered_snoc. }
    destruct HS as [S1 S2 S3 S4].
    assert (HF : Forall (fun b => is_landmark_factor C b = true /\ delivered (g ++ [o]) (FBetween b)) (filter (sp_first sp vs) (betweens fs))).
    { apply Forall_forall. intros x Hx. apply filter_In in Hx. destruct Hx as [Hx Hf].
      split; [eapply sp_first_landmark; eauto|]. apply DV. apply In_betweens. auto. }
    destruct (store_firsts_ok HF S2 S4). split; rewrite ?F3, ?F8; auto.
  - apply Forall_forall. intros x Hx. apply filter_In in Hx. destruct Hx as [Hx Hf]. apply In_betweens in Hx.
    destruct (HC g o [] fs vs x) as [U1 U2]; auto.
    split; [auto|]. split; [auto|]. split; [auto|]. intro Hl. destruct (@not_landmark O C _ Hl) as [L1 L2].
    apply (at_closure HA) with (h2 := []) (o := o) (fs := fs) (vs := vs); auto.
  - exists p3. auto.
Qed.

Lemma ends_known_both (P P' : starts) h h' X Y x : along_tracks sp h -> (forall c, laid P c (robot_track sp c h) X) -> (forall c, measured (robot_track sp c h)) ->
  along_tracks sp h' -> (forall c, laid P' c (robot_track sp c h') Y) -> (forall c, measured (robot_track sp c h')) ->
  tracked_ends h x -> tracked_ends h' x -> is_landmark_factor C x = false -> ends_both Y X x.
Proof.
  intros A1 A2 A3 B1 B2 B3 T1 T2 Hl. destruct (T1 Hl) as [T3 T4], (T2 Hl) as [T5 T6].
  split; split; first [apply (@laid_known P h X _ A1 A2 A3); assumption|apply (@laid_known P' h' Y _ B1 B2 B3); assumption].
Qed.

Lemma stored_ok_both (Q Q' D D' : bf -> Prop) (p q : pcm) : p_lcs p = p_lcs q -> p_lms p = p_lms q ->
  stored_ok C Q D p -> stored_ok C Q' D' q -> stored_ok C (fun x => Q x /\ Q' x) (fun x => D x /\ D' x) p.
Proof.
  intros E1 E2 [S1 S2 S3 S4] [T1 T2 T3 T4]. split; auto.
  - rewrite <- E1 in T1. rewrite Forall_forall in *. intros kv Hk. destruct (S1 kv Hk) as [A1 A2], (T1 kv Hk) as [B1 _]. split; auto.
    rewrite Forall_forall in *. intros b Hb. destruct (A1 b Hb) as (X1 & X2 & X3), (B1 b Hb) as (_ & _ & X4). auto.
  - rewrite <- E2 in T2. rewrite Forall_forall in *. intros kv Hk. destruct (S2 kv Hk) as [A1 A2], (T2 kv Hk) as [B1 _]. split; auto.
    rewrite Forall_forall in *. intros b Hb. destruct (A1 b Hb) as (X1 & X2 & X3), (B1 b Hb) as (_ & _ & X4). auto.
Qed.

(** Two calls delivering the same first sightings and candidates to the same store. *)
Lemma two_calls (P P' : starts) h h' fs fs' nv nv' (p p' q q' : pcm) u u' p1 q1 :
  along_tracks sp h -> along_tracks sp h' -> compat (p_trajs p1) (p_trajs q1) ->
  called P h fs nv p p' u p1 -> called P' h' fs' nv' q q' u' q1 ->
  filter (sp_first sp nv) (betweens fs) = filter (sp_first sp nv') (betweens fs') ->
  filter (sp_candidate sp nv) (betweens fs) = filter (sp_candidate sp nv') (betweens fs') ->
  core p = core q -> core p' = core q' /\ p_trajs p' = p_trajs p1.
Proof.
  intros A1 A2 CP [L1 M1 C1 S1 N1 (p3 & T1 & T2 & T3)] [L2 M2 C2 S2 N2 (q3 & V1 & V2 & V3)] EF EC E.
  assert (E1 : core p1 = core q1).
  { rewrite C1, C2, <- EF. unfold core in E. injection E as -> -> -> -> -> ->. auto. }
  assert (S : stored_ok C (fun x => tracked_ends h x /\ tracked_ends h' x) (fun b => delivered h (FBetween b) /\ delivered h' (FBetween b)) p1).
  { unfold core in E1. injection E1 as X1 X2 _ _ _ _. eapply stored_ok_both; eauto. }
  apply core_onto in E1. rewrite E1 in V1. rewrite <- EC in V1, N2.
  assert (EB : forall x, tracked_ends h x /\ tracked_ends h' x -> is_landmark_factor C x = false -> ends_both (p_trajs q1) (p_trajs p1) x).
  { intros x [X1 X2]. exact (@ends_known_both P P' h h' (p_trajs p1) (p_trajs q1) x A1 L1 M1 A2 L2 M2 X1 X2). }
  destruct (@settle_onto (p_trajs q1) (p_odom q1) (p_special q1) (p_robots q1)
              (fun b => delivered h (FBetween b) /\ delivered h' (FBetween b)) u u' (filter (sp_candidate sp nv) (betweens fs)) p1) as [G1 G2]; auto.
  - intros x y [X1 _] [X2 _]. apply (at_one_robot A1); auto.
  - intros x [X1 X2] Y1 Y2. split; [apply (@landmark_known P h (p_trajs p1) A1 L1 M1)|apply (@landmark_known P' h' (p_trajs q1) A2 L2 M2)]; auto.
  - eapply stored_ok_imp; [| |exact S]; auto.
  - rewrite Forall_forall in *. intros x Hx. destruct (N1 x Hx) as (X1 & X2 & X3 & X4), (N2 x Hx) as (Y1 & Y2 & Y3 & Y4).
    split; auto. repeat (split; [assumption|]). apply EB. auto.
  - rewrite T1 in G1. cbn [rmap] in G1. rewrite G1 in V1. injection V1 as <-. split.
    + rewrite T2, V2. reflexivity.
    + rewrite T3. auto.
Qed.

Lemma called_compat (P P' : starts) h h' fs fs' nv nv' (p p' q q' : pcm) u u' p1 q1 : starts_agree P P' ->
  along_tracks sp h -> along_tracks sp h' -> fresh_tracks sp h -> fresh_tracks sp h' ->
  (forall c, comparable (robot_track sp c h) (robot_track sp c h')) ->
  called P h fs nv p p' u p1 -> called P' h' fs' nv' q q' u' q1 -> compat (p_trajs p1) (p_trajs q1).
Proof.
  intros SA A1 A2 Z1 Z2 HC [L1 M1 C1 S1 N1 _] [L2 M2 C2 S2 N2 _].
  apply (@laid_compat P P' (p_trajs p1) (p_trajs q1) (fun c => robot_track sp c h) (fun c => robot_track sp c h')); auto.
  - intro c. split; [apply track_linked; auto|]. split; auto. intros l1 b l2 El. exact (Z1 c l1 b l2 El).
  - intro c. split; [apply track_linked; auto|]. split; auto. intros l1 b l2 El. exact (Z2 c l1 b l2 El).
Qed.

Notation straight := (@straight O sp).
Lemma robot_track_app c (h1 h2 : list op) : exists l, robot_track sp c (h1 ++ h2) = robot_track sp c h1 ++ l.
Proof. unfold robot_track. rewrite sp_odoms_app, filter_app. eauto. Qed.
Lemma straight_app h1 h2 : straight (h1 ++ h2) -> straight h1.
Proof.
  intros (A & B & D). split; [eapply along_app; eauto|]. split.
  - intros c l1 b l2 El b' Hb. destruct (robot_track_app c h1 h2) as [l E]. apply (B c l1 b (l2 ++ l)); auto.
    rewrite E, El, <- app_assoc. auto.
  - intros g1 o g2 fs vs b ->. rewrite <- app_assoc in D. exact (D g1 o (g2 ++ h2) fs vs b eq_refl).
Qed.

Lemma seen_start (P : starts) W : seen P W [] start pcm_init.
Proof.
  assert (H : run C W [] start = Ok start []) by reflexivity.
  destruct (hist_run C W _ H) as [p I]. pose proof (hi_pcm I) as X. injection X as <-.
  split; [exact I| |]; intro c; [reflexivity|constructor].
Qed.

Lemma seen_step (P : starts) W g o (t s : solver) rs r p : opens P W (g ++ [o]) -> straight (g ++ [o]) -> run C W g start = Ok t rs -> seen P W g t p ->
  step C W o t = Ok s r -> exists p', seen P W (g ++ [o]) s p' /\
    (forall fs vs, call_of o = Some (fs, vs) -> exists u p1, called P (g ++ [o]) fs vs p p' u p1).
Proof.
  intros OP (A1 & A2 & A3) H SE Hs. destruct (@step_calls O C W o t s r p (hi_pcm (se_hist SE)) Hs) as (p' & P1 & P2 & P3).
  destruct (hist_run C W _ (run_one C W _ _ H Hs)) as [q I]. pose proof (hi_pcm I) as X. rewrite P1 in X. injection X as <-.
  exists p'. destruct (call_of o) as [[fs vs]|] eqn:EC.
  - destruct (P3 fs vs eq_refl) as (n' & v' & b & RO). destruct (@call_seen P W g o fs vs t rs p p' n' v' b OP H A1 A3 EC SE RO) as (u & p1 & CA).
    split; [|intros fs' vs' X; injection X as <- <-; eauto].
    destruct (@two_calls P P (g ++ [o]) (g ++ [o]) fs fs vs vs p p' p p' u u p1 p1) as [_ ET]; auto.
    { apply compat_refl. }
    split; [exact I| |apply (ca_measured CA)]. rewrite ET. apply (ca_laid CA).
  - split; [|discriminate]. destruct (P2 eq_refl) as [ET _]. split; [exact I| |].
    + intro c. rewrite ET. assert (E : robot_track sp c (g ++ [o]) = robot_track sp c g).
      { unfold robot_track. rewrite sp_odoms_snoc, EC, app_nil_r. auto. }
      rewrite E. apply (se_laid SE).
    + intro c. assert (E : robot_track sp c (g ++ [o]) = robot_track sp c g).
      { unfold robot_track. rewrite sp_odoms_snoc, EC, app_nil_r. auto. }
      rewrite E. apply (se_measured SE).
Qed.

Lemma run_seen (P : starts) W h : forall (s : solver) rs, opens P W h -> straight h -> run C W h start = Ok s rs -> exists p, seen P W h s p.
Proof.
  induction h as [|o g IH] using rev_ind; intros s rs OP HS H.
  { injection H as <- _. exists pcm_init. apply seen_start. }
  apply run_snoc in H. destruct H as (t & q & r & H & Hs & _).
  destruct (IH t q (@opens_app _ _ _ _ OP) (straight_app _ _ HS) H) as [p SE]. destruct (@seen_step P W g o t s q r p OP HS H SE Hs) as (p' & X & _). eauto.
Qed.

Lemma comparable_app {A} (l1 a l2 b : list A) : comparable (l1 ++ a) (l2 ++ b) -> comparable l1 l2.
Proof.
  assert (G : forall (x y z : list A) w, x ++ z = y ++ w -> comparable x y).
  { induction x as [|e x IH]; intros y z w E; [exists y; auto|].
    destruct y as [|f y]; [exists (e :: x); auto|]. cbn in E. injection E as -> E.
    destruct (IH _ _ _ E) as [l [-> | ->]]; exists l; auto. }
  intros [l [E|E]]; [apply (G l1 l2 (a ++ l) b)|apply (G l1 l2 a (b ++ l))]; rewrite E, app_assoc; auto.
Qed.
Lemma same_tracks_app (g1 k1 g2 k2 : list op) : same_tracks sp (g1 ++ k1) (g2 ++ k2) -> same_tracks sp g1 g2.
Proof.
  intros H c. specialize (H c). destruct (robot_track_app c g1 k1) as [l1 E1], (robot_track_app c g2 k2) as [l2 E2].
  rewrite E1, E2 in H. eapply comparable_app; eauto.
Qed.

Lemma step_core W o (t s : solver) r (p p' : pcm) : s_pcm t = Some p -> s_pcm s = Some p' -> step C W o t = Ok s r -> events sp o = [] ->
  call_of o = None -> core p' = core p /\ r = None.
Proof.
  intros P1 P2 Hs HE HC. pose proof (step_rets _ _ _ _ Hs) as R.
  pose proof (step_inv C W o t P1 Hs) as (s1 & q & b & [E0 E] & _ & _ & _ & Ho).
  assert (X : q = p').
  { destruct (optimises o b); [|congruence]. destruct (optimize_same C W s1 Ho) as (G & _). congruence. }
  subst q. destruct o; cbn [events call_of is_removal] in *; try discriminate; destruct E as (-> & _); auto.
Qed.

Lemma remove_id_core w id (p p' q q' : pcm) e e' : core p = core q -> pcm_remove_last_id w id p = Val (p', e) ->
  pcm_remove_last_id w id q = Val (q', e') -> core p' = core q' /\ e = e'.
Proof.
  intro E. apply core_onto in E. rewrite E. clear E. unfold pcm_remove_last_id. cbn [p_lcs onto].
  destruct (lc_find id (p_lcs p)) as [m|].
  2:{ intros H1 H2. injection H1 as <- <-. injection H2 as <- <-. auto. }
  destruct (m_rows (me_adj m) <=? 0). { intros H1 H2. injection H1 as <- <-. injection H2 as <- <-. auto. }
  destruct (rev (me_factors m)) as [|last rest]; [discriminate|]. cbn beta zeta.
  match goal with |- context [rbind ?x _] => destruct x as [m'|] end; cbn [rbind]; [|discriminate].
  intros H1 H2. injection H1 as <- <-. injection H2 as <- <-. auto.
Qed.
Lemma remove_core w (p p' q q' : pcm) e e' : core p = core q -> pcm_remove_last w p = Val (p', e) ->
  pcm_remove_last w q = Val (q', e') -> core p' = core q' /\ e = e'.
Proof.
  intro E. pose proof E as E0. unfold core in E0. injection E0 as X1 X2 X3 X4 X5 X6. unfold pcm_remove_last. rewrite X3.
  destruct (rev (p_order q)).
  - intros H1 H2. injection H1 as <- <-. injection H2 as <- <-. auto.
  - apply remove_id_core. unfold core. cbn. congruence.
Qed.

Lemma event_core W1 W2 o1 o2 (t1 t2 s1 s2 : solver) r1 r2 (p1 p2 q1 q2 : pcm) : so_pcm W1 = so_pcm W2 ->
  s_pcm t1 = Some p1 -> s_pcm t2 = Some p2 -> s_pcm s1 = Some q1 -> s_pcm s2 = Some q2 ->
  step C W1 o1 t1 = Ok s1 r1 -> step C W2 o2 t2 = Ok s2 r2 -> events sp o1 = events sp o2 -> events sp o1 <> [] ->
  call_of o1 = None -> core p1 = core p2 -> core q1 = core q2 /\ r1 = r2.
Proof.
  intros EW P1 P2 Q1 Q2 H1 H2 HE HN HC K. pose proof (step_rets _ _ _ _ H1) as R1. pose proof (step_rets _ _ _ _ H2) as R2.
  pose proof (step_inv C W1 o1 t1 P1 H1) as (u1 & x1 & b1 & [E0 E] & _ & _ & _ & Ho).
  pose proof (step_inv C W2 o2 t2 P2 H2) as (u2 & x2 & b2 & [F0 F] & _ & _ & _ & Fo).
  assert (X1 : x1 = q1).
  { destruct (optimises o1 b1); [|congruence]. destruct (optimize_same C W1 u1 Ho) as (Z & _). congruence. }
  assert (X2 : x2 = q2).
  { destruct (optimises o2 b2); [|congruence]. destruct (optimize_same C W2 u2 Fo) as (Z & _). congruence. }
  subst x1 x2. clear - EW HE HN HC K E F R1 R2.
  destruct o1 as [fs vs opt|fs vs|c opt|a0 b0| |c|c|fs vs|fs vs|]; cbn [events call_of] in HE, HN, HC; try discriminate HC; try congruence;
  destruct o2 as [fs' vs' opt'|fs' vs'|c' opt'|a0' b0'| |c'|c'|fs' vs'|fs' vs'|]; cbn [events] in HE; try discriminate HE;
    try (destruct (filter (sp_first sp vs') (betweens fs')), (filter (sp_candidate sp vs') (betweens fs')); discriminate HE).
  - injection HE as <- <-. destruct E as (e & -> & E & _), F as (e' & -> & F & _). rewrite EW in E.
    destruct (@remove_id_core _ _ _ _ _ _ _ _ K E F) as [Z ->]. auto.
  - destruct E as (e & -> & E & _), F as (e' & -> & F & _). rewrite EW in E.
    destruct (@remove_core _ _ _ _ _ _ _ K E F) as [Z ->]. auto.
  - injection HE as <-. destruct E as (-> & _), F as (-> & _). split; [|rewrite R1, R2; auto].
    unfold core in K. injection K as K1 K2 K3 K4 K5 K6. unfold pcm_ignore. rewrite K6.
    destruct (existsb (N.eqb c) (p_ignored p2)); unfold core; cbn; congruence.
  - injection HE as <-. destruct E as (-> & _), F as (-> & _). split; [|rewrite R1, R2; auto].
    unfold core in K. injection K as K1 K2 K3 K4 K5 K6. unfold pcm_revive, core. cbn. congruence.
Qed.

Lemma call_events (o : op) fs vs : call_of o = Some (fs, vs) -> (events sp o = [] /\ filter (sp_first sp vs) (betweens fs) = [] /\
  filter (sp_candidate sp vs) (betweens fs) = []) \/ events sp o = [EvDeliver (filter (sp_first sp vs) (betweens fs)) (filter (sp_candidate sp vs) (betweens fs))].
Proof.
  destruct o; cbn [call_of]; try discriminate; intro H; injection H as <- <-; cbn [events];
  destruct (filter _ _) as [|? ?]; [destruct (filter _ _) as [|? ?]| |destruct (filter _ _) as [|? ?]|]; auto.
Qed.

Lemma event_of_call (o o' : op) fs vs f c : call_of o = Some (fs, vs) -> events sp o = [EvDeliver f c] -> events sp o' = events sp o ->
  exists fs' vs', call_of o' = Some (fs', vs') /\ filter (sp_first sp vs') (betweens fs') = f /\ filter (sp_candidate sp vs') (betweens fs') = c.
Proof.
  intros _ E1 E2. rewrite E1 in E2.
  destruct (call_of o') as [[fs' vs']|] eqn:EC; [|destruct o'; cbn in EC, E2; discriminate].
  exists fs', vs'. split; auto. destruct (call_events o' EC) as [[X _]|X]; rewrite X in E2; [discriminate|]. injection E2 as -> ->. auto.
Qed.

Lemma idle (P : starts) W g o (t s : solver) q r p p' : opens P W (g ++ [o]) -> straight (g ++ [o]) -> run C W g start = Ok t q -> s_pcm t = Some p -> s_pcm s = Some p' ->
  step C W o t = Ok s r -> events sp o = [] -> core p' = core p /\ r = None.
Proof.
  intros OP HS H P1 P2 Hs HE. destruct (call_of o) as [[fs vs]|] eqn:EC; [|eapply step_core; eauto].
  destruct (@run_seen P W _ _ _ (@opens_app _ _ _ _ OP) (@straight_app _ _ HS) H) as [p0 SE].
  assert (p0 = p) by (pose proof (hi_pcm (se_hist SE)); congruence). subst p0.
  destruct (@seen_step P W g o t s q r p OP HS H SE Hs) as (p1 & SE' & CA).
  assert (p1 = p') by (pose proof (hi_pcm (se_hist SE')); congruence). subst p1.
  destruct (CA fs vs EC) as (u & p1 & [_ _ C1 _ _ (p3 & T1 & T2 & _)]).
  destruct (call_events o EC) as [(_ & X1 & X2)|X]; [|rewrite X in HE; discriminate].
  rewrite X1 in C1. rewrite X2 in T1. cbn [settle] in T1. injection T1 as <-.
  split.
  - rewrite T2, C1. unfold core, store_firsts. cbn [fold_left length]. rewrite Nat.add_0_r. auto.
  - apply (step_rets _ _ _ _ Hs). destruct o; auto; discriminate.
Qed.

Lemma together (Q1 Q2 : starts) W1 W2 n : so_pcm W1 = so_pcm W2 -> starts_agree Q1 Q2 -> forall h1 h2 (s1 s2 : solver) rs1 rs2,
  length h1 + length h2 <= n -> same_events sp h1 h2 -> same_tracks sp h1 h2 -> opens Q1 W1 h1 -> opens Q2 W2 h2 -> straight h1 -> straight h2 ->
  run C W1 h1 start = Ok s1 rs1 -> run C W2 h2 start = Ok s2 rs2 ->
  (exists p1 p2, s_pcm s1 = Some p1 /\ s_pcm s2 = Some p2 /\ core p1 = core p2) /\ reported rs1 = reported rs2.
Proof.
  intros EW SA. induction n as [|n IH]; intros h1 h2 s1 s2 rs1 rs2 Hn HS HT OP1 OP2 G1 G2 H1 H2.
  { destruct h1, h2; cbn in Hn; try lia. injection H1 as <- <-. injection H2 as <- <-. cbn. eauto 6. }
  assert (DROP2 : forall g2 x2, h2 = g2 ++ [x2] -> events sp x2 = [] ->
    (exists p1 p2, s_pcm s1 = Some p1 /\ s_pcm s2 = Some p2 /\ core p1 = core p2) /\ reported rs1 = reported rs2).
  { intros g2 x2 -> B2. pose proof (hist_run C W2 _ H2) as [p' I'].
    apply run_snoc in H2. destruct H2 as (t2 & q2 & r2 & H2 & H2' & ->).
    destruct (hist_run C W2 _ H2) as [p I]. destruct (@idle Q2 W2 _ _ _ _ _ _ _ _ OP2 G2 H2 (hi_pcm I) (hi_pcm I') H2' B2) as [X ->].
    rewrite reported_app. cbn [reported flat_map]. rewrite app_nil_r. rewrite app_length in Hn. cbn [length] in Hn.
    destruct (IH h1 g2 s1 t2 rs1 q2) as ((p1 & p2 & P1 & P2 & K) & A2); auto.
    { lia. }
    { unfold same_events in *. rewrite HS, flat_map_app. cbn [flat_map]. rewrite B2, !app_nil_r. auto. }
    { rewrite <- (app_nil_r h1) in HT. eapply same_tracks_app; eauto. }
    { eapply opens_app; eauto. } { eapply straight_app; eauto. }
    split; auto. exists p1, p'. split; auto. split; [apply (hi_pcm I')|]. pose proof (hi_pcm I). congruence. }
  destruct h1 as [|x1 g1] using rev_ind; [|clear IHg1].
  - destruct h2 as [|x2 g2] using rev_ind; [|clear IHg2].
    + injection H1 as <- <-. injection H2 as <- <-. cbn. eauto 6.
    + apply (DROP2 g2 x2 eq_refl). unfold same_events in HS. rewrite flat_map_app in HS. cbn [flat_map] in HS. rewrite app_nil_r in HS.
      symmetry in HS. apply app_eq_nil in HS. tauto.
  - destruct (events sp x1) as [|c1 y1] eqn:B1.
    + clear DROP2. pose proof (hist_run C W1 _ H1) as [p' I'].
      apply run_snoc in H1. destruct H1 as (t1 & q1 & r1 & H1 & H1' & ->).
      destruct (hist_run C W1 _ H1) as [p I]. destruct (@idle Q1 W1 _ _ _ _ _ _ _ _ OP1 G1 H1 (hi_pcm I) (hi_pcm I') H1' B1) as [X ->].
      rewrite reported_app. cbn [reported flat_map]. rewrite app_nil_r. rewrite app_length in Hn. cbn [length] in Hn.
      destruct (IH g1 h2 t1 s2 q1 rs2) as ((p1 & p2 & P1 & P2 & K) & A2); auto.
      { lia. }
      { unfold same_events in *. rewrite <- HS, flat_map_app. cbn [flat_map]. rewrite B1, !app_nil_r. auto. }
      { rewrite <- (app_nil_r h2) in HT. eapply same_tracks_app; eauto. }
      { eapply opens_app; eauto. } { eapply straight_app; eauto. }
      split; auto. exists p', p2. split; [apply (hi_pcm I')|]. split; auto. pose proof (hi_pcm I). congruence.
    + destruct h2 as [|x2 g2] using rev_ind; [|clear IHg2].
      { unfold same_events in HS. rewrite flat_map_app in HS. cbn [flat_map] in HS. rewrite B1 in HS. cbn [app] in HS.
        symmetry in HS. apply app_cons_not_nil in HS. destruct HS. }
      destruct (events sp x2) as [|c2 y2] eqn:B2; [apply (DROP2 g2 x2 eq_refl B2)|]. clear DROP2.
      assert (ONE : forall (x : op) c y, events sp x = c :: y -> y = []).
      { intros x c y Hx. destruct x; cbn [events] in Hx;
        repeat match type of Hx with match ?z with _ => _ end = _ => destruct z end; congruence. }
      assert (Y1 : y1 = []) by (eapply ONE; eauto). assert (Y2 : y2 = []) by (eapply ONE; eauto). subst y1 y2.
      rewrite !app_length in Hn. cbn [length] in Hn.
      unfold same_events in HS. rewrite !flat_map_app in HS. cbn [flat_map] in HS. rewrite B1, B2, !app_nil_r in HS.
      apply app_inj_tail in HS. destruct HS as [HS EC]. rewrite <- EC in B2.
      pose proof (run_snoc C W1 _ _ _ H1) as (t1 & q1 & r1 & R1 & S1 & E1).
      pose proof (run_snoc C W2 _ _ _ H2) as (t2 & q2 & r2 & R2 & S2 & E2). subst rs1 rs2.
      destruct (IH g1 g2 t1 t2 q1 q2) as ((p1 & p2 & P1 & P2 & RR) & A2); auto.
      { lia. } { eapply same_tracks_app; eauto. } { eapply opens_app; eauto. } { eapply opens_app; eauto. }
      { eapply straight_app; eauto. } { eapply straight_app; eauto. }
      destruct (@run_seen Q1 W1 _ _ _ (@opens_app _ _ _ _ OP1) (@straight_app _ _ G1) R1) as [p SE1].
      assert (p = p1) by (pose proof (hi_pcm (se_hist SE1)); congruence). subst p.
      destruct (@run_seen Q2 W2 _ _ _ (@opens_app _ _ _ _ OP2) (@straight_app _ _ G2) R2) as [p SE2].
      assert (p = p2) by (pose proof (hi_pcm (se_hist SE2)); congruence). subst p.
      destruct (@seen_step Q1 W1 g1 x1 t1 s1 q1 r1 p1 OP1 G1 R1 SE1 S1) as (p1' & SE1' & CA1).
      destruct (@seen_step Q2 W2 g2 x2 t2 s2 q2 r2 p2 OP2 G2 R2 SE2 S2) as (p2' & SE2' & CA2).
      pose proof (hi_pcm (se_hist SE1')) as P1'. pose proof (hi_pcm (se_hist SE2')) as P2'.
      assert (Z : core p1' = core p2' /\ r1 = r2).
      { destruct (call_of x1) as [[fs vs]|] eqn:EC1.
        - destruct (call_events x1 EC1) as [[X _]|X]; [congruence|].
          destruct (@event_of_call x1 x2 fs vs _ _ EC1 X) as (fs' & vs' & EC2 & F1 & F2); [congruence|].
          destruct (CA1 fs vs eq_refl) as (u1 & a1 & K1), (CA2 fs' vs' EC2) as (u2 & a2 & K2).
          destruct G1 as (D1 & D2 & D3), G2 as (D4 & D5 & D6).
          pose proof (called_compat SA D1 D4 D2 D5 HT K1 K2) as CP.
          destruct (two_calls D1 D4 CP K1 K2) as [Z _]; auto.
          split; auto. rewrite (step_rets _ _ _ _ S1), (step_rets _ _ _ _ S2); auto.
          + destruct x2; auto; discriminate.
          + destruct x1; auto; discriminate.
        - apply (@event_core W1 W2 x1 x2 t1 t2 s1 s2 r1 r2 p1 p2 p1' p2'); auto; congruence. }
      destruct Z as [Z1 Z2]. split; [exists p1', p2'; auto|]. rewrite !reported_app, A2, Z2. auto.
Qed.

Lemma accepted_skip W h (s : solver) p : hist_inv C W h s p ->
  accepted_part sp h (s_nfg s) = skipn (length (p_odom p) + length (p_special p)) (graph_of (so_pcm W) p).
Proof. intro I. unfold accepted_part. rewrite (hi_nfg I), (hi_odom I), (hi_special I). auto. Qed.

Theorem stream_decide (Q1 Q2 : starts) (W1 W2 : soracles O) h1 h2 (s1 s2 : solver) rs1 rs2 : so_pcm W1 = so_pcm W2 ->
  starts_agree Q1 Q2 -> opens Q1 W1 h1 -> opens Q2 W2 h2 ->
  same_events sp h1 h2 -> same_tracks sp h1 h2 -> straight h1 -> straight h2 ->
  run C W1 h1 start = Ok s1 rs1 -> run C W2 h2 start = Ok s2 rs2 ->
  accepted_part sp h1 (s_nfg s1) = accepted_part sp h2 (s_nfg s2) /\ reported rs1 = reported rs2 /\
  get_num_lc s1 = get_num_lc s2 /\ get_ignored s1 = get_ignored s2 /\
  (c_gnc C = false -> get_num_inliers C s1 = get_num_inliers C s2).
Proof.
  intros EW SA OP1 OP2 HE HT G1 G2 H1 H2.
  destruct (@together Q1 Q2 W1 W2 (length h1 + length h2) EW SA h1 h2 s1 s2 rs1 rs2) as ((p1 & p2 & P1 & P2 & K) & R); auto.
  destruct (hist_run C W1 _ H1) as [q1 I1]. destruct (hist_run C W2 _ H2) as [q2 I2].
  assert (q1 = p1) by (pose proof (hi_pcm I1); congruence). assert (q2 = p2) by (pose proof (hi_pcm I2); congruence). subst q1 q2.
  unfold core in K. injection K as K1 K2 K3 K4 K5 K6.
  split; [|split; [auto|]].
  - rewrite (accepted_skip I1), (accepted_skip I2), EW.
    assert (G : forall w (p : pcm), skipn (length (p_odom p) + length (p_special p)) (graph_of w p) =
      map Some (map FBetween (build_lcs w p) ++ map FBetween (build_lms w p))).
    { intros w p. unfold graph_of, build. rewrite app_assoc, map_app, skipn_app, skipn_all2, app_nil_l.
      - rewrite map_length, app_length, map_length, Nat.sub_diag. reflexivity.
      - rewrite map_length, app_length, map_length. auto. }
    rewrite !G. unfold build_lcs, build_lms, ignored. rewrite K1, K2, K6. auto.
  - unfold get_num_lc, get_ignored, get_num_inliers. rewrite P1, P2, K4, K5, K6. split; auto. split; auto. intros ->. auto.
Qed.
End Stream.

(** ** Any poses, if the odometry of every robot starts at the same pose *)
Lemma supplied_opens O C (W : soracles O) h : starts_supplied (c_special C) h -> opens C (first_value (c_special C) h) W h.
Proof.
  intros HS g o r t q fs vs u y l1 b l2 x E _ Hc HV El Hn Hk. pose proof (HS g o r fs vs l1 b l2 E Hc El Hn) as Hin.
  exists g, o, r, fs, vs, l1, b, l2. repeat (split; [assumption|]). split; [auto|]. split; [auto|].
  apply vinsert_all_ok in HV. destruct HV as (V1 & V2 & _). specialize (V2 _ Hin). rewrite V1 in Hk.
  unfold kmem in V2. destruct (kfind (b_from b) (s_vals t)); [discriminate|auto].
Qed.

Theorem stream_decide_any O C (W1 W2 : soracles O) h1 h2 s1 s2 rs1 rs2 : so_pcm W1 = so_pcm W2 ->
  same_events (c_special C) h1 h2 -> same_tracks (c_special C) h1 h2 -> same_starts (c_special C) h1 h2 ->
  straight (c_special C) h1 -> straight (c_special C) h2 ->
  starts_supplied (c_special C) h1 -> starts_supplied (c_special C) h2 ->
  run C W1 h1 (solver_init true) = Ok s1 rs1 -> run C W2 h2 (solver_init true) = Ok s2 rs2 ->
  accepted_part (c_special C) h1 (s_nfg s1) = accepted_part (c_special C) h2 (s_nfg s2) /\ reported rs1 = reported rs2 /\
  get_num_lc s1 = get_num_lc s2 /\ get_ignored s1 = get_ignored s2 /\
  (c_gnc C = false -> get_num_inliers C s1 = get_num_inliers C s2).
Proof.
  intros EW HE HT HX G1 G2 HS1 HS2.
  apply (@stream_decide O C unit (fun _ => eq)) with (Q1 := first_value (c_special C) h1) (Q2 := first_value (c_special C) h2); auto.
  - exists tt. auto.
  - intros _ a a' d <-. auto.
  - intros _ a a' b b' <- <-. auto.
  - intros c x x' A B. exists tt. rewrite (HX c x x' A B). auto.
  - apply supplied_opens. auto.
  - apply supplied_opens. auto.
Qed.

(** ** The two kinds of poses *)
Section Instances.
Variable G : geom.
Hypothesis L : pose_group G.

Theorem stream_decide_node pp C (W1 W2 : soracles (node_ops G pp)) h1 h2 s1 s2 rs1 rs2 : so_pcm W1 = so_pcm W2 ->
  same_events (c_special C) h1 h2 -> same_tracks (c_special C) h1 h2 -> straight (c_special C) h1 -> straight (c_special C) h2 ->
  run C W1 h1 (solver_init true) = Ok s1 rs1 -> run C W2 h2 (solver_init true) = Ok s2 rs2 ->
  accepted_part (c_special C) h1 (s_nfg s1) = accepted_part (c_special C) h2 (s_nfg s2) /\ reported rs1 = reported rs2 /\
  get_num_lc s1 = get_num_lc s2 /\ get_ignored s1 = get_ignored s2 /\
  (c_gnc C = false -> get_num_inliers C s1 = get_num_inliers C s2).
Proof.
  intros EW HE HT G1 G2.
  apply (@stream_decide (node_ops G pp) C (g_pose G) (@node_moved G)) with (Q1 := fun _ _ => True) (Q2 := fun _ _ => True);
    [| | |auto|intros c x x' _ _|red; auto|red; auto|auto..].
  4: destruct (moved_start L x x') as [m Hm]; exists m; split; auto.
  - exists (g_id G). intro t. unfold node_moved. rewrite (pg_id_l L). auto.
  - intros m a a' d (H1 & H2 & H3). cbn [t_comp node_ops]. unfold node_moved, pn_comp. cbn [pn_pose pn_node pn_rot].
    rewrite H1, H2, H3, (pg_assoc L). auto.
  - intros m a a' b b' (H1 & H2 & H3) (K1 & K2 & K3). cbn [t_between node_ops]. unfold pn_between.
    rewrite H1, H2, H3, K1, K2, K3, (moved_between L). auto.
Qed.

Theorem stream_decide_cov pp C (W1 W2 : soracles (cov_ops G pp)) h1 h2 s1 s2 rs1 rs2 : so_pcm W1 = so_pcm W2 ->
  same_events (c_special C) h1 h2 -> same_tracks (c_special C) h1 h2 -> straight (c_special C) h1 -> straight (c_special C) h2 ->
  run C W1 h1 (solver_init true) = Ok s1 rs1 -> run C W2 h2 (solver_init true) = Ok s2 rs2 ->
  accepted_part (c_special C) h1 (s_nfg s1) = accepted_part (c_special C) h2 (s_nfg s2) /\ reported rs1 = reported rs2 /\
  get_num_lc s1 = get_num_lc s2 /\ get_ignored s1 = get_ignored s2 /\
  (c_gnc C = false -> get_num_inliers C s1 = get_num_inliers C s2).
Proof.
  intros EW HE HT G1 G2.
  apply (@stream_decide (cov_ops G pp) C (g_pose G) (@cov_moved G)) with (Q1 := fun _ _ => True) (Q2 := fun _ _ => True);
    [| | |auto|intros c x x' _ _|red; auto|red; auto|auto..].
  4: destruct (moved_start L x x') as [m Hm]; exists m; split; auto.
  - exists (g_id G). intro t. unfold cov_moved. rewrite (pg_id_l L). auto.
  - intros m a a' d (H1 & H2 & H3). cbn [t_comp cov_ops]. unfold cov_moved, pc_comp. cbn [pc_pose pc_cov pc_rot].
    rewrite H1, H2, H3, (pg_assoc L). auto.
  - intros m a a' b b' (H1 & H2 & H3) (K1 & K2 & K3). cbn [t_between cov_ops]. unfold pc_between.
    rewrite H1, H2, H3, K1, K2, K3, !(moved_between L). auto.
Qed.
End Instances.

(** ** A check for the hypotheses *)
Section Check.
Variable O : tops.
Variable sp : list N.
Notation bf := (bf O).
Notation op := (op O).

Fixpoint fresh_b (seen od : list bf) : bool :=
  match od with
  | [] => true
  | b :: r => forallb (fun b' => negb (chr (b_to b') =? chr (b_to b))%N || negb ((b_to b =? b_from b') || (b_to b =? b_to b'))%N) seen
              && fresh_b (seen ++ [b]) r
  end.
Lemma fresh_split od : forall seen, fresh_b seen od = true -> forall l1 b l2, od = l1 ++ b :: l2 ->
  forall b', In b' (seen ++ l1) -> chr (b_to b') = chr (b_to b) -> b_to b <> b_from b' /\ b_to b <> b_to b'.
Proof.
  induction od as [|a od IH]; intros seen H l1 b l2 E b' Hb Hc; [destruct l1; discriminate|].
  cbn [fresh_b] in H. apply andb_true_iff in H. destruct H as [H1 H2].
  destruct l1 as [|a1 l1]; cbn [app] in E; injection E as -> E.
  - rewrite app_nil_r in Hb. rewrite forallb_forall in H1. specialize (H1 b' Hb). rewrite Hc, N.eqb_refl in H1. cbn [negb orb] in H1.
    apply negb_true_iff, orb_false_iff in H1. rewrite !N.eqb_neq in H1. auto.
  - apply (IH _ H2 l1 b l2 E b'); auto. rewrite <- app_assoc. exact Hb.
Qed.
Lemma fresh_check (h : list op) : fresh_b [] (sp_odoms sp h) = true -> fresh_tracks sp h.
Proof.
  intros H c l1 b l2 El b' Hb. apply filter_split in El. destruct El as (m1 & m2 & E & E1 & E2).
  apply (@fresh_split _ _ H m1 b m2 E); rewrite <- E1 in Hb; apply filter_In in Hb; destruct Hb as [Hb Hc]; auto.
  apply N.eqb_eq in Hc, E2. congruence.
Qed.

Fixpoint supply_b (ks : list key) (h : list op) : bool :=
  match h with
  | [] => true
  | o :: r =>
      match call_of o with
      | None => supply_b ks r
      | Some (fs, vs) =>
          let ks' := ks ++ map fst vs in
          forallb (fun b => negb (sp_candidate sp vs b) || existsb (N.eqb (b_from b)) ks' && existsb (N.eqb (b_to b)) ks') (betweens fs)
          && supply_b ks' r
      end
  end.
Lemma supply_split h : forall ks g, (forall k, In k ks -> supplied g k) -> supply_b ks h = true ->
  forall h1 o h2 fs vs b, h = h1 ++ o :: h2 -> call_of o = Some (fs, vs) -> In (Some (FBetween b)) fs -> sp_candidate sp vs b = true ->
  supplied (g ++ h1 ++ [o]) (b_from b) /\ supplied (g ++ h1 ++ [o]) (b_to b).
Proof.
  induction h as [|a h IH]; intros ks g HK H h1 o h2 fs vs b E Hc Hi Hs; [destruct h1; discriminate|].
  cbn [supply_b] in H. destruct h1 as [|a1 h1]; cbn [app] in E; injection E as -> E.
  - rewrite Hc in H. apply andb_true_iff in H. destruct H as [H _]. rewrite forallb_forall in H.
    apply In_betweens in Hi. specialize (H b Hi). rewrite Hs in H. cbn [negb orb] in H. apply andb_true_iff in H.
    rewrite !existsb_exists in H. destruct H as [(k1 & K1 & K2) (k2 & K3 & K4)]. apply N.eqb_eq in K2, K4. subst k1 k2.
    cbn [app]. assert (G : forall k, In k (ks ++ map fst vs) -> supplied (g ++ [o]) k).
    { intros k Hk. apply supplied_snoc. apply in_app_or in Hk. destruct Hk as [Hk|Hk]; [left; auto|right; exists fs, vs; auto]. }
    auto.
  - change ((a1 :: h1) ++ [o]) with ([a1] ++ (h1 ++ [o])). rewrite app_assoc.
    destruct (call_of a1) as [[fs' vs']|] eqn:EC.
    + apply andb_true_iff in H. destruct H as [_ H]. apply (IH (ks ++ map fst vs') (g ++ [a1])) with (h2 := h2) (fs := fs) (vs := vs); auto.
      intros k Hk. apply supplied_snoc. apply in_app_or in Hk. destruct Hk as [Hk|Hk]; [left; auto|right; exists fs', vs'; auto].
    + apply (IH ks (g ++ [a1])) with (h2 := h2) (fs := fs) (vs := vs); auto. intros k Hk. apply supplied_snoc. left. auto.
Qed.
Lemma supply_check (h : list op) : supply_b [] h = true -> closures_supplied sp h.
Proof. intros H h1 o h2 fs vs b. apply (@supply_split h [] []); auto. intros k []. Qed.
End Check.

Lemma straight_check O C (h : list (op O)) :
  (along_b (c_special C) [] h && one_robot_b (c_special C) h) && fresh_b [] (sp_odoms (c_special C) h) && supply_b (c_special C) [] h = true ->
  straight (c_special C) h.
Proof.
  rewrite !andb_true_iff. intros [[H1 H2] H3]. split; [apply along_check; apply andb_true_iff; auto|].
  split; [apply fresh_check; auto|apply supply_check; auto].
Qed.

Lemma tracks_check O sp cs (h1 h2 : list (op O)) : (forall c, In c cs -> comparable (robot_track sp c h1) (robot_track sp c h2)) ->
  forallb (fun b => existsb (N.eqb (chr (b_to b))) cs) (sp_odoms sp h1) = true -> same_tracks sp h1 h2.
Proof.
  intros H F c. destruct (existsb (N.eqb c) cs) eqn:E.
  - apply existsb_exists in E. destruct E as (d & D1 & D2). apply N.eqb_eq in D2. subst d. auto.
  - exists (robot_track sp c h2). left. enough (X : robot_track sp c h1 = []) by (rewrite X; auto).
    unfold robot_track. rewrite forallb_forall in F. induction (sp_odoms sp h1) as [|b l IH]; auto. cbn [filter].
    destruct (N.eqb_spec (chr (b_to b)) c) as [<-|_].
    + rewrite (F b (or_introl eq_refl)) in E. discriminate.
    + apply IH. intros x Hx. apply F. right. auto.
Qed.

Section StartCheck.
Variable O : tops.
Variable sp : list N.
Fixpoint first_odos (vs : values O) (odos od : list (bf O)) : list (N * t_pose O) :=
  match od with
  | [] => []
  | b :: r =>
      (if existsb (fun b' => (chr (b_to b') =? chr (b_to b))%N) odos then []
       else match kfind (b_from b) vs with Some (VPose x) => [(chr (b_to b), x)] | _ => [] end) ++ first_odos vs (odos ++ [b]) r
  end.
Fixpoint first_pairs (odos : list (bf O)) (h : list (op O)) : list (N * t_pose O) :=
  match h with
  | [] => []
  | o :: r =>
      match call_of o with
      | None => first_pairs odos r
      | Some (fs, vs) =>
          let od := filter (sp_odometry sp vs) (betweens fs) in first_odos vs odos od ++ first_pairs (odos ++ od) r
      end
  end.

Lemma first_odos_In vs od : forall odos l1 b l2 x, od = l1 ++ b :: l2 ->
  (forall b', In b' (odos ++ l1) -> chr (b_to b') <> chr (b_to b)) -> kfind (b_from b) vs = Some (VPose x) ->
  In (chr (b_to b), x) (first_odos vs odos od).
Proof.
  induction od as [|a od IH]; intros odos l1 b l2 x E Hn Hk; [destruct l1; discriminate|]. cbn [first_odos].
  destruct l1 as [|a1 l1]; cbn [app] in E; injection E as -> E; apply in_or_app.
  - left. rewrite app_nil_r in Hn. destruct (existsb _ odos) eqn:EX.
    + apply existsb_exists in EX. destruct EX as (b' & B1 & B2). apply N.eqb_eq in B2. exfalso. exact (Hn b' B1 B2).
    + rewrite Hk. left. auto.
  - right. apply (IH _ l1 b l2 x E); auto. rewrite <- app_assoc. exact Hn.
Qed.
Lemma first_pairs_In h : forall odos g o r fs vs l1 b l2 x, h = g ++ o :: r -> call_of o = Some (fs, vs) ->
  filter (sp_odometry sp vs) (betweens fs) = l1 ++ b :: l2 ->
  (forall b', In b' (odos ++ sp_odoms sp g ++ l1) -> chr (b_to b') <> chr (b_to b)) -> kfind (b_from b) vs = Some (VPose x) ->
  In (chr (b_to b), x) (first_pairs odos h).
Proof.
  induction h as [|a h IH]; intros odos g o r fs vs l1 b l2 x E Hc El Hn Hk; [destruct g; discriminate|]. cbn [first_pairs].
  destruct g as [|a1 g]; cbn [app] in E; injection E as -> E.
  - rewrite Hc. cbv zeta. apply in_or_app. left. eapply first_odos_In; eauto.
  - assert (EO : sp_odoms sp (a1 :: g) = match call_of a1 with Some (fs, vs) => filter (sp_odometry sp vs) (betweens fs) | None => [] end ++ sp_odoms sp g).
    { reflexivity. }
    rewrite EO in Hn. destruct (call_of a1) as [[fs' vs']|].
    + cbv zeta. apply in_or_app. right. apply (IH _ g o r fs vs l1 b l2 x E Hc El); auto. rewrite <- app_assoc. intros b' Hb.
      apply Hn. rewrite <- app_assoc. exact Hb.
    + apply (IH _ g o r fs vs l1 b l2 x E Hc El); auto.
Qed.
Lemma starts_same_check (eqb : t_pose O -> t_pose O -> bool) (h1 h2 : list (op O)) : (forall x y, eqb x y = true -> x = y) ->
  forallb (fun p => forallb (fun q => negb (fst p =? fst q)%N || eqb (snd p) (snd q)) (first_pairs [] h2)) (first_pairs [] h1) = true ->
  same_starts sp h1 h2.
Proof.
  intros HE H c x x' (g & o & r & fs & vs & l1 & b & l2 & A1 & A2 & A3 & A4 & A5 & A6)
    (g' & o' & r' & fs' & vs' & l1' & b' & l2' & B1 & B2 & B3 & B4 & B5 & B6).
  rewrite forallb_forall in H. subst c.
  assert (I1 : In (chr (b_to b), x) (first_pairs [] h1)) by (eapply first_pairs_In; eauto).
  assert (I2 : In (chr (b_to b'), x') (first_pairs [] h2)).
  { eapply first_pairs_In; eauto. cbn [app]. rewrite B4. auto. }
  specialize (H _ I1). rewrite forallb_forall in H. specialize (H _ I2). cbn [fst snd] in H.
  rewrite B4, N.eqb_refl in H. cbn [negb orb] in H. auto.
Qed.
End StartCheck.
