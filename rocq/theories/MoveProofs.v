(** * Where trajectories start does not matter to the outlier rejection *)
From Coq Require Import Permutation QArith Lia Sorted.
From Verif Require Import Prelude Keys KMap UMap Geometry Factors Clique Pcm Solver ValuesProofs
  PcmSpec PcmProofs PcmInv PcmStore HistSpec SolverProofs HistProofs GraphProofs TrajProofs AlgProofs
  DeliverProofs CallsSpec CallsProofs.
Set Implicit Arguments.
Local Open Scope nat_scope.

Section Move.
Variable O : tops.
Variable C : config.
Notation bf := (bf O).
Notation factor := (factor O).
Notation values := (values O).
Notation graph_t := (graph_t O).
Notation pcm := (pcm O).
Notation solver := (solver O).
Notation op := (op O).
Notation sp := (c_special C).
Notation start := (solver_init (O := O) true).
Notation T := (t_T O).
Notation trajs := (umap N (traj O)).
Notation lc_get := (uget oid_eqb (@meas_default O)).
Notation lm_get := (uget N.eqb (@meas_default O)).

(** [moved m a a']: [a'] is [a] displaced by [m]; displacing a trajectory leaves the poses between
    its elements alone. *)
Variable M : Type.
Variable moved : M -> T -> T -> Prop.
Hypothesis mv_init : forall x x', exists m, moved m (t_init O x) (t_init O x').
Hypothesis mv_comp : forall m a a' d, moved m a a' -> moved m (t_comp O a d) (t_comp O a' d).
Hypothesis mv_between : forall m a a' b b', moved m a a' -> moved m b b' -> t_between O a b = t_between O a' b'.

Definition twin (m : M) (tr tr' : traj O) : Prop :=
  Forall2 (fun x y => fst x = fst y /\ moved m (snd x) (snd y)) tr tr'.
Definition twins (X Y : trajs) : Prop := forall c,
  match n_find c X, n_find c Y with
  | None, None => True
  | Some tr, Some tr' => exists m, twin m tr tr'
  | _, _ => False
  end.
Definition known (X : trajs) (c : N) (k : key) : Prop :=
  exists tr t, n_find c X = Some tr /\ kfind k tr = Some t.

Lemma twin_find m tr tr' k : twin m tr tr' -> 
  match kfind k tr, kfind k tr' with
  | None, None => True
  | Some t, Some t' => moved m t t'
  | _, _ => False
  end.
Proof.
  induction 1 as [|[k0 t] [k0' t'] tr tr' [H1 H2] F IH]; cbn [kfind]; auto.
  cbn [fst snd] in *. subst k0'. destruct (k =? k0)%N; auto.
Qed.

Lemma twin_set m tr tr' k t t' : twin m tr tr' -> moved m t t' -> twin m (kset k t tr) (kset k t' tr').
Proof.
  intros F H. induction F as [|[k0 u] [k0' u'] tr tr' [H1 H2] F IH]; cbn [kset].
  - repeat constructor; auto.
  - cbn [fst snd] in *. subst k0'. destruct (k <? k0)%N; [|destruct (k =? k0)%N]; constructor; auto; constructor; auto.
Qed.

Lemma twins_set m X Y c tr tr' : twins X Y -> twin m tr tr' -> twins (n_set c tr X) (n_set c tr' Y).
Proof. intros H F c'. rewrite !n_find_set. destruct (c' =? c)%N; [eauto|apply H]. Qed.

Lemma n_set_same {V} c (v : V) X : n_find c X = Some v -> n_set c v X = X.
Proof.
  induction X as [|[k0 v0] X IH]; cbn [ufind uset]; [discriminate|].
  destruct (c =? k0)%N.
  - intro H. injection H as <-. auto.
  - intro H. rewrite IH; auto.
Qed.

Lemma set_same (p : pcm) X : p_trajs p = X -> set_trajs p X = p.
Proof. intros <-. destruct p; auto. Qed.

Lemma known_between (p : pcm) c a b : chr a = chr b -> known (p_trajs p) c a -> known (p_trajs p) c b ->
  exists tr ta tb, n_find c (p_trajs p) = Some tr /\ kfind a tr = Some ta /\ kfind b tr = Some tb /\
    traj_between p c a b = (t_between O ta tb, p).
Proof.
  intros Hc (tr & ta & Ht & Ha) (tr' & tb & Ht' & Hb). rewrite Ht in Ht'. injection Ht' as <-.
  exists tr, ta, tb. split; auto. split; auto. split; auto.
  unfold traj_between, get_between. rewrite Hc, N.eqb_refl.
  assert (E : uget N.eqb [] c (p_trajs p) = tr) by exact (f_equal (fun o => match o with Some t => t | None => [] end) Ht). rewrite E.
  unfold tget, ttouch. rewrite Ha, Hb. rewrite (@n_set_same (traj O) c tr (p_trajs p) Ht).
  rewrite set_same by reflexivity. auto.
Qed.

Lemma known_twin X Y c k : twins X Y -> known X c k -> known Y c k.
Proof.
  intros H (tr & t & H1 & H2). specialize (H c). rewrite H1 in H. destruct (n_find c Y) as [tr'|] eqn:E; [|destruct H].
  destruct H as [m H]. pose proof (twin_find k H) as G. rewrite H2 in G. destruct (kfind k tr') as [t'|] eqn:E'; [|destruct G].
  exists tr', t'. auto.
Qed.

Lemma known_back X Y c k : twins X Y -> known Y c k -> known X c k.
Proof.
  intros H (tr & t & H1 & H2). specialize (H c). rewrite H1 in H. destruct (n_find c X) as [tr'|] eqn:E; [|destruct H].
  destruct H as [m H]. pose proof (twin_find k H) as G. rewrite H2 in G. destruct (kfind k tr') as [t'|] eqn:E'; [|destruct G].
  exists tr', t'. auto.
Qed.

Lemma twins_between (p : pcm) Y c a b : twins (p_trajs p) Y -> chr a = chr b ->
  known (p_trajs p) c a -> known (p_trajs p) c b ->
  exists t, traj_between p c a b = (t, p) /\ traj_between (set_trajs p Y) c a b = (t, set_trajs p Y).
Proof.
  intros H Hc Ka Kb. destruct (@known_between p c a b Hc Ka Kb) as (tr & ta & tb & Ht & Ha & Hb & E).
  exists (t_between O ta tb). split; auto.
  destruct (@known_between (set_trajs p Y) c a b Hc (known_twin H Ka) (known_twin H Kb)) as (tr' & ta' & tb' & Ht' & Ha' & Hb' & E').
  rewrite E'. f_equal. cbn [p_trajs set_trajs] in Ht'. specialize (H c). rewrite Ht, Ht' in H. destruct H as [m H].
  pose proof (twin_find a H) as Ga. pose proof (twin_find b H) as Gb. rewrite Ha, Ha' in Ga. rewrite Hb, Hb' in Gb.
  symmetry. eapply mv_between; eauto.
Qed.

(** ** The tests *)
Section Tests.
Variable Y : trajs.

Definition pure {A} (p : pcm) (r : res A) : res (A * pcm) := rmap (fun x => (x, p)) r.
Definition onto (p : pcm) : pcm := set_trajs p Y.

Definition ends_known (X : trajs) (b : bf) : Prop :=
  known X (chr (b_from b)) (b_from b) /\ known X (chr (b_to b)) (b_to b).

Lemma move_odom (p : pcm) b : twins (p_trajs p) Y -> chr (b_from b) = chr (b_to b) -> ends_known (p_trajs p) b ->
  exists r, is_odom_consistent C p b = pure p r /\ is_odom_consistent C (onto p) b = pure (onto p) r.
Proof.
  intros H Hc [Ka Kb]. unfold is_odom_consistent. destruct (c_odom_check C); cbn [negb]; [|exists (Val true); auto].
  rewrite <- Hc in Kb. destruct (@twins_between p Y _ _ _ H Hc Ka Kb) as (t & E1 & E2). unfold onto. rewrite E1, E2.
  destruct (t_of O b) as [x|]; [eexists (Val _)|eexists (Bad _)]; cbn; auto.
Qed.

Lemma move_loops (p : pcm) f g : twins (p_trajs p) Y -> oid_eqb (pair_of f) (pair_of g) = true ->
  ends_known (p_trajs p) f -> ends_known (p_trajs p) g ->
  exists r, are_loops_consistent C p f g = pure p r /\ are_loops_consistent C (onto p) f g = pure (onto p) r.
Proof.
  intros H Hp [Ka Kb] [Kc Kd]. unfold are_loops_consistent. destruct (c_loop_check C); cbn [negb]; [|exists (Val true); auto].
  destruct (t_of O f) as [x|]; [|exists (Bad NullDeref); auto].
  destruct (t_of O g) as [y|]; [|exists (Bad NullDeref); auto].
  assert (G : exists c d, (if (chr (b_from f) =? chr (b_from g))%N then (b_from g, b_to g) else (b_to g, b_from g)) = (c, d) /\
    chr (b_from f) = chr c /\ chr (b_to f) = chr d /\ known (p_trajs p) (chr c) c /\ known (p_trajs p) (chr d) d).
  { unfold oid_eqb, pair_of in Hp. cbn [fst snd] in Hp.
    destruct (N.eqb_spec (chr (b_from f)) (chr (b_from g))) as [E|E].
    - exists (b_from g), (b_to g). split; auto. split; auto. split; [|auto].
      rewrite !orb_true_iff, !andb_true_iff, !N.eqb_eq in Hp. destruct Hp as [[A1 A2]|[A1 A2]]; congruence.
    - exists (b_to g), (b_from g). split; auto.
      rewrite !orb_true_iff, !andb_true_iff, !N.eqb_eq in Hp. destruct Hp as [[A1 A2]|[A1 A2]]; [congruence|auto]. }
  destruct G as (c & d & -> & E1 & E2 & K1 & K2). rewrite <- E1 in K1. rewrite <- E2 in K2.
  destruct (@twins_between p Y _ _ _ H E1 Ka K1) as (t & F1 & F2). destruct (@twins_between p Y _ _ _ H E2 Kb K2) as (t' & F3 & F4).
  unfold onto. rewrite F1, F2, F3, F4. eexists (Val _). cbn. auto.
Qed.

Lemma move_lc_bits (p : pcm) new : twins (p_trajs p) Y -> ends_known (p_trajs p) new -> forall fs bits,
  Forall (fun f => oid_eqb (pair_of f) (pair_of new) = true /\ ends_known (p_trajs p) f) fs ->
  exists r, lc_bits C fs new p bits = pure p r /\ lc_bits C fs new (onto p) bits = pure (onto p) r.
Proof.
  intros H Kn. induction fs as [|f fs IH]; intros bits F; cbn [lc_bits].
  - exists (Val bits). auto.
  - inversion F as [|? ? [F1 F2] F3]; subst. destruct (@move_loops p f new H F1 F2 Kn) as (r & E1 & E2). rewrite E1, E2.
    destruct r as [b|u]; cbn [pure rmap rbind]; [|exists (Bad u); auto]. apply IH. auto.
Qed.

Lemma move_lm_bits (p : pcm) l new : twins (p_trajs p) Y ->
  (b_from new <> l -> known (p_trajs p) (chr (b_from new)) (b_from new)) -> forall fs bits,
  Forall (fun f => b_from f <> l -> known (p_trajs p) (chr (b_from f)) (b_from f) /\
                   (b_from new <> l -> chr (b_from f) = chr (b_from new))) fs ->
  exists r, lm_bits l fs new p bits = pure p r /\ lm_bits l fs new (onto p) bits = pure (onto p) r.
Proof.
  intros H Kn. induction fs as [|f fs IH]; intros bits F; cbn [lm_bits].
  - exists (Val (Some bits)). auto.
  - inversion F as [|? ? F1 F2]; subst.
    destruct (N.eqb_spec (b_from f) l) as [|N1]; cbn [orb]; [exists (Val None); auto|].
    destruct (N.eqb_spec (b_from new) l) as [|N2]; cbn [orb]; [exists (Val None); auto|].
    destruct (t_of O f) as [x|]; [|exists (Bad NullDeref); auto].
    destruct (t_of O new) as [y|]; [|exists (Bad NullDeref); auto].
    destruct (F1 N1) as [Kf Ec]. specialize (Ec N2). specialize (Kn N2). pose proof Kn as Kn'. rewrite <- Ec in Kn'.
    destruct (@twins_between p Y _ _ _ H Ec Kf Kn') as (t & E1 & E2). unfold onto in *. rewrite E1, E2. apply IH. auto.
Qed.

(** ** Storing a loop closure *)
Variable D : bf -> Prop.
Hypothesis D_known : forall x, D x -> sp_landmark sp (b_from x) = false -> sp_landmark sp (b_to x) = true ->
  known Y (chr (b_from x)) (b_from x).
Hypothesis D_one : forall x y, D x -> D y -> sp_landmark sp (b_from x) = false -> sp_landmark sp (b_from y) = false ->
  sp_landmark sp (b_to x) = true -> b_to x = b_to y -> chr (b_from x) = chr (b_from y).

Definition onto2 (x : pcm * numnew) : pcm * numnew := (onto (fst x), snd x).

Lemma move_parse vals b (p : pcm) nn : twins (p_trajs p) Y -> stored_ok C (fun x => is_landmark_factor C x = false -> ends_known (p_trajs p) x) D p -> D b ->
  (kmem (b_from b) vals = true -> kmem (b_to b) vals = true -> is_landmark_factor C b = false -> ends_known (p_trajs p) b) ->
  parse_one C vals b (onto p, nn) = rmap onto2 (parse_one C vals b (p, nn)) /\
  forall x, parse_one C vals b (p, nn) = Val x -> p_trajs (fst x) = p_trajs p.
Proof.
  intros H [S1 S2 _ _] Hb Hk. unfold parse_one.
  destruct (kmem (b_from b) vals) eqn:K1; cbn [negb orb]; [|split; [reflexivity|intros x E; injection E as <-; auto]].
  destruct (kmem (b_to b) vals) eqn:K2; cbn [negb orb]; [|split; [reflexivity|intros x E; injection E as <-; auto]].
  specialize (Hk eq_refl eq_refl).
  destruct (is_special C (b_from b) || is_special C (b_to b)) eqn:ES.
  - assert (HK : landmark_key C b = sp_landmark_key sp b) by (unfold landmark_key, sp_landmark_key; rewrite is_special_spec; auto).
    rewrite HK. set (l := sp_landmark_key sp b) in *.
    unfold increment_landmark_adj. cbn [p_lms set_total set_lms onto set_trajs].
    rewrite n_get_set, N.eqb_refl. unfold meas_add at 1 3 5 7. cbn [me_factors].
    set (fs := me_factors (meas_add (lm_get l (p_lms p)) b)).
    destruct (_ <=? 1); cbn [rbind]; [split; [reflexivity|intros x E; injection E as <-; auto]|].
    destruct (dims_are _ _); cbn [rbind]; [|split; [reflexivity|discriminate]].
    match goal with |- context [lm_bits l (firstn ?n fs) b (set_total (set_lms p ?x) ?y) []] => set (m := n); set (p1 := set_total (set_lms p x) y) end.
    assert (LK : forall x : bf, sp_landmark_key sp x = l -> b_from x <> l -> is_landmark_factor C x = true ->
      sp_landmark sp (b_from x) = false /\ sp_landmark sp (b_to x) = true /\ b_to x = l).
    { intros x E1 E2 E3. unfold sp_landmark_key in E1. unfold is_landmark_factor in E3.
      destruct (sp_landmark sp (b_from x)); [congruence|]. auto. }
    assert (Lb : is_landmark_factor C b = true) by (unfold is_landmark_factor; rewrite <- !(is_special_spec C); exact ES).
    destruct (@move_lm_bits p1 l b) with (fs := firstn m fs) (bits := @nil bool) as (r & E1 & E2).
    + exact H.
    + intro N1. destruct (LK b eq_refl N1 Lb) as (L1 & L2 & _). apply (known_back H); auto.
    + destruct (@lm_get_ok _ C _ (p_lms p) l S2) as [G _].
      rewrite Forall_forall in *. intros x Hx N1. apply (firstn_In' m fs x) in Hx. unfold fs, meas_add in Hx. cbn in Hx.
      assert (Gx : sp_landmark_key sp x = l /\ is_landmark_factor C x = true /\ D x).
      { apply in_app_or in Hx. destruct Hx as [Hx|[<-|[]]]; auto. }
      destruct Gx as (G1 & G2 & G3). destruct (LK x G1 N1 G2) as (L1 & L2 & L3).
      split; [apply (known_back H); auto|]. intro N2. destruct (LK b eq_refl N2 Lb) as (L1' & L2' & L3').
      apply D_one; auto. congruence.
    + match goal with |- context [lm_bits l (firstn m fs) b ?q [] ] => lazymatch q with p1 => fail | _ => change q with (onto p1) end end.
      rewrite E1, E2. destruct r as [[bits|]|]; cbn [pure rmap rbind]; (split; [reflexivity|]); try discriminate;
        intros x E; injection E as <-; auto.
  - assert (Lb : is_landmark_factor C b = false) by (unfold is_landmark_factor; rewrite <- !(is_special_spec C); exact ES).
    specialize (Hk Lb).
    assert (A : exists r, (if (chr (b_from b) =? chr (b_to b))%N then is_odom_consistent C p b else Val (true, p)) = pure p r /\
                (if (chr (b_from b) =? chr (b_to b))%N then is_odom_consistent C (onto p) b else Val (true, onto p)) = pure (onto p) r).
    { destruct (N.eqb_spec (chr (b_from b)) (chr (b_to b))) as [EC|EC]; [apply move_odom; auto|exists (Val true); auto]. }
    destruct A as (r & A1 & A2). rewrite A1, A2. destruct r as [ok|]; cbn [pure rmap rbind]; [|split; [reflexivity|discriminate]].
    destruct ok; [|split; [reflexivity|intros x E; injection E as <-; auto]].
    set (id := (chr (b_from b), chr (b_to b))).
    destruct (c_loop_check C).
    2:{ cbn [rbind]. split; [reflexivity|intros x E; injection E as <-; auto]. }
    unfold increment_adj. cbn [p_lcs set_total set_order set_lcs onto set_trajs p_order p_total].
    rewrite oid_get_set, oid_eqb_refl.
    set (fs := me_factors (meas_add (lc_get id (p_lcs p)) b)).
    destruct (length fs <=? 1); cbn [rbind]; [split; [reflexivity|intros x E; injection E as <-; auto]|].
    destruct (dims_are _ _); cbn [rbind]; [|split; [reflexivity|discriminate]].
    match goal with |- context [lc_bits C (firstn ?n fs) b (set_total (set_order (set_lcs p ?x) ?z) ?y) []] => set (m := n); set (p1 := set_total (set_order (set_lcs p x) z) y) end.
    destruct (@move_lc_bits p1 b H Hk (firstn m fs) []) as (r & E1 & E2).
    + destruct (@lc_get_ok _ C _ (p_lcs p) id S1) as [G _].
      rewrite Forall_forall in *. intros x Hx. apply (firstn_In' m fs x) in Hx. unfold fs, meas_add in Hx. cbn in Hx.
      apply in_app_or in Hx. destruct Hx as [Hx|[<-|[]]]; [destruct (G _ Hx) as (G1 & G3 & G2); auto|].
      split; auto. apply oid_eqb_refl.
    + match goal with |- context [lc_bits C (firstn m fs) b ?q [] ] => lazymatch q with p1 => fail | _ => change q with (onto p1) end end.
      rewrite E1, E2. destruct r as [bits|]; cbn [pure rmap rbind]; (split; [reflexivity|]); try discriminate;
        intros x E; injection E as <-; auto.
Qed.

Lemma move_parse_all vals cs : forall (p : pcm) nn, twins (p_trajs p) Y ->
  stored_ok C (fun x => is_landmark_factor C x = false -> ends_known (p_trajs p) x) D p ->
  Forall (fun b => D b /\ (kmem (b_from b) vals = true -> kmem (b_to b) vals = true ->
                           is_landmark_factor C b = false -> ends_known (p_trajs p) b)) cs ->
  rfold (parse_one C vals) cs (onto p, nn) = rmap onto2 (rfold (parse_one C vals) cs (p, nn)) /\
  forall x, rfold (parse_one C vals) cs (p, nn) = Val x -> p_trajs (fst x) = p_trajs p.
Proof.
  induction cs as [|b cs IH]; intros p nn H HS F; cbn [rfold].
  { split; [reflexivity|]. intros x E. injection E as <-. auto. }
  inversion F as [|? ? [F1 F2] F3]; subst.
  destruct (@move_parse vals b p nn H HS F1 F2) as [E1 E2]. rewrite E1.
  destruct (parse_one C vals b (p, nn)) as [[p1 nn1]|] eqn:E; cbn [rmap rbind]; [|split; [reflexivity|discriminate]].
  specialize (E2 _ eq_refl). cbn [fst] in E2. unfold onto2 at 1. cbn [fst snd].
  destruct (IH p1 nn1) as [G1 G2].
  - rewrite E2. auto.
  - rewrite E2. apply parse_one_inv in E. destruct E as [o [HP _]]. eapply parsed_stored_ok; [exact HP| | |exact HS].
    + intros (A1 & A2 & A3 & _) _. auto.
    + auto.
  - rewrite E2. auto.
  - split; auto. intros x Hx. rewrite (G2 x Hx). auto.
Qed.

Lemma move_find (p : pcm) : find_inliers C (onto p) = rmap onto (find_inliers C p).
Proof.
  unfold find_inliers. cbn [p_lcs p_lms onto set_trajs].
  destruct (umapM (pair_inliers C) (p_lcs p)); cbn [rbind rmap]; auto.
  destruct (umapM (heu_inliers (O:=O)) (p_lms p)); cbn [rbind rmap]; auto.
Qed.
Lemma move_find_inc nn (p : pcm) : find_inliers_inc nn (onto p) = rmap onto (find_inliers_inc nn p).
Proof.
  unfold find_inliers_inc. cbn [p_lcs p_lms onto set_trajs].
  match goal with |- context [rfold ?f nn (p_lcs p)] => destruct (rfold f nn (p_lcs p)); cbn [rbind rmap]; auto end.
  destruct (umapM (heu_inliers (O:=O)) (p_lms p)); cbn [rbind rmap]; auto.
Qed.
End Tests.

(** ** Odometry *)

(** The ends of the odometry are on the trajectories, and there are no other trajectories. *)
Definition reached (p : pcm) : Prop :=
  (forall b, In b (p_odom p) -> known (p_trajs p) (chr (b_to b)) (b_from b) /\ known (p_trajs p) (chr (b_to b)) (b_to b)) /\
  forall c, n_find c (p_trajs p) <> None -> exists b, In b (p_odom p) /\ chr (b_to b) = c.

Lemma known_set X c tr c' k t k0 : known X c' k -> (match n_find c X with Some tr => tr | None => [] end) = tr ->
  known (n_set c (kset k0 t tr) X) c' k.
Proof.
  intros (tr1 & t1 & H1 & H2) E. unfold known. rewrite n_find_set.
  destruct (N.eqb_spec c' c) as [->|]; [|eauto]. rewrite H1 in E. subst tr1.
  exists (kset k0 t tr), (if (k =? k0)%N then t else t1). split; auto. rewrite kfind_kset. destruct (k =? k0)%N; auto.
Qed.

Lemma move_update v1 v2 b (p p' q' : pcm) Y u1 u2 : b_from b <> b_to b -> reached p -> twins (p_trajs p) Y ->
  ((exists b', In b' (p_odom p) /\ chr (b_to b') = chr (b_to b)) -> known (p_trajs p) (chr (b_to b)) (b_from b)) ->
  update_odom v1 b p = Ok p' u1 -> update_odom v2 b (set_trajs p Y) = Ok q' u2 ->
  reached p' /\ exists Y', q' = set_trajs p' Y' /\ twins (p_trajs p') Y'.
Proof.
  intros Hne [R1 R2] H HK. unfold update_odom. destruct (t_of O b) as [d|]; [|discriminate].
  cbn [p_trajs set_odom p_robots set_trajs]. set (c := chr (b_to b)) in *. pose proof (H c) as Hc.
  destruct (n_find c (p_trajs p)) as [tr|] eqn:E, (n_find c Y) as [tr'|] eqn:E'; try (destruct Hc; fail).
  - cbn [obind]. destruct (HK (R2 c ltac:(congruence))) as (tr0 & t & E0 & Ef). rewrite E in E0. injection E0 as <-.
    destruct Hc as [m Hc]. pose proof (twin_find (b_from b) Hc) as Gf. rewrite Ef in Gf.
    destruct (kfind (b_from b) tr') as [t'|] eqn:Ef'; [|destruct Gf].
    assert (G : uget N.eqb [] c (p_trajs p) = tr) by exact (f_equal (fun o => match o with Some t => t | None => [] end) E).
    assert (G' : uget N.eqb [] c Y = tr') by exact (f_equal (fun o => match o with Some t => t | None => [] end) E').
    cbn [p_trajs set_trajs set_odom]. rewrite G, G'. unfold ttouch, tget. rewrite Ef, Ef', Ef, Ef'.
    intros H1 H2. injection H1 as <-. injection H2 as <-.
    assert (KEEP : forall c' k, known (p_trajs p) c' k -> known (n_set c (kset (b_to b) (t_comp O t d) tr) (p_trajs p)) c' k).
    { intros c' k K. apply (@known_set (p_trajs p) c tr c' k); auto; rewrite E; auto. }
    split.
    + split; cbn [p_odom p_trajs set_trajs set_odom].
      * intros x Hx. apply in_app_or in Hx. destruct Hx as [Hx|[<-|[]]].
        -- destruct (R1 x Hx). split; apply KEEP; auto.
        -- split; [apply KEEP; exists tr, t; auto|]. exists (kset (b_to b) (t_comp O t d) tr), (t_comp O t d).
           fold c. rewrite n_find_set, N.eqb_refl, kfind_kset, N.eqb_refl. auto.
      * intros c' Hn. rewrite n_find_set in Hn. destruct (N.eqb_spec c' c) as [Ec|Hc'].
        -- exists b. split; [apply in_or_app; right; left; auto|]. symmetry. exact Ec.
        -- destruct (R2 c' Hn) as (x & X1 & X2). exists x. split; auto. apply in_or_app. auto.
    + eexists. split; [reflexivity|]. cbn [p_trajs set_trajs set_odom]. eapply twins_set; [exact H|].
      apply twin_set; eauto.
  - destruct (kfind (b_from b) v1) as [[x|t]|] eqn:Ev; cbn [obind]; try discriminate.
    destruct (kfind (b_from b) v2) as [[x'|t]|] eqn:Ev'; cbn [obind]; try discriminate.
    cbn [p_trajs set_trajs set_odom set_robots p_robots].
    rewrite !n_get_set, !N.eqb_refl.
    assert (EF : forall y : T, kfind (b_from b) [(b_from b, y)] = Some y) by (intro y; cbn [kfind]; rewrite N.eqb_refl; auto).
    unfold ttouch, tget. rewrite !EF.
    intros H1 H2. injection H1 as <-. injection H2 as <-.
    set (tr := kset (b_to b) (t_comp O (t_init O x) d) [(b_from b, t_init O x)]).
    set (tr' := kset (b_to b) (t_comp O (t_init O x') d) [(b_from b, t_init O x')]).
    set (X1 := n_set c [(b_from b, t_init O x)] (p_trajs p)).
    assert (KEEP : forall c' k, known (p_trajs p) c' k -> known (n_set c tr X1) c' k).
    { intros c' k (t1 & t2 & K1 & K2). exists t1, t2. unfold X1. rewrite !n_find_set.
      destruct (N.eqb_spec c' c) as [->|]; [congruence|]. auto. }
    assert (KN : n_find c (n_set c tr X1) = Some tr) by (rewrite n_find_set, N.eqb_refl; auto).
    split.
    + split; cbn [p_odom p_trajs set_trajs set_odom set_robots].
      * intros y Hx. apply in_app_or in Hx. destruct Hx as [Hx|[<-|[]]].
        -- destruct (R1 y Hx). split; apply KEEP; auto.
        -- fold c. split; exists tr; unfold tr; rewrite kfind_kset.
           ++ destruct (b_from b =? b_to b)%N; [eexists; split; [exact KN|reflexivity]|]. rewrite EF. eexists; split; [exact KN|reflexivity].
           ++ rewrite N.eqb_refl. eexists; split; [exact KN|reflexivity].
      * intros c' Hn. unfold X1 in Hn. rewrite !n_find_set in Hn. destruct (N.eqb_spec c' c) as [Ec|Hc'].
        -- exists b. split; [apply in_or_app; right; left; auto|]. symmetry. exact Ec.
        -- destruct (R2 c' Hn) as (y & Y1 & Y2). exists y. split; auto. apply in_or_app. auto.
    + eexists. split; [reflexivity|]. cbn [p_trajs set_trajs set_odom set_robots].
      destruct (mv_init x x') as [m Hm].
      assert (TW : twin m [(b_from b, t_init O x)] [(b_from b, t_init O x')]) by (repeat constructor; auto).
      apply (@twins_set m); [apply (@twins_set m); [exact H|exact TW]|].
      exact (@twin_set m _ _ (b_to b) _ _ TW (@mv_comp _ _ _ d Hm)).
Qed.

Lemma move_proc_factor nv v1 v2 of (p p' q' : pcm) Y acc a1 a2 : reached p -> twins (p_trajs p) Y ->
  (forall b l, filter (sp_odometry sp nv) (betweens [of]) = b :: l ->
     (exists b', In b' (p_odom p) /\ chr (b_to b') = chr (b_to b)) -> known (p_trajs p) (chr (b_to b)) (b_from b)) ->
  proc_factor C nv v1 of p acc = Ok p' a1 -> proc_factor C nv v2 of (set_trajs p Y) acc = Ok q' a2 ->
  a1 = a2 /\ reached p' /\ exists Y', q' = set_trajs p' Y' /\ twins (p_trajs p') Y'.
Proof.
  intros R H HK. unfold proc_factor.
  assert (PLAIN : forall p1, p_odom p1 = p_odom p -> p_trajs p1 = p_trajs p ->
    reached p1 /\ exists Y', set_trajs p1 Y = set_trajs p1 Y' /\ twins (p_trajs p1) Y').
  { intros p1 X1 X2. split; [unfold reached in *; rewrite X1, X2; auto|]. exists Y. rewrite X2. auto. }
  destruct of as [[b|k x|k t|ks t]|];
    try (intros H1 H2; injection H1 as <- <-; injection H2 as <- <-; split; auto; apply PLAIN; auto; fail).
  rewrite classify_spec. destruct (sp_first sp nv b) eqn:EF.
  { intros H1 H2; injection H1 as <- <-; injection H2 as <- <-; split; auto. apply (PLAIN (first_landmark C b p)); auto. }
  destruct (sp_odometry sp nv b) eqn:EO.
  - destruct (update_odom v1 b p) as [p1 u| |] eqn:E1; cbn [obind]; try discriminate.
    destruct (update_odom v2 b (set_trajs p Y)) as [q1 u'| |] eqn:E2; cbn [obind]; try discriminate.
    intros H1 H2; injection H1 as <- <-; injection H2 as <- <-; split; auto.
    eapply move_update; [|exact R|exact H| |exact E1|exact E2]; [eapply odometry_neq; eauto|].
    apply (HK b []). cbn [betweens flat_map app filter]. rewrite EO. auto.
  - destruct (b_from b =? b_to b)%N; intros H1 H2; injection H1 as <- <-; injection H2 as <- <-; split; auto; apply PLAIN; auto.
Qed.

Definition odometry_known (nv : values) (fs : graph_t) (p : pcm) : Prop :=
  forall l1 b l2, filter (sp_odometry sp nv) (betweens fs) = l1 ++ b :: l2 ->
    (exists b', In b' (p_odom p ++ l1) /\ chr (b_to b') = chr (b_to b)) ->
    exists b', In b' (p_odom p ++ l1) /\ chr (b_to b') = chr (b_to b) /\ (b_from b = b_from b' \/ b_from b = b_to b').

Lemma move_proc nv v1 v2 fs : forall (p p' q' : pcm) Y acc a1 a2, reached p -> twins (p_trajs p) Y ->
  odometry_known nv fs p ->
  proc_factors C nv v1 fs p acc = Ok p' a1 -> proc_factors C nv v2 fs (set_trajs p Y) acc = Ok q' a2 ->
  a1 = a2 /\ reached p' /\ exists Y', q' = set_trajs p' Y' /\ twins (p_trajs p') Y'.
Proof.
  induction fs as [|of fs IH]; intros p p' q' Y acc a1 a2 R H HK; cbn [proc_factors].
  { intros H1 H2; injection H1 as <- <-; injection H2 as <- <-. eauto. }
  assert (EB : betweens (of :: fs) = betweens [of] ++ betweens fs).
  { unfold betweens. cbn [flat_map]. rewrite app_nil_r. auto. }
  destruct (proc_factor C nv v1 of p acc) as [p1 b1| |] eqn:E1; cbn [obind]; try discriminate.
  destruct (proc_factor C nv v2 of (set_trajs p Y) acc) as [q1 b2| |] eqn:E2; cbn [obind]; try discriminate.
  destruct (@move_proc_factor nv v1 v2 of p p1 q1 Y acc b1 b2 R H) as (-> & R' & Y' & -> & H'); auto.
  { intros b l Eb Hex. destruct (HK [] b (l ++ filter (sp_odometry sp nv) (betweens fs))) as (b' & B1 & B2 & B3).
    - rewrite EB, filter_app, Eb. auto.
    - destruct Hex as (b' & B1 & B2). exists b'. rewrite app_nil_r. auto.
    - rewrite app_nil_r in B1. rewrite <- B2. destruct R as [R1 _]. destruct (R1 b' B1). destruct B3 as [-> | ->]; auto. }
  apply IH; auto. intros l1 b l2 El Hn. rewrite (@proc_factor_odom O C nv v1 of p p1 acc b2 E1), <- app_assoc in Hn |- *.
  apply (HK (filter (sp_odometry sp nv) (betweens [of]) ++ l1) b l2); auto.
  rewrite EB, filter_app, El, app_assoc. auto.
Qed.

(** ** A call of [removeOutliers] *)
Definition alike (p q : pcm) : Prop := reached p /\ exists Y, q = set_trajs p Y /\ twins (p_trajs p) Y.

Lemma track_known (p : pcm) k : reached p -> on_track (p_odom p) k -> known (p_trajs p) (chr k) k.
Proof. intros [R _] (b & B1 & B2 & B3). destruct (R b B1). rewrite <- B2. destruct B3 as [-> | ->]; auto. Qed.

Lemma move_ro w fs nv (p : pcm) Y g1 g2 v1 v2 st1 st2 b1 b2 (D : bf -> Prop) :
  reached p -> twins (p_trajs p) Y -> odometry_known nv fs p -> (forall k, kmem k v1 = kmem k v2) ->
  let odos := p_odom p ++ filter (sp_odometry sp nv) (betweens fs) in
  (forall b, In (Some (FBetween b)) fs -> D b) ->
  (forall b, In (Some (FBetween b)) fs -> sp_candidate sp nv b = true -> is_landmark_factor C b = false ->
     kmem (b_from b) v1 || kmem (b_from b) nv = true -> kmem (b_to b) v1 || kmem (b_to b) nv = true ->
     on_track odos (b_from b) /\ on_track odos (b_to b)) ->
  (forall x, D x -> sp_landmark sp (b_from x) = false -> sp_landmark sp (b_to x) = true -> on_track odos (b_from x)) ->
  (forall x y, D x -> D y -> sp_landmark sp (b_from x) = false -> sp_landmark sp (b_from y) = false ->
     sp_landmark sp (b_to x) = true -> b_to x = b_to y -> chr (b_from x) = chr (b_from y)) ->
  stored_ok C (fun x => is_landmark_factor C x = false -> on_track odos (b_from x) /\ on_track odos (b_to x)) D p ->
  remove_outliers C w fs nv (PSt p g1 v1) = Ok st1 b1 ->
  remove_outliers C w fs nv (PSt (set_trajs p Y) g2 v2) = Ok st2 b2 ->
  alike (ps_pcm st1) (ps_pcm st2) /\ b1 = b2.
Proof.
  intros R H HK A odos HD HC HDt HD1 HS. unfold remove_outliers. cbn [ps_pcm ps_nfg ps_vals].
  destruct (vinsert_all nv v1) as [u1 x1| |] eqn:E1; try discriminate.
  destruct (vinsert_all nv v2) as [u2 x2| |] eqn:E2; try discriminate.
  assert (AK : forall k, kmem k u1 = kmem k u2).
  { intro k. rewrite (vinsert_all_mem _ _ k E1), (vinsert_all_mem _ _ k E2), A. auto. }
  destruct fs as [|of fs0].
  { intros H1 H2. injection H1 as <- <-. injection H2 as <- <-. split; auto. split; auto. exists Y. auto. }
  set (fs := of :: fs0) in *.
  destruct (proc_factors C nv u1 fs p ([], false)) as [p1 [lcs opt]| |] eqn:EP; try discriminate.
  destruct (proc_factors C nv u2 fs (set_trajs p Y) ([], false)) as [q1 [lcs' opt']| |] eqn:EQ; try discriminate.
  destruct (@move_proc nv u1 u2 fs p p1 q1 Y _ _ _ R H HK EP EQ) as (EL & R1 & Y1 & -> & H1). injection EL as <- <-.
  pose proof (proc_factors_frame _ _ _ _ _ _ EP) as (F1 & _ & F3 & _ & _ & _ & _ & F8 & F9 & _). cbn [fst app] in F9.
  assert (TK : forall k, on_track odos k -> known (p_trajs p1) (chr k) k).
  { intros k Hk. apply track_known; auto. rewrite F1. exact Hk. }
  assert (FIN : forall p3 q3 o', alike p3 q3 ->
    (if c_align C && (1 <? length (p_robots p3)) then
       match align w (set_robots p3 (nsort (p_robots p3))) u1 with
       | Ok vs' _ => Ok (PSt (set_robots p3 (nsort (p_robots p3))) (graph_of w p3) vs') o'
       | Throw _ e => Throw (PSt (set_robots p3 (nsort (p_robots p3))) (graph_of w p3) u1) e
       | Undef u => Undef u
       end
     else Ok (PSt p3 (graph_of w p3) u1) o') = Ok st1 b1 ->
    (if c_align C && (1 <? length (p_robots q3)) then
       match align w (set_robots q3 (nsort (p_robots q3))) u2 with
       | Ok vs' _ => Ok (PSt (set_robots q3 (nsort (p_robots q3))) (graph_of w q3) vs') o'
       | Throw _ e => Throw (PSt (set_robots q3 (nsort (p_robots q3))) (graph_of w q3) u2) e
       | Undef u => Undef u
       end
     else Ok (PSt q3 (graph_of w q3) u2) o') = Ok st2 b2 ->
    alike (ps_pcm st1) (ps_pcm st2) /\ b1 = b2).
  { intros p3 q3 o' [R3 (Y3 & -> & H3)]. cbn [p_robots set_trajs].
    destruct (c_align C && (1 <? length (p_robots p3))).
    - destruct (align w (set_robots p3 (nsort (p_robots p3))) u1) as [? []| |]; try discriminate. intro X1. injection X1 as <- <-.
      destruct (align w _ u2) as [? []| |]; try discriminate. intro X2. injection X2 as <- <-.
      split; auto. split; auto. exists Y3. auto.
    - intros X1 X2. injection X1 as <- <-. injection X2 as <- <-. split; auto. split; auto. exists Y3. auto. }
  destruct lcs as [|c0 lcs0].
  { apply FIN. split; auto. exists Y1. auto. }
  set (lcs := c0 :: lcs0) in *.
  assert (HS1 : stored_ok C (fun x => is_landmark_factor C x = false -> ends_known (p_trajs p1) x) D p1).
  { destruct HS as [S1 S2 S3 S4].
    assert (HF : Forall (fun b => is_landmark_factor C b = true /\ D b) (filter (sp_first sp nv) (betweens fs))).
    { apply Forall_forall. intros x Hx. apply filter_In in Hx. destruct Hx as [Hx Hf].
      split; [eapply sp_first_landmark; eauto|]. apply HD. apply In_betweens. auto. }
    destruct (store_firsts_ok HF S2 S4). split; rewrite ?F3, ?F8; auto.
    eapply Forall_impl; [|exact S1]. intros kv. apply lc_ok_imp. intros b Hb Hl. destruct (Hb Hl). split; apply TK; auto. }
  assert (HF : Forall (fun b => D b /\ (kmem (b_from b) u1 = true -> kmem (b_to b) u1 = true ->
                           is_landmark_factor C b = false -> ends_known (p_trajs p1) b)) lcs).
  { apply Forall_forall. intros x Hx. rewrite F9 in Hx. apply filter_In in Hx. destruct Hx as [Hx Hf].
    apply In_betweens in Hx. split; [auto|]. rewrite (vinsert_all_mem _ _ (b_from x) E1), (vinsert_all_mem _ _ (b_to x) E1).
    intros K1 K2 Kl. destruct (HC x Hx Hf Kl K1 K2). split; apply TK; auto. }
  rewrite (parse_all_agree C u2 u1 lcs (set_trajs p1 Y1)) by (intro; auto).
  destruct (@move_parse_all Y1 D) with (vals := u1) (cs := lcs) (p := p1) (nn := @nil (obsid * nat) : numnew) as [G1 G2]; auto.
  { intros x X1 X2 X3. apply (known_twin H1). apply TK. auto. }
  change (set_trajs p1 Y1) with (onto Y1 p1). 
  assert (G0 : parse_all C u1 lcs (onto Y1 p1) = rmap (onto2 Y1) (parse_all C u1 lcs p1)) by exact G1.
  assert (G3 : forall x, parse_all C u1 lcs p1 = Val x -> p_trajs (fst x) = p_trajs p1) by exact G2. clear G1 G2.
  rewrite G0.
  destruct (parse_all C u1 lcs p1) as [[p2 nn]|] eqn:ER; cbn [rmap rbind]; try discriminate.
  pose proof (G3 _ eq_refl) as G2. cbn [fst] in G2. unfold onto2. cbn [fst snd].
  assert (SEL : forall p3, (if c_incremental C then find_inliers_inc nn p2 else find_inliers C p2) = Val p3 -> p_trajs p3 = p_trajs p2 /\ p_odom p3 = p_odom p2).
  { intros p3 E. unfold find_inliers_inc, find_inliers in E. destruct (c_incremental C).
    - match type of E with context [rfold ?f nn (p_lcs p2)] => destruct (rfold f nn (p_lcs p2)); cbn [rbind] in E; try discriminate end.
      destruct (umapM (heu_inliers (O:=O)) (p_lms p2)); cbn [rbind] in E; try discriminate. injection E as <-. auto.
    - destruct (umapM (pair_inliers C) (p_lcs p2)); cbn [rbind] in E; try discriminate.
      destruct (umapM (heu_inliers (O:=O)) (p_lms p2)); cbn [rbind] in E; try discriminate. injection E as <-. auto. }
  assert (EF : (if c_incremental C then find_inliers_inc nn (onto Y1 p2) else find_inliers C (onto Y1 p2)) =
               rmap (onto Y1) (if c_incremental C then find_inliers_inc nn p2 else find_inliers C p2)).
  { destruct (c_incremental C); [apply move_find_inc|apply move_find]. }
  rewrite EF. destruct (if c_incremental C then find_inliers_inc nn p2 else find_inliers C p2) as [p3|]; cbn [rmap rbind]; try discriminate.
  destruct (SEL p3 eq_refl) as [T3 O3].
  assert (O2 : p_odom p2 = p_odom p1).
  { apply parse_all_inv in ER. destruct ER as [PL _]. apply (parsed_list_ok PL). }
  apply FIN. split.
  - unfold reached in *. rewrite T3, O3, G2, O2. auto.
  - exists Y1. split; auto. rewrite T3, G2. auto.
Qed.

(** ** Whole histories *)
Lemma remove_id_onto w id (p p' q' : pcm) Y e e' : pcm_remove_last_id w id p = Val (p', e) ->
  pcm_remove_last_id w id (set_trajs p Y) = Val (q', e') -> q' = set_trajs p' Y /\ p_trajs p' = p_trajs p /\ p_odom p' = p_odom p /\ e = e'.
Proof.
  unfold pcm_remove_last_id. cbn [p_lcs set_trajs].
  destruct (lc_find id (p_lcs p)) as [m|].
  2:{ intros H1 H2. injection H1 as <- <-. injection H2 as <- <-. auto. }
  destruct (m_rows (me_adj m) <=? 0). { intros H1 H2. injection H1 as <- <-. injection H2 as <- <-. auto. }
  destruct (rev (me_factors m)) as [|last rest]; [discriminate|]. cbn beta zeta.
  match goal with |- context [rbind ?x _] => destruct x as [m'|] end; cbn [rbind]; [|discriminate].
  intros H1 H2. injection H1 as <- <-. injection H2 as <- <-. auto.
Qed.

Lemma remove_onto w (p p' q' : pcm) Y e e' : pcm_remove_last w p = Val (p', e) ->
  pcm_remove_last w (set_trajs p Y) = Val (q', e') -> q' = set_trajs p' Y /\ p_trajs p' = p_trajs p /\ p_odom p' = p_odom p /\ e = e'.
Proof.
  unfold pcm_remove_last. cbn [p_order set_trajs]. destruct (rev (p_order p)).
  - intros H1 H2. injection H1 as <- <-. injection H2 as <- <-. auto.
  - apply (@remove_id_onto w o (set_order p (removelast (p_order p))) p' q' Y).
Qed.

Lemma along_app (h1 h2 : list op) : along_tracks sp (h1 ++ h2) -> along_tracks sp h1.
Proof.
  intros [A1 A2 A3 A4]. split.
  - intros g1 o g2 fs vs l1 b l2 ->. rewrite <- app_assoc in A1. exact (A1 g1 o (g2 ++ h2) fs vs l1 b l2 eq_refl).
  - intros g1 o g2 fs vs b ->. rewrite <- app_assoc in A2. exact (A2 g1 o (g2 ++ h2) fs vs b eq_refl).
  - intros g1 o g2 fs vs b ->. rewrite <- app_assoc in A3. exact (A3 g1 o (g2 ++ h2) fs vs b eq_refl).
  - intros x y (o & fs & vs & D1 & D2) (o' & fs' & vs' & D3 & D4). apply A4.
    + exists o, fs, vs. split; auto. apply in_or_app; auto.
    + exists o', fs', vs'. split; auto. apply in_or_app; auto.
Qed.

Lemma on_track_app (l1 l2 : list bf) k : on_track l1 k -> on_track (l1 ++ l2) k.
Proof. intros (b & B1 & B2). exists b. split; auto. apply in_or_app; auto. Qed.

Lemma on_track_odoms (h1 h2 : list op) k : on_track (sp_odoms sp h1) k -> on_track (sp_odoms sp (h1 ++ h2)) k.
Proof. rewrite sp_odoms_app. apply on_track_app. Qed.

Lemma not_landmark (b : bf) : is_landmark_factor C b = false -> sp_landmark sp (b_from b) = false /\ sp_landmark sp (b_to b) = false.
Proof. unfold is_landmark_factor. intro H. apply orb_false_iff in H. exact H. Qed.

Lemma move_step W1 W2 g1 x1 x2 (t1 t2 s1 s2 : solver) q1 r1 r2 p1 p2 : so_pcm W1 = so_pcm W2 ->
  along_tracks sp (g1 ++ [x1]) -> run C W1 g1 start = Ok t1 q1 -> 
  s_pcm t1 = Some p1 -> s_pcm t2 = Some p2 -> alike p1 p2 -> bare x1 = bare x2 -> bare x1 <> [] ->
  (forall k, kmem k (s_vals t1) = kmem k (s_vals t2)) ->
  step C W1 x1 t1 = Ok s1 r1 -> step C W2 x2 t2 = Ok s2 r2 ->
  (exists p1' p2', s_pcm s1 = Some p1' /\ s_pcm s2 = Some p2' /\ alike p1' p2') /\ r1 = r2.
Proof.
  intros EW G H1 P1 P2 [RR (Y & -> & TW)] EB NB AV S1 S2.
  destruct (hist_run C W1 _ H1) as [p I]. assert (p = p1) by (pose proof (hi_pcm I) as X; rewrite P1 in X; injection X; auto). subst p.
  pose proof (step_rets C W1 _ _ S1) as R1. pose proof (step_rets C W2 _ _ S2) as R2.
  pose proof (step_inv C W1 x1 t1 P1 S1) as (u1 & pp1 & b1 & [E0 E] & _ & _ & _ & Ho).
  pose proof (step_inv C W2 x2 t2 P2 S2) as (u2 & pp2 & b2 & [F0 F] & _ & _ & _ & Fo).
  assert (X1 : s_pcm s1 = Some pp1).
  { destruct (optimises x1 b1); [|congruence]. destruct (optimize_same C W1 u1 Ho) as (Z & _). congruence. }
  assert (X2 : s_pcm s2 = Some pp2).
  { destruct (optimises x2 b2); [|congruence]. destruct (optimize_same C W2 u2 Fo) as (Z & _). congruence. }
  assert (SAME : forall a, p_trajs a = p_trajs p1 -> p_odom a = p_odom p1 -> alike a (set_trajs a Y)).
  { intros a A1 A2. split; [unfold reached in *; rewrite A1, A2; auto|]. exists Y. rewrite A1. auto. }
  assert (RO : forall fs vs y1 y2, call_of x1 = Some (fs, vs) -> call_of x2 = Some (fs, vs) ->
    remove_outliers C (so_pcm W1) fs vs (PSt p1 (s_nfg t1) (s_vals t1)) = Ok (PSt pp1 (s_nfg u1) (s_vals u1)) y1 ->
    remove_outliers C (so_pcm W2) fs vs (PSt (set_trajs p1 Y) (s_nfg t2) (s_vals t2)) = Ok (PSt pp2 (s_nfg u2) (s_vals u2)) y2 ->
    alike pp1 pp2).
  { intros fs vs y1 y2 C1 C2 Z1 Z2. rewrite <- EW in Z2.
    assert (OD : p_odom p1 ++ filter (sp_odometry sp vs) (betweens fs) = sp_odoms sp (g1 ++ [x1])).
    { rewrite (hi_odom I). rewrite sp_odoms_snoc, C1. reflexivity. }
    assert (DV : forall b, In (Some (FBetween b)) fs -> delivered (g1 ++ [x1]) (FBetween b)).
    { intros b Hb. exists x1, fs, vs. split; auto. apply in_or_app. right. left. auto. }
    assert (SP : forall k, kmem k (s_vals t1) || kmem k vs = true -> supplied (g1 ++ [x1]) k).
    { intros k Hk. apply supplied_snoc. apply orb_true_iff in Hk. destruct Hk as [Hk|Hk].
      - left. apply (hi_keys I). auto.
      - right. exists fs, vs. split; auto. apply kmem_In. auto. }
    destruct (@move_ro (so_pcm W1) fs vs p1 Y (s_nfg t1) (s_nfg t2) (s_vals t1) (s_vals t2) (PSt pp1 (s_nfg u1) (s_vals u1)) (PSt pp2 (s_nfg u2) (s_vals u2)) y1 y2
                (fun b => delivered (g1 ++ [x1]) (FBetween b)) RR TW) as [Z _]; auto; rewrite ?OD.
    - intros l1 b l2 El. rewrite (hi_odom I). apply (at_odometry G) with (h2 := []) (o := x1) (fs := fs) (vs := vs) (l2 := l2); auto.
    - intros b Hb Hc Hl K1 K2. destruct (not_landmark _ Hl) as [L1 L2]. apply (at_closure G) with (h2 := []) (o := x1) (fs := fs) (vs := vs); auto.
    - intros x (o & gs & ws & Hin & Hc & Hx) L1 L2. apply in_split in Hin. destruct Hin as (l1 & l2 & El). rewrite El.
      change (o :: l2) with ([o] ++ l2). rewrite app_assoc. apply on_track_odoms.
      apply (at_landmark G) with (h2 := l2) (o := o) (fs := gs) (vs := ws); auto.
    - exact (at_one_robot G).
    - eapply stored_ok_imp; [| |exact (hi_stored I)].
      + intros b (k1 & o & k2 & gs & ws & v1 & a1 & rs & -> & Hc & Hi & Hcand & _ & _ & U1 & U2 & _) Hl.
        destruct (not_landmark _ Hl) as [L1 L2].
        assert (EG : (k1 ++ o :: k2) ++ [x1] = (k1 ++ [o]) ++ (k2 ++ [x1])) by (rewrite <- !app_assoc; auto).
        rewrite EG. destruct (at_closure G) with (h1 := k1) (h2 := k2 ++ [x1]) (fs := gs) (vs := ws) (b := b) (o := o); auto.
        * rewrite <- app_assoc. reflexivity.
        * split; apply on_track_odoms; auto.
      + intros b. apply delivered_snoc. }
  rewrite X1, X2.
  destruct x1 as [fs vs opt|fs vs|c opt|a0 b0| |c|c|fs vs|fs vs|];
  destruct x2 as [fs' vs' opt'|fs' vs'|c' opt'|a0' b0'| |c'|c'|fs' vs'|fs' vs'|]; cbn [bare] in EB; try discriminate EB;
    try (exfalso; apply NB; reflexivity).
  1-4: injection EB as <- <-; split; [|rewrite R1, R2; auto]; destruct E as [x E], F as [y F];
       exists pp1, pp2; split; [auto|split; [auto|exact (RO _ _ _ _ eq_refl eq_refl E F)]].
  - injection EB as <-. destruct E as (-> & _), F as (-> & _). split; [|rewrite R1, R2; auto].
    eexists _, _. split; [reflexivity|]. split; [reflexivity|]. apply (SAME (pcm_remove_priors c p1)); auto.
  - injection EB as <- <-. destruct E as (e & -> & E & _), F as (e' & -> & F & _). rewrite EW in E.
    destruct (@remove_id_onto _ _ _ _ _ _ _ _ E F) as (-> & T1 & T2 & ->). split; auto. eexists _, _. split; [reflexivity|]. split; [reflexivity|]. auto.
  - destruct E as (e & -> & E & _), F as (e' & -> & F & _). rewrite EW in E.
    destruct (@remove_onto _ _ _ _ _ _ _ E F) as (-> & T1 & T2 & ->). split; auto. eexists _, _. split; [reflexivity|]. split; [reflexivity|]. auto.
  - injection EB as <-. destruct E as (-> & _), F as (-> & _). split; [|rewrite R1, R2; auto].
    eexists _, _. split; [reflexivity|]. split; [reflexivity|]. unfold pcm_ignore. cbn [p_ignored set_trajs].
    destruct (existsb (N.eqb c) (p_ignored p1)); [apply (SAME p1)|apply (SAME (set_ignored p1 (p_ignored p1 ++ [c])))]; auto.
  - injection EB as <-. destruct E as (-> & _), F as (-> & _). split; [|rewrite R1, R2; auto].
    eexists _, _. split; [reflexivity|]. split; [reflexivity|]. apply (SAME (pcm_revive c p1)); auto.
Qed.

Theorem tracks_decide (W1 W2 : soracles O) h1 h2 (s1 s2 : solver) rs1 rs2 : so_pcm W1 = so_pcm W2 ->
  same_calls h1 h2 -> along_tracks sp h1 ->
  run C W1 h1 start = Ok s1 rs1 -> run C W2 h2 start = Ok s2 rs2 ->
  s_nfg s1 = s_nfg s2 /\ map fst (s_vals s1) = map fst (s_vals s2) /\ reported rs1 = reported rs2.
Proof.
  intros EW HS HO H1 H2.
  destruct (@lockstep O C W1 W2 alike (along_tracks sp)) with (n := length h1 + length h2) (h1 := h1) (h2 := h2)
    (s1 := s1) (s2 := s2) (rs1 := rs1) (rs2 := rs2) as ((p1 & p2 & P1 & P2 & [_ (Y & -> & _)]) & A2); auto.
  - split.
    + split; [intros b []|]. intros c Hc. destruct Hc. reflexivity.
    + exists []. split; [reflexivity|]. intro c. exact Logic.I.
  - apply along_app.
  - intros g1 g2 x1 x2 t1 t2 u1 u2 q1 q2 r1 r2 a1 a2 G R1 _. intros. eapply move_step; eauto.
  - split; [|split; auto; eapply same_keys; eauto].
    destruct (hist_run C W1 _ H1) as [q1 I1]. destruct (hist_run C W2 _ H2) as [q2 I2].
    pose proof (hi_pcm I1) as X. pose proof (hi_pcm I2) as Z. rewrite (hi_nfg I1), (hi_nfg I2), EW.
    rewrite P1 in X. rewrite P2 in Z. injection X as <-. injection Z as <-. symmetry. apply graph_of_frame; auto.
Qed.

Theorem tracks_without W h (s s' : solver) rs rs' : along_tracks sp h ->
  run C W h start = Ok s rs -> run C W (without_temps h) start = Ok s' rs' ->
  s_nfg s = s_nfg s' /\ map fst (s_vals s) = map fst (s_vals s') /\ reported rs = reported rs'.
Proof.
  intros HO H1 H2. exact (@tracks_decide W W _ _ _ _ _ _ eq_refl (without_same h) HO H1 H2).
Qed.
End Move.

(** ** The two kinds of poses *)
Section Instances.
Variable G : geom.
Hypothesis L : pose_group G.

Lemma moved_between m a b : g_between G (g_comp G m a) (g_comp G m b) = g_between G a b.
Proof.
  assert (IR : forall x, g_comp G x (g_inv G x) = g_id G).
  { intro x. rewrite <- (pg_id_l L (g_comp G x (g_inv G x))), <- (pg_inv_l L (g_inv G x)) at 1.
    rewrite <- (pg_assoc L). rewrite (pg_assoc L (g_inv G x) x), (pg_inv_l L), (pg_id_l L). apply (pg_inv_l L). }
  assert (ID : forall x, g_comp G x (g_id G) = x).
  { intro x. rewrite <- (pg_inv_l L x), (pg_assoc L), IR. apply (pg_id_l L). }
  assert (IC : forall x y, g_inv G (g_comp G x y) = g_comp G (g_inv G y) (g_inv G x)).
  { intros x y. rewrite <- (ID (g_inv G (g_comp G x y))).
    assert (E : g_comp G (g_comp G x y) (g_comp G (g_inv G y) (g_inv G x)) = g_id G).
    { rewrite <- (pg_assoc L), (pg_assoc L y), IR, (pg_id_l L). apply IR. }
    rewrite <- E, (pg_assoc L), (pg_inv_l L). apply (pg_id_l L). }
  unfold g_between. rewrite IC, <- (pg_assoc L), (pg_assoc L _ m b), (pg_inv_l L), (pg_id_l L). auto.
Qed.

Lemma moved_start (x x' : g_pose G) : exists m, x' = g_comp G m x.
Proof.
  exists (g_comp G x' (g_inv G x)). rewrite <- (pg_assoc L), (pg_inv_l L).
  assert (IR : forall x, g_comp G x (g_inv G x) = g_id G).
  { intro y. rewrite <- (pg_id_l L (g_comp G y (g_inv G y))), <- (pg_inv_l L (g_inv G y)) at 1.
    rewrite <- (pg_assoc L). rewrite (pg_assoc L (g_inv G y) y), (pg_inv_l L), (pg_id_l L). apply (pg_inv_l L). }
  rewrite <- (pg_inv_l L x'), (pg_assoc L), IR. symmetry. apply (pg_id_l L).
Qed.

Definition node_moved (m : g_pose G) (a a' : pnode G) : Prop :=
  pn_pose a' = g_comp G m (pn_pose a) /\ pn_node a' = pn_node a /\ pn_rot a' = pn_rot a.
Definition cov_moved (m : g_pose G) (a a' : pcov G) : Prop :=
  pc_pose a' = g_comp G m (pc_pose a) /\ pc_cov a' = pc_cov a /\ pc_rot a' = pc_rot a.

Theorem tracks_decide_node pp C (W1 W2 : soracles (node_ops G pp)) h1 h2 s1 s2 rs1 rs2 : so_pcm W1 = so_pcm W2 ->
  same_calls h1 h2 -> along_tracks (c_special C) h1 ->
  run C W1 h1 (solver_init true) = Ok s1 rs1 -> run C W2 h2 (solver_init true) = Ok s2 rs2 ->
  s_nfg s1 = s_nfg s2 /\ map fst (s_vals s1) = map fst (s_vals s2) /\ reported rs1 = reported rs2.
Proof.
  apply (@tracks_decide (node_ops G pp) C (g_pose G) node_moved).
  - intros x x'. destruct (moved_start x x') as [m Hm]. exists m. split; auto.
  - intros m a a' d (H1 & H2 & H3). cbn [t_comp node_ops]. unfold node_moved, pn_comp. cbn [pn_pose pn_node pn_rot].
    rewrite H1, H2, H3, (pg_assoc L). auto.
  - intros m a a' b b' (H1 & H2 & H3) (K1 & K2 & K3). cbn [t_between node_ops]. unfold pn_between.
    rewrite H1, H2, H3, K1, K2, K3, moved_between. auto.
Qed.

Theorem tracks_decide_cov pp C (W1 W2 : soracles (cov_ops G pp)) h1 h2 s1 s2 rs1 rs2 : so_pcm W1 = so_pcm W2 ->
  same_calls h1 h2 -> along_tracks (c_special C) h1 ->
  run C W1 h1 (solver_init true) = Ok s1 rs1 -> run C W2 h2 (solver_init true) = Ok s2 rs2 ->
  s_nfg s1 = s_nfg s2 /\ map fst (s_vals s1) = map fst (s_vals s2) /\ reported rs1 = reported rs2.
Proof.
  apply (@tracks_decide (cov_ops G pp) C (g_pose G) cov_moved).
  - intros x x'. destruct (moved_start x x') as [m Hm]. exists m. split; auto.
  - intros m a a' d (H1 & H2 & H3). cbn [t_comp cov_ops]. unfold cov_moved, pc_comp. cbn [pc_pose pc_cov pc_rot].
    rewrite H1, H2, H3, (pg_assoc L). auto.
  - intros m a a' b b' (H1 & H2 & H3) (K1 & K2 & K3). cbn [t_between cov_ops]. unfold pc_between.
    rewrite H1, H2, H3, K1, K2, K3, !moved_between. auto.
Qed.
End Instances.

(** ** A check for the hypotheses *)
Section Check.
Variable O : tops.
Variable sp : list N.
Notation bf := (bf O).
Notation op := (op O).

Definition track_b (odos : list bf) (k : key) : bool :=
  existsb (fun b => (chr (b_to b) =? chr k)%N && ((k =? b_from b) || (k =? b_to b))%N) odos.
Fixpoint odos_b (odos od : list bf) : bool :=
  match od with
  | [] => true
  | b :: r =>
      (negb (existsb (fun b' => (chr (b_to b') =? chr (b_to b))%N) odos) ||
       existsb (fun b' => (chr (b_to b') =? chr (b_to b))%N && ((b_from b =? b_from b') || (b_from b =? b_to b'))%N) odos)
      && odos_b (odos ++ [b]) r
  end.
Fixpoint along_b (odos : list bf) (h : list op) : bool :=
  match h with
  | [] => true
  | o :: r =>
      match call_of o with
      | None => along_b odos r
      | Some (fs, vs) =>
          let od := filter (sp_odometry sp vs) (betweens fs) in
          odos_b odos od &&
          forallb (fun b => negb (sp_candidate sp vs b) || sp_landmark sp (b_from b) || sp_landmark sp (b_to b) ||
                            track_b (odos ++ od) (b_from b) && track_b (odos ++ od) (b_to b)) (betweens fs) &&
          forallb (fun b => sp_landmark sp (b_from b) || negb (sp_landmark sp (b_to b)) || track_b (odos ++ od) (b_from b)) (betweens fs) &&
          along_b (odos ++ od) r
      end
  end.
Definition delivered_bets (h : list op) : list bf :=
  flat_map (fun o => match call_of o with Some (fs, _) => betweens fs | None => [] end) h.
Definition one_robot_b (h : list op) : bool :=
  let l := filter (fun b => negb (sp_landmark sp (b_from b)) && sp_landmark sp (b_to b)) (delivered_bets h) in
  forallb (fun x => forallb (fun y => negb (b_to x =? b_to y)%N || (chr (b_from x) =? chr (b_from y))%N) l) l.

Lemma track_check odos k : track_b odos k = true -> on_track odos k.
Proof.
  unfold track_b. rewrite existsb_exists. intros (b & B1 & B2). apply andb_true_iff in B2. destruct B2 as [B2 B3].
  apply N.eqb_eq in B2. apply orb_true_iff in B3. rewrite !N.eqb_eq in B3. exists b. auto.
Qed.

Lemma odos_check od : forall odos, odos_b odos od = true -> forall l1 b l2, od = l1 ++ b :: l2 ->
  (exists b', In b' (odos ++ l1) /\ chr (b_to b') = chr (b_to b)) ->
  exists b', In b' (odos ++ l1) /\ chr (b_to b') = chr (b_to b) /\ (b_from b = b_from b' \/ b_from b = b_to b').
Proof.
  induction od as [|d od IH]; intros odos H l1 b l2 E Hex.
  { destruct l1; discriminate. }
  cbn [odos_b] in H. apply andb_true_iff in H. destruct H as [H1 H2].
  destruct l1 as [|d' l1].
  - injection E as <- <-. rewrite app_nil_r in *. apply orb_true_iff in H1. destruct H1 as [H1|H1].
    + exfalso. apply negb_true_iff in H1. destruct Hex as (b' & B1 & B2).
      assert (X : existsb (fun b' => (chr (b_to b') =? chr (b_to d))%N) odos = true).
      { apply existsb_exists. exists b'. split; auto. apply N.eqb_eq. auto. }
      congruence.
    + apply existsb_exists in H1. destruct H1 as (b' & B1 & B2). apply andb_true_iff in B2. destruct B2 as [B2 B3].
      apply N.eqb_eq in B2. apply orb_true_iff in B3. rewrite !N.eqb_eq in B3. exists b'. auto.
  - injection E as <- ->. specialize (IH _ H2 l1 b l2 eq_refl). rewrite <- app_assoc in IH. auto.
Qed.

Lemma along_split h : forall odos, along_b odos h = true -> forall h1 o h2 fs vs, h = h1 ++ o :: h2 -> call_of o = Some (fs, vs) ->
  let od := filter (sp_odometry sp vs) (betweens fs) in let pre := odos ++ sp_odoms sp h1 in
  odos_b pre od = true /\
  forallb (fun b => negb (sp_candidate sp vs b) || sp_landmark sp (b_from b) || sp_landmark sp (b_to b) ||
                    track_b (pre ++ od) (b_from b) && track_b (pre ++ od) (b_to b)) (betweens fs) = true /\
  forallb (fun b => sp_landmark sp (b_from b) || negb (sp_landmark sp (b_to b)) || track_b (pre ++ od) (b_from b)) (betweens fs) = true.
Proof.
  induction h as [|x h IH]; intros odos H h1 o h2 fs vs E Hc.
  { destruct h1; discriminate. }
  destruct h1 as [|x' h1].
  - injection E as <- <-. cbn [along_b] in H. rewrite Hc in H. cbn zeta in *. rewrite !andb_true_iff in H.
    unfold sp_odoms. cbn [flat_map]. rewrite app_nil_r. tauto.
  - injection E as <- ->. assert (EO : sp_odoms sp (x :: h1) =
        match call_of x with Some (fs, vs) => filter (sp_odometry sp vs) (betweens fs) | None => [] end ++ sp_odoms sp h1) by reflexivity.
    cbn zeta. rewrite EO. cbn [along_b] in H. destruct (call_of x) as [[gs ws]|].
    + cbn zeta in H. rewrite !andb_true_iff in H. destruct H as [_ H]. specialize (IH _ H h1 o h2 fs vs eq_refl Hc). cbn zeta in IH.
      rewrite !app_assoc. exact IH.
    + exact (IH _ H h1 o h2 fs vs eq_refl Hc).
Qed.

Lemma In_delivered (h : list op) x : delivered h (FBetween x) -> In x (delivered_bets h).
Proof.
  intros (o & fs & vs & H1 & H2 & H3). unfold delivered_bets. apply in_flat_map. exists o. split; auto. rewrite H2. apply In_betweens. auto.
Qed.

Lemma along_check (h : list op) : along_b [] h && one_robot_b h = true -> along_tracks sp h.
Proof.
  intro H. apply andb_true_iff in H. destruct H as [H HR].
  assert (SN : forall h1 (o : op) fs vs, call_of o = Some (fs, vs) ->
     sp_odoms sp (h1 ++ [o]) = sp_odoms sp h1 ++ filter (sp_odometry sp vs) (betweens fs)).
  { intros h1 o fs vs Hc. unfold sp_odoms. rewrite flat_map_app. cbn [flat_map]. rewrite Hc, app_nil_r. auto. }
  split.
  - intros h1 o h2 fs vs l1 b l2 E Hc Hl Hex. destruct (@along_split h [] H h1 o h2 fs vs E Hc) as (A1 & _). cbn [app] in A1.
    eapply odos_check; eauto.
  - intros h1 o h2 fs vs b E Hc Hb Hcand L1 L2 _ _. destruct (@along_split h [] H h1 o h2 fs vs E Hc) as (_ & A2 & _). cbn [app] in A2.
    rewrite forallb_forall in A2. specialize (A2 b (proj2 (In_betweens _ _) Hb)). rewrite Hcand, L1, L2 in A2. cbn [negb orb] in A2.
    apply andb_true_iff in A2. rewrite (SN _ _ _ _ Hc). destruct A2. split; apply track_check; auto.
  - intros h1 o h2 fs vs b E Hc Hb L1 L2. destruct (@along_split h [] H h1 o h2 fs vs E Hc) as (_ & _ & A3). cbn [app] in A3.
    rewrite forallb_forall in A3. specialize (A3 b (proj2 (In_betweens _ _) Hb)). rewrite L1, L2 in A3. cbn [negb orb] in A3.
    rewrite (SN _ _ _ _ Hc). apply track_check; auto.
  - intros x y Dx Dy L1 L2 L3 E. unfold one_robot_b in HR. rewrite forallb_forall in HR.
    assert (Ix : In x (filter (fun b => negb (sp_landmark sp (b_from b)) && sp_landmark sp (b_to b)) (delivered_bets h))).
    { apply filter_In. split; [apply In_delivered; auto|]. rewrite L1, L3. auto. }
    specialize (HR x Ix). rewrite forallb_forall in HR. 
    assert (Iy : In y (filter (fun b => negb (sp_landmark sp (b_from b)) && sp_landmark sp (b_to b)) (delivered_bets h))).
    { apply filter_In. split; [apply In_delivered; auto|]. rewrite L2, <- E, L3. auto. }
    specialize (HR y Iy). rewrite E, N.eqb_refl in HR. cbn [negb orb] in HR. apply N.eqb_eq. auto.
Qed.

(** The same for [starts_supplied]. *)
Fixpoint first_b (vs : list key) (odos od : list bf) : bool :=
  match od with
  | [] => true
  | b :: r => (existsb (fun b' => (chr (b_to b') =? chr (b_to b))%N) odos || existsb (N.eqb (b_from b)) vs) && first_b vs (odos ++ [b]) r
  end.
Fixpoint starts_b (odos : list bf) (h : list op) : bool :=
  match h with
  | [] => true
  | o :: r =>
      match call_of o with
      | None => starts_b odos r
      | Some (fs, vs) =>
          let od := filter (sp_odometry sp vs) (betweens fs) in
          first_b (map fst vs) odos od && starts_b (odos ++ od) r
      end
  end.

Lemma first_check vs od : forall odos, first_b vs odos od = true -> forall l1 b l2, od = l1 ++ b :: l2 ->
  (forall b', In b' (odos ++ l1) -> chr (b_to b') <> chr (b_to b)) -> In (b_from b) vs.
Proof.
  induction od as [|d od IH]; intros odos H l1 b l2 E Hn.
  { destruct l1; discriminate. }
  cbn [first_b] in H. apply andb_true_iff in H. destruct H as [H1 H2].
  destruct l1 as [|d' l1].
  - injection E as <- <-. rewrite app_nil_r in *. apply orb_true_iff in H1. destruct H1 as [H1|H1].
    + exfalso. apply existsb_exists in H1. destruct H1 as (b' & B1 & B2). apply N.eqb_eq in B2. exact (Hn b' B1 B2).
    + apply existsb_exists in H1. destruct H1 as (k & K1 & K2). apply N.eqb_eq in K2. rewrite K2. auto.
  - injection E as <- ->. specialize (IH _ H2 l1 b l2 eq_refl). rewrite <- app_assoc in IH. auto.
Qed.

Lemma starts_split h : forall odos, starts_b odos h = true -> forall h1 o h2 fs vs, h = h1 ++ o :: h2 -> call_of o = Some (fs, vs) ->
  first_b (map fst vs) (odos ++ sp_odoms sp h1) (filter (sp_odometry sp vs) (betweens fs)) = true.
Proof.
  induction h as [|x h IH]; intros odos H h1 o h2 fs vs E Hc.
  { destruct h1; discriminate. }
  destruct h1 as [|x' h1].
  - injection E as <- <-. cbn [starts_b] in H. rewrite Hc in H. cbn zeta in *. rewrite !andb_true_iff in H.
    unfold sp_odoms. cbn [flat_map]. rewrite app_nil_r. tauto.
  - injection E as <- ->. assert (EO : sp_odoms sp (x :: h1) =
        match call_of x with Some (fs, vs) => filter (sp_odometry sp vs) (betweens fs) | None => [] end ++ sp_odoms sp h1) by reflexivity.
    rewrite EO. cbn [starts_b] in H. destruct (call_of x) as [[gs ws]|].
    + cbn zeta in H. rewrite !andb_true_iff in H. destruct H as [_ H]. specialize (IH _ H h1 o h2 fs vs eq_refl Hc).
      rewrite !app_assoc. exact IH.
    + exact (IH _ H h1 o h2 fs vs eq_refl Hc).
Qed.

Lemma starts_check (h : list op) : starts_b [] h = true -> starts_supplied sp h.
Proof.
  intros H h1 o h2 fs vs l1 b l2 E Hc El Hn. pose proof (@starts_split h [] H h1 o h2 fs vs E Hc) as A. cbn [app] in A.
  eapply first_check; eauto.
Qed.
End Check.
