(** * Estimates, weights and temporary values; safety of the weights without GNC *)
From Coq Require Import QArith.
From Verif Require Import Prelude Num Keys KMap UMap Geometry Factors Clique Pcm Solver ValuesProofs
  PcmSpec PcmProofs PcmInv HistSpec StoreSpec EstSpec SolverProofs HistProofs PlainProofs UpdateProofs GraphProofs
  StoreProofs LiveProofs StoreThms SafeProofs.
Set Implicit Arguments.
Local Open Scope nat_scope.

Section Est.
Variable O : tops.
Variable C : config.
Variable W : soracles O.
Notation bf := (bf O).
Notation values := (values O).
Notation pcm := (pcm O).
Notation sp := (c_special C).
Notation op := (op O).
Notation solver := (solver O).

(** ** An optimisation *)

Lemma answered_value (a : answer O) k v : answered a k v (answer_value a k v).
Proof. destruct v; reflexivity. Qed.

Lemma keys_kmem (k : key) (m : values) : In k (map fst m) <-> kmem k m = true.
Proof. symmetry. apply kmem_In. Qed.

Lemma optimize_settled (s s' : solver) : ksorted (s_vals s) -> optimize C W s = Ok s' tt ->
  exists q a, settled W s s' q a /\ s_latest s' = latest_after s /\
    forall k, kfind k (rq_vals q) = first_of k [s_vals s; s_tvals s].
Proof.
  intros HS H. apply optimize_inv in H. destruct H as (q & a & full & Z).
  exists q, a. pose proof (oz_full Z) as HV. apply vinsert_all_ok in HV. destruct HV as (V1 & V2 & V3 & V4).
  specialize (V4 HS).
  assert (HQ : forall k, kfind k (rq_vals q) = first_of k [s_vals s; s_tvals s]).
  { intro k. rewrite (oz_req Z), V1. cbn [first_of]. destruct (kfind k (s_vals s)); auto.
    destruct (kfind k (s_tvals s)); auto. }
  split; [|split; [apply (oz_latest Z)|exact HQ]].
  destruct (@update_values_answer O a full (s_vals s) (s_tvals s)) as (v' & tv' & E & U1 & U2 & _).
  { apply ksorted_NoDup; auto. }
  { intros k x Hin. apply (kfind_sorted_In _ _ V4) in Hin. rewrite V1 in Hin.
    destruct (kfind k (s_vals s)) as [x0|]; [inversion Hin; apply same_type_refl|].
    rewrite Hin. apply same_type_refl. }
  rewrite (oz_vals Z) in E. injection E as <- <-.
  assert (KV : forall k, kmem k (s_vals s') = kmem k (s_vals s)).
  { intro k. unfold kmem. rewrite U1. destruct (kfind k (s_vals s)); auto. }
  assert (KT : forall k, kmem k (s_tvals s') = kmem k (s_tvals s)).
  { intro k. unfold kmem. rewrite U2. destruct (kfind k (s_tvals s)); auto. }
  split; [apply (oz_trace Z)|]. split; [apply (oz_ans Z)|]. split; [|split; [|split; [|split; [|split]]]].
  - intro k. rewrite !keys_kmem, KV, KT. unfold kmem. rewrite HQ. cbn [first_of].
    destruct (kfind k (s_vals s)), (kfind k (s_tvals s)); split; try tauto; intros [X|X]; auto.
  - intro k. rewrite !keys_kmem, KT. tauto.
  - intros k x Hx. rewrite U1 in Hx. rewrite (oz_req Z). specialize (V1 k).
    destruct (kfind k (s_vals s)) as [x0|]; [|discriminate]. rewrite V1 in Hx. injection Hx as <-.
    exists x0. split; auto. apply answered_value.
  - intros k x Hx. rewrite U2 in Hx. rewrite (oz_req Z). pose proof (V1 k) as V1k.
    destruct (kfind k (s_tvals s)) as [x0|] eqn:ET; [|discriminate].
    assert (EV : kfind k (s_vals s) = None).
    { assert (In k (kkeys (s_tvals s))) as Hin by (apply kmem_In; unfold kmem; rewrite ET; auto).
      apply V2 in Hin. unfold kmem in Hin. destruct (kfind k (s_vals s)); [discriminate|auto]. }
    rewrite EV in *. rewrite V1k in Hx. injection Hx as <-. exists x0. split; auto. apply answered_value.
  - intro HK. pose proof (oz_branch Z) as B. rewrite (oz_nfg Z), (oz_tnfg Z).
    destruct (gnc_branch C s); [|destruct B; congruence]. destruct B as (_ & _ & B1 & B2 & _). auto.
  - intro HK. pose proof (oz_branch Z) as B. rewrite (oz_nfg Z), (oz_tnfg Z).
    destruct (gnc_branch C s).
    + destruct B as (B & _). rewrite B in HK. discriminate.
    + destruct B as (_ & _ & _ & _ & L1 & _ & B1 & B2 & _). auto.
Qed.

(** ** A call *)

Lemma not_temp_optimises (o : op) b : optimises o b = true -> is_temp o = false.
Proof. destruct o; cbn; auto; discriminate. Qed.

Lemma first_of_two (k : key) (a : values) : first_of k [a; []] = kfind k a.
Proof. cbn. destruct (kfind k a); auto. Qed.

(** The first half of a call, as far as estimates are concerned. *)
Definition prepared (o : op) (s s1 : solver) : Prop :=
  ksorted (s_vals s1) /\ same_opt_state s s1 /\
  (c_align C = false \/ call_of o = None -> forall k, kfind k (s_vals s1) = first_of k [s_vals s; values_of o]) /\
  temps_given o (s_tvals s) (s_tvals s1).

Lemma prepared_finish o (s s1 s' : solver) b : prepared o s s1 ->
  (if optimises o b then optimize C W s1 = Ok s' tt else s' = s1) -> untouched C o s s' \/ estimated C W o s s'.
Proof.
  intros (HS & (E1 & E2 & E3 & E4 & E5) & HV & HT) H. destruct (optimises o b) eqn:EO.
  - right. apply not_temp_optimises in EO. apply (optimize_settled _ HS) in H.
    destruct H as (q & a & (T1 & T2 & T3 & T0 & T4 & T5 & T6 & T7) & _ & HQ).
    assert (ET : s_tvals s1 = s_tvals s) by (destruct o; cbn in EO, HT; try discriminate; auto). rewrite ET in *.
    split; [auto|]. exists q, a. split.
    + rewrite E5 in *. rewrite E1, E4 in *. split; [auto|]. split; [auto|]. split; [auto|]. auto.
    + intros HA k. rewrite HQ. cbn [first_of]. rewrite (HV HA k). cbn [first_of].
      destruct (kfind k (s_vals s)); auto. destruct (kfind k (values_of o)); auto.
  - left. subst s'. split; [auto|]. split; [auto|]. split; [auto|]. auto.
Qed.

Lemma temps_effect (o : op) (s s1 : solver) : temp_effect o s s1 -> temps_given o (s_tvals s) (s_tvals s1).
Proof.
  destruct o as [fs vs opt|fs vs|c opt|a b| |c|c|fs vs|fs vs|]; cbn [temp_effect temps_given]; intros [_ T]; auto.
  - destruct T as [u T]. apply vinsert_all_ok in T. destruct T as (T & _). intro k. rewrite T. cbn.
    destruct (kfind k (s_tvals s)); auto. destruct (kfind k vs); auto.
  - rewrite T. auto.
Qed.

Lemma est_step h (s : solver) rs o s' r : run C W h (solver_init true) = Ok s rs -> step C W o s = Ok s' r ->
  untouched C o s s' \/ estimated C W o s s'.
Proof.
  intros HR Hs. destruct (hist_run C W _ HR) as (p & I).
  pose proof (step_inv C W o s (hi_pcm I) Hs) as (s1 & p' & b & CE & TE & SO & RO & Ho).
  eapply prepared_finish; [|exact Ho]. pose proof (temps_effect _ _ _ TE) as TG.
  assert (K : call_of o = None -> s_vals s1 = s_vals s -> prepared o s s1).
  { intros Hc Hv. split; [rewrite Hv; apply (hi_sorted I)|]. split; [auto|]. split; [|auto].
    intros _ k. rewrite Hv. unfold values_of. rewrite Hc, first_of_two. auto. }
  destruct CE as [_ CE].
  destruct o as [fs vs opt|fs vs|c opt|ca cb| |c|c|fs vs|fs vs|]; cbn [call_effect] in CE.
  1,2: assert (X : remove_outliers C (so_pcm W) fs vs (PSt p (s_nfg s) (s_vals s)) = Ok (PSt p' (s_nfg s1) (s_vals s1)) b) by (apply RO; eauto).
  1,2: clear RO CE K;
    pose proof (remove_outliers_ok _ _ _ _ _ _ _ X) as Y; split; [apply Y; apply (hi_sorted I)|]; split; [auto|]; split; [|auto];
    intros [HA|HA]; [|discriminate]; intro k; pose proof (remove_outliers_vals C W _ _ _ X HA) as V; cbn [ps_vals] in V;
    apply vinsert_all_ok in V; destruct V as (V & _); rewrite V; cbn; destruct (kfind k (s_vals s)); auto; destruct (kfind k vs); auto.
  all: apply K; [reflexivity|].
  all: repeat match goal with H : _ /\ _ |- _ => destruct H | H : exists _, _ |- _ => destruct H end; auto.
Qed.

(** ** Without outlier rejection *)

Lemma est_step_plain h (s : solver) rs o s' r : run C W h (solver_init false) = Ok s rs -> step C W o s = Ok s' r ->
  untouched C o s s' \/ estimated C W o s s'.
Proof.
  intros HR Hs. apply plain_run in HR. destruct HR as [I1 _ _ I4 _].
  assert (K : forall s1, call_of o = None -> s_vals s1 = s_vals s -> s_tvals s1 = s_tvals s -> same_opt_state s s1 -> is_temp o = false -> prepared o s s1).
  { intros s1 Hc Hv Ht HS Hm. split; [rewrite Hv; auto|]. split; [auto|]. split.
    - intros _ k. rewrite Hv. unfold values_of. rewrite Hc, first_of_two. auto.
    - rewrite Ht. destruct o; cbn in *; auto; discriminate. }
  destruct o as [fs vs opt|fs vs|c opt|a b| |c|c|fs vs|fs vs|]; cbn [step] in Hs; unfold no_ret, edge_ret in Hs.
  - destruct (update C W fs vs opt s) as [s2 []| |] eqn:E; cbn [obind] in Hs; try discriminate. inversion Hs; subst. clear Hs.
    unfold update, ingest in E. rewrite I1 in E.
    destruct (add_and_check fs vs s) as [s1 b| |] eqn:E1; cbn [obind] in E; try discriminate.
    apply add_and_check_inv in E1. destruct E1 as (A1 & A2 & A3 & A4 & A5 & A6 & _).
    apply (@prepared_finish (OpUpdate fs vs opt) s s1 s' b).
    + apply vinsert_all_ok in A6. destruct A6 as (V & _ & _ & V4). split; [auto|]. split; [auto|]. split; [|auto].
      intros _ k. rewrite V. cbn. destruct (kfind k (s_vals s)); auto. destruct (kfind k vs); auto.
    + cbn [optimises]. destruct (b && opt) eqn:Eb.
      * destruct (optimize C W s1) as [s2 []| |] eqn:E2; cbn [obind] in E; try discriminate.
        destruct opt; [apply log_status_inv in E|inversion E]; congruence.
      * cbn [obind] in E. destruct opt; [apply log_status_inv in E|inversion E]; congruence.
  - destruct (force_update C W fs vs s) as [s2 []| |] eqn:E; cbn [obind] in Hs; try discriminate. inversion Hs; subst. clear Hs.
    unfold force_update, ingest in E. rewrite I1 in E.
    destruct (add_and_check fs vs s) as [s1 b| |] eqn:E1; cbn [obind] in E; try discriminate.
    apply add_and_check_inv in E1. destruct E1 as (A1 & A2 & A3 & A4 & A5 & A6 & _).
    apply (@prepared_finish (OpForce fs vs) s s1 s' b).
    + apply vinsert_all_ok in A6. destruct A6 as (V & _ & _ & V4). split; [auto|]. split; [auto|]. split; [|auto].
      intros _ k. rewrite V. cbn. destruct (kfind k (s_vals s)); auto. destruct (kfind k vs); auto.
    + cbn [optimises]. destruct (optimize C W s1) as [s2 []| |] eqn:E2; cbn [obind] in E; try discriminate.
      apply log_status_inv in E. congruence.
  - destruct (remove_priors C W c opt s) as [s2 []| |] eqn:E; cbn [obind] in Hs; try discriminate. inversion Hs; subst. clear Hs.
    unfold remove_priors in E. rewrite I1 in E.
    match type of E with (if opt then optimize C W ?x else _) = _ => apply (@prepared_finish (OpRemovePriors c opt) s x s' true) end.
    + apply K; auto. unfold same_opt_state. cbn. auto.
    + cbn [optimises]. destruct opt; auto. inversion E; auto.
  - unfold remove_last_id in Hs. rewrite I1 in Hs.
    destruct (remove_last_factor s) as [s1 e| |] eqn:E1; cbn [obind] in Hs; try discriminate.
    assert (X : s_tvals s1 = s_tvals s /\ same_opt_state s s1).
    { unfold remove_last_factor in E1. destruct (rev (s_nfg s)) as [|[f|] l]; try discriminate. destruct (f_keys f); [discriminate|].
      inversion E1; subst. unfold same_opt_state. cbn. repeat split. }
    destruct X as [X1 X2]. apply remove_last_factor_inv in E1. destruct E1 as (A1 & A2 & A3 & _).
    apply (@prepared_finish (OpRemoveId a b) s s1 s' true).
    + apply K; auto.
    + cbn [optimises]. destruct (optimize C W s1) as [s2 []| |] eqn:E2; cbn [obind] in Hs; try discriminate. inversion Hs; subst; auto.
  - unfold remove_last in Hs. rewrite I1 in Hs.
    destruct (remove_last_factor s) as [s1 e| |] eqn:E1; cbn [obind] in Hs; try discriminate.
    assert (X : s_tvals s1 = s_tvals s /\ same_opt_state s s1).
    { unfold remove_last_factor in E1. destruct (rev (s_nfg s)) as [|[f|] l]; try discriminate. destruct (f_keys f); [discriminate|].
      inversion E1; subst. unfold same_opt_state. cbn. repeat split. }
    destruct X as [X1 X2]. apply remove_last_factor_inv in E1. destruct E1 as (A1 & A2 & A3 & _).
    apply (@prepared_finish OpRemoveLast s s1 s' true).
    + apply K; auto.
    + cbn [optimises]. destruct (optimize C W s1) as [s2 []| |] eqn:E2; cbn [obind] in Hs; try discriminate. inversion Hs; subst; auto.
  - unfold ignore_prefix, with_pcm in Hs. rewrite I1 in Hs.
    destruct (optimize C W s) as [s2 []| |] eqn:E; cbn [obind] in Hs; try discriminate. inversion Hs; subst.
    apply (@prepared_finish (OpIgnore c) s s s' true); [|exact E]. apply K; auto. unfold same_opt_state. auto.
  - unfold revive_prefix, with_pcm in Hs. rewrite I1 in Hs.
    destruct (optimize C W s) as [s2 []| |] eqn:E; cbn [obind] in Hs; try discriminate. inversion Hs; subst.
    apply (@prepared_finish (OpRevive c) s s s' true); [|exact E]. apply K; auto. unfold same_opt_state. auto.
  - left. unfold temp_update in Hs. destruct (vinsert_all vs (s_tvals s)) as [tv []| |] eqn:E; cbn [obind] in Hs; try discriminate.
    inversion Hs; subst. apply vinsert_all_ok in E. destruct E as (V & _). repeat split; auto.
    + intros _ k. rewrite first_of_two. auto.
    + cbn [temps_given]. intro k. cbn [s_tvals set_temp]. rewrite V. cbn. destruct (kfind k (s_tvals s)); auto. destruct (kfind k vs); auto.
  - left. inversion Hs; subst. repeat split; auto. intros _ k. rewrite first_of_two. auto.
  - left. inversion Hs; subst. repeat split; auto. intros _ k. rewrite first_of_two. auto.
Qed.

Lemma est_any with_pcm h (s : solver) rs o s' r : run C W h (solver_init with_pcm) = Ok s rs -> step C W o s = Ok s' r ->
  untouched C o s s' \/ estimated C W o s s'.
Proof. destruct with_pcm; [apply est_step|apply est_step_plain]. Qed.

(** ** Temporary variables *)

Lemma kmem_first_of (k : key) (ms : list values) : first_of k ms <> None <-> Exists (fun m => kmem k m = true) ms.
Proof.
  induction ms as [|m ms IH]; cbn [first_of].
  - split; [congruence|intro H; inversion H].
  - rewrite Exists_cons, <- IH. unfold kmem. destruct (kfind k m); split; auto; try discriminate.
    intros [X|X]; auto. discriminate.
Qed.

Lemma temp_keys with_pcm h : forall (s : solver) rs, run C W h (solver_init with_pcm) = Ok s rs ->
  forall k, In k (map fst (s_tvals s)) <-> In k (sp_temp_keys h).
Proof.
  induction h as [|o h IH] using rev_ind; intros s rs H k.
  - injection H as <- <-. destruct with_pcm; reflexivity.
  - apply run_snoc in H. destruct H as (s1 & rs1 & r & H1 & H2 & _).
    specialize (IH _ _ H1 k). unfold sp_temp_keys in *. rewrite fold_left_app. cbn [fold_left].
    rewrite !keys_kmem in *.
    destruct (est_any _ _ _ H1 H2) as [(_ & _ & _ & _ & T)|(HT & q & a & Z & _)].
    + destruct o as [fs vs opt|fs vs|c opt|ca cb| |c|c|fs vs|fs vs|]; cbn [temps_given] in T; try (rewrite T; exact IH).
      * rewrite in_app_iff, <- IH, keys_kmem. pose proof (kmem_first_of k [s_tvals s1; vs]) as F. rewrite <- T in F.
        rewrite !Exists_cons, Exists_nil in F. unfold kmem at 1. destruct (kfind k (s_tvals s)).
        -- split; auto. intros _. destruct F as [F _]. destruct F; try tauto. discriminate.
        -- split; [discriminate|]. intro X. exfalso. apply F; auto. tauto.
      * rewrite keys_kmem. unfold kmem. rewrite T. tauto.
      * rewrite T. cbn. split; [discriminate|tauto].
    + destruct Z as (_ & _ & _ & Z & _). specialize (Z k). rewrite !keys_kmem in Z. rewrite Z.
      destruct o; try discriminate; exact IH.
Qed.

(** ** The weights without GNC *)

Lemma sp_closures_snoc (h : list op) o : sp_closures sp (h ++ [o]) = sp_closures sp h ++
  match call_of o with Some (fs, vs) => filter (fun b => negb (sp_odometry sp vs b)) (betweens fs) | None => [] end.
Proof. unfold sp_closures. rewrite flat_map_app. cbn. rewrite app_nil_r. reflexivity. Qed.

Lemma total_closures h : length (sp_stored C W h) + length (sp_sightings C W h) <= length (sp_closures sp h).
Proof.
  induction h as [|o h IH] using rev_ind; [cbn; auto|].
  unfold sp_stored, sp_sightings in *. rewrite !along_snoc, sp_closures_snoc, !app_length. cbn [app].
  revert IH. generalize (length (along (newly C W) [] h)) (length (along (sighted C W) [] h)). intros nA nB IH.
  unfold newly, sighted. destruct (call_of o) as [[fs vs]|]; [|cbn [length]; lia].
  rewrite app_length, !map_length.
  set (K := knows (h ++ [o])). set (R := refs_after C W (h ++ [o])).
  assert (G : forall l, length (filter (stores C K R) (filter (sp_candidate sp vs) l)) +
     (length (filter (sp_first sp vs) l) + length (filter (stores_lm C K) (filter (sp_candidate sp vs) l))) <=
     length (filter (fun b => negb (sp_odometry sp vs b)) l)).
  { clear. induction l as [|b l IH]; [cbn; auto|]. cbn [filter].
    assert (EC : sp_candidate sp vs b = true -> sp_odometry sp vs b = false /\ sp_first sp vs b = false).
    { unfold sp_candidate. intro E. apply andb_true_iff in E. destruct E as [E _]. apply andb_true_iff in E.
      destruct E as [E1 E2]. apply negb_true_iff in E1, E2. auto. }
    assert (EF : sp_first sp vs b = true -> sp_odometry sp vs b = false).
    { unfold sp_odometry, sp_first. destruct (sp_landmark sp (b_from b)), (sp_landmark sp (b_to b)); cbn; auto; discriminate. }
    destruct (sp_candidate sp vs b).
    - destruct (EC eq_refl) as [-> ->]. cbn [filter negb length].
      assert (ES : stores C K R b = true -> stores_lm C K b = false).
      { unfold stores, stores_lm. destruct (sp_lmk C b); cbn; rewrite ?andb_false_r; auto; discriminate. }
      destruct (stores C K R b); [rewrite (ES eq_refl)|destruct (stores_lm C K b)]; cbn [length]; lia.
    - destruct (sp_first sp vs b); [rewrite (EF eq_refl); cbn [negb length]; lia|].
      destruct (sp_odometry sp vs b); cbn [negb length]; lia. }
  specialize (G (betweens fs)). lia.
Qed.

(** The tail of the weight vector that the next optimisation keeps is there, and short. *)
Definition tail_fits (s : solver) (n : nat) : Prop := s_latest s <= length (s_w s) /\ s_latest s <= n.

Lemma total_bound h (s : solver) rs p : run C W h (solver_init true) = Ok s rs -> s_pcm s = Some p ->
  p_total p <= length (sp_closures sp h).
Proof.
  intros H Hp. pose proof (c24_total _ _ _ H) as E. unfold get_num_lc in E. rewrite Hp in E. injection E as ->. apply total_closures.
Qed.

Lemma mostly_snoc (h : list op) o : mostly_odometry sp (h ++ [o]) -> mostly_odometry sp h.
Proof. intros H h1 h2 E. apply (H h1 (h2 ++ [o])). rewrite E, app_assoc. auto. Qed.

Lemma tail_run h : forall (s : solver) rs, run C W h (solver_init true) = Ok s rs -> mostly_odometry sp h ->
  tail_fits s (length (sp_odoms sp h)).
Proof.
  induction h as [|o h IH] using rev_ind; intros s rs H HM.
  - injection H as <- <-. split; cbn; auto.
  - pose proof (HM (h ++ [o]) [] (eq_sym (app_nil_r _))) as HM0.
    pose proof H as H0. apply run_snoc in H. destruct H as (s1 & rs1 & r & H1 & H2 & _).
    specialize (IH _ _ H1 (@mostly_snoc h o HM)). destruct IH as [IH1 IH2].
    destruct (hist_run C W _ H1) as (p & I). destruct (hist_run C W _ H0) as (p' & I').
    pose proof (step_inv C W o s1 (hi_pcm I) H2) as (s2 & q & b & CE & TE & (S1 & S2 & S3 & S4 & S5) & _ & Ho).
    destruct (optimises o b).
    + pose proof (c30_lengths _ _ _ Ho) as (_ & _ & L & _).
      apply optimize_inv in Ho. destruct Ho as (q0 & a & full & Z).
      assert (E : s_latest s = p_total p').
      { rewrite (oz_latest Z). unfold latest_after. rewrite <- (oz_pcm Z), (hi_pcm I'). auto. }
      pose proof (total_bound _ H0 (hi_pcm I')) as B. unfold tail_fits. rewrite L, E.
      pose proof (graph_of_room (so_pcm W) p') as G. rewrite <- (hi_nfg I') in G. unfold num_odom_special in G.
      rewrite (hi_odom I') in G. lia.
    + subst s2. unfold tail_fits. rewrite S1, S4, sp_odoms_snoc, app_length. lia.
Qed.

Lemma tail_graph h (s : solver) rs p n : run C W h (solver_init true) = Ok s rs -> s_pcm s = Some p ->
  tail_fits s n -> n <= length (sp_odoms sp h) -> tail_fits s (length (s_nfg s)).
Proof.
  intros H Hp [T1 T2] Hn. destruct (hist_run C W _ H) as (p' & I). assert (p' = p) by (pose proof (hi_pcm I); congruence). subst p'.
  pose proof (graph_of_room (so_pcm W) p) as G. rewrite <- (hi_nfg I) in G. unfold num_odom_special in G.
  rewrite (hi_odom I) in G. split; lia.
Qed.

(** An optimisation whose weight vector fits keeps the outlier rejection, or throws. *)
Lemma fixed_keeps (s : solver) p : s_pcm s = Some p -> num_odom_special p <= length (s_nfg s) ->
  s_latest s <= length (s_w s) -> match fixed_graph s with Ok s1 _ | Throw s1 _ => s1 = s | Undef _ => False end.
Proof.
  intros Hp HR HL. unfold fixed_graph. rewrite Hp.
  replace (length (s_nfg s) <? num_odom_special p) with false by (symmetry; apply Nat.ltb_ge; auto).
  replace (length (s_w s) <? s_latest s) with false by (symmetry; apply Nat.ltb_ge; auto).
  generalize (skipn (length (s_w s) - s_latest s) (s_w s)). intro ws.
  assert (G : forall i, match fixed_lcs s (num_odom_special p) ws i with Ok s1 _ | Throw s1 _ => s1 = s | Undef _ => False end).
  { clear. induction ws as [|w ws IH]; intro i; cbn [fixed_lcs]; auto. specialize (IH (S i)).
    destruct (negb (Qle_bool w (1 # 2))); [destruct (nth_error (s_nfg s) (num_odom_special p + i)); cbn [obind]; auto|cbn [obind]];
      destruct (fixed_lcs s (num_odom_special p) ws (S i)); cbn [obind]; auto. }
  specialize (G 0). destruct (fixed_lcs s (num_odom_special p) ws 0); cbn [obind]; auto.
Qed.

Lemma optimize_keeps_any (s : solver) p : s_pcm s = Some p -> num_odom_special p <= length (s_nfg s) ->
  tail_fits s (length (s_nfg s)) -> keeps_pcm p (optimize C W s).
Proof.
  intros Hp HR [T1 T2]. unfold optimize.
  destruct (vinsert_all (s_tvals s) (s_vals s)) as [full []|v e|u] eqn:EV; [|exact Hp|exfalso; eapply vinsert_all_not_undef; eauto].
  destruct (gnc_branch C s) as [p0|] eqn:EG.
  - assert (p0 = p). { unfold gnc_branch in EG. rewrite Hp in EG. destruct (_ && _); congruence. } subst p0.
    replace (length (s_nfg s ++ s_tnfg s) <? num_odom_special p) with false
      by (symmetry; apply Nat.ltb_ge; rewrite app_length; lia). rewrite andb_false_r.
    unfold call_opt. destruct (so_opt W _ _); cbn [obind]; [|exact Hp]. apply finish_keeps. exact Hp.
  - assert (F : match (if c_fix C then fixed_graph s else Ok s (s_nfg s ++ s_tnfg s)) with Ok s1 _ | Throw s1 _ => s1 = s | Undef _ => False end).
    { destruct (c_fix C); auto. apply (fixed_keeps _ Hp HR T1). }
    destruct (if c_fix C then fixed_graph s else Ok s (s_nfg s ++ s_tnfg s)) as [s1 g|s1 e|u]; cbn [obind]; [|subst; exact Hp|destruct F].
    unfold call_opt. destruct (so_opt W _ _) as [a|]; cbn [obind]; [|exact Hp].
    replace (length (s_w s) <? s_latest s) with false by (symmetry; apply Nat.ltb_ge; auto).
    replace (length (s_nfg s) <? s_latest s) with false by (symmetry; apply Nat.ltb_ge; auto).
    rewrite Hp. apply finish_keeps. exact Hp.
Qed.

Lemma c31_odometry h (s : solver) rs u : run C W h (solver_init true) = Ok s rs -> mostly_odometry sp h -> optimize C W s <> Undef u.
Proof.
  intros H HM. pose proof (@tail_run h s rs H HM) as T. destruct (hist_run C W _ H) as (p & I).
  pose proof (@tail_graph h s rs p _ H (hi_pcm I) T (le_n _)) as T'.
  assert (R : num_odom_special p <= length (s_nfg s)) by (rewrite (hi_nfg I); apply graph_of_room).
  pose proof (@optimize_keeps_any s p (hi_pcm I) R T') as K. intro E. rewrite E in K. exact K.
Qed.

(** ** Whole histories without GNC *)

Notation decent := (@StoreSpec.decent O C).
Notation small := (StoreSpec.small C).

Definition full_room (s : solver) (p : pcm) : Prop :=
  num_odom_special p <= length (s_nfg s) /\ tail_fits s (length (p_odom p)).

Lemma full_room_keeps (s : solver) p : s_pcm s = Some p -> full_room s p -> keeps_pcm p (optimize C W s).
Proof.
  intros Hp [R [T1 T2]]. apply optimize_keeps_any; auto. split; auto. unfold num_odom_special in R. lia.
Qed.

Lemma ingest_room fs vs (s : solver) p n : s_pcm s = Some p -> wf C n p -> decent_graph C fs -> small (length fs + n) ->
  s_nfg s = graph_of (so_pcm W) p -> tail_fits s (length (p_odom p)) ->
  match ingest C W fs vs s with
  | Ok s' _ => exists p', s_pcm s' = Some p' /\ wf C (length fs + n) p' /\ full_room s' p'
  | Throw s' _ => exists p', s_pcm s' = Some p' /\ wf C (length fs + n) p' | Undef _ => False end.
Proof.
  intros Hp HW Hd Hs HN [T1 T2].
  assert (HR : room C s p) by (intros _; rewrite HN; apply graph_of_room).
  pose proof (@ingest_safe O C W fs vs s p n Hp HW Hd Hs HR) as X.
  destruct (ingest C W fs vs s) as [s' b|s' e|u] eqn:E; auto. destruct X as (p' & P1 & P2 & _).
  exists p'. split; auto. split; auto. unfold ingest in E. rewrite Hp in E. apply run_pcm_inv in E.
  destruct E as (p1 & Q1 & Q2 & _ & _ & (S1 & _ & _ & S4 & _)). assert (p1 = p') by congruence. subst p1.
  pose proof (remove_outliers_ok _ _ _ _ _ _ _ Q2) as (O1 & _). rewrite HN in Q2.
  pose proof (ro_synced _ _ _ _ _ _ Q2) as HS. split.
  - rewrite HS; auto. apply graph_of_room.
  - unfold tail_fits. rewrite S1, S4, O1, app_length. lia.
Qed.

Lemma step_room o (s : solver) p n : s_pcm s = Some p -> wf C n p -> decent_graph C (given o) -> small (length (given o) + n) ->
  s_nfg s = graph_of (so_pcm W) p -> tail_fits s (length (p_odom p)) -> removal_fine C o p ->
  safe_out C (length (given o) + n) (step C W o s).
Proof.
  intros Hp HW Hd Hs HN HT HF.
  assert (KS : forall (s1 : solver) p1 m, s_pcm s1 = Some p1 -> wf C m p1 -> full_room s1 p1 ->
     safe_out C m (optimize C W s1)).
  { intros s1 p1 m A B D. eapply keeps_safe; eauto. apply full_room_keeps; auto. }
  assert (NR : forall m (x : outcome solver unit), safe_out C m x -> safe_out C m (no_ret x)).
  { intros m x. unfold no_ret. destruct x; cbn; auto. }
  assert (FR : forall q g, p_odom q = p_odom p -> num_odom_special q <= length g ->
     full_room (set_pnv s (Some q) g (s_vals s)) q).
  { intros q g Eq Hg. split; [exact Hg|]. destruct HT as [T1 T2]. split; cbn [s_latest s_w set_pnv]; [auto|rewrite Eq; auto]. }
  assert (RM : forall x, (exists p' e, x = Val (p', e) /\ wf C n p' /\ num_odom_special p' = num_odom_special p /\ p_odom p' = p_odom p) ->
     safe_out C n (edge_ret (obind (lift_removal W s x) (fun s1 e => obind (optimize C W s1) (fun s2 _ => Ok s2 e))))).
  { intros x (p' & e & -> & A & B & D).
    assert (Y : forall g, num_odom_special p' <= length g -> safe_out C n (optimize C W (set_pnv s (Some p') g (s_vals s)))).
    { intros g Hg. eapply KS; [reflexivity|exact A|]. apply FR; auto. }
    destruct e as [e|]; cbn [lift_removal obind].
    - specialize (Y (graph_of (so_pcm W) p') (graph_of_room _ _)). destruct (optimize C W _); cbn; auto.
    - specialize (Y (s_nfg s)). rewrite B, HN in Y. specialize (Y (graph_of_room _ _)). rewrite <- HN in Y.
      destruct (optimize C W _); cbn; auto. }
  assert (PC : forall q, wf C n q -> p_odom q = p_odom p -> safe_out C n (optimize C W (set_pnv s (Some q) (graph_of (so_pcm W) q) (s_vals s)))).
  { intros q Hq Ho. eapply KS; [reflexivity|auto|]. apply FR; auto. apply graph_of_room. }
  destruct o as [fs vs opt|fs vs|c opt|a b| |c|c|fs vs|fs vs|]; cbn [given call_of length plus] in *; cbn [step].
  - apply NR. unfold update. pose proof (@ingest_room fs vs s p n Hp HW Hd Hs HN HT) as X.
    destruct (ingest C W fs vs s) as [s1 b| |]; cbn [obind]; auto. destruct X as (p1 & A & B & D).
    assert (Y : keeps_pcm p1 (if b && opt then optimize C W s1 else Ok s1 tt)).
    { destruct (b && opt); [apply full_room_keeps; auto|exact A]. }
    destruct (if b && opt then optimize C W s1 else Ok s1 tt) as [s2 []| |]; cbn [obind]; [|cbn in *; eauto|auto].
    destruct opt; [|cbn in *; eauto]. eapply keeps_safe; eauto. apply log_keeps; auto.
  - apply NR. unfold force_update. pose proof (@ingest_room fs vs s p n Hp HW Hd Hs HN HT) as X.
    destruct (ingest C W fs vs s) as [s1 b| |]; cbn [obind]; auto. destruct X as (p1 & A & B & D).
    pose proof (@full_room_keeps s1 p1 A D) as Y.
    destruct (optimize C W s1) as [s2 []| |]; cbn [obind]; [|cbn in *; eauto|auto]. eapply keeps_safe; eauto. apply log_keeps; auto.
  - apply NR. unfold remove_priors. rewrite Hp. assert (HW' : wf C n (pcm_remove_priors c p)) by (eapply wf_frame; [| |exact HW]; auto).
    destruct opt; [apply PC; auto|]. cbn. eauto.
  - unfold remove_last_id. rewrite Hp. apply RM. destruct (@remove_id_safe O C W n p (a, b) HW HF) as (p' & e & A & B & D & _).
    exists p', e. split; auto. split; auto. split; auto. apply pcm_remove_last_id_frame in A. destruct A as (l & -> & _). auto.
  - unfold remove_last. rewrite Hp. apply RM. unfold pcm_remove_last. destruct (rev (p_order p)) as [|id l] eqn:E.
    + exists p, None. auto.
    + cbn [removal_fine] in HF. rewrite E in HF.
      destruct (@remove_id_safe O C W n (set_order p (removelast (p_order p))) id) as (p' & e & A & B & D & _); auto.
      { eapply wf_frame; [| |exact HW]; auto. }
      exists p', e. split; auto. split; auto. split; auto. apply pcm_remove_last_id_frame in A. destruct A as (l' & -> & _). auto.
  - apply NR. unfold ignore_prefix, with_pcm. rewrite Hp.
    apply PC; [eapply wf_frame; [| |exact HW]|]; unfold pcm_ignore; destruct (existsb _ _); auto.
  - apply NR. unfold revive_prefix, with_pcm. rewrite Hp. apply PC; [eapply wf_frame; [| |exact HW]; auto|auto].
  - apply NR. unfold temp_update. destruct (vinsert_all vs (s_tvals s)) as [tv []|tv e|u] eqn:E; [cbn; eauto|cbn; eauto|].
    exfalso. eapply vinsert_all_not_undef; eauto.
  - cbn. eauto.
  - cbn. eauto.
Qed.

Lemma safe_run_odometry h u : decent_history C h -> gentle C W h -> small (length (sp_all h)) -> mostly_odometry sp h ->
  run C W h (solver_init true) <> Undef u.
Proof.
  induction h as [|o h IH] using rev_ind; intros Hd Hg Hs HM; [discriminate|].
  apply decent_given in Hd. destruct Hd as [Hd Hdo]. apply gentle_snoc in Hg. destruct Hg as [Hg Hgo].
  apply mostly_snoc in HM.
  rewrite sp_all_snoc, app_length in *. assert (Hs' : small (length (sp_all h))) by (eapply small_mono; [|exact Hs]; lia).
  rewrite run_snoc_eq. destruct (run C W h (solver_init true)) as [s rs|s e|u'] eqn:HR; cbn [obind]; [|discriminate|].
  2:{ intro. eapply IH; eauto. }
  destruct (@wf_run O C W _ _ _ HR Hd Hg Hs') as (p & Hp & HW).
  destruct (live_run _ _ _ HR) as (p0 & I & L). assert (p0 = p) by (pose proof (hi_pcm I); congruence). subst p0.
  rewrite Nat.add_comm in Hs. pose proof (@step_room o s p _ Hp HW Hdo Hs) as X.
  destruct (step C W o s) as [s' r| |]; cbn [obind]; try discriminate. intros _. apply X; auto.
  - apply (hi_nfg I).
  - rewrite (hi_odom I). eapply tail_run; eauto.
  - eapply gentle_fine; eauto.
Qed.

(** ** When exactly an optimisation without GNC leaves its weight vector *)

Lemma step_opt_state o (s s' : solver) r p : s_pcm s = Some p -> step C W o s = Ok s' r ->
  (exists p', s_pcm s' = Some p') /\
  ((s_trace s' = s_trace s /\ s_w s' = s_w s /\ s_latest s' = s_latest s) \/
   (exists q, s_trace s' = s_trace s ++ [q]) /\ length (s_w s') = length (s_nfg s') /\ get_num_lc s' = Val (s_latest s')).
Proof.
  intros Hp H. pose proof (step_inv C W o s Hp H) as (s1 & p' & b & [E0 _] & _ & (S1 & _ & _ & S4 & S5) & _ & Ho).
  destruct (optimises o b).
  - pose proof (c30_lengths _ _ _ Ho) as (_ & _ & L & _). apply optimize_inv in Ho. destruct Ho as (q & a & full & Z).
    split; [exists p'; rewrite (oz_pcm Z); auto|]. right. split; [exists q; rewrite (oz_trace Z), S5; auto|]. split; [auto|].
    unfold get_num_lc. rewrite (oz_pcm Z), E0, (oz_latest Z). unfold latest_after. rewrite E0. auto.
  - subst s1. split; eauto.
Qed.

Lemma trace_grows h : forall (s s' : solver) rs p, s_pcm s = Some p -> run C W h s = Ok s' rs ->
  length (s_trace s) <= length (s_trace s') /\
  (s_trace s' = s_trace s -> s_w s' = s_w s /\ s_latest s' = s_latest s) /\ exists p', s_pcm s' = Some p'.
Proof.
  induction h as [|o h IH]; intros s s' rs p Hp H; cbn [run] in H.
  - injection H as <- <-. eauto.
  - destruct (step C W o s) as [s1 r| |] eqn:E; cbn [obind] in H; try discriminate.
    destruct (run C W h s1) as [s2 rs2| |] eqn:E2; cbn [obind] in H; try discriminate. injection H as <- <-.
    destruct (step_opt_state _ _ Hp E) as [[p1 Hp1] D]. destruct (IH _ _ _ _ Hp1 E2) as (I1 & I2 & I3).
    destruct D as [(D1 & D2 & D3)|([q D1] & _)].
    + rewrite D1 in *. rewrite <- D2, <- D3. auto.
    + rewrite D1, app_length in I1. cbn [length] in I1. split; [lia|]. split; [|auto].
      intro X. rewrite X in I1. lia.
Qed.

(** Let the last call of a history have optimised, and let the calls since then not have: the next
    optimisation (without GNC) is undefined exactly when the loop closures counted by then exceed
    the factors of the graph then or the factors of the graph now. *)
Lemma c31_exact h o h2 (s0 s1 s2 : solver) rs r rs2 q :
  run C W h (solver_init true) = Ok s0 rs -> step C W o s0 = Ok s1 r -> s_trace s1 = s_trace s0 ++ [q] ->
  run C W h2 s1 = Ok s2 rs2 -> s_trace s2 = s_trace s1 ->
  c_gnc C = false -> c_fix C = false -> disjoint_temps s2 -> total_optimiser W ->
  exists n, get_num_lc s1 = Val n /\
   ((exists s', optimize C W s2 = Ok s' tt) \/ (optimize C W s2 = Undef EigenMismatch)) /\
   (optimize C W s2 = Undef EigenMismatch <-> length (s_nfg s1) < n \/ length (s_nfg s2) < n).
Proof.
  intros H1 H2 HT H3 HU HG HF HD HO. destruct (hist_run C W _ H1) as (p & I).
  destruct (step_opt_state _ _ (hi_pcm I) H2) as [[p1 Hp1] D].
  destruct D as [(D1 & _)|(_ & D2 & D3)].
  { exfalso. rewrite D1 in HT. apply (f_equal (@length _)) in HT. rewrite app_length in HT. cbn in HT. lia. }
  destruct (@trace_grows h2 s1 s2 rs2 p1 Hp1 H3) as (_ & U & [p2 Hp2]). destruct (U HU) as [U1 U2].
  exists (s_latest s1). split; [auto|].
  assert (GB : gnc_branch C s2 = None) by (unfold gnc_branch; rewrite Hp2, HG; reflexivity).
  destruct (Nat.lt_ge_cases (length (s_w s2)) (s_latest s2)) as [L1|L1];
    [|destruct (Nat.lt_ge_cases (length (s_nfg s2)) (s_latest s2)) as [L2|L2]].
  3:{ destruct (@optimize_ok O C W s2 HD HO) as [s' E].
      - unfold weights_fit. rewrite GB. repeat split; auto. congruence.
      - split; [left; eauto|]. rewrite E. split; [discriminate|]. intro X. exfalso. rewrite U1, U2, D2 in *. lia. }
  1,2: assert (E : optimize C W s2 = Undef EigenMismatch).
  1,3: destruct HD as (A1 & A2 & A3); destruct (@vinsert_all_fresh O (s_tvals s2) (s_vals s2) A2 A3) as [full EV];
    unfold optimize; rewrite EV, GB, HF; cbn [obind]; unfold call_opt;
    match goal with |- context [so_opt W ?tr ?r] => destruct (so_opt W tr r) as [a|] eqn:EA end; [|elim (HO _ _ EA)]; cbn [obind].
  1: replace (length (s_w s2) <? s_latest s2) with true by (symmetry; apply Nat.ltb_lt; auto); reflexivity.
  1: replace (length (s_w s2) <? s_latest s2) with false by (symmetry; apply Nat.ltb_ge; auto);
     replace (length (s_nfg s2) <? s_latest s2) with true by (symmetry; apply Nat.ltb_lt; auto); reflexivity.
  all: split; [auto|]; split; [intros _; rewrite U1, U2, D2 in *; lia|auto].
Qed.

End Est.
