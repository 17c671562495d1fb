(** * Invariants of the stored loop closures and landmark observations *)
From Coq Require Import Permutation.
From Verif Require Import Prelude Keys KMap UMap Geometry Factors Clique Pcm PcmSpec PcmProofs PcmInv.
Set Implicit Arguments.

Section PcmStore.
Variable O : tops.
Variable C : config.
Notation bf := (bf O).
Notation factor := (factor O).
Notation values := (values O).
Notation graph_t := (graph_t O).
Notation T := (t_T O).
Notation pcm := (pcm O).
Notation meas := (meas O).
Notation sp := (c_special C).
Notation lc_get := (uget oid_eqb (@meas_default O)).
Notation lm_get := (uget N.eqb (@meas_default O)).

(** Every stored factor belongs to its container and satisfies [Q]; inliers are stored. *)
Definition lc_ok (Q : bf -> Prop) (kv : obsid * meas) : Prop :=
  Forall (fun b => oid_eqb (pair_of b) (fst kv) = true /\ is_landmark_factor C b = false /\ Q b) (me_factors (snd kv)) /\
  incl (me_cons (snd kv)) (me_factors (snd kv)).
Definition lm_ok (Q : bf -> Prop) (kv : key * meas) : Prop :=
  Forall (fun b => sp_landmark_key sp b = fst kv /\ is_landmark_factor C b = true /\ Q b) (me_factors (snd kv)) /\
  incl (me_cons (snd kv)) (me_factors (snd kv)).

Record stored_ok (Q Ql : bf -> Prop) (p : pcm) : Prop := {
  so_lcs : Forall (lc_ok Q) (p_lcs p);
  so_lms : Forall (lm_ok Ql) (p_lms p);
  so_dlcs : ukeys_distinct oid_eqb (p_lcs p);
  so_dlms : ukeys_distinct N.eqb (p_lms p) }.

Lemma stored_ok_init Q Ql : stored_ok Q Ql pcm_init.
Proof. split; constructor. Qed.

Lemma lc_ok_imp (Q Q' : bf -> Prop) kv : (forall b, Q b -> Q' b) -> lc_ok Q kv -> lc_ok Q' kv.
Proof.
  intros H [H1 H2]. split; auto. eapply Forall_impl; [|exact H1]. cbn. intros b (A & B & D). auto.
Qed.
Lemma lm_ok_imp (Q Q' : bf -> Prop) kv : (forall b, Q b -> Q' b) -> lm_ok Q kv -> lm_ok Q' kv.
Proof.
  intros H [H1 H2]. split; auto. eapply Forall_impl; [|exact H1]. cbn. intros b (A & B & D). auto.
Qed.

Lemma stored_ok_imp (Q Q' Ql Ql' : bf -> Prop) p : (forall b, Q b -> Q' b) -> (forall b, Ql b -> Ql' b) ->
  stored_ok Q Ql p -> stored_ok Q' Ql' p.
Proof.
  intros H1 H2 []. split; auto.
  - eapply Forall_impl; [|eassumption]. intros. eapply lc_ok_imp; eauto.
  - eapply Forall_impl; [|eassumption]. intros. eapply lm_ok_imp; eauto.
Qed.

Lemma stored_ok_frame Q Ql (p p' : pcm) : p_lcs p' = p_lcs p -> p_lms p' = p_lms p -> stored_ok Q Ql p -> stored_ok Q Ql p'.
Proof. intros H1 H2 []. split; rewrite ?H1, ?H2; auto. Qed.

Lemma Forall_uset {K V} (eqb : K -> K -> bool) (P : K * V -> Prop) k v m :
  Forall P m -> (forall k', eqb k k' = true \/ k' = k -> P (k', v)) -> Forall P (uset eqb k v m).
Proof.
  intros H Hn. rewrite Forall_forall in *. intros x Hx.
  induction m as [|[k0 v0] m IH]; cbn [uset] in Hx.
  - destruct Hx as [<-|[]]. auto.
  - destruct (eqb k k0) eqn:E.
    + destruct Hx as [<-|Hx]; [auto|]. apply H. right; auto.
    + destruct Hx as [<-|Hx]; [apply H; left; auto|]. apply IH; auto. intros y Hy. apply H. right; auto.
Qed.

(** What is known about the container an identifier leads to. *)
Lemma lc_get_ok Q m id : Forall (lc_ok Q) m ->
  Forall (fun b => oid_eqb (pair_of b) id = true /\ is_landmark_factor C b = false /\ Q b) (me_factors (lc_get id m)) /\
  incl (me_cons (lc_get id m)) (me_factors (lc_get id m)).
Proof.
  intro H. unfold uget. destruct (lc_find id m) as [v|] eqn:E.
  - apply ufind_In in E. destruct E as (k' & E & Hin). rewrite Forall_forall in H.
    destruct (H _ Hin) as [H1 H2]. cbn [fst snd] in *. split; auto.
    eapply Forall_impl; [|exact H1]. cbn. intros b (A & B & D). split; auto.
    apply oid_eqb_trans with k'; auto. rewrite oid_eqb_sym. auto.
  - cbn. split; auto. intros x [].
Qed.

Lemma lm_get_ok Q m l : Forall (lm_ok Q) m ->
  Forall (fun b => sp_landmark_key sp b = l /\ is_landmark_factor C b = true /\ Q b) (me_factors (lm_get l m)) /\
  incl (me_cons (lm_get l m)) (me_factors (lm_get l m)).
Proof.
  intro H. unfold uget. destruct (n_find l m) as [v|] eqn:E.
  - apply ufind_In in E. destruct E as (k' & E & Hin). apply N.eqb_eq in E. subst k'. rewrite Forall_forall in H.
    destruct (H _ Hin) as [H1 H2]. cbn [fst snd] in *. split; auto.
  - cbn. split; auto. intros x [].
Qed.

Lemma n_set_distinct {V} k (v : V) m : ukeys_distinct N.eqb m -> ukeys_distinct N.eqb (n_set k v m).
Proof. apply uset_distinct; [apply N.eqb_refl|apply N.eqb_sym|apply Neqb_trans]. Qed.
Lemma lc_set_distinct {V} k (v : V) m : ukeys_distinct oid_eqb m -> ukeys_distinct oid_eqb (lc_set k v m).
Proof. apply uset_distinct; [apply oid_eqb_refl|apply oid_eqb_sym|apply oid_eqb_trans]. Qed.

Lemma parsed_stored_ok vals b (p p' : pcm) o (Q Ql : bf -> Prop) : parsed C vals b p p' o ->
  (admissible C vals (tref p) b -> Q b) ->
  (kmem (b_from b) vals = true -> kmem (b_to b) vals = true -> is_landmark_factor C b = true -> Ql b) ->
  stored_ok Q Ql p -> stored_ok Q Ql p'.
Proof.
  intros H HQ HQl Hs. inversion H; subst.
  - auto.
  - eapply stored_ok_frame; [| |exact Hs]; reflexivity.
  - destruct Hs as [S1 S2 S3 S4]. unfold store_lm. split; cbn; auto.
    + apply Forall_uset; auto. intros k' Hk. assert (k' = sp_landmark_key sp b).
      { destruct Hk as [Hk| ->]; auto. apply N.eqb_eq in Hk. auto. }
      subst k'. destruct (lm_get_ok (sp_landmark_key sp b) S2) as [G1 G2]. split; cbn [fst snd me_factors me_cons].
      * apply Forall_app. split; auto.
      * intros x Hx. apply in_or_app. auto.
    + apply n_set_distinct; auto.
  - destruct Hs as [S1 S2 S3 S4]. unfold store_lc. split; cbn; auto.
    + apply Forall_uset; auto. intros k' Hk. assert (Ek : oid_eqb (pair_of b) k' = true).
      { destruct Hk as [Hk| ->]; auto. apply oid_eqb_refl. }
      destruct (lc_get_ok (pair_of b) S1) as [G1 G2]. split; cbn [fst snd me_factors me_cons].
      * apply Forall_app. split.
        -- eapply Forall_impl; [|exact G1]. cbn. intros x (A & B & D). split; auto.
           apply oid_eqb_trans with (pair_of b); auto.
        -- constructor; auto. split; auto. split; auto. destruct H0 as (_ & _ & A & _). auto.
      * intros x Hx. apply in_or_app. auto.
    + apply lc_set_distinct; auto.
Qed.

Lemma parsed_tref vals b (p p' : pcm) o : parsed C vals b p p' o -> forall c k, tref p' c k = tref p c k.
Proof. intro H. inversion H; subst; auto. Qed.

Lemma parsed_frame vals b (p p' : pcm) o : parsed C vals b p p' o ->
  p_odom p' = p_odom p /\ p_special p' = p_special p /\ p_ignored p' = p_ignored p /\
  p_good p' = p_good p /\ p_robots p' = p_robots p.
Proof. intro H. inversion H; subst; cbn; auto. Qed.

Lemma admissible_ext vals (r r' : N -> key -> T) b : (forall c k, r c k = r' c k) ->
  admissible C vals r b -> admissible C vals r' b.
Proof.
  intros H (A & B & D & E). repeat split; auto. intros X Y. rewrite <- (E X Y).
  apply sp_odom_test_ext. auto.
Qed.

Lemma parsed_list_ok vals bs (p p' : pcm) : parsed_list C vals bs p p' ->
  p_odom p' = p_odom p /\ p_special p' = p_special p /\ p_ignored p' = p_ignored p /\
  p_good p' = p_good p /\ p_robots p' = p_robots p /\
  (forall c k, tref p' c k = tref p c k) /\
  (forall Q Ql : bf -> Prop,
    (forall b, In b bs -> admissible C vals (tref p) b -> Q b) ->
    (forall b, In b bs -> kmem (b_from b) vals = true -> kmem (b_to b) vals = true -> is_landmark_factor C b = true -> Ql b) ->
    stored_ok Q Ql p -> stored_ok Q Ql p').
Proof.
  induction 1 as [|b bs p o p1 p2 Hp Hl IH].
  - do 6 (split; [reflexivity|]). auto.
  - destruct IH as (A1 & A2 & A3 & A4 & A5 & A6 & A7).
    destruct (parsed_frame Hp) as (B1 & B2 & B3 & B4 & B5).
    pose proof (parsed_tref Hp) as Ht.
    split; [congruence|]. split; [congruence|]. split; [congruence|]. split; [congruence|].
    split; [congruence|]. split; [intros; rewrite A6; auto|].
    intros Q Ql HQ HQl Hs. apply A7.
    + intros x Hx Ha. apply HQ; [right; auto|]. eapply admissible_ext; [|exact Ha]. auto.
    + intros. apply HQl; auto. right; auto.
    + eapply parsed_stored_ok; eauto.
      * intro. apply HQ; auto. left; auto.
      * intros. apply HQl; auto. left; auto.
Qed.

Lemma reselected_ok_lc Q k m m' : reselected m m' -> lc_ok Q (k, m) -> lc_ok Q (k, m').
Proof.
  intros (R1 & R2 & R3) [H1 H2]. unfold lc_ok. cbn [fst snd] in *. rewrite R1. split; auto.
  destruct R3 as [R3|R3]; auto. rewrite R3. auto.
Qed.
Lemma reselected_ok_lm Q k m m' : reselected m m' -> lm_ok Q (k, m) -> lm_ok Q (k, m').
Proof.
  intros (R1 & R2 & R3) [H1 H2]. unfold lm_ok. cbn [fst snd] in *. rewrite R1. split; auto.
  destruct R3 as [R3|R3]; auto. rewrite R3. auto.
Qed.

Lemma distinct_keys {K} (eqb : K -> K -> bool) (m m' : umap K meas) : map fst m' = map fst m ->
  ukeys_distinct eqb m -> ukeys_distinct eqb m'.
Proof.
  unfold ukeys_distinct. revert m. induction m' as [|[k v] m' IH]; intros [|[k0 v0] m] H D; try discriminate; [constructor|].
  cbn [map fst] in H. inversion H; subst. inversion D as [|? ? F D']; subst. constructor; eauto.
  rewrite Forall_forall in *. intros [k1 v1] Hx. cbn [fst].
  assert (Hin : In k1 (map fst m)) by (rewrite <- H2; apply in_map_iff; exists (k1, v1); auto).
  apply in_map_iff in Hin. destruct Hin as ([k2 v2] & E & Hin). cbn in E. subst.
  apply (F _ Hin).
Qed.

Lemma selected_ok (p p' : pcm) : selected p p' ->
  p_odom p' = p_odom p /\ p_special p' = p_special p /\ p_ignored p' = p_ignored p /\
  p_order p' = p_order p /\ p_total p' = p_total p /\ p_robots p' = p_robots p /\ p_trajs p' = p_trajs p /\
  p_good p' = count_cons (p_lcs p') + count_cons (p_lms p') /\
  (forall Q Ql : bf -> Prop, stored_ok Q Ql p -> stored_ok Q Ql p').
Proof.
  intros (H1 & H2 & ->). cbn. repeat split; auto; cbn in *; destruct H.
  - clear - H1 so_lcs0. induction H1 as [|[k a] [k' b] l l' [E R] H1 IH]; [constructor|].
    cbn in E. subst k'. inversion so_lcs0; subst. constructor; auto. eapply reselected_ok_lc; eauto.
  - clear - H2 so_lms0. induction H2 as [|[k a] [k' b] l l' [E R] H1 IH]; [constructor|].
    cbn in E. subst k'. inversion so_lms0; subst. constructor; auto. eapply reselected_ok_lm; eauto.
  - eapply distinct_keys; [eapply entrywise_keys|]; eauto.
  - eapply distinct_keys; [eapply entrywise_keys|]; eauto.
Qed.

Lemma store_firsts_ok (Q : bf -> Prop) bs : forall lms,
  Forall (fun b => is_landmark_factor C b = true /\ Q b) bs ->
  Forall (lm_ok Q) lms -> ukeys_distinct N.eqb lms ->
  Forall (lm_ok Q) (store_firsts C bs lms) /\ ukeys_distinct N.eqb (store_firsts C bs lms).
Proof.
  induction bs as [|b bs IH]; intros lms Hb Hl Hd; [auto|].
  inversion Hb as [|? ? [L q] Hb']; subst. apply IH; auto.
  - apply Forall_uset; auto. intros k' Hk. assert (k' = sp_landmark_key sp b).
    { destruct Hk as [Hk| ->]; auto. apply N.eqb_eq in Hk. auto. }
    subst k'. split; cbn; auto. apply incl_refl.
  - apply n_set_distinct; auto.
Qed.

Lemma In_betweens b (fs : graph_t) : In b (betweens fs) <-> In (Some (FBetween b)) fs.
Proof.
  unfold betweens. rewrite in_flat_map. split.
  - intros ([[b'| | | ]|] & H1 & H2); try destruct H2; subst; auto. destruct H.
  - intro H. exists (Some (FBetween b)). split; auto. left; auto.
Qed.

Lemma In_others f (fs : graph_t) : In f (others fs) -> In (Some f) fs.
Proof.
  unfold others. rewrite in_flat_map. intros ([[b'| | | ]|] & H1 & H2); destruct H2; subst; auto; destruct H.
Qed.

Lemma sp_first_landmark nv (b : bf) : sp_first sp nv b = true -> is_landmark_factor C b = true.
Proof. unfold sp_first, is_landmark_factor. intro H. apply andb_true_iff in H. tauto. Qed.

(** Effect of a whole call on everything but the trajectories. *)
Lemma ro_pcm_ok fs nv vals (p p' : pcm) b : ro_pcm C fs nv vals p p' b ->
  p_odom p' = p_odom p ++ filter (sp_odometry sp nv) (betweens fs) /\
  p_special p' = p_special p ++ others fs /\ p_ignored p' = p_ignored p /\
  (forall Q Ql : bf -> Prop,
    (forall x, In (Some (FBetween x)) fs -> sp_candidate sp nv x = true -> admissible C vals (tref p') x -> Q x) ->
    (forall x, In (Some (FBetween x)) fs -> is_landmark_factor C x = true -> Ql x) ->
    stored_ok Q Ql p -> stored_ok Q Ql p').
Proof.
  assert (G : forall p1 lcs opt, proc_factors C nv vals fs p ([], false) = Ok p1 (lcs, opt) ->
    p_odom p1 = p_odom p ++ filter (sp_odometry sp nv) (betweens fs) /\
    p_special p1 = p_special p ++ others fs /\ p_ignored p1 = p_ignored p /\
    lcs = filter (sp_candidate sp nv) (betweens fs) /\
    (forall Q Ql : bf -> Prop, (forall x, In (Some (FBetween x)) fs -> is_landmark_factor C x = true -> Ql x) ->
       stored_ok Q Ql p -> stored_ok Q Ql p1)).
  { intros p1 lcs opt E. apply proc_factors_frame in E.
    destruct E as (E1 & E2 & E3 & E4 & E5 & E6 & E7 & E8 & E9 & E10). cbn in E9.
    do 4 (split; [auto|]). intros Q Ql HQ [S1 S2 S3 S4].
    assert (HF : Forall (fun b => is_landmark_factor C b = true /\ Ql b) (filter (sp_first sp nv) (betweens fs))).
    { rewrite Forall_forall. intros x Hx. apply filter_In in Hx. destruct Hx as [Hx F].
      apply sp_first_landmark in F. split; auto. apply HQ; auto. apply In_betweens; auto. }
    destruct (store_firsts_ok HF S2 S4) as [F1 F2].
    split; rewrite ?E3, ?E8; auto. }
  intro H. inversion H; subst.
  - cbn. rewrite !app_nil_r. auto.
  - apply G in H1. destruct H1 as (G1 & G2 & G3 & G4 & G5). do 3 (split; [auto|]). intros. apply G5; auto.
  - apply G in H1. destruct H1 as (G1 & G2 & G3 & -> & G5).
    apply parsed_list_ok in H3. destruct H3 as (A1 & A2 & A3 & A4 & A5 & A6 & A7).
    pose proof (selected_ok H4) as (B1 & B2 & B3 & B4 & B5 & B6 & B7 & B8 & B9).
    split; [congruence|]. split; [congruence|]. split; [congruence|].
    intros Q Ql HQ HQl Hs. apply B9, A7.
    + intros x Hx Ha. apply filter_In in Hx. destruct Hx as [Hx Hc]. apply HQ; auto.
      * apply In_betweens; auto.
      * eapply admissible_ext; [|exact Ha]. intros c k. rewrite <- A6. symmetry. apply tref_trajs. auto.
    + intros x Hx _ _ Hl. apply filter_In in Hx. destruct Hx as [Hx Hc]. apply HQl; auto. apply In_betweens; auto.
    + apply G5; auto.
Qed.

(** Removal keeps the invariant. *)
Lemma remove_stored_ok id (m m' : meas) b (p : pcm) (Q Ql : bf -> Prop) :
  lc_find id (p_lcs p) = Some m -> me_factors m = me_factors m' ++ [b] -> incl (me_cons m') (me_factors m') ->
  stored_ok Q Ql p -> stored_ok Q Ql (set_lcs p (lc_set id m' (p_lcs p))).
Proof.
  intros Hf Hm Hi [S1 S2 S3 S4]. split; cbn; auto.
  - apply Forall_uset; auto. intros k' Hk.
    assert (Ek : oid_eqb id k' = true) by (destruct Hk as [Hk| ->]; auto; apply oid_eqb_refl).
    destruct (lc_get_ok id S1) as [G1 G2]. unfold uget in G1. rewrite Hf, Hm in G1.
    apply Forall_app in G1. destruct G1 as [G1 _]. split; cbn [fst snd]; auto.
    eapply Forall_impl; [|exact G1]. cbn. intros x (A & B & D). split; auto.
    apply oid_eqb_trans with id; auto.
  - apply lc_set_distinct; auto.
Qed.

(** ** Membership in the graph *)

Lemma In_build_lcs w (p : pcm) b : In b (build_lcs w p) <->
  exists id m, In (id, m) (p_lcs p) /\ ignored p id = false /\ In b (me_cons m).
Proof.
  unfold build_lcs. rewrite in_flat_map. split.
  - intros ([id m] & H1 & H2). apply (Permutation_in _ (uiter_perm (w_lc_order w) (p_lcs p))) in H1.
    exists id, m. destruct (ignored p id); [destruct H2|auto].
  - intros (id & m & H1 & H2 & H3). exists (id, m). split; [|rewrite H2; auto].
    apply (Permutation_in _ (Permutation_sym (uiter_perm (w_lc_order w) (p_lcs p)))). auto.
Qed.

Lemma In_build_lms w (p : pcm) b : In b (build_lms w p) <->
  exists l m, In (l, m) (p_lms p) /\ In b (me_cons m).
Proof.
  unfold build_lms. rewrite in_flat_map. split.
  - intros ([id m] & H1 & H2). apply (Permutation_in _ (uiter_perm (w_lm_order w) (p_lms p))) in H1.
    exists id, m. auto.
  - intros (id & m & H1 & H3). exists (id, m). split; auto.
    apply (Permutation_in _ (Permutation_sym (uiter_perm (w_lm_order w) (p_lms p)))). auto.
Qed.

Lemma ignored_pair (p : pcm) (b : bf) id : oid_eqb (pair_of b) id = true ->
  ignored p id = existsb (N.eqb (chr (b_from b))) (p_ignored p) || existsb (N.eqb (chr (b_to b))) (p_ignored p).
Proof.
  intro H. apply oid_eqb_spec in H. unfold pair_of in H. destruct id as [x y]. unfold ignored. cbn [fst snd] in *.
  destruct H as [[-> ->]|[-> ->]]; auto. apply orb_comm.
Qed.

Lemma build_lcs_ok w (p : pcm) (Q Ql : bf -> Prop) : stored_ok Q Ql p ->
  Forall (fun b => is_landmark_factor C b = false /\ Q b /\
            ~ In (chr (b_from b)) (p_ignored p) /\ ~ In (chr (b_to b)) (p_ignored p)) (build_lcs w p).
Proof.
  intros []. rewrite Forall_forall. intros b Hb. apply In_build_lcs in Hb. destruct Hb as (id & m & H1 & H2 & H3).
  rewrite Forall_forall in so_lcs0. destruct (so_lcs0 _ H1) as [G1 G2]. cbn [fst snd] in *.
  apply G2 in H3. rewrite Forall_forall in G1. destruct (G1 _ H3) as (A & B & D).
  rewrite (ignored_pair p b id A) in H2. apply orb_false_iff in H2. destruct H2 as [I1 I2].
  split; auto. split; auto.
  split; intro Hin; [apply not_true_iff_false in I1; apply I1|apply not_true_iff_false in I2; apply I2];
    apply existsb_exists; eexists; (split; [exact Hin|apply N.eqb_refl]).
Qed.

Lemma build_lms_ok w (p : pcm) (Q Ql : bf -> Prop) : stored_ok Q Ql p ->
  Forall (fun b => is_landmark_factor C b = true /\ Ql b) (build_lms w p).
Proof.
  intros []. rewrite Forall_forall. intros b Hb. apply In_build_lms in Hb. destruct Hb as (l & m & H1 & H3).
  rewrite Forall_forall in so_lms0. destruct (so_lms0 _ H1) as [G1 G2]. cbn [fst snd] in *.
  apply G2 in H3. rewrite Forall_forall in G1. destruct (G1 _ H3) as (A & B & D). auto.
Qed.

End PcmStore.
