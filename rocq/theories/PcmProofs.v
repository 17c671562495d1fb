(** * Lemmas about the model of [Pcm] *)
From Coq Require Import Permutation.
From Verif Require Import Prelude Keys KMap UMap Geometry Factors Clique CliqueSpec CliqueHeu Pcm PcmSpec.
Set Implicit Arguments.

Section PcmProofs.
Variable O : tops.
Variable C : config.
Notation bf := (bf O).
Notation factor := (factor O).
Notation values := (values O).
Notation graph_t := (graph_t O).
Notation T := (t_T O).
Notation pcm := (pcm O).
Notation sp := (c_special C).
Notation lc_get := (uget oid_eqb (@meas_default O)).
Notation lm_get := (uget N.eqb (@meas_default O)).

Lemma Forall2_imp {A B} (P Q : A -> B -> Prop) l l' :
  (forall a b, P a b -> Q a b) -> Forall2 P l l' -> Forall2 Q l l'.
Proof. intros H F. induction F; auto. Qed.

Lemma Forall2_len {A B} (P : A -> B -> Prop) l l' : Forall2 P l l' -> length l = length l'.
Proof. intro F. induction F; cbn; auto. Qed.

(** ** Keys and maps *)

Lemma Neqb_sym a b : (a =? b)%N = (b =? a)%N. Proof. apply N.eqb_sym. Qed.
Lemma Neqb_trans a b c : (a =? b)%N = true -> (b =? c)%N = true -> (a =? c)%N = true.
Proof. rewrite !N.eqb_eq. congruence. Qed.

Lemma oid_find_set {V} id (v : V) m id' :
  lc_find id' (lc_set id v m) = if oid_eqb id' id then Some v else lc_find id' m.
Proof. apply ufind_uset; [apply oid_eqb_sym|apply oid_eqb_trans]. Qed.
Lemma oid_get_set {V} d id (v : V) m id' :
  uget oid_eqb d id' (lc_set id v m) = if oid_eqb id' id then v else uget oid_eqb d id' m.
Proof. apply uget_uset; [apply oid_eqb_sym|apply oid_eqb_trans]. Qed.
Lemma n_find_set {V} k (v : V) m k' :
  n_find k' (n_set k v m) = if (k' =? k)%N then Some v else n_find k' m.
Proof. apply ufind_uset; [apply Neqb_sym|apply Neqb_trans]. Qed.
Lemma n_get_set {V} d k (v : V) m k' :
  uget N.eqb d k' (n_set k v m) = if (k' =? k)%N then v else uget N.eqb d k' m.
Proof. apply uget_uset; [apply Neqb_sym|apply Neqb_trans]. Qed.

Lemma uset_uset {K V} (eqb : K -> K -> bool) k (v v' : V) m :
  eqb k k = true -> uset eqb k v' (uset eqb k v m) = uset eqb k v' m.
Proof.
  intro Hr. induction m as [|[k0 v0] m IH]; cbn [uset].
  - rewrite Hr. auto.
  - destruct (eqb k k0) eqn:E; cbn [uset]; rewrite E; [auto|]. rewrite IH. auto.
Qed.

Lemma lc_set_set {V} id (v v' : V) m : lc_set id v' (lc_set id v m) = lc_set id v' m.
Proof. apply uset_uset, oid_eqb_refl. Qed.
Lemma n_set_set {V} k (v v' : V) m : n_set k v' (n_set k v m) = n_set k v' m.
Proof. apply uset_uset, N.eqb_refl. Qed.

Lemma n_set_same {V} k (v : V) m : n_find k m = Some v -> n_set k v m = m.
Proof.
  induction m as [|[k0 v0] m IH]; cbn [ufind uset]; [discriminate|].
  destruct (N.eqb_spec k k0) as [->|].
  - intro H; inversion H; subst. auto.
  - intro H. rewrite IH; auto.
Qed.

(** ** Classification *)

Lemma is_special_spec k : is_special C k = sp_landmark sp k.
Proof.
  unfold is_special, sp_landmark. destruct (in_dec N.eq_dec (chr k) sp) as [H|H].
  - apply existsb_exists. exists (chr k). split; auto. apply N.eqb_refl.
  - apply not_true_iff_false. intro E. apply existsb_exists in E. destruct E as (x & Hx & E).
    apply N.eqb_eq in E. subst. auto.
Qed.

Lemma kmem_supplied (nv : values) k : kmem k nv = sp_supplied nv k.
Proof.
  unfold sp_supplied. destruct (in_dec N.eq_dec k (map fst nv)) as [H|H].
  - apply kmem_In. exact H.
  - apply not_true_iff_false. intro E. apply H. apply (kmem_In k nv). exact E.
Qed.

Lemma landmark_key_spec (b : bf) : landmark_key C b = sp_landmark_key sp b.
Proof. unfold landmark_key, sp_landmark_key. rewrite is_special_spec. auto. Qed.

Lemma classify_spec nv (b : bf) : classify C nv (FBetween b) =
  if sp_first sp nv b then FirstLandmark else if sp_odometry sp nv b then Odometry else LoopClosure.
Proof.
  unfold classify, sp_first, sp_odometry, ksucc, key_mod.
  rewrite !is_special_spec, !kmem_supplied.
  rewrite (N.eqb_sym (b_to b)).
  destruct (sp_landmark sp (b_from b)), (sp_landmark sp (b_to b)),
    (sp_supplied nv (b_from b)), (sp_supplied nv (b_to b)),
    ((b_from b + 1) mod 2 ^ 64 =? b_to b)%N; cbn [andb orb negb]; reflexivity.
Qed.

Lemma first_not_odometry nv (b : bf) : sp_first sp nv b = true -> sp_odometry sp nv b = false.
Proof.
  unfold sp_first, sp_odometry. destruct (sp_landmark sp (b_from b)), (sp_landmark sp (b_to b));
    cbn [andb orb negb]; auto; discriminate.
Qed.

(** ** The classification loop *)

Lemma update_odom_frame vals b (p p' : pcm) u : update_odom vals b p = Ok p' u ->
  p_odom p' = p_odom p ++ [b] /\ p_special p' = p_special p /\ p_lcs p' = p_lcs p /\
  p_lms p' = p_lms p /\ p_order p' = p_order p /\ p_total p' = p_total p /\
  p_good p' = p_good p /\ p_ignored p' = p_ignored p.
Proof.
  unfold update_odom. destruct (t_of O b) as [delta|]; [|discriminate].
  destruct (n_find (chr (b_to b)) (p_trajs (set_odom p (p_odom p ++ [b])))) as [tr|] eqn:E;
    cbn [obind].
  - intro H. inversion H; subst. cbn. tauto.
  - destruct (kfind (b_from b) vals) as [[x|t]|]; cbn [obind]; try discriminate.
    intro H. inversion H; subst. cbn. tauto.
Qed.

Definition store_firsts (fs : list bf) (lms : umap key (meas O)) : umap key (meas O) :=
  fold_left (fun l b => n_set (sp_landmark_key sp b) (Meas [b] [b] (zero_mat 1)) l) fs lms.

Lemma proc_factor_frame nv vals of (p : pcm) acc (p' : pcm) acc' :
  proc_factor C nv vals of p acc = Ok p' acc' ->
  p_odom p' = p_odom p ++ filter (sp_odometry sp nv) (betweens [of]) /\
  p_special p' = p_special p ++ others [of] /\
  p_lcs p' = p_lcs p /\ p_order p' = p_order p /\ p_good p' = p_good p /\ p_ignored p' = p_ignored p /\
  p_total p' = p_total p + length (filter (sp_first sp nv) (betweens [of])) /\
  p_lms p' = store_firsts (filter (sp_first sp nv) (betweens [of])) (p_lms p) /\
  fst acc' = fst acc ++ filter (sp_candidate sp nv) (betweens [of]) /\
  snd acc' = snd acc || negb (length (others [of]) =? 0).
Proof.
  unfold proc_factor. destruct of as [f|].
  2:{ intro H. inversion H; subst. cbn. rewrite !app_nil_r, orb_false_r. repeat split; auto; lia. }
  destruct f as [b|k x|k t|ks t].
  2-4: intro H; inversion H; subst; cbn; rewrite ?app_nil_r, ?orb_true_r; repeat split; auto; lia.
  rewrite classify_spec. cbn [betweens others flat_map app filter].
  unfold sp_candidate.
  destruct (sp_first sp nv b) eqn:EF.
  - rewrite (first_not_odometry nv b EF). intro H. inversion H; subst. cbn.
    rewrite !app_nil_r, orb_false_r, landmark_key_spec. repeat split; auto; lia.
  - destruct (sp_odometry sp nv b) eqn:EO.
    + destruct (update_odom vals b p) as [p1 []| |] eqn:E; cbn [obind]; try discriminate.
      intro H. inversion H; subst. apply update_odom_frame in E.
      destruct E as (E1 & E2 & E3 & E4 & E5 & E6 & E7 & E8). cbn.
      rewrite !app_nil_r, orb_false_r. repeat split; auto; lia.
    + destruct (b_from b =? b_to b)%N eqn:EQ; intro H; inversion H; subst; cbn;
        rewrite ?app_nil_r, ?orb_false_r; repeat split; auto; lia.
Qed.

Lemma betweens_app (a b : graph_t) : betweens (a ++ b) = betweens a ++ betweens b.
Proof. apply flat_map_app. Qed.
Lemma others_app (a b : graph_t) : others (a ++ b) = others a ++ others b.
Proof. apply flat_map_app. Qed.

Lemma proc_factors_frame nv vals fs : forall (p : pcm) acc (p' : pcm) acc',
  proc_factors C nv vals fs p acc = Ok p' acc' ->
  p_odom p' = p_odom p ++ filter (sp_odometry sp nv) (betweens fs) /\
  p_special p' = p_special p ++ others fs /\
  p_lcs p' = p_lcs p /\ p_order p' = p_order p /\ p_good p' = p_good p /\ p_ignored p' = p_ignored p /\
  p_total p' = p_total p + length (filter (sp_first sp nv) (betweens fs)) /\
  p_lms p' = store_firsts (filter (sp_first sp nv) (betweens fs)) (p_lms p) /\
  fst acc' = fst acc ++ filter (sp_candidate sp nv) (betweens fs) /\
  snd acc' = snd acc || negb (length (others fs) =? 0).
Proof.
  induction fs as [|of fs IH]; intros p acc p' acc' H; cbn [proc_factors] in H.
  - inversion H; subst. cbn. rewrite !app_nil_r, orb_false_r. repeat split; auto; lia.
  - destruct (proc_factor C nv vals of p acc) as [p1 acc1| |] eqn:E; cbn [obind] in H; try discriminate.
    apply proc_factor_frame in E. apply IH in H.
    destruct E as (A1 & A2 & A3 & A4 & A5 & A6 & A7 & A8 & A9 & A10).
    destruct H as (B1 & B2 & B3 & B4 & B5 & B6 & B7 & B8 & B9 & B10).
    change (of :: fs) with ([of] ++ fs). rewrite betweens_app, others_app, !filter_app.
    rewrite B1, A1, B2, A2, B3, A3, B4, A4, B5, A5, B6, A6, B7, A7, B8, A8, B9, A9, B10, A10.
    rewrite !app_assoc, !app_length. unfold store_firsts. rewrite fold_left_app.
    repeat split; auto; [lia|].
    rewrite <- orb_assoc. f_equal.
    destruct (length (others [of])), (length (others fs)); reflexivity.
Qed.

(** ** Reference poses *)

(** The pose stored for a key in the trajectory of a prefix (the default pose if absent). *)
Definition tref (p : pcm) (c : N) (k : key) : T := tget (uget N.eqb [] c (p_trajs p)) k.

Lemma tget_ttouch (tr : traj O) k k' : tget (ttouch tr k) k' = tget tr k'.
Proof.
  unfold tget, ttouch. destruct (kfind k tr) eqn:E; auto.
  rewrite kfind_kset. destruct (N.eqb_spec k' k) as [->|]; auto. rewrite E. auto.
Qed.

Lemma get_between_snd (tr : traj O) a b k : tget (snd (get_between tr a b)) k = tget tr k.
Proof.
  unfold get_between. destruct (chr a =? chr b)%N; cbn [snd]; rewrite !tget_ttouch; auto.
Qed.

Lemma traj_between_spec (p : pcm) c a b : exists tr,
  traj_between p c a b = (sp_rel (tref p) c a b, set_trajs p tr) /\
  forall c' k, tref (set_trajs p tr) c' k = tref p c' k.
Proof.
  unfold traj_between.
  destruct (get_between (uget N.eqb [] c (p_trajs p)) a b) as [t tr] eqn:E.
  exists (n_set c tr (p_trajs p)). split.
  - f_equal. unfold get_between in E. unfold sp_rel, tref.
    destruct (chr a =? chr b)%N; inversion E; auto.
  - intros c' k. unfold tref. cbn [p_trajs set_trajs]. rewrite n_get_set.
    destruct (N.eqb_spec c' c) as [->|]; auto.
    change tr with (snd (t, tr)). rewrite <- E. apply get_between_snd.
Qed.

(** [p'] is [p] up to default-inserted trajectory entries. *)
Definition teq (p p' : pcm) : Prop :=
  (exists tr, p' = set_trajs p tr) /\ (forall c k, tref p' c k = tref p c k).

Lemma teq_refl p : teq p p.
Proof. split; [|auto]. exists (p_trajs p). destruct p; reflexivity. Qed.

Lemma teq_trans p p1 p2 : teq p p1 -> teq p1 p2 -> teq p p2.
Proof.
  intros [[tr1 ->] H1] [[tr2 ->] H2]. split.
  - exists tr2. reflexivity.
  - intros. rewrite H2, H1. auto.
Qed.

Lemma sp_rel_ext (r r' : N -> key -> T) c a b : (forall c k, r c k = r' c k) -> sp_rel r c a b = sp_rel r' c a b.
Proof. intro H. unfold sp_rel. rewrite !H. auto. Qed.

Lemma sp_odom_test_ext (r r' : N -> key -> T) b : (forall c k, r c k = r' c k) ->
  sp_odom_test r b = sp_odom_test r' b.
Proof. intro H. unfold sp_odom_test. rewrite (sp_rel_ext _ r' _ _ _ H). auto. Qed.

Lemma sp_loop_test_ext (r r' : N -> key -> T) f1 f2 : (forall c k, r c k = r' c k) ->
  sp_loop_test r f1 f2 = sp_loop_test r' f1 f2.
Proof.
  intro H. unfold sp_loop_test. destruct (t_of O f1), (t_of O f2); auto.
  rewrite !(fun c a b => sp_rel_ext _ r' c a b H). auto.
Qed.

Lemma sp_lm_test_ext (r r' : N -> key -> T) f1 f2 : (forall c k, r c k = r' c k) ->
  sp_lm_test r f1 f2 = sp_lm_test r' f1 f2.
Proof.
  intro H. unfold sp_lm_test. destruct (t_of O f1), (t_of O f2); auto.
  rewrite !(fun c a b => sp_rel_ext _ r' c a b H). auto.
Qed.

Lemma traj_between_teq (p : pcm) c a b t p' : traj_between p c a b = (t, p') ->
  t = sp_rel (tref p) c a b /\ teq p p'.
Proof.
  intro H. destruct (traj_between_spec p c a b) as (tr & E & Ht). rewrite E in H.
  inversion H; subst. split; auto. split; eauto.
Qed.

Lemma is_odom_consistent_inv (p : pcm) b r p' : is_odom_consistent C p b = Val (r, p') ->
  teq p p' /\ (c_odom_check C = false /\ r = true \/
               c_odom_check C = true /\ sp_odom_test (tref p) b = Some r).
Proof.
  unfold is_odom_consistent. destruct (c_odom_check C); cbn [negb].
  - destruct (traj_between p (chr (b_from b)) (b_from b) (b_to b)) as [t p1] eqn:E.
    apply traj_between_teq in E. destruct E as [-> Ht]. unfold sp_odom_test.
    destruct (t_of O b); [|discriminate]. intro H. inversion H; subst. split; auto.
  - intro H. inversion H; subst. split; auto using teq_refl.
Qed.

Lemma are_loops_consistent_inv (p : pcm) f1 f2 r p' : are_loops_consistent C p f1 f2 = Val (r, p') ->
  teq p p' /\ (c_loop_check C = false /\ r = true \/
               c_loop_check C = true /\ sp_loop_test (tref p) f1 f2 = Some r).
Proof.
  unfold are_loops_consistent. destruct (c_loop_check C); cbn [negb].
  2:{ intro H. inversion H; subst. split; auto using teq_refl. }
  unfold sp_loop_test. destruct (t_of O f1) as [m1|]; [|discriminate].
  destruct (t_of O f2) as [m2|]; [|discriminate].
  destruct (chr (b_from f1) =? chr (b_from f2))%N;
    match goal with |- context [traj_between p ?c ?a ?b] => destruct (traj_between p c a b) as [t1 p1] eqn:E1 end;
    match goal with |- context [traj_between ?q ?c ?a ?b] => destruct (traj_between q c a b) as [t2 p2] eqn:E2 end;
    intro H; inversion H; subst;
    apply traj_between_teq in E1; destruct E1 as [-> H1];
    apply traj_between_teq in E2; destruct E2 as [-> H2];
    (split; [eapply teq_trans; eauto|]); right; split; auto;
    match type of H1 with teq _ ?q => rewrite (sp_rel_ext (tref q) (tref p)) end; auto; apply H1.
Qed.

Lemma lc_bits_inv fs new : c_loop_check C = true -> forall (p : pcm) bits bits' p',
  lc_bits C fs new p bits = Val (bits', p') ->
  teq p p' /\ exists l, bits' = bits ++ l /\ Forall2 (fun f r => sp_loop_test (tref p) f new = Some r) fs l.
Proof.
  intro HC. induction fs as [|f fs IH]; intros p bits bits' p' H; cbn [lc_bits] in H.
  - inversion H; subst. split; [apply teq_refl|]. exists []. rewrite app_nil_r. auto.
  - destruct (are_loops_consistent C p f new) as [[r p1]|] eqn:E; cbn [rbind] in H; [|discriminate].
    apply are_loops_consistent_inv in E. destruct E as [H1 [[? _]|[_ E]]]; [congruence|].
    apply IH in H. destruct H as [H2 (l & -> & HF)].
    split; [eapply teq_trans; eauto|]. exists (r :: l). rewrite <- app_assoc. split; auto.
    constructor; auto. eapply Forall2_imp; [|exact HF]. cbn.
    intros a b0 Hab. rewrite <- Hab. apply sp_loop_test_ext. intros. symmetry. apply H1.
Qed.

Lemma lm_bits_inv l fs new : forall (p : pcm) bits ob p',
  lm_bits l fs new p bits = Val (ob, p') ->
  teq p p' /\
  ((ob = None /\ fs <> [] /\ (b_from new = l \/ exists f, In f fs /\ b_from f = l)) \/
   (exists bs, ob = Some (bits ++ bs) /\ (fs = [] \/ b_from new <> l) /\ Forall (fun f => b_from f <> l) fs /\
      Forall2 (fun f r => sp_lm_test (tref p) f new = Some r) fs bs)).
Proof.
  induction fs as [|f fs IH]; intros p bits ob p' H; cbn [lm_bits] in H.
  - inversion H; subst. split; [apply teq_refl|]. right. exists []. rewrite app_nil_r.
    repeat split; auto.
  - destruct ((b_from f =? l)%N || (b_from new =? l)%N) eqn:EL.
    + inversion H; subst. split; [apply teq_refl|]. left. split; auto. split; [discriminate|].
      apply orb_true_iff in EL. destruct EL as [EL|EL]; apply N.eqb_eq in EL; auto.
      right. exists f. split; auto. left; auto.
    + apply orb_false_iff in EL. destruct EL as [EL1 EL2]. apply N.eqb_neq in EL1, EL2.
      destruct (t_of O f) as [m1|] eqn:Ef; [|discriminate].
      destruct (t_of O new) as [m2|] eqn:En; [|discriminate].
      destruct (traj_between p (chr (b_from f)) (b_from f) (b_from new)) as [t p1] eqn:E1.
      apply traj_between_teq in E1. destruct E1 as [-> H1].
      apply IH in H. destruct H as [H2 HO]. split; [eapply teq_trans; eauto|].
      destruct HO as [(-> & Hn & HO)|(bs & -> & Hn & HF & HF2)].
      * left. split; auto. split; [discriminate|]. destruct HO as [HO|(g & Hg & HO)]; auto.
        right. exists g. split; auto. right; auto.
      * right. eexists (_ :: bs). rewrite <- app_assoc. split; [reflexivity|].
        split; [auto|]. split; [constructor; auto|]. constructor.
        -- unfold sp_lm_test. rewrite Ef, En. reflexivity.
        -- eapply Forall2_imp; [|exact HF2]. cbn.
           intros a b0 Hab. rewrite <- Hab. apply sp_lm_test_ext. intros. symmetry. apply H1.
Qed.

(** How the pairwise record of a container grows when [b] is added: [old] is the container
    before. *)
Definition grows (ref : N -> key -> T) (old : meas O) (b : bf) (adj : matrix) : Prop :=
  let n := length (me_factors old) in
  (n = 0 /\ adj = zero_mat 1) \/
  (0 < n /\ m_rows (me_adj old) = n /\ m_cols (me_adj old) = n /\ exists bits,
     adj = grow_mat (me_adj old) bits n /\
     Forall2 (fun f r => sp_loop_test ref f b = Some r) (me_factors old) bits).

Lemma dims_are_spec m n : dims_are m n = true <-> m_rows m = n /\ m_cols m = n.
Proof. unfold dims_are. rewrite andb_true_iff, !Nat.eqb_eq. tauto. Qed.

Lemma firstn_snoc_len {A} (l : list A) x : firstn (length (l ++ [x]) - 1) (l ++ [x]) = l.
Proof.
  rewrite app_length. cbn [length]. replace (length l + 1 - 1) with (length l) by lia.
  rewrite firstn_app, firstn_all, Nat.sub_diag. cbn. apply app_nil_r.
Qed.

Lemma increment_adj_inv id b old (p p' : pcm) : c_loop_check C = true ->
  lc_get id (p_lcs p) = meas_add old b ->
  increment_adj C id b p = Val p' ->
  exists adj tr, grows (tref p) old b adj /\
    p' = set_trajs (set_lcs p (lc_set id (Meas (me_factors old ++ [b]) (me_cons old) adj) (p_lcs p))) tr /\
    (forall c k, tref p' c k = tref p c k).
Proof.
  intros HC Hg. unfold increment_adj. rewrite Hg. unfold meas_add. cbn [me_factors me_cons me_adj].
  assert (HL : length (me_factors old ++ [b]) = S (length (me_factors old)))
    by (rewrite app_length; cbn; lia).
  rewrite HL. destruct (S (length (me_factors old)) <=? 1) eqn:E1.
  - intro H. inversion H; subst. apply Nat.leb_le in E1.
    exists (zero_mat (S (length (me_factors old)))), (p_trajs p). split.
    + left. split; [lia|]. f_equal. lia.
    + split; [destruct p; reflexivity|]. auto.
  - apply Nat.leb_gt in E1.
    destruct (dims_are (me_adj old) (S (length (me_factors old)) - 1)) eqn:E2; [|discriminate].
    apply dims_are_spec in E2. destruct E2 as [E2 E3].
    destruct (lc_bits C (firstn (S (length (me_factors old)) - 1) (me_factors old ++ [b])) b p []) as [[bits p1]|] eqn:E;
      cbn [rbind]; [|discriminate].
    rewrite <- HL, firstn_snoc_len in E.
    apply lc_bits_inv in E; auto. destruct E as [[[tr ->] Ht] (l & -> & HF)]. cbn [app].
    replace (S (length (me_factors old)) - 1) with (length (me_factors old)) in * by lia.
    intro H. injection H as <-. cbn [p_lcs set_trajs].
    exists (grow_mat (me_adj old) l (length (me_factors old))), tr. split; [|split; auto].
    + right. repeat split; auto; try lia. exists l. auto.
Qed.

(** The same for a landmark: nothing grows when the landmark is at the front of the new or an
    earlier observation. *)
Definition lm_grows (ref : N -> key -> T) (l : key) (old : meas O) (b : bf) (adj : matrix) : Prop :=
  let n := length (me_factors old) in
  (n = 0 /\ adj = zero_mat 1) \/
  (0 < n /\ m_rows (me_adj old) = n /\ m_cols (me_adj old) = n /\
    ((adj = me_adj old /\ exists f, In f (me_factors old ++ [b]) /\ b_from f = l) \/
     exists bits, adj = grow_mat (me_adj old) bits n /\
       Forall (fun f => b_from f <> l) (me_factors old ++ [b]) /\
       Forall2 (fun f r => sp_lm_test ref f b = Some r) (me_factors old) bits)).

Lemma increment_landmark_adj_inv l b old (p p' : pcm) :
  lm_get l (p_lms p) = meas_add old b ->
  increment_landmark_adj l b p = Val p' ->
  exists adj tr, lm_grows (tref p) l old b adj /\
    p' = set_trajs (set_lms p (n_set l (Meas (me_factors old ++ [b]) (me_cons old) adj) (p_lms p))) tr /\
    (forall c k, tref p' c k = tref p c k).
Proof.
  intros Hg. unfold increment_landmark_adj. rewrite Hg. unfold meas_add. cbn [me_factors me_cons me_adj].
  assert (HL : length (me_factors old ++ [b]) = S (length (me_factors old)))
    by (rewrite app_length; cbn; lia).
  rewrite HL. destruct (S (length (me_factors old)) <=? 1) eqn:E1.
  - intro H. inversion H; subst. apply Nat.leb_le in E1.
    exists (zero_mat (S (length (me_factors old)))), (p_trajs p). split.
    + left. split; [lia|]. f_equal. lia.
    + split; [destruct p; reflexivity|]. auto.
  - apply Nat.leb_gt in E1.
    destruct (dims_are (me_adj old) (S (length (me_factors old)) - 1)) eqn:E2; [|discriminate].
    apply dims_are_spec in E2. destruct E2 as [E2 E3].
    destruct (lm_bits l (firstn (S (length (me_factors old)) - 1) (me_factors old ++ [b])) b p []) as [[ob p1]|] eqn:E;
      cbn [rbind]; [|discriminate].
    rewrite <- HL, firstn_snoc_len in E.
    apply lm_bits_inv in E; auto.
    replace (S (length (me_factors old)) - 1) with (length (me_factors old)) in * by lia.
    destruct E as [[[tr ->] Ht] [(-> & Hn & Hf)|(bs & -> & Hn & HF & HF2)]]; intro H; inversion H; subst.
    + exists (me_adj old), tr. split; [|split; auto].
      * right. repeat split; auto; try lia. left. split; auto.
        destruct Hf as [Hf|(f & Hin & Hf)].
        -- exists b. split; auto. apply in_or_app. right. left; auto.
        -- exists f. split; auto. apply in_or_app. auto.
      * unfold uget, meas_add in Hg. destruct (n_find l (p_lms p)) as [m|] eqn:Ef.
        -- subst m. rewrite (n_set_same _ _ Ef). destruct p; reflexivity.
        -- inversion Hg as [[Hx _ _]]. destruct (me_factors old); discriminate.
    + cbn [p_lms set_trajs app]. exists (grow_mat (me_adj old) bs (length (me_factors old))), tr.
      split; [|split; auto].
      right. repeat split; auto; try lia. right. exists bs. split; auto. split; auto.
      apply Forall_app. split; auto. constructor; auto.
      destruct Hn as [Hn|Hn]; auto. rewrite Hn in E1. cbn in E1. lia.
Qed.

End PcmProofs.
