(** * Inversion lemmas for [removeOutliers] and invariants of the containers *)
From Coq Require Import Permutation.
From Verif Require Import Prelude Keys KMap UMap Geometry Factors Clique CliqueSpec CliqueHeu Pcm PcmSpec PcmProofs.
Set Implicit Arguments.

Section PcmInv.
Variable O : tops.
Variable C : config.
Notation bf := (bf O).
Notation factor := (factor O).
Notation values := (values O).
Notation graph_t := (graph_t O).
Notation T := (t_T O).
Notation pcm := (pcm O).
Notation meas := (meas O).
Notation sp := (c_special C).
Notation lc_get := (uget oid_eqb (@meas_default O)).
Notation lm_get := (uget N.eqb (@meas_default O)).

(** ** One candidate *)

Definition pair_of (b : bf) : obsid := (chr (b_from b), chr (b_to b)).
Definition is_landmark_factor (b : bf) : bool := sp_landmark sp (b_from b) || sp_landmark sp (b_to b).

(** The conditions under which a pose-pose candidate is stored, given the reference poses. *)
Definition admissible (vals : values) (ref : N -> key -> T) (b : bf) : Prop :=
  kmem (b_from b) vals = true /\ kmem (b_to b) vals = true /\ is_landmark_factor b = false /\
  (chr (b_from b) = chr (b_to b) -> c_odom_check C = true -> sp_odom_test ref b = Some true).

Definition store_lc (p : pcm) (b : bf) (adj : matrix) (tr : umap N (traj O)) : pcm :=
  let m := lc_get (pair_of b) (p_lcs p) in
  set_trajs (set_total (set_order (set_lcs p
    (lc_set (pair_of b) (Meas (me_factors m ++ [b]) (me_cons m) adj) (p_lcs p)))
    (p_order p ++ [pair_of b])) (S (p_total p))) tr.

Definition store_lm (p : pcm) (b : bf) (adj : matrix) (tr : umap N (traj O)) : pcm :=
  let l := sp_landmark_key sp b in
  let m := lm_get l (p_lms p) in
  set_trajs (set_total (set_lms p (n_set l (Meas (me_factors m ++ [b]) (me_cons m) adj) (p_lms p)))
    (S (p_total p))) tr.

Inductive parsed (vals : values) (b : bf) (p : pcm) : pcm -> option obsid -> Prop :=
| parsed_missing : (kmem (b_from b) vals = false \/ kmem (b_to b) vals = false) -> parsed vals b p p None
| parsed_rejected tr : kmem (b_from b) vals = true -> kmem (b_to b) vals = true ->
    is_landmark_factor b = false -> chr (b_from b) = chr (b_to b) -> c_odom_check C = true ->
    sp_odom_test (tref p) b = Some false ->
    (forall c k, tref (set_trajs p tr) c k = tref p c k) ->
    parsed vals b p (set_trajs p tr) None
| parsed_landmark adj tr : kmem (b_from b) vals = true -> kmem (b_to b) vals = true ->
    is_landmark_factor b = true ->
    lm_grows (tref p) (sp_landmark_key sp b) (lm_get (sp_landmark_key sp b) (p_lms p)) b adj ->
    (forall c k, tref (store_lm p b adj tr) c k = tref p c k) ->
    parsed vals b p (store_lm p b adj tr) None
| parsed_stored adj tr : admissible vals (tref p) b ->
    (if c_loop_check C then grows (tref p) (lc_get (pair_of b) (p_lcs p)) b adj
     else adj = me_adj (lc_get (pair_of b) (p_lcs p))) ->
    (forall c k, tref (store_lc p b adj tr) c k = tref p c k) ->
    parsed vals b p (store_lc p b adj tr) (Some (pair_of b)).

Lemma tref_trajs (p q : pcm) : p_trajs p = p_trajs q -> forall c k, tref p c k = tref q c k.
Proof. intros H c k. unfold tref. rewrite H. auto. Qed.

Lemma parse_one_inv vals b (p p' : pcm) nn nn' : parse_one C vals b (p, nn) = Val (p', nn') ->
  exists o, parsed vals b p p' o /\ nn' = match o with Some id => nn_incr id nn | None => nn end.
Proof.
  unfold parse_one.
  destruct (kmem (b_from b) vals) eqn:E1; cbn [negb orb].
  2:{ intro H. inversion H; subst. exists None. split; auto. constructor. auto. }
  destruct (kmem (b_to b) vals) eqn:E2; cbn [negb orb].
  2:{ intro H. inversion H; subst. exists None. split; auto. constructor. auto. }
  rewrite !is_special_spec, landmark_key_spec.
  destruct (sp_landmark sp (b_from b) || sp_landmark sp (b_to b)) eqn:ES.
  - set (l := sp_landmark_key sp b).
    destruct (increment_landmark_adj l b
      (set_total (set_lms p (n_set l (meas_add (lm_get l (p_lms p)) b) (p_lms p))) (S (p_total p)))) as [p2|] eqn:E;
      cbn [rbind]; [|discriminate].
    intro H. inversion H; subst.
    apply increment_landmark_adj_inv with (old := lm_get l (p_lms p)) in E.
    2:{ cbn [p_lms set_total set_lms]. rewrite n_get_set, N.eqb_refl. auto. }
    destruct E as (adj & tr & Hg & -> & Ht). exists None. split; auto.
    cbn [p_lms set_total set_lms] in *. rewrite n_set_set in *.
    apply (@parsed_landmark vals b p adj tr); auto.
  - destruct (chr (b_from b) =? chr (b_to b))%N eqn:EC.
    + apply N.eqb_eq in EC.
      destruct (is_odom_consistent C p b) as [[ok p1]|] eqn:EO; cbn [rbind]; [|discriminate].
      apply is_odom_consistent_inv in EO. destruct EO as [[[tr1 ->] Ht1] HO].
      destruct ok.
      2:{ intro H. inversion H; subst. exists None. split; auto.
          destruct HO as [[_ HO]|[HC HO]]; [discriminate|].
          apply parsed_rejected; auto. }
      assert (HA : admissible vals (tref p) b).
      { repeat split; auto. intros _ Hc. destruct HO as [[HO _]|[_ HO]]; [congruence|auto]. }
      fold (pair_of b).
      destruct (c_loop_check C) eqn:EL.
      * match goal with |- context [increment_adj C ?i ?x ?q] => destruct (increment_adj C i x q) as [p4|] eqn:E end;
          cbn [rbind]; [|discriminate].
        intro H. inversion H; subst.
        apply increment_adj_inv with (old := lc_get (pair_of b) (p_lcs p)) in E; auto.
        2:{ cbn [p_lcs set_total set_order set_lcs set_trajs]. rewrite oid_get_set, oid_eqb_refl. auto. }
        destruct E as (adj & tr & Hg & -> & Ht). exists (Some (pair_of b)). split; auto.
        cbn [p_lcs set_total set_order set_lcs set_trajs] in *. rewrite lc_set_set in *.
        apply (@parsed_stored vals b p adj tr); auto.
        -- rewrite EL. revert Hg. unfold grows. intros [Hg|(G1 & G2 & G3 & bits & G4 & G5)]; auto.
           right. repeat split; auto. exists bits. split; auto. eapply Forall2_imp; [|exact G5].
           intros f r Hr. rewrite <- Hr. apply sp_loop_test_ext. intros. rewrite <- Ht1.
           apply tref_trajs. reflexivity.
        -- intros c k. cbn. specialize (Ht c k). rewrite <- Ht1. etransitivity; [|etransitivity; [exact Ht|]]; auto.
      * cbn [rbind]. intro H. inversion H; subst. exists (Some (pair_of b)). split; auto.
        apply (@parsed_stored vals b p (me_adj (lc_get (pair_of b) (p_lcs p))) tr1); auto.
        rewrite EL. auto.
    + apply N.eqb_neq in EC. cbn [rbind].
      assert (HA : admissible vals (tref p) b).
      { repeat split; auto. intros Hc. contradiction. }
      fold (pair_of b).
      destruct (c_loop_check C) eqn:EL.
      * match goal with |- context [increment_adj C ?i ?x ?q] => destruct (increment_adj C i x q) as [p4|] eqn:E end;
          cbn [rbind]; [|discriminate].
        intro H. inversion H; subst.
        apply increment_adj_inv with (old := lc_get (pair_of b) (p_lcs p)) in E; auto.
        2:{ cbn [p_lcs set_total set_order set_lcs set_trajs]. rewrite oid_get_set, oid_eqb_refl. auto. }
        destruct E as (adj & tr & Hg & -> & Ht). exists (Some (pair_of b)). split; auto.
        cbn [p_lcs set_total set_order set_lcs set_trajs] in *. rewrite lc_set_set in *.
        apply (@parsed_stored vals b p adj tr); auto.
        rewrite EL. auto.
      * cbn [rbind]. intro H. inversion H; subst. exists (Some (pair_of b)). split; auto.
        replace (set_total _ _) with (store_lc p b (me_adj (lc_get (pair_of b) (p_lcs p))) (p_trajs p))
          by (destruct p; reflexivity).
        apply parsed_stored; auto. rewrite EL. auto.
Qed.

(** ** Inlier selection *)

Lemma select_inv (fs : list bf) k data cs : select fs k data = Val cs ->
  (0 <= k)%Z /\ Z.to_nat k <= length data /\
  Forall2 (fun i f => nth_error fs i = Some f) (firstn (Z.to_nat k) data) cs.
Proof.
  unfold select. destruct (k <? 0)%Z eqn:Ek; [discriminate|]. apply Z.ltb_ge in Ek.
  generalize (Z.to_nat k) as n. intros n H. split; auto.
  assert (G : forall n cs, rfold (fun i acc => let* ix := vget data i in
      let* f := vget fs ix in Val (acc ++ [f])) (seq 0 n) [] = Val cs ->
      n <= length data /\ Forall2 (fun i f => nth_error fs i = Some f) (firstn n data) cs).
  { clear. induction n as [|n IH]; intros cs H.
    - cbn in H. inversion H; subst. split; [lia|constructor].
    - rewrite seq_S, rfold_app in H. cbn [plus] in H.
      destruct (rfold _ (seq 0 n) []) as [acc|] eqn:E; cbn [rbind rfold] in H; [|discriminate].
      destruct (IH acc eq_refl) as [HL HF].
      destruct (vget data n) as [ix|] eqn:E1; cbn [rbind] in H; [|discriminate].
      destruct (vget fs ix) as [f|] eqn:E2; cbn [rbind] in H; [|discriminate].
      inversion H; subst. apply vget_Val in E1. apply vget_Val in E2.
      assert (n < length data) by (apply nth_error_Some; congruence).
      split; [lia|].
      assert (HX : firstn (S n) data = firstn n data ++ [ix]).
      { clear -E1. revert data E1. induction n as [|n IH]; intros [|d data] E1; cbn in *; try discriminate.
        - inversion E1; auto.
        - f_equal. apply IH. auto. }
      rewrite HX. apply Forall2_app; auto. }
  apply G. auto.
Qed.

Lemma select_incl fs k data (cs : list bf) : select fs k data = Val cs -> incl cs fs.
Proof.
  intro H. apply select_inv in H. destruct H as (_ & _ & F). intros f Hf.
  induction F as [|i g l l' Hi F IH]; [destruct Hf|].
  destruct Hf as [<-|Hf]; auto. apply nth_error_In in Hi. auto.
Qed.

Lemma select_length fs k data (cs : list bf) : select fs k data = Val cs -> length cs = Z.to_nat k.
Proof.
  intro H. apply select_inv in H. destruct H as (_ & L & F). apply Forall2_len in F.
  rewrite firstn_length in F. lia.
Qed.

(** What inlier selection may do to a container. *)
Definition reselected (m m' : meas) : Prop :=
  me_factors m' = me_factors m /\ me_adj m' = me_adj m /\
  (incl (me_cons m') (me_factors m) \/ me_cons m' = me_cons m).

Lemma heu_inliers_inv (m m' : meas) : heu_inliers m = Val m' -> exists k data cs,
  find_max_clique_heu (me_adj m) = Val (k, data) /\ select (me_factors m) k data = Val cs /\
  m' = Meas (me_factors m) cs (me_adj m).
Proof.
  unfold heu_inliers. destruct (find_max_clique_heu (me_adj m)) as [[k data]|] eqn:E; cbn [rbind]; [|discriminate].
  destruct (select (me_factors m) k data) as [cs|] eqn:E2; cbn [rbind]; [|discriminate].
  intro H. inversion H; subst. exists k, data, cs. auto.
Qed.

Lemma heu_inliers_reselected (m m' : meas) : heu_inliers m = Val m' -> reselected m m'.
Proof.
  intro H. apply heu_inliers_inv in H. destruct H as (k & data & cs & _ & H & ->).
  apply select_incl in H. repeat split; auto.
Qed.

Lemma pair_inliers_reselected (m m' : meas) : pair_inliers C m = Val m' -> reselected m m'.
Proof.
  unfold pair_inliers. destruct (c_loop_check C); [apply heu_inliers_reselected|].
  intro H. inversion H; subst. repeat split; auto. left. apply incl_refl.
Qed.

Lemma inc_inliers_reselected n (m m' : meas) : inc_inliers n m = Val m' -> reselected m m'.
Proof.
  unfold inc_inliers. destruct (find_max_clique_heu_inc _ _ _) as [[k data]|]; cbn [rbind]; [|discriminate].
  destruct (k =? 0)%Z.
  - intro H. inversion H; subst. repeat split; auto.
  - destruct (select (me_factors m) k data) as [cs|] eqn:E2; cbn [rbind]; [|discriminate].
    intro H. inversion H; subst. apply select_incl in E2. repeat split; auto.
Qed.

Lemma umapM_inv {K} (f : meas -> res meas) (m m' : umap K meas) : umapM f m = Val m' ->
  Forall2 (fun kv kv' => fst kv' = fst kv /\ f (snd kv) = Val (snd kv')) m m'.
Proof.
  revert m'. induction m as [|[k v] m IH]; intros m' H; cbn [umapM] in H.
  - inversion H; subst. constructor.
  - destruct (f v) as [v'|] eqn:E; cbn [rbind] in H; [|discriminate].
    destruct (umapM f m) as [m''|] eqn:E2; cbn [rbind] in H; [|discriminate].
    inversion H; subst. constructor; auto.
Qed.

(** Entry-wise relation between two maps. *)
Definition entrywise {K} (R : meas -> meas -> Prop) (m m' : umap K meas) : Prop :=
  Forall2 (fun kv kv' => fst kv' = fst kv /\ R (snd kv) (snd kv')) m m'.

Lemma umapM_reselected {K} (f : meas -> res meas) (m m' : umap K meas) :
  (forall a b, f a = Val b -> reselected a b) -> umapM f m = Val m' -> entrywise reselected m m'.
Proof.
  intros Hf H. apply umapM_inv in H. eapply Forall2_imp; [|exact H]. intros a b [H1 H2]. auto.
Qed.

Lemma reselected_refl m : reselected m m.
Proof. repeat split; auto. Qed.

Lemma reselected_trans m m1 m2 : reselected m m1 -> reselected m1 m2 -> reselected m m2.
Proof.
  intros (A1 & A2 & A3) (B1 & B2 & B3). repeat split; try congruence.
  rewrite A1 in B3. destruct B3 as [B3|B3]; auto. rewrite B3. auto.
Qed.

Lemma entrywise_refl {K} (m : umap K meas) : entrywise reselected m m.
Proof. unfold entrywise. induction m; constructor; auto using reselected_refl. Qed.

Lemma entrywise_trans {K} (m m1 m2 : umap K meas) :
  entrywise reselected m m1 -> entrywise reselected m1 m2 -> entrywise reselected m m2.
Proof.
  unfold entrywise. intro H. revert m2. induction H as [|a b l l' [H1 H2] H IH]; intros m2 G; inversion G; subst.
  - constructor.
  - destruct H4 as [H4 H5]. constructor; auto. split; [congruence|]. eapply reselected_trans; eauto.
Qed.

Lemma entrywise_set {K} (eqb : K -> K -> bool) id (m : umap K meas) (v v' : meas) :
  ufind eqb id m = Some v -> reselected v v' -> entrywise reselected m (uset eqb id v' m).
Proof.
  intros Hf Hr. revert Hf. induction m as [|[k w] m IH]; cbn [ufind uset]; [discriminate|].
  destruct (eqb id k).
  - intro H. inversion H; subst. constructor; auto. apply entrywise_refl.
  - intro H. constructor; [split; auto using reselected_refl|]. apply IH; auto.
Qed.

Lemma entrywise_find {K} R (eqb : K -> K -> bool) id (m m' : umap K meas) :
  entrywise R m m' ->
  match ufind eqb id m, ufind eqb id m' with
  | Some a, Some b => R a b | None, None => True | _, _ => False end.
Proof.
  intro H. induction H as [|[k a] [k' b] l l' [H1 H2] H IH]; cbn [ufind]; auto.
  cbn [fst snd] in *. subst k'. destruct (eqb id k); auto.
Qed.

Lemma entrywise_keys {K} R (m m' : umap K meas) : entrywise R m m' -> map fst m' = map fst m.
Proof. intro H. induction H as [|a b l l' [H1 H2] H IH]; cbn [map]; auto. rewrite H1, IH. auto. Qed.

Definition has_all (nn : numnew) (lcs : umap obsid meas) : Prop :=
  forall id n, In (id, n) nn -> exists m, lc_find id lcs = Some m.

Lemma inc_fold_inv nn : forall lcs lcs', has_all nn lcs ->
  rfold (fun '(id, nw) lcs => let* m' := inc_inliers nw (lc_get id lcs) in Val (lc_set id m' lcs)) nn lcs = Val lcs' ->
  entrywise reselected lcs lcs'.
Proof.
  induction nn as [|[id n] nn IH]; intros lcs lcs' Ha H; cbn [rfold] in H.
  - inversion H; subst. apply entrywise_refl.
  - destruct (inc_inliers n (lc_get id lcs)) as [m'|] eqn:E; cbn [rbind] in H; [|discriminate].
    apply inc_inliers_reselected in E. destruct (Ha id n (or_introl eq_refl)) as [m Hm].
    unfold uget in E. rewrite Hm in E.
    assert (HE : entrywise reselected lcs (lc_set id m' lcs)) by (eapply entrywise_set; eauto).
    apply IH in H; [eapply entrywise_trans; eauto|].
    intros id' n' Hin. destruct (Ha id' n' (or_intror Hin)) as [m2 Hm2].
    rewrite oid_find_set. destruct (oid_eqb id' id); eauto.
Qed.

(** Result of the selection of inliers, of either kind. *)
Definition selected (p p' : pcm) : Prop :=
  entrywise reselected (p_lcs p) (p_lcs p') /\ entrywise reselected (p_lms p) (p_lms p') /\
  p' = set_good (set_lms (set_lcs p (p_lcs p')) (p_lms p')) (count_cons (p_lcs p') + count_cons (p_lms p')).

Lemma find_inliers_selected (p p' : pcm) : find_inliers C p = Val p' -> selected p p'.
Proof.
  unfold find_inliers. destruct (umapM (pair_inliers C) (p_lcs p)) as [lcs|] eqn:E1; cbn [rbind]; [|discriminate].
  destruct (umapM (heu_inliers (O:=O)) (p_lms p)) as [lms|] eqn:E2; cbn [rbind]; [|discriminate].
  intro H. inversion H; subst. split; [|split; auto].
  - eapply umapM_reselected; [apply pair_inliers_reselected|]; auto.
  - eapply umapM_reselected; [apply heu_inliers_reselected|]; auto.
Qed.

Lemma find_inliers_inc_selected nn (p p' : pcm) : has_all nn (p_lcs p) ->
  find_inliers_inc nn p = Val p' -> selected p p'.
Proof.
  intro Ha. unfold find_inliers_inc.
  match goal with |- context [rfold ?f nn (p_lcs p)] => destruct (rfold f nn (p_lcs p)) as [lcs|] eqn:E1 end;
    cbn [rbind]; [|discriminate].
  destruct (umapM (heu_inliers (O:=O)) (p_lms p)) as [lms|] eqn:E2; cbn [rbind]; [|discriminate].
  intro H. inversion H; subst. split; [|split; auto].
  - eapply inc_fold_inv; eauto.
  - eapply umapM_reselected; [apply heu_inliers_reselected|]; auto.
Qed.

(** ** All candidates of a call *)

Inductive parsed_list (vals : values) : list bf -> pcm -> pcm -> Prop :=
| pl_nil p : parsed_list vals [] p p
| pl_cons b bs p o p1 p2 : parsed vals b p p1 o -> parsed_list vals bs p1 p2 -> parsed_list vals (b :: bs) p p2.

Lemma nn_incr_In id nn id' n : In (id', n) (nn_incr id nn) ->
  oid_eqb id id' = true \/ exists n', In (id', n') nn.
Proof.
  unfold nn_incr. destruct (lc_find id nn) as [c|] eqn:E.
  - intro H. clear E. induction nn as [|[k v] nn IH]; cbn [uset] in H.
    + destruct H as [H|[]]. inversion H; subst. left. apply oid_eqb_refl.
    + destruct (oid_eqb id k) eqn:Ek.
      * destruct H as [H|H]; [inversion H; subst; auto|]. right. exists n. right; auto.
      * destruct H as [H|H]; [inversion H; subst; right; exists n; left; auto|].
        destruct (IH H) as [?|[n' ?]]; auto. right. exists n'. right; auto.
  - intro H. apply in_app_or in H. destruct H as [H|[H|[]]]; [right; eauto|].
    inversion H; subst. left. apply oid_eqb_refl.
Qed.

Lemma parsed_find vals b p p' o id m : parsed vals b p p' o -> lc_find id (p_lcs p) = Some m ->
  exists m', lc_find id (p_lcs p') = Some m'.
Proof.
  intros H Hm. inversion H; subst; cbn; eauto. rewrite oid_find_set. destruct (oid_eqb id (pair_of b)); eauto.
Qed.

Lemma parsed_has_all vals b p p' o nn : parsed vals b p p' o -> has_all nn (p_lcs p) ->
  has_all (match o with Some id => nn_incr id nn | None => nn end) (p_lcs p').
Proof.
  intros H Ha. destruct o as [id|].
  - intros id' n Hin. apply nn_incr_In in Hin. destruct Hin as [E|[n' Hin]].
    + inversion H; subst. cbn. rewrite oid_find_set, oid_eqb_sym, E. eauto.
    + destruct (Ha id' n' Hin) as [m Hm]. eapply parsed_find; eauto.
  - intros id' n Hin. destruct (Ha id' n Hin) as [m Hm]. eapply parsed_find; eauto.
Qed.

Lemma parse_all_inv vals bs (p p' : pcm) nn : parse_all C vals bs p = Val (p', nn) ->
  parsed_list vals bs p p' /\ has_all nn (p_lcs p').
Proof.
  unfold parse_all.
  assert (G : forall bs p nn p' nn', rfold (parse_one C vals) bs (p, nn) = Val (p', nn') ->
    has_all nn (p_lcs p) -> parsed_list vals bs p p' /\ has_all nn' (p_lcs p')).
  { clear. induction bs as [|b bs IH]; intros p nn p' nn' H Ha; cbn [rfold] in H.
    - inversion H; subst. split; auto. constructor.
    - destruct (parse_one C vals b (p, nn)) as [[p1 nn1]|] eqn:E; cbn [rbind] in H; [|discriminate].
      apply parse_one_inv in E. destruct E as (o & Hp & ->).
      apply IH in H; [|eapply parsed_has_all; eauto]. destruct H as [H1 H2]. split; auto.
      econstructor; eauto. }
  intro H. apply G in H; auto. intros id n [].
Qed.

(** ** A whole call *)

Variable W : oracles O.

(** The effect of [removeOutliers] on its own state. *)
Inductive ro_pcm (fs : graph_t) (nv vals : values) (p : pcm) : pcm -> bool -> Prop :=
| ro_empty : fs = [] -> ro_pcm fs nv vals p p false
| ro_none p1 opt : fs <> [] -> proc_factors C nv vals fs p ([], false) = Ok p1 ([], opt) ->
    ro_pcm fs nv vals p p1 opt
| ro_some p1 lcs opt p2 p3 : fs <> [] -> proc_factors C nv vals fs p ([], false) = Ok p1 (lcs, opt) -> lcs <> [] ->
    parsed_list vals lcs p1 p2 -> selected p2 p3 ->
    (c_incremental C = false -> find_inliers C p2 = Val p3) ->
    ro_pcm fs nv vals p p3 true.

Lemma remove_outliers_inv fs nv (s s' : pst O) b :
  remove_outliers C W fs nv s = Ok s' b ->
  exists vs u p', vinsert_all nv (ps_vals s) = Ok vs u /\ ro_pcm fs nv vs (ps_pcm s) p' b /\
    (fs = [] -> s' = PSt p' (ps_nfg s) vs) /\
    (fs <> [] -> ps_nfg s' = graph_of W p') /\
    (c_align C = false -> s' = PSt p' (ps_nfg s') vs) /\
    (c_align C = true -> (ps_pcm s' = p' /\ ps_vals s' = vs \/
       fs <> [] /\ 1 < length (p_robots p') /\
       ps_pcm s' = set_robots p' (nsort (p_robots p')) /\
       align W (ps_pcm s') vs = Ok (ps_vals s') tt)).
Proof.
  unfold remove_outliers. destruct (vinsert_all nv (ps_vals s)) as [vs u| |] eqn:EV; try discriminate.
  destruct fs as [|of fs].
  { intro H. inversion H; subst. exists vs, u, (ps_pcm s). cbn. repeat split; auto; try congruence.
    constructor; auto. }
  destruct (proc_factors C nv vs (of :: fs) (ps_pcm s) ([], false)) as [p1 [lcs opt]| |] eqn:EP; try discriminate.
  match goal with |- context [match ?r with Bad _ => _ | Val _ => _ end] => destruct r as [[p3 opt']|] eqn:ER end;
    [|discriminate].
  assert (HR : ro_pcm (of :: fs) nv vs (ps_pcm s) p3 opt').
  { destruct lcs as [|b0 lcs].
    - inversion ER; subst. econstructor; eauto. discriminate.
    - destruct (parse_all C vs (b0 :: lcs) p1) as [[p2 nn]|] eqn:EA; cbn [rbind] in ER; [|discriminate].
      apply parse_all_inv in EA. destruct EA as [HP Ha].
      destruct (if c_incremental C then find_inliers_inc nn p2 else find_inliers C p2) as [p3'|] eqn:EF;
        cbn [rbind] in ER; [|discriminate].
      inversion ER; subst. eapply ro_some; eauto; try discriminate.
      + destruct (c_incremental C); [eapply find_inliers_inc_selected; eauto|apply find_inliers_selected; auto].
      + intro Hc. rewrite Hc in EF. auto. }
  destruct (c_align C && (1 <? length (p_robots p3))) eqn:EAl.
  - apply andb_true_iff in EAl. destruct EAl as [EC EL]. apply Nat.ltb_lt in EL.
    destruct (align W (set_robots p3 (nsort (p_robots p3))) vs) as [vs' []| |] eqn:EA; try discriminate.
    intro H. inversion H; subst. exists vs, u, p3. cbn. repeat split; auto; try congruence; try discriminate.
    intros _. right. repeat split; auto. discriminate.
  - intro H. inversion H; subst. exists vs, u, p3. cbn. repeat split; auto; try discriminate.
Qed.

End PcmInv.
