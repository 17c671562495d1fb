(** * Facts about value maps and [updateValues] *)
From Verif Require Import Prelude Keys KMap Geometry Factors Clique Pcm Solver.
Set Implicit Arguments.
Local Open Scope N_scope.

Section Values.
Variable O : tops.

Lemma vinsert_all_ok (news vs vs' : values O) u : vinsert_all news vs = Ok vs' u ->
  (forall k, kfind k vs' = match kfind k vs with Some v => Some v | None => kfind k news end) /\
  (forall k, In k (kkeys news) -> kmem k vs = false) /\ NoDup (kkeys news) /\
  (ksorted vs -> ksorted vs').
Proof.
  revert vs. induction news as [|[k0 v0] news IH]; intros vs H; cbn [vinsert_all] in H.
  - inversion H; subst. split; [|split; [|split]]; auto.
    + intro k. cbn [kfind]. destruct (kfind k vs'); auto.
    + intros k [].
    + constructor.
  - destruct (kmem k0 vs) eqn:E; [discriminate|].
    specialize (IH _ H). destruct IH as (IH1 & IH2 & IH3 & IH4).
    split; [|split; [|split]].
    + intro k. rewrite IH1, kfind_kset. cbn [kfind].
      destruct (N.eqb_spec k k0) as [->|]; auto.
      unfold kmem in E. destruct (kfind k0 vs); [discriminate|auto].
    + intros k. cbn [kkeys map fst In]. intros [<-|Hin]; auto.
      specialize (IH2 k Hin). rewrite kmem_kset in IH2. apply orb_false_iff in IH2. tauto.
    + cbn [kkeys map fst]. constructor; auto. intro Hin. specialize (IH2 _ Hin).
      rewrite kmem_kset, N.eqb_refl in IH2. discriminate.
    + intro Hs. apply IH4, ksorted_kset, Hs.
Qed.

Lemma vinsert_all_mem (news vs vs' : values O) u k : vinsert_all news vs = Ok vs' u ->
  kmem k vs' = kmem k vs || kmem k news.
Proof.
  intro H. apply vinsert_all_ok in H. destruct H as (H & _). unfold kmem. rewrite H.
  destruct (kfind k vs); auto.
Qed.

Lemma vinsert_all_not_undef (news vs : values O) u : vinsert_all news vs <> Undef u.
Proof.
  revert vs. induction news as [|[k0 v0] news IH]; intros vs; cbn [vinsert_all]; [discriminate|].
  destruct (kmem k0 vs); [discriminate|apply IH].
Qed.

Lemma vinsert_all_throw (news vs vs' : values O) e : vinsert_all news vs = Throw vs' e ->
  exists k, e = KeyAlreadyExists k /\ In k (kkeys news).
Proof.
  revert vs. induction news as [|[k0 v0] news IH]; intros vs; cbn [vinsert_all]; [discriminate|].
  destruct (kmem k0 vs).
  - intro H. inversion H; subst. exists k0. split; auto. left; auto.
  - intro H. destruct (IH _ H) as (k & -> & Hin). exists k. split; auto. right; auto.
Qed.

(** A fresh, repetition-free set of values is always accepted. *)
Lemma vinsert_all_fresh (news vs : values O) :
  NoDup (kkeys news) -> (forall k, In k (kkeys news) -> kmem k vs = false) ->
  exists vs', vinsert_all news vs = Ok vs' tt.
Proof.
  revert vs. induction news as [|[k0 v0] news IH]; intros vs HN HF; cbn [vinsert_all]; [eauto|].
  cbn [kkeys map fst] in HN. inversion HN as [|? ? Hni HN']; subst.
  rewrite HF by (left; auto). apply IH; auto.
  intros k Hin. rewrite kmem_kset. apply orb_false_iff. split; [|apply HF; right; auto].
  apply N.eqb_neq. intros ->. auto.
Qed.

Lemma vupdate_all_ok (news vs vs' : values O) u : vupdate_all news vs = Ok vs' u ->
  (forall k, kmem k vs' = kmem k vs) /\
  (forall k, ~ In k (kkeys news) -> kfind k vs' = kfind k vs) /\
  (ksorted vs -> ksorted vs') /\
  (NoDup (kkeys news) -> forall k v, In (k, v) news -> kfind k vs' = Some v).
Proof.
  revert vs. induction news as [|[k0 v0] news IH]; intros vs H; cbn [vupdate_all] in H.
  - inversion H; subst. repeat split; auto. intros _ k v [].
  - destruct (kfind k0 vs) as [v1|] eqn:E; [|discriminate].
    destruct (same_type v1 v0); [|discriminate].
    destruct (IH _ H) as (H1 & H2 & H3 & H4). split; [|split; [|split]].
    + intro k. rewrite H1, kmem_kset. destruct (N.eqb_spec k k0) as [->|]; auto.
      unfold kmem. rewrite E. auto.
    + intros k Hn. cbn [kkeys map fst In] in Hn. rewrite H2 by tauto.
      rewrite kfind_kset. destruct (N.eqb_spec k k0) as [->|]; auto. tauto.
    + intro Hs. apply H3, ksorted_kset, Hs.
    + cbn [kkeys map fst]. intros HN k v [Ek|Hin]; inversion HN; subst; auto.
      inversion Ek; subst. rewrite H2 by auto. rewrite kfind_kset, N.eqb_refl. auto.
Qed.

Lemma same_type_answer (a : answer O) k v v0 : same_type v0 v = true -> same_type v0 (answer_value a k v) = true.
Proof. destruct v, v0; auto. Qed.

Lemma same_type_refl (v : value O) : same_type v v = true.
Proof. destruct v; auto. Qed.

Lemma same_type_trans (v1 v2 v3 : value O) :
  same_type v1 v2 = true -> same_type v2 v3 = true -> same_type v1 v3 = true.
Proof. destruct v1, v2, v3; cbn; auto; discriminate. Qed.

(** Feeding an optimiser's answer back: never throws, changes exactly the contents. *)
Lemma update_values_answer (a : answer O) (r : values O) : forall v tv : values O,
  NoDup (kkeys r) ->
  (forall k x, In (k, x) r -> match kfind k v with
                              | Some x0 => same_type x0 x = true
                              | None => match kfind k tv with Some x0 => same_type x0 x = true | None => True end
                              end) ->
  exists v' tv', update_values (answer_values a r) (v, tv) = Ok (v', tv') tt /\
    (forall k, kfind k v' = match kfind k v with
                            | Some x0 => Some (match kfind k r with Some x => answer_value a k x | None => x0 end)
                            | None => None end) /\
    (forall k, kfind k tv' = match kfind k tv with
                            | Some x0 => Some (match kfind k v, kfind k r with
                                               | None, Some x => answer_value a k x
                                               | _, _ => x0 end)
                            | None => None end) /\
    (ksorted v -> ksorted v') /\ (ksorted tv -> ksorted tv').
Proof.
  induction r as [|[k0 x0] r IH]; intros v tv HN HT; cbn [answer_values kmapi map update_values].
  - exists v, tv. split; auto. cbn [kfind]. repeat split; auto; intro k.
    + destruct (kfind k v); auto.
    + destruct (kfind k tv); auto. destruct (kfind k v); auto.
  - cbn [kkeys map fst] in HN. inversion HN as [|? ? Hni HN']; subst.
    assert (Hnr : kfind k0 r = None).
    { destruct (kfind k0 r) eqn:E; auto. elim Hni. apply (kmem_In k0 r). unfold kmem. rewrite E. auto. }
    pose proof (HT k0 x0 (or_introl eq_refl)) as H0. cbn [fst snd].
    destruct (kfind k0 v) as [v0|] eqn:Ev.
    + rewrite (same_type_answer a k0 x0 v0 H0).
      destruct (IH (kset k0 (answer_value a k0 x0) v) tv HN') as (v' & tv' & E & H1 & H2 & H3 & H4).
      { intros k x Hin. specialize (HT k x (or_intror Hin)). rewrite kfind_kset.
        destruct (N.eqb_spec k k0) as [->|]; auto. elim Hni.
        change k0 with (fst (k0, x)). apply in_map. auto. }
      exists v', tv'. split; [exact E|]. split; [|split; [|split]]; auto.
      * intro k. rewrite H1, kfind_kset. cbn [kfind].
        destruct (N.eqb_spec k k0) as [->|]; auto. rewrite Ev, Hnr. auto.
      * intro k. rewrite H2, kfind_kset. cbn [kfind]. destruct (kfind k tv); auto.
        destruct (N.eqb_spec k k0) as [->|]; auto. rewrite Ev. auto.
      * intro Hs. apply H3, ksorted_kset, Hs.
    + destruct (kfind k0 tv) as [t0|] eqn:Et.
      * rewrite (same_type_answer a k0 x0 t0 H0).
        destruct (IH v (kset k0 (answer_value a k0 x0) tv) HN') as (v' & tv' & E & H1 & H2 & H3 & H4).
        { intros k x Hin. specialize (HT k x (or_intror Hin)). rewrite kfind_kset.
          destruct (N.eqb_spec k k0) as [->|]; auto. elim Hni.
          change k0 with (fst (k0, x)). apply in_map. auto. }
        exists v', tv'. split; [exact E|]. split; [|split; [|split]]; auto.
        -- intro k. rewrite H1. cbn [kfind]. destruct (N.eqb_spec k k0) as [->|]; auto.
           rewrite Ev. auto.
        -- intro k. rewrite H2, kfind_kset. cbn [kfind].
           destruct (N.eqb_spec k k0) as [->|]; auto. rewrite Ev, Hnr, Et. auto.
        -- intro Hs. apply H4, ksorted_kset, Hs.
      * destruct (IH v tv HN') as (v' & tv' & E & H1 & H2 & H3 & H4).
        { intros k x Hin. apply (HT k x (or_intror Hin)). }
        exists v', tv'. split; [exact E|]. split; [|split; [|split]]; auto.
        -- intro k. rewrite H1. cbn [kfind]. destruct (N.eqb_spec k k0) as [->|]; auto.
           rewrite Ev. auto.
        -- intro k. rewrite H2. cbn [kfind]. destruct (N.eqb_spec k k0) as [->|]; auto.
           rewrite Et. auto.
Qed.

End Values.
