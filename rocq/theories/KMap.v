(** * Ordered maps from keys: [std::map<gtsam::Key, _>] and [gtsam::Values]

    Association lists; insertion keeps them sorted, so the list order is the
    iteration order. *)
From Coq Require Import Sorted.
From Verif Require Import Prelude.
Set Implicit Arguments.
Local Open Scope N_scope.

Definition kmap (V : Type) := list (N * V).

Section KMap.
Variable V : Type.

Fixpoint kfind (k : N) (m : kmap V) : option V :=
  match m with
  | [] => None
  | (k', v) :: m' => if k =? k' then Some v else kfind k m'
  end.

(** [exists] / [count]. *)
Definition kmem (k : N) (m : kmap V) : bool :=
  match kfind k m with Some _ => true | None => false end.

(** Insert or overwrite ([operator[] =]). *)
Fixpoint kset (k : N) (v : V) (m : kmap V) : kmap V :=
  match m with
  | [] => [(k, v)]
  | (k', v') :: m' =>
      if k <? k' then (k, v) :: m
      else if k =? k' then (k, v) :: m'
      else (k', v') :: kset k v m'
  end.

Definition kkeys (m : kmap V) : list N := map fst m.

Definition ksorted (m : kmap V) : Prop := StronglySorted N.lt (kkeys m).

Lemma kfind_kset k v m k' :
  kfind k' (kset k v m) = if k' =? k then Some v else kfind k' m.
Proof.
  induction m as [|[k0 v0] m IH]; cbn [kset kfind]; auto.
  destruct (N.ltb_spec k k0).
  - cbn [kfind]. destruct (N.eqb_spec k' k); auto.
  - destruct (N.eqb_spec k k0) as [->|Hne]; cbn [kfind].
    + destruct (N.eqb_spec k' k0); auto.
    + rewrite IH. destruct (N.eqb_spec k' k0) as [->|]; auto.
      destruct (N.eqb_spec k0 k); auto. congruence.
Qed.

Lemma kmem_kset k v m k' : kmem k' (kset k v m) = (k' =? k) || kmem k' m.
Proof.
  unfold kmem. rewrite kfind_kset. destruct (k' =? k); auto.
Qed.

Lemma kmem_In k m : kmem k m = true <-> In k (kkeys m).
Proof.
  unfold kmem, kkeys. induction m as [|[k0 v0] m IH]; cbn [kfind map In fst].
  - split; [discriminate|intros []].
  - destruct (N.eqb_spec k k0) as [->|Hne]; [split; auto|].
    rewrite IH. split; auto. intros [->|]; auto. congruence.
Qed.

Lemma kfind_In k v m : kfind k m = Some v -> In (k, v) m.
Proof.
  induction m as [|[k0 v0] m IH]; cbn [kfind]; [discriminate|].
  destruct (N.eqb_spec k k0) as [->|Hne].
  - intro H. inversion H. left; auto.
  - intro H. right; auto.
Qed.

Lemma In_kset_keys k v m x : In x (kkeys (kset k v m)) <-> x = k \/ In x (kkeys m).
Proof.
  rewrite <- !kmem_In, kmem_kset, orb_true_iff, N.eqb_eq. tauto.
Qed.

Lemma ksorted_nil : ksorted [].
Proof. constructor. Qed.

Lemma ksorted_kset k v m : ksorted m -> ksorted (kset k v m).
Proof.
  unfold ksorted. induction m as [|[k0 v0] m IH]; cbn [kset]; intro H.
  - repeat constructor.
  - cbn [kkeys map fst] in H. inversion H as [|? ? Hs Hf]; subst.
    destruct (N.ltb_spec k k0).
    + cbn [kkeys map fst]. constructor; auto. constructor; auto.
      rewrite Forall_forall in *. intros x Hx. specialize (Hf x Hx). lia.
    + destruct (N.eqb_spec k k0) as [->|Hne]; cbn [kkeys map fst]; constructor; auto.
      * rewrite Forall_forall in *. intros x Hx. change (In x (kkeys (kset k v m))) in Hx.
        apply In_kset_keys in Hx. destruct Hx as [->|Hx]; [lia|auto].
Qed.

Lemma ksorted_NoDup m : ksorted m -> NoDup (kkeys m).
Proof.
  unfold ksorted. induction 1 as [|k l Hs IH Hf]; constructor; auto.
  intro Hin. rewrite Forall_forall in Hf. specialize (Hf k Hin). lia.
Qed.

Lemma kfind_sorted_In k v m : ksorted m -> In (k, v) m -> kfind k m = Some v.
Proof.
  intros Hs Hin. apply ksorted_NoDup in Hs. unfold kkeys in Hs.
  induction m as [|[k0 v0] m IH]; [destruct Hin|]. cbn [kfind].
  cbn [map fst] in Hs. inversion Hs as [|? ? Hn Hs']; subst.
  destruct Hin as [E|Hin].
  - inversion E; subst. rewrite N.eqb_refl. auto.
  - destruct (N.eqb_spec k k0) as [->|]; auto.
    elim Hn. change k0 with (fst (k0, v)). apply in_map; auto.
Qed.

(** Sorted maps are determined by their lookups. *)
Lemma kmap_ext m m' : ksorted m -> ksorted m' -> (forall k, kfind k m = kfind k m') -> m = m'.
Proof.
  revert m'. induction m as [|[k v] m IH]; intros [|[k' v'] m'] Hs Hs' H; auto.
  - specialize (H k'). cbn [kfind] in H. rewrite N.eqb_refl in H. discriminate.
  - specialize (H k). cbn [kfind] in H. rewrite N.eqb_refl in H. discriminate.
  - unfold ksorted in *. cbn [kkeys map fst] in Hs, Hs'.
    inversion Hs as [|? ? Hs1 Hf1]; inversion Hs' as [|? ? Hs2 Hf2]; subst.
    rewrite Forall_forall in Hf1, Hf2.
    assert (Hnin : kfind k m = None).
    { destruct (kfind k m) eqn:E; auto. exfalso.
      assert (Hm : kmem k m = true) by (unfold kmem; rewrite E; auto).
      apply kmem_In in Hm. specialize (Hf1 k Hm). lia. }
    assert (Hnin' : kfind k' m' = None).
    { destruct (kfind k' m') eqn:E; auto. exfalso.
      assert (Hm : kmem k' m' = true) by (unfold kmem; rewrite E; auto).
      apply kmem_In in Hm. specialize (Hf2 k' Hm). lia. }
    assert (Ek : k = k').
    { pose proof (H k) as H1. pose proof (H k') as H2. cbn [kfind] in H1, H2.
      rewrite N.eqb_refl in H1, H2.
      destruct (N.eqb_spec k k') as [|Hne]; auto.
      destruct (N.eqb_spec k' k) as [|_]; [congruence|].
      assert (M1 : kmem k m' = true) by (unfold kmem; rewrite <- H1; auto).
      assert (M2 : kmem k' m = true) by (unfold kmem; rewrite H2; auto).
      apply kmem_In in M1, M2. specialize (Hf2 k M1). specialize (Hf1 k' M2). lia. }
    subst k'. f_equal.
    + specialize (H k). cbn [kfind] in H. rewrite N.eqb_refl in H. inversion H. auto.
    + apply IH; auto. intro x. specialize (H x). cbn [kfind] in H.
      destruct (N.eqb_spec x k) as [E|]; [subst x; congruence|auto].
Qed.

End KMap.

(** Change every value ([Values] returned by an optimiser has the keys of its argument). *)
Definition kmapi {V W} (f : N -> V -> W) (m : kmap V) : kmap W :=
  map (fun '(k, v) => (k, f k v)) m.

Lemma kkeys_kmapi {V W} (f : N -> V -> W) m : kkeys (kmapi f m) = kkeys m.
Proof. unfold kkeys, kmapi. rewrite map_map. apply map_ext. intros [k v]. reflexivity. Qed.

Lemma kfind_kmapi {V W} (f : N -> V -> W) m k : kfind k (kmapi f m) = option_map (f k) (kfind k m).
Proof.
  unfold kmapi. induction m as [|[k0 v0] m IH]; cbn [map kfind]; auto.
  destruct (N.eqb_spec k k0) as [->|]; auto.
Qed.
