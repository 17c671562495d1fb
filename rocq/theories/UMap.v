(** * [std::unordered_map]

    The content is kept in insertion order (entries are never erased from the modelled
    maps).  The iteration order is an arbitrary function of the insertion history: an
    oracle assigns a rank to each key and iteration goes by rank. *)
From Coq Require Import Permutation.
From Verif Require Import Prelude.
Set Implicit Arguments.

Definition umap (K V : Type) := list (K * V).

Section UMap.
Variables (K V : Type) (eqb : K -> K -> bool).

Fixpoint ufind (k : K) (m : umap K V) : option V :=
  match m with
  | [] => None
  | (k', v) :: m' => if eqb k k' then Some v else ufind k m'
  end.

(** Overwrite the value stored under [k]; a new entry remembers the key as given, an
    existing one keeps the key it was created with. *)
Fixpoint uset (k : K) (v : V) (m : umap K V) : umap K V :=
  match m with
  | [] => [(k, v)]
  | (k', v') :: m' => if eqb k k' then (k', v) :: m' else (k', v') :: uset k v m'
  end.

(** [operator[]]: the stored value, or a default that is inserted. *)
Definition uget (d : V) (k : K) (m : umap K V) : V :=
  match ufind k m with Some v => v | None => d end.

Definition utouch (d : V) (k : K) (m : umap K V) : umap K V :=
  match ufind k m with Some _ => m | None => m ++ [(k, d)] end.

(** Stable insertion sort by rank. *)
Fixpoint rinsert (rank : K -> nat) (x : K * V) (l : list (K * V)) : list (K * V) :=
  match l with
  | [] => [x]
  | y :: l' => if rank (fst x) <=? rank (fst y) then x :: l else y :: rinsert rank x l'
  end.

Definition uiter (order : list K -> K -> nat) (m : umap K V) : list (K * V) :=
  fold_right (rinsert (order (map fst m))) [] m.

Lemma rinsert_perm rank x l : Permutation (rinsert rank x l) (x :: l).
Proof.
  induction l as [|y l IH]; cbn [rinsert]; auto.
  destruct (rank (fst x) <=? rank (fst y)); auto.
  rewrite IH. apply perm_swap.
Qed.

Lemma uiter_perm order m : Permutation (uiter order m) m.
Proof.
  unfold uiter. generalize (order (map fst m)) as r. intro r.
  induction m as [|x m IH]; cbn [fold_right]; auto.
  rewrite rinsert_perm, IH. reflexivity.
Qed.

Hypothesis eqb_refl : forall a, eqb a a = true.
Hypothesis eqb_sym : forall a b, eqb a b = eqb b a.
Hypothesis eqb_trans : forall a b c, eqb a b = true -> eqb b c = true -> eqb a c = true.

Lemma eqb_congr a b c : eqb a b = true -> eqb a c = eqb b c.
Proof.
  intro H. destruct (eqb b c) eqn:E.
  - eapply eqb_trans; eauto.
  - apply not_true_iff_false. intro C. apply not_true_iff_false in E. apply E.
    apply eqb_trans with a; auto. rewrite eqb_sym. auto.
Qed.

Lemma ufind_congr a b m : eqb a b = true -> ufind a m = ufind b m.
Proof.
  intro H. induction m as [|[k v] m IH]; cbn [ufind]; auto.
  rewrite (eqb_congr k H), IH. reflexivity.
Qed.

Lemma ufind_uset k v m k' : ufind k' (uset k v m) = if eqb k' k then Some v else ufind k' m.
Proof.
  induction m as [|[k0 v0] m IH]; cbn [uset ufind].
  - reflexivity.
  - destruct (eqb k k0) eqn:E; cbn [ufind].
    + replace (eqb k' k) with (eqb k' k0); [destruct (eqb k' k0); auto|].
      rewrite eqb_sym, (eqb_sym k' k). symmetry. apply eqb_congr; auto.
    + rewrite IH. destruct (eqb k' k0) eqn:E0; auto.
      destruct (eqb k' k) eqn:E1; auto. exfalso.
      apply not_true_iff_false in E. apply E. eapply eqb_trans; [|exact E0]. rewrite eqb_sym. auto.
Qed.

Lemma ufind_None_set k v m : ufind k m = None -> uset k v m = m ++ [(k, v)].
Proof.
  induction m as [|[k0 v0] m IH]; cbn [uset ufind app]; auto.
  destruct (eqb k k0); [discriminate|]. intro H. rewrite IH; auto.
Qed.

Lemma utouch_uset d k m : ufind k m = None -> utouch d k m = uset k d m.
Proof. intro H. unfold utouch. rewrite H, ufind_None_set; auto. Qed.

Lemma ufind_utouch d k m k' :
  ufind k' (utouch d k m) = match ufind k' m with Some v => Some v | None => if eqb k' k then Some d else None end.
Proof.
  unfold utouch. destruct (ufind k m) eqn:E.
  - destruct (ufind k' m) eqn:E'; auto. destruct (eqb k' k) eqn:Ek; auto.
    rewrite (ufind_congr m Ek) in E'. congruence.
  - rewrite <- (ufind_None_set k d m E), ufind_uset.
    destruct (eqb k' k) eqn:Ek; [|destruct (ufind k' m); auto].
    rewrite (ufind_congr m Ek), E. auto.
Qed.

Lemma uget_uset d k v m k' : uget d k' (uset k v m) = if eqb k' k then v else uget d k' m.
Proof. unfold uget. rewrite ufind_uset. destruct (eqb k' k); auto. Qed.

Lemma uget_utouch d k m k' : uget d k' (utouch d k m) = uget d k' m.
Proof. unfold uget. rewrite ufind_utouch. destruct (ufind k' m); auto. destruct (eqb k' k); auto. Qed.

(** No two stored keys are equal in the sense of the map. *)
Definition ukeys_distinct (m : umap K V) : Prop :=
  ForallOrdPairs (fun a b => eqb (fst a) (fst b) = false) m.

Lemma ufind_In k v m : ufind k m = Some v -> exists k', eqb k k' = true /\ In (k', v) m.
Proof.
  induction m as [|[k0 v0] m IH]; cbn [ufind]; [discriminate|].
  destruct (eqb k k0) eqn:E.
  - intro H. inversion H; subst. exists k0. split; auto. left; auto.
  - intro H. destruct (IH H) as (k' & E' & Hin). exists k'. split; auto. right; auto.
Qed.

Lemma In_uset k v m x : In x (uset k v m) ->
  In x m \/ (exists k', eqb k k' = true /\ x = (k', v)).
Proof.
  induction m as [|[k0 v0] m IH]; cbn [uset In].
  - intros [<-|[]]. right. exists k. auto.
  - destruct (eqb k k0) eqn:E; cbn [In].
    + intros [<-|H]; auto. right. exists k0. auto.
    + intros [<-|H]; auto. destruct (IH H) as [|]; auto.
Qed.

Lemma uset_distinct k v m : ukeys_distinct m -> ukeys_distinct (uset k v m).
Proof.
  unfold ukeys_distinct. induction m as [|[k0 v0] m IH]; cbn [uset]; intro H.
  - repeat constructor.
  - inversion H as [|? ? Hf Ho]; subst. destruct (eqb k k0) eqn:E.
    + constructor; auto.
    + constructor; [|apply IH; auto]. rewrite Forall_forall in *. intros x Hx.
      apply In_uset in Hx. destruct Hx as [Hx|(k' & Ek & ->)]; auto.
      cbn [fst]. apply not_true_iff_false. intro C.
      apply not_true_iff_false in E. apply E. apply eqb_trans with k'; auto. rewrite eqb_sym. auto.
Qed.

Lemma utouch_distinct d k m : ukeys_distinct m -> ukeys_distinct (utouch d k m).
Proof.
  intro H. unfold utouch. destruct (ufind k m) eqn:E; auto.
  rewrite <- (ufind_None_set k d m E). apply uset_distinct; auto.
Qed.

Lemma distinct_ufind k v m : ukeys_distinct m -> In (k, v) m -> ufind k m = Some v.
Proof.
  unfold ukeys_distinct. induction m as [|[k0 v0] m IH]; intros H Hin; [destruct Hin|].
  inversion H as [|? ? Hf Ho]; subst. cbn [ufind]. destruct Hin as [E|Hin].
  - inversion E; subst. rewrite eqb_refl. auto.
  - rewrite Forall_forall in Hf. specialize (Hf _ Hin). cbn [fst] in Hf.
    rewrite eqb_sym, Hf. auto.
Qed.

End UMap.
