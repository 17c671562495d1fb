(** * Taking back what was just stored: proofs *)
From Coq Require Import Lia Permutation.
From Verif Require Import Prelude Keys KMap UMap Geometry Factors Clique CliqueSpec CliqueRead Pcm Solver ValuesProofs PcmSpec PcmProofs PcmInv PcmStore HistSpec StoreSpec
  SolverProofs HistProofs GraphProofs StoreProofs AcceptProofs LiveProofs StoreThms ItemProofs SafeProofs RemoveSpec RemoveExact RecordProofs IncSpec IncProofs
  ApartSpec ApartProofs ApartMore CliqueExact CliqueHeu HeuSpec HeuProofs ExactSpec ExactProofs GroupSpec GroupProofs.
Set Implicit Arguments.
Local Open Scope nat_scope.

Section X.
Variable O : tops.
Variable C : config.
Variable W : soracles O.
Notation bf := (bf O).
Notation op := (op O).
Notation solver := (solver O).
Notation start := (@solver_init O true).
Notation item := (bf * (N -> key -> t_T O))%type.
Notation live := (@live_items O C W).
Notation items := (@sp_items O C W).

Lemma iter_swap {A} (f : A -> A) : forall n x, Nat.iter n f (f x) = f (Nat.iter n f x).
Proof. induction n as [|n IH]; intro x; auto. change (f (Nat.iter n f (f x)) = f (f (Nat.iter n f x))). rewrite IH. auto. Qed.
Lemma removelast_app_len {A} (l r : list A) : forall n, n = length r -> Nat.iter n (@removelast A) (l ++ r) = l.
Proof.
  induction r as [|x r IH] using rev_ind; intros n E; [subst; cbn; apply app_nil_r|]. rewrite app_length in E. cbn in E. destruct n as [|n]; [lia|].
  rewrite app_assoc. change (Nat.iter (S n) (@removelast A) ((l ++ r) ++ [x])) with (removelast (Nat.iter n (@removelast A) ((l ++ r) ++ [x]))).
  rewrite <- iter_swap, removelast_last. apply IH. lia.
Qed.

(** Removals by robot pair. *)
Lemma live_by_pair a b h : forall k id, live id (h ++ repeat (OpRemoveId a b) k) = if oid_eqb id (a, b) then Nat.iter k (@removelast item) (live id h) else live id h.
Proof.
  intros k id. induction k as [|k IH]; [cbn; rewrite app_nil_r; destruct (oid_eqb id (a, b)); auto|].
  replace (repeat (OpRemoveId a b) (S k)) with (repeat (OpRemoveId (O := O) a b) k ++ [OpRemoveId a b]) by (rewrite <- repeat_cons; auto).
  rewrite app_assoc, live_one, IH. unfold takes_back. cbn [target]. destruct (oid_eqb id (a, b)); auto. cbn [newly call_of filter]. apply app_nil_r.
Qed.

(** Removals of the latest, if none went by pair. *)
Lemma items_last h : no_removal_by_pair h -> items (h ++ [OpRemoveLast]) = removelast (items h).
Proof.
  intro H. rewrite sp_items_snoc. cbn [items_step]. rewrite (live_order C W H), <- sp_items_live. destruct (items h) as [|y l0] eqn:E0; auto.
  destruct (exists_last (l := items h)) as (l & x & E); [rewrite E0; discriminate|]. rewrite <- E0, E. rewrite !map_app, rev_app_distr. cbn [map rev app].
  unfold drop_last. rewrite rev_app_distr. cbn [rev app drop_first].
  assert (EP : of_pair (pair_of (fst x)) (fst x) = true) by (unfold of_pair, pair_of; apply oid_eqb_refl).
  rewrite EP, rev_involutive, removelast_last. auto.
Qed.
Lemma items_lasts h : no_removal_by_pair h -> forall k, items (h ++ repeat OpRemoveLast k) = Nat.iter k (@removelast item) (items h).
Proof.
  intros H k. induction k as [|k IH]; [cbn; rewrite app_nil_r; auto|].
  replace (repeat OpRemoveLast (S k)) with (repeat (OpRemoveLast (O := O)) k ++ [OpRemoveLast]) by (rewrite <- repeat_cons; auto).
  rewrite app_assoc, items_last, IH; auto. intros a b X. apply in_app_or in X. destruct X as [X|X]; [apply (H a b X)|]. apply repeat_spec in X. discriminate.
Qed.

Definition adds (o : op) : Prop := call_of o <> None.
Lemma adds_items h o : adds o -> items (h ++ [o]) = items h ++ newly C W h o.
Proof. intro H. rewrite sp_items_snoc. destruct o; auto; destruct H; auto. Qed.

Lemma ignored_app (h t : list op) id : (forall o, In o t -> match o with OpIgnore _ | OpRevive _ => False | _ => True end) -> pair_ignored (h ++ t) id = pair_ignored h id.
Proof.
  intro H. unfold pair_ignored. assert (X : forall c, sp_ignored (h ++ t) c = sp_ignored h c).
  { intro c. induction t as [|o t IH] using rev_ind; [rewrite app_nil_r; auto|]. rewrite app_assoc, sp_ignored_snoc.
    assert (IH' : sp_ignored (h ++ t) c = sp_ignored h c) by (apply IH; intros; apply H, in_or_app; auto).
    assert (Ho : In o (t ++ [o])) by (apply in_or_app; right; left; auto). apply H in Ho. destruct o; try contradiction; auto. }
  rewrite !X. auto.
Qed.

Theorem undone_by_pair h o a b (s s' : solver) rs rs' : c_loop_check C = true -> c_incremental C = false -> adds o ->
  let h' := h ++ o :: repeat (OpRemoveId a b) (length (new_of C W (a, b) h o)) in
  run C W h start = Ok s rs -> run C W h' start = Ok s' rs' -> records_sound C W h' ->
  forall id, oid_eqb id (a, b) = true \/ new_of C W id h o = [] -> graph_lcs C h' id (s_nfg s') = graph_lcs C h id (s_nfg s).
Proof.
  intros HC HI HA h' H H' HK id Hid. 
  assert (HK0 : records_sound C W h). { destruct HK as [HK|HK]; [left; auto|right]. intros h1 o' h2 id' E. apply (HK h1 o' (h2 ++ o :: repeat (OpRemoveId a b) (length (new_of C W (a, b) h o))) id'). unfold h'. rewrite E, <- app_assoc. auto. }
  rewrite (pairs_batch id HC HI H HK0), (pairs_batch id HC HI H' HK).
  unfold h' at 1. rewrite ignored_app. 2:{ intros x [<-|Hx]; [destruct o; auto; destruct HA; auto|]. apply repeat_spec in Hx. subst x. auto. }
  assert (EL : live id h' = live id h); [|rewrite EL; auto].
  unfold h'. change (h ++ o :: repeat (OpRemoveId a b) (length (new_of C W (a, b) h o))) with (h ++ [o] ++ repeat (OpRemoveId a b) (length (new_of C W (a, b) h o))). rewrite app_assoc, live_by_pair.
  assert (E1 : live id (h ++ [o]) = live id h ++ filter (fun x => of_pair id (fst x)) (newly C W h o)).
  { unfold live_items. fold (items (h ++ [o])) (items h). rewrite adds_items by auto. apply filter_app. }
  assert (E2 : length (filter (fun x => of_pair id (fst x)) (newly C W h o)) = length (new_of C W id h o)).
  { unfold new_of. generalize (newly C W h o). induction l as [|x l IH]; auto. cbn. destruct (of_pair id (fst x)); cbn; auto. }
  rewrite E1. destruct (oid_eqb id (a, b)) eqn:E.
  - apply removelast_app_len. rewrite E2. unfold new_of. f_equal. apply filter_ext. intro x. symmetry. apply of_pair_ext. auto.
  - destruct Hid as [X|X]; [discriminate|]. rewrite X in E2. destruct (filter _ (newly C W h o)); [apply app_nil_r|discriminate].
Qed.

Theorem undone_by_order h o (s s' : solver) rs rs' : c_loop_check C = true -> c_incremental C = false -> adds o -> no_removal_by_pair h ->
  let h' := h ++ o :: repeat OpRemoveLast (length (newly C W h o)) in
  run C W h start = Ok s rs -> run C W h' start = Ok s' rs' -> records_sound C W h' ->
  forall id, graph_lcs C h' id (s_nfg s') = graph_lcs C h id (s_nfg s).
Proof.
  intros HC HI HA HN h' H H' HK id. 
  assert (HK0 : records_sound C W h). { destruct HK as [HK|HK]; [left; auto|right]. intros h1 o' h2 id' E. apply (HK h1 o' (h2 ++ o :: repeat OpRemoveLast (length (newly C W h o))) id'). unfold h'. rewrite E, <- app_assoc. auto. }
  rewrite (pairs_batch id HC HI H HK0), (pairs_batch id HC HI H' HK).
  unfold h' at 1. rewrite ignored_app. 2:{ intros x [<-|Hx]; [destruct o; auto; destruct HA; auto|]. apply repeat_spec in Hx. subst x. auto. }
  assert (EL : live id h' = live id h); [|rewrite EL; auto].
  unfold live_items. fold (items h') (items h). f_equal.
  unfold h'. change (h ++ o :: repeat OpRemoveLast (length (newly C W h o))) with (h ++ [o] ++ repeat OpRemoveLast (length (newly C W h o))). rewrite app_assoc, items_lasts.
  - rewrite adds_items by auto. apply removelast_app_len. auto.
  - intros a b X. apply in_app_or in X. destruct X as [X|[X|[]]]; [apply (HN a b X)|]. subst o. apply HA. auto.
Qed.
End X.
