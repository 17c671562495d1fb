(** * Pairwise records and selection in histories with removals *)
From Coq Require Import Permutation.
From Verif Require Import Prelude Num Keys KMap UMap Geometry Factors Clique CliqueSpec CliqueHeu Pcm Solver ValuesProofs
  PcmSpec PcmProofs PcmInv PcmStore HistSpec StoreSpec SolverProofs HistProofs GraphProofs UpdateProofs StoreProofs AcceptProofs LiveProofs
  StoreThms.
Set Implicit Arguments.
Local Open Scope nat_scope.

Section Items.
Variable O : tops.
Variable C : config.
Variable W : soracles O.
Notation bf := (bf O).
Notation T := (t_T O).
Notation pcm := (pcm O).
Notation meas := (meas O).
Notation sp := (c_special C).
Notation refs := (N -> key -> T).
Notation op := (op O).
Notation solver := (solver O).
Notation start := (@solver_init O true).
Notation lc_get := (uget oid_eqb (@meas_default O)).

Definition sp_items (h : list op) := items_from C W [] h [].

Lemma items_from_snoc done todo o acc :
  items_from C W done (todo ++ [o]) acc = items_step C W (done ++ todo) o (items_from C W done todo acc).
Proof.
  revert done acc. induction todo as [|x todo IH]; intros done acc; cbn [items_from app].
  - rewrite app_nil_r. auto.
  - rewrite IH, <- app_assoc. auto.
Qed.
Lemma sp_items_snoc h o : sp_items (h ++ [o]) = items_step C W h o (sp_items h).
Proof. unfold sp_items. rewrite items_from_snoc. auto. Qed.

Lemma drop_first_map {A B} (f : A -> B) (F : B -> bool) l : map f (drop_first (fun x => F (f x)) l) = drop_first F (map f l).
Proof. induction l as [|x l IH]; cbn; auto. destruct (F (f x)); cbn; rewrite ?IH; auto. Qed.
Lemma drop_last_map {A B} (f : A -> B) (F : B -> bool) l : map f (drop_last (fun x => F (f x)) l) = drop_last F (map f l).
Proof. unfold drop_last. rewrite map_rev, drop_first_map, map_rev. auto. Qed.

Lemma sp_items_live h : map fst (sp_items h) = sp_live C W h.
Proof.
  induction h as [|o h IH] using rev_ind; auto. rewrite sp_items_snoc.
  pose proof (@sp_live_snoc O C W h o) as E. destruct o; cbn [items_step live_step] in *;
    try (injection E as -> _; rewrite map_app, IH; reflexivity).
  - injection E as -> _. rewrite <- IH. apply drop_last_map.
  - destruct (rev (sp_order C W h)); injection E as -> _; auto. rewrite <- IH. apply drop_last_map.
Qed.

Lemma sp_items_stored h : no_removal h -> sp_items h = sp_stored C W h.
Proof.
  induction h as [|o h IH] using rev_ind; intro H; auto. rewrite sp_items_snoc, sp_stored_snoc, <- IH by (intros x X; apply H, in_or_app; auto).
  assert (is_removal o = false) by (apply H, in_or_app; right; left; auto). destruct o; try discriminate; auto.
Qed.
Lemma live_items_pair id h : no_removal h -> live_items C W id h = pair_items C W id h.
Proof. intro H. unfold live_items, pair_items. fold (sp_items h). rewrite sp_items_stored; auto. Qed.

Lemma faithful_shrink {A} (test : A -> A -> option bool) L m at' : 2 <= length L -> faithful test L m ->
  (forall i j, at' i j = m_at m i j) -> faithful test (removelast L) (Mat (m_rows m - 1) (m_rows m - 1) at').
Proof.
  intros HL (F1 & F2 & F3 & F4) Ha. destruct L as [|z L] using rev_ind; [cbn in HL; lia|]. clear IHL.
  rewrite removelast_last. rewrite app_length in *. cbn [length] in *.
  split; cbn [m_rows m_cols m_at]; [lia|]. split; [lia|]. split.
  - intros i Hi. rewrite Ha. apply F3. lia.
  - intros i j x y Hij Hx Hy. rewrite !Ha. apply (F4 i j x y Hij); (rewrite nth_error_app1; [auto|apply nth_error_Some; congruence]).
Qed.
End Items.
