(** * C79: taking back what was just stored *)
From Coq Require Import Lia Permutation.
From Verif Require Import Prelude Keys KMap UMap Geometry Factors Clique CliqueSpec CliqueRead Pcm Solver PcmSpec HistSpec StoreSpec StoreThms RemoveSpec
  UndoProofs Grid Scenes PropApart.
Local Open Scope nat_scope.

(** A call, then as many removals for a pair of robots as it stored closures of them: the closures of
    the pair in the graph are what they were before, and so are those of pairs of which it stored
    none. *)
Theorem C79_by_pair : forall O C (W : soracles O) h o a b s s' rs rs',
  c_loop_check C = true -> c_incremental C = false -> call_of o <> None ->
  let h' := h ++ o :: repeat (OpRemoveId a b) (length (new_of C W (a, b) h o)) in
  run C W h (solver_init true) = Ok s rs -> run C W h' (solver_init true) = Ok s' rs' -> records_sound C W h' ->
  forall id, oid_eqb id (a, b) = true \/ new_of C W id h o = [] -> graph_lcs C h' id (s_nfg s') = graph_lcs C h id (s_nfg s).
Proof. exact undone_by_pair. Qed.
Print Assumptions C79_by_pair.

(** The same for all pairs with removals that go by the order of arrival. *)
Theorem C79_in_order : forall O C (W : soracles O) h o s s' rs rs',
  c_loop_check C = true -> c_incremental C = false -> call_of o <> None -> no_removal_by_pair h ->
  let h' := h ++ o :: repeat OpRemoveLast (length (newly C W h o)) in
  run C W h (solver_init true) = Ok s rs -> run C W h' (solver_init true) = Ok s' rs' -> records_sound C W h' ->
  forall id, graph_lcs C h' id (s_nfg s') = graph_lcs C h id (s_nfg s).
Proof. exact undone_by_order. Qed.
Print Assumptions C79_in_order.

(** Four closures between a and b: 0 agrees with 3, 1 with 2. *)
Definition two_groups : list (op O1) := [start3_a; start_b; OpUpdate [bet (ka 0) (kb 0) (fwd 100)] [] true; OpUpdate [bet (ka 0) (kb 1) (fwd 510)] [] true;
  OpUpdate [bet (ka 1) (kb 0) (fwd 490)] [] true; OpUpdate [bet (ka 1) (kb 1) (fwd 100)] [] true].
Definition fifth := OpUpdate [bet (ka 1) (kb 1) (fwd 900)] [] true.
Definition pairs_in (C : config) (h : list (op O1)) : option (list (key * key)) := after C h (fun s => map (fun b => (b_from b, b_to b)) (graph_lcs C h (97, 98)%N (s_nfg s))).

Example C79_example :
  length (new_of C1 W1 (97, 98)%N two_groups fifth) = 1 /\ length (newly C1 W1 two_groups fifth) = 1 /\
  records_sound C1 W1 (two_groups ++ [fifth; OpRemoveId 97 98]) /\ records_sound C1 W1 (two_groups ++ [fifth; OpRemoveLast]) /\ no_removal_by_pair two_groups /\
  pairs_in C1 two_groups = Some [(ka 0, kb 0); (ka 1, kb 1)] /\ pairs_in C1 (two_groups ++ [fifth; OpRemoveId 97 98]) = pairs_in C1 two_groups /\
  pairs_in C1 (two_groups ++ [fifth; OpRemoveLast]) = pairs_in C1 two_groups.
Proof.
  split; [vm_compute; reflexivity|]. split; [vm_compute; reflexivity|]. split; [left; intros n a i j; reflexivity|]. split; [left; intros n a i j; reflexivity|].
  split; [intros a b X; repeat (destruct X as [X|X]; [discriminate X|]); destruct X|]. split; [vm_compute; reflexivity|]. split; vm_compute; reflexivity.
Qed.

(** In incremental mode the removal selects anew, and what was accepted does not come back. *)
Theorem C79_incremental_refuted : exists O C (W : soracles O) h o a b s s' rs rs',
  c_loop_check C = true /\ call_of o <> None /\ length (new_of C W (a, b) h o) = 1 /\ freed_intact W /\
  run C W h (solver_init true) = Ok s rs /\ run C W (h ++ [o; OpRemoveId a b]) (solver_init true) = Ok s' rs' /\
  exists e, In e (graph_lcs C h (a, b) (s_nfg s)) /\ ~ In (edge_of e) (map (@edge_of O) (graph_lcs C (h ++ [o; OpRemoveId a b]) (a, b) (s_nfg s'))).
Proof.
  exists O1, C1_inc, W1, two_groups, fifth, 97%N, 98%N.
  destruct (@run_check O1 C1_inc W1 two_groups true (fun s => map (@edge_of O1) (graph_lcs C1_inc two_groups (97, 98)%N (s_nfg s)) = [(ka 1, kb 0); (ka 0, kb 1)])) as (s & rs & HR & H1); [vm_compute; reflexivity|].
  destruct (@run_check O1 C1_inc W1 (two_groups ++ [fifth; OpRemoveId 97 98]) true
    (fun s => map (@edge_of O1) (graph_lcs C1_inc (two_groups ++ [fifth; OpRemoveId 97 98]) (97, 98)%N (s_nfg s)) = [(ka 0, kb 0); (ka 1, kb 1)])) as (s' & rs' & HR' & H2); [vm_compute; reflexivity|].
  exists s, s', rs, rs'. split; [reflexivity|]. split; [discriminate|]. split; [vm_compute; reflexivity|]. split; [intros n a i j; reflexivity|]. split; [exact HR|]. split; [exact HR'|].
  destruct (graph_lcs C1_inc two_groups (97, 98)%N (s_nfg s)) as [|e l] eqn:E; [discriminate H1|]. exists e. split; [left; reflexivity|]. intro X.
  assert (X' : In (edge_of e) [(ka 0, kb 0); (ka 1, kb 1)]) by exact (eq_ind _ (fun l => In (edge_of e) l) X _ H2).
  assert (He : edge_of e = (ka 1, kb 0)) by (pose proof (f_equal (@hd_error _) H1) as Z; cbn [map hd_error] in Z; congruence).
  rewrite He in X'. destruct X' as [X'|[X'|[]]]; discriminate X'.
Qed.
Print Assumptions C79_incremental_refuted.
