(** * Properties C01-C07: the maximum-clique code *)
From Verif Require Import Prelude Clique CliqueSpec CliqueRead CliqueExact CliqueHeu.
From Coq Require Import Permutation.

(** Example matrices: [mat_of_edges n es] is symmetric with the listed edges. *)
Definition mat_of_edges (n : nat) (es : list (nat * nat)) : matrix :=
  Mat n n (fun i j => existsb (fun '(a, b) => ((a =? i) && (b =? j)) || ((a =? j) && (b =? i))) es).

(** ** C01 *)
Theorem C01_exact_clique_is_exact : forall m,
  exists l, find_max_clique m = Val (length l, l) /\ is_max_clique m l.
Proof. exact find_max_clique_exact. Qed.
Print Assumptions C01_exact_clique_is_exact.

(** Two triangles sharing a vertex plus a four-clique. *)
Example C01_example :
  find_max_clique (mat_of_edges 8 [(0,1);(0,2);(1,2);(2,3);(2,4);(3,4);(4,5);(4,6);(4,7);(5,6);(5,7);(6,7)])
  = Val (4, [4; 5; 6; 7]).
Proof. vm_compute. reflexivity. Qed.

(** ** C02 *)
Theorem C02_heuristic_safe_and_bounded : forall m,
  (m_rows m = 0 -> find_max_clique_heu m = Val ((-1)%Z, [])) /\
  (0 < m_rows m -> exists k data, find_max_clique_heu m = Val (Z.of_nat k, data) /\
     1 <= k <= m_rows m /\ k <= length data /\ forall x, In x (firstn k data) -> x < m_rows m).
Proof. exact find_heu_bounds. Qed.
Print Assumptions C02_heuristic_safe_and_bounded.

Example C02_example : (* star graph, and a matrix wider than tall *)
  find_max_clique_heu (mat_of_edges 5 [(0,1);(0,2);(0,3);(0,4)]) = Val (2%Z, [0; 1; 2; 3; 4]) /\
  find_max_clique_heu (Mat 2 7 (fun _ _ => true)) = Val (2%Z, [0; 1]).
Proof. split; vm_compute; reflexivity. Qed.

(** ** C03 *)
Theorem C03_heuristic_size_is_a_clique_size : forall m k data,
  0 < m_rows m -> find_max_clique_heu m = Val (k, data) ->
  exists picks, is_clique m picks /\ k = Z.of_nat (length picks).
Proof. exact find_heu_size. Qed.
Print Assumptions C03_heuristic_size_is_a_clique_size.

Theorem C03_heuristic_never_overestimates : forall m k data l data',
  find_max_clique_heu m = Val (k, data) -> find_max_clique m = Val (l, data') -> (k <= Z.of_nat l)%Z.
Proof. exact find_heu_le_exact. Qed.
Print Assumptions C03_heuristic_never_overestimates.

Example C03_example : (* the heuristic can be strictly worse *)
  let m := mat_of_edges 6 [(0,1);(0,2);(0,3);(1,2);(1,4);(2,5);(3,4);(3,5)] in
  find_max_clique m = Val (3, [0; 1; 2]) /\ find_max_clique_heu m = Val (2%Z, [0; 1; 2; 3]).
Proof. split; vm_compute; reflexivity. Qed.

(** ** C04 *)
(** Refuted: the delivered prefix may repeat an index ... *)
Theorem C04_accepted_indices_distinct_refuted : exists m k data,
  find_max_clique_heu m = Val (k, data) /\ ~ NoDup (firstn (Z.to_nat k) data).
Proof.
  exists (mat_of_edges 4 [(0,1);(0,2);(0,3);(2,3)]), 3%Z, [0;2;2;3]. split; [vm_compute; reflexivity|].
  cbn. intro H. apply NoDup_cons_iff in H. destruct H as [_ H].
  apply NoDup_cons_iff in H. destruct H as [H _]. apply H. left. reflexivity.
Qed.
Print Assumptions C04_accepted_indices_distinct_refuted.

(** ... and may contain two indices that are not adjacent, although a clique of the
    returned size exists. *)
Theorem C04_accepted_indices_adjacent_refuted : exists m k data x y,
  find_max_clique_heu m = Val (k, data) /\ NoDup (firstn (Z.to_nat k) data) /\
  In x (firstn (Z.to_nat k) data) /\ In y (firstn (Z.to_nat k) data) /\ x <> y /\ ~ edge m x y.
Proof.
  exists (mat_of_edges 4 [(0,1);(0,2);(0,3);(1,3);(2,3)]), 3%Z, [0;1;2;3], 1, 2.
  split; [vm_compute; reflexivity|]. cbn [Z.to_nat Pos.to_nat Pos.iter_op Init.Nat.add firstn].
  split; [repeat constructor; simpl; intuition discriminate|].
  split; [simpl; auto|]. split; [simpl; auto|]. split; [discriminate|].
  intro H. apply adjb_edge in H. discriminate.
Qed.
Print Assumptions C04_accepted_indices_adjacent_refuted.

(** What does hold: the first index is adjacent to every other one. *)
Theorem C04_accepted_indices_star_partial : forall m k data,
  0 < m_rows m -> find_max_clique_heu m = Val (k, data) -> star_prefix m (Z.to_nat k) data.
Proof. exact find_heu_star. Qed.
Print Assumptions C04_accepted_indices_star_partial.

Theorem C04_at_most_two_accepted_partial : forall m k data,
  find_max_clique_heu m = Val (k, data) -> (k <= 2)%Z -> is_clique m (firstn (Z.to_nat k) data).
Proof. exact find_heu_small. Qed.
Print Assumptions C04_at_most_two_accepted_partial.

Example C04_example : (* hypotheses of the partial theorems are met by a five-cycle *)
  find_max_clique_heu (mat_of_edges 5 [(0,1);(1,2);(2,3);(3,4);(4,0)]) = Val (2%Z, [0; 1; 4]).
Proof. vm_compute. reflexivity. Qed.

(** ** C05 *)
Theorem C05_transitive_graphs_solved : forall m, transitive_graph m -> 0 < m_rows m ->
  exists l rest c, find_max_clique_heu m = Val (Z.of_nat (length l), l ++ rest) /\
    is_max_clique m l /\ forall y, In y l <-> same_group m c y.
Proof. exact find_heu_trans_spec. Qed.
Print Assumptions C05_transitive_graphs_solved.

Theorem C05_all_consistent_all_kept : forall m, complete_graph m -> 0 < m_rows m ->
  exists l rest, find_max_clique_heu m = Val (Z.of_nat (m_rows m), l ++ rest) /\
    Permutation l (seq 0 (m_rows m)).
Proof. exact find_heu_complete. Qed.
Print Assumptions C05_all_consistent_all_kept.

(** Groups {0,3}, {1,2,5}, {4}. *)
Definition m_groups := mat_of_edges 6 [(0,3);(1,2);(1,5);(2,5)].
Example C05_example : transitive_graph m_groups /\ find_max_clique_heu m_groups = Val (3%Z, [1; 2; 5]).
Proof.
  split; [|vm_compute; reflexivity].
  assert (H : forallb (fun x => forallb (fun y => forallb (fun z =>
     negb (adjb m_groups x y && adjb m_groups y z) || (x =? z) || adjb m_groups x z)
     (seq 0 6)) (seq 0 6)) (seq 0 6) = true) by (vm_compute; reflexivity).
  intros x y z Hxy Hyz Hne.
  assert (Hx : x < 6 /\ y < 6 /\ z < 6) by (destruct Hxy as (?&?&_), Hyz as (?&?&_); auto).
  apply adjb_edge in Hxy, Hyz. apply adjb_edge.
  rewrite forallb_forall in H. specialize (H x ltac:(apply in_seq; lia)).
  rewrite forallb_forall in H. specialize (H y ltac:(apply in_seq; lia)).
  rewrite forallb_forall in H. specialize (H z ltac:(apply in_seq; lia)).
  rewrite Hxy, Hyz in H. apply Nat.eqb_neq in Hne. rewrite Hne in H. exact H.
Qed.

(** ** C06 *)
Theorem C06_incremental_only_improves : forall m num_new prev,
  (Z.of_nat (m_rows m) < size_t_mod)%Z -> num_new <= m_rows m ->
  (exists data, find_max_clique_heu_inc m num_new prev = Val (0%Z, data)) \/
  exists picks data c, find_max_clique_heu_inc m num_new prev = Val (Z.of_nat (length picks), data) /\
     prev < length picks /\ is_clique m picks /\ In c picks /\ m_rows m - num_new <= c /\
     star_prefix m (length picks) data /\ hd_error data = Some c.
Proof. exact find_inc_ok. Qed.
Print Assumptions C06_incremental_only_improves.

(** On transitive graphs the answer is optimal among cliques with a new row. *)
Theorem C06_incremental_transitive_optimal : forall m num_new prev, transitive_graph m ->
  (Z.of_nat (m_rows m) < size_t_mod)%Z -> num_new <= m_rows m ->
  (exists data, find_max_clique_heu_inc m num_new prev = Val (0%Z, data) /\
     forall l c, is_clique m l -> In c l -> m_rows m - num_new <= c -> length l <= prev) \/
  (exists l rest c, find_max_clique_heu_inc m num_new prev = Val (Z.of_nat (length l), l ++ rest) /\
     m_rows m - num_new <= c /\ prev < length l /\ is_clique m l /\
     (forall y, In y l <-> same_group m c y) /\
     forall l' c', is_clique m l' -> In c' l' -> m_rows m - num_new <= c' -> length l' <= length l).
Proof. exact find_inc_trans_spec. Qed.
Print Assumptions C06_incremental_transitive_optimal.

(** When more rows are announced than exist, the start index wraps around and nothing is searched. *)
Theorem C06_incremental_wraparound : forall m num_new prev,
  (Z.of_nat num_new < size_t_mod)%Z -> m_rows m < num_new ->
  find_max_clique_heu_inc m num_new prev = Val (0%Z, []).
Proof. exact find_inc_wrap. Qed.
Print Assumptions C06_incremental_wraparound.

Example C06_example :
  find_max_clique_heu_inc m_groups 1 2 = Val (3%Z, [5; 1; 2]) /\
  find_max_clique_heu_inc m_groups 1 3 = Val (0%Z, []) /\
  find_max_clique_heu_inc m_groups 7 0 = Val (0%Z, []).
Proof. repeat split; vm_compute; reflexivity. Qed.

(** ** C07 *)
Theorem C07_graph_from_matrix : forall m, exists g, read_eigen m = Val g /\
  length (g_vs g) = m_rows m + 1 /\
  (forall v, v < m_rows m -> NoDup (csr_neighbours g v) /\ forall w, In w (csr_neighbours g v) <-> edge m v w) /\
  (forall v, v < m_rows m -> (Z.of_nat (length (csr_neighbours g v)) <= g_maxdeg g)%Z) /\
  ((exists v, v < m_rows m /\ g_maxdeg g = Z.of_nat (length (csr_neighbours g v))) \/
   (m_rows m = 0 /\ g_maxdeg g = (-1)%Z)).
Proof. exact read_eigen_spec. Qed.
Print Assumptions C07_graph_from_matrix.

Theorem C07_only_strict_lower_triangle_matters : forall m m',
  m_rows m = m_rows m' -> m_cols m = m_cols m' ->
  (forall i j, j < i -> i < m_rows m -> j < m_cols m -> m_at m i j = m_at m' i j) ->
  read_eigen m = read_eigen m'.
Proof. exact read_eigen_lower. Qed.
Print Assumptions C07_only_strict_lower_triangle_matters.

(** The relation that [edge] denotes is symmetric and loop free. *)
Theorem C07_edges_symmetric_loop_free : forall m i j,
  (edge m i j -> edge m j i) /\ ~ edge m i i.
Proof. exact (fun m i j => conj (@edge_sym m i j) (@edge_irr m i)). Qed.
Print Assumptions C07_edges_symmetric_loop_free.

Example C07_example : (* only entry (2,0) lies in the strict lower triangle *)
  read_eigen (Mat 3 3 (fun i j => ((i =? 2) && (j =? 0)) || ((i =? 0) && (j =? 1)) || (i =? j)))
  = Val (Graph [0; 1; 1; 2] [2; 0] 1).
Proof. vm_compute. reflexivity. Qed.
