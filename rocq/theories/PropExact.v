(** * C77: exactly which closures and sightings are accepted *)
From Coq Require Import Lia.
From Verif Require Import Prelude Keys KMap UMap Geometry Factors Clique CliqueSpec CliqueRead Pcm Solver PcmSpec HistSpec StoreSpec RemoveSpec ApartSpec
  HeuSpec HeuProofs ExactSpec ExactProofs Grid Scenes PropApart.
Local Open Scope nat_scope.

(** The search over buffers hands over what the search over lists finds. *)
Theorem C77_search_exact : forall m, 0 < m_rows m -> exists data,
  find_max_clique_heu m = Val (Z.of_nat (length (greedy (m_rows m) (adjb m))), data) /\
  firstn (length (greedy (m_rows m) (adjb m))) data = greedy (m_rows m) (adjb m) /\ greedy (m_rows m) (adjb m) <> [].
Proof. exact heu_exact. Qed.
Print Assumptions C77_search_exact.

Theorem C77_search_new_exact : forall m new prev, (Z.of_nat (m_rows m) < size_t_mod)%Z -> new <= m_rows m -> exists data,
  find_max_clique_heu_inc m new prev = Val (Z.of_nat (length (greedy_new (m_rows m) (adjb m) new prev)), data) /\
  firstn (length (greedy_new (m_rows m) (adjb m) new prev)) data = greedy_new (m_rows m) (adjb m) new prev /\
  (greedy_new (m_rows m) (adjb m) new prev <> [] -> prev < length (greedy_new (m_rows m) (adjb m) new prev)).
Proof. exact inc_exact. Qed.
Print Assumptions C77_search_new_exact.

(** The closures between two robots in the graph. *)
Theorem C77_pairs : forall O C (W : soracles O) h s rs id,
  c_loop_check C = true -> run C W h (solver_init true) = Ok s rs -> records_sound C W h -> small C (length (sp_stored C W h)) ->
  graph_lcs C h id (s_nfg s) = if pair_ignored h id then [] else accepted C W id h.
Proof. exact pairs_exact. Qed.
Print Assumptions C77_pairs.

(** The sightings of a landmark in the graph. *)
Theorem C77_landmarks : forall O C (W : soracles O) h s rs l,
  run C W h (solver_init true) = Ok s rs -> graph_lms C h l (s_nfg s) = accepted_sightings C W l h.
Proof. exact landmarks_exact. Qed.
Print Assumptions C77_landmarks.

(** Five measurements: the first agrees with all, 1 with 2, 3 with 4. What is handed over has 2 and 3 in it, which do not agree (C04). *)
Definition bow (i j : nat) : bool :=
  match i, j with
  | 0, S _ | S _, 0 => true
  | 1, 2 | 2, 1 | 3, 4 | 4, 3 => true
  | _, _ => false
  end.
Example C77_search_example : greedy 5 bow = [0; 3; 2] /\ greedy_new 5 bow 1 2 = [4; 0; 3] /\ greedy_new 5 bow 1 3 = [].
Proof. vm_compute. repeat split; reflexivity. Qed.

Example C77_history_example : forall C, C = C1 \/ C = C1_inc ->
  records_sound C W1 back_c /\ small C (length (sp_stored C W1 back_c)) /\ pair_ignored back_c (97, 98)%N = false /\
  length (accepted C W1 (97, 98)%N back_c) = 2 /\ length (accepted_sightings C W1 (kl 1) back_c) = 2 /\
  (exists s rs, run C W1 back_c (solver_init true) = Ok s rs /\ length (graph_lcs C back_c (97, 98)%N (s_nfg s)) = 2).
Proof.
  intros C [->| ->].
  all: split; [left; intros n a i j; reflexivity|].
  all: split; [intros _; vm_compute; reflexivity|].
  all: split; [vm_compute; reflexivity|].
  all: split; [vm_compute; reflexivity|].
  all: split; [vm_compute; reflexivity|].
  all: apply run_check; vm_compute; reflexivity.
Qed.
