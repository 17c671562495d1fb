(** * C78: a separate group is what is accepted, and loners are not *)
From Coq Require Import Lia Permutation.
From Verif Require Import Prelude Keys KMap UMap Geometry Factors Clique CliqueSpec CliqueRead Pcm Solver PcmSpec HistSpec StoreSpec RemoveSpec ApartSpec
  IncSpec HeuSpec ExactSpec GroupSpec GroupProofs Grid Scenes PropApart PropExact.
Local Open Scope nat_scope.

(** ** Closures between two robots *)
Theorem C78_group : forall O C (W : soracles O) h s rs id good,
  c_loop_check C = true -> run C W h (solver_init true) = Ok s rs -> records_sound C W h -> small C (length (sp_stored C W h)) ->
  (c_incremental C = true -> no_removal h) -> pair_ignored h id = false ->
  separate_group (length (live_items C W id h)) (agreeb (@lc_test O) (live_items C W id h)) good ->
  Permutation (graph_lcs C h id (s_nfg s)) (at_places (live_items C W id h) (members (length (live_items C W id h)) good)).
Proof. exact pairs_group. Qed.
Print Assumptions C78_group.

(** Not incremental: the selection from what is left, however the history went. *)
Theorem C78_batch : forall O C (W : soracles O) h s rs id,
  c_loop_check C = true -> c_incremental C = false -> run C W h (solver_init true) = Ok s rs -> records_sound C W h ->
  graph_lcs C h id (s_nfg s) = if pair_ignored h id then [] else selection (@lc_test O) (live_items C W id h).
Proof. exact pairs_batch. Qed.
Print Assumptions C78_batch.

(** In every mode and with removals: if two agree then at least two are accepted and each of them
    agrees with another one. *)
Theorem C78_backed : forall O C (W : soracles O) h s rs id,
  c_loop_check C = true -> run C W h (solver_init true) = Ok s rs -> records_sound C W h -> small C (length (sp_stored C W h)) ->
  pair_ignored h id = false -> some_agree (agreeb (@lc_test O) (live_items C W id h)) ->
  2 <= length (graph_lcs C h id (s_nfg s)) /\
  forall e, In e (graph_lcs C h id (s_nfg s)) -> backed (agreeb (@lc_test O) (live_items C W id h)) (live_items C W id h) e.
Proof. exact pairs_backed. Qed.
Print Assumptions C78_backed.

(** If no two agree then the oldest is accepted, and nothing else. *)
Theorem C78_alone : forall O C (W : soracles O) h s rs id,
  c_loop_check C = true -> run C W h (solver_init true) = Ok s rs -> records_sound C W h -> small C (length (sp_stored C W h)) ->
  pair_ignored h id = false -> ~ some_agree (agreeb (@lc_test O) (live_items C W id h)) ->
  graph_lcs C h id (s_nfg s) = firstn 1 (map fst (live_items C W id h)).
Proof. exact pairs_alone. Qed.
Print Assumptions C78_alone.

(** ** Sightings of a landmark *)
Theorem C78_landmark_group : forall O C (W : soracles O) h s rs l good,
  run C W h (solver_init true) = Ok s rs -> let L := recorded l (current C l (sp_sightings C W h)) in
  separate_group (length L) (agreeb (@lm_test O) L) good -> graph_lms C h l (s_nfg s) = at_places L (members (length L) good).
Proof. exact landmarks_group. Qed.
Print Assumptions C78_landmark_group.

Theorem C78_landmark_backed : forall O C (W : soracles O) h s rs l,
  run C W h (solver_init true) = Ok s rs -> let L := recorded l (current C l (sp_sightings C W h)) in
  (some_agree (agreeb (@lm_test O) L) ->
     2 <= length (graph_lms C h l (s_nfg s)) /\ forall e, In e (graph_lms C h l (s_nfg s)) -> backed (agreeb (@lm_test O) L) L e) /\
  (~ some_agree (agreeb (@lm_test O) L) -> graph_lms C h l (s_nfg s) = firstn 1 (map fst L)).
Proof. exact landmarks_backed. Qed.
Print Assumptions C78_landmark_backed.

(** Without the group being separate this fails: three of five agree with each other, the other two
    with one of them, and what is handed over is not the three. *)
Theorem C78_overlap_refuted : exists n agrees good,
  (forall i j, i < n -> j < n -> i <> j -> good i = true -> good j = true -> agrees i j = true) /\
  n < 2 * length (members n good) /\ (forall j, j < n -> good j = false -> length (filter (agrees j) (seq 0 n)) < length (members n good)) /\
  exists x, In x (members n good) /\ ~ In x (greedy n agrees).
Proof.
  exists 5, bow, (fun i => i <? 3). split; [|split; [|split]].
  - intros i j Hi Hj N Gi Gj. apply Nat.ltb_lt in Gi, Gj. destruct i as [|[|[|i]]], j as [|[|[|j]]]; try lia; reflexivity.
  - vm_compute. lia.
  - intros j Hj Gj. apply Nat.ltb_ge in Gj. destruct j as [|[|[|[|[|j]]]]]; try lia; vm_compute; lia.
  - exists 1. split; [vm_compute; auto|]. vm_compute. intros [X|[X|[X|[]]]]; discriminate.
Qed.
Print Assumptions C78_overlap_refuted.

(** Five closures between a and b of which all but the second agree, and two sightings that agree;
    then, after taking some back, closures of which no two agree. *)
Definition group_h : list (op O1) := [start3_a; start_b; OpUpdate [bet (ka 0) (kb 0) (fwd 100)] [] true; OpUpdate [bet (ka 0) (kb 1) (fwd 999)] [] true;
  OpUpdate [bet (ka 1) (kb 1) (fwd 100); bet (ka 1) (kb 0) (fwd 90)] [] true; lm_first; lm_again 1 (-5); OpUpdate [bet (ka 1) (kb 1) (fwd 100)] [] true].
Definition group_good (i : nat) : bool := negb (i =? 1).
Example C78_group_example : forall C, C = C1 \/ C = C1_inc ->
  records_sound C W1 group_h /\ small C (length (sp_stored C W1 group_h)) /\ no_removal group_h /\ pair_ignored group_h (97, 98)%N = false /\
  length (live_items C W1 (97, 98)%N group_h) = 5 /\
  separate_group 5 (agreeb (@lc_test O1) (live_items C W1 (97, 98)%N group_h)) group_good /\
  some_agree (agreeb (@lc_test O1) (live_items C W1 (97, 98)%N group_h)) /\
  separate_group 2 (agreeb (@lm_test O1) (recorded (kl 1) (current C (kl 1) (sp_sightings C W1 group_h)))) (fun _ => true) /\
  (exists s rs, run C W1 group_h (solver_init true) = Ok s rs /\ length (graph_lcs C group_h (97, 98)%N (s_nfg s)) = 4).
Proof.
  intros C [->| ->].
  all: split; [left; intros n a i j; reflexivity|].
  all: split; [intros _; vm_compute; reflexivity|].
  all: split; [intros o Ho; repeat (destruct Ho as [<-|Ho]; [reflexivity|]); destruct Ho|].
  all: split; [vm_compute; reflexivity|].
  all: split; [vm_compute; reflexivity|].
  all: split; [apply separateb_ok; vm_compute; reflexivity|].
  all: split; [exists 0, 2; vm_compute; reflexivity|].
  all: split; [apply separateb_ok; vm_compute; reflexivity|].
  all: apply run_check; vm_compute; reflexivity.
Qed.

Definition alone_h : list (op O1) := group_h ++ [OpRemoveId 97 98; OpRemoveId 97 98; OpRemoveId 97 98].
Example C78_alone_example : forall C, C = C1 \/ C = C1_inc ->
  records_sound C W1 alone_h /\ small C (length (sp_stored C W1 alone_h)) /\ length (live_items C W1 (97, 98)%N alone_h) = 2 /\
  ~ some_agree (agreeb (@lc_test O1) (live_items C W1 (97, 98)%N alone_h)) /\
  (exists s rs, run C W1 alone_h (solver_init true) = Ok s rs /\ length (graph_lcs C alone_h (97, 98)%N (s_nfg s)) = 1).
Proof.
  intros C [->| ->].
  all: split; [left; intros n a i j; reflexivity|].
  all: split; [intros _; vm_compute; reflexivity|].
  all: split; [vm_compute; reflexivity|].
  all: split; [apply none_agree; vm_compute; reflexivity|].
  all: apply run_check; vm_compute; reflexivity.
Qed.
