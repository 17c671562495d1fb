(** * C66: the counters of [PoseWithNode] stay within [int] *)
From Verif Require Import Prelude Num Keys KMap Geometry Factors Clique Pcm Solver PcmSpec PcmProofs HistSpec Grid Scenes IntSpec IntProofs.
Local Open Scope nat_scope.

(** After every history, exceptions caught or not: the counter of every reference pose is at most the
    number of odometry factors given, so that the next odometry factor can be added; and none of the sums
    and differences of counters that the odometry test, the pairwise test and the landmark test of any
    loop closures whatsoever need leaves the range of [int], if no more than 2^28 odometry factors were
    given. *)
Theorem C66_no_overflow : forall G pp C (W : soracles (node_ops G pp)) h s p b,
  run_on C W h (solver_init b) = Val s -> s_pcm s = Some p -> (Z.of_nat (length (sp_odoms (c_special C) h)) <= 268435456)%Z ->
  (forall c k, (0 <= pn_node (tref p c k : pnode G) <= Z.of_nat (length (sp_odoms (c_special C) h)))%Z) /\
  (forall c k, fits (pn_node (tref p c k : pnode G) + 1) = true) /\
  (forall f, sp_odom_test (O := noted_ops G) (given_ref (tref p)) f <> Some false) /\
  (forall f1 f2, sp_loop_test (O := noted_ops G) (given_ref (tref p)) f1 f2 <> Some false) /\
  (forall f1 f2, sp_lm_test (O := noted_ops G) (given_ref (tref p)) f1 f2 <> Some false).
Proof. exact c66. Qed.
Print Assumptions C66_no_overflow.

(** Two robots with four odometry factors and a loop closure: the counters after the history. *)
Example C66_example :
  match run_on C1 W1 (base ++ [lc_good]) (solver_init true) with
  | Val s => match s_pcm s with
             | Some p => Some (map (fun k => pn_node (tref p 97%N k)) [ka 0; ka 1; ka 2; ka 3], length (sp_odoms (c_special C1) (base ++ [lc_good])))
             | None => None end
  | Bad _ => None end = Some ([0; 1; 2; 3]%Z, 4).
Proof. vm_compute. reflexivity. Qed.

(** The tests notice an overflow: with a counter at the upper end the sum with the counter of the loop
    closure is no [int]. *)
Example C66_notices :
  sp_odom_test (O := noted_ops grid) (given_ref (fun _ k => if (k =? ka 0)%N then PN grid gp_id 0 true else PN grid gp_id 2147483647 true))
    (BF (ka 0) (ka 3) gp_id (Gauss 0%Z)) = Some false.
Proof. vm_compute. reflexivity. Qed.

(** The numbers in the arrays of the clique searches (offsets, neighbours, degrees) fit into [int] for up
    to 46341 loop closures between two robots; *)
Theorem C66_arrays_fit : forall m g, read_eigen m = Val g -> (Z.of_nat (m_rows m) <= 46341)%Z ->
  (forall x, In x (g_vs g) -> fits (Z.of_nat x) = true) /\ (forall x, In x (g_es g) -> fits (Z.of_nat x + 1) = true) /\
  fits (Z.of_nat (length (g_es g))) = true /\ fits (g_maxdeg g + 1) = true.
Proof. exact arrays_fit. Qed.
Print Assumptions C66_arrays_fit.

(** with one more, all consistent with each other, an offset does not. *)
Theorem C66_arrays_limit : forall n, (46341 < Z.of_nat n)%Z ->
  exists g x, read_eigen (all_ones n) = Val g /\ In x (g_vs g) /\ fits (Z.of_nat x) = false.
Proof. exact arrays_overflow. Qed.
Print Assumptions C66_arrays_limit.

Example C66_arrays_example : match read_eigen (all_ones 4) with
  | Val g => Some (g_vs g, g_es g, g_maxdeg g) | Bad _ => None end = Some ([0; 3; 6; 9; 12], [1; 2; 3; 0; 2; 3; 0; 1; 3; 0; 1; 2], 3%Z).
Proof. vm_compute. reflexivity. Qed.
