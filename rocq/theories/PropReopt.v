(** * Property C31 in every configuration *)
From Coq Require Import QArith.
From Verif Require Import Prelude Num Keys KMap UMap Geometry Factors Clique Pcm Params Solver Grid
  PcmSpec HistSpec StoreSpec EstSpec SolverProofs UpdateProofs EstProofs Scenes ReoptSpec ReoptProofs.
Local Open Scope nat_scope.

(** A call that optimised left [n] counted loop closures and as many weights as factors.  Whatever calls that do not
    optimise follow, the next optimisation succeeds if GNC runs; otherwise how it ends follows from [n], those
    weights, and the numbers of factors now.  Nothing else can happen. *)
Theorem C31_every_outcome : forall O C (W : soracles O) h o h2 s0 s1 s2 rs r rs2 q,
  run C W h (solver_init true) = Ok s0 rs -> step C W o s0 = Ok s1 r -> s_trace s1 = s_trace s0 ++ [q] ->
  run C W h2 s1 = Ok s2 rs2 -> s_trace s2 = s_trace s1 -> disjoint_temps s2 -> total_optimiser W ->
  exists n m, get_num_lc s1 = Val n /\ get_num_lc s2 = Val m /\ length (s_w s1) = length (s_nfg s1) /\
   ends_as (optimize C W s2)
     (if c_gnc C && negb (c_fix C && (m =? n)) then RFine
      else reoptimised (c_fix C) n (s_w s1)
             (length (sp_odoms (c_special C) (h ++ o :: h2)) + length (sp_others (h ++ o :: h2))) (length (s_nfg s2))).
Proof. exact c31_every. Qed.
Print Assumptions C31_every_outcome.

(** The same for the public call that only optimises. *)
Theorem C31_every_outcome_force : forall O C (W : soracles O) h o h2 s0 s1 s2 rs r rs2 q,
  c_log C = false ->
  run C W h (solver_init true) = Ok s0 rs -> step C W o s0 = Ok s1 r -> s_trace s1 = s_trace s0 ++ [q] ->
  run C W h2 s1 = Ok s2 rs2 -> s_trace s2 = s_trace s1 -> disjoint_temps s2 -> total_optimiser W ->
  exists n m, get_num_lc s1 = Val n /\ get_num_lc s2 = Val m /\ length (s_w s1) = length (s_nfg s1) /\
   ends_as (step C W (OpForce [] []) s2)
     (if c_gnc C && negb (c_fix C && (m =? n)) then RFine
      else reoptimised (c_fix C) n (s_w s1)
             (length (sp_odoms (c_special C) (h ++ o :: h2)) + length (sp_others (h ++ o :: h2))) (length (s_nfg s2))).
Proof. exact c31_force. Qed.
Print Assumptions C31_every_outcome_force.

(** Before the first optimisation, nothing can go wrong. *)
Theorem C31_first_is_safe : forall O C (W : soracles O) h s rs,
  run C W h (solver_init true) = Ok s rs -> s_trace s = [] -> disjoint_temps s -> total_optimiser W ->
  ends_as (optimize C W s) RFine.
Proof. exact c31_first. Qed.
Print Assumptions C31_first_is_safe.

(** With fixed inliers every outcome is reached: all fine; six counted closures with four weights; an inlier
    beyond the end; six counted closures, priors removed, three factors left. *)
Definition reopt_of C (W : soracles O1) (h : list (op O1)) : option nat :=
  match run C W h (solver_init true) with
  | Ok s _ => match step C W (OpForce [] []) s with
      | Ok _ _ => Some 0
      | Undef OutOfBounds => Some 1
      | Throw _ OutOfRange => Some 2
      | Undef EigenMismatch => Some 3
      | _ => None end
  | _ => None end.
Definition more_priors : op O1 := OpUpdate [pri (ka 0) (fwd 1); pri (ka 0) (fwd 2)] [] true.
Example C31_every_outcome_example :
  (reopt_of cfg_fix W1 (base ++ [lc_good; lc_ab 0 0 100]),
   reopt_of cfg_fix W1 [start_a; start_b; clash],
   reopt_of cfg_fix W1 [start_a; start_b; lc_ab 0 0 100; OpUpdate [bet (ka 0) (kb 1) (fwd 500)] [] true],
   reopt_of cfg_fix (moving 0 gp_id) [start_a; start_b; more_priors; clash; OpRemovePriors 97%N false],
   reopt_of C1 W1 [start_a; start_b; clash],
   reopt_of cfg_gnc W1 [start_a; start_b; clash])
  = (Some 0, Some 1, Some 2, Some 3, Some 3, Some 0).
Proof. vm_compute. reflexivity. Qed.
Example C31_every_outcome_example_spec :
  (reoptimised true 6 [1; 1; 1; 0]%Q 3 4, reoptimised true 2 [1; 1; 1; 1; 1]%Q 3 4,
   reoptimised true 6 [0; 0; 0; 0; 0; 0]%Q 2 3, reoptimised true 1 [1; 1; 0]%Q 2 3)
  = (RPastEnd, RNoFactor, RBadTail, RFine).
Proof. vm_compute. reflexivity. Qed.
