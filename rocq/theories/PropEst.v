(** * Properties C28, C31, C43, C54: estimates, weights and temporary values *)
From Coq Require Import QArith.
From Verif Require Import Prelude Num Keys KMap UMap Geometry Factors Clique Pcm Params Solver Grid
  PcmSpec HistSpec StoreSpec EstSpec SolverProofs UpdateProofs EstProofs Scenes PropRemove.
Local Open Scope nat_scope.

(** ** C54 *)
(** With or without outlier rejection, a call that returns either asks the optimiser nothing and
    leaves weights and earlier estimates alone, or asks it once: then every variable, temporary
    or not, holds the answer, and the weights are the answered ones (with GNC) or ones followed by the
    kept tail. *)
Theorem C54_estimates_are_answers : forall O C (W : soracles O) with_pcm h s rs o s' r,
  run C W h (solver_init with_pcm) = Ok s rs -> step C W o s = Ok s' r ->
  untouched C o s s' \/ estimated C W o s s'.
Proof. exact est_any. Qed.
Print Assumptions C54_estimates_are_answers.

(** A run with GNC, a temporary variable and factor; the optimiser moves every pose to (7, 0) and
    gives weight one to the first seven factors only. *)
Definition with_temps : list (op O1) :=
  base ++ [lc_good; OpTempUpdate [bet (ka 1) (kc 0) (fwd 20)] [val (kc 0) gp_id]; OpForce [] []].
Example C54_example :
  match run cfg_gnc (moving 7 (fwd 7)) with_temps (solver_init true) with
  | Ok s _ => (forallb (fun kv : key * value O1 => match snd kv with VPose x => gp_eqb x (fwd 7) | _ => false end) (s_vals s ++ s_tvals s),
               map fst (s_tvals s), s_w s, s_tw s, length (s_trace s))
  | _ => (false, [], [], [], 0)
  end = (true, [kc 0], [1; 1; 1; 1; 1; 1; 1]%Q, [0]%Q, 4).
Proof. vm_compute. reflexivity. Qed.

(** ** C28 *)
(** The temporary variables are those of the temporary calls. *)
Theorem C28_temporary_variables : forall O C (W : soracles O) with_pcm h s rs,
  run C W h (solver_init with_pcm) = Ok s rs ->
  forall k, In k (map fst (s_tvals s)) <-> In k (sp_temp_keys h).
Proof. exact temp_keys. Qed.
Print Assumptions C28_temporary_variables.

Example C28_variables_example :
  after C1 (base ++ [OpTempUpdate [] [val (kc 0) gp_id]; OpForce [] []; OpTempUpdate [] [val (kc 1) gp_id]; lc_good;
                     OpTempReplace [] [val (kc 2) gp_id]; OpForce [] []])
    (fun s => (map fst (s_tvals s), length (s_trace s))) = Some ([kc 2], 5).
Proof. vm_compute. reflexivity. Qed.

(** ** C31 *)
(** As long as at no time more loop closures and landmark sightings than odometry factors have been
    given, optimising again is safe, in every configuration. *)
Theorem C31_safe_with_enough_odometry_partial : forall O C (W : soracles O) h s rs u,
  run C W h (solver_init true) = Ok s rs -> mostly_odometry (c_special C) h -> optimize C W s <> Undef u.
Proof. exact c31_odometry. Qed.
Print Assumptions C31_safe_with_enough_odometry_partial.

(** Without GNC and fixed inliers the condition is exact: after a call that optimised, the next
    optimisation goes wrong if and only if the loop closures counted at the first are more than the
    factors the graph had then, or more than those it has now. *)
Theorem C31_exactly_when_partial : forall O C (W : soracles O) h o h2 s0 s1 s2 rs r rs2 q,
  run C W h (solver_init true) = Ok s0 rs -> step C W o s0 = Ok s1 r -> s_trace s1 = s_trace s0 ++ [q] ->
  run C W h2 s1 = Ok s2 rs2 -> s_trace s2 = s_trace s1 ->
  c_gnc C = false -> c_fix C = false -> disjoint_temps s2 -> total_optimiser W ->
  exists n, get_num_lc s1 = Val n /\
   ((exists s', optimize C W s2 = Ok s' tt) \/ (optimize C W s2 = Undef EigenMismatch)) /\
   (optimize C W s2 = Undef EigenMismatch <-> length (s_nfg s1) < n \/ length (s_nfg s2) < n).
Proof. exact c31_exact. Qed.
Print Assumptions C31_exactly_when_partial.

(** Six inconsistent closures, one of which enters a graph of three factors, then odometry until it has seven: the weight
    vector is still too short. With three closures fewer all is well. *)
Definition odo_b (i : N) : op O1 :=
  OpUpdate [bet (kb i) (kb (i + 1)) (fwd 10)] [val (kb (i + 1)) (fwd (100 + 10 * (Z.of_N i + 1)))] true.
Example C31_exactly_when_example :
  (after C1 [start_a; start_b; clash] (fun s => (length (s_nfg s), get_num_lc s, length (s_trace s))),
   after C1 [start_a; start_b; clash; odo_b 1; odo_b 2; odo_b 3]
     (fun s => (length (s_nfg s), length (s_trace s), match optimize C1 W1 s with Undef EigenMismatch => true | _ => false end)),
   after C1 [start_a; start_b; lc_ab 0 0 100; lc_ab 0 0 200; lc_ab 0 1 300; odo_b 1]
     (fun s => (length (s_nfg s), get_num_lc s, match optimize C1 W1 s with Ok _ _ => true | _ => false end)))
  = (Some (4, Val 6, 3), Some (7, 3, true), Some (5, Val 3, true)).
Proof. vm_compute. reflexivity. Qed.

(** ** C43 *)
(** The same condition makes whole histories safe in every configuration. *)
Theorem C43_no_undefined_behaviour_with_odometry : forall O C (W : soracles O) h u,
  decent_history C h -> gentle C W h -> small C (length (sp_all h)) -> mostly_odometry (c_special C) h ->
  run C W h (solver_init true) <> Undef u.
Proof. exact safe_run_odometry. Qed.
Print Assumptions C43_no_undefined_behaviour_with_odometry.

Fixpoint mostly_from (sp : list N) (done todo : list (op O1)) : bool :=
  (length (sp_closures sp done) <=? length (sp_odoms sp done)) &&
  match todo with [] => true | o :: todo' => mostly_from sp (done ++ [o]) todo' end.
Lemma mostly_check sp todo : forall done, mostly_from sp done todo = true ->
  forall h1 h2, todo = h1 ++ h2 -> length (sp_closures sp (done ++ h1)) <= length (sp_odoms sp (done ++ h1)).
Proof.
  induction todo as [|o todo IH]; intros done H h1 h2 E; cbn [mostly_from] in H;
    apply andb_true_iff in H; destruct H as [H1 H2]; apply Nat.leb_le in H1.
  - destruct h1; [rewrite app_nil_r; auto|discriminate].
  - destruct h1 as [|o1 h1]; [rewrite app_nil_r; auto|]. injection E as -> E.
    specialize (IH _ H2 _ _ E). rewrite <- app_assoc in IH. exact IH.
Qed.

(** The history of all kinds of calls stays within the condition. *)
Example C43_odometry_example :
  mostly_odometry [108%N] (base ++ [lc_good; lc_ab 0 0 100; lm_first; OpIgnore 98; OpRevive 98; OpForce [] []; OpRemovePriors 98 true]) /\
  match run cfg_fix W1 (base ++ [lc_good; lc_ab 0 0 100; lm_first; OpIgnore 98; OpRevive 98; OpForce [] []; OpRemovePriors 98 true]) (solver_init true) with
  | Ok s _ => length (s_trace s) = 8 | _ => False end.
Proof.
  split; [|vm_compute; reflexivity].
  intros h1 h2. apply (@mostly_check [108%N] _ []). vm_compute. reflexivity.
Qed.
