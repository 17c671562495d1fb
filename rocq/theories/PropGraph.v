(** * Properties C08, C09, C10, C18, C27: contents of graph and estimate *)
From Coq Require Import QArith.
From Verif Require Import Prelude Num Keys KMap UMap Geometry Factors Clique Pcm Params Solver Grid
  ValuesProofs PcmSpec PcmProofs PcmInv PcmStore HistSpec SolverProofs HistProofs PlainProofs GraphProofs Scenes.
Local Open Scope nat_scope.

(** ** C08 *)
(** After any history that returned normally the graph starts with all odometry factors, then all
    non-between factors except deleted pose priors; the rest are between factors. *)
Theorem C08_odometry_and_others_never_rejected : forall O C (W : soracles O) h s rs,
  run C W h (solver_init true) = Ok s rs ->
  exists tail, s_nfg s = map Some (map FBetween (sp_odoms (c_special C) h) ++ sp_others h ++ map FBetween tail).
Proof. exact c08. Qed.
Print Assumptions C08_odometry_and_others_never_rejected.

Example C08_example : after C1 full_history (fun s => keys_of (s_nfg s)) = Some
  [[ka 0; ka 1]; [ka 1; ka 2]; [ka 2; ka 3]; [kb 0; kb 1];   (* odometry *)
   [ka 0];                                                   (* priors; the one on b0 was deleted *)
   [ka 0; ka 3]; [ka 0; kb 0]; [ka 1; kb 1]; [ka 3; kb 1];   (* loop closures *)
   [ka 0; kl 1]; [ka 2; kl 1]]                               (* landmark *)
  /\ map (fun b => (b_from b, b_to b)) (sp_odoms [108%N] full_history)
     = [(ka 0, ka 1); (ka 1, ka 2); (ka 2, ka 3); (kb 0, kb 1)]
  /\ map (@f_keys O1) (sp_others full_history) = [[ka 0]].
Proof. repeat split; vm_compute; reflexivity. Qed.

(** ** C09 *)
Theorem C09_nothing_fabricated : forall O C (W : soracles O) with_pcm h s rs f,
  run C W h (solver_init with_pcm) = Ok s rs -> In (Some f) (s_nfg s) -> delivered h f.
Proof. exact c09. Qed.
Print Assumptions C09_nothing_fabricated.

(** ** C10 *)
(** The graph is odometry, other factors, pose-pose loop closures [lcs], landmark factors [lms].
    Every member of [lcs] was handed over by some call [o] of the history as a candidate with two
    different keys; both keys had values by then; neither prefix is ignored now; and, within one
    robot, the odometry test passed with the reference poses of that time. *)
Theorem C10_which_loop_closures_enter : forall O C (W : soracles O) h s rs,
  run C W h (solver_init true) = Ok s rs ->
  exists lcs lms,
    s_nfg s = map Some (map FBetween (sp_odoms (c_special C) h) ++ sp_others h ++ map FBetween (lcs ++ lms)) /\
    (forall b, In b lms -> sp_landmark (c_special C) (b_from b) || sp_landmark (c_special C) (b_to b) = true /\
                           delivered h (FBetween b)) /\
    (forall b, In b lcs ->
       sp_landmark (c_special C) (b_from b) = false /\ sp_landmark (c_special C) (b_to b) = false /\
       b_from b <> b_to b /\
       sp_ignored h (chr (b_from b)) = false /\ sp_ignored h (chr (b_to b)) = false /\
       exists h1 o h2 fs vs s1 p1 rs1,
         h = h1 ++ o :: h2 /\ call_of o = Some (fs, vs) /\ In (Some (FBetween b)) fs /\
         sp_candidate (c_special C) vs b = true /\
         supplied (h1 ++ [o]) (b_from b) /\ supplied (h1 ++ [o]) (b_to b) /\
         run C W (h1 ++ [o]) (solver_init true) = Ok s1 rs1 /\ s_pcm s1 = Some p1 /\
         (chr (b_from b) = chr (b_to b) -> c_odom_check C = true ->
          sp_odom_test (tref p1) b = Some true)).
Proof. exact c10. Qed.
Print Assumptions C10_which_loop_closures_enter.

Example C10_example : (* the wrong closure a0->a2 is out, the right one a0->a3 is in *)
  after C1 (base ++ [lc_good; lc_bad]) (fun s => keys_of (skipn 6 (s_nfg s))) = Some [[ka 0; ka 3]].
Proof. vm_compute. reflexivity. Qed.
Example C10_example_ignored :
  after C1 (base ++ [lc_ab 0 0 100; OpIgnore 98; lc_ab 1 1 100]) (fun s => keys_of (skipn 6 (s_nfg s))) = Some [] /\
  after C1 (base ++ [lc_ab 0 0 100; OpIgnore 98; lc_ab 1 1 100; OpRevive 98]) (fun s => keys_of (skipn 6 (s_nfg s)))
    = Some [[ka 0; kb 0]; [ka 1; kb 1]].
Proof. split; vm_compute; reflexivity. Qed.

(** ** C18 *)
Theorem C18_variables_are_those_supplied : forall O C (W : soracles O) with_pcm h s rs,
  run C W h (solver_init with_pcm) = Ok s rs ->
  ksorted (s_vals s) /\ forall k, In k (map fst (s_vals s)) <-> supplied h k.
Proof. exact c18. Qed.
Print Assumptions C18_variables_are_those_supplied.

Example C18_example : after C1 full_history (fun s => map fst (s_vals s)) =
  Some [ka 0; ka 1; ka 2; ka 3; kb 0; kb 1; kl 1].
Proof. vm_compute. reflexivity. Qed.

(** ** C27 *)
(** With outlier rejection and a prefix below 128: exactly the pose priors on that prefix disappear,
    order kept. *)
Theorem C27_priors_removed_exactly : forall O C (W : soracles O) h s rs c opt s' r, (c < 128)%N ->
  run C W h (solver_init true) = Ok s rs -> step C W (OpRemovePriors c opt) s = Ok s' r ->
  s_nfg s' = filter (fun of => match of with Some (FPrior k _) => negb (chr k =? c)%N | _ => true end) (s_nfg s).
Proof. exact c27_pcm_low. Qed.
Print Assumptions C27_priors_removed_exactly.

(** Without: the pose priors of both dimensions on that prefix disappear, in any state. *)
Theorem C27_priors_removed_exactly_plain : forall O C (W : soracles O) s c opt s' r, (c < 128)%N ->
  s_pcm s = None -> step C W (OpRemovePriors c opt) s = Ok s' r ->
  s_nfg s' = filter (fun of => match of with
                               | Some (FPrior k _) => negb (chr k =? c)%N
                               | Some (FPriorOther k _) => negb (chr k =? c)%N
                               | _ => true
                               end) (s_nfg s).
Proof. exact c27_plain_low. Qed.
Print Assumptions C27_priors_removed_exactly_plain.

(** A prefix above 127 is negative as a [char] and equals no [Symbol::chr()]: nothing is removed. *)
Theorem C27_high_prefix : forall O C (W : soracles O) h s rs c opt s' r, (128 <= c)%N ->
  run C W h (solver_init true) = Ok s rs -> step C W (OpRemovePriors c opt) s = Ok s' r -> s_nfg s' = s_nfg s.
Proof. exact c27_pcm_high. Qed.
Print Assumptions C27_high_prefix.
Theorem C27_high_prefix_plain : forall O C (W : soracles O) s c opt s' r, (128 <= c)%N ->
  s_pcm s = None -> step C W (OpRemovePriors c opt) s = Ok s' r -> s_nfg s' = s_nfg s.
Proof. exact c27_plain_high. Qed.
Print Assumptions C27_high_prefix_plain.

(** So the property fails for such a robot: its prior stays. *)
Definition kh (i : N) : key := sym 200 i.
Definition start_h : op O1 :=
  OpUpdate [pri (kh 0) gp_id; bet (kh 0) (kh 1) (fwd 10)] [val (kh 0) gp_id; val (kh 1) (fwd 10)] true.
Definition prior_at (k : key) (of : option (factor O1)) : bool :=
  match of with Some (FPrior k' _) => (k' =? k)%N | _ => false end.
Lemma prior_at_In k g : existsb (prior_at k) g = true -> exists x, In (Some (FPrior k x)) g.
Proof.
  intro H. apply existsb_exists in H. destruct H as ([[b|k' x|k' t|ks t]|] & H1 & H2); try discriminate H2.
  apply N.eqb_eq in H2. subst k'. eauto.
Qed.
Theorem C27_priors_removed_exactly_refuted : exists O C (W : soracles O) h s rs c s' r k x,
  run C W h (solver_init true) = Ok s rs /\ step C W (OpRemovePriors c true) s = Ok s' r /\
  (c < 256)%N /\ chr k = c /\ In (Some (FPrior k x)) (s_nfg s').
Proof.
  destruct (@run_check O1 C1 W1 [start_h] true (fun s =>
     match step C1 W1 (OpRemovePriors 200 true) s with
     | Ok s' _ => existsb (prior_at (kh 0)) (s_nfg s') = true
     | _ => False end)) as (s & rs & HR & H). { clear. vm_compute. reflexivity. }
  destruct (step C1 W1 (OpRemovePriors 200 true) s) as [s' r| |] eqn:E; [|destruct H..].
  apply prior_at_In in H. destruct H as (x & H).
  exists O1, C1, W1, [start_h], s, rs, 200%N, s', r, (kh 0), x.
  split; [exact HR|]. split; [exact E|]. split; [reflexivity|]. split; [reflexivity|exact H].
Qed.
Print Assumptions C27_priors_removed_exactly_refuted.

Example C27_example :
  after C1 base (fun s => keys_of (s_nfg s)) =
    Some [[ka 0; ka 1]; [ka 1; ka 2]; [ka 2; ka 3]; [kb 0; kb 1]; [ka 0]; [kb 0]] /\
  after C1 (base ++ [OpRemovePriors 98 true]) (fun s => keys_of (s_nfg s)) =
    Some [[ka 0; ka 1]; [ka 1; ka 2]; [ka 2; ka 3]; [kb 0; kb 1]; [ka 0]].
Proof. split; vm_compute; reflexivity. Qed.
