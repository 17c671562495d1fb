(** * Property C84: when every measurement is true, the graph is everything that was given *)
From Coq Require Import ZArith Bool List Lia Permutation.
From Verif Require Import Prelude Num Keys KMap UMap Geometry Factors Clique Pcm Params Solver Lie Floats PcmSpec HistSpec StoreSpec RemoveSpec ApartSpec IncSpec
  PcmProofs PcmInv PcmStore TrajProofs AlgProofs UpdateProofs Grid Scenes OutlierSpec LatticeSpec LatticeProofs LatticeHist PropLattice PlainProofs TrueSpec TrueAny TrueProofs PropTrue WholeSpec WholeAny WholeProofs.
Set Implicit Arguments.
Local Open Scope nat_scope.

Theorem C84_everything : forall G (L : lattice G), unrounded_poses L -> forall X F, rigid_world L X F ->
  forall pp C (W : soracles (node_ops G pp)) first h s rs, run C W h (solver_init true) = Ok s rs ->
  only_calls h -> true_history L X F C W first h ->
  dpositive (pp_dist_trans pp) -> dpositive (pp_dist_rot pp) -> c_loop_check C = true -> small C (length (sp_stored C W h)) ->
  Permutation (s_nfg s) (map Some (given h)).
Proof. intros G L U X F RW. destruct (unrounded_laws U) as [LW]. exact (@whole_graph G L LW X F RW). Qed.
Print Assumptions C84_everything.

(** So it is the graph kept by a solver without outlier rejection, up to the order. *)
Theorem C84_as_without_rejection : forall G (L : lattice G), unrounded_poses L -> forall X F, rigid_world L X F ->
  forall pp C (W : soracles (node_ops G pp)) first h s rs, run C W h (solver_init true) = Ok s rs ->
  only_calls h -> true_history L X F C W first h ->
  dpositive (pp_dist_trans pp) -> dpositive (pp_dist_rot pp) -> c_loop_check C = true -> small C (length (sp_stored C W h)) ->
  forall C' (W' : soracles (node_ops G pp)) s' rs', run C' W' h (solver_init false) = Ok s' rs' ->
  (forall o fs vs, In o h -> call_of o = Some (fs, vs) -> ~ In None fs) -> Permutation (s_nfg s) (s_nfg s').
Proof.
  intros G L U X F RW pp C W first h s rs R OC TH Pt Pr HL SM C' W' s' rs' R' NN.
  rewrite (@c35_graph (node_ops G pp) C' W' h s' rs' R'), <- (@given_all (node_ops G pp) h); auto; [eapply C84_everything; eauto|apply calls_add; auto].
Qed.
Print Assumptions C84_as_without_rejection.

(** ** Example *)
Definition prior_a : op Of := OpUpdate [Some (@FPrior Of (ka 0) (shown (Xf (ka 0))))] [] true.
Definition world2 : list (op Of) := start_a :: (after_a ++ [prior_a]).
Lemma world2_a : drives (lat2 2) Xf Ff C1 Wf first2 97%N world2.
Proof.
  apply drivesb_ok; [|vm_compute; reflexivity].
  eapply (@starts_same 97%N [] start_a (after_a ++ [prior_a])) with (x0 := shown (Xf (ka 0))); [vm_compute; reflexivity|reflexivity|vm_compute; reflexivity|vm_compute; reflexivity|vm_compute; reflexivity|reflexivity|apply showsb_ok; vm_compute; reflexivity].
Qed.
Lemma world2_b : drives (lat2 2) Xf Ff C1 Wf first2 98%N world2.
Proof.
  apply drivesb_ok; [|vm_compute; reflexivity].
  eapply (@starts_same 98%N before_b start_b (after_b ++ [prior_a])) with (x0 := shown (Xf (kb 0))); [vm_compute; reflexivity|reflexivity|vm_compute; reflexivity|vm_compute; reflexivity|vm_compute; reflexivity|reflexivity|apply showsb_ok; vm_compute; reflexivity].
Qed.
Definition kindsb (b : bf Of) : bool :=
  negb (b_from b =? b_to b)%N && (if sp_lmk C1 b then (sp_landmark_key [108%N] b =? kl 0)%N else of_pair (97, 98)%N b || of_pair (97, 97)%N b).
Lemma kinds_all : forallb kindsb (non_odometry C1 world2) = true.
Proof. vm_compute. reflexivity. Qed.
Lemma introduced_l : introduced C1 (kl 0) world2.
Proof.
  exists (before_b ++ [start_b]), (OpUpdate [fbet (ka 1) (kl 0)] [fval (kl 0)] true), ([flc (ka 2) (kl 0); fodo 3] ++ closures ++ [flc (ka 3) (kl 0); prior_a]), (fbf (ka 1) (kl 0) (shown (step (ka 1) (kl 0)))).
  split; [reflexivity|]. split; [intros o Ho; repeat (destruct Ho as [<-|Ho]; [reflexivity|]); destruct Ho|]. split; [reflexivity|]. split; [vm_compute; reflexivity|].
  intros o Ho. repeat (destruct Ho as [<-|Ho]; [reflexivity|]). destruct Ho.
Qed.
Example C84_meets : unrounded_poses (lat2 2) /\ rigid_world (lat2 2) Xf Ff /\ only_calls world2 /\ true_history (lat2 2) Xf Ff C1 Wf first2 world2 /\
  map (@f_keys Of) (given world2) = [[ka 0; ka 1]; [ka 1; ka 2]; [ka 2; ka 3]; [kb 0; kb 1]; [kb 1; kb 2]; [ka 1; kl 0]; [ka 2; kl 0]; [ka 3; ka 4];
    [ka 0; ka 4]; [ka 0; kb 0]; [ka 2; kb 2]; [ka 3; kb 1]; [ka 3; kl 0]; [ka 0]].
Proof.
  destruct C82_meets as (M1 & M2 & _). split; [exact (UR_grid M1)|]. split; [exact M2|].
  split; [intros o Ho; repeat (destruct Ho as [<-|Ho]; [discriminate|]); destruct Ho|]. split; [|vm_compute; reflexivity].
  intros b Hb. pose proof (proj1 (forallb_forall _ _) kinds_all b Hb) as K. unfold kindsb in K. apply andb_true_iff in K. destruct K as [K1 K2].
  split; [apply N.eqb_neq, negb_true_iff; exact K1|]. split; intro E.
  - assert (E' : sp_lmk (O := Of) C1 b = false) by exact E. rewrite E' in K2. apply orb_true_iff in K2. destruct K2 as [K2|K2]; [exists (97, 98)%N|exists (97, 97)%N]; (split; [exact K2|]).
    + split; [exact world2_a|]. split; [exact world2_b|]. split; [apply closuresb_ok; vm_compute; reflexivity|intros _ Q; discriminate Q].
    + split; [exact world2_a|]. split; [exact world2_a|]. split; [apply closuresb_ok; vm_compute; reflexivity|intros _ _; split; reflexivity].
  - assert (E' : sp_lmk (O := Of) C1 b = true) by exact E. rewrite E' in K2. apply N.eqb_eq in K2. cbv zeta. assert (K3 : sp_landmark_key (c_special C1) b = kl 0) by exact K2. rewrite K3. split; [exact introduced_l|].
    exists 97%N. split; [exact world2_a|]. apply sightingsb_ok. vm_compute. reflexivity.
Qed.
Example C84_example : match run C1 Wf world2 (solver_init true) with
  | Ok s _ => map (fun f => match f with Some f => f_keys f | None => [] end) (s_nfg s) =
      [[ka 0; ka 1]; [ka 1; ka 2]; [ka 2; ka 3]; [kb 0; kb 1]; [kb 1; kb 2]; [ka 3; ka 4]; [ka 0];
       [ka 0; ka 4]; [ka 0; kb 0]; [ka 2; kb 2]; [ka 3; kb 1]; [ka 1; kl 0]; [ka 2; kl 0]; [ka 3; kl 0]]
  | _ => False
  end.
Proof. vm_compute. reflexivity. Qed.
