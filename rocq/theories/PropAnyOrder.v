(** * Property C90: what is kept does not depend on the order of arrival *)
From Coq Require Import ZArith Bool List Lia Permutation SpecFloat.
From Verif Require Import Prelude Num Keys KMap UMap Geometry Factors Clique Pcm Params Solver Lie Floats PcmSpec HistSpec StoreSpec RemoveSpec ApartSpec IncSpec
  PcmProofs PcmInv PcmStore TrajProofs AlgProofs UpdateProofs Grid Scenes OutlierSpec LatticeSpec LatticeProofs LatticeHist PropLattice PlainProofs TrueSpec TrueAny TrueProofs PropTrue WholeSpec WholeAny PropWhole
  WrongSpec WrongAny GridWrongSpec ManySpec ManyProofs GridWrongProofs PropGridWrong NoisySpec NoisyProofs PropMany PropNoisy.
Import TrueSpec.
Set Implicit Arguments.
Local Open Scope nat_scope.

(** Two solvers, perhaps in different modes, that are given the same measurements in any orders and batches. *)
Theorem C90_any_order : forall G (L : lattice G), unrounded_poses L -> forall X F F', rigid_world L X F -> rigid_world L X F' ->
  forall pp C C' (W W' : soracles (node_ops G pp)) first reads wrong friends, (forall b, friends b b = true) ->
  forall h s rs, run C W h (solver_init true) = Ok s rs -> only_calls h -> noisy_history L X F C W first reads wrong friends h -> c_loop_check C = true -> small C (length (sp_stored C W h)) ->
  forall h' s' rs', run C' W' h' (solver_init true) = Ok s' rs' -> only_calls h' -> noisy_history L X F' C' W' first reads wrong friends h' -> c_loop_check C' = true -> small C' (length (sp_stored C' W' h')) ->
  Permutation (given h) (given h') -> Permutation (non_odometry C h) (non_odometry C' h') -> Permutation (s_nfg s) (s_nfg s').
Proof.
  intros G L U X F F' RW RW' pp C C' W W' first reads wrong friends FR h s rs R OC NH HL SM h' s' rs' R' OC' NH' HL' SM' PG PN.
  pose proof (@C89_left_out G L U X F RW pp C W first reads wrong friends FR h s rs R OC NH HL SM) as Q.
  pose proof (@C89_left_out G L U X F' RW' pp C' W' first reads wrong friends FR h' s' rs' R' OC' NH' HL' SM') as Q'.
  pose proof (Permutation_map Some (Permutation_map (@FBetween _) (filter_perm wrong PN))) as K.
  refine (Permutation_app_inv_r (map Some (map FBetween (filter wrong (non_odometry C h)))) _ _ _).
  eapply perm_trans; [exact Q|]. eapply perm_trans; [apply Permutation_map, PG|]. eapply perm_trans; [apply Permutation_sym, Q'|].
  apply Permutation_app_head, Permutation_sym. exact K.
Qed.
Print Assumptions C90_any_order.

(** The same calls in any order, if the same factors are odometry to both: an instance. *)
Theorem C90_calls_in_any_order : forall G (L : lattice G), unrounded_poses L -> forall X F, rigid_world L X F ->
  forall pp C (W W' : soracles (node_ops G pp)) first reads wrong friends, (forall b, friends b b = true) ->
  forall h s rs, run C W h (solver_init true) = Ok s rs -> only_calls h -> noisy_history L X F C W first reads wrong friends h -> c_loop_check C = true -> small C (length (sp_stored C W h)) ->
  forall h' s' rs', run C W' h' (solver_init true) = Ok s' rs' -> only_calls h' -> noisy_history L X F C W' first reads wrong friends h' -> small C (length (sp_stored C W' h')) ->
  Permutation h h' -> Permutation (s_nfg s) (s_nfg s').
Proof.
  intros G L U X F RW pp C W W' first reads wrong friends FR h s rs R OC NH HL SM h' s' rs' R' OC' NH' SM' P.
  apply (@C90_any_order G L U X F F RW RW pp C C W W' first reads wrong friends FR h s rs R OC NH HL SM h' s' rs' R' OC' NH' HL SM').
  - apply Permutation_flat_map. exact P.
  - apply Permutation_flat_map. exact P.
Qed.
Print Assumptions C90_calls_in_any_order.

(** ** Example: the history of C89 with the right measurements first *)
Definition after_bo : list (op Of_q) := map (fun i => nth i after_bn_q see_l_q) [5; 6; 8; 0; 7; 1; 9; 3; 2; 4; 10].
Definition after_ao : list (op Of_q) := [fodo_q 1; fodo_q 2; start_b_q] ++ after_bo.
Definition worldo : list (op Of_q) := start_a_q :: after_ao.
Lemma indices : Permutation (seq 0 11) [5; 6; 8; 0; 7; 1; 9; 3; 2; 4; 10].
Proof.
  apply NoDup_Permutation_bis; [apply seq_NoDup|reflexivity|]. intros x Hx. apply in_seq in Hx. destruct Hx as [_ Hx]. cbn in Hx. do 11 (destruct x as [|x]; [cbn; auto 20|]). lia.
Qed.
Lemma worldo_permuted : Permutation worldn worldo.
Proof. apply perm_skip, perm_skip, perm_skip, perm_skip. exact (Permutation_map (fun i => nth i after_bn_q see_l_q) indices). Qed.
Lemma worldo_a : drives_known (lat2 2) Xf Ff C1 Wf_q first2 97%N worldo.
Proof.
  apply knownw_q; [|vm_compute; reflexivity]. apply drivesb_ok_q; [|vm_compute; reflexivity].
  eapply (@starts_same_q 97%N [] start_a_q after_ao) with (x0 := shown (Xf (ka 0))); [vm_compute; reflexivity|reflexivity|vm_compute; reflexivity|vm_compute; reflexivity|vm_compute; reflexivity|reflexivity|apply showsb_ok; vm_compute; reflexivity].
Qed.
Lemma worldo_b : drives_known (lat2 2) Xf Ff C1 Wf_q first2 98%N worldo.
Proof.
  apply knownw_q; [|vm_compute; reflexivity]. apply drivesb_ok_q; [|vm_compute; reflexivity].
  eapply (@starts_same_q 98%N before_b_q start_b_q after_bo) with (x0 := shown (Xf (kb 0))); [vm_compute; reflexivity|reflexivity|vm_compute; reflexivity|vm_compute; reflexivity|vm_compute; reflexivity|reflexivity|apply showsb_ok; vm_compute; reflexivity].
Qed.
Lemma kinds_o : forallb kindsb_q (non_odometry C1 worldo) = true.
Proof. vm_compute. reflexivity. Qed.
Lemma introduced_o : introduced C1 (kl 0) worldo.
Proof.
  exists (before_b_q ++ start_b_q :: firstn 3 after_bo), see_l_q, (skipn 4 after_bo). eexists.
  split; [reflexivity|]. split; [intros o Ho; repeat (destruct Ho as [<-|Ho]; [reflexivity|]); destruct Ho|]. split; [reflexivity|]. split; [vm_compute; reflexivity|].
  intros o Ho. repeat (destruct Ho as [<-|Ho]; [reflexivity|]). destruct Ho.
Qed.
Example C90_meets : Permutation worldn worldo /\ unrounded_poses (lat2 2) /\ rigid_world (lat2 2) Xf Ff /\ (forall b, friendsm_q b b = true) /\ only_calls worldo /\
  noisy_history (pp := pf_q) (lat2 2) Xf Ff C1 Wf_q first2 readsw_q wrongw3_q friendsm_q worldo /\ c_loop_check C1 = true /\ small C1 (length (sp_stored C1 Wf_q worldo)) .
Proof.
  split; [exact worldo_permuted|].
  destruct C82_meets as (M1 & M2 & _). split; [exact (UR_grid M1)|]. split; [exact M2|]. split; [exact friendsm_refl_q|].
  split; [intros o Ho; repeat (destruct Ho as [<-|Ho]; [discriminate|]); destruct Ho|].
  split; [|split; [reflexivity|intros _; vm_compute; reflexivity]].
  intros b Hb. pose proof (proj1 (forallb_forall _ _) kinds_o b Hb) as K. unfold kindsb_q in K. apply andb_true_iff in K. destruct K as [K1 K2].
  split; [apply N.eqb_neq, negb_true_iff; exact K1|]. split; intro E.
  - assert (E' : sp_lmk (O := Of_q) C1 b = false) by exact E. rewrite E' in K2. apply orb_true_iff in K2. destruct K2 as [K2|K2]; [exists (97, 98)%N|exists (97, 97)%N]; (split; [exact K2|]).
    + split; [exact worldo_a|]. split; [exact worldo_b|]. apply closedn_ok_q; vm_compute; reflexivity.
    + split; [exact worldo_a|]. split; [exact worldo_a|]. apply closedn_ok_q; vm_compute; reflexivity.
  - assert (E' : sp_lmk (O := Of_q) C1 b = true) by exact E. rewrite E' in K2. apply N.eqb_eq in K2. cbv zeta. assert (K3 : sp_landmark_key (c_special C1) b = kl 0) by exact K2. rewrite K3. split; [exact introduced_o|].
    exists 97%N. split; [exact worldo_a|]. split; [apply seenn_ok_q; vm_compute; reflexivity|]. apply outnumberedb_ok_q. vm_compute. reflexivity.
Qed.
Example C90_example : kept_f_q worldo = Some [[ka 0; kb 0]; [ka 2; kb 2]; [ka 3; kb 1]; [ka 0; ka 4]; [ka 2; kl 0]; [ka 3; kl 0]].
Proof. vm_compute. reflexivity. Qed.

(** Without enough right ones the order matters: of two closures that clash the earlier one is kept. *)
Definition first_lc (h : list (op Of_q)) : option bool :=
  match run C1 Wf_q h (solver_init true) with
  | Ok s _ => Some (existsb (fun f => match f with Some (FBetween b) => (b_from b =? ka 0)%N && (b_to b =? kb 0)%N | _ => false end) (s_nfg s))
  | _ => None
  end.
Lemma existsb_permuted {A} (f : A -> bool) l l' : Permutation l l' -> existsb f l = existsb f l'.
Proof. intro P. induction P; cbn; auto. - rewrite IHP. reflexivity. - destruct (f x), (f y); reflexivity. - congruence. Qed.
Lemma differ (h h' : list (op Of_q)) : first_lc h = Some true -> first_lc h' = Some false -> exists s rs s' rs',
  run C1 Wf_q h (solver_init true) = Ok s rs /\ run C1 Wf_q h' (solver_init true) = Ok s' rs' /\ ~ Permutation (s_nfg s) (s_nfg s').
Proof.
  unfold first_lc. destruct (run C1 Wf_q h (solver_init true)) as [s rs| |]; try discriminate. intro E.
  destruct (run C1 Wf_q h' (solver_init true)) as [s' rs'| |]; try discriminate. intro E'.
  exists s, rs, s', rs'. split; [reflexivity|]. split; [reflexivity|]. intro P. rewrite (existsb_permuted _ P) in E. congruence.
Qed.
Definition tie (x y : op Of_q) : list (op Of_q) := (before_b_q ++ [start_b_q]) ++ [x; y].
Lemma tie_calls x y : call_of x <> None -> call_of y <> None -> only_calls (tie x y).
Proof. intros Hx Hy o Ho. repeat (destruct Ho as [<-|Ho]; [first [exact Hx|exact Hy|discriminate]|]). destruct Ho. Qed.
Theorem C90_ties_refuted : exists h h' : list (op Of_q), only_calls h /\ Permutation h h' /\ exists s rs s' rs',
  run C1 Wf_q h (solver_init true) = Ok s rs /\ run C1 Wf_q h' (solver_init true) = Ok s' rs' /\ ~ Permutation (s_nfg s) (s_nfg s').
Proof.
  exists (tie (lc_q (ka 0) (kb 0) 1 0 1 0) (lc_q (ka 1) (kb 0) 1 0 (-90) 0)), (tie (lc_q (ka 1) (kb 0) 1 0 (-90) 0) (lc_q (ka 0) (kb 0) 1 0 1 0)).
  split; [apply tie_calls; discriminate|]. split; [apply Permutation_app_head, perm_swap|]. apply differ; vm_compute; reflexivity.
Qed.
Print Assumptions C90_ties_refuted.
