(** * Histories without a wrong measurement: nothing is left out *)
From Coq Require Import ZArith Bool List Lia Permutation.
From Verif Require Import Prelude Num Keys KMap UMap Geometry Factors Clique Pcm Params Solver PcmSpec HistSpec StoreSpec RemoveSpec ApartSpec IncSpec
  PcmProofs PcmInv PcmStore SolverProofs HistProofs GraphProofs StoreProofs AcceptProofs TrajProofs AlgProofs PlainProofs ItemProofs ApartProofs ApartMore NanProofs OutlierSpec LatticeSpec LatticeProofs LatticeHist
  TrueSpec TrueProofs WholeSpec TrueAny WholeAny.
Set Implicit Arguments.
Local Open Scope nat_scope.

(** ** Lists *)
Theorem whole_graph G (L : lattice G) (LW : laws L) (X : key -> la_t L) (F : N -> la_t L) : rigid_world L X F ->
  forall pp C (W : soracles (node_ops G pp)) first h s rs, run C W h (solver_init true) = Ok s rs ->
  only_calls h -> true_history L X F C W first h ->
  dpositive (pp_dist_trans pp) -> dpositive (pp_dist_rot pp) -> c_loop_check C = true -> small C (length (sp_stored C W h)) ->
  Permutation (s_nfg s) (map Some (given h)).
Proof.
  intros RW pp C W first h s rs R OC TH Pt Pr HL SM. apply (@any_graph _ C W h s rs R OC).
  - intros b Hb. apply TH. exact Hb.
  - intros x Hx E. destruct (@TH _ Hx) as (_ & HP & _). destruct (HP E) as (id & ID & D1 & D2 & TC & OD). exists id. split; [exact ID|].
    apply (@closures_all G L LW X F RW pp C W first h s rs R id D1 D2 TC OD Pt Pr HL (calls_no_removal OC) SM).
    unfold pair_ignored. rewrite !calls_not_ignored by auto. auto.
  - intros x Hx E. destruct (@TH _ Hx) as (_ & _ & HP). destruct (HP E) as (IN & c & DC & TS). split; [exact IN|].
    split; [exact (@sightings_all G L LW X F RW pp C W first h s rs R c _ DC TS Pt Pr)|].
    intros P o T b EH IB SE. unfold sees in SE. apply andb_true_iff in SE. destruct SE as [EL EK]. destruct (@TS _ _ _ _ EH IB EL EK) as (_ & _ & T3 & T4). split; [exact T3|].
    assert (EH' : h = (P ++ [o]) ++ T) by (rewrite EH, <- app_assoc; auto).
    exact (proj1 (proj2 (proj2 (@been_place G L LW X F RW pp C W first h s rs R c (P ++ [o]) T (b_from b) DC EH' T4)))).
Qed.
