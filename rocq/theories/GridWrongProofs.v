(** * Wrong measurements among true ones, without rounding or on a grid: exactly these are left out *)
From Coq Require Import ZArith Bool List Lia Permutation.
From Verif Require Import Prelude Num Keys KMap UMap Geometry Factors Clique Pcm Params Solver PcmSpec HistSpec StoreSpec RemoveSpec ApartSpec IncSpec HeuSpec ExactSpec
  PcmProofs PcmInv PcmStore SolverProofs HistProofs StoreProofs TrajProofs TrajRel AlgProofs ItemProofs ApartProofs ApartMore NanProofs OutlierSpec GroupSpec GroupProofs OutlierProofs LatticeSpec LatticeProofs LatticeHist
  TrueSpec TrueAny TrueProofs WholeSpec WholeAny WrongSpec WrongAny GridWrongSpec ManySpec ManyProofs.
Set Implicit Arguments.
Local Open Scope nat_scope.

Section Wrong.
Variable G : geom.
Variable L : lattice G.
Variable X : key -> la_t L.
Variable F : N -> la_t L.
Variable pp : pcm_params.
Notation O := (node_ops G pp).
Variable C : config.
Variable W : soracles O.
Variable first : N -> key.
Variable reads : bf O -> la_t L.
Variable wrong : bf O -> bool.
Notation op := (op O).
Notation bf := (bf O).
Infix "@" := (la_comp L) (at level 40, left associativity).
Notation any := (fun _ _ : bf => true).

Lemma closure_in id (h : list op) b : In b (closures_in C id h) -> exists h1 o h2, h = h1 ++ o :: h2 /\ In b (candidates C o) /\ closure C id b = true.
Proof.
  intro H. apply filter_In in H. destruct H as [H K]. apply in_flat_map in H. destruct H as (o & Ho & H). apply in_split in Ho. destruct Ho as (h1 & h2 & E). exists h1, o, h2. auto.
Qed.
Lemma sighting_in l (h : list op) b : In b (sightings_in C l h) -> exists h1 o h2, h = h1 ++ o :: h2 /\ In b (all_betweens o) /\ sees C l b = true.
Proof.
  intro H. apply filter_In in H. destruct H as [H K]. apply in_flat_map in H. destruct H as (o & Ho & H). apply in_split in Ho. destruct Ho as (h1 & h2 & E). exists h1, o, h2.
  split; [exact E|]. split; [|exact K]. unfold all_betweens. destruct (call_of o) as [[fs vs]|]; [|exact H]. apply filter_In in H. exact (proj1 H).
Qed.
Lemma too_large_sym e n (f1 f2 : bf) : too_large L e n f1 f2 -> too_large L e n f2 f1.
Proof. intros H p Hp. rewrite andb_comm. exact (H p Hp). Qed.

Lemma some_many id h : some_closures L X C first reads wrong id h -> many_closures L X C first reads wrong any id h.
Proof.
  intros (A & B & D). split; [exact A|]. split; [|apply mostly_outnumbered; exact D].
  intros f1 f2 I1 I2 W2 [W1|Q]; [|discriminate Q]. destruct (closure_in _ _ _ I1) as (h1 & o & h2 & E & Hb & K).
  pose proof (proj2 (proj2 (proj2 (proj2 (proj1 (A _ _ _ _ E Hb K))))) W1) as L1. destruct (B f1 f2 I1 I2 W1 W2) as [B1 B2]. split.
  - intros e z EZ EE. apply B1. rewrite EE, L1. exact EZ.
  - intros e z EZ EE. rewrite L1 in EE. apply too_large_sym.
    assert (W2' : way_around f2 f1 = way_around f1 f2) by (unfold way_around, apart; clear; lia). rewrite W2'. exact (B2 e z EZ EE).
Qed.
Lemma some_many_lm c l h : some_sightings L X C first reads wrong c l h -> many_sightings L X C first reads wrong any c l h.
Proof.
  intros (A & B). split; [exact A|].
  intros f1 f2 I1 I2 W2 [W1|Q]; [|discriminate Q]. destruct (sighting_in _ _ _ I1) as (h1 & o & h2 & E & Hb & K).
  destruct (A _ _ _ _ E Hb K) as (R1 & T1 & _). pose proof (eq_trans (proj2 (proj2 (proj2 (proj2 R1))) W1) (f_equal X T1)) as L1. destruct (B f1 f2 I1 I2 W1 W2) as [B1 B2]. split.
  - intros e EE. apply B1. rewrite EE. exact L1.
  - intros e EE. rewrite L1 in EE. apply too_large_sym.
    assert (W2' : way_around_lm f2 f1 = way_around_lm f1 f2) by (unfold way_around_lm, apart; clear; lia). rewrite W2'. exact (B2 e EE).
Qed.
Lemma some_many_history h : some_history L X F C W first reads wrong h -> many_history L X F C W first reads wrong any h.
Proof.
  intros H b Hb. destruct (H b Hb) as (A & B & D). split; [exact A|]. split.
  - intro E. destruct (B E) as (id & B1 & B2 & B3 & B4 & B5). exists id. split; [exact B1|]. split; [exact B2|]. split; [exact B3|]. split; [apply some_many; exact B4|exact B5].
  - intros E l. destruct (D E) as (D1 & c & D2 & D3 & D4). split; [exact D1|]. exists c. split; [exact D2|]. split; [apply some_many_lm; exact D3|apply mostly_outnumbered; exact D4].
Qed.
End Wrong.

Section Corrected.
Variable O : tops.
Variable C : config.
Variable wrong : bf O -> bool.
Notation op := (op O).

Lemma corrected_call (o : op) : call_of (corrected C wrong o) = match call_of o with Some (fs, vs) => Some (filter (fun f => negb (is_wrong C wrong vs f)) fs, vs) | None => None end.
Proof. destruct o; reflexivity. Qed.
Lemma corrected_factors vs (fs : list (option (factor O))) :
  Permutation (flat_map (fun f => match f with Some f => [f] | None => [] end) (filter (fun f => negb (is_wrong C wrong vs f)) fs) ++
    map FBetween (filter wrong (filter (fun b => negb (sp_odometry (c_special C) vs b)) (betweens fs))))
    (flat_map (fun f => match f with Some f => [f] | None => [] end) fs).
Proof.
  induction fs as [|f fs IH]; [apply perm_nil|]. destruct f as [f|]; [|exact IH]. destruct f as [b| | |]; try (apply perm_skip; exact IH).
  change (betweens (Some (FBetween b) :: fs)) with (b :: betweens fs). cbn [filter is_wrong].
  destruct (sp_odometry (c_special C) vs b) eqn:E; cbn [negb andb filter].
  - cbn [flat_map app]. apply perm_skip. exact IH.
  - destruct (wrong b) eqn:Wb; cbn [negb flat_map app map].
    + eapply perm_trans; [apply Permutation_sym, Permutation_middle|]. apply perm_skip. exact IH.
    + apply perm_skip. exact IH.
Qed.
Lemma given_corrected (h : list op) : Permutation (given (map (corrected C wrong) h) ++ map FBetween (filter wrong (non_odometry C h))) (given h).
Proof.
  induction h as [|o h IH]; [apply perm_nil|]. unfold given, non_odometry in *. cbn [map flat_map]. rewrite filter_app, map_app, corrected_call.
  destruct (call_of o) as [[fs vs]|]; [|exact IH].
  eapply perm_trans; [|apply Permutation_app; [apply (corrected_factors vs fs)|exact IH]].
  rewrite <- !app_assoc. apply Permutation_app_head. rewrite !app_assoc. apply Permutation_app_tail, Permutation_app_comm.
Qed.
Lemma corrected_only (h : list op) : only_calls h -> only_calls (map (corrected C wrong) h).
Proof. intros H o Ho. apply in_map_iff in Ho. destruct Ho as (o' & <- & Ho). specialize (H _ Ho). rewrite corrected_call. destruct (call_of o') as [[fs vs]|]; [discriminate|exact H]. Qed.
Lemma corrected_not_null (h : list op) : (forall o fs vs, In o h -> call_of o = Some (fs, vs) -> ~ In None fs) ->
  forall o fs vs, In o (map (corrected C wrong) h) -> call_of o = Some (fs, vs) -> ~ In None fs.
Proof.
  intros H o fs vs Ho E. apply in_map_iff in Ho. destruct Ho as (o' & <- & Ho). rewrite corrected_call in E. destruct (call_of o') as [[fs' vs']|] eqn:E'; [|discriminate].
  injection E as <- _. intro I. apply filter_In in I. exact (H _ _ _ Ho E' (proj1 I)).
Qed.
End Corrected.
