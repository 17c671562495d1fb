(** * Property C67: the reported number of inliers in double arithmetic *)
From Coq Require Import ZArith List Permutation QArith Qround.
From Verif Require Import Prelude Num Clique Weights TextSpec WeightSpec Keys KMap Geometry Factors Pcm Solver WeightProofs.
Import ListNotations.
Local Open Scope nat_scope.

(** However Eigen orders the additions: if all weights are between zero and one, and those of the [k] known
    inliers are one, the conversion to [size_t] is defined, the subtraction does not wrap, and the count is
    at least the number of other weights equal to one and at most the number of those not zero. *)
Theorem C67_count_in_doubles : forall ws d k,
  Forall weight ws -> (Z.of_nat (length ws) < 2 ^ 53)%Z -> sum_of ws d ->
  k <= length ws -> (forall w, In w (firstn k ws) -> is_one w = true) ->
  exists n, counted d k = Some n /\ (Z.of_nat (ones_of (skipn k ws)) <= n <= Z.of_nat (some_of (skipn k ws)))%Z.
Proof. exact c67_counted. Qed.
Print Assumptions C67_count_in_doubles.

(** If GNC decided on zero or one everywhere, rounding and order play no role. *)
Theorem C67_binary_exact : forall ws d k,
  Forall weight ws -> (Z.of_nat (length ws) < 2 ^ 53)%Z -> sum_of ws d ->
  k <= length ws -> (forall w, In w (firstn k ws) -> is_one w = true) ->
  (forall w, In w ws -> is_one w = true \/ is_some w = false) ->
  counted d k = Some (Z.of_nat (ones_of (skipn k ws))).
Proof. exact c67_binary. Qed.
Print Assumptions C67_binary_exact.

(** Then the count of the solver model, whose weights are rationals, is the one in doubles. *)
Theorem C67_model_agrees : forall ws w d k,
  Forall2 same_value ws w -> Forall weight ws -> (Z.of_nat (length ws) < 2 ^ 53)%Z -> sum_of ws d ->
  k <= length ws -> (forall x, In x (firstn k ws) -> is_one x = true) ->
  (forall x, In x ws -> is_one x = true \/ is_some x = false) ->
  counted d k = Some (inlier_count w k).
Proof. exact c67_model. Qed.
Print Assumptions C67_model_agrees.

(** A weight that is not a number makes the conversion undefined, in any order. *)
Theorem C67_nan_undefined : forall ws d, In S754_nan ws -> sum_of ws d -> to_size_t d = None.
Proof. exact c67_nan. Qed.
Print Assumptions C67_nan_undefined.

(** One known inlier and weights 0.2, 0.4, 0.4: one order of the additions counts one inlier, another none. *)
Definition in_turn (a b c d : double) : adds := Add (Add (Add (Leaf a) (Leaf b)) (Leaf c)) (Leaf d).
Definition four : list double := [dofZ 1; dlit 2 10; dlit 4 10; dlit 4 10].
Lemma four_weights : Forall weight four.
Proof.
  repeat constructor; (eexists; split; [vm_compute; reflexivity|]); split; vm_compute; discriminate.
Qed.
Theorem C67_order_matters_refuted : exists ws d1 d2,
  Forall weight ws /\ (forall w, In w (firstn 1 ws) -> is_one w = true) /\ sum_of ws d1 /\ sum_of ws d2 /\
  counted d1 1 = Some 1%Z /\ counted d2 1 = Some 0%Z.
Proof.
  exists four, (added (in_turn (dofZ 1) (dlit 2 10) (dlit 4 10) (dlit 4 10))), (added (in_turn (dofZ 1) (dlit 4 10) (dlit 4 10) (dlit 2 10))).
  split; [exact four_weights|]. split; [intros w [<-|[]]; vm_compute; reflexivity|].
  split; [exists (in_turn (dofZ 1) (dlit 2 10) (dlit 4 10) (dlit 4 10)), 0; split; [apply Permutation_refl|reflexivity]|].
  split.
  - exists (in_turn (dofZ 1) (dlit 4 10) (dlit 4 10) (dlit 2 10)), 0. split; [|reflexivity].
    unfold four. cbn [leaves in_turn app repeat]. apply perm_skip. apply Permutation_sym, (Permutation_cons_append [_; _]).
  - split; vm_compute; reflexivity.
Qed.
Print Assumptions C67_order_matters_refuted.

(** Hypotheses met: two known inliers, one closure kept, one dropped, added in two lanes that start from zero. *)
Definition two_lanes (a b c d : double) : adds := Add (Add (Add (Leaf dzero) (Leaf a)) (Leaf c)) (Add (Add (Leaf dzero) (Leaf b)) (Leaf d)).
Example C67_example :
  let ws := [dofZ 1; dofZ 1; dofZ 1; dzero] in
  Forall weight ws /\ sum_of ws (added (two_lanes (dofZ 1) (dofZ 1) (dofZ 1) dzero)) /\
  Forall2 same_value ws [1; 1; 1; 0]%Q /\
  counted (added (two_lanes (dofZ 1) (dofZ 1) (dofZ 1) dzero)) 2 = Some 1%Z /\
  counted (added (two_lanes (dofZ 1) (dofZ 1) (dofZ 1) S754_nan)) 2 = None /\
  (* weights that add up to less than the known inliers wrap around *)
  counted (added (two_lanes (dofZ 1) dzero dzero dzero)) 2 = Some (2 ^ 64 - 1)%Z.
Proof.
  split.
  { repeat constructor; (eexists; split; [vm_compute; reflexivity|]); split; vm_compute; discriminate. }
  split.
  { exists (two_lanes (dofZ 1) (dofZ 1) (dofZ 1) dzero), 2. split; [|reflexivity]. cbn [two_lanes leaves app repeat].
    apply Permutation_sym. apply (Permutation_cons_app [dzero] [dofZ 1; dzero; dofZ 1; dzero]). cbn [app].
    apply (Permutation_cons_app [dzero] [dzero; dofZ 1; dzero]). cbn [app].
    apply (Permutation_cons_app [dzero; dzero] [dzero]). cbn [app]. apply Permutation_refl. }
  split; [repeat constructor; (eexists; split; [vm_compute; reflexivity|]); vm_compute; reflexivity|].
  repeat split; vm_compute; reflexivity.
Qed.
