(** * Wrong measurements among exact ones *)
From Verif Require Import Prelude Num Keys KMap Geometry Factors PcmSpec.
Local Open Scope nat_scope.

(** Any element of a list and any at the same place or later. *)
Definition in_order {A} (M : list A) (R : A -> A -> Prop) : Prop :=
  forall i j x y, i <= j -> nth_error M i = Some x -> nth_error M j = Some y -> R x y.

Section Spec.
Variable G : geom.
Variable X : key -> g_pose G.         (* true poses *)
Variable pp : pcm_params.
Notation bn := (bfactor (g_pose G) (g_cov G)).
Notation refs := (N -> key -> pnode G).

(** What the measurement is off by; and the same seen from another pose than its far end. *)
Definition true_step (f : bn) : g_pose G := g_between G (X (b_from f)) (X (b_to f)).
Definition off (f : bn) : g_pose G := g_comp G (g_inv G (b_meas f)) (true_step f).
Definition moved_by (c e : g_pose G) : g_pose G := g_comp G (g_comp G (g_inv G c) e) c.
Definition off_from (k : key) (f : bn) : g_pose G := moved_by (g_between G (X (b_to f)) (X k)) (g_inv G (off f)).

(** A measurement with a covariance that says something about rotation. *)
Definition turns (f : bn) : bool := match b_noise f with Gauss c => negb (g_rot_nan G c) | NonGauss => false end.

(** Small per node: the thresholds of the simple check. *)
Definition small_error (e : g_pose G) (nodes : Z) (rot : bool) : bool :=
  dlt (ddiv (dsqrt (g_log_tsq G e)) (dofZ nodes)) (pp_dist_trans pp) &&
  dlt (if rot then ddiv (dsqrt (g_log_rsq G e)) (dofZ nodes) else dzero) (pp_dist_rot pp).

(** Nodes on the way around two closures, or two sightings of a landmark; whether all of it says
    something about rotation. *)
Definition steps (ref : refs) (a b : key) : Z := Z.abs (pn_node (ref (chr b) b) - pn_node (ref (chr a) a)).
Definition round (ref : refs) (f1 f2 : bn) : Z := (steps ref (b_from f1) (b_from f2) + steps ref (b_to f1) (b_to f2) + 2)%Z.
Definition round_lm (ref : refs) (f1 f2 : bn) : Z := (steps ref (b_from f1) (b_from f2) + 2)%Z.
Definition ref_turns (ref : refs) (ks : list key) : bool := forallb (fun k => pn_rot (ref (chr k) k)) ks.
Definition round_turns (ref : refs) (f1 f2 : bn) : bool :=
  turns f1 && turns f2 && ref_turns ref [b_from f1; b_from f2; b_to f1; b_to f2].
Definition round_turns_lm (ref : refs) (f1 f2 : bn) : bool := turns f1 && turns f2 && ref_turns ref [b_from f1; b_from f2].

(** Closures [L] with the reference poses they were stored with: same direction, Gaussian, and the
    odometry of the robots without error. *)
Variable F : N -> g_pose G.
Definition seen_right (ref : refs) (k : key) : Prop := pn_pose (ref (chr k) k) = g_comp G (F (chr k)) (X k).
Definition gaussian (f : bn) : Prop := exists c, b_noise f = Gauss c.
Definition comparable (L : list (bn * refs)) : Prop :=
  (forall x, In x L -> gaussian (fst x)) /\
  (forall x y, In x L -> In y L -> chr (b_from (fst x)) = chr (b_from (fst y)) /\ chr (b_to (fst x)) = chr (b_to (fst y))) /\
  in_order L (fun x y => seen_right (snd y) (b_from (fst x)) /\ seen_right (snd y) (b_to (fst x)) /\ (round (snd y) (fst x) (fst y) < 2 ^ 53)%Z).
(** Sightings of one landmark: no odometry at the far end. *)
Definition comparable_lm (L : list (bn * refs)) : Prop :=
  (forall x, In x L -> gaussian (fst x)) /\
  (forall x y, In x L -> In y L -> chr (b_from (fst x)) = chr (b_from (fst y)) /\ b_to (fst x) = b_to (fst y)) /\
  in_order L (fun x y => seen_right (snd y) (b_from (fst x)) /\ (round_lm (snd y) (fst x) (fst y) < 2 ^ 53)%Z).

(** The good ones are exact; the others are off by more than the thresholds allow. *)
Definition exact_goods (L : list (bn * refs)) (good : nat -> bool) : Prop :=
  forall i x, nth_error L i = Some x -> good i = true -> b_meas (fst x) = true_step (fst x).
Definition off_others (L : list (bn * refs)) (good : nat -> bool) : Prop :=
  forall i j x y, nth_error L i = Some x -> nth_error L j = Some y -> i < j ->
    (good i = true -> good j = false -> small_error (off (fst y)) (round (snd y) (fst x) (fst y)) (round_turns (snd y) (fst x) (fst y)) = false) /\
    (good i = false -> good j = true -> small_error (off_from (b_to (fst y)) (fst x)) (round (snd y) (fst x) (fst y)) (round_turns (snd y) (fst x) (fst y)) = false).
Definition off_others_lm (L : list (bn * refs)) (good : nat -> bool) : Prop :=
  forall i j x y, nth_error L i = Some x -> nth_error L j = Some y -> i < j ->
    (good i = true -> good j = false -> small_error (off (fst y)) (round_lm (snd y) (fst x) (fst y)) (round_turns_lm (snd y) (fst x) (fst y)) = false) /\
    (good i = false -> good j = true -> small_error (g_inv G (off (fst x))) (round_lm (snd y) (fst x) (fst y)) (round_turns_lm (snd y) (fst x) (fst y)) = false).

Definition most (n : nat) (good : nat -> bool) : Prop := n < 2 * length (filter good (seq 0 n)).
End Spec.
