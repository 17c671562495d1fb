(** * Right-angled worlds on a grid, seen in double precision *)
From Coq Require Import ZArith List.
From Verif Require Import Prelude Num Keys KMap Geometry Factors Lie Floats PcmSpec OutlierSpec.
Set Implicit Arguments.
Local Open Scope Z_scope.

(** Integers. *)
Definition zs : scal := @Scal Z 0 1 Z.add Z.mul Z.sub.

(** [z / 2^k] as a double, correctly rounded; up to the sign of zero. *)
Definition num (k z : Z) : double := binary_normalize dprec demax z (- k) false.
Definition is_num (k z : Z) (x : double) : Prop := x = num k z \/ z = 0 /\ exists s, x = S754_zero s.
Definition lim : Z := 2 ^ 53.
Definition scale (k : Z) : Prop := 0 <= k <= 1000.

(** Exact poses that poses of [G] may show: rotations by right angles, and positions that are integers
    in a unit of [2^-k]. *)
Record lattice (G : geom) := Lattice {
  la_t : Type;
  la_comp : la_t -> la_t -> la_t;
  la_rigid : la_t -> Prop;
  la_within : Z -> la_t -> Prop;
  la_shows : g_pose G -> la_t -> Prop }.

Definition shows2 (k : Z) (p : se2 ds) (z : se2 zs) : Prop :=
  is_num 0 (e_c z) (e_c p) /\ is_num 0 (e_s z) (e_s p) /\ is_num k (e_x z) (e_x p) /\ is_num k (e_y z) (e_y p).
Definition shows3 (k : Z) (p : se3 ds) (z : se3 zs) : Prop :=
  (forall i j, (i < 3)%nat -> (j < 3)%nat -> is_num 0 (get (e_R z) i j) (get (e_R p) i j)) /\
  (forall i, (i < 3)%nat -> is_num k (at_ (e_t z) i) (at_ (e_t p) i)).
Definition lat2 (k : Z) : lattice fgeom2 :=
  @Lattice fgeom2 (se2 zs) (@se2_comp zs) (fun z => e_c z * e_c z + e_s z * e_s z = 1)
    (fun B z => Z.abs (e_x z) <= B /\ Z.abs (e_y z) <= B) (shows2 k).
Definition lat3 (k : Z) : lattice fgeom3 :=
  @Lattice fgeom3 (se3 zs) (@se3_comp zs) (fun z => mmul (e_R z) (mtr (e_R z)) = mone /\ mmul (mtr (e_R z)) (e_R z) = mone)
    (fun B z => forall i, (i < 3)%nat -> Z.abs (at_ (e_t z) i) <= B) (shows3 k).
Inductive right_angled : forall G, lattice G -> Prop :=
| RA2 k : scale k -> right_angled (lat2 k)
| RA3 k : scale k -> right_angled (lat3 k).

(** Farthest position and longest measurement. *)
Definition reach : Z := 2 ^ 47.

Section World.
Variable G : geom.
Variable L : lattice G.
Variable X : key -> la_t L.         (* true poses *)
Variable F : N -> la_t L.           (* frame of each robot's odometry *)
Notation bn := (bfactor (g_pose G) (g_cov G)).
Notation refs := (N -> key -> pnode G).

Definition rigid_world : Prop := (forall k, la_rigid L (X k)) /\ (forall c, la_rigid L (F c)).

(** The pose read off the robot's odometry is the true one seen from its frame. *)
Definition seen (k : key) : la_t L := la_comp L (F (chr k)) (X k).
Definition in_place (ref : refs) (k : key) : Prop :=
  la_shows L (pn_pose (ref (chr k) k)) (seen k) /\ la_within L reach (seen k).
(** The measurement is the true one. *)
Definition true_meas (f : bn) : Prop :=
  exists z, la_shows L (b_meas f) z /\ la_rigid L z /\ la_within L reach z /\ la_comp L (X (b_from f)) z = X (b_to f).
Definition with_cov (f : bn) : Prop := exists c, b_noise f = Gauss c.
Definition nodes (ref : refs) (a b : key) : Z := Z.abs (pn_node (ref (chr b) b) - pn_node (ref (chr a) a)).

(** Closures with the reference poses they were stored with; sightings of a landmark. *)
Definition all_true (M : list (bn * refs)) : Prop :=
  (forall x, In x M -> with_cov (fst x) /\ true_meas (fst x)) /\
  (forall x y, In x M -> In y M -> chr (b_from (fst x)) = chr (b_from (fst y)) /\ chr (b_to (fst x)) = chr (b_to (fst y))) /\
  in_order M (fun x y => in_place (snd y) (b_from (fst x)) /\ in_place (snd y) (b_to (fst x)) /\
     nodes (snd y) (b_from (fst x)) (b_from (fst y)) + nodes (snd y) (b_to (fst x)) (b_to (fst y)) + 2 < 2 ^ 53).
Definition all_true_lm (M : list (bn * refs)) : Prop :=
  (forall x, In x M -> with_cov (fst x) /\ true_meas (fst x)) /\
  (forall x y, In x M -> In y M -> chr (b_from (fst x)) = chr (b_from (fst y)) /\ b_to (fst x) = b_to (fst y)) /\
  in_order M (fun x y => in_place (snd y) (b_from (fst x)) /\ nodes (snd y) (b_from (fst x)) (b_from (fst y)) + 2 < 2 ^ 53).
End World.
