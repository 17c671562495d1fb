(** * What covariances and error norms should be

    Errors of poses to first order, written with dual numbers ([epsilon^2 = 0]), and random errors
    as finite distributions.  Nothing here refers to the library's code or to adjoint maps. *)
From Coq Require Import ZArith QArith Qcanon Bool List Lia.
From Verif Require Import Prelude Num Keys KMap Geometry Lie.
Set Implicit Arguments.
Local Open Scope nat_scope.

(** ** Dual numbers *)
Definition dual : scal :=
  @Scal (Qc * Qc) (Q2Qc 0, Q2Qc 0) (Q2Qc 1, Q2Qc 0)
    (fun x y => (fst x + fst y, snd x + snd y))%Qc
    (fun x y => (fst x * fst y, fst x * snd y + snd x * fst y))%Qc
    (fun x y => (fst x - fst y, snd x - snd y))%Qc.
Definition real (q : Qc) : dual := (q, Q2Qc 0).
Definition eps (q : Qc) : dual := (Q2Qc 0, q).

(** A pose without error. *)
Definition sharp2 (p : se2 qs) : se2 dual := SE2 (real (e_c p)) (real (e_s p)) (real (e_x p)) (real (e_y p)).
Definition sharp3 (p : se3 qs) : se3 dual :=
  SE3 (tab 3 (fun i j => real (get (e_R p) i j))) (vtab 3 (fun i => real (at_ (e_t p) i)) : cvec dual 3).

(** The motion with an infinitesimal tangent vector: [Pose2] orders it [(v_x, v_y, omega)], [Pose3]
    orders it [(omega, v)]. *)
Definition small2 (e : cvec qs 3) : se2 dual := SE2 (@k1 dual) (eps (at_ e 2)) (eps (at_ e 0)) (eps (at_ e 1)).
Definition small3 (e : cvec qs 6) : se3 dual :=
  SE3 (((@k1 dual, (eps (- at_ e 2)%Qc, (eps (at_ e 1), tt))),
        ((eps (at_ e 2), (@k1 dual, (eps (- at_ e 0)%Qc, tt))),
         ((eps (- at_ e 1)%Qc, (eps (at_ e 0), (@k1 dual, tt))), tt))) : mat dual 3)
      ((eps (at_ e 3), (eps (at_ e 4), (eps (at_ e 5), tt))) : cvec dual 3).

(** [q] is [p] with the error [e] (on the right, in the frame of [p]). *)
Definition off2 (p : se2 qs) (e : cvec qs 3) : se2 dual := se2_comp (sharp2 p) (small2 e).
Definition off3 (p : se3 qs) (e : cvec qs 6) : se3 dual := se3_comp (sharp3 p) (small3 e).

(** ** Random errors *)
Definition coord {n} (e : cvec qs n) (i : nat) : Qc := at_ e i.
Definition dist (A : Type) := list (Qc * A).
Definition mean {A} (f : A -> Qc) (d : dist A) : Qc := fold_right (fun wa s => fst wa * f (snd wa) + s)%Qc (Q2Qc 0) d.
(** Weights sum up to one, every component has mean zero. *)
Definition centred {n} (d : dist (cvec qs n)) : Prop :=
  mean (fun _ => Q2Qc 1) d = Q2Qc 1 /\ forall i, i < n -> mean (fun e => coord e i) d = Q2Qc 0.
(** [c] holds the second moments of [d]. *)
Definition covers {n} (c : mat xs n) (d : dist (cvec qs n)) : Prop :=
  forall i j, i < n -> j < n -> get c i j = Some (mean (fun e => coord e i * coord e j)%Qc d).
Definition independent {A B} (d : dist A) (d' : dist B) : dist (A * B) :=
  flat_map (fun wa => map (fun vb => ((fst wa * fst vb)%Qc, (snd wa, snd vb))) d') d.
Definition image {A B} (f : A -> B) (d : dist A) : dist B := map (fun wa => (fst wa, f (snd wa))) d.

(** ** Positive definite matrices *)
Definition finite {n} (c : mat xs n) : Prop := forall i j, i < n -> j < n -> get c i j <> None.
Definition symmetric {n} (c : mat xs n) : Prop := forall i j, i < n -> j < n -> get c i j = get c j i.
Definition num (x : xq) : Qc := match x with Some q => q | None => Q2Qc 0 end.
(** [u^T c u]. *)
Definition form {n} (c : mat xs n) (u : nat -> Qc) : Qc :=
  @ksum qs n (fun i => @ksum qs n (fun j => u i * num (get c i j) * u j)%Qc).
Definition psd {n} (c : mat xs n) : Prop := finite c /\ symmetric c /\ forall u, (Q2Qc 0 <= form c u)%Qc.
Definition pd {n} (c : mat xs n) : Prop :=
  finite c /\ symmetric c /\ forall u, (exists i, i < n /\ u i <> Q2Qc 0) -> (Q2Qc 0 < form c u)%Qc.

(** ** Translation and rotation *)

(** Component [i] of tangent vectors moves without turning; turns without moving. *)
Definition unit_vec (n i : nat) : cvec qs n := vtab n (fun j => if i =? j then Q2Qc 1 else Q2Qc 0).
Definition turns2 (i : nat) : Prop := e_c (small2 (unit_vec 3 i)) <> @k1 dual \/ e_s (small2 (unit_vec 3 i)) <> @k0 dual.
Definition turns3 (i : nat) : Prop := e_R (small3 (unit_vec 6 i)) <> mone.

(** ** Random poses *)

(** The possible poses of [D] are [p] with errors of mean zero whose second moments are [c]. *)
Definition random2 (p : se2 qs) (c : mat xs 3) (D : dist (se2 dual)) : Prop :=
  exists d, centred d /\ covers c d /\ D = image (off2 p) d.
Definition random3 (p : se3 qs) (c : mat xs 6) (D : dist (se3 dual)) : Prop :=
  exists d, centred d /\ covers c d /\ D = image (off3 p) d.
(** The results of [op] on independent arguments. *)
Definition both {A B C} (op : A -> B -> C) (D : dist A) (D' : dist B) : dist C :=
  image (fun p => op (fst p) (snd p)) (independent D D').

(** ** Logarithms and inverse matrices *)

(** Inverse matrices of positive definite matrices are right. *)
Definition inverts (mi : nat -> (nat -> nat -> xq) -> nat -> nat -> xq) : Prop :=
  forall n (A : nat -> nat -> xq), pd (@tab xs n A) ->
  exists B : mat qs n, (forall i j, i < n -> j < n -> mi n A i j = Some (get B i j)) /\
    mmul (@tab qs n (fun i j => num (A i j))) B = mone.

(** Several independent random motions one after the other. *)
Definition walk2 (Ds : list (dist (se2 dual))) : dist (se2 dual) := fold_left (both se2_comp) Ds [(Q2Qc 1, @se2_id dual)].
Definition walk3 (Ds : list (dist (se3 dual))) : dist (se3 dual) := fold_left (both se3_comp) Ds [(Q2Qc 1, @se3_id dual)].

(** Poses that do not turn, and that do not move. *)
Definition shift2 (p : se2 qs) : Prop := e_c p = Q2Qc 1 /\ e_s p = Q2Qc 0.
Definition turn2 (p : se2 qs) : Prop := e_x p = Q2Qc 0 /\ e_y p = Q2Qc 0.
Definition shift3 (p : se3 qs) : Prop := e_R p = mone.
Definition turn3 (p : se3 qs) : Prop := forall i, i < 3 -> at_ (e_t p) i = Q2Qc 0.
(** Logarithms of these: [(x, y, 0)] and [(0, 0, _)]; [(0, 0, 0, x, y, z)] and [(_, _, _, 0, 0, 0)]. *)
Definition logs2 (lg : pose2 -> nat -> Qc) : Prop :=
  (forall p, shift2 (proj1_sig p) -> lg p 0 = e_x (proj1_sig p) /\ lg p 1 = e_y (proj1_sig p) /\ lg p 2 = Q2Qc 0) /\
  (forall p, turn2 (proj1_sig p) -> lg p 0 = Q2Qc 0 /\ lg p 1 = Q2Qc 0).
Definition logs3 (lg : pose3 -> nat -> Qc) : Prop :=
  (forall p i, shift3 (proj1_sig p) -> i < 3 -> lg p i = Q2Qc 0 /\ lg p (3 + i) = at_ (e_t (proj1_sig p)) i) /\
  (forall p i, turn3 (proj1_sig p) -> i < 3 -> lg p (3 + i) = Q2Qc 0).

(** ** Distances *)
(** [c w = v], and the squared Mahalanobis distance [v^T c^-1 v] of [v]: [w^T c w] for such [w]. *)
Definition solves {n} (c : mat xs n) (w v : nat -> Qc) : Prop :=
  forall i, i < n -> @ksum qs n (fun j => num (get c i j) * w j)%Qc = v i.
Definition distance_sq {n} (c : mat xs n) (v : nat -> Qc) (q : Qc) : Prop := exists w, solves c w v /\ q = form c w.
(** [c'] is at least as uncertain as [c], in every direction. *)
Definition wider {n} (c c' : mat xs n) : Prop := finite c /\ finite c' /\ forall u, (form c u <= form c' u)%Qc.
(** The block of [c] that starts at row and column [r]. *)
Definition block {n} (r t : nat) (c : mat xs n) : mat xs t := @tab xs t (fun i j => get c (r + i) (r + j)).
