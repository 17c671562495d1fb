(** * The two pose types of the library

    [gtsam::Pose2] and [gtsam::Pose3] with their covariance matrices, as instances of the interface
    [geom] of [Geometry.v]: [Pcm2D], [Pcm3D], [PcmSimple2D] and [PcmSimple3D] (Pcm.h:1167-1170).

    Arithmetic on poses and covariances is exact (rational numbers, with one extra value for NaN in
    covariances) where the code uses [double]; [Logmap] and the inverse of a covariance matrix are
    arguments.  The thresholds are compared in [double]. *)
From Coq Require Import ZArith QArith Qcanon Bool List.
From Verif Require Import Prelude Num Keys KMap Geometry.
Set Implicit Arguments.
Local Open Scope nat_scope.

(** ** Scalars *)

Record scal := Scal { k_t :> Type; k0 : k_t; k1 : k_t; kadd : k_t -> k_t -> k_t; kmul : k_t -> k_t -> k_t; ksub : k_t -> k_t -> k_t }.
Arguments k0 {s}. Arguments k1 {s}. Arguments kadd {s}. Arguments kmul {s}. Arguments ksub {s}.

(** Rational numbers. *)
Definition qs : scal := @Scal Qc (Q2Qc 0) (Q2Qc 1) Qcplus Qcmult Qcminus.

(** Rational numbers and NaN ([None]), which every operation hands on. *)
Definition xq := option Qc.
Definition xlift2 (f : Qc -> Qc -> Qc) (a b : xq) : xq :=
  match a, b with Some x, Some y => Some (f x y) | _, _ => None end.
Definition xs : scal := @Scal xq (Some (Q2Qc 0)) (Some (Q2Qc 1)) (xlift2 Qcplus) (xlift2 Qcmult) (xlift2 Qcminus).

(** Conversion to [double], correctly rounded: quotient of two numbers that are not rounded. *)
Definition unrounded (z : Z) : double :=
  match z with Z0 => dzero | Zpos p => S754_finite false p 0 | Zneg p => S754_finite true p 0 end.
Definition dofQc (q : Qc) : double := ddiv (unrounded (Qnum (this q))) (unrounded (Zpos (Qden (this q)))).
Definition dofx (x : xq) : double := match x with Some q => dofQc q | None => dnan end.
(** Sums and products of [double]. *)
Definition dadd (x y : double) : double := SFadd dprec demax x y.
Definition dmul (x y : double) : double := SFmul dprec demax x y.

(** ** Vectors and matrices *)

(** [n] values. *)
Fixpoint vec (A : Type) (n : nat) : Type := match n with 0 => unit | S m => (A * vec A m)%type end.
Fixpoint vtab {A} (n : nat) (f : nat -> A) : vec A n :=
  match n with 0 => tt | S m => (f 0, vtab m (fun i => f (S i))) end.
(** [v[i]]; [d] beyond the end (never used there). *)
Fixpoint vget {A} (d : A) {n} (v : vec A n) (i : nat) {struct n} : A :=
  match n return vec A n -> A with
  | 0 => fun _ => d
  | S m => fun v => match i with 0 => fst v | S j => vget d (snd v) j end
  end v.

Section Mat.
Variable K : scal.

(** Sum of [f 0 .. f (n-1)]. *)
Fixpoint ksum (n : nat) (f : nat -> K) : K :=
  match n with 0 => k0 | S m => kadd (f 0) (ksum m (fun i => f (S i))) end.

Definition mat (n : nat) := vec (vec K n) n.
Definition get {n} (A : mat n) (i j : nat) : K := vget k0 (vget (vtab n (fun _ => k0)) A i) j.
Definition tab (n : nat) (f : nat -> nat -> K) : mat n := vtab n (fun i => vtab n (f i)).

Definition mzero {n} : mat n := tab n (fun _ _ => k0).
Definition mone {n} : mat n := tab n (fun i j => if i =? j then k1 else k0).
Definition madd {n} (A B : mat n) : mat n := tab n (fun i j => kadd (get A i j) (get B i j)).
Definition msub {n} (A B : mat n) : mat n := tab n (fun i j => ksub (get A i j) (get B i j)).
Definition mmul {n} (A B : mat n) : mat n := tab n (fun i j => ksum n (fun k => kmul (get A i k) (get B k j))).
Definition mtr {n} (A : mat n) : mat n := tab n (fun i j => get A j i).

Definition cvec (n : nat) := vec K n.
Definition at_ {n} (v : cvec n) (i : nat) : K := vget k0 v i.
Definition vadd {n} (u v : cvec n) : cvec n := vtab n (fun i => kadd (at_ u i) (at_ v i)).
Definition vneg {n} (u : cvec n) : cvec n := vtab n (fun i => ksub k0 (at_ u i)).
Definition app {n} (A : mat n) (v : cvec n) : cvec n := vtab n (fun i => ksum n (fun k => kmul (get A i k) (at_ v k))).

(** ** Rigid motions *)

(** [gtsam::Pose2]: [Rot2] (cosine and sine) and a translation. *)
Record se2 := SE2 { e_c : K; e_s : K; e_x : K; e_y : K }.
Definition se2_id : se2 := SE2 k1 k0 k0 k0.
(** [Pose2::operator*]: rotations multiplied, [t1 + R1 t2]. *)
Definition se2_comp (a b : se2) : se2 :=
  SE2 (ksub (kmul (e_c a) (e_c b)) (kmul (e_s a) (e_s b))) (kadd (kmul (e_s a) (e_c b)) (kmul (e_c a) (e_s b)))
      (kadd (e_x a) (ksub (kmul (e_c a) (e_x b)) (kmul (e_s a) (e_y b))))
      (kadd (e_y a) (kadd (kmul (e_s a) (e_x b)) (kmul (e_c a) (e_y b)))).
(** [Pose2::inverse]: [R^T], [- R^T t]. *)
Definition se2_inv (a : se2) : se2 :=
  SE2 (e_c a) (ksub k0 (e_s a))
      (ksub k0 (kadd (kmul (e_c a) (e_x a)) (kmul (e_s a) (e_y a))))
      (ksub (kmul (e_s a) (e_x a)) (kmul (e_c a) (e_y a))).
(** [Pose2::AdjointMap]; tangent vectors are [(v_x, v_y, omega)]. *)
Definition se2_ad (a : se2) : mat 3 :=
  ((e_c a, (ksub k0 (e_s a), (e_y a, tt))),
   ((e_s a, (e_c a, (ksub k0 (e_x a), tt))),
    ((k0, (k0, (k1, tt))), tt))).

(** [gtsam::Pose3]: a rotation matrix ([Rot3]) and a translation. *)
Record se3 := SE3 { e_R : mat 3; e_t : cvec 3 }.
Definition se3_id : se3 := SE3 mone (vtab 3 (fun _ => k0)).
Definition se3_comp (a b : se3) : se3 := SE3 (mmul (e_R a) (e_R b)) (vadd (e_t a) (app (e_R a) (e_t b))).
Definition se3_inv (a : se3) : se3 := SE3 (mtr (e_R a)) (vneg (app (mtr (e_R a)) (e_t a))).
(** Matrix of the cross product with [t] ([skewSymmetric]). *)
Definition skew (t : cvec 3) : mat 3 :=
  ((k0, (ksub k0 (at_ t 2), (at_ t 1, tt))),
   ((at_ t 2, (k0, (ksub k0 (at_ t 0), tt))),
    ((ksub k0 (at_ t 1), (at_ t 0, (k0, tt))), tt))).
(** [Pose3::AdjointMap], blocks [R 0; [t]x R, R]; tangent vectors are [(omega, v)]. *)
Definition se3_ad (a : se3) : mat 6 :=
  tab 6 (fun i j =>
    if i <? 3 then (if j <? 3 then get (e_R a) i j else k0)
    else if j <? 3 then get (mmul (skew (e_t a)) (e_R a)) (i - 3) j else get (e_R a) (i - 3) (j - 3)).

(** Determinant of a 3 by 3 matrix. *)
Definition det3 (A : mat 3) : K :=
  let a := get A in
  kadd (ksub (kmul (a 0 0) (ksub (kmul (a 1 1) (a 2 2)) (kmul (a 1 2) (a 2 1))))
             (kmul (a 0 1) (ksub (kmul (a 1 0) (a 2 2)) (kmul (a 1 2) (a 2 0)))))
       (kmul (a 0 2) (ksub (kmul (a 1 0) (a 2 1)) (kmul (a 1 1) (a 2 0)))).
End Mat.
Arguments det3 {K}. Arguments SE2 {K}. Arguments SE3 {K}.
Arguments get {K n}. Arguments tab {K}. Arguments mzero {K n}. Arguments mone {K n}. Arguments madd {K n}.
Arguments msub {K n}. Arguments mmul {K n}. Arguments mtr {K n}. Arguments at_ {K n}. Arguments vadd {K n}.
Arguments vneg {K n}. Arguments app {K n}. Arguments skew {K}. Arguments ksum {K}.
Arguments e_c {K}. Arguments e_s {K}. Arguments e_x {K}. Arguments e_y {K}. Arguments e_R {K}. Arguments e_t {K}.
Arguments se2_id {K}. Arguments se2_comp {K}. Arguments se2_inv {K}. Arguments se2_ad {K}.
Arguments se3_id {K}. Arguments se3_comp {K}. Arguments se3_inv {K}. Arguments se3_ad {K}.

(** Entries as numbers that are not NaN. *)
Definition lift {n} (A : mat qs n) : mat xs n := @tab xs n (fun i j => Some (get A i j)).

(** ** Poses *)

(** [Rot2]: cosine and sine of one angle. *)
Definition unit2 (p : se2 qs) : bool :=
  Qc_eq_bool (e_c p * e_c p + e_s p * e_s p)%Qc (Q2Qc 1).
Definition mat_eqb {n} (A B : mat qs n) : bool :=
  forallb (fun i => forallb (fun j => Qc_eq_bool (get A i j) (get B i j)) (seq 0 n)) (seq 0 n).
(** [Rot3]: orthogonal matrices of determinant one. *)
Definition unit3 (p : se3 qs) : bool :=
  mat_eqb (mmul (e_R p) (mtr (e_R p))) mone && mat_eqb (mmul (mtr (e_R p)) (e_R p)) mone
  && Qc_eq_bool (det3 (e_R p)) (Q2Qc 1).

Definition pose2 := { p : se2 qs | unit2 p = true }.
Definition pose3 := { p : se3 qs | unit3 p = true }.

(** ** Eigen *)

(** [Eigen::LLT] of a matrix of fewer than 32 rows: success unless a pivot is [<= 0] (a NaN pivot is
    not).  Pivots of [L L^T] are those of [L D L^T]; only the lower triangle is read. *)
Definition xdiv (a b : xq) : xq := match a, b with Some x, Some y => Some (x / y)%Qc | _, _ => None end.
Definition bad_pivot (x : xq) : bool := match x with Some q => if Qclt_le_dec (Q2Qc 0) q then false else true | None => false end.
Fixpoint llt (n : nat) (A : nat -> nat -> xq) : bool :=
  match n with
  | 0 => true
  | S m => negb (bad_pivot (A 0 0)) &&
           llt m (fun i j => @ksub xs (A (S i) (S j)) (xdiv (@kmul xs (A (S i) 0) (A (S j) 0)) (A 0 0)))
  end.

(** [v.transpose() * B * v]. *)
Definition qform (n : nat) (v : nat -> Qc) (B : nat -> nat -> xq) : xq :=
  @ksum xs n (fun i => @ksum xs n (fun j => @kmul xs (@kmul xs (Some (v i)) (B i j)) (Some (v j)))).

(** Squared norm of consecutive components, in [double]. *)
Fixpoint dsumsq (l : list Qc) : double :=
  match l with
  | [] => dzero
  | [x] => dmul (dofQc x) (dofQc x)
  | x :: l => dadd (dmul (dofQc x) (dofQc x)) (dsumsq l)
  end.

(** ** The interface of [Geometry.v] for a pose type *)

(** What GTSAM and Eigen provide for the functions that are not rational: [Logmap] as a function to
    tangent vectors, and the inverse of an [n] by [n] matrix (singular: anything). *)
Section Inst.
Variable P : Type.
Variables (id : P) (comp : P -> P -> P) (inv : P -> P).
Variables (dim r_dim t_dim : nat).   (* [getDim], [getRotationDim], [getTranslationDim] (GeometryUtils.h:28-50) *)
Variable ad : P -> mat qs dim.
Variable logmap : P -> nat -> Qc.
Variable minv : nat -> (nat -> nat -> xq) -> nat -> nat -> xq.

Definition act (p : P) (c : mat xs dim) : mat xs dim := mmul (mmul (lift (ad p)) c) (mtr (lift (ad p))).
(** [covar.block(0, 0, r_dim, r_dim).trace()] is NaN (103, 233). *)
Definition rot_nan (c : mat xs dim) : bool :=
  match @ksum xs r_dim (fun i => get c i i) with None => true | Some _ => false end.
(** 106-111. *)
Definition keep_trans (c : mat xs dim) : mat xs dim :=
  @tab xs dim (fun i j => if (r_dim <=? i) && (i <? r_dim + t_dim) && (r_dim <=? j) && (j <? r_dim + t_dim) then get c i j else k0).
(** 172-186: [full]: [log^T C^-1 log]; otherwise with [log.tail(t_dim)] and the block at [r_dim]. *)
Definition maha_form (p : P) (c : mat xs dim) (full : bool) : xq :=
  if full then qform dim (logmap p) (minv dim (get c))
  else qform t_dim (fun i => logmap p (dim - t_dim + i)) (minv t_dim (fun i j => get c (r_dim + i) (r_dim + j))).
Definition maha_sq (p : P) (c : mat xs dim) (full : bool) : double := dofx (maha_form p c full).
(** 275-288: [log.tail(t_dim)] and [log.head(r_dim)]. *)
Definition log_tail_sq (p : P) : double := dsumsq (map (logmap p) (seq (dim - t_dim) t_dim)).
Definition log_head_sq (p : P) : double := dsumsq (map (logmap p) (seq 0 r_dim)).

Definition lie_geom : geom :=
  {| g_pose := P; g_id := id; g_comp := comp; g_inv := inv;
     g_log_tsq := log_tail_sq; g_log_rsq := log_head_sq;
     g_cov := mat xs dim; g_czero := @mzero xs dim; g_cadd := @madd xs dim; g_csub := @msub xs dim;
     g_act := act; g_rot_nan := rot_nan; g_keep_trans := keep_trans;
     g_llt_ok := fun c => llt dim (get c); g_maha_sq := maha_sq |}.
End Inst.
