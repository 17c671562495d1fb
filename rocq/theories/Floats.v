(** * Poses in double precision

    [gtsam::Pose3] and [gtsam::Pose2] with [double] entries: the operations of [Lie.v] over the
    scalars [ds], so that every sum and product is rounded.  Most theorems hold for arbitrary poses
    and therefore for these; here they serve to run the project's own tests ([Replay*.v]).

    GTSAM and Eigen are not part of /repo: the logarithm follows GTSAM's formulas
    ([SO3::Logmap], [Pose3::Logmap], [Pose2::Logmap]) with elementary functions computed by series, the
    inverse of a matrix is by elimination, and the order of rounding is ours. *)
From Coq Require Import ZArith Bool List.
From Verif Require Import Prelude Num Keys KMap Geometry Lie.
Set Implicit Arguments.
Local Open Scope nat_scope.

(** ** Scalars *)
Definition dsub (x y : double) : double := SFsub dprec demax x y.
Definition done : double := dofZ 1.
Definition dopp (x : double) : double := SFopp x.
Definition ds : scal := @Scal double dzero done dadd dmul dsub.
Definition dle (x y : double) : bool := SFleb x y.
Definition disnan (x : double) : bool := match x with S754_nan => true | _ => false end.
Definition dhalf (x : double) : double := ddiv x (dofZ 2).
Definition dtwice (x : double) : double := dadd x x.

(** ** Elementary functions *)

(** [t + t * (c1 x + c1 c2 x^2 + ..)], the series with quotients [q i] of consecutive terms. *)
Fixpoint series (n : nat) (i : Z) (q : Z -> double) (x term acc : double) : double :=
  match n with
  | 0 => acc
  | S m => let t := dmul (dmul term x) (q i) in series m (i + 1)%Z q x t (dadd acc t)
  end.
(** [sin] and [cos] on [[-2, 2]]. *)
Definition dsin (x : double) : double :=
  series 12 1 (fun i => ddiv (dofZ (-1)) (dofZ (2 * i * (2 * i + 1)))) (dmul x x) x x.
Definition dcos (x : double) : double :=
  series 12 1 (fun i => ddiv (dofZ (-1)) (dofZ (2 * i * (2 * i - 1)))) (dmul x x) done done.
(** [atan]: three halvings of the angle, then the series. *)
Definition ahalf (y : double) : double := ddiv y (dadd done (dsqrt (dadd done (dmul y y)))).
Definition datan (y : double) : double :=
  let z := ahalf (ahalf (ahalf y)) in
  dmul (dofZ 8) (series 14 1 (fun i => ddiv (dofZ (- (2 * i - 1))) (dofZ (2 * i + 1))) (dmul z z) z z).
Definition dpi : double := dmul (dofZ 4) (datan done).
Definition dacos (x : double) : double := dtwice (datan (dsqrt (ddiv (dsub done x) (dadd done x)))).
(** [atan2] away from the negative first axis. *)
Definition datan2 (s c : double) : double := dtwice (datan (ddiv s (dadd (dsqrt (dadd (dmul c c) (dmul s s))) c))).

(** ** Logarithms *)
Definition vscale {n} (a : double) (v : cvec ds n) : cvec ds n := vtab n (fun i => dmul a (at_ v i)).
Definition vnorm3 (v : cvec ds 3) : double :=
  dsqrt (dadd (dadd (dmul (at_ v 0) (at_ v 0)) (dmul (at_ v 1) (at_ v 1))) (dmul (at_ v 2) (at_ v 2))).
Definition vec3 (x y z : double) : cvec ds 3 := (x, (y, (z, tt))).

Definition so3_log (R : mat ds 3) : cvec ds 3 :=
  let r := get R in
  let tr := dadd (dadd (r 0 0) (r 1 1)) (r 2 2) in
  let tiny := dlit 1 100000 in
  let off x := dlt tiny (SFabs (dadd x done)) in
  let with_ d v := vscale (ddiv dpi (dsqrt (dadd (dofZ 2) (dtwice d)))) v in
  if dlt (SFabs (dadd tr done)) (dlit 1 10000000000) then
    if off (r 2 2) then with_ (r 2 2) (vec3 (r 0 2) (r 1 2) (dadd done (r 2 2)))
    else if off (r 1 1) then with_ (r 1 1) (vec3 (r 0 1) (dadd done (r 1 1)) (r 2 1))
    else with_ (r 0 0) (vec3 (dadd done (r 0 0)) (r 1 0) (r 2 0))
  else
    let tr3 := dsub tr (dofZ 3) in
    let mag := if dlt tr3 (dlit (-1) 10000000) then
                 let th := dacos (dhalf (dsub tr done)) in
                 (* [sin th] by the double angle *)
                 ddiv th (dtwice (dtwice (dmul (dsin (dhalf th)) (dcos (dhalf th)))))
               else dadd (dsub (dhalf done) (ddiv tr3 (dofZ 12))) (ddiv (dmul tr3 tr3) (dofZ 60)) in
    vscale mag (vec3 (dsub (r 2 1) (r 1 2)) (dsub (r 0 2) (r 2 0)) (dsub (r 1 0) (r 0 1))).

Definition se3_log (p : se3 ds) : cvec ds 6 :=
  let w := so3_log (e_R p) in
  let T := e_t p in
  let t := vnorm3 w in
  let u := if dlt t (dlit 1 10000000000) then T
           else
             let W := skew (K := ds) (vscale (ddiv done t) w) in
             let WT := app W T in
             let tan := ddiv (dsin (dhalf t)) (dcos (dhalf t)) in
             vadd (vadd T (vscale (dopp (dhalf t)) WT)) (vscale (dsub done (ddiv t (dtwice tan))) (app W WT)) in
  vtab 6 (fun i => if i <? 3 then at_ w i else at_ u (i - 3)).

(** [Pose2::Logmap] (tangent vectors are [(v_x, v_y, omega)]). *)
Definition se2_log (p : se2 ds) : cvec ds 3 :=
  let w := datan2 (e_s p) (e_c p) in
  if dlt (SFabs w) (dlit 1 10000000000) then vec3 (e_x p) (e_y p) w
  else
    let c1 := dsub (e_c p) done in
    let s := e_s p in
    let det := dadd (dmul c1 c1) (dmul s s) in
    (* [R_PI_2 (R.unrotate t - t)] *)
    let a := dsub (dadd (dmul (e_c p) (e_x p)) (dmul s (e_y p))) (e_x p) in
    let b := dsub (dsub (dmul (e_c p) (e_y p)) (dmul s (e_x p))) (e_y p) in
    let k := ddiv w det in
    vec3 (dmul k (dopp b)) (dmul k a) w.

(** ** Matrices as rows *)
Definition rows := list (list double).
Definition to_rows {n} (A : mat ds n) : rows := map (fun i => map (fun j => get A i j) (seq 0 n)) (seq 0 n).
Definition block (o n : nat) (A : rows) : rows := map (fun r => firstn n (skipn o r)) (firstn n (skipn o A)).
Definition drow (l : list double) (i : nat) : double := nth i l dzero.
Definition axpy (a : double) (x y : list double) : list double :=
  map (fun p => dsub (snd p) (dmul a (fst p))) (combine x y).
(** [A^-1 v] by elimination without exchanges; [M]: rows of [A] with [v] appended. *)
Fixpoint forward (n : nat) (M : rows) : rows :=
  match n, M with
  | S m, r :: M' =>
      r :: map (cons dzero)
        (forward m (map (fun s => tl (axpy (ddiv (drow s 0) (drow r 0)) r s)) M'))
  | _, _ => M
  end.
(** Rows of an upper triangular system (leading zeros kept), solved from the last one. *)
Fixpoint backward (n i : nat) (M : rows) : list double :=
  match M with
  | [] => []
  | r :: M' =>
      let xs := backward n (S i) M' in
      let rhs := fold_left (fun acc p => dsub acc (dmul (fst p) (snd p))) (combine (skipn (S i) (firstn n r)) xs) (drow r n) in
      ddiv rhs (drow r i) :: xs
  end.
Definition dsolve (A : rows) (v : list double) : list double :=
  let n := length A in
  backward n 0 (forward n (map (fun p => fst p ++ [snd p])%list (combine A v))).
Definition dot (u v : list double) : double :=
  fold_left (fun acc p => dadd acc (dmul (fst p) (snd p))) (combine u v) dzero.
(** Cholesky: success unless a pivot is [<= 0]. *)
Fixpoint dllt (n : nat) (M : rows) : bool :=
  match n, M with
  | S m, r :: M' =>
      negb (dle (drow r 0) dzero) &&
      dllt m (map (fun s => tl (axpy (ddiv (drow s 0) (drow r 0)) r s)) M')
  | _, _ => true
  end.

(** ** The interface of [Geometry.v] *)
Section Inst.
Variable P : Type.
Variables (id : P) (comp : P -> P -> P) (inv : P -> P).
Variables (dim r_dim t_dim : nat).
Variable ad : P -> mat ds dim.
Variable log : P -> cvec ds dim.

Definition fact (p : P) (c : mat ds dim) : mat ds dim := mmul (mmul (ad p) c) (mtr (ad p)).
Definition frot_nan (c : mat ds dim) : bool := disnan (@ksum ds r_dim (fun i => get c i i)).
Definition fkeep_trans (c : mat ds dim) : mat ds dim :=
  @tab ds dim (fun i j => if (r_dim <=? i) && (i <? r_dim + t_dim) && (r_dim <=? j) && (j <? r_dim + t_dim) then get c i j else dzero).
Definition flog (p : P) : list double := map (at_ (log p)) (seq 0 dim).
Definition fmaha_sq (p : P) (c : mat ds dim) (full : bool) : double :=
  if full then let l := flog p in dot l (dsolve (to_rows c) l)
  else let l := skipn (dim - t_dim) (flog p) in dot l (dsolve (block r_dim t_dim (to_rows c)) l).
Definition sumsq (l : list double) : double := dot l l.

Definition float_geom : geom :=
  {| g_pose := P; g_id := id; g_comp := comp; g_inv := inv;
     g_log_tsq := fun p => sumsq (skipn (dim - t_dim) (flog p));
     g_log_rsq := fun p => sumsq (firstn r_dim (flog p));
     g_cov := mat ds dim; g_czero := @mzero ds dim; g_cadd := @madd ds dim; g_csub := @msub ds dim;
     g_act := fact; g_rot_nan := frot_nan; g_keep_trans := fkeep_trans;
     g_llt_ok := fun c => dllt dim (to_rows c); g_maha_sq := fmaha_sq |}.
End Inst.

Definition fgeom3 : geom := float_geom (@se3_id ds) (@se3_comp ds) (@se3_inv ds) 6 3 3 (@se3_ad ds) se3_log.
Definition fgeom2 : geom := float_geom (@se2_id ds) (@se2_comp ds) (@se2_inv ds) 3 1 2 (@se2_ad ds) se2_log.
