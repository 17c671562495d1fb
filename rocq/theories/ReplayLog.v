(** * Logarithms and exponentials, run on the model

    gtsam's [Expmap] inverts its [Logmap]; here the exponentials are written down from the textbook
    formulas and compared with the logarithms of [Floats.v] on a few tangent vectors.  These are tests
    of the model; they prove no property. *)
From Coq Require Import ZArith QArith Bool List.
From Verif Require Import Prelude Num Lie Floats Replay.
Local Open Scope nat_scope.

(** Half-angle formulas keep the arguments of the series small. *)
Definition sin_ (a : double) : double := dtwice (dmul (dsin (dhalf a)) (dcos (dhalf a))).
Definition one_cos (a : double) : double := dtwice (dmul (dsin (dhalf a)) (dsin (dhalf a))).
Definition cos_ (a : double) : double := dsub done (one_cos a).

(** [Pose2::Expmap] of [(vx, vy, w)] with [w <> 0]. *)
Definition exp2 (vx vy w : double) : se2 ds :=
  let s := ddiv (sin_ w) w in
  let c := ddiv (one_cos w) w in
  SE2 (cos_ w : ds) (sin_ w : ds) (dsub (dmul s vx) (dmul c vy) : ds) (dadd (dmul c vx) (dmul s vy) : ds).

(** [Pose3::Expmap] of [(w, v)] with [w <> 0]: Rodrigues' formula. *)
Definition mscale3 (a : double) (A : mat ds 3) : mat ds 3 := @tab ds 3 (fun i j => dmul a (get A i j)).
Definition cross (a b c : double) : mat ds 3 := mat3 dzero (dopp c) b c dzero (dopp a) (dopp b) a dzero.
Definition exp3 (a b c x y z : double) : se3 ds :=
  let th := dsqrt (dadd (dadd (dmul a a) (dmul b b)) (dmul c c)) in
  let W := cross a b c in
  let W2 := mmul W W in
  let k1 := ddiv (one_cos th) (dmul th th) in
  let R := madd (madd (@mone ds 3) (mscale3 (ddiv (sin_ th) th) W)) (mscale3 k1 W2) in
  let V := madd (madd (@mone ds 3) (mscale3 k1 W)) (mscale3 (ddiv (dsub th (sin_ th)) (dmul th (dmul th th))) W2) in
  SE3 R (Lie.app V (vec3 x y z : cvec ds 3)).

Definition all_near {n} (v : cvec ds n) (l : list double) : bool := forallb (fun i => near tol9 (at_ v i) (nth i l dzero)) (seq 0 n).
Definition back2 (vx vy w : double) : bool := all_near (se2_log (exp2 vx vy w)) [vx; vy; w].
Definition back3 (a b c x y z : double) : bool := all_near (se3_log (exp3 a b c x y z)) [a; b; c; x; y; z].

Definition Log_planar : bool :=
  back2 (dz 1) (dz 2) (dq 1 2) && back2 (dz (-3)) (dq 1 4) (dq (-13) 10) && back2 (dz 5) (dz (-7)) (dz 3) && back2 dzero (dz 1) (dq (-1) 1000).
Check (ltac:(passes Log_planar) : True).
Definition Log_spatial : bool :=
  back3 (dq 1 2) (dq (-1) 3) (dq 1 5) (dz 1) (dz 2) (dz 3) && back3 (dz (-1)) (dq 3 2) (dq 1 7) (dz (-4)) (dq 1 3) (dz 6) &&
  back3 (dq 1 10) (dq 2 10) (dz (-2)) (dz 9) (dz (-8)) (dz 7) && back3 (dz 2) (dz 1) (dz 2) (dz 1) (dz (-1)) dzero &&
  back3 (dq 1 100000) (dq (-2) 100000) (dq 3 100000) (dz 1) (dz 2) (dz 3).
Check (ltac:(passes Log_spatial) : True).
