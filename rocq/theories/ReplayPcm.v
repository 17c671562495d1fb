(** * The project's tests of the PCM and of the poses with uncertainty, run on the model *)
From Coq Require Import ZArith QArith Bool List.
From Verif Require Import Prelude Num Keys KMap UMap Geometry Factors Clique Pcm Params Solver Lie Floats Replay.
Local Open Scope nat_scope.

Definition n01 := iso (dq 1 10).
Definition n001 := iso (dq 1 100).

(** ** tests/testPcmSimple.cpp, tests/testPcm.cpp *)
Section Checks.
Variable O : tops.
Variable E : t_pose O = se3 ds.
Variable D : t_cov O = mat ds 6.
Variable C : config.
Let call := (graph_t O * values O * (pst O -> bool -> bool))%type.
Let any' : pst O -> bool -> bool := @any O.
Definition init : call := ([prior O E 0%N id3], poses O E [(0%N, id3)], any').
Definition odom (R : mat ds 3) (look : pst O -> bool -> bool) (i : N) : call :=
  ([between O E D i (i + 1)%N (ahead R) n01], poses O E [((i + 1)%N, ahead R)], look).
Definition closure (a b : N) (p : se3 ds) n (look : pst O -> bool -> bool) : call := ([between O E D a b p n], [], look).

(** Simple: lines 18-100 and 103-178; full: lines 18-88.  Three odometry edges, two loop closures. *)
Definition odom_check_test (lc1 lc2 : se3 ds) n2 : bool :=
  feed C [init; odom turn_left any' 0; odom turn_left any' 1; odom turn_left (@sizes O 4 4) 2;
          closure 3 0 lc1 n01 (@expect O 5 4 true); closure 3 0 lc2 n2 (@expect O 5 4 true)] (fresh_pcm O).
(** Simple: lines 181-279 and 282-380; full: lines 91-189.  Six odometry edges, four loop closures. *)
Definition consistency_test (lc1 lc2 lc3 lc4 : se3 ds) : bool :=
  feed C [init; odom turn_left any' 0; odom turn_left any' 1; odom rot_id any' 2; odom rot_id any' 3;
          odom rot_id any' 4; odom rot_id (@sizes O 7 7) 5;
          closure 3 0 lc1 n01 any'; closure 4 0 lc2 n01 (@expect O 9 7 true);
          closure 5 0 lc3 n01 (@expect O 10 7 true); closure 6 0 lc4 n01 (@expect O 10 7 true)] (fresh_pcm O).
End Checks.

Definition simple_odom q := odom_check_test (node_ops fgeom3 q) eq_refl eq_refl (pcm_config [] false q).
Definition simple_cons q := consistency_test (node_ops fgeom3 q) eq_refl eq_refl (pcm_config [] false q).
Definition full_odom q := odom_check_test (cov_ops fgeom3 q) eq_refl eq_refl (pcm_config [] false q).
Definition full_cons q := consistency_test (cov_ops fgeom3 q) eq_refl eq_refl (pcm_config [] false q).
(** [Rz(3.1416)] *)
Definition half_turn := rot_z (dq 31416 10000).

Definition PcmSimple_OdomTransCheck : bool :=
  simple_odom (simple_thresholds (dq 51 1000) (dz 100) (dz (-1)) (dz (-1)))
    (pose turn_left (dq 8 10) dzero dzero) (pose turn_left (dq 792 1000) dzero dzero) (iso (dq 5 100)).
Check (ltac:(passes PcmSimple_OdomTransCheck) : True).
Definition PcmSimple_OdomRotCheck : bool :=
  simple_odom (simple_thresholds (dz 100) (dq 5 1000) (dz (-1)) (dz (-1)))
    (pose (rot_z (dq 1551 1000)) done dzero dzero) (pose (rot_z (dq 155 100)) done dzero dzero) n01.
Check (ltac:(passes PcmSimple_OdomRotCheck) : True).
Definition PcmSimple_ConsistencyTransCheck : bool :=
  simple_cons (simple_thresholds (dz (-1)) (dz (-1)) (dq 5 100) (dz 100))
    (pose turn_back dzero (dq 9 10) dzero) (pose half_turn (dq (-9) 10) (dq 9 10) dzero)
    (pose half_turn (dq (-19) 10) (dq 8 10) dzero) (pose half_turn (dq (-28) 10) (dq 75 100) dzero).
Check (ltac:(passes PcmSimple_ConsistencyTransCheck) : True).
Definition PcmSimple_ConsistencyRotCheck : bool :=
  simple_cons (simple_thresholds (dz (-1)) (dz (-1)) (dz 100) (dq 5 1000))
    (pose turn_back dzero done dzero) (pose (rot_z (dq 3141 1000)) (dz (-1)) done dzero)
    (pose (rot_z (dq 313 100)) (dz (-2)) done dzero) (pose (rot_z (dq 312 100)) (dz (-3)) done dzero).
Check (ltac:(passes PcmSimple_ConsistencyRotCheck) : True).
Definition Pcm_OdometryCheck : bool :=
  let lc := pose (rot_z (dq 151 100)) (dq 8 10) dzero dzero in
  full_odom (pcm_thresholds (dq 3 10) (dz (-1)) false) lc lc (iso (dq 5 100)).
Check (ltac:(passes Pcm_OdometryCheck) : True).
(** [0.99 * 3.1416] and [0.98 * 3.1416]. *)
Definition Pcm_ConsistencyCheck : bool :=
  full_cons (pcm_thresholds (dz (-1)) (dq 5 10) false)
    (pose half_turn dzero (dq 9 10) dzero) (pose half_turn (dz (-1)) (dq 8 10) dzero)
    (pose (rot_z (dq 3110184 1000000)) (dq (-18) 10) (dq 8 10) dzero)
    (pose (rot_z (dq 3078768 1000000)) (dq (-26) 10) (dq 6 10) dzero).
Check (ltac:(passes Pcm_ConsistencyCheck) : True).

(** ** tests/testPcmDoOptimize.cpp *)
Section DoOptimize.
Variable q : pcm_params.
Let O := cov_ops fgeom3 q.
Let bet := between O eq_refl eq_refl.
Let vals := poses O eq_refl.
Let l0 : key := sym cl 0.
Let u0 : key := sym cu 0.
Definition test_odometry : bool :=
  feed (pcm_config [] false q)
    [([prior O eq_refl 0%N id3], vals [(0%N, id3)], @sizes O 1 1);
     ([bet 0%N 1%N (shift 1 0 0) n001], vals [(1%N, shift 1 0 0)], @expect O 2 2 false)] (fresh_pcm O).
Definition test_no_prior : bool :=
  feed (pcm_config [] false q)
    [([], vals [(0%N, id3)], @sizes O 0 1);
     ([bet 0%N 1%N (shift 1 0 0) n001], vals [(1%N, shift 1 0 0)], @expect O 1 2 false)] (fresh_pcm O).
Definition test_loop_closure : bool :=
  feed (pcm_config [] false q)
    [([], vals [(0%N, id3)], @any O);
     ([bet 0%N 1%N (shift 1 0 0) n001], vals [(1%N, shift 1 0 0)], @any O);
     ([bet 1%N 2%N (shift (-1) 0 0) n001], vals [(2%N, id3)], @sizes O 2 3);
     ([bet 2%N 0%N id3 n001], [], @expect O 3 3 true)] (fresh_pcm O).
Definition test_landmarks : bool :=
  feed (pcm_config [cl; cu] false q)
    [([], vals [(0%N, id3)], @any O);
     ([bet 0%N l0 (shift 1 1 0) n001], vals [(l0, shift 1 1 0)], @expect O 1 2 false);
     ([bet 0%N 1%N (shift 1 0 0) n001], vals [(1%N, shift 1 0 0)], @expect O 2 3 false);
     ([bet 1%N l0 (shift 0 1 0) n001], [], @expect O 3 3 true)] (fresh_pcm O).
Definition test_beacon : bool :=
  feed (pcm_config [cl; cu] false q)
    [([], vals [(0%N, id3)], @expect O 0 1 false);
     ([prior O eq_refl u0 id3; range O 0%N u0], @number O u0 [], @expect O 2 2 true);
     ([bet 0%N 1%N (shift 1 0 0) n001], vals [(1%N, shift 1 0 0)], @expect O 3 3 false);
     ([range O 1%N u0], [], @expect O 4 3 true)] (fresh_pcm O).
End DoOptimize.
Definition PcmDoOptimize : bool :=
  forallb (fun b : bool => b)
    [test_odometry (pcm_thresholds (dz (-1)) (dz 1) false); test_no_prior (pcm_thresholds (dz (-1)) (dz 1) false);
       test_loop_closure (pcm_thresholds (dz (-1)) (dz 1) false); test_landmarks (pcm_thresholds (dz (-1)) (dz 10) true);
       test_beacon (pcm_thresholds (dz (-1)) (dz 1) true)].
Check (ltac:(passes PcmDoOptimize) : True).

(** ** tests/testMultirobotFrameAlign.cpp *)
Definition align_test : bool :=
  let q := simple_thresholds (dz (-1)) (dz (-1)) (dq 3 10) (dz 100) in
  let O := cov_ops fgeom3 q in
  let bet := between O eq_refl eq_refl in
  let s c i := sym c i in
  let back x := pose (rot_q dzero dzero dzero done) x dzero dzero in
  feed (pcm_config [] true q)
    [([bet (s ca 0%N) (s ca 1%N) id3 n001; bet (s cb 0%N) (s cb 1%N) (shift 1 0 0) n001; bet (s cc 0%N) (s cc 1%N) (shift 1 0 0) n001;
       bet (s ca 0%N) (s cb 0%N) id3 n001; bet (s ca 1%N) (s cb 1%N) (shift 1 0 0) n001;
       bet (s ca 0%N) (s cc 0%N) id3 n001; bet (s ca 1%N) (s cc 1%N) (shift 1 0 0) n001],
      poses O eq_refl [(s ca 0%N, id3); (s ca 1%N, id3); (s cb 0%N, shift 1 0 0); (s cb 1%N, shift 2 0 0);
                       (s cc 0%N, back dzero); (s cc 1%N, back (dz (-1)))],
      fun st _ => forallb (fun x => @pose_at O eq_refl (ps_vals st) (fst x) (snd x))
        [(s ca 0%N, id3); (s ca 1%N, id3); (s cb 0%N, id3); (s cb 1%N, shift 1 0 0); (s cc 0%N, id3); (s cc 1%N, shift 1 0 0)])]
    (fresh_pcm O).
Definition Pcm_MultirobotFrameAlign : bool :=
  align_test.
Check (ltac:(passes Pcm_MultirobotFrameAlign) : True).

(** ** tests/testPoseWithCovariance.cpp, without the random samples *)
Definition PC3 := PC fgeom3.
Definition rows6 (s : Z) (l : list (list Z)) : mat ds 6 :=
  @tab ds 6 (fun i j => ddiv (dz (nth j (nth i l []) 0%Z)) (dz s)).
Definition eye (v : double) : mat ds 6 := fdiag (repeat v 6).
Definition pc_is (tol : double) (a : pcov fgeom3) (p : se3 ds) (c : mat ds 6) : bool :=
  near3 tol (pc_pose a) p && near_cov tol (pc_cov a) c.
Definition cov_A := PC3 (shift 1 1 1) (eye (dq 1 10)) true.
Definition cov_B := pc_comp cov_A (PC3 (shift 1 1 1) (eye (dq 1 10)) true).
Definition cov_C := pc_comp cov_B (PC3 (pose (rot_q dzero dzero dzero done) dzero dzero dzero)
  (fdiag [dq 1 10; dq 1 10; dq 1 10; dq 1 100; dq 1 100; dq 1 100]) true).
Definition turn_CD := pose (rot_q dzero dzero done dzero) done dzero dzero.
Definition cov_D := pc_comp cov_C (PC3 turn_CD (eye (dq 1 10)) true).
Definition want_C := rows6 100 [[30; 0; 0; 0; -10; -10]; [0; 30; 0; 10; 0; 10]; [0; 0; 30; 10; -10; 0];
  [0; 10; 10; 41; -10; 10]; [-10; 0; -10; -10; 41; 10]; [-10; 10; 0; 10; 10; 41]]%Z.
Definition want_D := rows6 100 [[40; 0; 0; 0; 10; -10]; [0; 40; 0; -10; 0; 20]; [0; 0; 40; 10; -20; 0];
  [0; -10; 10; 51; 0; 0]; [10; 0; -20; 0; 61; -10]; [-10; 20; 0; 0; -10; 61]]%Z.
Definition PoseWithCovariance_Inverse : bool :=
  let A := PC3 id3 (eye done) true in pc_is tol9 (pc_inv A) (se3_inv id3) (eye done).
Check (ltac:(passes PoseWithCovariance_Inverse) : True).
Definition PoseWithCovariance_Compose : bool :=
  forallb (fun b : bool => b)
    [pc_is tol9 cov_B (shift 2 2 2)
         (rows6 10 [[2; 0; 0; 0; -1; 1]; [0; 2; 0; 1; 0; -1]; [0; 0; 2; -1; 1; 0];
                    [0; 1; -1; 4; -1; -1]; [-1; 0; 1; -1; 4; -1]; [1; -1; 0; -1; -1; 4]]%Z);
       near_cov tol9 (pc_cov cov_C) want_C; near_cov tol9 (pc_cov cov_D) want_D].
Check (ltac:(passes PoseWithCovariance_Compose) : True).
Definition PoseWithCovariance_Between : bool :=
  pc_is tol9 (pc_between (PC3 id3 want_C true) (PC3 turn_CD want_D true)) turn_CD (eye (dq 1 10)).
Check (ltac:(passes PoseWithCovariance_Between) : True).

(** ** tests/testPoseWithNode.cpp *)
Definition PN3 p n := PN fgeom3 p n true.
Definition pn_is (a : pnode fgeom3) (p : se3 ds) (n : Z) : bool := near3 tol9 (pn_pose a) p && (pn_node a =? n)%Z.
Definition node_B := pn_comp (PN3 (shift 1 1 1) 1) (PN3 (shift 1 1 1) 1).
Definition PoseWithNode_InverseComposeBetween : bool :=
  forallb (fun b : bool => b)
    [pn_is (pn_inv (PN3 id3 6)) id3 6;
       pn_is node_B (shift 2 2 2) 2;
       pn_is (pn_comp node_B (PN3 (pose turn_back dzero dzero dzero) 1)) (pose turn_back (dz 2) (dz 2) (dz 2)) 3;
       pn_is (pn_between (PN3 id3 1) (PN3 turn_CD 5)) turn_CD 4].
Check (ltac:(passes PoseWithNode_InverseComposeBetween) : True).
Definition PoseWithNode_Norm : bool :=
  forallb (fun b : bool => b)
    [SFeqb dzero (pn_avg_rot (PN3 id3 1)); SFeqb dzero (pn_avg_trans (PN3 id3 1));
       SFeqb (dq 2 10) (pn_avg_trans (PN3 (shift 1 0 0) 5));
       near (dq 1 1000000) (ddiv (dq 31415927 10000000) (dz 5)) (pn_avg_rot (PN3 (pose (rot_q dzero dzero done dzero) dzero dzero dzero) 5))].
Check (ltac:(passes PoseWithNode_Norm) : True).

(** ** tests/testTrajectory.cpp, without the random samples *)
Definition long_traj : traj (cov_ops fgeom3 pcm_params_default) :=
  let step := PC3 (shift 1 1 0) (eye (dq 1 10000)) true in
  snd (fold_left (fun st i => let p := pc_comp (fst st) step in (p, kset (N.of_nat i) p (snd st))) (seq 0 100)
         (PC3 id3 (@mzero ds 6) true, [])).
(** As in the test, entry [i] holds the pose after [i + 1] steps. *)
Definition Trajectory_MonteCarlo : bool :=
  let step := PC3 (shift 1 1 0) (eye (dq 1 10000)) true in
  let b := fst (get_between long_traj 2%N 99%N) in
  let rebuilt := fold_left (fun p _ => pc_comp p step) (seq 2 97) (PC3 id3 (@mzero ds 6) true) in
  pc_is tol9 b (pc_pose rebuilt) (pc_cov rebuilt).
Check (ltac:(passes Trajectory_MonteCarlo) : True).
Definition a0 := sym ca 0%N. Definition a1 := sym ca 1%N. Definition b0 := sym cb 0%N. Definition b2 := sym cb 2%N.
Definition Trajectory_PoseWithCovarianceBetween : bool :=
  let pa0 := PC3 (shift 1 1 1) (@mzero ds 6) true in
  let pb0 := pc_comp pa0 (PC3 (shift 1 0 0) (eye (dq 1 100)) true) in
  let pa1 := pc_comp pa0 (PC3 (shift 0 1 0) (eye (dq 1 10)) true) in
  let pb1 := pc_comp pb0 (PC3 (ahead turn_left) (eye (dq 2 10)) true) in
  let O := cov_ops fgeom3 pcm_params_default in
  let tr : traj O := kset a0 pa0 (kset a1 pa1 (kset b0 pb0 (kset b2 pb1 []))) in
  near3 tol9 (pc_pose (fst (get_between tr a1 b2))) (pose turn_left (dz 2) (dz (-1)) dzero).
Check (ltac:(passes Trajectory_PoseWithCovarianceBetween) : True).
Definition Trajectory_PoseWithNodeBetween : bool :=
  let pa0 := PN3 (shift 1 1 1) 0 in
  let pb0 := pn_comp pa0 (PN3 (shift 1 0 0) 1) in
  let pa1 := pn_comp pa0 (PN3 (shift 0 1 0) 1) in
  let pb1 := pn_comp pb0 (PN3 (ahead turn_left) 1) in
  let O := node_ops fgeom3 pcm_params_default in
  let tr : traj O := kset a0 pa0 (kset a1 pa1 (kset b0 pb0 (kset b2 pb1 []))) in
  pn_is (fst (get_between tr a1 b2)) (pose turn_left (dz 2) (dz (-1)) dzero) 3.
Check (ltac:(passes Trajectory_PoseWithNodeBetween) : True).
