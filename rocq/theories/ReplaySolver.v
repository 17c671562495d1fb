(** * The project's tests of [RobustSolver], run on the model (see [Replay.v]) *)
From Coq Require Import ZArith QArith Bool List.
From Verif Require Import Prelude Num Keys KMap UMap Geometry Factors Clique Pcm Params Solver Lie Floats Replay ReplayData.
Set Implicit Arguments.
Local Open Scope nat_scope.

(** A solver over poses in three dimensions with the parameters left by a list of setters. *)
Definition poses_are (p : params) : t_pose (tops_of fgeom3 p) = se3 ds.
Proof. unfold tops_of. destruct (pr_method p); exact eq_refl. Defined.
Definition covs_are (p : params) : t_cov (tops_of fgeom3 p) = mat ds 6.
Proof. unfold tops_of. destruct (pr_method p); exact eq_refl. Defined.

Section Test.
Variable l : list setter.
Notation p := (params_after l).
Notation O := (tops_of fgeom3 p).
Definition bet (a b : key) (x : se3 ds) (n : noise (mat ds 6)) := between O (poses_are p) (covs_are p) a b x n.
Definition pri (a : key) (x : se3 ds) := prior O (poses_are p) a x.
Definition vals (vs : list (key * se3 ds)) := poses O (poses_are p) vs.
Definition update (fs : graph_t O) (vs : list (key * se3 ds)) : item O := update_with fs (vals vs).
Definition holding (n e : nat) : item O := @holds O n e.
(** GNC gives a between factor that is odometry or has [inlier i j] the weight 1 (see the tests), a
    loop closure otherwise 0; every other factor 1. *)
Definition weight_of (inlier : key -> key -> bool) (f : option (factor O)) : Q :=
  match f with
  | Some (FBetween b) => if (((b_to b =? b_from b + 1)%N && (chr (b_to b) =? chr (b_from b))%N) || inlier (b_from b) (b_to b)) then 1%Q else 0%Q
  | _ => 1%Q
  end.
Definition oracle (inlier : key -> key -> bool) : soracles O :=
  SOracles (@still_pcm O) (fun _ r =>
    Some (Ans (fun k => match kfind k (rq_vals r) with Some (VPose x) => x | _ => t_pid O end)
              (fun k => match kfind k (rq_vals r) with Some (VOther t) => t | _ => 0 end)
              (fun i => weight_of inlier (nth i (rq_graph r) None)))).
Definition runs_with (inlier : key -> key -> bool) (t : list (item O)) : bool :=
  play (config_of p) (oracle inlier) t (@solver_init O (has_pcm p)).
Definition runs (t : list (item O)) : bool := runs_with (fun _ _ => true) t.

Definition sa i := sym ca i. Definition sb i := sym cb i. Definition sl i := sym cl i.
Definition n01 := iso (dq 1 10). Definition n8 := iso (dq 1 10000000). Definition n10 := iso (dz 10).
Definition back := rot_q dzero dzero dzero done.

(** ** tests/testRemovePriorFactors.cpp *)
Definition prior_test : list (item O) :=
  [update [bet (sa 0) (sa 1) id3 n8; bet (sb 0) (sb 1) id3 n8; bet (sa 1) (sa 2) id3 n8; bet (sa 0) (sa 2) id3 n8;
           bet (sb 0) (sa 1) id3 n8; pri (sa 0) id3; pri (sa 1) id3; pri (sb 0) id3]
          [(sa 0, id3); (sa 1, id3); (sb 0, id3); (sb 1, id3); (sa 2, id3)]; holding 8 5;
   do (@OpRemovePriors O ca true); holding 6 5; do (@OpRemovePriors O cb true); holding 5 5].

(** ** [buildTestGraph] of tests/testRemoveLastLoopClosure.cpp and testIgnorePrefix.cpp *)
Definition two_robots : item O :=
  update [pri (sa 0) id3; pri (sb 0) (shift 0 (-1) 0);
          bet (sa 0) (sa 1) (shift 1 0 0) n10; bet (sb 0) (sb 1) (shift 1 0 0) n10;
          bet (sa 1) (sa 2) (shift 1 0 0) n10; bet (sb 1) (sb 2) (shift 1 0 0) n10;
          bet (sa 2) (sa 3) (shift 1 0 0) n10; bet (sb 2) (sb 3) (shift 1 0 0) n10;
          bet (sa 3) (sa 4) (ahead turn_left) n10; bet (sa 4) (sa 5) (ahead turn_left) n10;
          bet (sb 3) (sb 4) (ahead turn_right) n10; bet (sb 4) (sb 5) (ahead turn_right) n10]
         [(sa 0, id3); (sb 0, shift 0 (-1) 0); (sa 1, shift 1 0 0); (sb 1, shift 1 0 0); (sa 2, shift 1 0 0); (sb 2, shift 1 0 0);
          (sa 3, shift 1 0 0); (sb 3, shift 1 0 0); (sa 4, ahead turn_left); (sa 5, ahead turn_left);
          (sb 4, ahead turn_right); (sb 5, ahead turn_right)].
Definition two_closures : item O := update [bet (sb 0) (sa 0) id3 n8; bet (sa 5) (sa 3) (ahead back) n8] [].
Definition remove_test (first second third : op O) (last : bool) : list (item O) :=
  [two_robots; holding 12 12; two_closures; holding 14 12;
   Call first (removes (sa 5) (sa 3)); holding 13 12; Call second (removes (sb 0) (sa 0)); holding 12 12] ++
  (if last then [Call third (fun r => match r with Some None => true | _ => false end); holding 12 12] else []).
Definition ignore_test (c : N) (left : nat) : list (item O) :=
  [two_robots; holding 12 12; two_closures; holding 14 12; do (@OpIgnore O c); holding left 12; @ignores O [c];
   do (@OpRevive O c); holding 14 12; @ignores O []].

(** ** tests/testLandmark.cpp *)
Definition lmk := no_rot (dz 25).
Definition landmark_test (second bad third : se3 ds) (n0 : nat) (extra : nat) : list (item O) :=
  [update [] [(sa 0, id3)];
   update [bet (sa 0) (sa 1) (shift 1 0 0) n01] [(sa 1, shift 1 0 0)];
   update [bet (sa 1) (sa 2) (shift 1 0 0) n01] [(sa 2, shift 1 0 0)];
   update [bet (sa 2) (sa 3) (ahead turn_left) n01] [(sa 3, ahead turn_left)];
   update [bet (sa 3) (sa 4) (ahead turn_left) n01] [(sa 4, ahead turn_left)];
   update [bet (sa 4) (sa 5) (ahead turn_left) n01] [(sa 5, ahead turn_left)];
   update [bet (sa 3) (sa 2) (pose (rot_z (dq (-157) 100)) dzero (dq 9 10) dzero) n01;
           bet (sa 4) (sa 1) (pose (rot_z (dq 314 100)) (dq 21 10) (dq 11 10) (dq 25 10)) n01] []; holding n0 6;
   update [bet (sa 1) (sl 0) (shift 0 1 0) lmk] [(sl 0, shift 1 1 0)]; holding (n0 + 1) 7;
   update [bet (sa 5) (sl 0) second lmk] []; holding (n0 + 2) 7;
   update [bet (sa 4) (sl 0) bad lmk] []; holding (n0 + 2 + extra) 7;
   update [bet (sa 2) (sl 1) (shift 0 (-1) 0) lmk] [(sl 1, shift 1 1 0)]; holding (n0 + 3 + extra) 8;
   update [bet (sa 5) (sl 1) third lmk] []; holding (n0 + 4 + extra) 8].
Definition rejecting_landmarks := landmark_test (shift 0 (-1) 0) (shift 1 0 0) (shift 2 0 0) 6 0.
Definition keeping_landmarks :=
  landmark_test (pose turn_left dzero (dz (-1)) dzero) (shift 2 0 0) (pose turn_left (dz 2) dzero dzero) 7 1.

(** ** tests/testMultiRobot.cpp *)
Definition multi_robot_test : list (item O) :=
  [update [] [(sa 0, id3); (sb 0, shift 0 (-1) 0)];
   update [bet (sa 0) (sa 1) (shift 1 0 0) n01; bet (sb 0) (sb 1) (shift 1 0 0) n01] [(sa 1, shift 1 0 0); (sb 1, shift 1 0 0)];
   update [bet (sa 1) (sa 2) (shift 1 0 0) n01; bet (sb 1) (sb 2) (shift 1 0 0) n01] [(sa 2, shift 1 0 0); (sb 2, shift 1 0 0)];
   update [bet (sa 2) (sa 3) (shift 1 0 0) n01; bet (sb 2) (sb 3) (shift 1 0 0) n01] [(sa 3, shift 1 0 0); (sb 3, shift 1 0 0)];
   update [bet (sa 3) (sa 4) (ahead turn_left) n01] [(sa 4, ahead turn_left)];
   update [bet (sa 4) (sa 5) (ahead turn_left) n01] [(sa 5, ahead turn_left)];
   update [bet (sb 3) (sb 4) (ahead turn_right) n01] [(sb 4, ahead turn_right)];
   update [bet (sb 4) (sb 5) (ahead turn_right) n01] [(sb 5, ahead turn_right)];
   update [bet (sb 1) (sa 1) (shift 0 1 0) n01; bet (sb 4) (sa 4) (pose turn_back (dz (-1)) dzero dzero) n01] []; holding 12 12;
   update [bet (sa 2) (sb 2) (shift 0 (-1) 0) n01; bet (sb 5) (sa 5) (pose rot_id dzero (dq (-33) 10) dzero) n01] []; holding 12 12;
   update [bet (sa 4) (sa 1) (pose turn_right dzero (dz 3) dzero) n01; bet (sa 4) (sa 2) (pose (rot_z (dq (-154) 100)) dzero (dz 2) dzero) n01] [];
   holding 13 12].

(** ** The data sets *)
Definition pose_of (z : list Z) : se3 ds :=
  let at_ i := dq (nth i z 0%Z) 1000000000000 in
  pose (rot_q (at_ 6) (at_ 3) (at_ 4) (at_ 5)) (at_ 0) (at_ 1) (at_ 2).
Definition g2o_noise : noise (mat ds 6) :=
  let r := ddiv done (dq 100144 10000) in let t := ddiv done (dq 250044 100000) in Gauss (fdiag [r; r; r; t; t; t]).
Definition edges_of (c : N) (es : list (N * N * list Z)) : graph_t O :=
  map (fun e => let '(i, j, z) := e in bet (sym c i) (sym c j) (pose_of z) g2o_noise) es.
Definition vertices_of (c : N) (vs : list (N * list Z)) : list (key * se3 ds) :=
  map (fun v => (sym c (fst v), pose_of (snd v))) vs.
Definition robot_a (with_prior : bool) : item O :=
  update (edges_of ca edges_a ++ (if with_prior then [pri (sa 0) id3] else [])) (vertices_of ca vertices_a).
Definition robot_b : item O := update (edges_of cb edges_b) (vertices_of cb vertices_b).
Definition n001 := iso (dq 1 100).
Definition meet (i : N) := bet (sa i) (sb i) id3 n001.

(** ** tests/testLoadGraph.cpp *)
Definition load_test (prior : bool) (n : nat) : list (item O) := [robot_a prior; holding n 50].
Definition add_test (n : nat) (two : bool) : list (item O) :=
  [robot_a true; robot_b; holding n 92; update (meet 1 :: if two then [meet 2] else []) []; holding (n + 1) 92].

(** ** tests/testGnc.cpp *)
Definition weighing (n i k : nat) (q t : Q) : item O := @weights_are O n i k q t.
Definition inliers (z : Z) : item O := inliers_are O (config_of p) z.
Definition gnc_single (k : Z) : list (item O) :=
  [robot_a true; holding 53 50; weighing 53 50 3 (inject_Z k) (inject_Z (50 + k)); inliers k].
Definition gnc_multi (k : Z) : list (item O) :=
  [robot_a true; robot_b; holding 96 92; weighing 96 91 5 (inject_Z k) (inject_Z (91 + k)); inliers k;
   update [meet 1; meet 2] []; holding 98 92; weighing 98 91 7 (inject_Z (k + 2)) (inject_Z (93 + k)); inliers (k + 2)].

(** ** tests/testTemporary.cpp *)
Definition temporary_test : list (item O) :=
  [robot_a false; holding 52 50; weighing 52 49 3 0 49; inliers 0;
   do (OpTempUpdate [bet (sa 0) (sb 0) id3 n001] (vals [(sb 0, id3)])); do (OpForce [] (vals []));
   holding 52 50; @temp_holds O 1; @weights_size O 52; inliers 0;
   do (@OpTempClear O); do (OpForce [] (vals [])); holding 52 50; @temp_holds O 0; weighing 52 49 3 0 49; inliers 0].
End Test.
Arguments runs {l} t.
Arguments runs_with {l} inlier t.

Definition pcm a b := SetPcm true (dz a) (dz b) VQuiet.
Definition simple a b := SetPcmSimple true (dz a) (dz b) VQuiet.
Definition no_rejection := SetNoRejection VQuiet.
Definition between_robots (a b : key) : bool := negb (chr a =? chr b)%N.
Definition all_closures (_ _ : key) : bool := true.
Definition no_closure (_ _ : key) : bool := false.

Definition RemovePriorFactors : bool :=
  forallb (fun b : bool => b)
    [runs (prior_test [no_rejection]); runs (prior_test [pcm 100 100])].
Check (ltac:(passes RemovePriorFactors) : True).
Definition RemoveLastLoopClosure : bool :=
  forallb (fun b : bool => b)
    [runs (@remove_test [no_rejection] (@OpRemoveId _ ca ca) (@OpRemoveId _ ca cb) (@OpRemoveLast _) false);
       runs (@remove_test [pcm 100 100] (@OpRemoveId _ ca ca) (@OpRemoveId _ ca cb) (@OpRemoveLast _) false);
       runs (@remove_test [pcm 100 100] (@OpRemoveLast _) (@OpRemoveLast _) (@OpRemoveLast _) true)].
Check (ltac:(passes RemoveLastLoopClosure) : True).
Definition IgnorePrefix : bool :=
  forallb (fun b : bool => b)
    [runs (ignore_test [pcm 100 100] ca 12); runs (ignore_test [pcm 100 100] cb 13)].
Check (ltac:(passes IgnorePrefix) : True).
Definition special_l := SetSpecial [cl].
Definition Landmark : bool :=
  forallb (fun b : bool => b)
    [runs (rejecting_landmarks [SetPcm true (dz 5) (dq 5 2) VQuiet; special_l]);
       runs (rejecting_landmarks [SetPcmSimple true (dq 3 10) (dq 5 100) VQuiet; special_l]);
       runs (keeping_landmarks [no_rejection; special_l])].
Check (ltac:(passes Landmark) : True).
Definition MultiRobot : bool :=
  forallb (fun b : bool => b)
    [runs (multi_robot_test [SetPcm true (dz 3) (dq 5 100) VQuiet; SetAlign true]);
       runs (multi_robot_test [SetPcmSimple true (dq 4 100) (dq 1 100) VQuiet; SetAlign true])].
Check (ltac:(passes MultiRobot) : True).
Definition LoadGraph : bool :=
  forallb (fun b : bool => b)
    [runs (load_test [pcm 0 10] true 50); runs (load_test [pcm 100 100; SetSpecial [cl; cu]] true 53); runs (load_test [pcm 0 10] false 49);
       runs (load_test [no_rejection] true 53); runs (load_test [SetPcmSimple true (dq 1 1000) (dq 1 10000) VQuiet] true 50);
       runs (load_test [simple 100 100] true 53); runs (load_test [simple 100 100] false 52)].
Check (ltac:(passes LoadGraph) : True).
Definition AddGraph : bool :=
  forallb (fun b : bool => b)
    [runs (add_test [pcm 0 0] 91 true); runs (add_test [pcm 100 100] 96 false); runs (add_test [no_rejection] 96 false);
       runs (add_test [simple 0 0] 91 true); runs (add_test [simple 100 100] 96 false)].
Check (ltac:(passes AddGraph) : True).
Definition Gnc : bool :=
  forallb (fun b : bool => b)
    [runs_with no_closure (gnc_single [pcm 100 100; SetGnc false false] 0);
       runs_with all_closures (gnc_single [pcm 100 100; SetGnc false false] 3);
       runs_with between_robots (gnc_multi [pcm 100 100; SetGnc false false] 0);
       runs_with all_closures (gnc_multi [pcm 100 100; SetGnc false false] 5)].
Check (ltac:(passes Gnc) : True).
Definition Temporary : bool :=
  runs_with no_closure (temporary_test [SetPcm true (dz 100) (dz 100) VVerbose; SetGnc false false]).
Check (ltac:(passes Temporary) : True).
