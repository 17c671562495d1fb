(** * Model of [Pcm<poseT, T>] ([/repo/include/KimeraRPGO/outlier/Pcm.h])

    Line numbers refer to that file unless another one is named.  Left out: console output,
    timing, file output, [dist_matrix] (written but never read by the code) and the three
    graphs kept "for logging" (never read).  Lists of loop closures contain between factors
    only, because only those are ever added to them (168-199, 421-422), so the cast at 421
    cannot fail and the branch 496-500 is unreachable. *)
From Verif Require Import Prelude Keys KMap UMap Geometry Factors Clique.
Set Implicit Arguments.

(** Options that reach the PCM and the solver. [c_odom_check]/[c_loop_check] are
    [odom_check_]/[loop_consistency_check_]; [c_align]: the alignment method is not [NONE]. *)
Record config := Cfg {
  c_special : list N;
  c_odom_check : bool;
  c_loop_check : bool;
  c_incremental : bool;
  c_align : bool;
  c_gnc : bool;        (* RobustSolverParams::use_gnc_ *)
  c_fix : bool;        (* gnc_params.fix_prev_inliers_ *)
  c_bias : bool;       (* gnc_params.bias_odom_ *)
  c_gn : bool;         (* Solver::GN instead of Solver::LM *)
  c_debug : bool;      (* GenericSolver::debug_ *)
  c_log : bool }.      (* GenericSolver::log_ *)

Section Pcm.
Variable O : tops.

Notation bf := (bf O).
Notation factor := (factor O).
Notation values := (values O).
Notation graph_t := (graph_t O).
Notation T := (t_T O).

(** Behaviour the code does not control. [w_lc_order]/[w_lm_order]: iteration order of the
    two unordered maps, given the keys in order of insertion; [w_avg]: the GNC
    pose averaging of 1093-1131 ([None]: it throws); [w_freed n a]: the entries read by
    [adj = adj.block(0,0,n-1,n-1)] (322-323), where Eigen frees the old storage of [adj]
    before copying from it, so that the copy reads freed memory. *)
Record oracles := Oracles {
  w_lc_order : list obsid -> obsid -> nat;
  w_lm_order : list key -> key -> nat;
  w_avg : list (t_pose O) -> option (t_pose O);
  w_freed : nat -> (nat -> nat -> bool) -> nat -> nat -> bool }.

(** [Measurements] (utils/TypeUtils.h:16-33). *)
Record meas := Meas { me_factors : list bf; me_cons : list bf; me_adj : matrix }.

Definition zero_mat (n : nat) : matrix := Mat n n (fun _ _ => false).
Definition meas_default : meas := Meas [] [] (zero_mat 1).

(** State (90-132). *)
Record pcm := Pcm {
  p_odom : list bf;                 (* nfg_odom_ *)
  p_special : list factor;          (* nfg_special_ *)
  p_lcs : umap obsid meas;          (* loop_closures_ *)
  p_trajs : umap N (traj O);        (* odom_trajectories_ *)
  p_lms : umap key meas;            (* landmarks_ *)
  p_order : list obsid;             (* loop_closures_in_order_ *)
  p_total : nat;                    (* total_lc_ *)
  p_good : nat;                     (* total_good_lc_ *)
  p_ignored : list N;               (* ignored_prefixes_ *)
  p_robots : list N }.              (* robot_order_ *)

Definition pcm_init : pcm := Pcm [] [] [] [] [] [] 0 0 [] [].

Definition set_odom p x := Pcm x (p_special p) (p_lcs p) (p_trajs p) (p_lms p) (p_order p)
  (p_total p) (p_good p) (p_ignored p) (p_robots p).
Definition set_special p x := Pcm (p_odom p) x (p_lcs p) (p_trajs p) (p_lms p) (p_order p)
  (p_total p) (p_good p) (p_ignored p) (p_robots p).
Definition set_lcs p x := Pcm (p_odom p) (p_special p) x (p_trajs p) (p_lms p) (p_order p)
  (p_total p) (p_good p) (p_ignored p) (p_robots p).
Definition set_trajs p x := Pcm (p_odom p) (p_special p) (p_lcs p) x (p_lms p) (p_order p)
  (p_total p) (p_good p) (p_ignored p) (p_robots p).
Definition set_lms p x := Pcm (p_odom p) (p_special p) (p_lcs p) (p_trajs p) x (p_order p)
  (p_total p) (p_good p) (p_ignored p) (p_robots p).
Definition set_order p x := Pcm (p_odom p) (p_special p) (p_lcs p) (p_trajs p) (p_lms p) x
  (p_total p) (p_good p) (p_ignored p) (p_robots p).
Definition set_total p x := Pcm (p_odom p) (p_special p) (p_lcs p) (p_trajs p) (p_lms p) (p_order p)
  x (p_good p) (p_ignored p) (p_robots p).
Definition set_good p x := Pcm (p_odom p) (p_special p) (p_lcs p) (p_trajs p) (p_lms p) (p_order p)
  (p_total p) x (p_ignored p) (p_robots p).
Definition set_ignored p x := Pcm (p_odom p) (p_special p) (p_lcs p) (p_trajs p) (p_lms p) (p_order p)
  (p_total p) (p_good p) x (p_robots p).
Definition set_robots p x := Pcm (p_odom p) (p_special p) (p_lcs p) (p_trajs p) (p_lms p) (p_order p)
  (p_total p) (p_good p) (p_ignored p) x.

Notation lc_find := (ufind oid_eqb).
Notation lc_get := (uget oid_eqb meas_default).
Notation lc_set := (uset oid_eqb).
Notation n_find := (ufind N.eqb).
Notation n_set := (uset N.eqb).
Notation lm_get := (uget N.eqb meas_default).
Notation tr_get := (uget N.eqb (@nil (N * T))).

Variable C : config.

(** [isSpecialSymbol] (506-511) of the prefix of a key. *)
Definition is_special (k : key) : bool := existsb (N.eqb (chr k)) (c_special C).

Inductive ftype := Odometry | FirstLandmark | LoopClosure | NonBetween.

(** Classification of a non-null factor (173-199). *)
Definition classify (new_vals : values) (f : factor) : ftype :=
  match f with
  | FBetween b =>
      if is_special (b_from b) || is_special (b_to b) then
        if kmem (b_from b) new_vals || kmem (b_to b) new_vals then FirstLandmark else LoopClosure
      else if (ksucc (b_from b) =? b_to b)%N && kmem (b_to b) new_vals then Odometry
      else LoopClosure
  | _ => NonBetween
  end.

(** The landmark end of a landmark factor (214-216, 444-446). *)
Definition landmark_key (b : bf) : key := if is_special (b_from b) then b_from b else b_to b.

(** [updateOdom] (516-557); [vals] is [output_values]. *)
Definition update_odom (vals : values) (b : bf) (p : pcm) : outcome pcm unit :=
  let p1 := set_odom p (p_odom p ++ [b]) in
  let prefix := chr (b_to b) in
  match t_of O b with
  | None => Undef NullDeref
  | Some delta =>
      let start :=
        match n_find prefix (p_trajs p1) with
        | Some _ => Ok p1 tt
        | None =>
            match kfind (b_from b) vals with
            | None => Throw p1 (KeyDoesNotExist (b_from b))
            | Some (VOther _) => Throw p1 (IncorrectType (b_from b))
            | Some (VPose x) =>
                Ok (set_robots (set_trajs p1 (n_set prefix [(b_from b, t_init O x)] (p_trajs p1)))
                               (p_robots p1 ++ [prefix])) tt
            end
        end in
      obind start (fun p2 _ =>
        let tr := ttouch (tr_get prefix (p_trajs p2)) (b_from b) in
        let tr' := kset (b_to b) (t_comp O (tget tr (b_from b)) delta) tr in
        Ok (set_trajs p2 (n_set prefix tr' (p_trajs p2))) tt)
  end.

(** Storing a first landmark sighting (207-220). *)
Definition first_landmark (b : bf) (p : pcm) : pcm :=
  set_total (set_lms p (n_set (landmark_key b) (Meas [b] [b] (zero_mat 1)) (p_lms p)))
            (S (p_total p)).

(** One iteration of the loop 164-240: the PCM, the collected loop closures and [do_optimize]. *)
Definition proc_factor (new_vals vals : values) (of : option factor)
    (p : pcm) (acc : list bf * bool) : outcome pcm (list bf * bool) :=
  match of with
  | None => Ok p acc
  | Some f =>
      match f, classify new_vals f with
      | FBetween b, Odometry => obind (update_odom vals b p) (fun p' _ => Ok p' acc)
      | FBetween b, FirstLandmark => Ok (first_landmark b p) acc
      | FBetween b, LoopClosure =>
          if (b_from b =? b_to b)%N then Ok p acc else Ok p (fst acc ++ [b], snd acc)
      | _, _ => Ok (set_special p (p_special p ++ [f])) (fst acc, true)
      end
  end.

Fixpoint proc_factors (new_vals vals : values) (fs : graph_t)
    (p : pcm) (acc : list bf * bool) : outcome pcm (list bf * bool) :=
  match fs with
  | [] => Ok p acc
  | of :: fs' =>
      obind (proc_factor new_vals vals of p acc) (fun p' acc' => proc_factors new_vals vals fs' p' acc')
  end.

(** [odom_trajectories_[c].getBetween(a, b)]. *)
Definition traj_between (p : pcm) (c : N) (a b : key) : T * pcm :=
  let '(t, tr) := get_between (tr_get c (p_trajs p)) a b in
  (t, set_trajs p (n_set c tr (p_trajs p))).

(** [isOdomConsistent] (604-629). *)
Definition is_odom_consistent (p : pcm) (b : bf) : res (bool * pcm) :=
  if negb (c_odom_check C) then Val (true, p)
  else
    let '(pij, p') := traj_between p (chr (b_from b)) (b_from b) (b_to b) in
    match t_of O b with
    | None => Bad NullDeref
    | Some t => Val (t_odom_ok O (t_comp O pij (t_inv O t)), p')
    end.

(** [areLoopsConsistent] (670-718). *)
Definition are_loops_consistent (p : pcm) (f1 f2 : bf) : res (bool * pcm) :=
  if negb (c_loop_check C) then Val (true, p)
  else
    let a := b_from f1 in
    let b := b_to f1 in
    match t_of O f1, t_of O f2 with
    | Some a_lc_b, Some c_lc_d =>
        let '(c, d) := if (chr a =? chr (b_from f2))%N then (b_from f2, b_to f2)
                       else (b_to f2, b_from f2) in
        let '(a_odom_c, p1) := traj_between p (chr a) a c in
        let '(b_odom_d, p2) := traj_between p1 (chr b) b d in
        let a_path_d := t_comp O a_odom_c c_lc_d in
        let d_path_b := t_comp O (t_inv O a_path_d) a_lc_b in
        Val (t_loop_ok O (t_comp O d_path_b b_odom_d), p2)
    | _, _ => Bad NullDeref
    end.

(** A matrix grown by one row and column (735-741, 757-763). *)
Definition grow_mat (old : matrix) (bits : list bool) (n1 : nat) : matrix :=
  Mat (S n1) (S n1) (fun i j =>
    if (i <? n1) && (j <? n1) then m_at old i j
    else if (i =? n1) && (j <? n1) then nth j bits false
    else if (j =? n1) && (i <? n1) then nth i bits false
    else false).

Definition dims_are (m : matrix) (n : nat) : bool := (m_rows m =? n) && (m_cols m =? n).

(** Tests of the new loop closure against the earlier ones (745-764). *)
Fixpoint lc_bits (fs : list bf) (new : bf) (p : pcm) (bits : list bool) : res (list bool * pcm) :=
  match fs with
  | [] => Val (bits, p)
  | f :: fs' =>
      let* '(r, p') := are_loops_consistent p f new in
      lc_bits fs' new p' (bits ++ [r])
  end.

(** [incrementAdjMatrix] (725-768). *)
Definition increment_adj (id : obsid) (new : bf) (p : pcm) : res pcm :=
  let m := lc_get id (p_lcs p) in
  let n := length (me_factors m) in
  let store adj p' := set_lcs p' (lc_set id (Meas (me_factors m) (me_cons m) adj) (p_lcs p')) in
  if n <=? 1 then Val (store (zero_mat n) p)
  else if dims_are (me_adj m) (n - 1) then
    let* '(bits, p') := lc_bits (firstn (n - 1) (me_factors m)) new p [] in
    Val (store (grow_mat (me_adj m) bits (n - 1)) p')
  else Bad EigenMismatch.

(** Tests of a landmark re-observation against the earlier ones (794-838); [None] is the
    early [return] of 803-808. *)
Fixpoint lm_bits (l : key) (fs : list bf) (new : bf) (p : pcm) (bits : list bool)
  : res (option (list bool) * pcm) :=
  match fs with
  | [] => Val (Some bits, p)
  | f :: fs' =>
      if (b_from f =? l)%N || (b_from new =? l)%N then Val (None, p)
      else
        match t_of O f, t_of O new with
        | Some i_l, Some j_l =>
            let '(i_odom_j, p') := traj_between p (chr (b_from f)) (b_from f) (b_from new) in
            let loop := t_comp O (t_inv O (t_comp O i_odom_j j_l)) i_l in
            lm_bits l fs' new p' (bits ++ [t_loop_ok O loop])
        | _, _ => Bad NullDeref
        end
  end.

(** [incrementLandmarkAdjMatrix] (775-844). [new] is the last stored factor (790-791). *)
Definition increment_landmark_adj (l : key) (new : bf) (p : pcm) : res pcm :=
  let m := lm_get l (p_lms p) in
  let n := length (me_factors m) in
  let store adj p' := set_lms p' (n_set l (Meas (me_factors m) (me_cons m) adj) (p_lms p')) in
  if n <=? 1 then Val (store (zero_mat n) p)
  else if dims_are (me_adj m) (n - 1) then
    let* '(ob, p') := lm_bits l (firstn (n - 1) (me_factors m)) new p [] in
    match ob with
    | None => Val p'
    | Some bits => Val (store (grow_mat (me_adj m) bits (n - 1)) p')
    end
  else Bad EigenMismatch.

Definition meas_add (m : meas) (b : bf) : meas := Meas (me_factors m ++ [b]) (me_cons m) (me_adj m).

(** [num_new_loopclosures]: counts per robot pair (467-475). *)
Definition numnew := umap obsid nat.
Definition nn_incr (id : obsid) (nn : numnew) : numnew :=
  match lc_find id nn with
  | None => nn ++ [(id, 1)]
  | Some c => lc_set id (S c) nn
  end.

(** One iteration of [parseAndIncrementAdjMatrix] (418-501). *)
Definition parse_one (vals : values) (b : bf) (st : pcm * numnew) : res (pcm * numnew) :=
  let '(p, nn) := st in
  if negb (kmem (b_from b) vals) || negb (kmem (b_to b) vals) then Val (p, nn)
  else if is_special (b_from b) || is_special (b_to b) then
    let l := landmark_key b in
    let p1 := set_total (set_lms p (n_set l (meas_add (lm_get l (p_lms p)) b) (p_lms p)))
                        (S (p_total p)) in
    let* p2 := increment_landmark_adj l b p1 in
    Val (p2, nn)
  else
    let* '(ok, p1) := if (chr (b_from b) =? chr (b_to b))%N then is_odom_consistent p b
                      else Val (true, p) in
    if ok then
      let id := (chr (b_from b), chr (b_to b)) in
      let p2 := set_lcs p1 (lc_set id (meas_add (lc_get id (p_lcs p1)) b) (p_lcs p1)) in
      let p3 := set_total (set_order p2 (p_order p2 ++ [id])) (S (p_total p2)) in
      let* p4 := if c_loop_check C then increment_adj id b p3 else Val p3 in
      Val (p4, nn_incr id nn)
    else Val (p1, nn).

Definition parse_all (vals : values) (bs : list bf) (p : pcm) : res (pcm * numnew) :=
  rfold (parse_one vals) bs (p, []).

(** [for (i < num_inliers) consistent.add(factors[inliers_idx[i]])] (867-869 and alike).
    [num_inliers] is an [int] converted to [size_t]: a negative one makes the loop index the
    (empty) index vector immediately. *)
Definition select (fs : list bf) (k : Z) (data : list nat) : res (list bf) :=
  if (k <? 0)%Z then Bad OutOfBounds
  else rfold (fun i acc =>
         let* ix := vget data i in
         let* f := vget fs ix in
         Val (acc ++ [f])) (seq 0 (Z.to_nat k)) [].

(** Inliers of one container by the heuristic (861-869, 884-893). *)
Definition heu_inliers (m : meas) : res meas :=
  let* '(k, data) := find_max_clique_heu (me_adj m) in
  let* cs := select (me_factors m) k data in
  Val (Meas (me_factors m) cs (me_adj m)).

Definition pair_inliers (m : meas) : res meas :=
  if c_loop_check C then heu_inliers m else Val (Meas (me_factors m) (me_factors m) (me_adj m)).

Fixpoint umapM {K} (f : meas -> res meas) (m : umap K meas) : res (umap K meas) :=
  match m with
  | [] => Val []
  | (k, v) :: m' =>
      let* v' := f v in
      let* m'' := umapM f m' in
      Val ((k, v') :: m'')
  end.

Definition count_cons {K} (m : umap K meas) : nat :=
  fold_right (fun kv n => length (me_cons (snd kv)) + n) 0 m.

(** [findInliers] (851-899).  Each iteration touches only its own entry, so the iteration order
    does not matter; [num_inliers] is the number of factors added. *)
Definition find_inliers (p : pcm) : res pcm :=
  let* lcs := umapM pair_inliers (p_lcs p) in
  let* lms := umapM heu_inliers (p_lms p) in
  Val (set_good (set_lms (set_lcs p lcs) lms) (count_cons lcs + count_cons lms)).

(** One robot pair of [findInliersIncremental] (914-944). *)
Definition inc_inliers (nw : nat) (m : meas) : res meas :=
  let* '(k, data) := find_max_clique_heu_inc (me_adj m) nw (length (me_cons m)) in
  if (k =? 0)%Z then Val m
  else
    let* cs := select (me_factors m) k data in
    Val (Meas (me_factors m) cs (me_adj m)).

(** [findInliersIncremental] (906-970). *)
Definition find_inliers_inc (nn : numnew) (p : pcm) : res pcm :=
  let* lcs := rfold (fun '(id, nw) lcs =>
                let* m' := inc_inliers nw (lc_get id lcs) in
                Val (lc_set id m' lcs)) nn (p_lcs p) in
  let* lms := umapM heu_inliers (p_lms p) in
  Val (set_good (set_lms (set_lcs p lcs) lms) (count_cons lcs + count_cons lms)).

Variable W : oracles.

Definition ignored (p : pcm) (id : obsid) : bool :=
  existsb (N.eqb (fst id)) (p_ignored p) || existsb (N.eqb (snd id)) (p_ignored p).

(** Consistent loop closures in iteration order, without the ignored robot pairs (984-996). *)
Definition build_lcs (p : pcm) : list bf :=
  flat_map (fun '(id, m) => if ignored p id then [] else me_cons m) (uiter (w_lc_order W) (p_lcs p)).

(** 997-1003. *)
Definition build_lms (p : pcm) : list bf :=
  flat_map (fun '(_, m) => me_cons m) (uiter (w_lm_order W) (p_lms p)).

(** [buildGraphToOptimize] (977-1005). *)
Definition build (p : pcm) : list factor :=
  map FBetween (p_odom p) ++ p_special p ++ map FBetween (build_lcs p) ++ map FBetween (build_lms p).

Definition graph_of (p : pcm) : graph_t := map Some (build p).

(** [std::sort] of the robot prefixes (1018). *)
Fixpoint ninsert (x : N) (l : list N) : list N :=
  match l with
  | [] => [x]
  | y :: l' => if (schar x <=? schar y)%Z then x :: l else y :: ninsert x l'
  end.
Definition nsort (l : list N) : list N := fold_right ninsert [] l.

(** [getRobotOdomValues] (1080-1088); [None]: [odom_trajectories_.at] throws [std::out_of_range]. *)
Definition robot_odom_values (p : pcm) (c : N) (tf : t_pose O) : option values :=
  match n_find c (p_trajs p) with
  | None => None
  | Some tr => Some (kmapi (fun _ t => VPose (t_pcomp O tf (t_getpose O t))) tr)
  end.

(** The transform measured by one loop closure (1032-1056); [None]: [poses.at] throws
    [std::out_of_range]. *)
Definition frame_meas (p : pcm) (r0 ri : N) (b : bf) : option (t_pose O) :=
  let '(front, back, m) :=
    if same_char (chr (b_from b)) r0 then (b_from b, b_to b, b_meas b)
    else (b_to b, b_from b, t_pinv O (b_meas b)) in
  match kfind front (tr_get r0 (p_trajs p)), kfind back (tr_get ri (p_trajs p)) with
  | Some tf, Some tb =>
      Some (t_pcomp O (t_pcomp O (t_getpose O tf) m) (t_pinv O (t_getpose O tb)))
  | _, _ => None
  end.

Fixpoint frame_all (p : pcm) (r0 ri : N) (bs : list bf) : option (list (t_pose O)) :=
  match bs with
  | [] => Some []
  | b :: bs' =>
      match frame_meas p r0 ri b, frame_all p r0 ri bs' with
      | Some x, Some xs => Some (x :: xs)
      | _, _ => None
      end
  end.

(** One robot of the loop 1023-1072 on [initialized_values].  [out_of_range] is caught (the
    robot is skipped), other exceptions propagate. *)
Definition align_one (p : pcm) (r0 ri : N) (vs : values) : outcome values unit :=
  match lc_find (r0, ri) (p_lcs p) with
  | None => Ok vs tt
  | Some m =>
      match frame_all p r0 ri (me_cons m) with
      | None => Ok vs tt
      | Some ts =>
          match w_avg W ts with
          | None => Throw vs OptimizerFailure
          | Some tf =>
              match robot_odom_values p ri tf with
              | None => Ok vs tt
              | Some rv => vupdate_all rv vs
              end
          end
      end
  end.

Fixpoint align_rest (p : pcm) (r0 : N) (rs : list N) (vs : values) : outcome values unit :=
  match rs with
  | [] => Ok vs tt
  | ri :: rs' => obind (align_one p r0 ri vs) (fun vs' _ => align_rest p r0 rs' vs')
  end.

(** [multirobotValueInitialization] (1011-1074) on a copy of the values; [robot_order_] is
    already sorted in [p].  [odom_trajectories_.at] of the first robot is outside the [try]. *)
Definition align (p : pcm) (vs : values) : outcome values unit :=
  match p_robots p with
  | [] => Ok vs tt
  | r0 :: rs =>
      match robot_odom_values p r0 (t_pid O) with
      | None => Throw vs OutOfRange
      | Some rv => obind (vupdate_all rv vs) (fun vs' _ => align_rest p r0 rs vs')
      end
  end.

(** State shared with the solver during a call: PCM, [*output_nfg], [*output_values]. *)
Record pst := PSt { ps_pcm : pcm; ps_nfg : graph_t; ps_vals : values }.

(** [removeOutliers] (148-281). *)
Definition remove_outliers (fs : graph_t) (new_vals : values) (s : pst) : outcome pst bool :=
  match vinsert_all new_vals (ps_vals s) with
  | Throw vs e => Throw (PSt (ps_pcm s) (ps_nfg s) vs) e
  | Undef u => Undef u
  | Ok vs _ =>
      match fs with
      | [] => Ok (PSt (ps_pcm s) (ps_nfg s) vs) false
      | _ :: _ =>
          match proc_factors new_vals vs fs (ps_pcm s) ([], false) with
          | Throw p e => Throw (PSt p (ps_nfg s) vs) e
          | Undef u => Undef u
          | Ok p1 (lcs, opt) =>
              let r :=
                match lcs with
                | [] => Val (p1, opt)
                | _ :: _ =>
                    let* '(p2, nn) := parse_all vs lcs p1 in
                    let* p3 := if c_incremental C then find_inliers_inc nn p2 else find_inliers p2 in
                    Val (p3, true)
                end in
              match r with
              | Bad u => Undef u
              | Val (p3, opt') =>
                  let nfg := graph_of p3 in
                  if c_align C && (1 <? length (p_robots p3)) then
                    let p4 := set_robots p3 (nsort (p_robots p3)) in
                    match align p4 vs with
                    | Ok vs' _ => Ok (PSt p4 nfg vs') opt'
                    | Throw _ e => Throw (PSt p4 nfg vs) e
                    | Undef u => Undef u
                    end
                  else Ok (PSt p3 nfg vs) opt'
              end
          end
      end
  end.

(** [Edge] (TypeUtils.h:35-41). *)
Definition edge_of (b : bf) : key * key := (b_from b, b_to b).

(** [adj.block(0, 0, n-1, n-1)] assigned to [adj] itself (322-325). *)
Definition shrink_mat (m : matrix) : matrix :=
  Mat (m_rows m - 1) (m_rows m - 1) (w_freed W (m_rows m) (m_at m)).

(** [removeLastLoopClosure(id, updated_factors)] (299-340). [None] in the result is a null edge,
    in which case the graph is not rebuilt. *)
Definition pcm_remove_last_id (id : obsid) (p : pcm) : res (pcm * option (key * key)) :=
  match lc_find id (p_lcs p) with
  | None => Val (p, None)
  | Some m =>
      if m_rows (me_adj m) <=? 0 then Val (p, None)
      else
        match rev (me_factors m) with
        | [] => Bad OutOfBounds    (* factors[size_t(0) - 1] *)
        | last :: _ =>
            let fs := removelast (me_factors m) in
            let* m' :=
              if length fs <? 2 then Val (Meas fs fs (me_adj m))
              else if m_cols (me_adj m) =? m_rows (me_adj m) then
                heu_inliers (Meas fs [] (shrink_mat (me_adj m)))
              else Bad EigenMismatch in
            Val (set_lcs p (lc_set id m' (p_lcs p)), Some (edge_of last))
        end
  end.

(** [removeLastLoopClosure(updated_factors)] (346-353). *)
Definition pcm_remove_last (p : pcm) : res (pcm * option (key * key)) :=
  match rev (p_order p) with
  | [] => Val (p, None)
  | id :: _ => pcm_remove_last_id id (set_order p (removelast (p_order p)))
  end.

(** [ignoreLoopClosureWithPrefix] (357-365). *)
Definition pcm_ignore (c : N) (p : pcm) : pcm :=
  if existsb (N.eqb c) (p_ignored p) then p else set_ignored p (p_ignored p ++ [c]).

(** [reviveLoopClosureWithPrefix] (369-377). *)
Definition pcm_revive (c : N) (p : pcm) : pcm :=
  set_ignored p (filter (fun x => negb (x =? c)%N) (p_ignored p)).

(** [removePriorFactorsWithPrefix] (387-408). *)
Definition pcm_remove_priors (c : N) (p : pcm) : pcm :=
  set_special p (filter (fun f => match f with FPrior k _ => negb (same_char (chr k) c) | _ => true end)
                        (p_special p)).

End Pcm.

Arguments Meas {O}.
Arguments pcm_init {O}.
Arguments meas_default {O}.
Arguments PSt {O}.
Notation lc_find := (ufind oid_eqb).
Notation lc_get := (uget oid_eqb meas_default).
Notation lc_set := (uset oid_eqb).
Notation n_find := (ufind N.eqb).
Notation n_set := (uset N.eqb).
Notation lm_get := (uget N.eqb meas_default).
