(** * Properties C47 to C50: the example programs *)
From Coq Require Import String QArith.
From Verif Require Import Prelude Num Keys KMap UMap Geometry Factors Clique Pcm Params Solver Programs Grid PcmSpec HistSpec PcmProofs UpdateProofs
  ProgProofs Scenes.
Local Open Scope nat_scope.

(** ** Concrete command lines and a concrete file *)
Definition read (s : string) : Programs.parsed double :=
  if String.eqb s "10" then Parsed (dofZ 10) else if String.eqb s "-2" then Parsed (dofZ (-2))
  else if String.eqb s "-1" then Parsed (dofZ (-1))
  else if String.eqb s "0" then Parsed dzero else if String.eqb s "1" then Parsed (dofZ 1)
  else if String.eqb s "nan" then Parsed S754_nan
  else if String.eqb s "1e99" then OutsideRange else Malformed.
Definition readz (s : string) : Programs.parsed Z :=
  if String.eqb s "0" then Parsed 0%Z else if String.eqb s "1" then Parsed 1%Z
  else if String.eqb s "2" then Parsed 2%Z else Malformed.
Definition line_b : list string := ["rpgo"; "2d"; "in.g2o"; "10"; "10"; "1"; "out"]%string.
Definition line_i (inc t : string) : list string := ["rpgo"; "2d"; "in.g2o"; inc; "0"; "0"; t; t; "out"]%string.
Definition job_of (x : start) : job := match x with Solves j => j | _ => Job false "" "" [] end.
Definition jb := job_of (main_batch read line_b).
Definition ji (inc t : string) := job_of (main_incremental read read readz (line_i inc t)).
Definition pp_b := pr_pcm (job_params jb).
Definition OB : tops := tops_of grid (job_params jb).
Definition WB : soracles OB := plain_soracles OB gp_id.

(** Four poses in a row and loop closures between them. *)
Definition g2o_graph (l : list (N * N * Z)) : graph_t OB :=
  map (fun x => match x with (f, t, m) => gbet pp_b (ka f) (ka t) (fwd m) end)
      (app [(0, 1, 10%Z); (1, 2, 10%Z); (2, 3, 10%Z)]%N l).
Definition g2o_values : values OB := map (fun i => gval pp_b (ka i) (fwd (10 * Z.of_N i))) [0; 1; 2; 3]%N.
Definition file1 := g2o_graph [(0, 3, 30%Z); (1, 3, 20%Z); (0, 2, 99%Z)]%N.
Definition file2 := g2o_graph [(0, 3, 60%Z); (0, 2, (-3)%Z); (3, 1, 8%Z); (3, 0, (-57)%Z); (0, 2, (-2)%Z); (3, 0, (-59)%Z)]%N.

(** Ends of the saved factors, numbers of the poses only. *)
Definition ends (s : solver OB) : list (list N) :=
  map (fun of => match of with Some f => map (fun k => (k mod 16)%N) (f_keys f) | None => [] end) (s_nfg s).
Definition saved (x : outcome (solver OB) unit) : option (list (list N)) :=
  match x with Ok s _ => Some (ends s) | _ => None end.

(** ** C47 *)
(** Started with the same dimension and thresholds and without the incremental flag, the two
    programs save the same graph (same factors, same order), the same variables and the same number
    of loop closures, whatever the file contains and whatever the other arguments are. *)
Theorem C47_programs_save_the_same_graph : forall G stof stod stoi argv argv' j j' w,
  main_batch stof argv = Solves j -> main_incremental stof stod stoi argv' = Solves j' ->
  nth_error argv 1 = nth_error argv' 1 -> nth_error argv 3 = nth_error argv' 6 -> nth_error argv 4 = nth_error argv' 7 ->
  nth_error argv' 3 = Some w -> stoi w = Parsed 0%Z ->
  tops_of G (job_params j) = tops_of G (job_params j') /\
  forall O (W W' : soracles O) g vs s1 s2, so_pcm W = so_pcm W' ->
    simulate (config_of (job_params j)) W g vs = Ok s1 tt ->
    simulate_incremental (config_of (job_params j')) W' g vs = Ok s2 tt ->
    s_nfg s1 = s_nfg s2 /\ (forall k, kmem k (s_vals s1) = kmem k (s_vals s2)) /\ get_num_lc s1 = get_num_lc s2.
Proof. exact lines_agree. Qed.
Print Assumptions C47_programs_save_the_same_graph.

Example C47_example :
  main_batch read line_b = Solves jb /\ main_incremental read read readz (line_i "0" "10") = Solves (ji "0" "10") /\
  saved (simulate (config_of (job_params jb)) WB file1 g2o_values) =
    Some [[0; 1]; [1; 2]; [2; 3]; [0]; [0; 3]; [1; 3]]%N /\
  saved (simulate_incremental (config_of (job_params (ji "0" "10"))) WB file1 g2o_values) =
    Some [[0; 1]; [1; 2]; [2; 3]; [0]; [0; 3]; [1; 3]]%N.
Proof. repeat split; vm_compute; reflexivity. Qed.

(** With the incremental flag the programs keep different loop closures. *)
Theorem C47_incremental_flag_refuted : exists argv argv' j j',
  main_batch read argv = Solves j /\ main_incremental read read readz argv' = Solves j' /\
  nth_error argv 1 = nth_error argv' 1 /\ nth_error argv 3 = nth_error argv' 6 /\ nth_error argv 4 = nth_error argv' 7 /\
  exists g s1 s2, simulate (config_of (job_params j)) WB g g2o_values = Ok s1 tt /\
    simulate_incremental (config_of (job_params j')) WB g g2o_values = Ok s2 tt /\
    get_num_lc s1 = get_num_lc s2 /\
    count_occ (list_eq_dec N.eq_dec) (ends s1) [3; 0]%N <> count_occ (list_eq_dec N.eq_dec) (ends s2) [3; 0]%N.
Proof.
  exists line_b, (line_i "1" "10"), jb, (ji "1" "10"). repeat (split; [vm_compute; reflexivity|]). exists file2.
  pose (r1 := simulate (config_of (job_params jb)) WB file2 g2o_values).
  pose (r2 := simulate_incremental (config_of (job_params (ji "1" "10"))) WB file2 g2o_values).
  assert (X : match r1, r2 with
    | Ok s1 tt, Ok s2 tt => get_num_lc s1 = get_num_lc s2 /\
        count_occ (list_eq_dec N.eq_dec) (ends s1) [3; 0]%N = 1 /\ count_occ (list_eq_dec N.eq_dec) (ends s2) [3; 0]%N = 3
    | _, _ => False end) by (vm_compute; repeat split).
  fold r1 r2. clearbody r1 r2. destruct r1 as [s1 []| |]; try contradiction. destruct r2 as [s2 []| |]; try contradiction.
  destruct X as (X1 & X2 & X3). exists s1, s2. rewrite X2, X3. split; [reflexivity|]. split; [reflexivity|].
  split; [exact X1|]. discriminate.
Qed.
Print Assumptions C47_incremental_flag_refuted.

(** ** C48 *)
(** [RpgoReadG2o]: there is one optimisation, of the saved graph from the values of the file, and
    the saved values are its answer. *)
Theorem C48_batch_saves_the_optimum : forall G stof argv j, main_batch stof argv = Solves j ->
  forall (W : soracles (tops_of G (job_params j))) g vs s, simulate (config_of (job_params j)) W g vs = Ok s tt ->
  exists rq a, s_trace s = [rq] /\ rq_graph rq = s_nfg s /\ so_opt W [] rq = Some a /\
    (forall k, kfind k (rq_vals rq) = kfind k vs) /\
    forall k, kfind k (s_vals s) = option_map (answer_value a k) (kfind k vs).
Proof. exact batch_saves. Qed.
Print Assumptions C48_batch_saves_the_optimum.

(** [RpgoReadG2oIncremental]: the only optimisation sees the odometry, the factors that are not
    between factors and the prior, never a loop closure; the saved values are its answer. *)
Theorem C48_incremental_optimises_odometry_only : forall G stof stod stoi argv j,
  main_incremental stof stod stoi argv = Solves j ->
  forall (W : soracles (tops_of G (job_params j))) g vs s, simulate_incremental (config_of (job_params j)) W g vs = Ok s tt ->
  exists f k ks x rq a, hd_error g = Some (Some f) /\ f_keys f = k :: ks /\ kfind k vs = Some (VPose x) /\
    s_trace s = [rq] /\ so_opt W [] rq = Some a /\
    rq_graph rq = map Some (app (map FBetween (filter (sp_odometry [] vs) (betweens g))) (app (others g) [FPrior k x])) /\
    (c_align (config_of (job_params j)) = false -> forall k, kfind k (s_vals s) = option_map (answer_value a k) (kfind k vs)).
Proof. exact incremental_saves. Qed.
Print Assumptions C48_incremental_optimises_odometry_only.

(** So the values it saves next to its graph need not be an optimum of that graph: no optimiser
    was ever asked about it. *)
Theorem C48_incremental_saves_the_optimum_refuted : exists argv j g s,
  main_incremental read read readz argv = Solves j /\
  simulate_incremental (config_of (job_params j)) WB g g2o_values = Ok s tt /\
  get_num_lc s = Val 2 /\ forall rq, In rq (s_trace s) -> length (rq_graph rq) <> length (s_nfg s).
Proof.
  exists (line_i "0" "10"), (ji "0" "10"), file1.
  pose (r1 := simulate_incremental (config_of (job_params (ji "0" "10"))) WB file1 g2o_values).
  assert (X : match r1 with
    | Ok s tt => get_num_lc s = Val 2 /\ map (fun rq => length (rq_graph rq)) (s_trace s) = [4] /\ length (s_nfg s) = 6
    | _ => False end) by (vm_compute; repeat split).
  fold r1. clearbody r1. destruct r1 as [s []| |]; try contradiction. destruct X as (X1 & X2 & X3).
  exists s. split; [vm_compute; reflexivity|]. split; [reflexivity|]. split.
  - exact X1.
  - intros rq Hr E. apply (in_map (fun rq => length (rq_graph rq))) in Hr. rewrite X2 in Hr. destruct Hr as [Hr|[]].
    rewrite X3 in E. rewrite E in Hr. discriminate Hr.
Qed.
Print Assumptions C48_incremental_saves_the_optimum_refuted.

(** ** C49 *)
(** Which command lines of [RpgoReadG2o] start the solver, and how it is then configured. *)
Theorem C49_batch_command_line : forall stof argv j, main_batch stof argv = Solves j <->
  exists name (d : bool) file a3 a4 a5 folder rest t r b,
  argv = name :: (if d then "3d" else "2d")%string :: file :: a3 :: a4 :: a5 :: folder :: rest /\
  stof a3 = Parsed t /\ stof a4 = Parsed r /\ stof a5 = Parsed b /\
  j = Job d file folder [LogOutput; SetPcmSimple d t r (flag_verbosity (hd_error rest)); SetGnc false false].
Proof.
  split; [apply batch_line|].
  intros (n & d & f & a3 & a4 & a5 & fo & rest & t & r & b & -> & S3 & S4 & S5 & ->). eapply batch_line_conv; eauto.
Qed.
Print Assumptions C49_batch_command_line.

Theorem C49_incremental_command_line : forall stof stod stoi argv j, main_incremental stof stod stoi argv = Solves j <->
  exists name (d : bool) file a3 a4 a5 a6 a7 rest inc gnc (al : bool) t r,
  argv = name :: (if d then "3d" else "2d")%string :: file :: a3 :: a4 :: a5 :: a6 :: a7 :: rest /\
  stoi a3 = Parsed (bit inc) /\ stod a4 = Parsed gnc /\ stoi a5 = Parsed (bit al) /\ stof a6 = Parsed t /\ stof a7 = Parsed r /\
  dneg gnc = false /\ dlt done_ gnc = false /\
  (inc = true -> deq t dminus1 = false /\ deq r dminus1 = false) /\
  j = Job d file (match rest with f :: _ => f | [] => "."%string end)
    (app [LogOutput] (app (if inc then [SetIncremental] else [])
     (app (if gnc_wanted gnc then [SetGnc false false] else []) (app (if al then [SetAlign true] else [])
     [SetPcmSimple d t r (flag_verbosity (nth_error rest 1))])))).
Proof.
  split; [apply incremental_line|].
  intros (n & d & f & b3 & b4 & b5 & b6 & b7 & rest & inc & gnc & al & t & r & -> & T3 & T4 & T5 & T6 & T7 & G1 & G2 & HI & ->).
  eapply incremental_line_conv; eauto.
Qed.
Print Assumptions C49_incremental_command_line.

(** The configurations of those jobs: both checks are on iff neither threshold is negative, fixed
    inliers and odometry bias are never chosen, and no prefix is a landmark. *)
Theorem C49_batch_configuration : forall d file folder t r v,
  let P := job_params (Job d file folder [LogOutput; SetPcmSimple d t r v; SetGnc false false]) in
  config_of P = Cfg [] (asked t r) (asked t r) false false true false false false (chatty v) true /\
  pr_method P = (if d then MSimple3D else MSimple2D) /\
  pr_pcm P = PcmParams (pp_odom pcm_params_default) (pp_lc pcm_params_default) t r t r false.
Proof. exact batch_config. Qed.
Print Assumptions C49_batch_configuration.

Theorem C49_incremental_configuration : forall d file folder (inc g al : bool) t r v,
  let P := job_params (Job d file folder (app [LogOutput] (app (if inc then [SetIncremental] else [])
     (app (if g then [SetGnc false false] else []) (app (if al then [SetAlign true] else []) [SetPcmSimple d t r v]))))) in
  config_of P = Cfg [] (asked t r) (asked t r) inc al g false false false (chatty v) true /\
  pr_method P = (if d then MSimple3D else MSimple2D) /\
  pr_pcm P = PcmParams (pp_odom pcm_params_default) (pp_lc pcm_params_default) t r t r inc.
Proof. exact incremental_config. Qed.
Print Assumptions C49_incremental_configuration.

Example C49_examples :
  main_incremental read read readz (line_i "1" "-1") = Usage /\
  main_incremental read read readz (line_i "2" "10") = Usage /\
  main_incremental read read readz (line_i "1" "1e99") = Dies /\
  main_batch read ["rpgo"; "2d"; "in.g2o"; "10"; "ten"; "1"; "out"]%string = Usage /\
  main_batch read ["rpgo"; "2D"; "in.g2o"; "10"; "10"; "1"; "out"]%string = Usage /\
  (exists j, main_incremental read read readz ["rpgo"; "3d"; "in.g2o"; "0"; "nan"; "1"; "10"; "10"]%string = Solves j /\
     c_gnc (config_of (job_params j)) = false /\ c_align (config_of (job_params j)) = true /\ j_folder j = "."%string).
Proof. repeat (split; [vm_compute; reflexivity|]). eexists. repeat split. Qed.

(** The check that incremental mode is never combined with a disabled threshold misses every
    negative number but -1.  The solver then drops the second of two consistent loop closures,
    which it keeps without the incremental flag. *)
Theorem C49_incremental_needs_thresholds_refuted : exists argv argv0 j j0,
  main_incremental read read readz argv = Solves j /\ main_incremental read read readz argv0 = Solves j0 /\
  c_incremental (config_of (job_params j)) = true /\ c_loop_check (config_of (job_params j)) = false /\
  saved (simulate_incremental (config_of (job_params j)) WB file1 g2o_values) =
    Some [[0; 1]; [1; 2]; [2; 3]; [0]; [0; 3]]%N /\
  saved (simulate_incremental (config_of (job_params j0)) WB file1 g2o_values) =
    Some [[0; 1]; [1; 2]; [2; 3]; [0]; [0; 3]; [1; 3]; [0; 2]]%N.
Proof.
  exists (line_i "1" "-2"), (line_i "0" "-2"), (ji "1" "-2"), (ji "0" "-2").
  repeat (split; [vm_compute; reflexivity|]). vm_compute. reflexivity.
Qed.
Print Assumptions C49_incremental_needs_thresholds_refuted.

(** ** C50 *)
(** Once started, [RpgoReadG2o] runs into undefined behaviour exactly when the file gives no first
    factor with a variable. *)
Theorem C50_batch_never_undefined : forall G stof argv j, main_batch stof argv = Solves j ->
  forall (W : soracles (tops_of G (job_params j))) g vs, gaussian g ->
  (forall u, simulate (config_of (job_params j)) W g vs <> Undef u) <-> starts_well g.
Proof. exact batch_ends. Qed.
Print Assumptions C50_batch_never_undefined.

Theorem C50_incremental_never_undefined : forall G stof stod stoi argv j, main_incremental stof stod stoi argv = Solves j ->
  forall (W : soracles (tops_of G (job_params j))) g vs, gaussian g -> (Z.of_nat (S (length g)) < size_t_mod)%Z ->
  (forall u, simulate_incremental (config_of (job_params j)) W g vs <> Undef u) <-> starts_well g.
Proof. exact incremental_ends. Qed.
Print Assumptions C50_incremental_never_undefined.

Example C50_example : gaussian file1 /\ starts_well file1 /\ ~ starts_well ([] : graph_t OB) /\
  simulate (config_of (job_params jb)) WB [] g2o_values = Undef OutOfBounds.
Proof.
  split; [|split; [|split]].
  - intros b Hb. unfold file1, g2o_graph in Hb. apply in_map_iff in Hb. destruct Hb as ([[f t] m] & E & _).
    injection E as <-. discriminate.
  - eexists _, _, _, _. split; reflexivity.
  - intros (f & k & ks & g' & E & _). discriminate E.
  - reflexivity.
Qed.

(** An empty file is accepted by the loaders, so the property without the side condition fails. *)
Theorem C50_empty_file_refuted : exists argv j, main_batch read argv = Solves j /\
  exists u, simulate (config_of (job_params j)) WB [] [] = Undef u.
Proof. exists line_b, jb. split; [vm_compute; reflexivity|]. exists OutOfBounds. reflexivity. Qed.
Print Assumptions C50_empty_file_refuted.
