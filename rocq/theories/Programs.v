(** * The programs in [/repo/examples]

    [RpgoReadG2o.cpp] (lines B:n) and [RpgoReadG2oIncremental.cpp] (lines I:n).  Left out: console
    output, [setLmDiagonalDamping] (a number handed to GTSAM), and the unused [init_values] and
    [init_factors].  The graph and values come from GTSAM's loaders, which are arbitrary here. *)
From Coq Require Import String.
From Verif Require Import Prelude Num Keys KMap Geometry Factors Pcm Params Solver.
Set Implicit Arguments.
Local Open Scope nat_scope.

Section Simulate.
Variable O : tops.
Notation factor := (factor O).
Notation values := (values O).
Notation graph_t := (graph_t O).
Notation op := (op O).
Notation solver := (solver O).
Variable C : config.
Variable W : soracles O.

(** The prior on the first variable of the first factor (B:44-51, I:43-50): [nfg[0]] is not
    checked, [values.at<T>] throws.  [init_values.insert] cannot throw. *)
Definition first_prior (g : graph_t) (vs : values) : outcome unit factor :=
  match g with
  | [] => Undef OutOfBounds
  | None :: _ => Undef NullDeref
  | Some f :: _ =>
      match f_keys f with
      | [] => Undef OutOfBounds
      | k :: _ =>
          match kfind k vs with
          | None => Throw tt (KeyDoesNotExist k)
          | Some (VOther _) => Throw tt (IncorrectType k)
          | Some (VPose x) => Ok tt (FPrior k x)
          end
      end
  end.

(** A between factor that does not go from a key to the next (I:54-67); [dynamic_cast] of a null
    pointer is null. *)
Definition goes_back (of : option factor) : bool :=
  match of with Some (FBetween b) => negb (ksucc (b_from b) =? b_to b)%N | _ => false end.

(** B:51-52 *)
Definition batch_calls (g : graph_t) (vs : values) (f : factor) : list op :=
  [OpUpdate (g ++ [Some f]) vs true].

(** I:50-76 *)
Definition incremental_calls (g : graph_t) (vs : values) (f : factor) : list op :=
  let nfg := g ++ [Some f] in
  OpUpdate (filter (fun of => negb (goes_back of)) nfg) vs true ::
  map (fun of => OpUpdate [of] [] false) (filter goes_back nfg).

(** [RobustSolver::saveData] (src/RobustSolver.cpp:448-465), see [log_status]. *)
Definition save_data (s : solver) : outcome solver unit :=
  if g2o_throws (s_nfg s) then Throw s InvalidArgument else Ok s tt.

(** [Simulate] (B:28-55), [SimulateIncremental] (I:28-78): the solver when [saveData] returns. *)
Definition simulate_with (calls : graph_t -> values -> factor -> list op) (g : graph_t) (vs : values)
  : outcome solver unit :=
  match first_prior g vs with
  | Undef u => Undef u
  | Throw _ e => Throw (solver_init true) e
  | Ok _ f => obind (run C W (calls g vs f) (solver_init true)) (fun s _ => save_data s)
  end.
Definition simulate := simulate_with batch_calls.
Definition simulate_incremental := simulate_with incremental_calls.
End Simulate.

(** ** Command lines *)

(** What [std::stof] and [std::stoi] do with a string: a value, [std::invalid_argument] (caught),
    [std::out_of_range] (not caught). *)
Inductive parsed A := Parsed (x : A) | Malformed | OutsideRange.
Arguments Parsed {A}.
Arguments Malformed {A}.
Arguments OutsideRange {A}.

Record job := Job { j_3d : bool; j_file : string; j_folder : string; j_setters : list setter }.

(** The program prints its usage, dies of an exception, or starts solving. *)
Inductive start := Usage | Dies | Solves (j : job).

(** One [try] block: the variable afterwards and whether the input is still valid. *)
Definition try_read {A} (p : parsed A) (d : A) (check : A -> bool) (k : A -> bool -> start) : start :=
  match p with
  | Parsed x => k x (check x)
  | Malformed => k d false
  | OutsideRange => Dies
  end.

Definition deq (x y : double) : bool := SFeqb x y.
Definition dminus1 : double := dofZ (-1).
Definition done_ : double := dofZ 1.

Section Main.
Variable stof : string -> parsed double.   (* the [float], converted to [double] *)
Variable stod : string -> parsed double.
Variable stoi : string -> parsed Z.

Definition dim_job (dim : string) (mk : bool -> job) : start :=
  if String.eqb dim "2d" then Solves (mk false)
  else if String.eqb dim "3d" then Solves (mk true)
  else Usage.

(** B:67-153; [argv] with the name of the program first. *)
Definition main_batch (argv : list string) : start :=
  match argv with
  | _ :: dim :: file :: a3 :: a4 :: a5 :: folder :: rest =>
      try_read (stof a3) dzero (fun _ => true) (fun t ok1 =>
      try_read (stof a4) dzero (fun _ => true) (fun r ok2 =>
      try_read (stof a5) dzero (fun _ => true) (fun barcsq ok3 =>
      if negb (ok1 && ok2 && ok3) then Usage
      else
        let verb := match rest with f :: _ => if String.eqb f "v" then VVerbose else VQuiet | [] => VQuiet end in
        dim_job dim (fun d => Job d file folder [LogOutput; SetPcmSimple d t r verb; SetGnc false false]))))
  | _ => Usage
  end.

(** I:91-232. *)
Definition main_incremental (argv : list string) : start :=
  match argv with
  | _ :: dim :: file :: a3 :: a4 :: a5 :: a6 :: a7 :: rest =>
      try_read (stoi a3) 0%Z (fun i => (i =? 0)%Z || (i =? 1)%Z) (fun inc ok1 =>
      try_read (stod a4) dzero (fun g => negb (dneg g || dlt done_ g)) (fun gnc ok2 =>
      try_read (stoi a5) 0%Z (fun i => (i =? 0)%Z || (i =? 1)%Z) (fun al ok3 =>
      try_read (stof a6) dzero (fun t => negb (deq t dminus1 && (inc =? 1)%Z)) (fun t ok4 =>
      try_read (stof a7) dzero (fun r => negb (deq r dminus1 && (inc =? 1)%Z)) (fun r ok5 =>
      if negb (ok1 && ok2 && ok3 && ok4 && ok5) then Usage
      else
        let folder := match rest with f :: _ => f | [] => "."%string end in
        let verb := match rest with _ :: f :: _ => if String.eqb f "v" then VVerbose else VQuiet | _ => VQuiet end in
        dim_job dim (fun d => Job d file folder
          ([LogOutput] ++
           (if (inc =? 1)%Z then [SetIncremental] else []) ++
           (if dlt dzero gnc && dlt gnc done_ then [SetGnc false false] else []) ++
           (if (al =? 1)%Z then [SetAlign true] else []) ++
           [SetPcmSimple d t r verb])))))))
  | _ => Usage
  end.
End Main.

(** The solver of a job. *)
Definition job_params (j : job) : params := params_after (j_setters j).
