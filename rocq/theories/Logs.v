(** * What the solver writes to disk while logging

    [RobustSolver.cpp] (R:n), [outlier/OutlierRemoval.h] (OR:n) and [outlier/Pcm.h] (P:n): the two
    status files, the adjacency matrices, the saved graph and the saved weights.  The calls of
    [Solver.v] are written down again together with their effect on the files; that they do the
    same to the solver is proved in [LogsProofs.v].

    Simplifications: a path can be opened for writing or not, once and for all; a write to an open
    file succeeds; the time measured in a call is an argument; the conversion of a weight to text
    (Eigen's full precision, R:456-457) is an argument; entries of an adjacency matrix are zero or
    one, also those that [w_freed] made up. *)
From Coq Require Import String Ascii QArith.
From Verif Require Import Prelude Num NumText Keys KMap UMap Geometry Factors Clique Pcm Solver G2o.
Set Implicit Arguments.
Local Open Scope nat_scope.
Local Open Scope string_scope.

(** Contents of the files; [None]: no such file. *)
Definition disk := string -> option string.
Definition put (p t : string) (d : disk) : disk := fun q => if String.eqb q p then Some t else d q.

(** [std::ofstream::open(const std::string&)] opens the path [c_str()]: up to the first NUL. *)
Fixpoint c_str (s : string) : string :=
  match s with
  | EmptyString => EmptyString
  | String c s' => if Ascii.eqb c "000" then EmptyString else String c (c_str s')
  end.

(** A signed integer as [operator<<] writes it. *)
Definition int_text (n : Z) : string :=
  if (n <? 0)%Z then "-" ++ nat_text (Z.to_N (- n)) else nat_text (Z.to_N n).

(** An Eigen matrix of zeros and ones as [operator<<] writes it (P:1146): one blank between the
    entries of a row, a line feed between rows, nothing for a matrix without entries. *)
Definition bit_text (b : bool) : string := if b then "1" else "0".
Definition adj_row (m : Clique.matrix) (i : nat) : string :=
  String.concat " " (map (fun j => bit_text (m_at m i j)) (seq 0 (m_cols m))).
Definition adj_text (m : Clique.matrix) : string :=
  if ((m_rows m =? 0) || (m_cols m =? 0))%nat then ""
  else String.concat newline (map (adj_row m) (seq 0 (m_rows m))).

(** Milliseconds of outlier rejection and of its clique search (P:260-264, 269-271), microseconds
    of the call (R:319-322, 352-355). *)
Record took := Took { tk_spin : Z; tk_clique : Z; tk_call : Z }.

Section Logs.
Variable O : tops.
Notation values := (values O).
Notation graph_t := (graph_t O).
Notation solver := (solver O).

(** Where the files go ([log_folder_]), which paths can be opened for writing, and how poses,
    factors and weights look in a file. *)
Record place := Place {
  pl_folder : string;
  pl_opens : string -> bool;
  pl_factor : factor O -> gfactor;
  pl_value : value O -> gvalue;
  pl_weight : Q -> string }.

Variable C : config.
Variable W : soracles O.
Variable F : place.

(** Open, write, close; with [std::ofstream::app] the text goes to the end. *)
Definition create (p t : string) (d : disk) : disk :=
  if pl_opens F (c_str p) then put (c_str p) t d else d.
Definition add_text (p t : string) (d : disk) : disk :=
  if pl_opens F (c_str p) then
    put (c_str p) ((match d (c_str p) with Some u => u | None => "" end) ++ t) d
  else d.

Definition status_path : string := pl_folder F ++ "/rpgo_status.csv".
Definition rejection_path : string := pl_folder F ++ "/outlier_rejection_status.txt".
Definition result_path : string := pl_folder F ++ "/result.g2o".
Definition weights_path : string := pl_folder F ++ "/gnc_weights.csv".
(** P:1142-1143. *)
Definition adj_path (id : obsid) : string :=
  pl_folder F ++ "/" ++ String (ascii_of_N (fst id)) ("-" ++ String (ascii_of_N (snd id)) "_adj_matrix.txt").

(** The constructor (R:93-104) and [logOutput] (OR:54-62). *)
Definition log_init (with_pcm : bool) (d : disk) : disk :=
  if c_log C then
    create status_path ("graph-size,spin-time(mu-s),num-lc,num-inliers" ++ newline)
      (if with_pcm then create rejection_path ("total inliers spin-time mc-time" ++ newline) d else d)
  else d.

(** [saveAdjacencyMatrix] (P:1136-1149). *)
Definition save_adj (p : pcm O) (d : disk) : disk :=
  fold_left (fun d e => create (adj_path (fst e)) (adj_text (me_adj (snd e))) d)
    (uiter (w_lc_order (so_pcm W)) (p_lcs p)) d.

(** [logSpinStatus] (P:1154-1164). *)
Definition log_spin (t : took) (p : pcm O) (d : disk) : disk :=
  add_text rejection_path
    (String.concat " " [nat_text (N.of_nat (p_total p)); nat_text (N.of_nat (p_good p));
                        int_text (tk_spin t); int_text (tk_clique t)] ++ newline) d.

(** The end of [removeOutliers] (P:275-279), reached only when there are new factors (P:156-159). *)
Definition log_rejection (fs : graph_t) (t : took) (s : solver) (d : disk) : disk :=
  match fs, s_pcm s with
  | _ :: _, Some p => if c_log C then log_spin t p (save_adj p d) else d
  | _, _ => d
  end.

(** [saveData] (R:448-465); the outlier rejection saves nothing (P:287-292). *)
Definition weights_text (ws : list Q) : string := String.concat newline (map (pl_weight F) ws).
Definition save_files (s : solver) (d : disk) : outcome disk unit :=
  match write_g2o (map (option_map (pl_factor F)) (s_nfg s)) (kmapi (fun _ => pl_value F) (s_vals s)) with
  | Undef u => Undef u
  | Throw ls e => Throw (create result_path (file_text ls) d) e
  | Ok ls _ =>
      let d1 := create result_path (file_text ls) d in
      Ok (if c_gnc C then create weights_path (weights_text (s_w s)) d1 else d1) tt
  end.

(** The status line (R:326-333, 359-366). *)
Definition status_line (t : took) (s : solver) : res string :=
  let* n := get_num_lc s in
  let* k := get_num_inliers C s in
  Val (String.concat "," [nat_text (N.of_nat (List.length (s_nfg s))); int_text (tk_call t);
                          nat_text (N.of_nat n); int_text k] ++ newline).

Definition with_disk {A} (d : disk) (x : outcome solver A) : outcome (solver * disk) A :=
  omap (fun s => (s, d)) x.

Definition log_files (t : took) (x : solver * disk) : outcome (solver * disk) unit :=
  let '(s, d) := x in
  if c_log C then
    match status_line t s with
    | Bad u => Undef u
    | Val l => omap (fun d' => (s, d')) (save_files s (add_text status_path l d))
    end
  else Ok (s, d) tt.

(** [update] (R:337-369) and [forceUpdate] (R:308-335) with their files. *)
Definition update_files (t : took) (fs : graph_t) (vs : values) (opt : bool) (x : solver * disk)
  : outcome (solver * disk) unit :=
  let '(s, d) := x in
  obind (with_disk d (ingest C W fs vs s)) (fun '(s1, d) b =>
  let d1 := log_rejection fs t s1 d in
  obind (with_disk d1 (if b && opt then optimize C W s1 else Ok s1 tt)) (fun y _ =>
  if opt then log_files t y else Ok y tt)).

Definition force_files (t : took) (fs : graph_t) (vs : values) (x : solver * disk)
  : outcome (solver * disk) unit :=
  let '(s, d) := x in
  obind (with_disk d (ingest C W fs vs s)) (fun '(s1, d) _ =>
  let d1 := log_rejection fs t s1 d in
  obind (with_disk d1 (optimize C W s1)) (fun y _ => log_files t y)).

(** The other calls write nothing. *)
Definition step_files (o : op O) (t : took) (x : solver * disk) : outcome (solver * disk) ret :=
  match o with
  | OpUpdate fs vs opt => obind (update_files t fs vs opt x) (fun y _ => Ok y None)
  | OpForce fs vs => obind (force_files t fs vs x) (fun y _ => Ok y None)
  | _ => with_disk (snd x) (step C W o (fst x))
  end.

(** A history whose caller catches every exception and goes on. *)
Fixpoint run_files (h : list (op O * took)) (x : solver * disk) : res (solver * disk) :=
  match h with
  | [] => Val x
  | (o, t) :: h' =>
      match step_files o t x with
      | Ok y _ => run_files h' y
      | Throw y _ => run_files h' y
      | Undef u => Bad u
      end
  end.

(** Construction and then the history. *)
Definition session (with_pcm : bool) (h : list (op O * took)) (d : disk) : res (solver * disk) :=
  run_files h (solver_init with_pcm, log_init with_pcm d).
End Logs.
