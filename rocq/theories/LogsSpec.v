(** * What the log files should say: specification

    Tables of numbers in text files, a folder of an ordinary file system, and which calls should
    have left which lines. *)
From Coq Require Import String Ascii QArith.
From Verif Require Import Prelude Num Keys KMap UMap Geometry Factors Clique Pcm Solver TextSpec G2o G2oSpec Logs.
Set Implicit Arguments.
Local Open Scope nat_scope.

(** ** Reading *)

(** Lines ended by line feeds, cut into fields. *)
Definition read_table (sep : ascii) (text : string) : list (list string) :=
  map (cut sep) (removelast (cut "010"%char text)).

Definition read_int (w : string) : option Z :=
  let '(neg, w1) := rd_sign w in
  match read_nat w1 with Some n => Some (if neg then - Z.of_N n else Z.of_N n)%Z | None => None end.
Definition row_says (l : list string) (r : list Z) : Prop := map read_int l = map Some r.

(** Zeros and ones in lines; an empty text is an empty table. *)
Definition read_bit (w : string) : option bool :=
  if String.eqb w "0" then Some false else if String.eqb w "1" then Some true else None.
Definition read_bits (text : string) : option (list (list bool)) :=
  match text with
  | EmptyString => Some []
  | _ => all_some (map (fun l => all_some (map read_bit (cut " "%char l))) (cut "010"%char text))
  end.
Definition bits_of (m : Clique.matrix) : list (list bool) :=
  if (m_rows m * m_cols m =? 0) then [] else
  map (fun i => map (fun j => m_at m i j) (seq 0 (m_cols m))) (seq 0 (m_rows m)).

(** ** Folders *)

Fixpoint without (c : ascii) (s : string) : Prop :=
  match s with EmptyString => True | String a s' => a <> c /\ without c s' end.

(** A path without NUL, in which files can be written: those with a non-empty name that contains
    neither NUL nor a slash.  The folder itself is not a file. *)
Record folder {O} (F : place O) : Prop := {
  fo_path : without "000" (pl_folder F);
  fo_files : forall n, n <> EmptyString -> without "000" n -> without "/" n ->
    pl_opens F (pl_folder F ++ "/" ++ n) = true;
  fo_self : pl_opens F (pl_folder F ++ "/") = false }.

(** A robot whose prefix can be part of a file name. *)
Definition nameable (c : BinNums.N) : Prop := (0 < c < 256)%N /\ c <> 47%N.
Definition pair_file {O} (F : place O) (id : obsid) : string :=
  pl_folder F ++ "/" ++ String (ascii_of_N (fst id)) (String "-" (String (ascii_of_N (snd id)) "_adj_matrix.txt")).

(** ** What happened *)

Section Events.
Variable O : tops.
Variable C : config.
Variable W : soracles O.

(** The calls of a history with their durations, the states between which they ran and the
    exception they raised. *)
Record event := Event {
  ev_op : op O; ev_took : took; ev_before : solver O; ev_after : solver O; ev_exn : option exn }.

Fixpoint events (h : list (op O * took)) (s : solver O) : list event :=
  match h with
  | [] => []
  | (o, t) :: h' =>
      match step C W o s with
      | Ok s1 _ => Event o t s s1 None :: events h' s1
      | Throw s1 e => Event o t s s1 (Some e) :: events h' s1
      | Undef _ => []
      end
  end.

(** Calls that log: [update] unless told not to optimise, and [forceUpdate]. *)
Definition logging (o : op O) : bool :=
  match o with OpUpdate _ _ opt => opt | OpForce _ _ => true | _ => false end.

(** They got as far as logging: no exception, or the one raised while saving the graph. *)
Definition logged (e : event) : bool :=
  logging (ev_op e) &&
  match ev_exn e with None => true | Some InvalidArgument => true | _ => false end.

(** Graph size, microseconds, and what [getNumLC] and [getNumLCInliers] return after the call. *)
Definition status_row (e : event) : list Z :=
  [Z.of_nat (length (s_nfg (ev_after e))); tk_call (ev_took e);
   match get_num_lc (ev_after e) with Val n => Z.of_nat n | Bad _ => 0 end;
   match get_num_inliers C (ev_after e) with Val n => n | Bad _ => 0 end]%Z.
Definition status_rows (l : list event) : list (list Z) := map status_row (filter logged l).

(** Calls with new factors in which outlier rejection came to its end. *)
Definition rejected (e : event) : bool :=
  match ev_op e with
  | OpUpdate ((_ :: _) as fs) vs _ | OpForce ((_ :: _) as fs) vs =>
      match ingest C W fs vs (ev_before e) with Ok _ _ => true | _ => false end
  | _ => false
  end.
Definition rejection_row (e : event) : list Z :=
  [match s_pcm (ev_after e) with Some p => Z.of_nat (p_total p) | None => 0 end;
   match s_pcm (ev_after e) with Some p => Z.of_nat (p_good p) | None => 0 end;
   tk_spin (ev_took e); tk_clique (ev_took e)]%Z.
Definition rejection_rows (l : list event) : list (list Z) := map rejection_row (filter rejected l).

(** Neither [update] nor [forceUpdate]. *)
Definition quiet (o : op O) : bool := match o with OpUpdate _ _ _ | OpForce _ _ => false | _ => true end.
End Events.

(** ** Robots of a history *)

(** Every pose and landmark that a between factor in a call names satisfies [P]. *)
Definition names_only {O} (P : key -> Prop) (h : list (op O * took)) : Prop :=
  forall o t b, In (o, t) h ->
    match o with OpUpdate fs _ _ | OpForce fs _ => In (Some (FBetween b)) fs | _ => False end ->
    P (b_from b) /\ P (b_to b).

(** Keys of a 64-bit machine, and keys that are just numbers (as in most g2o files). *)
Definition machine_key (k : key) : Prop := (k < 2 ^ 64)%N.
Definition plain_key (k : key) : Prop := (k < 2 ^ 56)%N.

(** The four files that have a fixed name. *)
Definition fixed_file {O} (F : place O) (q : string) : Prop :=
  In q (map (fun n => pl_folder F ++ "/" ++ n)%string
    ["rpgo_status.csv"; "outlier_rejection_status.txt"; "result.g2o"; "gnc_weights.csv"]%string).

(** ** Weights *)

(** Text of a weight: something, on one line. *)
Definition one_line (w : string) : Prop := w <> EmptyString /\ without "010" w.
(** Lines separated by line feeds; an empty text has none. *)
Definition read_column (text : string) : list string :=
  match text with EmptyString => [] | _ => cut "010"%char text end.

(** The call optimised: [forceUpdate], or an [update] that was given something that asks for it. *)
Definition optimised {O} (C : config) (W : soracles O) (e : event O) : bool :=
  match ev_op e with
  | OpForce _ _ => true
  | OpUpdate fs vs true => match ingest C W fs vs (ev_before e) with Ok _ b => b | _ => false end
  | _ => false
  end.
