(** * Reading graphs from files

    [/repo/include/KimeraRPGO/max_clique_finder/graphIO.cpp:35-186, 232, 259-288] down to the
    characters of the file.  Text is a sequence of bytes.  Left out: console output, minimum and
    average degree.  [tolower] of bytes from 128 on is taken to be the identity. *)
From Coq Require Import String Ascii.
From Verif Require Import Prelude Num Clique.
Set Implicit Arguments.
Local Open Scope Z_scope.

(** ** Streams *)

Definition newline : ascii := "010"%char.
Definition nul : ascii := "000"%char.

(** [isspace] in the "C" locale. *)
Definition is_space (c : ascii) : bool :=
  let n := nat_of_ascii c in (n =? 32)%nat || ((9 <=? n) && (n <=? 13))%nat.

(** An [ifstream]: what is left, and the bits [eofbit] and [failbit]. *)
Record stream := Stream { st_rest : string; st_eof : bool; st_fail : bool }.

(** Up to the first newline, and what follows it ([None]: no newline). *)
Fixpoint cut_line (s : string) : string * option string :=
  match s with
  | EmptyString => (EmptyString, None)
  | String c s' =>
      if Ascii.eqb c newline then (EmptyString, Some s')
      else let '(l, r) := cut_line s' in (String c l, r)
  end.

(** [getline(in, line)]: nothing happens to [line] unless the stream is good. *)
Definition getline (i : stream) (line : string) : stream * string :=
  if st_eof i || st_fail i then (Stream (st_rest i) (st_eof i) true, line)
  else match cut_line (st_rest i) with
       | (l, Some r) => (Stream r false false, l)
       | (l, None) => (Stream EmptyString true (match l with EmptyString => true | _ => false end), l)
       end.

(** An [istringstream]: what is left and whether it is still good. *)
Record istr := Istr { is_rest : string; is_good : bool }.

Fixpoint skip_space (s : string) : string :=
  match s with
  | EmptyString => EmptyString
  | String c s' => if is_space c then skip_space s' else s
  end.

(** A run of digits: number so far, number of digits, what follows. *)
Definition digit_value (c : ascii) : option Z :=
  let n := Z.of_nat (nat_of_ascii c) in if (48 <=? n) && (n <=? 57) then Some (n - 48) else None.
Fixpoint scan_digits (s : string) (acc : Z) (n : nat) : Z * nat * string :=
  match s with
  | EmptyString => (acc, n, EmptyString)
  | String c s' => match digit_value c with Some d => scan_digits s' (10 * acc + d) (S n) | None => (acc, n, s) end
  end.

Definition int_min : Z := - 2147483648.
Definition int_max : Z := 2147483647.

(** [>> x] for [int x]: the variable is left alone if the stream is not good or only has white
    space left; otherwise it becomes the number, 0 if there is none, or the nearest [int]. *)
Definition extract_int (i : istr) (x : Z) : istr * Z :=
  if negb (is_good i) then (i, x)
  else match skip_space (is_rest i) with
       | EmptyString => (Istr EmptyString false, x)
       | String c s' as s =>
           let '(neg, s1) := if Ascii.eqb c "-" then (true, s') else if Ascii.eqb c "+" then (false, s') else (false, s) in
           let '(v, n, r) := scan_digits s1 0 0 in
           let v := if neg : bool then - v else v in
           if (n =? 0)%nat then (Istr r false, 0)
           else if v <? int_min then (Istr r false, int_min)
           else if int_max <? v then (Istr r false, int_max)
           else (Istr r (match r with EmptyString => false | _ => true end), v)
       end.

Section Read.
(** What [>> value] stores for [double value] when text is left; [None]: nothing stored yet. *)
Variable getd : string -> double.
Definition extract_double (i : istr) (x : option double) : option double :=
  if negb (is_good i) then x
  else match skip_space (is_rest i) with EmptyString => x | s => Some (getd s) end.

(** ** The object *)

(** [CGraphIO]: [m_vi_Vertices], [m_vi_Edges], [m_vd_Values], [m_i_MaximumVertexDegree] (not
    initialised by the constructor). *)
Record gio := Gio { o_vs : list nat; o_es : list Z; o_vals : list double; o_maxdeg : option Z }.
Definition gio_new : gio := Gio [] [] [] None.

(** [nodeList] and [valueList]. *)
Definition zlists (A : Type) := Z -> list A.
Definition zpush {A} (m : zlists A) (i : Z) (x : A) : zlists A := fun k => if k =? i then m k ++ [x] else m k.

(** Loop state: [rowIndex], [colIndex], [value] and the two maps. *)
Record mstate := MState { ms_row : Z; ms_col : Z; ms_value : option double; ms_nodes : zlists Z; ms_values : zlists double }.

(** [x--] for an [int] *)
Definition decr (x : Z) : res Z := if x =? int_min then Bad IntOverflow else Val (x - 1).

(** One entry, 126-162.  [getv]: [b_getValue]. *)
Definition add_entry (getv : bool) (conn : double) (st : mstate) : res mstate :=
  let '(MState r c v nodes values) := st in
  if r =? c then Val st
  else if existsb (Z.eqb c) (nodes r) then Val st
  else if getv then
    match v with
    | None => Bad Uninitialised
    | Some x =>
        if dlt conn x then Val (MState r c v (zpush (zpush nodes r c) c r) (zpush (zpush values r x) c x))
        else Val st
    end
  else Val (MState r c v (zpush (zpush nodes r c) c r) values).

(** One line, 113-162.  [in2.clear()] makes the string stream good, also for an empty line. *)
Definition read_entry (getv : bool) (conn : double) (line : string) (st : mstate) : res mstate :=
  match line with
  | EmptyString => Val st
  | _ =>
      let '(i1, r) := extract_int (Istr line true) (ms_row st) in
      let '(i2, c) := extract_int i1 (ms_col st) in
      let v := extract_double i2 (ms_value st) in
      let* r' := decr r in
      let* c' := decr c in
      add_entry getv conn (MState r' c' v (ms_nodes st) (ms_values st))
  end.

(** The loop, 107-164: [n] is [num_of_entries - entry_counter]. *)
Fixpoint read_entries (getv : bool) (conn : double) (n : nat) (i : stream) (line : string) (st : mstate) : res mstate :=
  match n with
  | O => Val st
  | S n' =>
      if st_eof i then Val st
      else
        let '(i', line') := getline i line in
        let* st' := read_entry getv conn line' st in
        read_entries getv conn n' i' line' st'
  end.

(** ** The banner *)

(** What a C string keeps of a line. *)
Fixpoint cstr (s : string) : string :=
  match s with
  | EmptyString => EmptyString
  | String c s' => if Ascii.eqb c nul then EmptyString else String c (cstr s')
  end.

(** A word and what follows it. *)
Fixpoint cut_word (s : string) : string * string :=
  match s with
  | EmptyString => (EmptyString, EmptyString)
  | String c s' => if is_space c then (EmptyString, s) else let '(w, r) := cut_word s' in (String c w, r)
  end.

(** [sscanf] with [k] times [%s]: the words that were found. *)
Fixpoint scan_words (k : nat) (s : string) : list string :=
  match k with
  | O => []
  | S k' =>
      match skip_space s with
      | EmptyString => []
      | s' => let '(w, r) := cut_word s' in w :: scan_words k' r
      end
  end.

Definition lower (c : ascii) : ascii :=
  let n := nat_of_ascii c in if ((65 <=? n) && (n <=? 90))%nat then ascii_of_nat (n + 32) else c.
Fixpoint lower_all (s : string) : string :=
  match s with EmptyString => EmptyString | String c s' => String (lower c) (lower_all s') end.

Definition line_length : nat := 256.

(** Lines that start with a percent sign are skipped, 93-95. *)
Fixpoint skip_comments (fuel : nat) (i : stream) (line : string) : res (stream * string) :=
  match fuel with
  | O => Bad OutOfFuel
  | S f =>
      match line with
      | String c _ => if Ascii.eqb c "%" then let '(i', l) := getline i line in skip_comments f i' l else Val (i, line)
      | EmptyString => Val (i, line)
      end
  end.

(** ** [ReadMatrixMarketAdjacencyGraph], 47-186 *)

(** Appending to the arrays, 167-182, and [CalculateVertexDegrees]. *)
Definition store (getv : bool) (row : Z) (st : mstate) (o : gio) : res gio :=
  let rows := map Z.of_nat (seq 0 (Z.to_nat row)) in
  let '(vs, es) := fold_left (fun '(vs, es) i =>
      let es' := es ++ ms_nodes st i in (vs ++ [length es'], es')) rows
    (o_vs o ++ [length (o_es o)], o_es o) in
  let vals := if getv then o_vals o ++ flat_map (ms_values st) rows else o_vals o in
  let* mx := calc_max_degree vs in
  Val (Gio vs es vals (Some mx)).

(** [None] for a file that cannot be opened.  The result is the object and the returned flag. *)
Definition read_market (fuel : nat) (file : option string) (conn : double) (o : gio) : res (gio * bool) :=
  match file with
  | None => Val (o, false)
  | Some text =>
      let '(i, line) := getline (Stream text false false) EmptyString in
      if (line_length <=? String.length (cstr line))%nat then Bad OutOfBounds
      else match scan_words 5 (cstr line) with
           | [_; _; _; data_type; _] =>
               let getv := negb (String.eqb (lower_all data_type) "pattern") in
               let '(i, line) := getline i line in
               let* '(i, line) := skip_comments fuel i line in
               let '(s1, row) := extract_int (Istr line true) 0 in
               let '(s2, col) := extract_int s1 0 in
               let '(_, num) := extract_int s2 0 in
               if negb (row =? col) then Val (o, false)
               else
                 let* st := read_entries getv conn (Z.to_nat num) i line
                              (MState 0 0 None (fun _ => []) (fun _ => [])) in
                 let* o' := store getv row st o in
                 Val (o', true)
           | _ => Val (o, false)
           end
  end.

(** ** [readGraph], 35-45 *)

(** After the last dot, 259-288; [None]: no dot. *)
Fixpoint after_dot (s : string) : option string :=
  match s with
  | EmptyString => None
  | String c s' =>
      match after_dot s' with
      | Some e => Some e
      | None => if Ascii.eqb c "." then Some s' else None
      end
  end.
Definition file_extension (name : string) : string := match after_dot name with Some e => e | None => EmptyString end.

(** [ReadMeTiSAdjacencyGraph] does nothing and returns true, 232. *)
Definition read_graph (fuel : nat) (files : string -> option string) (name : string) (conn : double) (o : gio) : res (gio * bool) :=
  if String.eqb (file_extension name) "mtx" then read_market fuel (files name) conn o
  else if String.eqb (file_extension name) "gr" then Val (o, true)
  else Val (o, false).

End Read.

(** What the searches of [Clique.v] see; a negative neighbour is an index outside every vector, and
    the maximum degree must have been stored. *)
Definition to_graph (o : gio) : option graph :=
  match o_maxdeg o with
  | None => None
  | Some mx => Some (Graph (o_vs o) (map (fun e => if e <? 0 then length (o_vs o) else Z.to_nat e) (o_es o)) mx)
  end.
