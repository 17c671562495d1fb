(** * Graph files: what they are supposed to mean

    Written from the Matrix Market format: a banner line, comment lines, a line with the two
    dimensions and the number of entries, and one line per entry.  Nothing here mentions how files
    are read. *)
From Coq Require Import String Ascii.
From Verif Require Import Prelude Num NumText.
Set Implicit Arguments.

Definition nl : string := String "010" EmptyString.

(** The lines of a text; a text that ends with a newline has an empty last line. *)
Fixpoint lines (s : string) : list string :=
  match s with
  | EmptyString => [EmptyString]
  | String c s' =>
      if Ascii.eqb c "010" then EmptyString :: lines s'
      else match lines s' with
           | l :: ls => String c l :: ls
           | [] => []
           end
  end.

Fixpoint chars (P : ascii -> Prop) (s : string) : Prop :=
  match s with EmptyString => True | String c s' => P c /\ chars P s' end.

(** Letters, digits and punctuation. *)
Definition visible (c : ascii) : Prop := 33 <= nat_of_ascii c <= 126.

(** [w] is a word *)
Definition word (w : string) : Prop := w <> EmptyString /\ chars visible w.

(** [s] is the lower-case word [w] up to case. *)
Fixpoint spells (s w : string) : Prop :=
  match s, w with
  | EmptyString, EmptyString => True
  | String c s', String d w' => (c = d \/ nat_of_ascii c + 32 = nat_of_ascii d) /\ spells s' w'
  | _, _ => False
  end.

(** ** A well-formed file *)

Record entry := Entry { e_row : nat; e_col : nat; e_text : string }.

Definition num (n : nat) : string := nat_text (N.of_nat n).

Definition entry_line (pattern : bool) (e : entry) : string :=
  (num (e_row e) ++ " " ++ num (e_col e) ++ (if pattern then EmptyString else " " ++ e_text e))%string.

Definition file_lines (kind scheme : string) (pattern : bool) (comments : list string) (n : nat) (es : list entry)
  : list string :=
  ("%%MatrixMarket matrix coordinate " ++ kind ++ " " ++ scheme)%string
  :: map (fun c => "%" ++ c)%string comments
  ++ (num n ++ " " ++ num n ++ " " ++ num (length es))%string
  :: map (entry_line pattern) es.

Fixpoint unlines (ls : list string) : string :=
  match ls with [] => EmptyString | l :: ls' => (l ++ nl ++ unlines ls')%string end.

Definition file_text kind scheme pattern comments n es : string :=
  unlines (file_lines kind scheme pattern comments n es).

Definition one_line (s : string) : Prop := chars (fun c => c <> "010"%char) s.

Record well_formed (kind scheme : string) (pattern : bool) (comments : list string) (n : nat) (es : list entry) : Prop := {
  wf_kind : word kind;
  wf_scheme : word scheme;
  wf_short : String.length kind + String.length scheme <= 221;
  wf_pattern : pattern = true <-> spells kind "pattern";
  wf_comments : Forall one_line comments;
  wf_size : (Z.of_nat n < 2 ^ 31)%Z;
  wf_count : (Z.of_nat (length es) < 2 ^ 31)%Z;
  wf_entries : forall e, In e es -> 1 <= e_row e <= n /\ 1 <= e_col e <= n /\ (pattern = false -> word (e_text e)) }.

(** ** Its graph *)

Section Meaning.
(** The number a numeral stands for, and the threshold. *)
Variable number : string -> double.
Variable threshold : double.
Variable pattern : bool.

(** Entries of a pattern file always count, others if their value exceeds the threshold. *)
Definition counts (e : entry) : bool := pattern || dlt threshold (number (e_text e)).

(** [e] joins the vertices [v] and [w], counted from 0. *)
Definition joins (v w : nat) (e : entry) : bool :=
  counts e && negb (v =? w) &&
  (((e_row e =? v + 1) && (e_col e =? w + 1)) || ((e_row e =? w + 1) && (e_col e =? v + 1))).

Definition linked (es : list entry) (v w : nat) : Prop := exists e, In e es /\ joins v w e = true.

(** The first entry that joins them decides the value. *)
Definition link_value (es : list entry) (v w : nat) : option double :=
  match find (joins v w) es with Some e => Some (number (e_text e)) | None => None end.
End Meaning.

(** ** Cliques of a relation on [0 .. n-1] *)
Definition clique_in (n : nat) (E : nat -> nat -> Prop) (l : list nat) : Prop :=
  NoDup l /\ (forall x, In x l -> x < n) /\ (forall x y, In x l -> In y l -> x <> y -> E x y).
Definition max_clique_in (n : nat) (E : nat -> nat -> Prop) (l : list nat) : Prop :=
  clique_in n E l /\ forall l', clique_in n E l' -> length l' <= length l.

(** ** Compressed arrays: the part of [l] that belongs to vertex [v] *)
Definition part {A} (vs : list nat) (l : list A) (v : nat) : list A :=
  firstn (nth (v + 1) vs 0 - nth v vs 0) (skipn (nth v vs 0) l).

(** ** Files on which a reader that skips comments never finds a header *)
Definition comment (l : string) : Prop := exists s, l = String "%" s.
Definition no_header (text : string) : Prop :=
  match lines text with
  | [only] => comment only
  | _ :: rest => Forall comment rest
  | [] => False
  end.
