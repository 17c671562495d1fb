(** * What a g2o file says: specification

    How a file is cut into lines and words, what the words of a line mean, and the g2o conventions
    for information matrices. *)
From Coq Require Import QArith Qabs String Ascii.
From Verif Require Import Prelude Num Keys KMap Geometry Factors TextSpec G2o.
Local Open Scope nat_scope.

(** ** Lines and words *)

Fixpoint cut (sep : ascii) (s : string) : list string :=
  match s with
  | EmptyString => [EmptyString]
  | String c s' =>
      if Ascii.eqb c sep then EmptyString :: cut sep s'
      else match cut sep s' with w :: ws => String c w :: ws | [] => [String c EmptyString] end
  end.

(** All lines, each ended by a line feed, as words between blanks. *)
Definition read_lines (s : string) : list (list string) :=
  map (cut " "%char) (removelast (cut (ascii_of_nat 10) s)).

(** ** Meaning of words *)

(** The number [q] read stands for the number [v] written: half a unit in the sixth significant
    digit, and equal if [v] has at most six significant decimal digits. *)
Definition near (q v : Q) : Prop :=
  ((Qabs (q - v) <= (5 # 1000000) * Qabs v) /\
   forall m e, (Z.abs m < 10 ^ 6)%Z -> v == inject_Z m * (10 # 1) ^ e -> q == v)%Q.
Definition shows (w : string) (x : double) : Prop :=
  match dval x with
  | Some v => exists q, read_num w = Some q /\ near q v
  | None => read_num w = None
  end.

(** A line made of a tag, keys and numbers. *)
Definition says (l : list string) (tag : string) (ks : list key) (xs : list double) : Prop :=
  exists kw xw, l = tag :: kw ++ xw /\ Forall2 (fun w k => read_nat w = Some k) kw ks /\ Forall2 shows xw xs.

(** ** Contents *)

Inductive kind := SE2 | SE3 | XY | XYZ.
Definition kind_of (v : gvalue) : option kind :=
  match v with
  | GPose2 _ _ _ => Some SE2
  | GPose3 _ _ _ _ _ _ _ => Some SE3
  | GPoint2 _ _ => Some XY
  | GPoint3 _ _ _ => Some XYZ
  | GOtherValue => None
  end.
Definition kind_eqb (a b : kind) : bool :=
  match a, b with SE2, SE2 | SE3, SE3 | XY, XY | XYZ, XYZ => true | _, _ => false end.
Definition is_kind (c : kind) (e : key * gvalue) : bool :=
  match kind_of (snd e) with Some d => kind_eqb c d | None => false end.
Definition vertex_tag (c : kind) : string :=
  match c with
  | SE2 => "VERTEX_SE2" | SE3 => "VERTEX_SE3:QUAT" | XY => "VERTEX_XY" | XYZ => "VERTEX_TRACKXYZ"
  end%string.
Definition coords (v : gvalue) : list double :=
  match v with
  | GPose2 x y th => [x; y; th]
  | GPose3 x y z qx qy qz qw => [x; y; z; qx; qy; qz; qw]
  | GPoint2 x y => [x; y]
  | GPoint3 x y z => [x; y; z]
  | GOtherValue => []
  end.

(** The poses and points of the estimate, and the order in which they should appear. *)
Definition estimated (est : gvalues) : list (key * gvalue) :=
  filter (fun e => match kind_of (snd e) with Some _ => true | None => false end) est.
Definition by_kind (est : gvalues) : list (key * gvalue) :=
  filter (is_kind SE2) est ++ filter (is_kind SE3) est ++ filter (is_kind XY) est ++ filter (is_kind XYZ) est.

Definition vertex_line (l : list string) (e : key * gvalue) : Prop :=
  match kind_of (snd e) with
  | Some c => says l (vertex_tag c) [fst e] (coords (snd e))
  | None => False
  end.

(** Between factors of a graph. *)
Record gedge := Edge { e_dim3 : bool; e_from : key; e_to : key; e_meas : list double; e_noise : gnoise }.
Definition edges_of (g : ggraph) : list gedge :=
  flat_map (fun of => match of with
    | Some (GBetween2 a b x y th nm) => [Edge false a b [x; y; th] nm]
    | Some (GBetween3 a b x y z qx qy qz qw nm) => [Edge true a b [x; y; z; qx; qy; qz; qw] nm]
    | _ => []
    end) g.

(** The information matrix of a noise model with square root information [R]: entry [(i, j)] is the
    product of columns [i] and [j] of [R], in double precision. *)
Fixpoint dot_from (acc : double) (xs ys : list double) : double :=
  match xs, ys with x :: xs', y :: ys' => dot_from (dadd acc (dmul x y)) xs' ys' | _, _ => acc end.
Definition dot (xs ys : list double) : double :=
  match xs, ys with x :: xs', y :: ys' => dot_from (dmul x y) xs' ys' | _, _ => dzero end.
Definition column (n : nat) (R : matrix) (i : nat) : list double := map (fun k => R k i) (seq 0 n).
Definition information (n : nat) (R : matrix) : matrix := fun i j => dot (column n R i) (column n R j).

(** Positions in the upper triangle of a 6 by 6 (3 by 3) matrix, row by row. *)
Definition positions (n : nat) : list (nat * nat) :=
  flat_map (fun i => flat_map (fun j => if i <=? j then [(i, j)] else []) (seq 0 n)) (seq 0 n).

(** Exchange of rotation and translation: [g2o] puts the translation first, so its entry [(i, j)]
    should be GTSAM's entry [(other i, other j)]. *)
Definition other (i : nat) : nat := if i <? 3 then i + 3 else i - 3.
Definition permuted (M : matrix) : matrix := fun i j => M (other i) (other j).

(** Exchange of the diagonal blocks only. *)
Definition half_permuted (M : matrix) : matrix := fun i j =>
  if Bool.eqb (i <? 3) (j <? 3) then M (other i) (other j) else M i j.

Definition edge_line (conv : matrix -> matrix) (l : list string) (e : gedge) : Prop :=
  let n := if e_dim3 e then 6 else 3 in
  exists R, e_noise e = GGauss n R /\
    says l (if e_dim3 e then "EDGE_SE3:QUAT" else "EDGE_SE2")%string [e_from e; e_to e]
      (e_meas e ++ map (fun p => (if e_dim3 e then conv (information n R) else information n R) (fst p) (snd p)) (positions n)).

(** ** Reading a matrix back *)

(** The 21 numbers of a line, as a symmetric matrix. *)
Definition rank6 (i j : nat) : nat := nth i [0; 6; 11; 15; 18; 20] 0 + (j - i).
Definition filled (xs : list Q) : nat -> nat -> option Q := fun i j =>
  nth_error xs (if i <=? j then rank6 i j else rank6 j i).
(** The loader that exchanges the diagonal blocks, and the one that permutes. *)
Definition load_half (xs : list Q) : nat -> nat -> option Q := fun i j =>
  if Bool.eqb (i <? 3) (j <? 3) then filled xs (other i) (other j) else filled xs i j.
Definition load_permuted (xs : list Q) : nat -> nat -> option Q := fun i j => filled xs (other i) (other j).

Fixpoint all_some {A} (l : list (option A)) : option (list A) :=
  match l with
  | [] => Some []
  | Some a :: l' => option_map (cons a) (all_some l')
  | None :: _ => None
  end.
(** The numbers at the end of an [EDGE_SE3:QUAT] line: after the tag, two keys, seven coordinates. *)
Definition info_words (l : list string) : option (list Q) := all_some (map read_num (skipn 10 l)).

(** How the factors of the solver model look to [writeG2o]. *)
Definition renders {O : tops} (emb : factor O -> gfactor) : Prop := forall f,
  match f with
  | FBetween b => exists e, edges_of [Some (emb f)] = [e] /\
      match b_noise b with Gauss _ => exists R, e_noise e = GGauss (if e_dim3 e then 6 else 3) R | NonGauss => e_noise e = GNotGauss end
  | _ => edges_of [Some (emb f)] = []
  end.
