(** * Saving the graph: src/Logger.cpp

    [writeG2o] (src/Logger.cpp:64-163), called by [RobustSolver::saveData]
    (src/RobustSolver.cpp:448-465) whenever the solver logs. *)
From Coq Require Import String Ascii.
From Verif Require Import Prelude Num NumText Keys KMap.
Local Open Scope nat_scope.

(** The entries of [gtsam::Values] that [writeG2o] distinguishes by dynamic casts.  Poses are given
    by the numbers the code asks them for ([x()], [y()], [theta()], [translation()],
    [rotation().toQuaternion()]). *)
Inductive gvalue :=
| GPose2 (x y th : double)
| GPose3 (x y z qx qy qz qw : double)
| GPoint2 (x y : double)
| GPoint3 (x y z : double)
| GOtherValue.

(** In key order, like [gtsam::Values]. *)
Definition gvalues := kmap gvalue.

Definition matrix := nat -> nat -> double.

(** Noise models: Gaussian with square root information matrix [R()] of the given dimension, some
    other model (robust), or a null pointer. *)
Inductive gnoise :=
| GGauss (n : nat) (R : matrix)
| GNotGauss
| GNoModel.

Inductive gfactor :=
| GBetween2 (k1 k2 : key) (x y th : double) (nm : gnoise)
| GBetween3 (k1 k2 : key) (x y z qx qy qz qw : double) (nm : gnoise)
| GOtherFactor.

Definition ggraph := list (option gfactor).

Definition dadd (x y : double) : double := SFadd dprec demax x y.
Definition dmul (x y : double) : double := SFmul dprec demax x y.
Definition done : double := dofZ 1.

(** [R().transpose() * R()] (Logger.cpp:119 and 141): coefficients of the product are sums in
    index order.  (Eigen may contract multiplication and addition; that is not modelled.) *)
Definition gram (n : nat) (R : matrix) : matrix := fun i j =>
  fold_left (fun acc k => dadd acc (dmul (R k i) (R k j))) (seq 1 (n - 1)) (dmul (R 0 i) (R 0 j)).

(** [M.block<3, 3>(r, c)] and its assignment. *)
Definition block (M : matrix) (r c : nat) : matrix := fun i j => M (r + i) (c + j).
Definition set_block (M : matrix) (r c : nat) (B : matrix) : matrix := fun i j =>
  if (r <=? i) && (i <? r + 3) && (c <=? j) && (j <? c + 3) then B (i - r) (j - c) else M i j.

Definition identity : matrix := fun i j => if i =? j then done else dzero.

(** [InfoG2o] (Logger.cpp:148-152). *)
Definition info_g2o (info : matrix) : matrix :=
  let m := identity in
  let m := set_block m 0 0 (block info 3 3) in
  let m := set_block m 3 3 (block info 0 0) in
  let m := set_block m 0 3 (block info 0 3) in
  let m := set_block m 3 0 (block info 3 0) in
  m.

(** The loops over [i] and [j >= i] (Logger.cpp:123-127 and 154-158). *)
Definition upper (n : nat) (M : matrix) : list double :=
  flat_map (fun i => map (fun j => M i j) (seq i (n - i))) (seq 0 n).

(** A line of the file is written as words separated by single blanks. *)
Definition line := list string.

(** Vertex lines; one pass over the estimate for each kind (Logger.cpp:70-77, 80-90, 93-99,
    102-108). *)
Definition vertex_se2 (e : key * gvalue) : list line :=
  match e with
  | (k, GPose2 x y th) => [["VERTEX_SE2"%string; nat_text k; num_text x; num_text y; num_text th]]
  | _ => []
  end.
Definition vertex_se3 (e : key * gvalue) : list line :=
  match e with
  | (k, GPose3 x y z qx qy qz qw) =>
      [["VERTEX_SE3:QUAT"%string; nat_text k; num_text x; num_text y; num_text z;
        num_text qx; num_text qy; num_text qz; num_text qw]]
  | _ => []
  end.
Definition vertex_xy (e : key * gvalue) : list line :=
  match e with
  | (k, GPoint2 x y) => [["VERTEX_XY"%string; nat_text k; num_text x; num_text y]]
  | _ => []
  end.
Definition vertex_xyz (e : key * gvalue) : list line :=
  match e with
  | (k, GPoint3 x y z) => [["VERTEX_TRACKXYZ"%string; nat_text k; num_text x; num_text y; num_text z]]
  | _ => []
  end.

Definition vertices (est : gvalues) : list line :=
  flat_map vertex_se2 est ++ flat_map vertex_se3 est ++ flat_map vertex_xy est ++ flat_map vertex_xyz est.

(** The noise model is examined before anything of the edge is written: a null model is dereferenced
    by [model->print], another model throws (Logger.cpp:112-118 and 134-140); the assignment to a
    fixed size matrix needs the right dimension. *)
Definition edge_info (n : nat) (nm : gnoise) (out : list line) (f : matrix -> line) : outcome (list line) unit :=
  match nm with
  | GNoModel => Undef NullDeref
  | GNotGauss => Throw out InvalidArgument
  | GGauss d R => if d =? n then Ok (out ++ [f (gram n R)]) tt else Undef EigenMismatch
  end.

(** One factor (Logger.cpp:110-161). *)
Definition write_edge (f : option gfactor) (out : list line) : outcome (list line) unit :=
  match f with
  | Some (GBetween2 k1 k2 x y th nm) =>
      edge_info 3 nm out (fun info =>
        ["EDGE_SE2"%string; nat_text k1; nat_text k2; num_text x; num_text y; num_text th] ++
        map num_text (upper 3 info))
  | Some (GBetween3 k1 k2 x y z qx qy qz qw nm) =>
      edge_info 6 nm out (fun info =>
        ["EDGE_SE3:QUAT"%string; nat_text k1; nat_text k2; num_text x; num_text y; num_text z;
         num_text qx; num_text qy; num_text qz; num_text qw] ++
        map num_text (upper 6 (info_g2o info)))
  | _ => Ok out tt
  end.

Fixpoint write_edges (g : ggraph) (out : list line) : outcome (list line) unit :=
  match g with
  | [] => Ok out tt
  | f :: g' => obind (write_edge f out) (fun out' _ => write_edges g' out')
  end.

(** [writeG2o]: the lines written when it returns or throws (the stream is closed either way). *)
Definition write_g2o (g : ggraph) (est : gvalues) : outcome (list line) unit :=
  write_edges g (vertices est).

(** The characters of the file. *)
Definition newline : string := String (ascii_of_nat 10) EmptyString.
Definition file_text (ls : list line) : string :=
  fold_right append EmptyString (map (fun l => append (String.concat " " l) newline) ls).
