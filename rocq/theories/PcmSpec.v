(** * Specification vocabulary for outlier rejection

    Written against the input data (factors, values, landmark prefixes) and against reference
    poses given as a function; nothing here mentions the internal state of the model. *)
From Verif Require Import Prelude Keys KMap Geometry Factors.
Set Implicit Arguments.

Section Spec.
Variable O : tops.
Notation bf := (bf O).
Notation factor := (factor O).
Notation values := (values O).
Notation graph_t := (graph_t O).
Notation T := (t_T O).

(** The between factors and the other factors of a graph, null slots skipped. *)
Definition betweens (g : graph_t) : list bf :=
  flat_map (fun of => match of with Some (FBetween b) => [b] | _ => [] end) g.
Definition others (g : graph_t) : list factor :=
  flat_map (fun of => match of with Some (FBetween _) => [] | Some f => [f] | None => [] end) g.

Variable sp : list N.   (* landmark prefixes *)

Definition sp_landmark (k : key) : bool := if in_dec N.eq_dec (chr k) sp then true else false.
Definition sp_supplied (nv : values) (k : key) : bool :=
  if in_dec N.eq_dec k (map fst nv) then true else false.

(** Odometry: from a pose to the next key, whose value comes in the same call. *)
Definition sp_odometry (nv : values) (b : bf) : bool :=
  negb (sp_landmark (b_from b)) && negb (sp_landmark (b_to b)) &&
  (b_to b =? (b_from b + 1) mod 2 ^ 64)%N && sp_supplied nv (b_to b).

(** First sighting of a landmark: one end is a landmark and a value comes in the same call. *)
Definition sp_first (nv : values) (b : bf) : bool :=
  (sp_landmark (b_from b) || sp_landmark (b_to b)) &&
  (sp_supplied nv (b_from b) || sp_supplied nv (b_to b)).

(** Loop-closure candidates: every other between factor, self loops excluded. *)
Definition sp_candidate (nv : values) (b : bf) : bool :=
  negb (sp_odometry nv b) && negb (sp_first nv b) && negb (b_from b =? b_to b)%N.

(** The landmark observed by a landmark factor. *)
Definition sp_landmark_key (b : bf) : key := if sp_landmark (b_from b) then b_from b else b_to b.

(** Reference poses: prefix of the trajectory, then key. *)
Variable ref : N -> key -> T.

(** Relative odometric pose from [a] to [b] in the trajectory of prefix [c]. *)
Definition sp_rel (c : N) (a b : key) : T :=
  if (chr a =? chr b)%N then t_between O (ref c a) (ref c b)
  else
    let ra := ref c (sym (chr a) 0) in
    let rb := ref c (sym (chr b) 0) in
    t_comp O (t_comp O (t_inv O (t_between O ra (ref c a))) (t_between O ra rb))
             (t_between O rb (ref c b)).

(** Odometry test of a loop closure [b] measured as [m]. *)
Definition sp_odom_test (b : bf) : option bool :=
  match t_of O b with
  | None => None
  | Some m => Some (t_odom_ok O (t_comp O (sp_rel (chr (b_from b)) (b_from b) (b_to b)) (t_inv O m)))
  end.

(** Pairwise test of an earlier loop closure [f1] and a later one [f2]. When the two start at
    different robots the ends of [f2] are exchanged. *)
Definition sp_loop_test (f1 f2 : bf) : option bool :=
  match t_of O f1, t_of O f2 with
  | Some m1, Some m2 =>
      let a := b_from f1 in
      let b := b_to f1 in
      let same := (chr a =? chr (b_from f2))%N in
      let c := if same then b_from f2 else b_to f2 in
      let d := if same then b_to f2 else b_from f2 in
      Some (t_loop_ok O
        (t_comp O (t_comp O (t_inv O (t_comp O (sp_rel (chr a) a c) m2)) m1) (sp_rel (chr b) b d)))
  | _, _ => None
  end.

(** Pairwise test of two observations [i -> l], [j -> l] of one landmark. *)
Definition sp_lm_test (fi fj : bf) : option bool :=
  match t_of O fi, t_of O fj with
  | Some i_l, Some j_l =>
      Some (t_loop_ok O
        (t_comp O (t_inv O (t_comp O (sp_rel (chr (b_from fi)) (b_from fi) (b_from fj)) j_l)) i_l))
  | _, _ => None
  end.

End Spec.

Arguments betweens {O} g.
Arguments others {O} g.
Arguments sp_odometry {O} sp nv b.
Arguments sp_first {O} sp nv b.
Arguments sp_candidate {O} sp nv b.
Arguments sp_landmark_key {O} sp b.
Arguments sp_rel {O} ref c a b.
Arguments sp_odom_test {O} ref b.
Arguments sp_loop_test {O} ref f1 f2.
Arguments sp_lm_test {O} ref fi fj.
