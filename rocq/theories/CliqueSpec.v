(** * What the clique code is supposed to do

    Nothing here mentions the search algorithms or the compressed graph; only the
    type of matrices is taken from the model. *)
From Verif Require Import Prelude Clique.

(** Two measurements are adjacent when the strict lower triangle says so. *)
Definition edge (m : matrix) (i j : nat) : Prop :=
  i < m_rows m /\ j < m_rows m /\
  ((j < i /\ j < m_cols m /\ m_at m i j = true) \/
   (i < j /\ i < m_cols m /\ m_at m j i = true)).

(** A set of mutually adjacent rows, listed without repetition. *)
Definition is_clique (m : matrix) (l : list nat) : Prop :=
  NoDup l /\ (forall x, In x l -> x < m_rows m) /\
  (forall x y, In x l -> In y l -> x <> y -> edge m x y).

Definition is_max_clique (m : matrix) (l : list nat) : Prop :=
  is_clique m l /\ forall l', is_clique m l' -> length l' <= length l.

(** Adjacency is transitive: rows split into groups. *)
Definition transitive_graph (m : matrix) : Prop :=
  forall x y z, edge m x y -> edge m y z -> x <> z -> edge m x z.

(** All rows that agree with [x], including [x]. *)
Definition same_group (m : matrix) (x y : nat) : Prop :=
  x < m_rows m /\ (x = y \/ edge m x y).

Definition complete_graph (m : matrix) : Prop :=
  forall x y, x < m_rows m -> y < m_rows m -> x <> y -> edge m x y.

(** Adjacency lists of a compressed graph. *)
Definition csr_neighbours (g : graph) (v : nat) : list nat :=
  let lo := nth v (g_vs g) 0 in
  let hi := nth (v + 1) (g_vs g) 0 in
  firstn (hi - lo) (skipn lo (g_es g)).

(** First vertex, then vertices adjacent to it. *)
Definition star_prefix (m : matrix) (k : nat) (data : list nat) : Prop :=
  k <= length data /\ exists c l, firstn k data = c :: l /\ c < m_rows m /\
    forall x, In x l -> edge m c x.
