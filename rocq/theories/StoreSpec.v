(** * Specification: which loop closures and landmark observations are stored

    Given the calls made and the reference poses after each call. *)
From Coq Require Import Permutation.
From Verif Require Import Prelude Keys KMap Geometry Factors Clique Pcm Solver PcmSpec PcmProofs HistSpec.
Set Implicit Arguments.
Local Open Scope nat_scope.

(** ** Pairwise records *)
Section Faithful.
Variable A : Type.
Variable test : A -> A -> option bool.

(** One row per item, symmetric, empty diagonal; entry [(i,j)] is the outcome of the test of the
    earlier item against the later one. *)
Definition faithful (L : list A) (m : matrix) : Prop :=
  m_rows m = length L /\ m_cols m = length L /\
  (forall i, i < length L -> m_at m i i = false) /\
  forall i j x y, i < j -> nth_error L i = Some x -> nth_error L j = Some y ->
    exists r, test x y = Some r /\ m_at m i j = r /\ m_at m j i = r.
End Faithful.

Section Spec.
Variable O : tops.
Variable C : config.
Variable W : soracles O.
Notation bf := (bf O).
Notation T := (t_T O).
Notation op := (op O).
Notation sp := (c_special C).
Notation refs := (N -> key -> T).

(** The variable has been given a value. *)
Definition knows (h : list op) (k : key) : bool :=
  existsb (fun o => match call_of o with Some (_, vs) => sp_supplied vs k | None => false end) h.

(** The reference poses after a history. *)
Definition refs_after (h : list op) : refs :=
  match run C W h (solver_init true) with
  | Ok s _ => match s_pcm s with Some p => tref p | None => fun _ _ => t_default O end
  | _ => fun _ _ => t_default O
  end.

Definition passes_odom (ref : refs) (b : bf) : bool :=
  if (chr (b_from b) =? chr (b_to b))%N && c_odom_check C
  then match sp_odom_test ref b with Some true => true | _ => false end else true.
Definition sp_lmk (b : bf) : bool := sp_landmark sp (b_from b) || sp_landmark sp (b_to b).

(** A pose-pose candidate is stored when both keys are known and the odometry test does not
    reject it; a landmark re-observation when both keys are known. *)
Definition stores (known : key -> bool) (ref : refs) (b : bf) : bool :=
  known (b_from b) && known (b_to b) && negb (sp_lmk b) && passes_odom ref b.
Definition stores_lm (known : key -> bool) (b : bf) : bool :=
  known (b_from b) && known (b_to b) && sp_lmk b.

Definition of_pair (id : obsid) (b : bf) : bool := oid_eqb (chr (b_from b), chr (b_to b)) id.
Definition of_landmark (l : key) (b : bf) : bool := (sp_landmark_key sp b =? l)%N.

(** Collect what each call contributes. *)
Fixpoint along {A} (f : list op -> op -> list A) (done todo : list op) : list A :=
  match todo with
  | [] => []
  | o :: todo' => f done o ++ along f (done ++ [o]) todo'
  end.

(** The loop closures stored by a call, with the reference poses used for their tests. *)
Definition newly (h : list op) (o : op) : list (bf * refs) :=
  match call_of o with
  | Some (fs, vs) =>
      map (fun b => (b, refs_after (h ++ [o])))
        (filter (stores (knows (h ++ [o])) (refs_after (h ++ [o]))) (filter (sp_candidate sp vs) (betweens fs)))
  | None => []
  end.
(** All loop closures ever stored, in order of arrival. *)
Definition sp_stored (h : list op) : list (bf * refs) := along newly [] h.

(** A landmark sighting: first sighting ([true]) or re-observation. *)
Record sighting := Sight { si_first : bool; si_obs : bf * refs }.
Definition sighted (h : list op) (o : op) : list sighting :=
  match call_of o with
  | Some (fs, vs) =>
      map (fun b => Sight true (b, refs_after (h ++ [o]))) (filter (sp_first sp vs) (betweens fs)) ++
      map (fun b => Sight false (b, refs_after (h ++ [o])))
        (filter (stores_lm (knows (h ++ [o]))) (filter (sp_candidate sp vs) (betweens fs)))
  | None => []
  end.
Definition sp_sightings (h : list op) : list sighting := along sighted [] h.

(** The observations of a landmark since (and including) its last first sighting. *)
Definition current (l : key) (M : list sighting) : list (bf * refs) :=
  fold_left (fun acc x => if of_landmark l (fst (si_obs x))
                          then if si_first x then [si_obs x] else acc ++ [si_obs x]
                          else acc) M [].

(** The observations of a landmark that take part in the tests: all, or all but the last if there
    are several and one of them starts from the landmark. *)
Definition recorded (l : key) (L : list (bf * refs)) : list (bf * refs) :=
  if (length L <=? 1) || forallb (fun x => negb (b_from (fst x) =? l)%N) L then L else removelast L.

(** The test of an earlier stored item against a later one, run with the reference poses the
    later one was stored with. *)
Definition lc_test (x y : bf * refs) : option bool := sp_loop_test (snd y) (fst x) (fst y).
Definition lm_test (x y : bf * refs) : option bool := sp_lm_test (snd y) (fst x) (fst y).

Definition pair_items (id : obsid) (h : list op) : list (bf * refs) :=
  filter (fun x => of_pair id (fst x)) (sp_stored h).

(** Loop closures of a robot pair and observations of a landmark that are in the graph. Odometry
    and other factors come first (C08). *)
Definition graph_extra (h : list op) (g : graph_t O) : list bf :=
  betweens (skipn (length (sp_odoms sp h) + length (sp_others h)) g).
Definition graph_lcs (h : list op) (id : obsid) (g : graph_t O) : list bf :=
  filter (fun b => of_pair id b && negb (sp_lmk b)) (graph_extra h g).
Definition graph_lms (h : list op) (l : key) (g : graph_t O) : list bf :=
  filter (fun b => of_landmark l b && sp_lmk b) (graph_extra h g).

(** The items at positions [i] and [j] passed their test. *)
Definition agree (test : bf * refs -> bf * refs -> option bool) (L : list (bf * refs)) (i j : nat) : Prop :=
  exists x y, nth_error L i = Some x /\ nth_error L j = Some y /\
    ((i < j /\ test x y = Some true) \/ (j < i /\ test y x = Some true)).

Definition pair_ignored (h : list op) (id : obsid) : bool := sp_ignored h (fst id) || sp_ignored h (snd id).

(** A selection [cs] from the items [L]: all agree with the first; at most two are distinct
    items; if agreement is transitive they are a maximal group of mutually agreeing items; if all
    agree all are selected. *)
Definition star_of (test : bf * refs -> bf * refs -> option bool) (L : list (bf * refs)) (cs : list bf) : Prop :=
  exists idx, Forall2 (fun i b => nth_error (map fst L) i = Some b) idx cs /\
    (exists c l, idx = c :: l /\ forall x, In x l -> agree test L c x) /\
    (length idx <= 2 -> NoDup idx) /\
    ((forall x y z, agree test L x y -> agree test L y z -> x <> z -> agree test L x z) ->
       NoDup idx /\ (forall x y, In x idx -> In y idx -> x <> y -> agree test L x y) /\
       forall idx', NoDup idx' -> (forall x, In x idx' -> x < length L) ->
         (forall x y, In x idx' -> In y idx' -> x <> y -> agree test L x y) -> length idx' <= length idx) /\
    ((forall x y, x < length L -> y < length L -> x <> y -> agree test L x y) -> Permutation cs (map fst L)).

(** ** What happens to a between factor of a call *)
Inductive fate := IsOdometry | IsFirstSighting | IsSelfLoop | LacksKey | StoredLandmark | StoredClosure | OdometryRejected.
Definition has_fate (nv : values O) (known : key -> bool) (ref : refs) (b : bf) (x : fate) : Prop :=
  let cand := sp_candidate sp nv b = true in
  let both := known (b_from b) = true /\ known (b_to b) = true in
  match x with
  | IsOdometry => sp_odometry sp nv b = true
  | IsFirstSighting => sp_first sp nv b = true
  | IsSelfLoop => sp_odometry sp nv b = false /\ sp_first sp nv b = false /\ b_from b = b_to b
  | LacksKey => cand /\ ~ both
  | StoredLandmark => cand /\ both /\ sp_lmk b = true
  | StoredClosure => cand /\ both /\ sp_lmk b = false /\
      (chr (b_from b) = chr (b_to b) -> c_odom_check C = true -> sp_odom_test ref b = Some true)
  | OdometryRejected => cand /\ both /\ sp_lmk b = false /\
      chr (b_from b) = chr (b_to b) /\ c_odom_check C = true /\ sp_odom_test ref b <> Some true
  end.

(** ** With removals *)

Fixpoint drop_first {A} (F : A -> bool) (l : list A) : list A :=
  match l with
  | [] => []
  | x :: l' => if F x then l' else x :: drop_first F l'
  end.
(** Delete the last element satisfying [F]. *)
Definition drop_last {A} (F : A -> bool) (l : list A) : list A := rev (drop_first F (rev l)).
Definition last_of {A} (F : A -> bool) (l : list A) : option A :=
  match rev (filter F l) with [] => None | x :: _ => Some x end.

(** Loop closures present and robot pairs in order of arrival.  A removal without robot pair goes
    by the latter list, which removals by robot pair leave alone. *)
Definition live_step (h : list op) (o : op) (acc : list bf * list obsid) : list bf * list obsid :=
  let '(live, order) := acc in
  match o with
  | OpRemoveId a b => (drop_last (of_pair (a, b)) live, order)
  | OpRemoveLast =>
      match rev order with
      | [] => acc
      | id :: _ => (drop_last (of_pair id) live, removelast order)
      end
  | _ => (live ++ map fst (newly h o), order ++ map (fun x => (chr (b_from (fst x)), chr (b_to (fst x)))) (newly h o))
  end.
Fixpoint live_from (done todo : list op) (acc : list bf * list obsid) : list bf * list obsid :=
  match todo with
  | [] => acc
  | o :: todo' => live_from (done ++ [o]) todo' (live_step done o acc)
  end.
Definition sp_live (h : list op) : list bf := fst (live_from [] h ([], [])).
Definition sp_order (h : list op) : list obsid := snd (live_from [] h ([], [])).

(** The loop closures present, with the reference poses they were tested with. *)
Definition items_step (h : list op) (o : op) (acc : list (bf * refs)) : list (bf * refs) :=
  match o with
  | OpRemoveId a b => drop_last (fun x => of_pair (a, b) (fst x)) acc
  | OpRemoveLast =>
      match rev (sp_order h) with
      | [] => acc
      | id :: _ => drop_last (fun x => of_pair id (fst x)) acc
      end
  | _ => acc ++ newly h o
  end.
Fixpoint items_from (done todo : list op) (acc : list (bf * refs)) : list (bf * refs) :=
  match todo with
  | [] => acc
  | o :: todo' => items_from (done ++ [o]) todo' (items_step done o acc)
  end.
Definition live_items (id : obsid) (h : list op) : list (bf * refs) :=
  filter (fun x => of_pair id (fst x)) (items_from [] h []).

(** ** Inputs the checks can handle *)

(** A measurement of the kind of pose the checks work on. *)
Definition tested (b : bf) : Prop := t_of O b <> None.
(** A between factor with a measurement of the tested kind, and landmarks only at the far end. *)
Definition decent (b : bf) : Prop := tested b /\ (sp_lmk b = true -> sp_landmark sp (b_from b) = false).
Definition tested_history (h : list op) : Prop := forall b, delivered h (FBetween b) -> tested b.
Definition decent_history (h : list op) : Prop := forall b, delivered h (FBetween b) -> decent b.

(** Incremental selection computes with unsigned row numbers. *)
Definition small (n : nat) : Prop := c_incremental C = true -> (Z.of_nat n < size_t_mod)%Z.

(** The robot pair a removal goes for. *)
Definition target (h : list op) (o : op) : option obsid :=
  match o with
  | OpRemoveId a b => Some (a, b)
  | OpRemoveLast => match rev (sp_order h) with [] => None | id :: _ => Some id end
  | _ => None
  end.

(** Every removal finds either no loop closure of the pair or, with the pairwise check, at least
    three (without the check: exactly two). *)
Definition gentle (h : list op) : Prop := forall h1 o h2 id, h = h1 ++ o :: h2 -> target h1 o = Some id ->
  let n := length (filter (of_pair id) (sp_live h1)) in
  n = 0 \/ if c_loop_check C then 3 <= n else n = 2.

(** The memory a removal reads after having freed it still has its contents. *)
Definition freed_intact : Prop := forall n a i j, w_freed (so_pcm W) n a i j = a i j.
End Spec.
