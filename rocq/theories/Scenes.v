(** * Concrete histories used as examples and witnesses *)
From Coq Require Import QArith.
From Verif Require Import Prelude Num Keys KMap UMap Geometry Factors Clique Pcm Params Solver Grid HistSpec.
Local Open Scope nat_scope.

(** Simple thresholds: odometry error per node below 1, pairwise error per node below 10. *)
Definition pp1 := simple_params 1 10.
Definition O1 := gops pp1.
Definition W1 : soracles O1 := plain_soracles O1 gp_id.
Definition C1 : config := plain_cfg [108%N].

Definition bet := gbet pp1.
Definition pri := gprior pp1.
Definition val := gval pp1.
Definition fwd (n : Z) : gpose := GP n 0 R0.

(** A run whose result is only inspected through [f]. *)
Definition after {A} (C : config) (ops : list (op O1)) (f : solver O1 -> A) : option A :=
  match run C W1 ops (solver_init true) with Ok s _ => Some (f s) | _ => None end.
Definition keys_of (g : graph_t O1) : list (list key) :=
  map (fun of => match of with Some f => f_keys f | None => [] end) g.

(** Two robots: [a] with four poses ten apart, [b] with two poses. *)
Definition start_a := OpUpdate [pri (ka 0) gp_id] [val (ka 0) gp_id] true.
Definition odo_a (i : N) := OpUpdate [bet (ka i) (ka (i + 1)) (fwd 10)] [val (ka (i + 1)) (fwd (10 * (Z.of_N i + 1)))] true.
Definition start_b :=
  OpUpdate [pri (kb 0) (fwd 100); bet (kb 0) (kb 1) (fwd 10)] [val (kb 0) (fwd 100); val (kb 1) (fwd 110)] true.
Definition base : list (op O1) := [start_a; odo_a 0; odo_a 1; odo_a 2; start_b].

(** Loop closures: within robot [a] (right and wrong), between [a] and [b] (measuring [x] apart). *)
Definition lc_good := OpUpdate [bet (ka 0) (ka 3) (fwd 30)] [] true.
Definition lc_bad := OpUpdate [bet (ka 0) (ka 2) (fwd 99)] [] true.
Definition lc_ab (i j : N) (x : Z) := OpUpdate [bet (ka i) (kb j) (fwd x)] [] true.

(** A landmark seen from [a 0] (first sighting, with its value) and again from [a 2]. *)
Definition lm_first := OpUpdate [bet (ka 0) (kl 1) (fwd 5)] [val (kl 1) (fwd 5)] true.
Definition lm_again (i : N) (x : Z) := OpUpdate [bet (ka i) (kl 1) (fwd x)] [] true.

Definition full_history : list (op O1) :=
  base ++ [lc_good; lc_bad; lc_ab 0 0 100; lc_ab 1 1 100; lc_ab 2 0 300;
           lm_first; lm_again 2 (-15);
           OpIgnore 98; lc_ab 3 1 80; OpRevive 98;
           OpRemovePriors 98 true; OpTempUpdate [bet (ka 1) (ka 3) (fwd 20)] []; OpForce [] [];
           OpTempClear].

(** An optimiser that moves every pose to [q] and gives weight one to the first [n] factors. *)
Definition moving (n : nat) (q : gpose) : soracles O1 :=
  @SOracles O1 (plain_oracles O1 gp_id)
    (fun _ _ => Some (Ans (O := O1) (fun _ => q) (fun _ => 0) (fun i => if i <? n then 1%Q else 0%Q))).

(** Six mutually inconsistent loop closures at once. *)
Definition clash := OpUpdate [bet (ka 0) (kb 0) (fwd 100); bet (ka 0) (kb 0) (fwd 200); bet (ka 0) (kb 0) (fwd 300);
  bet (ka 0) (kb 0) (fwd 400); bet (ka 0) (kb 0) (fwd 500); bet (ka 0) (kb 0) (fwd 600)] [] true.

(** Configurations: GNC, GNC with fixed inliers, multi-robot alignment, debug messages. *)
Definition cfg_gnc := Cfg [108%N] true true false false true false false false false false.
Definition cfg_fix := Cfg [108%N] true true false false true true false false false false.
Definition cfg_align := Cfg [108%N] true true false true false false false false false false.
Definition cfg_debug := Cfg [108%N] true true false false false false false false true false.

(** Witnesses are run by computation; only what [P] looks at is computed. *)
Lemma run_check {O} C (W : soracles O) h b (P : solver O -> Prop) :
  match run C W h (solver_init b) with Ok s _ => P s | _ => False end ->
  exists s rs, run C W h (solver_init b) = Ok s rs /\ P s.
Proof. destruct (run C W h (solver_init b)) as [s rs| |]; intro H; [eauto|destruct H..]. Qed.

Lemma ok_check {S A} (x : outcome S A) (P : S -> A -> Prop) :
  match x with Ok s a => P s a | _ => False end -> exists s a, x = Ok s a /\ P s a.
Proof. destruct x as [s a| |]; intro H; [eauto|destruct H..]. Qed.

Lemma throw_check {S A} (x : outcome S A) (P : S -> exn -> Prop) :
  match x with Throw s e => P s e | _ => False end -> exists s e, x = Throw s e /\ P s e.
Proof. destruct x as [|s e|]; intro H; [destruct H|eauto|destruct H]. Qed.

(** Equality test for between factors of the examples (equations between whole factors would drag
    the normal form of [O1] into the computation). *)
Definition rot_eqb (a b : rot) : bool :=
  match a, b with R0, R0 | R1, R1 | R2, R2 | R3, R3 => true | _, _ => false end.
Definition gp_eqb (a b : gpose) : bool :=
  ((gx a =? gx b) && (gy a =? gy b))%Z && rot_eqb (gr a) (gr b).
Definition nb_eqb (f g : bf O1) : bool :=
  ((b_from f =? b_from g) && (b_to f =? b_to g))%N && gp_eqb (b_meas f) (b_meas g) &&
  match b_noise f, b_noise g with
  | Gauss c, Gauss d => (c =? d)%Z
  | NonGauss, NonGauss => true
  | _, _ => false
  end.
Definition is_bet (f : bf O1) (of : option (factor O1)) : bool :=
  match of with Some (FBetween g) => nb_eqb f g | _ => false end.

Lemma gp_eqb_eq a b : gp_eqb a b = true <-> a = b.
Proof.
  destruct a as [x y r], b as [x' y' r']. unfold gp_eqb. cbn [gx gy gr].
  rewrite !andb_true_iff, !Z.eqb_eq. split.
  - intros [[-> ->] Hr]. destruct r, r'; try discriminate; reflexivity.
  - intro H. injection H as -> -> ->. destruct r'; auto.
Qed.

Lemma nb_eqb_eq f g : nb_eqb f g = true <-> f = g.
Proof.
  destruct f as [a b m n], g as [a' b' m' n']. unfold nb_eqb. cbn [b_from b_to b_meas b_noise].
  rewrite !andb_true_iff, !N.eqb_eq, gp_eqb_eq. split.
  - intros [[[-> ->] ->] H]. destruct n as [c|], n' as [d|]; try discriminate; auto.
    apply Z.eqb_eq in H. subst. reflexivity.
  - intro H. injection H as -> -> -> ->. destruct n' as [d|]; repeat split; auto. apply Z.eqb_refl.
Qed.

Lemma is_bet_In f g : existsb (is_bet f) g = true <-> In (Some (FBetween f)) g.
Proof.
  rewrite existsb_exists. split.
  - intros ([[b| | |]|] & H & E); try discriminate. apply nb_eqb_eq in E. subst. auto.
  - intro H. exists (Some (FBetween f)). split; auto. apply nb_eqb_eq. auto.
Qed.

Lemma undef_check {S A} (x : outcome S A) u : match x with Undef v => v = u | _ => False end -> x = Undef u.
Proof. destruct x; intro H; [destruct H..|congruence]. Qed.
