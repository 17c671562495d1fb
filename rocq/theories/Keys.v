(** * Keys, symbols and robot-pair identifiers *)
From Coq Require Import ZArith NArith List Bool Lia.
Import ListNotations.
Local Open Scope N_scope.

(** [gtsam::Key] is a 64-bit unsigned integer; [gtsam::Symbol] packs a character into the
    upper 8 bits and an index into the lower 56. *)
Definition key := N.
Definition key_mod : N := 2 ^ 64.
Definition idx_mod : N := 2 ^ 56.
Definition chr (k : key) : N := k / idx_mod.
Definition kidx (k : key) : N := k mod idx_mod.
Definition sym (c i : N) : key := c * idx_mod + i.
(** [from_key + 1] on 64-bit keys (Pcm.h:189). *)
Definition ksucc (k : key) : key := (k + 1) mod key_mod.

(** Characters as numbers from 0 to 255.  [Symbol::chr] returns an [unsigned char], prefixes handed to
    the library and stored by it are of type [char], which is signed (x86-64): [schar] is its value.
    Comparing the two types promotes both to [int], so a [char] above 127 equals no
    [unsigned char] (Pcm.h:403, 1047, GenericSolver.cpp:142, 152). *)
Definition schar (c : N) : Z := if c <? 128 then Z.of_N c else (Z.of_N c - 256)%Z.
Definition same_char (u c : N) : bool := (u =? c) && (c <? 128).
Lemma same_char_promoted u c : c < 256 -> same_char u c = (Z.of_N u =? schar c)%Z.
Proof.
  intro H. unfold same_char, schar. apply eq_true_iff_eq. rewrite andb_true_iff, N.eqb_eq, N.ltb_lt, Z.eqb_eq.
  destruct (N.ltb_spec c 128); lia.
Qed.

(** [ObservationId] (utils/TypeUtils.h:44-58): equality ignores the order of the robots. *)
Definition obsid := (N * N)%type.
Definition oid_eqb (a b : obsid) : bool :=
  ((fst a =? fst b) && (snd a =? snd b)) || ((snd a =? fst b) && (fst a =? snd b)).

(** [std::hash<ObservationId>] (TypeUtils.h:82-88) on top of an arbitrary [std::hash<char>],
    with 64-bit wrap-around. *)
Definition oid_hash (h : N -> N) (a : obsid) : N :=
  (h (fst a) + h (snd a) + h (fst a) * h (snd a)) mod key_mod.

Lemma oid_eqb_spec a b :
  oid_eqb a b = true <-> (fst a = fst b /\ snd a = snd b) \/ (fst a = snd b /\ snd a = fst b).
Proof.
  unfold oid_eqb. rewrite orb_true_iff, !andb_true_iff, !N.eqb_eq. tauto.
Qed.

Lemma oid_eqb_refl a : oid_eqb a a = true.
Proof. apply oid_eqb_spec. auto. Qed.

Lemma oid_eqb_sym a b : oid_eqb a b = oid_eqb b a.
Proof.
  apply eq_true_iff_eq. rewrite !oid_eqb_spec. intuition.
Qed.

Lemma oid_eqb_trans a b c : oid_eqb a b = true -> oid_eqb b c = true -> oid_eqb a c = true.
Proof.
  rewrite !oid_eqb_spec.
  intros [[E1 E2]|[E1 E2]] [[E3 E4]|[E3 E4]]; rewrite E1, E2, ?E3, ?E4; auto.
Qed.

Lemma oid_hash_compat h a b : oid_eqb a b = true -> oid_hash h a = oid_hash h b.
Proof.
  rewrite oid_eqb_spec. unfold oid_hash. intros [[E1 E2]|[E1 E2]]; rewrite E1, E2.
  - reflexivity.
  - f_equal. lia.
Qed.

Lemma chr_sym c i : i < idx_mod -> chr (sym c i) = c.
Proof.
  intro H. unfold chr, sym. rewrite N.div_add_l by (unfold idx_mod; discriminate).
  rewrite N.div_small by exact H. lia.
Qed.
