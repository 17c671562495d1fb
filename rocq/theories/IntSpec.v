(** * Vocabulary for the counter of [PoseWithNode] as a machine integer (C66) *)
From Verif Require Import Prelude Num Keys KMap Geometry Factors Clique Pcm Solver PcmSpec.
Set Implicit Arguments.

(** Values of [int] ([PoseWithNode::node], GeometryUtils.h:198). *)
Definition fits (z : Z) : bool := (- 2147483648 <=? z)%Z && (z <? 2147483648)%Z.

Section Int.
Variable G : geom.
Variable pp : pcm_params.

(** [PoseWithNode] with a note whether every sum and difference of counters so far was an [int]
    (compose: [node + other.node], GeometryUtils.h:245; between: [abs(other.node - node)], 269). *)
Definition noted : Type := (pnode G * bool)%type.
Definition noted_comp (a b : noted) : noted :=
  (pn_comp (fst a) (fst b), snd a && snd b && fits (pn_node (fst a) + pn_node (fst b))).
Definition noted_between (a b : noted) : noted :=
  (pn_between (fst a) (fst b),
   snd a && snd b && fits (pn_node (fst b) - pn_node (fst a)) && fits (Z.abs (pn_node (fst b) - pn_node (fst a)))).

(** The tests do the same calculations; what they answer is whether there was an overflow. *)
Definition noted_ops : tops :=
  TOps (g_id G) (g_comp G) (g_inv G) (pn_default G, true) (fun x => (pn_init G x, true))
       (fun b => option_map (fun m => (m, true)) (pn_of G b)) noted_comp (fun a => (pn_inv (fst a), snd a)) noted_between
       (fun a => pn_pose (fst a)) snd snd.

(** Reference poses that are given. *)
Definition given_ref (ref : N -> key -> pnode G) : N -> key -> noted := fun c k => (ref c k, true).
End Int.

(** All of [n] loop closures mutually consistent. *)
Definition all_ones (n : nat) : matrix := Mat n n (fun _ _ => true).
