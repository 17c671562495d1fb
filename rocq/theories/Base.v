(** * A robust solver used through its base class

    The public members of [GenericSolver] can be called on a [RobustSolver] as well: [update] with
    indices (hidden by the member of the same name, reached by a reference to the base class),
    [removeFactorsNoUpdate], [removeLastFactor], [removePriorsWithPrefix] and [updateValues]
    (src/GenericSolver.cpp, lines G:n). They know nothing of the outlier rejection. *)
From Coq Require Import QArith.
From Verif Require Import Prelude Keys KMap Geometry Factors Pcm Solver.
Set Implicit Arguments.
Local Open Scope nat_scope.

Section Base.
Variable O : tops.
Variable C : config.
Variable W : soracles O.
Notation solver := (solver O).

Inductive bop :=
| BCall (o : op O)                                        (* a member of [RobustSolver] *)
| BUpdate (fs : graph_t O) (vs : values O) (rm : list nat) (* G:67-112 *)
| BDrop (rm : list nat)                                   (* G:114-120 *)
| BPop                                                    (* G:122-128 *)
| BPriors (c : N)                                         (* G:130-160 *)
| BValues (vs : values O).                                (* G:37-45 *)

Definition base_values (vs : values O) (s : solver) : outcome solver unit :=
  match update_values vs (s_vals s, s_tvals s) with
  | Ok (v, tv) _ => Ok (set_temp (set_vals s v) (s_tnfg s) tv) tt
  | Throw (v, tv) e => Throw (set_temp (set_vals s v) (s_tnfg s) tv) e
  | Undef u => Undef u
  end.

Definition bstep (o : bop) (s : solver) : outcome solver ret :=
  match o with
  | BCall o => step C W o s
  | BUpdate fs vs rm => no_ret (generic_update W fs vs rm s)
  | BDrop rm => no_ret (remove_factors_no_update rm s)
  | BPop => edge_ret (remove_last_factor s)
  | BPriors c => Ok (set_nfg s (filter (keep_prior c) (s_nfg s))) None
  | BValues vs => no_ret (base_values vs s)
  end.

Fixpoint brun (h : list bop) (s : solver) : outcome solver (list ret) :=
  match h with
  | [] => Ok s []
  | o :: h' => obind (bstep o s) (fun s1 r => obind (brun h' s1) (fun s2 rs => Ok s2 (r :: rs)))
  end.
End Base.
Arguments BCall {O}.
Arguments BUpdate {O}.
Arguments BDrop {O}.
Arguments BPop {O}.
Arguments BPriors {O}.
Arguments BValues {O}.
