(** * Replacing estimates from outside: specification *)
From Verif Require Import Prelude Keys KMap Geometry Factors Pcm Solver HistSpec Base.
Set Implicit Arguments.
Local Open Scope nat_scope.

Section Spec.
Variable O : tops.

(** The estimate of a variable: the permanent one if there is one, else the temporary one. *)
Definition known (s : solver O) (k : key) : option (value O) :=
  match kfind k (s_vals s) with Some v => Some v | None => kfind k (s_tvals s) end.
Definition same_kind (a b : value O) : Prop :=
  match a, b with VPose _, VPose _ => True | VOther _, VOther _ => True | _, _ => False end.
Definition fits (s : solver O) (x : key * value O) : Prop :=
  match known s (fst x) with Some v => same_kind v (snd x) | None => True end.

(** [s'] is [s] with the estimates of the variables of [vs] that have one replaced. *)
Definition replaced (vs : values O) (s s' : solver O) : Prop :=
  (forall k, kfind k (s_vals s') = match kfind k (s_vals s), kfind k vs with Some _, Some v => Some v | o, _ => o end) /\
  (forall k, kfind k (s_tvals s') =
     match kfind k (s_tvals s), kfind k vs with Some _, Some v => if kmem k (s_vals s) then kfind k (s_tvals s) else Some v | o, _ => o end) /\
  s_pcm s' = s_pcm s /\ s_nfg s' = s_nfg s /\ s_tnfg s' = s_tnfg s /\ s_w s' = s_w s /\ s_tw s' = s_tw s /\
  s_ninl s' = s_ninl s /\ s_latest s' = s_latest s /\ s_trace s' = s_trace s.

(** Histories in which the only calls through the base class replace estimates. *)
Definition replaces_only (h : list (bop O)) : Prop :=
  forall o, In o h -> match o with BCall _ | BValues _ => True | _ => False end.
End Spec.
