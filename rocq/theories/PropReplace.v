(** * Property C76: estimates replaced from outside *)
From Verif Require Import Prelude Num Keys KMap UMap Geometry Factors Pcm Params Solver Grid HistSpec CallsSpec Base BaseSpec ReplaceSpec ReplaceProofs MoveProofs Scenes PropCalls.
Local Open Scope nat_scope.

(** [updateValues] replaces, in order, the estimates of the variables that have one, ignores the
    others, and stops with an exception at the first of another kind; nothing else changes. *)
Theorem C76_replaced_exactly : forall O C (W : soracles O) vs s, NoDup (map fst vs) ->
  exists done rest s', vs = done ++ rest /\ (forall x, In x done -> fits s x) /\ replaced done s s' /\
    ((rest = [] /\ bstep C W (BValues vs) s = Ok s' None) \/
     (exists k v rest', rest = (k, v) :: rest' /\ ~ fits s (k, v) /\ bstep C W (BValues vs) s = Throw s' (IncorrectType k))).
Proof. exact replace_exact. Qed.
Print Assumptions C76_replaced_exactly.

(** With outlier rejection, what is stored, accepted and in the graph does not depend on it. *)
Theorem C76_graph_unaffected : forall O C (W : soracles O) h s t rs rt,
  replaces_only h -> starts_supplied (c_special C) (calls_of h) ->
  brun C W h (solver_init true) = Ok s rs -> run C W (calls_of h) (solver_init true) = Ok t rt ->
  s_pcm s = s_pcm t /\ s_nfg s = s_nfg t /\ forall k, kmem k (s_vals s) = kmem k (s_vals t).
Proof. exact replace_lockstep. Qed.
Print Assumptions C76_graph_unaffected.

(** *** Cases *)
Definition elsewhere : bop O1 := BValues [val (ka 1) (fwd 500); val (ka 3) (fwd (-7)); val (kc 0) (fwd 3)].
Definition with_values : list (bop O1) := map BCall with_start ++ [elsewhere; BCall (lc_ab 1 0 90); elsewhere].
Definition place_of (s : solver O1) (k : key) : option Z := match kfind k (s_vals s) with Some (VPose x) => Some (gx x) | _ => None end.
Definition seen (o : outcome (solver O1) (list ret)) (k : key) : option (option Z) :=
  match o with Ok s _ => Some (place_of s k) | _ => None end.
Example C76_example :
  replaces_only with_values /\ starts_supplied (c_special C1) (calls_of with_values) /\
  (exists s rs, brun C1 W1 with_values (solver_init true) = Ok s rs /\ length (s_nfg s) = 12) /\
  (exists s rs, run C1 W1 (calls_of with_values) (solver_init true) = Ok s rs /\ length (s_nfg s) = 12) /\
  (* the estimates after the first of the two replacements *)
  map (seen (brun C1 W1 (map BCall base ++ [elsewhere]) (solver_init true))) [ka 0; ka 1; ka 3; kc 0] = [Some (Some 0); Some (Some 500); Some (Some (-7)); Some None]%Z.
Proof.
  split. { intros o Ho. apply in_app_or in Ho. destruct Ho as [Ho|Ho]; [apply in_map_iff in Ho; destruct Ho as (x & <- & _); exact I|].
    cbn [In] in Ho. repeat (destruct Ho as [<-|Ho]; [exact I|]). destruct Ho. }
  split; [apply starts_check; vm_compute; reflexivity|].
  split; [apply ok_check; vm_compute; reflexivity|].
  split; [apply run_check; vm_compute; reflexivity|vm_compute; reflexivity].
Qed.

(** A call that ends with an exception has replaced some estimates. *)
Definition mixed : values O1 := [val (ka 1) (fwd 500); (ka 2, VOther 4); val (ka 3) (fwd (-7))].
Theorem C76_all_or_nothing_refuted : exists h vs (s : solver O1) rs s' e k,
  brun C1 W1 h (solver_init true) = Ok s rs /\ NoDup (map fst vs) /\ bstep C1 W1 (BValues vs) s = Throw s' e /\
  kfind k (s_vals s') <> kfind k (s_vals s).
Proof.
  destruct (ok_check (brun C1 W1 (map BCall base) (solver_init true)) (fun s _ => place_of s (ka 1) = Some 10%Z /\
    match bstep C1 W1 (BValues mixed) s with Throw s' _ => place_of s' (ka 1) = Some 500%Z | _ => False end)) as (s & rs & H & E1 & E2).
  { vm_compute. split; reflexivity. }
  apply (throw_check (bstep C1 W1 (BValues mixed) s) (fun s' _ => place_of s' (ka 1) = Some 500%Z)) in E2. destruct E2 as (s' & e & E2 & E3).
  exists (map BCall base), mixed, s, rs, s', e, (ka 1). split; [exact H|]. split.
  { apply (NoDup_map_inv (fun k => k)). rewrite map_id. repeat constructor; cbn; intuition discriminate. }
  split; [exact E2|]. intro X. unfold place_of in E1, E3. rewrite X in E3. rewrite E3 in E1. discriminate E1.
Qed.
Print Assumptions C76_all_or_nothing_refuted.
