(** * A robust solver used through its base class: theorems (C62) *)
From Coq Require Import QArith.
From Verif Require Import Prelude Num Keys KMap UMap Geometry Factors Pcm Params Solver Grid HistSpec CallsSpec Base BaseSpec CallsProofs MoveProofs BaseProofs Scenes PropCalls.
Local Open Scope nat_scope.

(** ** C62: what is removed through the base class stays removed *)

(** Without outlier rejection the graph is what the edits say, for every history of calls. *)
Theorem C62_plain_graph : forall O C (W : soracles O) h s rs, brun C W h (solver_init false) = Ok s rs ->
  s_nfg s = fold_left (fun g o => edited o g) h [].
Proof. intros O C W h s rs H. exact (proj2 (plain_brun C W h (solver_init false) eq_refl H)). Qed.
Print Assumptions C62_plain_graph.

(** So a slot that was emptied stays empty as long as no call moves slots. *)
Theorem C62_stays_removed_partial : forall O C (W : soracles O) h1 rm h2 i s rs,
  In i rm -> (forall o, In o h2 -> keeps_slots o) ->
  brun C W (h1 ++ BDrop rm :: h2) (solver_init false) = Ok s rs -> nth_error (s_nfg s) i = Some None.
Proof. intros O C W h1 rm h2 i s rs Hi K H. exact (plain_dropped C W h1 h2 rm i Hi K H). Qed.
Print Assumptions C62_stays_removed_partial.

(** With outlier rejection edits last until the next call that hands a graph over, and leave no
    trace after it: the graph is the one of the history without the edits. *)
Theorem C62_edits_undone : forall O C (W : soracles O) h s t rs rt,
  edits_only h -> starts_supplied (c_special C) (calls_of h) ->
  brun C W h (solver_init true) = Ok s rs -> run C W (calls_of h) (solver_init true) = Ok t rt ->
  s_pcm s = s_pcm t /\ (forall k, kmem k (s_vals s) = kmem k (s_vals t)) /\
  forall g o, h = g ++ [BCall o] -> hands_over o (last rs None) -> s_nfg s = s_nfg t.
Proof.
  intros O C W h s t rs rt HE HS H1 H2. destruct (edits_lockstep C W HE HS H1 H2) as (A & B & D).
  split; [exact A|]. split; [exact B|]. intros g o E HH. exact (D g o _ E eq_refl HH).
Qed.
Print Assumptions C62_edits_undone.

(** *** Cases *)

(** Ordinary calls with edits in between: three of the first ten factors are removed by the base
    class, and all are back after the next loop closure. *)
Definition with_edits : list (bop O1) :=
  map BCall with_start ++ [BDrop [1; 3]; BPop; BPriors 97; BCall (lc_ab 1 0 90)].

Example C62_undone_example : edits_only with_edits /\ starts_supplied (c_special C1) (calls_of with_edits) /\
  (exists s rs, brun C1 W1 (map BCall with_start ++ [BDrop [1; 3]; BPop; BPriors 97]) (solver_init true) = Ok s rs /\
     length (filter (fun f => match f with Some _ => true | None => false end) (s_nfg s)) = 7) /\
  (exists s rs, brun C1 W1 with_edits (solver_init true) = Ok s rs /\ length (s_nfg s) = 12 /\ hands_over (lc_ab 1 0 90) (last rs None)) /\
  (exists s rs, run C1 W1 (calls_of with_edits) (solver_init true) = Ok s rs /\ length (s_nfg s) = 12).
Proof.
  split.
  { intros o Ho. apply in_app_or in Ho. destruct Ho as [Ho|Ho].
    - apply in_map_iff in Ho. destruct Ho as (x & <- & _). exact I.
    - cbn [In] in Ho. repeat (destruct Ho as [<-|Ho]; [try exact I; reflexivity|]). destruct Ho. }
  split; [apply starts_check; vm_compute; reflexivity|].
  split; [apply ok_check; vm_compute; reflexivity|].
  split; [|apply run_check; vm_compute; reflexivity].
  destruct (ok_check (brun C1 W1 with_edits (solver_init true)) (fun s _ => length (s_nfg s) = 12)) as (s & rs & E & L);
    [vm_compute; reflexivity|]. exists s, rs. split; [exact E|]. split; [exact L|]. cbn [hands_over lc_ab]. discriminate.
Qed.

Definition slot (s : solver O1) (i : nat) : option (option (list key)) := option_map (option_map (f_keys (O := O1))) (nth_error (s_nfg s) i).
Lemma slot_empty s i : slot s i = Some None -> nth_error (s_nfg s) i = Some None.
Proof. unfold slot. destruct (nth_error (s_nfg s) i) as [[]|]; cbn; congruence. Qed.

(** Without outlier rejection the first odometry stays removed. *)
Example C62_plain_example : exists s rs,
  brun C1 W1 (map BCall base ++ BDrop [1] :: map BCall [lc_good; lc_bad; OpForce [] []]) (solver_init false) = Ok s rs /\
  slot s 1 = Some None /\ length (s_nfg s) = 8.
Proof. apply ok_check. vm_compute. split; reflexivity. Qed.

(** The odometry from [a 0] to [a 1] is removed and reappears. *)
Theorem C62_stays_removed_refuted : exists h1 rm h2 i (s1 : solver O1) rs1 s rs,
  In i rm /\ (forall o, In o h2 -> keeps_slots o) /\
  brun C1 W1 (h1 ++ [BDrop rm]) (solver_init true) = Ok s1 rs1 /\ nth_error (s_nfg s1) i = Some None /\
  brun C1 W1 (h1 ++ BDrop rm :: h2) (solver_init true) = Ok s rs /\
  slot s i = Some (Some [ka 0; ka 1]).
Proof.
  assert (A : exists s1 rs1, brun C1 W1 (map BCall base ++ [BDrop [0]]) (solver_init true) = Ok s1 rs1 /\ slot s1 0 = Some None).
  { apply ok_check. vm_compute. reflexivity. }
  assert (B : exists s rs, brun C1 W1 (map BCall base ++ BDrop [0] :: [BCall lc_good]) (solver_init true) = Ok s rs /\
    slot s 0 = Some (Some [ka 0; ka 1])).
  { apply ok_check. vm_compute. reflexivity. }
  destruct A as (s1 & rs1 & A1 & A2). destruct B as (s & rs & B1 & B2).
  exists (map BCall base), [0], [BCall lc_good], 0, s1, rs1, s, rs.
  split; [left; reflexivity|]. split; [intros o [<-|[]]; exact I|]. split; [exact A1|]. split; [exact (slot_empty _ _ A2)|]. split; [exact B1|exact B2].
Qed.
Print Assumptions C62_stays_removed_refuted.

(** Removals through the base class can make later calls of the solver undefined: the last factor is
    looked at although its slot is empty; weights of loop closures are looked for behind the end. *)
Theorem C62_later_calls_defined_refuted :
  (exists h, Forall (fun o => match o with BCall _ | BDrop _ => True | _ => False end) h /\
     (exists s rs, brun C1 W1 h (solver_init false) = Ok s rs) /\
     brun C1 W1 (h ++ [BCall OpRemoveLast]) (solver_init false) = Undef NullDeref) /\
  (exists h, Forall (fun o => match o with BCall _ | BPop => True | _ => False end) h /\
     (exists s rs, brun cfg_fix W1 h (solver_init true) = Ok s rs) /\
     brun cfg_fix W1 (h ++ [BCall (OpForce [] [])]) (solver_init true) = Undef OutOfBounds).
Proof.
  split.
  - exists (map BCall base ++ [BDrop [5]]). split; [|split].
    + apply Forall_app. split; [|repeat constructor]. apply Forall_forall. intros o Ho. apply in_map_iff in Ho. destruct Ho as (x & <- & _). exact I.
    + destruct (ok_check (brun C1 W1 (map BCall base ++ [BDrop [5]]) (solver_init false)) (fun _ _ => True)) as (s & rs & E & _);
        [vm_compute; exact I|]. exists s, rs. exact E.
    + apply undef_check. vm_compute. reflexivity.
  - exists (map BCall (base ++ [lc_good]) ++ [BPop; BPop]). split; [|split].
    + apply Forall_app. split; [|repeat constructor]. apply Forall_forall. intros o Ho. apply in_map_iff in Ho. destruct Ho as (x & <- & _). exact I.
    + destruct (ok_check (brun cfg_fix W1 (map BCall (base ++ [lc_good]) ++ [BPop; BPop]) (solver_init true)) (fun _ _ => True)) as (s & rs & E & _);
        [vm_compute; exact I|]. exists s, rs. exact E.
    + apply undef_check. vm_compute. reflexivity.
Qed.
Print Assumptions C62_later_calls_defined_refuted.
