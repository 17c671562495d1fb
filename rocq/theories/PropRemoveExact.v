(** * Properties C21-C23: exactly when removals, and calls after them, are undefined *)
From Coq Require Import QArith.
From Verif Require Import Prelude Num Keys KMap UMap Geometry Factors Clique Pcm Params Solver Grid
  ValuesProofs PcmSpec PcmProofs PcmInv HistSpec StoreSpec SolverProofs HistProofs GraphProofs StoreProofs AcceptProofs LiveProofs
  StoreThms SafeProofs RemoveSpec RemoveExact RemoveCalls RecordProofs RemoveIff Scenes PropStore PropRemove.
Local Open Scope nat_scope.

(** ** C21 *)
(** After any completed history, removing the latest closure of a pair is undefined exactly if the
    pair had a closure stored once and has none left or, without the pairwise check, three or
    more.  (GNC, so that the optimisation that follows adds no undefined behaviour: C31, C32.) *)
Theorem C21_undefined_iff : forall O C (W : soracles O) h s rs a b,
  run C W h (solver_init true) = Ok s rs -> c_gnc C = true -> c_fix C = false ->
  ((exists u, step C W (OpRemoveId a b) s = Undef u) <->
   (exists x, In x (sp_stored C W h) /\ of_pair (a, b) (fst x) = true) /\
   (filter (of_pair (a, b)) (sp_live C W h) = [] \/
    c_loop_check C = false /\ 3 <= length (filter (of_pair (a, b)) (sp_live C W h)))).
Proof.
  intros O C W h s rs a b H HG HX. rewrite (@removal_undefined_iff O C W h s rs (OpRemoveId a b) (a, b) H eq_refl HG HX).
  unfold dead, ever. rewrite existsb_exists. reflexivity.
Qed.
Print Assumptions C21_undefined_iff.

(** Without GNC as well: no configuration makes these removals defined. *)
Theorem C21_undefined_always : forall O C (W : soracles O) h s rs a b,
  run C W h (solver_init true) = Ok s rs ->
  (exists x, In x (sp_stored C W h) /\ of_pair (a, b) (fst x) = true) ->
  (filter (of_pair (a, b)) (sp_live C W h) = [] \/
    c_loop_check C = false /\ 3 <= length (filter (of_pair (a, b)) (sp_live C W h))) ->
  exists u, step C W (OpRemoveId a b) s = Undef u.
Proof.
  intros O C W h s rs a b H H1 H2. apply (@dead_removal O C W h s rs (OpRemoveId a b) (a, b) H eq_refl).
  split; [apply existsb_exists; exact H1|exact H2].
Qed.
Print Assumptions C21_undefined_always.

(** Three closures of a pair: with the check all three can be removed one by one and the fourth
    removal is undefined; without it the first removal already is. *)
Definition after_step {O} C (W : soracles O) h o : option ub :=
  match run C W h (solver_init true) with Ok s _ => match step C W o s with Undef u => Some u | _ => None end | _ => None end.
Definition C1_nocheck : config := Cfg (c_special C1) (c_odom_check C1) false (c_incremental C1) (c_align C1) true false (c_bias C1) (c_gn C1) (c_debug C1) (c_log C1).
Definition C1_gnc : config := Cfg (c_special C1) (c_odom_check C1) true (c_incremental C1) (c_align C1) true false (c_bias C1) (c_gn C1) (c_debug C1) (c_log C1).
Example C21_undefined_example :
  map (fun n => after_step C1_gnc W1 (base ++ three_ab ++ repeat (OpRemoveId 97 98) n) (OpRemoveId 97 98)) [0; 1; 2; 3]
    = [None; None; None; Some OutOfBounds] /\
  after_step C1_nocheck W1 (base ++ three_ab) (OpRemoveId 97 98) <> None /\
  after_step C1_nocheck W1 (base ++ firstn 2 three_ab) (OpRemoveId 97 98) = None.
Proof. split; [vm_compute; reflexivity|]. split; [|vm_compute; reflexivity]. vm_compute. discriminate. Qed.

(** ** C22 *)
Theorem C22_undefined_iff : forall O C (W : soracles O) h s rs,
  run C W h (solver_init true) = Ok s rs -> c_gnc C = true -> c_fix C = false ->
  ((exists u, step C W OpRemoveLast s = Undef u) <->
   exists order id, sp_order C W h = order ++ [id] /\
     (filter (of_pair id) (sp_live C W h) = [] \/ c_loop_check C = false /\ 3 <= length (filter (of_pair id) (sp_live C W h)))).
Proof. exact c22_undefined_iff. Qed.
Print Assumptions C22_undefined_iff.

(** ** C23 *)
(** With the pairwise check, a call that completes after removals shows that every pair left out of
    step either got no closure (and has one) or was empty and got one; in non-incremental mode an
    emptied pair makes every later call with a candidate fail unless it gets a closure. *)
Theorem C23_completed_call : forall O C (W : soracles O) h s rs o s' r fs vs id,
  run C W h (solver_init true) = Ok s rs -> step C W o s = Ok s' r -> call_of o = Some (fs, vs) ->
  c_loop_check C = true -> stale C W id h = true ->
  (new_of C W id h o <> [] -> live_of C W id h = []) /\
  (c_incremental C = false -> candidates C fs vs <> [] -> live_of C W id h = [] -> new_of C W id h o <> []).
Proof. exact call_after_removals. Qed.
Print Assumptions C23_completed_call.

(** Conversely, after any completed history with any removals: a call is taken in without
    undefined behaviour if it has no candidate, or there is no pairwise check, or each pair out of
    step is harmless. *)
Theorem C23_usable_partial : forall O C (W : soracles O) h s rs fs vs u,
  run C W h (solver_init true) = Ok s rs -> decent_history C h ->
  (forall b, In (Some (FBetween b)) fs -> decent C b) -> small C (length (sp_all h) + length fs) ->
  (candidates C fs vs = [] \/
   forall id, c_loop_check C = true -> stale C W id h = true ->
     if c_incremental C
     then live_of C W id h = [] \/ (forall b, In b (candidates C fs vs) -> of_pair id b = false)
     else live_of C W id h = [] /\ exists b, surely_stored C h fs vs b /\ of_pair id b = true) ->
  ingest C W fs vs s <> Undef u.
Proof. exact ingest_after_removals. Qed.
Print Assumptions C23_usable_partial.

(** In particular without the pairwise check no removal ever makes a later call undefined. *)
Theorem C23_usable_without_check : forall O C (W : soracles O) h s rs fs vs u,
  c_loop_check C = false ->
  run C W h (solver_init true) = Ok s rs -> decent_history C h ->
  (forall b, In (Some (FBetween b)) fs -> decent C b) -> small C (length (sp_all h) + length fs) ->
  ingest C W fs vs s <> Undef u.
Proof.
  intros O C W h s rs fs vs u HC H1 H2 H3 H4. apply (@ingest_after_removals O C W h s rs fs vs u H1 H2 H3 H4). right. intros id X. congruence.
Qed.
Print Assumptions C23_usable_without_check.

(** One closure, removed: the pair is out of step and empty; a closure of this pair is fine, one of
    another pair is not, one of each is.  Two closures, one removed: the pair is out of step and not
    empty; a closure of this pair is not fine. *)
Definition emptied : list (op O1) := base ++ [lc_ab 0 0 100; OpRemoveId 97 98].
Definition halved : list (op O1) := base ++ [lc_ab 0 0 100; lc_ab 1 1 100; OpRemoveId 97 98].
Definition both_calls : op O1 :=
  match lc_ab 1 1 100, lc_good with
  | OpUpdate fs vs opt, OpUpdate fs' vs' _ => OpUpdate (fs ++ fs') (vs ++ vs') opt
  | o, _ => o
  end.
Example C23_exact_example :
  (stale C1_gnc W1 (97%N, 98%N) emptied, length (live_of C1_gnc W1 (97%N, 98%N) emptied)) = (true, 0) /\
  map (after_step C1_gnc W1 emptied) [lc_ab 1 1 100; lc_good; both_calls] = [None; Some OutOfBounds; None] /\
  (stale C1_gnc W1 (97%N, 98%N) halved, length (live_of C1_gnc W1 (97%N, 98%N) halved)) = (true, 1) /\
  map (after_step C1_gnc W1 halved) [lc_ab 1 1 100] = [Some EigenMismatch] /\
  stale C1_gnc W1 (97%N, 98%N) (emptied ++ [lc_ab 1 1 100]) = false /\
  match both_calls with OpUpdate fs vs _ =>
    let new := filter (of_pair (97%N, 98%N)) (candidates C1_gnc fs vs) in
    forallb (fun b => stores C1_gnc (fun k => knows emptied k || sp_supplied vs k) (fun _ _ => t_default O1) b) new
      && (length new =? 1) | _ => false end = true.
Proof. repeat split; vm_compute; reflexivity. Qed.

(** Exactly, after any completed history with any removals (no pairwise record copied from freed
    memory that has changed): a call whose other factors would be taken in is undefined if and only
    if it has a candidate, the pairwise check is on and some pair is out of step so that it
    - has no closure left, gets none, and selection is not incremental; or
    - has one left out of two and gets another; or
    - has one left out of two, selection is not incremental, and the two had been found consistent. *)
Theorem C23_undefined_iff : forall O C (W : soracles O) h s rs fs vs s1 rs1,
  run C W h (solver_init true) = Ok s rs -> decent_history C h ->
  (forall b, In (Some (FBetween b)) fs -> decent C b) -> small C (length (sp_all h) + length fs) ->
  records_sound C W h -> run C W (h ++ [OpUpdate (quiet C fs vs) vs false]) (solver_init true) = Ok s1 rs1 ->
  ((exists u, ingest C W fs vs s = Undef u) <->
   candidates C fs vs <> [] /\ c_loop_check C = true /\
   exists id, stale C W id h = true /\
     match live_of C W id h with
     | [] => c_incremental C = false /\ would_store C W id h fs vs = []
     | _ => would_store C W id h fs vs <> [] \/
            c_incremental C = false /\ exists x y, pair_record C W id h = [x; y] /\ lc_test x y = Some true
     end).
Proof.
  intros O C W h s rs fs vs s1 rs1 H1 H2 H3 H4 H5 H6.
  apply (@call_undefined_iff O C W h s rs (OpUpdate fs vs true) fs vs s1 rs1 H1 eq_refl); auto.
  - intros b Hb. apply (H2 b Hb).
  - intros b Hb. apply (H3 b Hb).
  - intro l. apply decent_backward. intros b (o & fs' & vs' & A & B & D). apply in_app_or in A. destruct A as [A|[<-|[]]].
    + apply H2. exists o, fs', vs'. auto.
    + injection B as <- <-. apply H3; auto.
Qed.
Print Assumptions C23_undefined_iff.

(** Two consistent closures between the robots, one removed: a closure elsewhere is undefined.  The
    same with two inconsistent ones: defined.  In both, the record is still of two closures. *)
Definition halved_apart : list (op O1) := base ++ [lc_ab 0 0 100; lc_ab 1 1 900; OpRemoveId 97 98].
Example C23_undefined_example :
  map (fun h => after_step C1_gnc W1 h lc_good) [halved; halved_apart] = [Some OutOfBounds; None] /\
  map (fun h => match pair_record C1_gnc W1 (97%N, 98%N) h with [x; y] => lc_test x y | _ => None end) [halved; halved_apart]
    = [Some true; Some false] /\
  map (fun h => (stale C1_gnc W1 (97%N, 98%N) h, length (live_of C1_gnc W1 (97%N, 98%N) h))) [halved; halved_apart]
    = [(true, 1); (true, 1)] /\
  match lc_good with OpUpdate fs vs _ =>
    map (fun h => match run C1_gnc W1 (h ++ [OpUpdate (quiet C1_gnc fs vs) vs false]) (solver_init true) with
       Ok _ _ => Some (length (would_store C1_gnc W1 (97%N, 98%N) h fs vs), length (would_store C1_gnc W1 (97%N, 97%N) h fs vs)) | _ => None end)
      [halved; halved_apart] | _ => [] end = [Some (0, 1); Some (0, 1)] /\
  freed_intact W1.
Proof. repeat split; vm_compute; reflexivity. Qed.
