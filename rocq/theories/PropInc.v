(** * Properties C13, C14, C44 in incremental mode and C68: incremental selection over whole histories *)
From Coq Require Import Permutation.
From Verif Require Import Prelude Num Keys KMap UMap Geometry Factors Clique Pcm Solver PcmSpec HistSpec StoreSpec RemoveSpec IncSpec
  Grid Scenes IncProofs.
Set Implicit Arguments.
Local Open Scope nat_scope.

(** ** C44: the pairwise record, after any removals *)
(** After any completed history the record of a pair is the outcomes of the tests of its remaining
    closures, followed, exactly if a removal left the pair out of step, by those of removed ones;
    it is then of at most two closures.  (No copy from freed memory that has changed.) *)
Theorem C44_records_kept_partial : forall O C (W : soracles O) h s rs id,
  run C W h (solver_init true) = Ok s rs -> records_sound C W h -> c_loop_check C = true ->
  exists p gone, s_pcm s = Some p /\ me_factors (lc_get id (p_lcs p)) = map fst (live_items C W id h) /\
    pair_record C W id h = live_items C W id h ++ gone /\ (gone <> [] <-> stale C W id h = true) /\
    (gone <> [] -> length (pair_record C W id h) <= 2) /\
    (pair_record C W id h <> [] -> faithful (@lc_test O) (pair_record C W id h) (me_adj (lc_get id (p_lcs p)))).
Proof. exact record_every. Qed.
Print Assumptions C44_records_kept_partial.

(** ** C13, C44: what is accepted, in every mode and after any removals *)
(** The accepted closures of a robot pair all agree with the first of them, are a largest group if
    agreement is transitive, and are all closures if all agree. *)
Theorem C13_accepted_agree_with_one_every_mode_partial : forall O C (W : soracles O) h s rs id,
  run C W h (solver_init true) = Ok s rs -> records_sound C W h -> small C (length (sp_stored C W h)) ->
  c_loop_check C = true -> pair_ignored h id = false -> live_items C W id h <> [] ->
  star_of (@lc_test O) (live_items C W id h) (graph_lcs C h id (s_nfg s)).
Proof. exact kept_star. Qed.
Print Assumptions C13_accepted_agree_with_one_every_mode_partial.

Theorem C44_all_consistent_every_mode_partial : forall O C (W : soracles O) h s rs id,
  run C W h (solver_init true) = Ok s rs -> records_sound C W h -> small C (length (sp_stored C W h)) ->
  c_loop_check C = true -> pair_ignored h id = false ->
  (forall i j x y, i < j -> nth_error (live_items C W id h) i = Some x -> nth_error (live_items C W id h) j = Some y ->
     lc_test x y = Some true) ->
  Permutation (graph_lcs C h id (s_nfg s)) (map fst (live_items C W id h)).
Proof. exact kept_all_modes. Qed.
Print Assumptions C44_all_consistent_every_mode_partial.

(** ** C14, C44: exactly what is accepted without the pairwise check, whatever was removed *)
(** All closures of the pair; in incremental mode nothing until, since the pair was last empty, some
    call has stored exactly one closure of it (or one was removed), and from then on the first
    remaining closure of the pair alone. *)
Theorem C14_accepted_without_check : forall O C (W : soracles O) h s rs id,
  run C W h (solver_init true) = Ok s rs -> small C (length (sp_stored C W h)) ->
  c_loop_check C = false -> pair_ignored h id = false ->
  graph_lcs C h id (s_nfg s) =
    if c_incremental C then if lone C W id h then firstn 1 (map fst (live_items C W id h)) else [] else map fst (live_items C W id h).
Proof. exact kept_off_every. Qed.
Print Assumptions C14_accepted_without_check.

(** ** C68 *)
Theorem C68_accepted_only_grow : forall O C (W : soracles O) h o s rs s' rs' id,
  run C W h (solver_init true) = Ok s rs -> run C W (h ++ [o]) (solver_init true) = Ok s' rs' ->
  records_sound C W (h ++ [o]) -> small C (length (sp_stored C W (h ++ [o]))) -> is_removal o = false ->
  c_incremental C = true -> c_loop_check C = true -> pair_ignored (h ++ [o]) id = pair_ignored h id ->
  graph_lcs C (h ++ [o]) id (s_nfg s') = graph_lcs C h id (s_nfg s) \/
  length (graph_lcs C h id (s_nfg s)) < length (graph_lcs C (h ++ [o]) id (s_nfg s')) /\
  exists b, hd_error (graph_lcs C (h ++ [o]) id (s_nfg s')) = Some b /\ In b (new_of C W id h o).
Proof. exact kept_grows. Qed.
Print Assumptions C68_accepted_only_grow.

(** ** Examples *)
Definition cfg_inc := Cfg [108%N] true true true false false false false false false false.
Definition cfg_inc_off := Cfg [108%N] true false true false false false false false false false.
Definition two_at_once := OpUpdate [bet (ka 0) (kb 0) (fwd 100); bet (ka 1) (kb 1) (fwd 100)] [] true.
Definition accepted (cfg : config) h := after cfg (base ++ h) (fun s => keys_of (skipn 6 (s_nfg s))).
Example C68_example :
  accepted cfg_inc [lc_ab 0 0 100] = Some [[ka 0; kb 0]] /\
  accepted cfg_inc [lc_ab 0 0 100; lc_ab 2 0 300] = Some [[ka 0; kb 0]] /\
  accepted cfg_inc [lc_ab 0 0 100; lc_ab 2 0 300; lc_ab 1 1 100] = Some [[ka 1; kb 1]; [ka 0; kb 0]] /\
  accepted cfg_inc [lc_ab 0 0 100; lc_ab 2 0 300; lc_ab 1 1 100; lc_ab 3 1 80; OpRemoveId 97 98] = Some [[ka 0; kb 0]; [ka 1; kb 1]].
Proof. repeat split; vm_compute; reflexivity. Qed.
Example C14_incremental_example : (* two at once: none; one at a time: the first; a single one after two: the first of the two *)
  accepted cfg_inc_off [two_at_once] = Some [] /\
  accepted cfg_inc_off [lc_ab 0 0 100; lc_ab 1 1 100] = Some [[ka 0; kb 0]] /\
  accepted cfg_inc_off [two_at_once; lc_ab 2 0 300] = Some [[ka 0; kb 0]] /\
  lone cfg_inc_off W1 (97, 98)%N (base ++ [two_at_once]) = false /\ lone cfg_inc_off W1 (97, 98)%N (base ++ [two_at_once; lc_ab 2 0 300]) = true.
Proof. repeat split; vm_compute; reflexivity. Qed.
(** Removals down to nothing and a new closure: the record, out of step in between, is whole again.
    Without the check and in incremental mode, an emptied pair then needs a call with one closure. *)
Definition removals n : list (op O1) := repeat (OpRemoveId 97 98) n.
Definition record_sizes h := (length (pair_record C1 W1 (97, 98)%N (base ++ h)), length (live_items C1 W1 (97, 98)%N (base ++ h)), stale C1 W1 (97, 98)%N (base ++ h)).
Example C44_record_example :
  map (fun n => record_sizes ([lc_ab 0 0 100; lc_ab 2 0 300; lc_ab 1 1 100; lc_ab 3 1 80] ++ removals n)) [0; 1; 2; 3; 4]
    = [(4, 4, false); (3, 3, false); (2, 2, false); (2, 1, true); (2, 0, true)] /\
  record_sizes ([lc_ab 0 0 100; lc_ab 2 0 300] ++ removals 2 ++ [lc_ab 1 1 100]) = (1, 1, false) /\
  accepted C1 ([lc_ab 0 0 100; lc_ab 2 0 300] ++ removals 2 ++ [lc_ab 1 1 100]) = Some [[ka 1; kb 1]].
Proof. repeat split; vm_compute; reflexivity. Qed.
Example C14_emptied_example :
  accepted cfg_inc_off ([lc_ab 0 0 100] ++ removals 1 ++ [two_at_once]) = Some [] /\
  accepted cfg_inc_off ([two_at_once] ++ removals 1) = Some [[ka 0; kb 0]] /\
  accepted cfg_inc_off ([two_at_once] ++ removals 2 ++ [lc_ab 2 0 300; lc_ab 1 1 100]) = Some [[ka 2; kb 0]].
Proof. repeat split; vm_compute; reflexivity. Qed.
