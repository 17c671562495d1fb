(** * C57-C59: the log files *)
From Coq Require Import String Ascii QArith Permutation.
From Verif Require Import Prelude Num NumText Keys KMap UMap Geometry Factors Clique Pcm Params Solver G2o Grid TextSpec HistSpec StoreSpec
  RemoveSpec DiskProofs G2oSpec G2oProofs Logs LogsSpec LogsProofs Scenes PropG2o.
Local Open Scope nat_scope.

(** ** The model with files is the model *)

Theorem C57_files_do_not_matter : forall O C (W : soracles O) (F : place O), renders (pl_factor F) -> forall b h d,
  match session C W F b h d with
  | Val (s, _) => run_on C W (map fst h) (solver_init b) = Val s
  | Bad u => run_on C W (map fst h) (solver_init b) = Bad u
  end.
Proof. exact files_do_not_matter. Qed.
Print Assumptions C57_files_do_not_matter.

(** ** C57: the status files *)

(** [rpgo_status.csv]: after the header one line for each call that logs and gets that far, in
    order: graph size, duration, number of loop closures, number of inliers after the call. *)
Theorem C57_status_file : forall O C (W : soracles O) (F : place O), folder F -> renders (pl_factor F) -> forall b h d s d',
  c_log C = true -> session C W F b h d = Val (s, d') ->
  exists text ls, d' (pl_folder F ++ "/rpgo_status.csv")%string = Some text /\
    read_table "," text = ["graph-size"; "spin-time(mu-s)"; "num-lc"; "num-inliers"]%string :: ls /\
    Forall2 row_says ls (status_rows C (events C W h (solver_init b))).
Proof. exact status_file. Qed.
Print Assumptions C57_status_file.

(** [outlier_rejection_status.txt]: one line for each call with new factors whose outlier
    rejection ends without exception, whether the call optimises or not. *)
Theorem C57_rejection_file : forall O C (W : soracles O) (F : place O), folder F -> renders (pl_factor F) -> forall h d s d',
  c_log C = true -> session C W F true h d = Val (s, d') ->
  exists text ls, d' (pl_folder F ++ "/outlier_rejection_status.txt")%string = Some text /\
    read_table " " text = ["total"; "inliers"; "spin-time"; "mc-time"]%string :: ls /\
    Forall2 row_says ls (rejection_rows C W (events C W h (solver_init true))).
Proof. exact rejection_file. Qed.
Print Assumptions C57_rejection_file.

(** If every call that brings factors logs, brings some and succeeds, then the two files have the same
    number of lines and agree on the number of loop closures; without GNC also on the inliers. *)
Theorem C57_files_agree_partial : forall O C (W : soracles O) h, c_log C = true ->
  Forall (fun e => ev_exn e = None /\ (quiet (ev_op e) = true \/
    logging (ev_op e) = true /\ match ev_op e with OpUpdate fs _ _ | OpForce fs _ => fs <> [] | _ => False end))
    (events C W h (solver_init true)) ->
  Forall2 (fun a b => nth 2 a 0%Z = nth 0 b 0%Z /\ (c_gnc C = false -> nth 3 a 0%Z = nth 1 b 0%Z))
    (status_rows C (events C W h (solver_init true))) (rejection_rows C W (events C W h (solver_init true))).
Proof. exact files_agree. Qed.
Print Assumptions C57_files_agree_partial.

(** *** A folder *)
Definition F1 : place O1 :=
  @Place O1 "/log" (fun q => String.prefix "/log/" q && (5 <? String.length q)) (emb2 O1) (fun _ => GOtherValue)
    (fun q => if Qeq_bool q 0 then "0" else "1")%string.
Lemma folder_F1 : folder F1.
Proof.
  split.
  - cbn. repeat split; discriminate.
  - intros [|c n] H _ _; [congruence|]. reflexivity.
  - reflexivity.
Qed.
Lemma renders_F1 : renders (pl_factor F1).
Proof. apply C38_renders_example. Qed.

(** Every call takes 7 ms for outlier rejection, of which 2 ms for cliques, and 9000 us in all. *)
Definition timed (h : list (op O1)) : list (op O1 * took) := map (fun o => (o, Took 7 2 9000)) h.
Definition no_files : disk := fun _ => None.
Definition file_after (C : config) (h : list (op O1)) (q : string) : option string :=
  match session C W1 F1 true (timed h) no_files with Val (_, d) => d q | Bad _ => None end.
Definition cfg_log := Cfg [108%N] true true false false false false false false false true.
Definition cfg_log_gnc := Cfg [108%N] true true false false true false false false false true.

Definition some_lcs : list (op O1) := base ++ [lc_good; lc_bad; lc_ab 0 0 100; lc_ab 1 1 100; lc_ab 2 0 300].
Example C57_example :
  option_map (read_table ",") (file_after cfg_log some_lcs "/log/rpgo_status.csv") =
  Some [["graph-size"; "spin-time(mu-s)"; "num-lc"; "num-inliers"]; ["1"; "9000"; "0"; "0"]; ["2"; "9000"; "0"; "0"];
        ["3"; "9000"; "0"; "0"]; ["4"; "9000"; "0"; "0"]; ["6"; "9000"; "0"; "0"]; ["7"; "9000"; "1"; "1"];
        ["7"; "9000"; "1"; "1"]; ["8"; "9000"; "2"; "2"]; ["9"; "9000"; "3"; "3"]; ["9"; "9000"; "4"; "3"]]%string /\
  option_map (read_table " ") (file_after cfg_log some_lcs "/log/outlier_rejection_status.txt") =
  Some [["total"; "inliers"; "spin-time"; "mc-time"]; ["0"; "0"; "7"; "2"]; ["0"; "0"; "7"; "2"];
        ["0"; "0"; "7"; "2"]; ["0"; "0"; "7"; "2"]; ["0"; "0"; "7"; "2"]; ["1"; "1"; "7"; "2"];
        ["1"; "1"; "7"; "2"]; ["2"; "2"; "7"; "2"]; ["3"; "3"; "7"; "2"]; ["4"; "3"; "7"; "2"]]%string.
Proof. split; vm_compute; reflexivity. Qed.

(** The hypotheses of [C57_files_agree_partial] are met. *)
Example C57_agree_example : Forall (fun e => ev_exn e = None /\ (quiet (ev_op e) = true \/
    logging (ev_op e) = true /\ match ev_op e with OpUpdate fs _ _ | OpForce fs _ => fs <> [] | _ => False end))
    (events cfg_log W1 (timed some_lcs) (solver_init true)).
Proof.
  assert (H : forallb (fun e => match ev_exn e with None => true | _ => false end &&
    (logging (ev_op e) && match ev_op e with OpUpdate (_ :: _) _ _ | OpForce (_ :: _) _ => true | _ => false end))
    (events cfg_log W1 (timed some_lcs) (solver_init true)) = true) by (vm_compute; reflexivity).
  apply Forall_forall. intros e He. rewrite forallb_forall in H. specialize (H e He). apply andb_true_iff in H. destruct H as [H1 H2].
  apply andb_true_iff in H2. destruct H2 as [H2 H3]. split; [destruct (ev_exn e); [discriminate|auto]|]. right. split; auto.
  destruct (ev_op e) as [[|f fs] vs opt|[|f fs] vs| | | | | | | |]; discriminate.
Qed.

Lemma words_differ (a b : list string) : (if list_eq_dec String.string_dec a b then true else false) = false -> a <> b.
Proof. destruct (list_eq_dec String.string_dec a b); [discriminate|auto]. Qed.

(** Otherwise the lines of the two files do not belong together: a call without factors appears in
    the first file only, an [update] that does not optimise in the second only. *)
Theorem C57_files_in_step_refuted : exists C W F h d' s t1 t2,
  @folder O1 F /\ renders (pl_factor F) /\ c_log C = true /\ session C W F true h no_files = Val (s, d') /\
  d' (pl_folder F ++ "/rpgo_status.csv")%string = Some t1 /\ d' (pl_folder F ++ "/outlier_rejection_status.txt")%string = Some t2 /\
  Forall (fun e => ev_exn e = None) (events C W h (solver_init true)) /\
  List.length (read_table "," t1) = List.length (read_table " " t2) /\
  map (fun l => nth 2 l ""%string) (tl (read_table "," t1)) <> map (fun l => nth 0 l ""%string) (tl (read_table " " t2)).
Proof.
  set (h := timed (some_lcs ++ [OpForce [] []; OpUpdate [bet (ka 0) (ka 3) (fwd 30)] [] false; OpForce [] []; OpUpdate [bet (ka 0) (ka 3) (fwd 30)] [] false])).
  assert (H : match session cfg_log W1 F1 true h no_files with
    | Val (s, d') => match d' "/log/rpgo_status.csv"%string, d' "/log/outlier_rejection_status.txt"%string with
       | Some t1, Some t2 => List.length (read_table "," t1) = List.length (read_table " " t2) /\
           (if list_eq_dec String.string_dec (map (fun l => nth 2 l ""%string) (tl (read_table "," t1))) (map (fun l => nth 0 l ""%string) (tl (read_table " " t2))) then true else false) = false
       | _, _ => False end
    | Bad _ => False end) by (vm_compute; auto).
  assert (HE : forallb (fun e => match ev_exn e with None => true | _ => false end) (events cfg_log W1 h (solver_init true)) = true) by (vm_compute; reflexivity).
  destruct (session cfg_log W1 F1 true h no_files) as [[s d']|u] eqn:E; [|destruct H].
  destruct (d' "/log/rpgo_status.csv"%string) as [t1|] eqn:E1; [|destruct H].
  destruct (d' "/log/outlier_rejection_status.txt"%string) as [t2|] eqn:E2; [|destruct H]. destruct H as [H1 H2].
  exists cfg_log, W1, F1, h, d', s, t1, t2.
  split; [apply folder_F1|]. split; [apply renders_F1|]. split; [reflexivity|]. split; [exact E|]. split; [exact E1|]. split; [exact E2|].
  split; [|split; [exact H1|]].
  - apply Forall_forall. intros e He. rewrite forallb_forall in HE. specialize (HE e He). destruct (ev_exn e); [discriminate HE|reflexivity].
  - apply words_differ. exact H2.
Qed.
Print Assumptions C57_files_in_step_refuted.

(** ** C58: adjacency matrices *)

(** The matrix of a pair of robots whose prefixes can be in a file name is in the file of the pair,
    as of the last call that completed outlier rejection. *)
Theorem C58_matrix_file_partial : forall O C (W : soracles O) (F : place O), folder F -> renders (pl_factor F) ->
  forall h d s d' l1 e l2 p id m, c_log C = true -> session C W F true h d = Val (s, d') -> names_only machine_key h ->
  events C W h (solver_init true) = l1 ++ e :: l2 -> rejected C W e = true -> Forall (fun x => rejected C W x = false) l2 ->
  s_pcm (ev_after e) = Some p -> lc_find id (p_lcs p) = Some m -> nameable (fst id) -> nameable (snd id) ->
  exists id' text, oid_eqb id id' = true /\ d' (pair_file F id') = Some text /\ read_bits text = Some (bits_of (me_adj m)).
Proof. exact matrix_file. Qed.
Print Assumptions C58_matrix_file_partial.

(** What the file says is the outcome of the pairwise tests. *)
Theorem C58_tests_on_disk_partial : forall O C (W : soracles O) (F : place O), folder F -> renders (pl_factor F) ->
  forall h o t d s rs id, c_log C = true -> c_loop_check C = true ->
  run C W (map fst h ++ [o]) (solver_init true) = Ok s rs -> no_removal (map fst h ++ [o]) ->
  match o with OpUpdate fs _ _ | OpForce fs _ => fs <> [] | _ => False end ->
  names_only machine_key (h ++ [(o, t)]) -> nameable (fst id) -> nameable (snd id) -> pair_items C W id (map fst h ++ [o]) <> [] ->
  exists d' id' text m, session C W F true (h ++ [(o, t)]) d = Val (s, d') /\ oid_eqb id id' = true /\ d' (pair_file F id') = Some text /\
    read_bits text = Some (bits_of m) /\ faithful (@lc_test O) (pair_items C W id (map fst h ++ [o])) m.
Proof. exact record_on_disk. Qed.
Print Assumptions C58_tests_on_disk_partial.

(** With removals: of the closures left, followed by removed ones exactly if a removal from one or two
    closures has left the pair out of step (no copy from freed memory that had changed). *)
Theorem C58_tests_on_disk_removals : forall O C (W : soracles O) (F : place O), folder F -> renders (pl_factor F) ->
  forall h o t d s rs id, c_log C = true -> c_loop_check C = true ->
  run C W (map fst h ++ [o]) (solver_init true) = Ok s rs -> records_sound C W (map fst h ++ [o]) ->
  match o with OpUpdate fs _ _ | OpForce fs _ => fs <> [] | _ => False end ->
  names_only machine_key (h ++ [(o, t)]) -> nameable (fst id) -> nameable (snd id) -> live_items C W id (map fst h ++ [o]) <> [] ->
  exists d' id' text m gone, session C W F true (h ++ [(o, t)]) d = Val (s, d') /\ oid_eqb id id' = true /\ d' (pair_file F id') = Some text /\
    read_bits text = Some (bits_of m) /\ faithful (@lc_test O) (live_items C W id (map fst h ++ [o]) ++ gone) m /\
    (gone <> [] <-> stale C W id (map fst h ++ [o]) = true).
Proof. exact any_record_on_disk. Qed.
Print Assumptions C58_tests_on_disk_removals.

(** Nothing else is written. *)
Theorem C58_only_these_files : forall O C (W : soracles O) (F : place O), folder F -> renders (pl_factor F) ->
  forall b h d s d' q, session C W F b h d = Val (s, d') -> ~ fixed_file F q -> d' q <> d q ->
  c_log C = true /\ pl_opens F q = true /\ exists e p id m, In e (events C W h (solver_init b)) /\ rejected C W e = true /\ s_pcm (ev_after e) = Some p /\
    In (id, m) (p_lcs p) /\ q = c_str (pair_file F id).
Proof. exact only_pair_files. Qed.
Print Assumptions C58_only_these_files.

(** With keys that are plain numbers (the prefix is NUL) no matrix is ever written. *)
Theorem C58_plain_keys_unsaved : forall O C (W : soracles O) (F : place O), folder F -> renders (pl_factor F) ->
  forall b h d s d' q, session C W F b h d = Val (s, d') -> names_only plain_key h -> ~ fixed_file F q -> d' q = d q.
Proof. exact plain_unsaved. Qed.
Print Assumptions C58_plain_keys_unsaved.

Example C58_example :
  option_map read_bits (file_after cfg_log some_lcs "/log/a-b_adj_matrix.txt") =
  Some (Some [[false; true; false]; [true; false; false]; [false; false; false]]) /\
  file_after cfg_log some_lcs "/log/a-a_adj_matrix.txt" = Some "0"%string /\ file_after cfg_log base "/log/a-b_adj_matrix.txt" = None.
Proof. repeat split; vm_compute; reflexivity. Qed.

(** The history of the example meets the hypotheses of [C58_tests_on_disk_partial]. *)
Example C58_hypotheses : names_only machine_key (timed some_lcs) /\ no_removal some_lcs /\ nameable 97 /\ nameable 98 /\
  List.length (pair_items cfg_log W1 (97, 98)%N some_lcs) = 3 /\
  match run cfg_log W1 some_lcs (solver_init true) with Ok _ _ => True | _ => False end.
Proof.
  split; [|split; [|split; [|split; [|split]]]].
  - assert (H : forallb (fun x : op O1 * took => match fst x with OpUpdate fs _ _ | OpForce fs _ =>
      forallb (fun of => match of with Some (FBetween b) => (b_from b <? 2 ^ 64)%N && (b_to b <? 2 ^ 64)%N | _ => true end) fs | _ => true end) (timed some_lcs) = true)
      by (vm_compute; reflexivity).
    intros o t b Hi Ho. rewrite forallb_forall in H. specialize (H _ Hi). cbn [fst] in H.
    assert (X : (b_from b <? 2 ^ 64)%N && (b_to b <? 2 ^ 64)%N = true)
      by (destruct o; try contradiction; rewrite forallb_forall in H; apply (H _ Ho)).
    apply andb_true_iff in X. rewrite !N.ltb_lt in X. exact X.
  - intros o Ho. assert (H : forallb (fun o => negb (is_removal o)) some_lcs = true) by (vm_compute; reflexivity).
    rewrite forallb_forall in H. specialize (H o Ho). destruct (is_removal o); auto; discriminate.
  - split; [split; reflexivity|discriminate].
  - split; [split; reflexivity|discriminate].
  - vm_compute. reflexivity.
  - vm_compute. exact I.
Qed.

(** So does this one with a removal that of [C58_tests_on_disk_removals]: the file has two rows again after one more odometry factor. *)
Definition fewer_lcs : list (op O1) := some_lcs ++ [OpRemoveId 97 98; odo_a 3].
Example C58_removals_example : records_sound cfg_log W1 fewer_lcs /\ List.length (live_items cfg_log W1 (97, 98)%N fewer_lcs) = 2 /\
  stale cfg_log W1 (97, 98)%N fewer_lcs = false /\ file_after cfg_log some_lcs "/log/a-b_adj_matrix.txt" <> file_after cfg_log fewer_lcs "/log/a-b_adj_matrix.txt" /\
  option_map read_bits (file_after cfg_log fewer_lcs "/log/a-b_adj_matrix.txt") = Some (Some [[false; true]; [true; false]]) /\
  match run cfg_log W1 fewer_lcs (solver_init true) with Ok _ _ => True | _ => False end.
Proof.
  split; [left; intros n a i j; reflexivity|]. split; [vm_compute; reflexivity|]. split; [vm_compute; reflexivity|]. split; [vm_compute; discriminate|].
  split; [vm_compute; reflexivity|]. vm_compute. exact I.
Qed.

(** One robot whose poses are numbered 0, 1, 2, 3, as in a g2o file, with two loop closures. *)
Definition plain_scene : list (op O1) :=
  [OpUpdate [pri 0 gp_id] [val 0 gp_id] true;
   OpUpdate [bet 0 1 (fwd 10)] [val 1 (fwd 10)] true; OpUpdate [bet 1 2 (fwd 10)] [val 2 (fwd 20)] true; OpUpdate [bet 2 3 (fwd 10)] [val 3 (fwd 30)] true;
   OpUpdate [bet 0 2 (fwd 20)] [] true; OpUpdate [bet 0 3 (fwd 30)] [] true]%N.
Theorem C58_matrix_file_refuted : exists C W F h s d' p id m, @folder O1 F /\ renders (pl_factor F) /\ c_log C = true /\
  session C W F true h no_files = Val (s, d') /\ names_only machine_key h /\ s_pcm s = Some p /\ lc_find id (p_lcs p) = Some m /\
  bits_of (me_adj m) = [[false; true]; [true; false]] /\ forall q, d' q <> None -> fixed_file F q.
Proof.
  assert (HN : names_only plain_key (timed plain_scene)).
  { assert (H : forallb (fun x : op O1 * took => match fst x with OpUpdate fs _ _ | OpForce fs _ =>
      forallb (fun of => match of with Some (FBetween b) => (b_from b <? 2 ^ 56)%N && (b_to b <? 2 ^ 56)%N | _ => true end) fs | _ => true end) (timed plain_scene) = true)
      by (vm_compute; reflexivity).
    intros o t b Hi Ho. rewrite forallb_forall in H. specialize (H _ Hi). cbn [fst] in H.
    assert (X : (b_from b <? 2 ^ 56)%N && (b_to b <? 2 ^ 56)%N = true)
      by (destruct o; try contradiction; rewrite forallb_forall in H; apply (H _ Ho)).
    apply andb_true_iff in X. rewrite !N.ltb_lt in X. exact X. }
  assert (H : match session cfg_log W1 F1 true (timed plain_scene) no_files with
    | Val (s, d') => match s_pcm s with Some p => match lc_find (0, 0)%N (p_lcs p) with Some m => bits_of (me_adj m) = [[false; true]; [true; false]] | None => False end | None => False end
    | Bad _ => False end) by (vm_compute; reflexivity).
  destruct (session cfg_log W1 F1 true (timed plain_scene) no_files) as [[s d']|u] eqn:E; [|destruct H].
  destruct (s_pcm s) as [p|] eqn:Ep; [|destruct H]. destruct (lc_find (0, 0)%N (p_lcs p)) as [m|] eqn:Em; [|destruct H].
  exists cfg_log, W1, F1, (timed plain_scene), s, d', p, (0, 0)%N, m.
  split; [apply folder_F1|]. split; [apply renders_F1|]. split; [reflexivity|]. split; [exact E|].
  split; [|split; [exact Ep|split; [exact Em|split; [exact H|]]]].
  - intros o t b Hi Ho. destruct (HN o t b Hi Ho) as [A B]. unfold plain_key, machine_key in *.
    assert (2 ^ 56 < 2 ^ 64)%N by reflexivity. split; eapply N.lt_trans; eauto.
  - intros q Hq. assert (HD : {fixed_file F1 q} + {~ fixed_file F1 q}) by (apply in_dec, String.string_dec). destruct HD as [HD|HD]; auto.
    exfalso. apply Hq. rewrite (C58_plain_keys_unsaved O1 cfg_log W1 F1 folder_F1 renders_F1 true _ no_files s d' q E HN HD). reflexivity.
Qed.
Print Assumptions C58_matrix_file_refuted.

(** ** C59: the saved graph and weights *)

(** After the last call that logged and returned: the file has a line for every estimate and every
    between factor of the graph. *)
Theorem C59_result_file : forall O C (W : soracles O) (F : place O), folder F -> renders (pl_factor F) ->
  forall b h d s d' l1 e l2, c_log C = true -> session C W F b h d = Val (s, d') ->
  events C W h (solver_init b) = l1 ++ e :: l2 -> logged e = true -> Forall (fun x => logged x = false) l2 -> ev_exn e = None ->
  let est := kmapi (fun _ => pl_value F) (s_vals (ev_after e)) in
  exists text lv le, d' (pl_folder F ++ "/result.g2o")%string = Some text /\ read_lines text = lv ++ le /\
    Forall2 vertex_line lv (by_kind est) /\ Permutation (by_kind est) (estimated est) /\
    Forall2 (edge_line half_permuted) le (edges_of (map (option_map (pl_factor F)) (s_nfg (ev_after e)))).
Proof. exact result_file. Qed.
Print Assumptions C59_result_file.

(** And with GNC the weights of the last optimisation, one on each line. *)
Theorem C59_weights_file : forall O C (W : soracles O) (F : place O), folder F -> renders (pl_factor F) ->
  forall b h d s d' l1 e l2, (forall q, one_line (pl_weight F q)) -> c_log C = true -> c_gnc C = true -> session C W F b h d = Val (s, d') ->
  events C W h (solver_init b) = l1 ++ e :: l2 -> logged e = true -> Forall (fun x => logged x = false) l2 -> ev_exn e = None ->
  exists text, d' (pl_folder F ++ "/gnc_weights.csv")%string = Some text /\ read_column text = map (pl_weight F) (s_w (ev_after e)).
Proof. exact weights_file. Qed.
Print Assumptions C59_weights_file.

(** One for each factor of the saved graph, if the call optimised. *)
Theorem C59_weights_match_partial : forall O C (W : soracles O) h b e,
  In e (events C W h (solver_init b)) -> ev_exn e = None -> optimised C W e = true ->
  List.length (s_w (ev_after e)) = List.length (s_nfg (ev_after e)).
Proof. exact optimised_weights. Qed.
Print Assumptions C59_weights_match_partial.

(** A call that raises an exception leaves the weights alone; if it is the one about a noise model
    that cannot be written, the graph in the file ends before the factor in question. *)
Theorem C59_exception : forall O C (W : soracles O) (F : place O), folder F -> renders (pl_factor F) ->
  forall b h o t d s0 d0 s e, c_log C = true -> session C W F b h d = Val (s0, d0) -> step C W o s0 = Throw s e ->
  exists d', session C W F b (h ++ [(o, t)]) d = Val (s, d') /\
    d' (pl_folder F ++ "/gnc_weights.csv")%string = d0 (pl_folder F ++ "/gnc_weights.csv")%string /\
    (logging o = false \/ e <> InvalidArgument ->
       d' (pl_folder F ++ "/rpgo_status.csv")%string = d0 (pl_folder F ++ "/rpgo_status.csv")%string /\
       d' (pl_folder F ++ "/result.g2o")%string = d0 (pl_folder F ++ "/result.g2o")%string) /\
    (logging o = true -> e = InvalidArgument ->
       let est := kmapi (fun _ => pl_value F) (s_vals s) in
       exists ls es1 x es2 le, d' (pl_folder F ++ "/result.g2o")%string = Some (file_text ls) /\ ls = vertices est ++ le /\
         edges_of (map (option_map (pl_factor F)) (s_nfg s)) = es1 ++ x :: es2 /\ e_noise x = GNotGauss /\
         Forall2 (edge_line half_permuted) le es1).
Proof. exact exception_files. Qed.
Print Assumptions C59_exception.

Example C59_weight_text : forall q, one_line (pl_weight F1 q).
Proof. intro q. cbn [F1 pl_weight]. destruct (Qeq_bool q 0); (split; [discriminate|cbn; split; [discriminate|auto]]). Qed.
Definition lines_of (C : config) (h : list (op O1)) : option nat := option_map (fun t => List.length (read_lines t)) (file_after C h "/log/result.g2o").
Definition weights_of (C : config) (h : list (op O1)) : option nat := option_map (fun t => List.length (read_column t)) (file_after C h "/log/gnc_weights.csv").
(** Nine factors, two of which are priors. *)
Example C59_example : lines_of cfg_log_gnc some_lcs = Some 7 /\ weights_of cfg_log_gnc some_lcs = Some 9 /\ weights_of cfg_log some_lcs = None.
Proof. repeat split; vm_compute; reflexivity. Qed.

(** An odometry factor makes the graph longer without optimising; the graph is saved all the same,
    and the weights beside it are those of the graph without the factor. *)
Theorem C59_weights_match_refuted : exists C W F h s d' e text, @folder O1 F /\ renders (pl_factor F) /\ (forall q, one_line (pl_weight F q)) /\
  c_log C = true /\ c_gnc C = true /\ session C W F true h no_files = Val (s, d') /\
  Forall (fun e => ev_exn e = None) (events C W h (solver_init true)) /\ last (map Some (events C W h (solver_init true))) None = Some e /\ logged e = true /\
  d' (pl_folder F ++ "/gnc_weights.csv")%string = Some text /\ List.length (read_column text) < List.length (s_nfg s).
Proof.
  set (h := timed (some_lcs ++ [odo_a 3])).
  assert (H : match session cfg_log_gnc W1 F1 true h no_files with
    | Val (s, d') => match d' "/log/gnc_weights.csv"%string with Some t => (List.length (read_column t) <? List.length (s_nfg s)) = true | None => False end
    | Bad _ => False end) by (vm_compute; reflexivity).
  assert (HE : forallb (fun e => match ev_exn e with None => true | _ => false end) (events cfg_log_gnc W1 h (solver_init true)) = true) by (vm_compute; reflexivity).
  assert (HL : match last (map Some (events cfg_log_gnc W1 h (solver_init true))) None with Some e => logged e = true | None => False end) by (vm_compute; reflexivity).
  destruct (session cfg_log_gnc W1 F1 true h no_files) as [[s d']|u] eqn:E; [|destruct H].
  destruct (d' "/log/gnc_weights.csv"%string) as [t|] eqn:E1; [|destruct H].
  destruct (last (map Some (events cfg_log_gnc W1 h (solver_init true))) None) as [e|] eqn:EL; [|destruct HL].
  exists cfg_log_gnc, W1, F1, h, s, d', e, t.
  split; [apply folder_F1|]. split; [apply renders_F1|]. split; [apply C59_weight_text|]. split; [reflexivity|]. split; [reflexivity|].
  split; [exact E|]. split; [|split; [exact EL|split; [exact HL|split; [exact E1|apply Nat.ltb_lt; exact H]]]].
  apply Forall_forall. intros x Hx. rewrite forallb_forall in HE. specialize (HE x Hx). destruct (ev_exn x); [discriminate HE|reflexivity].
Qed.
Print Assumptions C59_weights_match_refuted.
