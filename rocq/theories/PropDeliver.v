(** * C41: one call or several *)
From Verif Require Import Prelude Num Keys KMap UMap Geometry Factors Clique Pcm Params Solver Grid
  PcmSpec HistSpec DeliverProofs Scenes.
Local Open Scope nat_scope.

(** ** C41 *)
(** In any reachable state, delivering factors (and no new variables) in several calls or in one
    gives the same PCM state, in particular the same stored and accepted loop closures, and the
    same graph.  The calls may be [update] with or without optimisation or [forceUpdate], whatever
    the optimiser answers in between; the chunks may be empty and the factors need not be
    loop closures. *)
Theorem C41_delivery_granularity : forall O C (W : soracles O) h os o gss s s1 s2 rs rs1 r2,
  c_incremental C = false -> run C W h (solver_init true) = Ok s rs ->
  Forall2 (fun o g => call_of o = Some (g, [])) os gss -> call_of o = Some (concat gss, []) ->
  run C W os s = Ok s1 rs1 -> step C W o s = Ok s2 r2 ->
  s_pcm s1 = s_pcm s2 /\ s_nfg s1 = s_nfg s2.
Proof. intros O C W h os o gss s s1 s2 rs rs1 r2 HI. exact (@split_same O C W HI h os o gss s s1 s2 rs rs1 r2). Qed.
Print Assumptions C41_delivery_granularity.

(** Without alignment the single call cannot fail if the separate ones did not. *)
Theorem C41_single_call_succeeds : forall O C (W : soracles O) h os gss s s1 rs rs1,
  c_incremental C = false -> c_align C = false -> run C W h (solver_init true) = Ok s rs ->
  Forall2 (fun o g => call_of o = Some (g, [])) os gss -> run C W os s = Ok s1 rs1 ->
  exists s2 r2, step C W (OpUpdate (concat gss) [] false) s = Ok s2 r2 /\ s_pcm s1 = s_pcm s2 /\ s_nfg s1 = s_nfg s2.
Proof. intros O C W h os gss s s1 rs rs1 HI. exact (@split_one O C W HI h os gss s s1 rs rs1). Qed.
Print Assumptions C41_single_call_succeeds.

Definition chunk (l : list (option (factor O1))) : op O1 := OpUpdate l [] true.
Definition chunks : list (graph_t O1) :=
  [[bet (ka 0) (kb 0) (fwd 100)]; [bet (ka 2) (kb 0) (fwd 300); bet (ka 1) (kb 1) (fwd 100)]; [];
   [pri (ka 3) (fwd 30); bet (ka 0) (ka 3) (fwd 30)]].
Example C41_example :
  after C1 (base ++ map chunk chunks) (fun s => keys_of (skipn 6 (s_nfg s))) =
    Some [[ka 3]; [ka 0; kb 0]; [ka 1; kb 1]; [ka 0; ka 3]] /\
  after C1 (base ++ [chunk (concat chunks)]) (fun s => keys_of (skipn 6 (s_nfg s))) =
    Some [[ka 3]; [ka 0; kb 0]; [ka 1; kb 1]; [ka 0; ka 3]].
Proof. split; vm_compute; reflexivity. Qed.
(** The restriction to the non-incremental mode is needed: of two equally large rival sets, the
    incremental mode keeps the one completed first. *)
Definition cfg_inc := Cfg [108%N] true true true false false false false false false false.
Definition rivals : list (graph_t O1) :=
  [[bet (ka 0) (kb 0) (fwd 100)]; [bet (ka 2) (kb 0) (fwd 300)]; [bet (ka 3) (kb 1) (fwd 300)]; [bet (ka 1) (kb 1) (fwd 100)]].
Theorem C41_incremental_refuted : exists O C (W : soracles O) h os o gss s s1 s2 rs rs1 r2 b,
  c_incremental C = true /\ run C W h (solver_init true) = Ok s rs /\
  Forall2 (fun o g => call_of o = Some (g, [])) os gss /\ call_of o = Some (concat gss, []) /\
  run C W os s = Ok s1 rs1 /\ step C W o s = Ok s2 r2 /\
  In (Some (FBetween b)) (s_nfg s2) /\ ~ In (Some (FBetween b)) (s_nfg s1).
Proof.
  set (b := nb pp1 (ka 0) (kb 0) (fwd 100)).
  destruct (@run_check O1 cfg_inc W1 base true (fun s =>
     match run cfg_inc W1 (map chunk rivals) s with Ok s1 _ =>
       match step cfg_inc W1 (chunk (concat rivals)) s with Ok s2 _ =>
         existsb (is_bet b) (s_nfg s2) && negb (existsb (is_bet b) (s_nfg s1)) = true | _ => False end | _ => False end))
    as (s & rs & HR & H1). { vm_compute. reflexivity. }
  destruct (run cfg_inc W1 (map chunk rivals) s) as [s1 rs1| |] eqn:E1; try (destruct H1; fail).
  destruct (step cfg_inc W1 (chunk (concat rivals)) s) as [s2 r2| |] eqn:E2; try (destruct H1; fail).
  apply andb_true_iff in H1. destruct H1 as [H1 H2]. apply is_bet_In in H1. apply negb_true_iff in H2.
  exists O1, cfg_inc, W1, base, (map chunk rivals), (chunk (concat rivals)), rivals, s, s1, s2, rs, rs1, r2, b.
  do 2 (split; [first [reflexivity|exact HR]|]). split; [clear; repeat constructor|]. split; [reflexivity|].
  split; [exact E1|]. split; [exact E2|]. split; [exact H1|]. intro X. apply is_bet_In in X.
  rewrite X in H2. discriminate.
Qed.
Print Assumptions C41_incremental_refuted.
