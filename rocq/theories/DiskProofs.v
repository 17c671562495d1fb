(** * The pairwise tests on disk, after any removals *)
From Coq Require Import String Ascii QArith Permutation Lia.
From Verif Require Import Prelude Num NumText Keys KMap UMap Geometry Factors Clique Pcm Solver TextSpec TextProofs G2o G2oSpec G2oProofs
  PcmSpec PcmInv HistSpec StoreSpec StoreThms UpdateProofs RemoveSpec RecordProofs IncProofs Logs LogsSpec LogsProofs.
Set Implicit Arguments.
Local Open Scope nat_scope.

Section D.
Context (O : tops) (C : config) (W : soracles O) (F : place O).
Hypothesis HF : folder F.
Hypothesis HR : renders (pl_factor F).
Notation solver := (solver O).

Theorem any_record_on_disk h o t d (s : solver) rs id : c_log C = true -> c_loop_check C = true ->
  run C W (map fst h ++ [o]) (solver_init true) = Ok s rs -> records_sound C W (map fst h ++ [o]) ->
  match o with OpUpdate fs _ _ | OpForce fs _ => fs <> [] | _ => False end ->
  names_only machine_key (h ++ [(o, t)]) -> nameable (fst id) -> nameable (snd id) -> live_items C W id (map fst h ++ [o]) <> [] ->
  exists d' id' text m gone, session C W F true (h ++ [(o, t)]) d = Val (s, d') /\ oid_eqb id id' = true /\ d' (pair_file F id') = Some text /\
    read_bits text = Some (bits_of m) /\ faithful (@lc_test O) (live_items C W id (map fst h ++ [o]) ++ gone) m /\
    (gone <> [] <-> stale C W id (map fst h ++ [o]) = true).
Proof.
  intros HC HL HRun HK Ho HM N1 N2 HI.
  destruct (record_every id HRun HK HL) as (p & gone & Hp & Hf & HG & HGs & _ & Hfa).
  assert (HI' : pair_record C W id (map fst h ++ [o]) <> []) by (rewrite HG; destruct (live_items C W id (map fst h ++ [o])); [congruence|discriminate]). specialize (Hfa HI').
  assert (HE : forall hh (s0 s1 : solver) r0, run C W (map fst hh ++ [o]) s0 = Ok s1 r0 ->
    run_on C W (map fst (hh ++ [(o, t)])) s0 = Val s1 /\ exists l1 e, events C W (hh ++ [(o, t)]) s0 = l1 ++ [e] /\ ev_op e = o /\ ev_after e = s1 /\ exists r, step C W o (ev_before e) = Ok s1 r).
  { clear. induction hh as [|[o1 t1] hh IH]; intros s0 s1 r0; cbn [map fst app run run_on events].
    - destruct (step C W o s0) as [s2 r|s2 e|u] eqn:E; cbn [obind]; try discriminate. intro H. injection H as <- _. split; auto.
      exists [], (Event o t s0 s2 None). cbn. eauto.
    - destruct (step C W o1 s0) as [s2 r|s2 e|u] eqn:E; cbn [obind]; try discriminate.
      destruct (run C W (map fst hh ++ [o]) s2) as [s3 rs3|s3 e3|u3] eqn:E3; cbn [obind]; try discriminate. intro H. injection H as <- _.
      destruct (IH s2 s3 rs3 E3) as [A (l1 & e & B & D)]. split; auto. exists (Event o1 t1 s0 s2 None :: l1), e. rewrite B. auto. }
  destruct (HE h _ _ _ HRun) as [HO (l1 & e & He & Hop & Hae & r & Hstep)]. clear HE.
  pose proof (@session_effect O C W F HR true (h ++ [(o, t)]) d) as HS.
  destruct (session C W F true (h ++ [(o, t)]) d) as [[s' d']|u] eqn:ES; [|congruence].
  destruct HS as (HS & _). assert (s' = s) by congruence. subst s'.
  assert (HRj : rejected C W e = true).
  { unfold rejected. rewrite Hop. clear He Hae. destruct o as [fs vs opt|fs vs| | | | | | | |]; try contradiction; destruct fs as [|f fs]; try congruence; cbn [step] in Hstep;
      unfold no_ret, update, force_update in Hstep; destruct (ingest C W (f :: fs) vs (ev_before e)); cbn [obind] in Hstep; auto; discriminate. }
  assert (Hlc : exists m, lc_find id (p_lcs p) = Some m /\ lc_get id (p_lcs p) = m).
  { destruct (lc_find id (p_lcs p)) as [m|] eqn:EF.
    - exists m. split; auto. unfold lc_get. rewrite EF. auto.
    - exfalso. apply HI. apply map_eq_nil with (f := fst). rewrite <- Hf. unfold lc_get. rewrite EF. auto. }
  destruct Hlc as (m & Hm1 & Hm2). rewrite Hm2 in Hfa.
  destruct (@matrix_file O C W F HF HR (h ++ [(o, t)]) d s d' l1 e [] p id m) as (id' & text & A & B & D); auto.
  { rewrite Hae. auto. }
  exists d', id', text, (me_adj m), gone. rewrite <- HG. auto 10.
Qed.
End D.
