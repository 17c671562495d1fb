(** * Property C35: exactly which calls are undefined without outlier rejection *)
From Coq Require Import QArith.
From Verif Require Import Prelude Keys KMap Geometry Factors Pcm Solver Grid NoneSpec NoneProofs Scenes.
Set Implicit Arguments.
Local Open Scope nat_scope.

(** After every history, exceptions caught: a call with a hazard never completes, one without is
    never undefined. *)
Theorem C35_undefined_exactly : forall O C (W : soracles O) h o s, run_on C W h (solver_init false) = Val s ->
  (hazard C o s -> forall s' r, step C W o s <> Ok s' r) /\ (~ hazard C o s -> forall u, step C W o s <> Undef u).
Proof. exact none_exact. Qed.
Print Assumptions C35_undefined_exactly.

(** The getters of counts: the first is always undefined, the second without GNC. *)
Theorem C35_getters : forall O C (W : soracles O) h s, run_on C W h (solver_init false) = Val s ->
  get_num_lc s = Bad NullDeref /\ (get_num_inliers C s = Bad NullDeref <-> c_gnc C = false).
Proof. exact none_getters. Qed.
Print Assumptions C35_getters.

Lemma run_on_check {O} C (W : soracles O) h b (P : solver O -> Prop) :
  match run_on C W h (solver_init b) with Val s => P s | Bad _ => False end ->
  exists s, run_on C W h (solver_init b) = Val s /\ P s.
Proof. destruct (run_on C W h (solver_init b)) as [s|]; intro H; [eauto|destruct H]. Qed.

(** A history with two rejected calls (values given twice): an optimisation is then harmless in the
    plain configuration, undefined with debug messages of Levenberg-Marquardt; removals are
    harmless until the graph is empty. *)
Definition caught_none : list (op O1) := base ++ [start_b; lc_good; odo_a 2; OpRemoveLast; OpRemoveId 97 98].
Example C35_exact_example :
  (exists s, run_on C1 W1 caught_none (solver_init false) = Val s /\
     (length (s_nfg s) = 8 /\ exists g f k ks, s_nfg s = g ++ [Some f] /\ f_keys f = k :: ks)) /\
  ~ optimising_hurts C1 /\ optimising_hurts cfg_debug /\ optimising_hurts cfg_fix /\
  (exists s, run_on cfg_debug W1 [OpTempClear] (solver_init false) = Val s /\ nothing_to_pop (s_nfg s)).
Proof.
  split.
  { destruct (run_on_check C1 W1 caught_none false
      (fun s => length (s_nfg s) = 8 /\ match rev (s_nfg s) with Some f :: _ => negb (length (f_keys f) =? 0) = true | _ => False end))
      as (s & A & B & D); [vm_compute; auto|]. exists s. split; [exact A|]. split; [exact B|]. clear A B.
    pose proof (rev_involutive (s_nfg s)) as R. destruct (rev (s_nfg s)) as [|[f|] g]; [destruct D| |destruct D].
    destruct (f_keys f) as [|k ks] eqn:K; [discriminate D|]. exists (rev g), f, k, ks. split; auto. }
  split; [intros [H|[H _]]; discriminate H|]. split; [right; split; reflexivity|]. split; [left; reflexivity|].
  eexists. split; [reflexivity|]. intros (g & f & k & ks & H & _). destruct g; discriminate H.
Qed.
