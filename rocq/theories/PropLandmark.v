(** * Property C26: exactly when observations given as landmark->pose disturb the solver *)
From Coq Require Import QArith.
From Verif Require Import Prelude Num Keys KMap UMap Geometry Factors Clique Pcm Params Solver Grid
  ValuesProofs PcmSpec PcmProofs PcmInv HistSpec StoreSpec SolverProofs HistProofs GraphProofs StoreProofs AcceptProofs LiveProofs
  StoreThms SafeProofs RemoveSpec RemoveExact LandmarkExact RemoveCalls Scenes PropStore PropRemove PropRemoveExact.
Local Open Scope nat_scope.

(** Whatever completed: of three or more observations kept for a landmark, only the last can start
    from the landmark.  So once a landmark has two observations of which one starts from it, no
    call that stores another one completes (unless it is sighted for the first time again). *)
Theorem C26_completed_history : forall O C (W : soracles O) h s rs l,
  run C W h (solver_init true) = Ok s rs ->
  3 <= length (seen C W l h) -> forall b, In b (removelast (seen C W l h)) -> b_from b <> l.
Proof. intros O C W h s rs l H. exact (@completed_backward O C W h s rs l H). Qed.
Print Assumptions C26_completed_history.

(** Conversely, after any completed history, with any removals and observations either way round,
    a call is taken in without undefined behaviour if it leaves the observations of each landmark
    like that (and no removal stands in the way: C23). *)
Theorem C26_usable_partial : forall O C (W : soracles O) h s rs o fs vs u,
  run C W h (solver_init true) = Ok s rs -> call_of o = Some (fs, vs) ->
  (forall b, delivered (h ++ [o]) (FBetween b) -> t_of O b <> None) -> small C (length (sp_all h) + length fs) ->
  (candidates C fs vs = [] \/
   forall id, c_loop_check C = true -> stale C W id h = true ->
     if c_incremental C
     then live_of C W id h = [] \/ (forall b, In b (candidates C fs vs) -> of_pair id b = false)
     else live_of C W id h = [] /\ exists b, surely_stored C h fs vs b /\ of_pair id b = true) ->
  (forall l, 3 <= length (seen C W l (h ++ [o])) -> forall b, In b (removelast (seen C W l (h ++ [o]))) -> b_from b <> l) ->
  ingest C W fs vs s <> Undef u.
Proof.
  intros O C W h s rs o fs vs u H Hc Ht Hs HH HB. apply tested_given in Ht. destruct Ht as [T1 T2]. unfold given in T2. rewrite Hc in T2.
  exact (@ingest_after_anything O C W h s rs o fs vs u H Hc T1 T2 Hs HH HB).
Qed.
Print Assumptions C26_usable_partial.

(** Without removals the landmarks are all that can go wrong: a call completes only if it leaves
    the observations like that, and if it does it is not undefined. *)
Theorem C26_exact_without_removals : forall O C (W : soracles O) h s rs o fs vs,
  run C W h (solver_init true) = Ok s rs -> call_of o = Some (fs, vs) -> no_removal h ->
  (forall b, delivered (h ++ [o]) (FBetween b) -> t_of O b <> None) -> small C (length (sp_all h) + length fs) ->
  let fine := forall l, 3 <= length (seen C W l (h ++ [o])) ->
                forall b, In b (removelast (seen C W l (h ++ [o]))) -> b_from b <> l in
  (fine -> forall u, ingest C W fs vs s <> Undef u) /\
  ((exists s' r, step C W o s = Ok s' r) -> fine).
Proof.
  intros O C W h s rs o fs vs H Hc NR Ht Hs fine. split.
  - intros HF u. apply (C26_usable_partial O C W h s rs o fs vs u H Hc Ht Hs); auto. right. intros id _ X. exfalso.
    rewrite (@stale_no_removal O C W id h NR) in X. discriminate.
  - intros (s' & r & HS) l. apply (C26_completed_history O C W (h ++ [o]) s' (rs ++ [r]) l).
    eapply run_app_ok; [exact H|]. cbn [run]. rewrite HS. reflexivity.
Qed.
Print Assumptions C26_exact_without_removals.

(** What becomes of the observations then: with several observations of which one starts from the
    landmark, the last is not used, the others are selected from as usual. *)
Theorem C26_last_discarded : forall O C (W : soracles O) h s rs l L x,
  run C W h (solver_init true) = Ok s rs -> current C l (sp_sightings C W h) = L ++ [x] -> L <> [] ->
  (exists y, In y (L ++ [x]) /\ b_from (fst y) = l) ->
  star_of (@lm_test O) L (graph_lms C h l (s_nfg s)) /\
  (forall b, In b (graph_lms C h l (s_nfg s)) -> In b (map fst L)).
Proof.
  intros O C W h s rs l L x H HC HL HB.
  assert (SO : star_of (@lm_test O) L (graph_lms C h l (s_nfg s))).
  { rewrite <- (@recorded_but_last O l L x HL HB). rewrite <- HC.
    apply (C13_accepted_sightings_partial O C W h s rs l H). rewrite HC. destruct L; discriminate. }
  split; auto. destruct SO as (idx & HF & _). intros b Hb. clear -HF Hb. induction HF as [|i c idx cs Hi HF IH]; [destruct Hb|].
  destruct Hb as [->|Hb]; auto. eapply nth_error_In; eauto.
Qed.
Print Assumptions C26_last_discarded.

(** A landmark seen, then the pose seen from the landmark: the second observation is not used, and
    loop closures go on as before; a third observation is undefined; after a new first sighting
    the landmark is usable again.  (The condition above says which.) *)
Definition back_lm : op O1 := OpUpdate [bet (kl 1) (ka 2) (fwd 15)] [] true.
Definition new_first : op O1 := OpUpdate [bet (ka 3) (ka 4) (fwd 10); bet (ka 4) (kl 1) (fwd (-35))] [val (ka 4) (fwd 40)] true.
Definition fine_check (h : list (op O1)) (l : key) : bool :=
  (length (seen C1 W1 l h) <=? 2) || forallb (fun b => negb (b_from b =? l)%N) (removelast (seen C1 W1 l h)).
Example C26_exact_example :
  let h := base ++ [lm_first; back_lm] in
  map (fun h => (length (seen C1 W1 (kl 1) h), fine_check h (kl 1)))
    [h; h ++ [lc_good]; h ++ [lm_again 3 (-25)]; base ++ [lm_first; lm_again 2 (-15); back_lm];
     h ++ [new_first]; h ++ [new_first; lm_again 3 (-25)]] =
    [(2, true); (2, true); (3, false); (3, true); (1, true); (2, true)] /\
  map (after_step C1 W1 h) [lc_good; lm_again 3 (-25); new_first] = [None; Some EigenMismatch; None] /\
  map (after_step C1 W1 (h ++ [new_first])) [lm_again 3 (-25)] = [None] /\
  after C1 h (fun s => map (fun b => (b_from b, b_to b)) (graph_lms C1 h (kl 1) (s_nfg s))) = Some [(ka 0, kl 1)] /\
  after C1 (base ++ [lm_first; lm_again 2 (-15); back_lm]) (fun s => map (fun b => (b_from b, b_to b))
    (graph_lms C1 (base ++ [lm_first; lm_again 2 (-15); back_lm]) (kl 1) (s_nfg s))) = Some [(ka 0, kl 1); (ka 2, kl 1)].
Proof. repeat split; vm_compute; reflexivity. Qed.
