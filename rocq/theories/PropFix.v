(** * C32 over whole histories *)
From Coq Require Import QArith.
From Verif Require Import Prelude Keys KMap Geometry Factors Pcm Solver HistSpec StoreSpec UpdateProofs Grid Scenes FixSpec FixProofs.

Local Open Scope nat_scope.

(** Loop closures are only added, and the graph holds every loop closure and landmark observation that was
    stored: k odometry and other factors, then n of them.  If a call issues a request without known inliers,
    there was a GNC run before it, no GNC run since, the n loop closures are the ones that run was given at
    the same positions, and the request keeps exactly those to which it gave a weight above one half. *)
Theorem C32_history_partial : forall O C (W : soracles O) h o s s' rs r q,
  c_gnc C = true -> c_fix C = true -> steady_all (h ++ [o]) ->
  run C W h (solver_init true) = Ok s rs -> step C W o s = Ok s' r -> s_trace s' = s_trace s ++ [q] -> rq_known q = None ->
  let k := length (sp_odoms (c_special C) (h ++ [o])) + length (sp_others (h ++ [o])) in
  let n := length (sp_stored C W (h ++ [o])) + length (sp_sightings C W (h ++ [o])) in
  length (s_nfg s') = k + n -> 0 < n ->
  exists tr1 r0 tr2 a k0,
    s_trace s = tr1 ++ r0 :: tr2 /\ rq_known r0 = Some (seq 0 k0) /\ (forall x, In x tr2 -> rq_known x = None) /\
    so_opt W tr1 r0 = Some a /\
    skipn k (s_nfg s') = firstn n (skipn k0 (rq_graph r0)) /\
    rq_graph q = firstn k (s_nfg s') ++ kept (skipn k (s_nfg s')) (map (an_w a) (seq k0 n)) ++ s_tnfg s'.
Proof. exact c32_history. Qed.
Print Assumptions C32_history_partial.

(** Two loop closures, one of which GNC rejects; a prior arrives, the priors are removed, and the
    closures kept are still the one that GNC accepted. *)
Definition fix_history : list (op O1) :=
  base ++ [lc_ab 0 0 100; lc_ab 1 1 100; OpForce [] []; OpForce [pri (ka 1) (fwd 1)] []].

Example C32_history_example :
  let h := fix_history in let o := OpRemovePriors 97%N true : op O1 in
  steady_all (h ++ [o]) /\
  match run cfg_fix (moving 7 gp_id) h (solver_init true) with
  | Ok s _ => match step cfg_fix (moving 7 gp_id) o s with
    | Ok s' _ => (map (fun r => (length (rq_graph r), rq_known r)) (s_trace s'), length (s_trace s), length (s_nfg s'),
        length (sp_odoms (c_special cfg_fix) (h ++ [o])) + length (sp_others (h ++ [o])),
        length (sp_stored cfg_fix (moving 7 gp_id) (h ++ [o])) + length (sp_sightings cfg_fix (moving 7 gp_id) (h ++ [o])))
    | _ => ([], 0, 0, 0, 0) end
  | _ => ([], 0, 0, 0, 0)
  end = ([(1, None); (6, None); (7, Some (seq 0 6)); (8, Some (seq 0 6)); (7, None); (8, None); (6, None)], 6, 7, 5, 2).
Proof.
  split; [intros o Ho; repeat (destruct Ho as [<-|Ho]; [reflexivity|]); destruct Ho|]. vm_compute. reflexivity.
Qed.
