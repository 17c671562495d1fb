(** * C45 with odometry bias *)
From Coq Require Import QArith.
From Verif Require Import Prelude Keys KMap Geometry Factors Pcm Solver HistSpec StoreSpec UpdateProofs Grid Scenes SafeProofs ExcSpec ExcProofs PropRemove.
Local Open Scope nat_scope.

(** GNC, no fixed inliers, odometry bias on or off; the caller catches every exception and goes on.
    The next call is undefined exactly if it is a forceUpdate without factors whose values can be
    inserted and the graph (with the temporary factors) has fewer factors than outlier rejection has
    odometry and other factors. *)
Theorem C45_undefined_iff : forall O C (W : soracles O) h o s,
  decent_history C (h ++ [o]) -> no_removal (h ++ [o]) -> small C (length (sp_all (h ++ [o]))) ->
  c_gnc C = true -> c_fix C = false -> run_on C W h (solver_init true) = Val s ->
  ((exists u, step C W o s = Undef u) <-> stale_force C o s).
Proof. exact c45_iff. Qed.
Print Assumptions C45_undefined_iff.

(** So it never happens to a caller who hands over factors with every forceUpdate, *)
Theorem C45_with_bias_partial : forall O C (W : soracles O) h u,
  decent_history C h -> no_removal h -> small C (length (sp_all h)) -> c_gnc C = true -> c_fix C = false ->
  (forall vs, ~ In (OpForce [] vs) h) -> run_on C W h (solver_init true) <> Bad u.
Proof. exact c45_with_bias. Qed.
Print Assumptions C45_with_bias_partial.

(** nor directly after a call that completed and handed the graph over anew. *)
Theorem C45_repaired : forall O C (W : soracles O) h o o' s s' r,
  decent_history C (h ++ [o; o']) -> no_removal (h ++ [o; o']) -> small C (length (sp_all (h ++ [o; o']))) ->
  c_gnc C = true -> c_fix C = false -> run_on C W h (solver_init true) = Val s -> step C W o s = Ok s' r ->
  rebuilds o -> forall u, step C W o' s' <> Undef u.
Proof. exact c45_not_stale. Qed.
Print Assumptions C45_repaired.

(** The failed call of C45_usable_after_exception_refuted, then priors of another robot are removed: the
    forceUpdate without factors is then harmless. *)
Example C45_repaired_example :
  match run_on cfg_bias W1 (base ++ [half_done; OpRemovePriors 99 false; OpForce [] []]) (solver_init true) with
  | Val s => Some (keys_of (skipn 6 (s_nfg s)), length (s_trace s)) | Bad _ => None end = Some ([[kb 0]; [ka 0]], 3).
Proof. vm_compute. reflexivity. Qed.
Example C45_with_bias_example :
  match run_on cfg_bias W1 (base ++ [half_done; lc_good; start_a; lc_ab 0 0 100]) (solver_init true) with
  | Val s => Some (keys_of (skipn 6 (s_nfg s))) | Bad _ => None end = Some [[kb 0]; [ka 0]; [ka 0; ka 3]; [ka 0; kb 0]].
Proof. vm_compute. reflexivity. Qed.
