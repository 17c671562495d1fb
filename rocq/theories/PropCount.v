(** * C65, and more on C24: what the counts of inliers mean *)
From Coq Require Import QArith Qround.
From Verif Require Import Prelude Num Keys KMap UMap Geometry Factors Clique Pcm Params Solver Grid PcmSpec HistSpec StoreSpec
  SolverProofs HistProofs UpdateProofs Scenes CountProofs.
Local Open Scope nat_scope.

(** ** C24 *)
(** Without GNC the count of inliers only changes in calls that bring loop closure candidates, and counts at
    least what is in the graph after them (with ignored robots more). With [C24_inliers_partial] this gives
    its value after every history. *)
Theorem C24_inliers_kept : forall O C (W : soracles O) h o s s' rs r,
  run C W h (solver_init true) = Ok s rs -> step C W o s = Ok s' r -> c_gnc C = false ->
  (forall fs vs, call_of o = Some (fs, vs) -> filter (sp_candidate (c_special C) vs) (betweens fs) = []) ->
  get_num_inliers C s' = get_num_inliers C s.
Proof. exact c24_kept. Qed.
Print Assumptions C24_inliers_kept.

Theorem C24_inliers_at_least : forall O C (W : soracles O) h o fs vs s rs,
  run C W (h ++ [o]) (solver_init true) = Ok s rs -> call_of o = Some (fs, vs) -> c_gnc C = false ->
  filter (sp_candidate (c_special C) vs) (betweens fs) <> [] ->
  exists n, get_num_inliers C s = Val n /\ (Z.of_nat (length (graph_extra C (h ++ [o]) (s_nfg s))) <= n)%Z.
Proof. exact c24_at_least. Qed.
Print Assumptions C24_inliers_at_least.

(** Removed and ignored loop closures stay counted. *)
Example C24_kept_example :
  map (fun l => after C1 (base ++ [lc_ab 0 0 100; lc_ab 1 1 100; lc_good] ++ l)
         (fun s => (get_num_inliers C1 s, length (graph_extra C1 (base ++ [lc_ab 0 0 100; lc_ab 1 1 100; lc_good] ++ l) (s_nfg s)))))
    [[]; [OpRemoveId 97 98]; [OpIgnore 98]; [OpForce [] []]]
  = [Some (Val 3%Z, 3); Some (Val 3%Z, 2); Some (Val 3%Z, 1); Some (Val 3%Z, 3)].
Proof. vm_compute. reflexivity. Qed.

(** ** C65 *)
(** Weights of GNC: one on known inliers, [w] elsewhere. *)
Definition weighing (n : nat) (w : Q) : soracles O1 :=
  @SOracles O1 (plain_oracles O1 gp_id) (fun _ _ => Some (Ans (O := O1) (fun _ => gp_id) (fun _ => 0) (fun i => if i <? n then 1%Q else w))).

(** Two loop closures of weight 3/5, both above one half, count as one inlier; three of weight 2/5, none above
    one half, as one as well. *)
Theorem C65_counts_inliers_refuted :
  (exists C (W : soracles O1) h s rs, run C W h (solver_init true) = Ok s rs /\ c_gnc C = true /\
     get_num_inliers C s = Val 1%Z /\ s_w s = (repeat 1 6 ++ [3 # 5; 3 # 5])%Q /\ length (graph_extra C h (s_nfg s)) = 2) /\
  (exists C (W : soracles O1) h s rs, run C W h (solver_init true) = Ok s rs /\ c_gnc C = true /\
     get_num_inliers C s = Val 1%Z /\ s_w s = (repeat 1 6 ++ [2 # 5; 2 # 5; 2 # 5])%Q /\ length (graph_extra C h (s_nfg s)) = 3).
Proof.
  split.
  - pose (h := base ++ [lc_ab 0 0 100; lc_ab 1 1 100]). exists cfg_gnc, (weighing 6 (3 # 5)), h.
    destruct (@run_check O1 cfg_gnc (weighing 6 (3 # 5)) h true (fun s => get_num_inliers cfg_gnc s = Val 1%Z /\
      s_w s = (repeat 1 6 ++ [3 # 5; 3 # 5])%Q /\ length (graph_extra cfg_gnc h (s_nfg s)) = 2)) as (s & rs & HR & H); [vm_compute; auto|].
    exists s, rs. split; [exact HR|]. split; [reflexivity|exact H].
  - pose (h := base ++ [lc_ab 0 0 100; lc_ab 1 1 100; lc_good]). exists cfg_gnc, (weighing 6 (2 # 5)), h.
    destruct (@run_check O1 cfg_gnc (weighing 6 (2 # 5)) h true (fun s => get_num_inliers cfg_gnc s = Val 1%Z /\
      s_w s = (repeat 1 6 ++ [2 # 5; 2 # 5; 2 # 5])%Q /\ length (graph_extra cfg_gnc h (s_nfg s)) = 3)) as (s & rs & HR & H); [vm_compute; auto|].
    exists s, rs. split; [exact HR|]. split; [reflexivity|exact H].
Qed.
Print Assumptions C65_counts_inliers_refuted.

(** After every call that ran GNC, whose weights are one on the known inliers and between zero and one: the
    count is the integer part of the sum of the weights of the loop closures and landmark observations in the
    graph, never more than there are (no wrap-around), and their number above one half if GNC decided on zero
    or one everywhere. *)
Theorem C65_counts_inliers_partial : forall O C (W : soracles O) h o s s' rs r q l a,
  run C W h (solver_init true) = Ok s rs -> step C W o s = Ok s' r ->
  s_trace s' = s_trace s ++ [q] -> rq_known q = Some l -> so_opt W (s_trace s) q = Some a ->
  (forall i, In i l -> an_w a i == 1)%Q -> (forall i, 0 <= an_w a i <= 1)%Q ->
  (Z.of_nat (length (s_nfg s')) < size_t_mod)%Z ->
  let k := length (sp_odoms (c_special C) (h ++ [o])) + length (sp_others (h ++ [o])) in
  s_w s' = map (an_w a) (seq 0 (length (s_nfg s'))) /\
  length (s_nfg s') = k + length (graph_extra C (h ++ [o]) (s_nfg s')) /\
  exists n, get_num_inliers C s' = Val n /\ n = Qfloor (qsum (skipn k (s_w s'))) /\
    (0 <= n <= Z.of_nat (length (graph_extra C (h ++ [o]) (s_nfg s'))))%Z /\
    ((forall i, an_w a i == 0 \/ an_w a i == 1)%Q ->
       n = Z.of_nat (length (filter (fun w => negb (Qle_bool w (1 # 2))) (skipn k (s_w s'))))).
Proof. exact c65. Qed.
Print Assumptions C65_counts_inliers_partial.

(** All other calls keep the count. *)
Theorem C65_count_kept : forall O C (W : soracles O) h o s s' rs r,
  run C W h (solver_init true) = Ok s rs -> step C W o s = Ok s' r -> c_gnc C = true ->
  (forall q l, s_trace s' = s_trace s ++ [q] -> rq_known q <> Some l) -> get_num_inliers C s' = get_num_inliers C s.
Proof. exact c65_kept. Qed.
Print Assumptions C65_count_kept.

(** A removal with fixed inliers is followed by an optimisation without GNC: the count is stale. *)
Example C65_example :
  let show l := match run cfg_fix (moving 8 gp_id) (base ++ [lc_ab 0 0 100; lc_ab 1 1 100; lc_good] ++ l) (solver_init true) with
    | Ok s _ => Some (get_num_inliers cfg_fix s, length (s_nfg s), map (@rq_known O1) (skipn 4 (s_trace s))) | _ => None end in
  map show [[]; [OpRemoveLast]] = [Some (Val 2%Z, 9, [Some (seq 0 6)]); Some (Val 2%Z, 8, [Some (seq 0 6); None])].
Proof. vm_compute. reflexivity. Qed.
