(** * Inversion lemmas for [RobustSolver] and the basic invariant of histories *)
From Coq Require Import Permutation QArith.
From Verif Require Import Prelude Keys KMap UMap Geometry Factors Clique Pcm Solver ValuesProofs
  PcmSpec PcmProofs PcmInv.
Set Implicit Arguments.
Local Open Scope nat_scope.

Section SolverProofs.
Variable O : tops.
Variable C : config.
Variable W : soracles O.
Notation bf := (bf O).
Notation factor := (factor O).
Notation values := (values O).
Notation graph_t := (graph_t O).
Notation pcm := (pcm O).
Notation solver := (solver O).
Notation op := (op O).
Notation sp := (c_special C).

(** ** [optimize] *)

Lemma update_values_ok (r : values) : forall v tv v' tv' u,
  update_values r (v, tv) = Ok (v', tv') u ->
  (forall k, kmem k v' = kmem k v) /\ (forall k, kmem k tv' = kmem k tv) /\
  (ksorted v -> ksorted v') /\ (ksorted tv -> ksorted tv').
Proof.
  induction r as [|[k x] r IH]; intros v tv v' tv' u H; cbn [update_values fst snd] in H.
  - inversion H; subst. auto.
  - destruct (kfind k v) as [x0|] eqn:E1.
    + destruct (same_type x0 x); [|discriminate]. apply IH in H. destruct H as (H1 & H2 & H3 & H4).
      repeat split; auto.
      * intro k'. rewrite H1, kmem_kset. destruct (N.eqb_spec k' k) as [->|]; auto.
        unfold kmem. rewrite E1. auto.
      * intro Hs. apply H3, ksorted_kset; auto.
    + destruct (kfind k tv) as [x0|] eqn:E2.
      * destruct (same_type x0 x); [|discriminate]. apply IH in H. destruct H as (H1 & H2 & H3 & H4).
        repeat split; auto.
        -- intro k'. rewrite H2, kmem_kset. destruct (N.eqb_spec k' k) as [->|]; auto.
           unfold kmem. rewrite E2. auto.
        -- intro Hs. apply H4, ksorted_kset; auto.
      * apply IH in H. auto.
Qed.

Definition latest_after (s : solver) : nat :=
  match s_pcm s with Some p => p_total p | None => s_latest s end.

Lemma finish_inv r (s s' : solver) u : finish r s = Ok s' u ->
  s_pcm s' = s_pcm s /\ s_nfg s' = s_nfg s /\ s_tnfg s' = s_tnfg s /\ s_w s' = s_w s /\ s_tw s' = s_tw s /\
  s_ninl s' = s_ninl s /\ s_trace s' = s_trace s /\ s_latest s' = latest_after s /\
  update_values r (s_vals s, s_tvals s) = Ok (s_vals s', s_tvals s') tt.
Proof.
  unfold finish, latest_after.
  destruct (update_values r (s_vals s, s_tvals s)) as [[v tv] []|[v tv] e|] eqn:E; [|discriminate..].
  intro H. inversion H; subst. destruct (s_pcm s) eqn:EP; cbn; repeat split; auto.
Qed.

Record optimized (s s' : solver) (r : request O) (a : answer O) (full : values) : Prop := {
  oz_pcm : s_pcm s' = s_pcm s;
  oz_nfg : s_nfg s' = s_nfg s;
  oz_tnfg : s_tnfg s' = s_tnfg s;
  oz_trace : s_trace s' = s_trace s ++ [r];
  oz_latest : s_latest s' = latest_after s;
  oz_full : vinsert_all (s_tvals s) (s_vals s) = Ok full tt;
  oz_req : rq_vals r = full;
  oz_ans : so_opt W (s_trace s) r = Some a;
  oz_vals : update_values (answer_values a full) (s_vals s, s_tvals s) = Ok (s_vals s', s_tvals s') tt;
  oz_branch :
    match gnc_branch C s with
    | Some p =>
        r = Req (s_nfg s ++ s_tnfg s) full (Some (seq 0 (num_odom_special p)))
              (if c_bias C then Some (init_weights (length (s_nfg s ++ s_tnfg s)) (num_odom_special p)) else None) /\
        (c_bias C = true -> num_odom_special p <= length (s_nfg s ++ s_tnfg s)) /\
        s_w s' = map (an_w a) (seq 0 (length (s_nfg s))) /\
        s_tw s' = map (an_w a) (seq (length (s_nfg s)) (length (s_tnfg s))) /\
        s_ninl s' = inlier_count (s_w s') (num_odom_special p)
    | None =>
        rq_known r = None /\ rq_init r = None /\
        (c_fix C = false -> rq_graph r = s_nfg s ++ s_tnfg s) /\
        (c_fix C = true -> exists s0, fixed_graph s = Ok s0 (rq_graph r)) /\
        s_latest s <= length (s_w s) /\ s_latest s <= length (s_nfg s) /\
        s_w s' = ones (length (s_nfg s) - s_latest s) ++ skipn (length (s_w s) - s_latest s) (s_w s) /\
        s_tw s' = ones (length (s_tnfg s)) /\
        s_ninl s' = s_ninl s
    end }.

Lemma firstn_seq n m : n <= m -> firstn n (seq 0 m) = seq 0 n.
Proof.
  intro H. replace m with (n + (m - n)) by lia. rewrite seq_app, firstn_app, seq_length, Nat.sub_diag.
  cbn [firstn]. rewrite app_nil_r. rewrite <- (seq_length n 0) at 1. apply firstn_all.
Qed.

Lemma skipn_seq n m : skipn n (seq 0 (n + m)) = seq n m.
Proof.
  rewrite seq_app, skipn_app, seq_length, Nat.sub_diag. cbn [skipn plus].
  rewrite <- (seq_length n 0) at 1. rewrite skipn_all. auto.
Qed.

Lemma optimize_inv (s s' : solver) u : optimize C W s = Ok s' u -> exists r a full, optimized s s' r a full.
Proof.
  unfold optimize. destruct (vinsert_all (s_tvals s) (s_vals s)) as [full []| |] eqn:EV; try discriminate.
  destruct (gnc_branch C s) as [p|] eqn:EG.
  - destruct (c_bias C && (length (s_nfg s ++ s_tnfg s) <? num_odom_special p)) eqn:EB; [discriminate|].
    set (r := Req (s_nfg s ++ s_tnfg s) full _ _).
    unfold call_opt. destruct (so_opt W (s_trace s) r) as [a|] eqn:EA; cbn [obind]; [|discriminate].
    intro H. apply finish_inv in H. unfold set_weights, add_trace in H. cbn in H.
    destruct H as (H1 & H2 & H3 & H4 & H5 & H6 & H7 & H8 & H9).
    exists r, a, full. split; auto.
    + rewrite EG. split; [reflexivity|]. split; [|split; [|split]].
      * intro Hb. rewrite Hb in EB. cbn in EB. apply Nat.ltb_ge in EB. auto.
      * rewrite H4, firstn_map. f_equal. apply firstn_seq. rewrite app_length. lia.
      * rewrite H5, skipn_map. f_equal. rewrite app_length.
        replace (length (s_nfg s) + length (s_tnfg s) - length (s_tnfg s)) with (length (s_nfg s)) by lia.
        apply skipn_seq.
      * rewrite H6, H4. auto.
  - destruct (if c_fix C then fixed_graph s else Ok s (s_nfg s ++ s_tnfg s)) as [s0 g| |] eqn:EF; cbn [obind]; try discriminate.
    set (r := Req g full None None).
    unfold call_opt. destruct (so_opt W (s_trace s) r) as [a|] eqn:EA; cbn [obind]; [|discriminate].
    destruct (length (s_w s) <? s_latest s) eqn:E1; [discriminate|].
    destruct (length (s_nfg s) <? s_latest s) eqn:E2; [discriminate|].
    apply Nat.ltb_ge in E1, E2.
    intro H.
    assert (H' : finish (answer_values a full)
           (set_weights (add_trace s r)
              (ones (length (s_nfg s) - s_latest s) ++ skipn (length (s_w s) - s_latest s) (s_w s))
              (ones (length (s_tnfg s))) (s_ninl (add_trace s r))) = Ok s' u).
    { destruct (s_pcm s); [exact H|]. destruct (c_debug C && negb (c_gn C)); [discriminate|exact H]. }
    clear H. apply finish_inv in H'. unfold set_weights, add_trace in H'. cbn in H'.
    destruct H' as (H1 & H2 & H3 & H4 & H5 & H6 & H7 & H8 & H9).
    exists r, a, full. split; auto.
    rewrite EG. repeat split; auto.
    + intro Hc. rewrite Hc in EF. inversion EF; subst. reflexivity.
    + intro Hc. rewrite Hc in EF. eauto.
Qed.

Lemma optimized_keys s s' r a full : optimized s s' r a full ->
  (forall k, kmem k (s_vals s') = kmem k (s_vals s)) /\ (forall k, kmem k (s_tvals s') = kmem k (s_tvals s)) /\
  (ksorted (s_vals s) -> ksorted (s_vals s')) /\ (ksorted (s_tvals s) -> ksorted (s_tvals s')).
Proof. intro H. eapply update_values_ok, (oz_vals H). Qed.

(** What an optional optimisation leaves alone. *)
Definition same_graphs (s s' : solver) : Prop :=
  s_pcm s' = s_pcm s /\ s_nfg s' = s_nfg s /\ s_tnfg s' = s_tnfg s /\
  (forall k, kmem k (s_vals s') = kmem k (s_vals s)) /\ (forall k, kmem k (s_tvals s') = kmem k (s_tvals s)) /\
  (ksorted (s_vals s) -> ksorted (s_vals s')) /\ (ksorted (s_tvals s) -> ksorted (s_tvals s')).

Lemma same_graphs_refl s : same_graphs s s.
Proof. repeat split; auto. Qed.

Lemma optimize_same (s s' : solver) u : optimize C W s = Ok s' u -> same_graphs s s'.
Proof.
  intro H. apply optimize_inv in H. destruct H as (r & a & full & H).
  pose proof (optimized_keys H) as (K1 & K2 & K3 & K4). destruct H. repeat split; auto.
Qed.

Lemma log_status_inv (s s' : solver) u : log_status C s = Ok s' u -> s' = s.
Proof.
  unfold log_status. destruct (c_log C).
  - destruct (s_pcm s); [|discriminate]. destruct (g2o_throws (s_nfg s)); [discriminate|].
    intro H; inversion H; auto.
  - intro H; inversion H; auto.
Qed.

(** ** One call *)

(** Effect of a call on the outlier rejection, the graph and the set of variables. *)
Definition call_effect (o : op) (s s1 : solver) (p p' : pcm) (rt : ret) : Prop :=
  s_pcm s1 = Some p' /\
  match o with
  | OpUpdate fs vs _ | OpForce fs vs => exists b,
      remove_outliers C (so_pcm W) fs vs (PSt p (s_nfg s) (s_vals s)) = Ok (PSt p' (s_nfg s1) (s_vals s1)) b
  | OpRemovePriors c _ => p' = pcm_remove_priors c p /\ s_nfg s1 = graph_of (so_pcm W) p' /\ s_vals s1 = s_vals s
  | OpRemoveId a b => exists e, rt = Some e /\ pcm_remove_last_id (so_pcm W) (a, b) p = Val (p', e) /\
      s_nfg s1 = match e with None => s_nfg s | Some _ => graph_of (so_pcm W) p' end /\ s_vals s1 = s_vals s
  | OpRemoveLast => exists e, rt = Some e /\ pcm_remove_last (so_pcm W) p = Val (p', e) /\
      s_nfg s1 = match e with None => s_nfg s | Some _ => graph_of (so_pcm W) p' end /\ s_vals s1 = s_vals s
  | OpIgnore c => p' = pcm_ignore c p /\ s_nfg s1 = graph_of (so_pcm W) p' /\ s_vals s1 = s_vals s
  | OpRevive c => p' = pcm_revive c p /\ s_nfg s1 = graph_of (so_pcm W) p' /\ s_vals s1 = s_vals s
  | OpTempUpdate fs vs => p' = p /\ s_nfg s1 = s_nfg s /\ s_vals s1 = s_vals s
  | OpTempReplace fs vs => p' = p /\ s_nfg s1 = s_nfg s /\ s_vals s1 = s_vals s
  | OpTempClear => p' = p /\ s_nfg s1 = s_nfg s /\ s_vals s1 = s_vals s
  end.

Definition temp_effect (o : op) (s s1 : solver) : Prop :=
  match o with
  | OpTempUpdate fs vs => s_tnfg s1 = s_tnfg s ++ fs /\ exists u, vinsert_all vs (s_tvals s) = Ok (s_tvals s1) u
  | OpTempReplace fs vs => s_tnfg s1 = fs /\ s_tvals s1 = vs
  | OpTempClear => s_tnfg s1 = [] /\ s_tvals s1 = []
  | _ => s_tnfg s1 = s_tnfg s /\ s_tvals s1 = s_tvals s
  end.

(** Members an optimisation writes but the first half of a call does not. *)
Definition same_opt_state (s s1 : solver) : Prop :=
  s_w s1 = s_w s /\ s_tw s1 = s_tw s /\ s_ninl s1 = s_ninl s /\ s_latest s1 = s_latest s /\ s_trace s1 = s_trace s.

(** Does a call end with an optimisation (given what outlier rejection answered)? *)
Definition optimises (o : op) (b : bool) : bool :=
  match o with
  | OpUpdate _ _ opt => b && opt
  | OpForce _ _ => true
  | OpRemovePriors _ opt => opt
  | OpRemoveId _ _ | OpRemoveLast | OpIgnore _ | OpRevive _ => true
  | _ => false
  end.

Lemma run_pcm_inv fs vs p (s s1 : solver) b : run_pcm C W fs vs p s = Ok s1 b ->
  exists p', s_pcm s1 = Some p' /\
    remove_outliers C (so_pcm W) fs vs (PSt p (s_nfg s) (s_vals s)) = Ok (PSt p' (s_nfg s1) (s_vals s1)) b /\
    s_tnfg s1 = s_tnfg s /\ s_tvals s1 = s_tvals s /\ same_opt_state s s1.
Proof.
  unfold run_pcm.
  destruct (remove_outliers C (so_pcm W) fs vs (PSt p (s_nfg s) (s_vals s))) as [st b'| |] eqn:E; try discriminate.
  intro H. inversion H; subst. exists (ps_pcm st). unfold same_opt_state. cbn. destruct st; repeat split; auto.
Qed.

Lemma step_inv o (s s' : solver) rt p : s_pcm s = Some p -> step C W o s = Ok s' rt ->
  exists s1 p' b, call_effect o s s1 p p' rt /\ temp_effect o s s1 /\ same_opt_state s s1 /\
    (forall fs vs, o = OpForce fs vs \/ (exists opt, o = OpUpdate fs vs opt) ->
       remove_outliers C (so_pcm W) fs vs (PSt p (s_nfg s) (s_vals s)) = Ok (PSt p' (s_nfg s1) (s_vals s1)) b) /\
    (if optimises o b then optimize C W s1 = Ok s' tt else s' = s1).
Proof.
  intros Hp H. destruct o as [fs vs opt|fs vs|c opt|a b| |c|c|fs vs|fs vs|]; cbn [step] in H;
    unfold no_ret, edge_ret in H.
  - destruct (update C W fs vs opt s) as [s2 []| |] eqn:E; cbn [obind] in H; try discriminate.
    inversion H; subst. unfold update, ingest in E. rewrite Hp in E.
    destruct (run_pcm C W fs vs p s) as [s1 b| |] eqn:E1; cbn [obind] in E; try discriminate.
    apply run_pcm_inv in E1. destruct E1 as (p' & P1 & P2 & P3 & P4 & P5).
    exists s1, p', b. split; [split; eauto|]. split; [split; auto|]. split; [auto|]. split.
    { intros fs' vs' [E'|[opt' E']]; inversion E'; subst; auto. }
    cbn [optimises].
    destruct (b && opt) eqn:Eb.
    + destruct (optimize C W s1) as [s2 []| |] eqn:E2; cbn [obind] in E; try discriminate.
      destruct opt; [apply log_status_inv in E|inversion E]; congruence.
    + cbn [obind] in E. destruct opt; [apply log_status_inv in E|inversion E]; congruence.
  - destruct (force_update C W fs vs s) as [s2 []| |] eqn:E; cbn [obind] in H; try discriminate.
    inversion H; subst. unfold force_update, ingest in E. rewrite Hp in E.
    destruct (run_pcm C W fs vs p s) as [s1 b| |] eqn:E1; cbn [obind] in E; try discriminate.
    apply run_pcm_inv in E1. destruct E1 as (p' & P1 & P2 & P3 & P4 & P5).
    exists s1, p', b. split; [split; eauto|]. split; [split; auto|]. split; [auto|]. split.
    { intros fs' vs' [E'|[opt' E']]; inversion E'; subst; auto. }
    cbn [optimises].
    destruct (optimize C W s1) as [s2 []| |] eqn:E2; cbn [obind] in E; try discriminate.
    apply log_status_inv in E. congruence.
  - destruct (remove_priors C W c opt s) as [s2 []| |] eqn:E; cbn [obind] in H; try discriminate.
    inversion H; subst. unfold remove_priors in E. rewrite Hp in E.
    exists (set_pnv s (Some (pcm_remove_priors c p)) (graph_of (so_pcm W) (pcm_remove_priors c p)) (s_vals s)), (pcm_remove_priors c p), true. split; [split; [reflexivity|]|]; [cbn; auto|].
    split; [cbn; auto|]. split; [repeat split; auto|]. split.
    { intros fs' vs' [E'|[opt' E']]; discriminate. }
    cbn [optimises]. destruct opt; [exact E|inversion E; auto].
  - destruct (remove_last_id C W a b s) as [s2 e| |] eqn:E; cbn [obind] in H; try discriminate.
    inversion H; subst. unfold remove_last_id in E. rewrite Hp in E.
    destruct (pcm_remove_last_id (so_pcm W) (a, b) p) as [[p' e']|] eqn:ER; cbn [lift_removal obind] in E; [|discriminate].
    assert (G : forall s1, (obind (optimize C W s1) (fun s2 (_ : unit) => Ok s2 e') = Ok s' e) ->
              e' = e /\ optimize C W s1 = Ok s' tt).
    { clear. intros s1 H. destruct (optimize C W s1) as [s2 []| |]; cbn [obind] in H; try discriminate.
      inversion H; auto. }
    destruct e' as [e'|]; cbn [obind] in E; apply G in E; destruct E as [<- E];
      (match type of E with optimize C W ?x = _ => exists x, p', true end; split; [split; [reflexivity|eexists; split; [reflexivity|]; split; [eassumption|]; cbn; auto]|];
       split; [cbn; auto|]; split; [repeat split; auto|]; split;
       [intros fs' vs' [E'|[opt' E']]; discriminate|exact E]).
  - destruct (remove_last C W s) as [s2 e| |] eqn:E; cbn [obind] in H; try discriminate.
    inversion H; subst. unfold remove_last in E. rewrite Hp in E.
    destruct (pcm_remove_last (so_pcm W) p) as [[p' e']|] eqn:ER; cbn [lift_removal obind] in E; [|discriminate].
    assert (G : forall s1, (obind (optimize C W s1) (fun s2 (_ : unit) => Ok s2 e') = Ok s' e) ->
              e' = e /\ optimize C W s1 = Ok s' tt).
    { clear. intros s1 H. destruct (optimize C W s1) as [s2 []| |]; cbn [obind] in H; try discriminate.
      inversion H; auto. }
    destruct e' as [e'|]; cbn [obind] in E; apply G in E; destruct E as [<- E];
      (match type of E with optimize C W ?x = _ => exists x, p', true end; split; [split; [reflexivity|eexists; split; [reflexivity|]; split; [eassumption|]; cbn; auto]|];
       split; [cbn; auto|]; split; [repeat split; auto|]; split;
       [intros fs' vs' [E'|[opt' E']]; discriminate|exact E]).
  - destruct (ignore_prefix C W c s) as [s2 []| |] eqn:E; cbn [obind] in H; try discriminate.
    inversion H; subst. unfold ignore_prefix, with_pcm in E. rewrite Hp in E.
    match type of E with optimize C W ?x = _ => exists x, (pcm_ignore c p), true end. split; [split; [reflexivity|]|]; [cbn; auto|].
    split; [cbn; auto|]. split; [repeat split; auto|]. split.
    { intros fs' vs' [E'|[opt' E']]; discriminate. }
    exact E.
  - destruct (revive_prefix C W c s) as [s2 []| |] eqn:E; cbn [obind] in H; try discriminate.
    inversion H; subst. unfold revive_prefix, with_pcm in E. rewrite Hp in E.
    match type of E with optimize C W ?x = _ => exists x, (pcm_revive c p), true end. split; [split; [reflexivity|]|]; [cbn; auto|].
    split; [cbn; auto|]. split; [repeat split; auto|]. split.
    { intros fs' vs' [E'|[opt' E']]; discriminate. }
    exact E.
  - destruct (temp_update fs vs s) as [s2 []| |] eqn:E; cbn [obind] in H; try discriminate.
    inversion H; subst. unfold temp_update in E.
    destruct (vinsert_all vs (s_tvals s)) as [tv u| |] eqn:E1; try discriminate. inversion E; subst.
    match goal with |- context [optimize C W _ = Ok ?x tt] => exists x, p, true end. split; [split; [exact Hp|]|]; [cbn; auto|].
    split; [cbn; eauto|]. split; [repeat split; auto|]. split.
    { intros fs' vs' [E'|[opt' E']]; discriminate. }
    reflexivity.
  - unfold temp_replace in H. cbn [obind] in H. inversion H; subst.
    match goal with |- context [optimize C W _ = Ok ?x tt] => exists x, p, true end. split; [split; [exact Hp|]|]; [cbn; auto|].
    split; [cbn; eauto|]. split; [repeat split; auto|]. split.
    { intros fs' vs' [E'|[opt' E']]; discriminate. }
    reflexivity.
  - unfold temp_clear in H. cbn [obind] in H. inversion H; subst.
    match goal with |- context [optimize C W _ = Ok ?x tt] => exists x, p, true end. split; [split; [exact Hp|]|]; [cbn; auto|].
    split; [cbn; eauto|]. split; [repeat split; auto|]. split.
    { intros fs' vs' [E'|[opt' E']]; discriminate. }
    reflexivity.
Qed.

(** ** Runs *)

Lemma run_snoc ops o : forall (s s' : solver) rs, run C W (ops ++ [o]) s = Ok s' rs ->
  exists s1 rs1 r, run C W ops s = Ok s1 rs1 /\ step C W o s1 = Ok s' r /\ rs = rs1 ++ [r].
Proof.
  induction ops as [|o' ops IH]; intros s s' rs H; cbn [app run] in H.
  - destruct (step C W o s) as [s1 r| |] eqn:E; cbn [obind] in H; try discriminate.
    inversion H; subst. exists s, [], r. repeat split; auto.
  - destruct (step C W o' s) as [s1 r| |] eqn:E; cbn [obind] in H; try discriminate.
    destruct (run C W (ops ++ [o]) s1) as [s2 rs2| |] eqn:E2; cbn [obind] in H; try discriminate.
    inversion H; subst. apply IH in E2. destruct E2 as (s3 & rs3 & r3 & R1 & R2 & ->).
    exists s3, (r :: rs3), r3. split; [|split; auto]. cbn [run]. rewrite E. cbn [obind]. rewrite R1. reflexivity.
Qed.

Lemma run_app ops1 ops2 : forall (s s' : solver) rs, run C W (ops1 ++ ops2) s = Ok s' rs ->
  exists s1 rs1 rs2, run C W ops1 s = Ok s1 rs1 /\ run C W ops2 s1 = Ok s' rs2 /\ rs = rs1 ++ rs2.
Proof.
  induction ops1 as [|o ops1 IH]; intros s s' rs H; cbn [app run] in H.
  - exists s, [], rs. repeat split; auto.
  - destruct (step C W o s) as [s1 r| |] eqn:E; cbn [obind] in H; try discriminate.
    destruct (run C W (ops1 ++ ops2) s1) as [s2 rs2| |] eqn:E2; cbn [obind] in H; try discriminate.
    inversion H; subst. apply IH in E2. destruct E2 as (s3 & rs3 & r3 & R1 & R2 & ->).
    exists s3, (r :: rs3), r3. split; [|split; auto]. cbn [run]. rewrite E. cbn [obind]. rewrite R1. reflexivity.
Qed.

Lemma run_app_ok ops1 ops2 (s s1 s' : solver) rs1 rs2 : run C W ops1 s = Ok s1 rs1 -> run C W ops2 s1 = Ok s' rs2 ->
  run C W (ops1 ++ ops2) s = Ok s' (rs1 ++ rs2).
Proof.
  revert s rs1. induction ops1 as [|o ops1 IH]; intros s rs1 H1 H2; cbn [app run] in *.
  - inversion H1; subst. auto.
  - destruct (step C W o s) as [s3 r| |] eqn:E; cbn [obind] in *; try discriminate.
    destruct (run C W ops1 s3) as [s4 rs4| |] eqn:E2; cbn [obind] in *; try discriminate.
    inversion H1; subst. rewrite (IH s3 rs4); auto.
Qed.

Lemma run_ind (P : list op -> solver -> Prop) s0 :
  P [] s0 ->
  (forall h s o s' r rs, run C W h s0 = Ok s rs -> P h s -> step C W o s = Ok s' r -> P (h ++ [o]) s') ->
  forall ops s rs, run C W ops s0 = Ok s rs -> P ops s.
Proof.
  intros H0 Hs. induction ops as [|o ops IH] using rev_ind; intros s rs H.
  - inversion H; subst. auto.
  - apply run_snoc in H. destruct H as (s1 & rs1 & r & R1 & R2 & ->). eauto.
Qed.

(** The graph is always the one the outlier rejection builds. *)
Definition synced (s : solver) : Prop := exists p, s_pcm s = Some p /\ s_nfg s = graph_of (so_pcm W) p.

Lemma graph_of_frame w (p p' : pcm) : p_odom p' = p_odom p -> p_special p' = p_special p -> p_lcs p' = p_lcs p ->
  p_lms p' = p_lms p -> p_ignored p' = p_ignored p -> graph_of w p' = graph_of w p.
Proof.
  intros H1 H2 H3 H4 H5. unfold graph_of, build, build_lcs, build_lms, ignored.
  rewrite H1, H2, H3, H4, H5. auto.
Qed.

Lemma ro_synced fs vs (p p' : pcm) nfg nfg' v v' b :
  remove_outliers C (so_pcm W) fs vs (PSt p nfg v) = Ok (PSt p' nfg' v') b ->
  nfg = graph_of (so_pcm W) p -> nfg' = graph_of (so_pcm W) p'.
Proof.
  intros H Hn. apply remove_outliers_inv in H. cbn [ps_pcm ps_nfg ps_vals] in H.
  destruct H as (vs1 & u & p1 & HV & HR & H1 & H2 & H3 & H4).
  destruct fs as [|f fs].
  - specialize (H1 eq_refl). inversion H1; subst. inversion HR; subst; congruence.
  - rewrite H2 by discriminate. destruct (c_align C).
    + destruct H4 as [[<- _]|(_ & _ & -> & _)]; reflexivity.
    + specialize (H3 eq_refl). inversion H3; subst; auto.
Qed.

Lemma pcm_remove_last_id_frame w id (p p' : pcm) e : pcm_remove_last_id w id p = Val (p', e) ->
  exists lcs, p' = set_lcs p lcs /\ (e = None -> lcs = p_lcs p) /\
   (forall x, e = Some x -> exists m m' b, lc_find id (p_lcs p) = Some m /\ lcs = lc_set id m' (p_lcs p) /\
      me_factors m = me_factors m' ++ [b] /\ x = edge_of b /\ incl (me_cons m') (me_factors m')).
Proof.
  unfold pcm_remove_last_id. destruct (lc_find id (p_lcs p)) as [m|] eqn:E.
  2:{ intro H. inversion H; subst. exists (p_lcs p'). split; [destruct p'; auto|]. split; [auto|discriminate]. }
  destruct (m_rows (me_adj m) <=? 0).
  { intro H. inversion H; subst. exists (p_lcs p'). split; [destruct p'; auto|]. split; [auto|discriminate]. }
  destruct (rev (me_factors m)) as [|last rest] eqn:ER; [discriminate|].
  assert (HF : me_factors m = rev rest ++ [last]).
  { rewrite <- (rev_involutive (me_factors m)), ER. reflexivity. }
  assert (HL : removelast (me_factors m) = rev rest) by (rewrite HF; apply removelast_last).
  rewrite HL.
  match goal with |- context [rbind ?x _] => destruct x as [m'|] eqn:EM end; cbn [rbind]; [|discriminate].
  intro H. inversion H; subst. eexists. split; [reflexivity|]. split; [discriminate|].
  intros x Hx. inversion Hx; subst. exists m, m', last. split; auto. split; auto.
  destruct (length (rev rest) <? 2).
  - inversion EM; subst. cbn. repeat split; auto. apply incl_refl.
  - destruct (m_cols (me_adj m) =? m_rows (me_adj m)); [|discriminate].
    apply heu_inliers_reselected in EM. destruct EM as (M1 & M2 & M3). cbn in *.
    rewrite M1. repeat split; auto. destruct M3 as [M3|M3]; auto. rewrite M3. intros y [].
Qed.

Lemma pcm_remove_last_frame w (p p' : pcm) e : pcm_remove_last w p = Val (p', e) ->
  (p_order p = [] /\ p' = p /\ e = None) \/
  exists o id, p_order p = o ++ [id] /\ pcm_remove_last_id w id (set_order p o) = Val (p', e).
Proof.
  unfold pcm_remove_last. destruct (rev (p_order p)) as [|id rest] eqn:ER.
  - intro H. inversion H; subst. left. repeat split; auto.
    rewrite <- (rev_involutive (p_order p')), ER. auto.
  - intro H. right. assert (HF : p_order p = rev rest ++ [id]).
    { rewrite <- (rev_involutive (p_order p)), ER. reflexivity. }
    exists (rev rest), id. split; auto.
    rewrite HF, removelast_last in H. auto.
Qed.

Lemma call_synced o (s s1 : solver) p p' rt : call_effect o s s1 p p' rt -> s_nfg s = graph_of (so_pcm W) p ->
  s_nfg s1 = graph_of (so_pcm W) p'.
Proof.
  intros [Hp H] Hn. destruct o; cbn in H.
  1-2: destruct H as [b H]; eapply ro_synced; eauto.
  1: tauto.
  3-4: tauto.
  3-5: destruct H as (-> & -> & _); auto.
  - destruct H as (e & _ & H & -> & _). destruct e as [e|]; auto.
    apply pcm_remove_last_id_frame in H. destruct H as (lcs & -> & Hl & _). rewrite Hl; auto.
  - destruct H as (e & _ & H & -> & _). destruct e as [e|]; auto.
    apply pcm_remove_last_frame in H. destruct H as [(_ & -> & _)|(od & id & _ & H)]; auto.
    apply pcm_remove_last_id_frame in H. destruct H as (lcs & -> & Hl & _). rewrite Hl; auto.
Qed.

Lemma step_synced o (s s' : solver) rt : synced s -> step C W o s = Ok s' rt -> synced s'.
Proof.
  intros (p & Hp & Hn) H. destruct (step_inv o s Hp H) as (s1 & p' & b & E & _ & _ & _ & Ho).
  pose proof (call_synced E Hn) as Hn1. destruct E as [Hp' _].
  destruct (optimises o b).
  - apply optimize_same in Ho. destruct Ho as (H1 & H2 & _). exists p'. split; congruence.
  - subst. exists p'. auto.
Qed.

Lemma run_synced ops (s : solver) rs : run C W ops (solver_init true) = Ok s rs -> synced s.
Proof.
  apply (run_ind (fun _ s => synced s)).
  - exists pcm_init. split; reflexivity.
  - intros. eapply step_synced; eauto.
Qed.

End SolverProofs.
