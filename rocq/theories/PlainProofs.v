(** * The solver without outlier rejection *)
From Coq Require Import QArith.
From Verif Require Import Prelude Keys KMap UMap Geometry Factors Pcm Solver ValuesProofs
  PcmSpec HistSpec SolverProofs HistProofs.
Set Implicit Arguments.
Local Open Scope nat_scope.

Section Plain.
Variable O : tops.
Variable C : config.
Variable W : soracles O.
Notation values := (values O).
Notation graph_t := (graph_t O).
Notation solver := (solver O).
Notation op := (op O).
Notation start := (solver_init (O := O) false).

Record plain_inv (h : list op) (s : solver) : Prop := {
  pi_pcm : s_pcm s = None;
  pi_nfg : s_nfg s = sp_plain h;
  pi_keys : forall k, kmem k (s_vals s) = true <-> supplied h k;
  pi_sorted : ksorted (s_vals s);
  pi_latest : s_latest s = 0 }.

Lemma add_and_check_inv fs vs (s s1 : solver) b : add_and_check fs vs s = Ok s1 b ->
  s_pcm s1 = s_pcm s /\ s_nfg s1 = s_nfg s ++ fs /\ s_tnfg s1 = s_tnfg s /\ s_tvals s1 = s_tvals s /\
  same_opt_state s s1 /\ vinsert_all vs (s_vals s) = Ok (s_vals s1) tt /\
  b = match fs with
      | [] => negb (length vs =? 0)
      | [Some f] => negb ((length (f_keys f) =? 2) && (length vs =? 1))
      | _ => true
      end /\ fs <> [None].
Proof.
  unfold add_and_check. cbn [s_vals set_nfg set_pnv].
  destruct (vinsert_all vs (s_vals s)) as [v []| |] eqn:E; try discriminate.
  unfold same_opt_state.
  destruct fs as [|[f|] [|f2 fs]]; try discriminate; intro H; inversion H; subst; cbn; repeat split; auto; discriminate.
Qed.

Lemma remove_last_factor_inv (s s1 : solver) e : remove_last_factor s = Ok s1 e ->
  s_pcm s1 = s_pcm s /\ s_nfg s1 = removelast (s_nfg s) /\ s_vals s1 = s_vals s /\ s_latest s1 = s_latest s /\
  s_trace s1 = s_trace s /\ s_tnfg s1 = s_tnfg s /\
  exists f k ks, s_nfg s = removelast (s_nfg s) ++ [Some f] /\ f_keys f = k :: ks /\ e = Some (k, last ks k).
Proof.
  unfold remove_last_factor. destruct (rev (s_nfg s)) as [|[f|] l] eqn:E; try discriminate.
  assert (HF : s_nfg s = rev l ++ [Some f]).
  { rewrite <- (rev_involutive (s_nfg s)), E. reflexivity. }
  destruct (f_keys f) as [|k ks] eqn:EK; [discriminate|].
  intro H. inversion H; subst. cbn. repeat split; auto. exists f, k, ks. split; auto.
  rewrite HF, removelast_last. auto.
Qed.

Lemma plain_step h s o s' r : plain_inv h s -> step C W o s = Ok s' r -> plain_inv (h ++ [o]) s'.
Proof.
  intros [I1 I2 I3 I4 I5] H.
  assert (SN : forall o, sp_plain (h ++ [o]) = match o with
                          | OpUpdate fs _ _ | OpForce fs _ => sp_plain h ++ fs
                          | OpRemovePriors c _ => filter (fun f => negb (any_prior_on c f)) (sp_plain h)
                          | OpRemoveId _ _ | OpRemoveLast => removelast (sp_plain h)
                          | _ => sp_plain h
                          end).
  { intro o'. unfold sp_plain. rewrite fold_left_app. cbn. destruct o'; auto. }
  assert (KEYS : forall s1, call_of o = None -> s_vals s1 = s_vals s ->
    forall s' : solver, (forall k, kmem k (s_vals s') = kmem k (s_vals s1)) ->
    (forall k, kmem k (s_vals s') = true <-> supplied (h ++ [o]) k)).
  { intros s1 Hc Hv s'' HK k. rewrite HK, Hv, I3, supplied_snoc, Hc. split; auto.
    intros [?|(fs & vs & HH & _)]; auto. discriminate. }
  assert (OPT : forall s1, s_pcm s1 = None -> s_nfg s1 = sp_plain (h ++ [o]) ->
    (forall k, kmem k (s_vals s1) = true <-> supplied (h ++ [o]) k) -> ksorted (s_vals s1) -> s_latest s1 = 0 ->
    (optimize C W s1 = Ok s' tt \/ s' = s1) -> plain_inv (h ++ [o]) s').
  { intros s1 P1 P2 P3 P4 P5 [HO|HO].
    - pose proof HO as HO'. apply optimize_same in HO. destruct HO as (O1 & O2 & _ & O3 & _ & O4 & _).
      apply optimize_inv in HO'. destruct HO' as (rr & a & full & Hz).
      split; try congruence; auto.
      + intro k. rewrite O3. auto.
      + rewrite (oz_latest Hz). unfold latest_after. rewrite P1. auto.
    - subst. split; auto. }
  assert (CALL : forall fs vs s1 b, call_of o = Some (fs, vs) -> add_and_check fs vs s = Ok s1 b ->
    sp_plain (h ++ [o]) = sp_plain h ++ fs -> (optimize C W s1 = Ok s' tt \/ s' = s1) -> plain_inv (h ++ [o]) s').
  { intros fs vs s1 b Hc HA HS HO. apply add_and_check_inv in HA.
    destruct HA as (A1 & A2 & _ & _ & (_ & _ & _ & A3 & _) & A4 & _).
    apply (OPT s1); auto; try congruence.
    - intro k. rewrite (vinsert_all_mem _ _ _ A4), orb_true_iff, I3, supplied_snoc, Hc, kmem_In.
      split; intros [HH|HH]; auto.
      + right. exists fs, vs. auto.
      + destruct HH as (? & ? & HH & ?). inversion HH; subst. auto.
    - apply vinsert_all_ok in A4. destruct A4 as (_ & _ & _ & A4). auto. }
  destruct o as [fs vs opt|fs vs|c opt|a0 b0| |c|c|fs vs|fs vs|]; cbn [step] in H; unfold no_ret, edge_ret in H.
  - destruct (update C W fs vs opt s) as [s2 []| |] eqn:E; cbn [obind] in H; try discriminate.
    inversion H; subst. unfold update, ingest in E. rewrite I1 in E.
    destruct (add_and_check fs vs s) as [s1 b| |] eqn:E1; cbn [obind] in E; try discriminate.
    apply (CALL fs vs s1 b); auto; [apply SN|].
    destruct (b && opt).
    + destruct (optimize C W s1) as [s2 []| |] eqn:E2; cbn [obind] in E; try discriminate.
      left. destruct opt; [apply log_status_inv in E|inversion E]; congruence.
    + right. cbn [obind] in E. destruct opt; [apply log_status_inv in E|inversion E]; congruence.
  - destruct (force_update C W fs vs s) as [s2 []| |] eqn:E; cbn [obind] in H; try discriminate.
    inversion H; subst. unfold force_update, ingest in E. rewrite I1 in E.
    destruct (add_and_check fs vs s) as [s1 b| |] eqn:E1; cbn [obind] in E; try discriminate.
    apply (CALL fs vs s1 b); auto; [apply SN|].
    destruct (optimize C W s1) as [s2 []| |] eqn:E2; cbn [obind] in E; try discriminate.
    left. apply log_status_inv in E. congruence.
  - destruct (remove_priors C W c opt s) as [s2 []| |] eqn:E; cbn [obind] in H; try discriminate.
    inversion H; subst. unfold remove_priors in E. rewrite I1 in E.
    apply (OPT (set_nfg s (filter (keep_prior c) (s_nfg s)))); auto.
    + rewrite SN. cbn. rewrite I2. apply filter_ext. intros [[x|k x|k t|ks t]|]; reflexivity.
    + apply (KEYS s); auto.
    + destruct opt; [auto|right; inversion E; auto].
  - destruct (remove_last_id C W a0 b0 s) as [s2 e| |] eqn:E; cbn [obind] in H; try discriminate.
    inversion H; subst. unfold remove_last_id in E. rewrite I1 in E.
    destruct (remove_last_factor s) as [s1 e1| |] eqn:E1; cbn [obind] in E; try discriminate.
    destruct (optimize C W s1) as [s2 []| |] eqn:E2; cbn [obind] in E; try discriminate. inversion E; subst.
    apply remove_last_factor_inv in E1. destruct E1 as (F1 & F2 & F3 & F4 & _).
    apply (OPT s1); try congruence; auto.
    + rewrite SN, F2. congruence.
    + apply (KEYS s); auto. intro. rewrite F3. auto.
  - destruct (remove_last C W s) as [s2 e| |] eqn:E; cbn [obind] in H; try discriminate.
    inversion H; subst. unfold remove_last in E. rewrite I1 in E.
    destruct (remove_last_factor s) as [s1 e1| |] eqn:E1; cbn [obind] in E; try discriminate.
    destruct (optimize C W s1) as [s2 []| |] eqn:E2; cbn [obind] in E; try discriminate. inversion E; subst.
    apply remove_last_factor_inv in E1. destruct E1 as (F1 & F2 & F3 & F4 & _).
    apply (OPT s1); try congruence; auto.
    + rewrite SN, F2. congruence.
    + apply (KEYS s); auto. intro. rewrite F3. auto.
  - destruct (ignore_prefix C W c s) as [s2 []| |] eqn:E; cbn [obind] in H; try discriminate.
    inversion H; subst. unfold ignore_prefix, with_pcm in E. rewrite I1 in E.
    apply (OPT s); auto; [rewrite SN; auto|]. apply (KEYS s); auto.
  - destruct (revive_prefix C W c s) as [s2 []| |] eqn:E; cbn [obind] in H; try discriminate.
    inversion H; subst. unfold revive_prefix, with_pcm in E. rewrite I1 in E.
    apply (OPT s); auto; [rewrite SN; auto|]. apply (KEYS s); auto.
  - unfold temp_update in H. destruct (vinsert_all vs (s_tvals s)) as [tv u| |]; cbn [obind] in H; try discriminate.
    inversion H; subst. eapply OPT; [| | | | |right; reflexivity]; auto; [rewrite SN; auto|]. apply (KEYS s); auto.
  - unfold temp_replace in H. cbn [obind] in H. inversion H; subst.
    eapply OPT; [| | | | |right; reflexivity]; auto; [rewrite SN; auto|]. apply (KEYS s); auto.
  - unfold temp_clear in H. cbn [obind] in H. inversion H; subst.
    eapply OPT; [| | | | |right; reflexivity]; auto; [rewrite SN; auto|]. apply (KEYS s); auto.
Qed.

Lemma plain_run h s rs : run C W h start = Ok s rs -> plain_inv h s.
Proof.
  apply (run_ind C W plain_inv).
  - split; try reflexivity; [|constructor].
    intro k. cbn. split; [discriminate|]. intros (o & fs & vs & [] & _).
  - intros. eapply plain_step; eauto.
Qed.

Lemma sp_plain_delivered (h : list op) f : In (Some f) (sp_plain h) -> delivered h f.
Proof.
  induction h as [|o h IH] using rev_ind; [intros []|].
  unfold sp_plain. rewrite fold_left_app. cbn [fold_left]. fold (sp_plain h).
  assert (RL : forall (l : graph_t) x, In x (removelast l) -> In x l).
  { induction l as [|y l IHl]; cbn; auto. intros x. destruct l; [intros []|]. intros [->|Hx]; auto. }
  assert (GO : In (Some f) (sp_plain h) -> delivered (h ++ [o]) f).
  { intro Hin. apply delivered_snoc; auto. }
  destruct o as [fs vs opt|fs vs|c opt|a0 b0| |c|c|fs vs|fs vs|]; auto; intro Hin.
  - apply in_app_or in Hin. destruct Hin as [Hin|Hin]; auto.
    exists (OpUpdate fs vs opt), fs, vs. split; [apply in_or_app; right; left; auto|auto].
  - apply in_app_or in Hin. destruct Hin as [Hin|Hin]; auto.
    exists (OpForce fs vs), fs, vs. split; [apply in_or_app; right; left; auto|auto].
  - apply filter_In in Hin. tauto.
Qed.

Definition only_adds (o : op) : bool :=
  match o with OpRemovePriors _ _ | OpRemoveId _ _ | OpRemoveLast => false | _ => true end.

Lemma sp_plain_all (h : list op) : (forall o, In o h -> only_adds o = true) -> sp_plain h = sp_all h.
Proof.
  induction h as [|o h IH] using rev_ind; [reflexivity|]. intro H.
  unfold sp_plain, sp_all. rewrite fold_left_app, flat_map_app. cbn [fold_left flat_map]. fold (sp_plain h).
  rewrite IH by (intros; apply H, in_or_app; auto).
  specialize (H o ltac:(apply in_or_app; right; left; auto)). unfold sp_all.
  destruct o; cbn [call_of]; rewrite ?app_nil_r; auto; discriminate.
Qed.

End Plain.
