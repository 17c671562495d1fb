(** * What GTSAM is told, and what averages are: proofs *)
From Coq Require Import QArith Qcanon String Permutation.
From Verif Require Import Prelude Num Keys KMap UMap Geometry Factors Clique Pcm Params ParamSpec Solver SolverProofs ParamProofs
  Lie LiePoses LieSpec LieCov LiePd AlgProofs AlignSpec Settings SettingsSpec.
Set Implicit Arguments.
Local Open Scope nat_scope.

(** ** Every request has one of two shapes *)
Section Requests.
Variable O : tops.
Variable C : config.
Variable W : soracles O.

Definition well_asked (r : request O) : Prop :=
  match rq_known r with
  | None => rq_init r = None
  | Some known => c_gnc C = true /\
      (c_bias C = false -> rq_init r = None) /\
      (c_bias C = true -> exists w, rq_init r = Some w /\ marks known (length (rq_graph r)) w)
  end.

Definition grown {B} (s : solver O) (x : outcome (solver O) B) : Prop :=
  match x with
  | Ok s' _ | Throw s' _ => exists l, s_trace s' = s_trace s ++ l /\ Forall well_asked l
  | Undef _ => True
  end.

Lemma grown_trace {B} (s s1 : solver O) (x : outcome (solver O) B) : s_trace s1 = s_trace s -> grown s1 x -> grown s x.
Proof. unfold grown. destruct x; rewrite <- ?H; intro E; rewrite ?E; auto. Qed.

Lemma grown_bind {A B} (s : solver O) (x : outcome (solver O) A) (f : solver O -> A -> outcome (solver O) B) :
  grown s x -> (forall s1 a, x = Ok s1 a -> grown s1 (f s1 a)) -> grown s (obind x f).
Proof.
  destruct x as [s1 a|s1 e|u]; cbn [obind]; auto. intros (l & E & F) H. specialize (H s1 a eq_refl).
  unfold grown in *. destruct (f s1 a); auto; destruct H as (m & E' & F'); exists (l ++ m); rewrite E', E, app_assoc;
    split; auto; apply Forall_app; auto.
Qed.

Lemma grown_same {B} (s s' : solver O) (b : B) : s_trace s' = s_trace s -> grown s (Ok s' b).
Proof. intro E. exists []. rewrite app_nil_r. auto. Qed.
Lemma grown_throw {B} (s s' : solver O) e : s_trace s' = s_trace s -> grown s (Throw s' e : outcome _ B).
Proof. intro E. exists []. rewrite app_nil_r. auto. Qed.

Lemma init_marks n k : k <= n -> marks (seq 0 k) n (init_weights n k).
Proof.
  intro H. unfold marks, init_weights. rewrite app_length, !repeat_length. split; [lia|]. intros i Hi. rewrite in_seq. split; intro G.
  - rewrite nth_error_app1 by (rewrite repeat_length; lia). rewrite nth_error_repeat by lia. reflexivity.
  - rewrite nth_error_app2 by (rewrite repeat_length; lia). rewrite repeat_length, nth_error_repeat by lia. reflexivity.
Qed.

Lemma grown_call (s : solver O) r : well_asked r -> grown s (call_opt W r s).
Proof. intro H. unfold call_opt. destruct (so_opt W (s_trace s) r); exists [r]; auto. Qed.

Lemma grown_finish vs (s : solver O) : grown s (finish vs s).
Proof.
  unfold finish. destruct (update_values vs (s_vals s, s_tvals s)) as [[v tv] []|[v tv] e|]; [| |exact I].
  - apply grown_same. destruct (s_pcm s); reflexivity.
  - apply grown_throw. reflexivity.
Qed.

Definition stays {B} (s : solver O) (x : outcome (solver O) B) : Prop :=
  match x with Ok s' _ | Throw s' _ => s' = s | Undef _ => True end.
Lemma stays_bind {A B} (s : solver O) (x : outcome (solver O) A) (f : solver O -> A -> outcome (solver O) B) :
  stays s x -> (forall a, stays s (f s a)) -> stays s (obind x f).
Proof. destruct x; cbn; auto. intros -> H. apply H. Qed.
Lemma stays_fixed (s : solver O) k ws : forall i, stays s (fixed_lcs s k ws i).
Proof.
  induction ws as [|w ws IH]; intro i; cbn [fixed_lcs]; [exact eq_refl|]. apply stays_bind.
  - destruct (negb _); [|exact eq_refl]. destruct (nth_error _ _); exact eq_refl.
  - intro f. apply stays_bind; [apply IH|]. intro fs. exact eq_refl.
Qed.
Lemma stays_graph (s : solver O) : stays s (fixed_graph s).
Proof.
  unfold fixed_graph. destruct (s_pcm s); [|exact I]. destruct (_ <? _); [exact I|]. destruct (_ <? _); [exact I|].
  apply stays_bind; [apply stays_fixed|]. intro a. exact eq_refl.
Qed.
Lemma stays_grown {B} (s : solver O) (x : outcome (solver O) B) : stays s x -> grown s x.
Proof. destruct x; cbn; auto; intros ->; exists []; rewrite app_nil_r; auto. Qed.

Lemma grown_optimize (s : solver O) : grown s (optimize C W s).
Proof.
  unfold optimize. destruct (vinsert_all (s_tvals s) (s_vals s)) as [full []|v e|]; [|apply grown_throw; auto|exact I].
  destruct (gnc_branch C s) as [p|] eqn:EG.
  - assert (HG : c_gnc C = true).
    { unfold gnc_branch in EG. destruct (s_pcm s); [|discriminate]. destruct (c_gnc C); auto. discriminate. }
    destruct (c_bias C && (length (s_nfg s ++ s_tnfg s) <? num_odom_special p)) eqn:EB; [exact I|].
    apply grown_bind.
    + apply grown_call. unfold well_asked. cbn [rq_known rq_init rq_graph]. split; auto. split; intro H; rewrite H in *; auto.
      cbn in EB. apply Nat.ltb_ge in EB. eexists. split; [reflexivity|]. apply init_marks. exact EB.
    + intros s1 a _. eapply grown_trace; [|apply grown_finish]. reflexivity.
  - assert (HS : stays s (if c_fix C then fixed_graph s else Ok s (s_nfg s ++ s_tnfg s))).
    { destruct (c_fix C); [apply stays_graph|exact eq_refl]. }
    apply grown_bind; [apply stays_grown, HS|]. intros s0 g E. rewrite E in HS. cbn in HS. subst s0.
    apply grown_bind; [apply grown_call; exact eq_refl|]. intros s1 a _.
    destruct (_ <? _); [exact I|]. destruct (_ <? _); [exact I|].
    destruct (s_pcm s); [|destruct (c_debug C && negb (c_gn C)); [exact I|]];
      (eapply grown_trace; [|apply grown_finish]; reflexivity).
Qed.

Lemma grown_ingest fs vs (s : solver O) : grown s (ingest C W fs vs s).
Proof.
  unfold ingest, run_pcm, add_and_check. destruct (s_pcm s).
  - destruct (remove_outliers _ _ _ _ _); [apply grown_same|apply grown_throw|exact I]; reflexivity.
  - destruct (vinsert_all _ _); [|apply grown_throw; reflexivity|exact I].
    destruct fs as [|[f|] [|]]; try exact I; apply grown_same; reflexivity.
Qed.
Lemma grown_log (s : solver O) : grown s (log_status C s).
Proof.
  unfold log_status. destruct (c_log C); [|apply grown_same; reflexivity]. destruct (s_pcm s); [|exact I].
  destruct (g2o_throws _); [apply grown_throw|apply grown_same]; reflexivity.
Qed.
Lemma grown_removal (s : solver O) x : grown s (lift_removal W s x).
Proof. destruct x as [[p [e|]]|]; [| |exact I]; apply grown_same; reflexivity. Qed.
Lemma grown_last (s : solver O) : grown s (remove_last_factor s).
Proof.
  unfold remove_last_factor. destruct (rev (s_nfg s)) as [|[f|] l]; try exact I. destruct (f_keys f); [exact I|]. apply grown_same. reflexivity.
Qed.

Lemma grown_step o (s : solver O) : grown s (step C W o s).
Proof.
  destruct o as [fs vs opt|fs vs|c opt|a b| |c|c|fs vs|fs vs|]; cbn [step]; unfold no_ret, edge_ret;
    (apply grown_bind; [|intros s1 r _; apply grown_same; reflexivity]).
  - unfold update. apply grown_bind; [apply grown_ingest|]. intros s1 b _. apply grown_bind.
    + destruct (b && opt); [apply grown_optimize|apply grown_same; reflexivity].
    + intros s2 [] _. destruct opt; [apply grown_log|apply grown_same; reflexivity].
  - unfold force_update. apply grown_bind; [apply grown_ingest|]. intros s1 b _.
    apply grown_bind; [apply grown_optimize|]. intros s2 [] _. apply grown_log.
  - unfold remove_priors. destruct opt.
    + eapply grown_trace; [|apply grown_optimize]. destruct (s_pcm s); reflexivity.
    + apply grown_same. destruct (s_pcm s); reflexivity.
  - unfold remove_last_id. apply grown_bind; [destruct (s_pcm s); [apply grown_removal|apply grown_last]|]. intros s1 e _.
    apply grown_bind; [apply grown_optimize|]. intros s2 [] _. apply grown_same. reflexivity.
  - unfold remove_last. apply grown_bind; [destruct (s_pcm s); [apply grown_removal|apply grown_last]|]. intros s1 e _.
    apply grown_bind; [apply grown_optimize|]. intros s2 [] _. apply grown_same. reflexivity.
  - unfold ignore_prefix, with_pcm. eapply grown_trace; [|apply grown_optimize]. destruct (s_pcm s); reflexivity.
  - unfold revive_prefix, with_pcm. eapply grown_trace; [|apply grown_optimize]. destruct (s_pcm s); reflexivity.
  - unfold temp_update. destruct (vinsert_all _ _); [apply grown_same|apply grown_throw|exact I]; reflexivity.
  - apply grown_same. reflexivity.
  - apply grown_same. reflexivity.
Qed.

Lemma asked_on ops : forall (s s' : solver O), run_on C W ops s = Val s' -> Forall well_asked (s_trace s) -> Forall well_asked (s_trace s').
Proof.
  induction ops as [|o ops IH]; intros s s'; cbn [run_on]; [intros H; injection H as <-; auto|].
  pose proof (grown_step o s) as G. destruct (step C W o s) as [s1 r|s1 e|]; [| |discriminate]; cbn in G;
    destruct G as (l & E & F); intros H HF; apply (IH _ _ H); rewrite E; apply Forall_app; auto.
Qed.

Lemma run_run_on ops : forall (s s' : solver O) rs, run C W ops s = Ok s' rs -> run_on C W ops s = Val s'.
Proof.
  induction ops as [|o ops IH]; intros s s' rs; cbn [run run_on]; [intros H; injection H as <- _; auto|].
  destruct (step C W o s) as [s1 r|s1 e|]; cbn [obind]; try discriminate.
  destruct (run C W ops s1) as [s2 rs'| |] eqn:E; cbn [obind]; try discriminate. intro H. injection H as <- _. eauto.
Qed.

Lemma all_asked b h (s : solver O) : run_on C W h (solver_init b) = Val s -> Forall well_asked (s_trace s).
Proof. intro H. apply (asked_on h (solver_init b) H). constructor. Qed.
End Requests.

(** ** The settings *)
Lemma said {A} (get : settings -> A) (f : call -> option A) :
  (forall st c, get (apply_call st c) = match f c with Some v => v | None => get st end) ->
  forall l, last_said f (get settings_default) l (get (settings_after l)).
Proof. intros H l. exact (last_said_steps apply_call settings_default get f H l). Qed.

Lemma settings_forget l : st_params (settings_after l) = params_after (flat_map forget l).
Proof.
  unfold settings_after, params_after. change params_default with (st_params settings_default). generalize settings_default as st.
  induction l as [|c l IH]; intro st; [reflexivity|]. cbn [fold_left flat_map]. rewrite fold_left_app, IH. f_equal.
  destruct c; try reflexivity. destruct m; reflexivity.
Qed.

Lemma gnc_said l : pr_gnc (st_params (settings_after l)) = true -> exists c, In c l /\ asks_gnc c.
Proof.
  rewrite settings_forget. intro H.
  pose proof (ParamProofs.settings (flat_map forget l)) as G. cbn zeta in G. do 8 apply proj2 in G. apply proj1, proj1 in G. specialize (G H).
  destruct G as (f & b & G). apply in_flat_map in G. destruct G as (c & Hc & G). exists c. split; auto.
  destruct c; cbn in G; try (destruct G as [G|[]]; discriminate G); try (destruct G; fail); [exact I|].
  destruct m; destruct G as [G|[]]; discriminate G.
Qed.

Lemma in_tells O st (r : request O) t : In t (tells st r) <->
  (pr_gn (st_params st) = false /\ t = TellDamping (st_damping st)) \/
  (pr_verb (st_params st) <> VQuiet /\ t = TellVerbose (pr_gn (st_params st))) \/
  exists k, rq_known r = Some k /\
    (t = TellKnown k \/ t = TellIterations (gs_iter (st_gnc st)) \/ t = TellMuStep (gs_mu (st_gnc st)) \/
     t = TellRelativeTol (gs_rel (st_gnc st)) \/ t = TellWeightsTol (gs_wtol (st_gnc st)) \/
     (exists w, rq_init r = Some w /\ t = TellWeights w) \/
     t = (if gs_cost (st_gnc st) then TellCost (gs_limit (st_gnc st)) else TellProbability (gs_limit (st_gnc st)))).
Proof.
  unfold tells. cbn [config_of c_gn c_debug]. rewrite !in_app_iff.
  set (g := st_gnc st). set (last := if gs_cost g then _ else _).
  assert (A : In t (if pr_gn (st_params st) then [] else [TellDamping (st_damping st)]) <->
    pr_gn (st_params st) = false /\ t = TellDamping (st_damping st)).
  { destruct (pr_gn (st_params st)); cbn [In]; split; [intros []|intros [E _]; discriminate E|intros [<-|[]]; auto|intros [_ ->]; auto]. }
  assert (B : In t (if match pr_verb (st_params st) with VQuiet => false | _ => true end then [TellVerbose (pr_gn (st_params st))] else []) <->
    pr_verb (st_params st) <> VQuiet /\ t = TellVerbose (pr_gn (st_params st))).
  { destruct (pr_verb (st_params st)); cbn [In].
    - split; [intros [<-|[]]; split; [discriminate|auto]|intros [_ ->]; auto].
    - split; [intros []|intros [E _]; congruence].
    - split; [intros [<-|[]]; split; [discriminate|auto]|intros [_ ->]; auto]. }
  rewrite A, B. apply or_iff_compat_l, or_iff_compat_l. destruct (rq_known r) as [k|].
  - rewrite !in_app_iff. cbn [In].
    assert (D : In t (match rq_init r with Some w => [TellWeights w] | None => [] end) <-> exists w, rq_init r = Some w /\ t = TellWeights w).
    { destruct (rq_init r) as [w|]; cbn [In].
      - split; [intros [<-|[]]; eauto|intros (w' & E & ->); injection E as ->; auto].
      - split; [intros []|intros (w' & E & _); discriminate E]. }
    rewrite D. split.
    + intros [[X|[X|[X|[X|[X|[]]]]]]|[X|[X|[]]]]; exists k; (split; [reflexivity|]); try (symmetry in X); tauto.
    + intros (k' & E & X). injection E as <-. destruct X as [X|[X|[X|[X|[X|[X|X]]]]]]; try (symmetry in X); tauto.
  - cbn [In]. split; [intros []|intros (k & E & _); discriminate E].
Qed.

Lemma rising_tells O st (r : request O) : rising (map rank (tells st r)).
Proof.
  unfold tells. cbn [config_of c_gn c_debug]. destruct (pr_gn (st_params st)), (pr_verb (st_params st)), (rq_known r), (rq_init r), (gs_cost (st_gnc st));
    cbn; repeat split; lia.
Qed.

Theorem told O (l : list call) (W : soracles O) b h s r :
  run_on (config_of (st_params (settings_after l))) W h (solver_init b) = Val s -> In r (s_trace s) ->
  told_well l r (tells (settings_after l) r).
Proof.
  intros HR Hr. assert (A := all_asked _ _ _ _ HR). rewrite Forall_forall in A. specialize (A r Hr). clear HR Hr. unfold well_asked in A.
  cbn [config_of c_gnc c_bias] in A.
  pose proof (said (fun st => pr_gn (st_params st)) say_gn ltac:(intros st []; reflexivity) l) as H1.
  pose proof (said st_damping say_damping ltac:(intros st []; reflexivity) l) as H2.
  pose proof (said (fun st => pr_verb (st_params st)) say_verbosity ltac:(intros st []; reflexivity) l) as H3.
  pose proof (said (fun st => gs_iter (st_gnc st)) say_iterations ltac:(intros st []; reflexivity) l) as H4.
  pose proof (said (fun st => gs_mu (st_gnc st)) say_mu ltac:(intros st []; reflexivity) l) as H5.
  pose proof (said (fun st => gs_rel (st_gnc st)) say_rel ltac:(intros st []; reflexivity) l) as H6.
  pose proof (said (fun st => gs_wtol (st_gnc st)) say_wtol ltac:(intros st []; reflexivity) l) as H7.
  pose proof (said (fun st => (gs_cost (st_gnc st), gs_limit (st_gnc st))) say_bound ltac:(intros st []; reflexivity) l) as H8.
  pose proof (said (fun st => pr_bias (st_params st)) say_bias ltac:(intros st []; reflexivity) l) as H9.
  pose proof (@gnc_said l) as HG. revert H1 H2 H3 H4 H5 H6 H7 H8 H9 HG A.
  generalize (settings_after l) as st. intros st H1 H2 H3 H4 H5 H6 H7 H8 H9 HG A.
  exists (pr_gn (st_params st)), (st_damping st), (pr_verb (st_params st)), (gs_iter (st_gnc st)), (gs_mu (st_gnc st)),
    (gs_rel (st_gnc st)), (gs_wtol (st_gnc st)), (gs_cost (st_gnc st), gs_limit (st_gnc st)), (pr_bias (st_params st)).
  do 9 (split; [assumption|]). clear H1 H2 H3 H4 H5 H6 H7 H8 H9.
  split; [destruct (rq_known r); [intros _; apply HG, A|congruence]|]. split; [apply rising_tells|].
  pose proof (in_tells st r) as I. generalize dependent (tells st r). intros T I.
  assert (KN : rq_known r <> None <-> exists k, rq_known r = Some k).
  { destruct (rq_known r); split; [eauto|discriminate|congruence|intros (k & E); discriminate E]. }
  assert (IR : forall t, In t T -> (pr_gn (st_params st) = false /\ t = TellDamping (st_damping st)) \/
    (pr_verb (st_params st) <> VQuiet /\ t = TellVerbose (pr_gn (st_params st))) \/
    exists k, rq_known r = Some k /\ (t = TellKnown k \/ t = TellIterations (gs_iter (st_gnc st)) \/ t = TellMuStep (gs_mu (st_gnc st)) \/
     t = TellRelativeTol (gs_rel (st_gnc st)) \/ t = TellWeightsTol (gs_wtol (st_gnc st)) \/
     (exists w, rq_init r = Some w /\ t = TellWeights w) \/ (gs_cost (st_gnc st) = true /\ t = TellCost (gs_limit (st_gnc st))) \/
     (gs_cost (st_gnc st) = false /\ t = TellProbability (gs_limit (st_gnc st))))).
  { intros t Ht. apply I in Ht. destruct Ht as [Ht|[Ht|(k & Ek & Ht)]]; [tauto|tauto|]. right. right. exists k. split; auto.
    destruct (gs_cost (st_gnc st)); tauto. }
  Local Ltac pick IR H := apply IR in H; destruct H as [[? H]|[[? H]|(? & ? & [H|[H|[H|[H|[H|[(? & ? & H)|[[? H]|[? H]]]]]]]])]]; try discriminate H; injection H as ->.
  split; [intro x; split; [intro H; pick IR H; auto|intros [E ->]; apply I; auto]|].
  split; [intro x; split; [intro H; pick IR H; auto|intros [E ->]; apply I; auto]|].
  split; [intro x; split; [intro H; pick IR H; auto|intro E; apply I; right; right; exists x; auto]|].
  do 4 (split; [intro x; split; [intro H; pick IR H; split; [congruence|auto]|intros [E ->]; apply KN in E; destruct E as (k & E); apply I; right; right; exists k; tauto]|]).
  split; [intro x; split; [intro H; pick IR H; split; [congruence|f_equal; auto]|]|].
  { intros [E EB]. injection EB as EB <-. apply KN in E. destruct E as (k & E). apply I. right. right. exists k. rewrite EB. tauto. }
  split; [intro x; split; [intro H; pick IR H; split; [congruence|f_equal; auto]|]|].
  { intros [E EB]. injection EB as EB <-. apply KN in E. destruct E as (k & E). apply I. right. right. exists k. rewrite EB. tauto. }
  split.
  - intros w H. apply I in H. destruct H as [[_ H]|[[_ H]|(k & EK & H)]]; try discriminate H.
    destruct H as [H|[H|[H|[H|[H|[(w' & EI & H)|H]]]]]]; try discriminate H; [|destruct (gs_cost (st_gnc st)); discriminate H].
    injection H as <-. rewrite EK in A. destruct A as (_ & A1 & A2). destruct (pr_bias (st_params st)).
    + split; auto. destruct (A2 eq_refl) as (w' & E & M). rewrite EI in E. injection E as <-. eauto.
    + rewrite A1 in EI by auto. discriminate EI.
  - intros EB E. apply KN in E. destruct E as (k & EK). rewrite EK in A. destruct A as (_ & _ & A2). destruct (A2 EB) as (w & E & _).
    exists w. apply I. right. right. exists k. split; auto. do 5 right. left. eauto.
Qed.

(** ** Averages *)
Local Open Scope Qc_scope.

Lemma qc_plus_0 a b : 0 <= a -> 0 <= b -> 0 <= a + b.
Proof. intros A B. rewrite <- (Qcplus_0_l 0). apply Qcplus_le_compat; auto. Qed.
Lemma qc_plus_null a b : 0 <= a -> 0 <= b -> a + b <= 0 -> a <= 0 /\ b <= 0.
Proof.
  intros A B H. split.
  - apply Qcle_trans with (a + b); auto. rewrite <- (Qcplus_0_r a) at 1. apply Qcplus_le_compat; [apply Qcle_refl|auto].
  - apply Qcle_trans with (a + b); auto. rewrite <- (Qcplus_0_l b) at 1. apply Qcplus_le_compat; [auto|apply Qcle_refl].
Qed.
Lemma qsum_nonneg n : forall f : nat -> Qc, (forall i, (i < n)%nat -> 0 <= f i) -> 0 <= @ksum qs n f.
Proof.
  induction n as [|n IH]; intros f H; cbn [ksum]; [apply Qcle_refl|]. change (0 <= f O + @ksum qs n (fun i => f (S i))).
  apply qc_plus_0; [apply H; lia|]. apply IH. intros i Hi. apply H. lia.
Qed.
Lemma qsum_null n : forall f : nat -> Qc, (forall i, (i < n)%nat -> 0 <= f i) -> @ksum qs n f <= 0 -> forall i, (i < n)%nat -> f i <= 0.
Proof.
  induction n as [|n IH]; intros f H HS i Hi; [lia|]. cbn [ksum] in HS. change (f O + @ksum qs n (fun i => f (S i)) <= 0) in HS.
  apply qc_plus_null in HS; [|apply H; lia|apply qsum_nonneg; intros j Hj; apply H; lia]. destruct HS as [H0 HS].
  destruct i as [|i]; auto. apply (IH (fun i => f (S i))); auto; [intros j Hj; apply H|]; lia.
Qed.
Lemma qc_sq_null a : a * a <= 0 -> a = 0.
Proof. intro H. destruct (Qc_eq_dec a 0) as [|N]; auto. apply qc_sq_pos in N. exfalso. apply Qcle_not_lt in H. auto. Qed.

Fixpoint times (n : nat) (x : Qc) : Qc := match n with O => 0 | S m => x + times m x end.
Lemma times_nonneg n x : 0 <= x -> 0 <= times n x.
Proof. intro H. induction n; cbn; [apply Qcle_refl|apply qc_plus_0; auto]. Qed.
Lemma times_add n m x : times (n + m) x = times n x + times m x.
Proof. induction n as [|n IH]; cbn; [ring|]. rewrite IH. ring. Qed.
Lemma times_lt k m x : 0 < x -> (k < m)%nat -> times k x < times m x.
Proof.
  intros Hx H. replace m with (k + S (m - k - 1))%nat by lia. rewrite times_add. cbn [times].
  apply Qclt_minus_iff. replace (times k x + (x + times (m - k - 1) x) + - times k x) with (x + times (m - k - 1) x) by ring.
  apply qc_add_pos; auto. apply times_nonneg. apply Qclt_le_weak. auto.
Qed.

Section Averages.
Variable P : Type.
Variable comp : P -> P -> P.
Variable inv : P -> P.
Variable id : P.
Variable lg : P -> nat -> Qc.
Variable dim : nat.
Variable sg : nat -> Qc.
Hypothesis assoc : forall a b c, comp a (comp b c) = comp (comp a b) c.
Hypothesis id_l : forall a, comp id a = a.
Hypothesis inv_l : forall a, comp (inv a) a = id.
Hypothesis sharp : sharp_log lg dim id.
Hypothesis sg_ok : forall i, (i < dim)%nat -> sg i <> 0.

Notation away := (away comp inv lg dim sg).
Notation cost := (cost comp inv lg dim).

Lemma inv_same t x : comp (inv t) x = id -> t = x.
Proof.
  intro H. assert (R : comp t (inv t) = id).
  { rewrite <- (id_l (comp t (inv t))), <- (inv_l (inv t)). rewrite <- assoc. rewrite (assoc (inv t) t (inv t)), inv_l, id_l, inv_l. reflexivity. }
  assert (I : comp t id = t) by (rewrite <- (inv_l t), assoc, R; apply id_l).
  rewrite <- I, <- H, assoc, R. apply id_l.
Qed.

Lemma half_pos : 0 < Q2Qc (1 # 2).
Proof. reflexivity. Qed.
Lemma away_nonneg t x : 0 <= away t x.
Proof.
  unfold SettingsSpec.away. rewrite <- (Qcmult_0_l (Q2Qc (1 # 2))), (Qcmult_comm (Q2Qc (1 # 2))). apply Qcmult_le_compat_r; [|apply Qclt_le_weak, half_pos].
  apply qsum_nonneg. intros i _. apply qc_sq_nonneg.
Qed.
Lemma away_null t x : away t x <= 0 <-> t = x.
Proof.
  split.
  - intro H. apply inv_same. apply sharp. intros i Hi. unfold SettingsSpec.away in H.
    set (f := fun i => lg (comp (inv t) x) i / sg i * (lg (comp (inv t) x) i / sg i)) in H.
    assert (HS : @ksum qs dim f <= 0).
    { destruct (Qclt_le_dec 0 (@ksum qs dim f)) as [L|]; auto. exfalso. apply Qcle_not_lt in H. apply H. apply qc_mul_pos; auto. exact half_pos. }
    assert (HN : forall i, (i < dim)%nat -> 0 <= f i) by (intros j _; apply qc_sq_nonneg).
    pose proof (qsum_null f HN HS Hi) as E. apply qc_sq_null in E.
    assert (E' : lg (comp (inv t) x) i = lg (comp (inv t) x) i / sg i * sg i).
    { unfold Qcdiv. rewrite <- Qcmult_assoc, (Qcmult_comm (/ sg i)), Qcmult_inv_r by auto. symmetry. apply Qcmult_1_r. }
    rewrite E', E. apply Qcmult_0_l.
  - intros ->. unfold SettingsSpec.away. rewrite inv_l.
    assert (E : forall n, (n <= dim)%nat -> @ksum qs dim (fun i => lg id i / sg i * (lg id i / sg i)) = 0).
    { intros _ _. change (qsum dim (fun i => lg id i / sg i * (lg id i / sg i)) = 0). rewrite <- (qsum_0 dim). apply qsum_ext.
      intros i Hi. rewrite (proj2 (sharp id) eq_refl i Hi). unfold Qcdiv. change (Q2Qc 0) with 0. ring. }
    rewrite (E dim (le_n _)), Qcmult_0_r. apply Qcle_refl.
Qed.
Lemma away_same q : away q q = 0.
Proof. apply Qcle_antisym; [apply away_null; auto|apply away_nonneg]. Qed.

Variable lim : option Qc.
Hypothesis lim_ok : forall c, lim = Some c -> 0 < c.

Lemma capped_nonneg e : 0 <= e -> 0 <= capped lim e.
Proof. unfold capped. destruct lim as [c|]; auto. destruct (Qclt_le_dec c e); auto. intros _. apply Qclt_le_weak. auto. Qed.
Lemma capped_null e : capped lim e <= 0 -> e <= 0.
Proof.
  unfold capped. destruct lim as [c|]; auto. destruct (Qclt_le_dec c e); auto. intro H. exfalso. apply Qcle_not_lt in H. apply H. auto.
Qed.
Lemma capped_0 : capped lim 0 = 0.
Proof.
  unfold capped. destruct lim as [c|]; auto. destruct (Qclt_le_dec c 0) as [L|]; auto.
  exfalso. apply (Qclt_not_le _ _ L). apply Qclt_le_weak. auto.
Qed.

Lemma cost_cons x l t : cost lim sg (x :: l) t = capped lim (away t x) + cost lim sg l t.
Proof. reflexivity. Qed.
Lemma cost_nonneg ps t : 0 <= cost lim sg ps t.
Proof. induction ps; [apply Qcle_refl|]. rewrite cost_cons. apply qc_plus_0; auto. apply capped_nonneg, away_nonneg. Qed.
Lemma cost_same n q : cost lim sg (repeat q n) q = 0.
Proof. induction n as [|n IH]; cbn [repeat]; [reflexivity|]. rewrite cost_cons, IH, away_same, capped_0. ring. Qed.

Theorem agreeing n q t : (0 < n)%nat -> (forall u, cost lim sg (repeat q n) t <= cost lim sg (repeat q n) u) <-> t = q.
Proof.
  intro Hn. split.
  - intro H. specialize (H q). rewrite cost_same in H. destruct n as [|n]; [lia|]. cbn [repeat] in H. rewrite cost_cons in H.
    apply qc_plus_null in H; [|apply capped_nonneg, away_nonneg|apply cost_nonneg]. apply away_null, capped_null. tauto.
  - intros -> u. rewrite cost_same. apply cost_nonneg.
Qed.

Lemma cost_app l m t : cost lim sg (l ++ m) t = cost lim sg l t + cost lim sg m t.
Proof. induction l as [|x l IH]; [symmetry; apply Qcplus_0_l|]. rewrite <- app_comm_cons, (cost_cons x (l ++ m) t), (cost_cons x l t), IH. ring. Qed.
Lemma cost_perm l m t : Permutation l m -> cost lim sg l t = cost lim sg m t.
Proof. induction 1; rewrite ?cost_cons; [reflexivity|congruence|ring|congruence]. Qed.
Lemma cost_repeat n q t : cost lim sg (repeat q n) t = times n (capped lim (away t q)).
Proof. induction n as [|n IH]; cbn [repeat times]; [reflexivity|]. rewrite cost_cons, IH. reflexivity. Qed.
End Averages.

Section Robust.
Variable P : Type.
Variable comp : P -> P -> P.
Variable inv : P -> P.
Variable id : P.
Variable lg : P -> nat -> Qc.
Variable dim : nat.
Variable sg : nat -> Qc.
Hypothesis assoc : forall a b c, comp a (comp b c) = comp (comp a b) c.
Hypothesis id_l : forall a, comp id a = a.
Hypothesis inv_l : forall a, comp (inv a) a = id.
Hypothesis sharp : sharp_log lg dim id.
Hypothesis sg_ok : forall i, (i < dim)%nat -> sg i <> 0.
Variable c : Qc.
Hypothesis c_ok : 0 < c.

Notation away := (away comp inv lg dim sg).
Notation cost := (cost comp inv lg dim (Some c) sg).

Lemma capped_le e : capped (Some c) e <= c.
Proof. cbn. destruct (Qclt_le_dec c e); [apply Qcle_refl|auto]. Qed.
Lemma capped_above e : c <= e -> capped (Some c) e = c.
Proof. cbn. intro H. destruct (Qclt_le_dec c e); auto. apply Qcle_antisym; auto. Qed.
Lemma capped_below e : e <= c -> capped (Some c) e = e.
Proof. cbn. intro H. destruct (Qclt_le_dec c e) as [L|]; auto. exfalso. apply (Qclt_not_le _ _ L). auto. Qed.

Lemma cost_far l t : (forall x, In x l -> c <= away t x) -> cost l t = times (length l) c.
Proof.
  induction l as [|x l IH]; intro H; [reflexivity|]. cbn [length times]. rewrite <- IH by (intros; apply H; right; auto).
  cbn [SettingsSpec.cost fold_right]. rewrite capped_above; [reflexivity|apply H; left; auto].
Qed.

Theorem outliers_dropped ps q m outs t : Permutation ps (repeat q m ++ outs) -> (length outs < m)%nat ->
  (forall o, In o outs -> far comp inv lg dim sg c q o) ->
  (forall u, cost ps t <= cost ps u) <-> t = q.
Proof.
  intros HP HL HF.
  assert (LO : forall c0, Some c = Some c0 -> 0 < c0) by (intros c0 E; injection E as <-; auto).
  assert (S0 : away q q = 0) by (eapply away_same; eauto).
  assert (CQ : cost ps q = times (length outs) c).
  { rewrite (@cost_perm P comp inv lg dim sg (Some c) _ _ q HP), cost_app. erewrite cost_same; eauto. rewrite cost_far; [ring|].
    intros o Ho. destruct (HF o Ho q) as [H|H]; auto. exfalso. rewrite S0 in H. apply Qcle_not_lt in H. auto. }
  assert (LOW : forall u, cost ps q <= cost ps u /\ (cost ps u <= cost ps q -> u = q)).
  { intro u. rewrite CQ, (@cost_perm P comp inv lg dim sg (Some c) _ _ u HP), cost_app, cost_repeat.
    destruct (Qclt_le_dec (away u q) c) as [L|L].
    - rewrite cost_far; [|intros o Ho; destruct (HF o Ho u) as [H|H]; auto; exfalso; apply (Qclt_not_le _ _ L); auto].
      rewrite capped_below by (apply Qclt_le_weak; auto). split.
      + rewrite <- (Qcplus_0_l (times (length outs) c)) at 1. apply Qcplus_le_compat; [|apply Qcle_refl]. apply times_nonneg, away_nonneg.
      + intro H. eapply away_null; eauto. destruct m as [|m]; [lia|].
        destruct (Qclt_le_dec 0 (away u q)) as [L'|]; auto. exfalso.
        assert (X : times 0 (away u q) < times (S m) (away u q)) by (apply times_lt; auto; lia).
        apply (Qclt_not_le _ _ X). cbn [times] in *.
        apply (Qcplus_le_compat _ _ (- times (length outs) c) (- times (length outs) c)) in H; [|apply Qcle_refl].
        rewrite Qcplus_opp_r in H. rewrite <- Qcplus_assoc, Qcplus_opp_r, Qcplus_0_r in H. exact H.
    - rewrite capped_above by auto. assert (X := times_lt c_ok HL).
      assert (Y : times m c <= times m c + cost outs u).
      { rewrite <- (Qcplus_0_r (times m c)) at 1. apply Qcplus_le_compat; [apply Qcle_refl|]. apply cost_nonneg. exact LO. }
      split; [apply Qclt_le_weak, Qclt_le_trans with (times m c); auto|]. intro H. exfalso.
      apply (Qclt_not_le _ _ X). apply Qcle_trans with (times m c + cost outs u); auto. }
  split; [intro H; apply LOW, H|intros -> u; apply LOW].
Qed.
End Robust.
