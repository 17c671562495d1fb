(** * Without outlier rejection: which calls are undefined *)
From Coq Require Import QArith Lia.
From Verif Require Import Prelude Keys KMap UMap Geometry Factors Clique Pcm Solver ValuesProofs NoneSpec.
Set Implicit Arguments.
Local Open Scope nat_scope.

Section N.
Variable O : tops.
Variable C : config.
Variable W : soracles O.
Notation values := (values O).
Notation graph_t := (graph_t O).
Notation solver := (solver O).
Notation op := (op O).

Definition bare_solver (s : solver) : Prop := s_pcm s = None /\ s_latest s = 0.
Definition never {A} (x : outcome solver A) : Prop := forall u, x <> Undef u.
Definition stays {A} (x : outcome solver A) : Prop :=
  match x with Ok s _ | Throw s _ => bare_solver s | Undef _ => True end.
Definition fails {A} (x : outcome solver A) : Prop := forall s a, x <> Ok s a.

Lemma never_bind A B (x : outcome solver A) (k : solver -> A -> outcome solver B) : stays x -> never x ->
  (forall s a, x = Ok s a -> bare_solver s -> never (k s a)) -> never (obind x k).
Proof.
  destruct x as [s a|s e|u]; cbn [obind stays]; intros H N0 K.
  - eapply K; eauto.
  - intros u H'. discriminate H'.
  - elim (N0 u). auto.
Qed.
Lemma stays_bind A B (x : outcome solver A) (k : solver -> A -> outcome solver B) : stays x ->
  (forall s a, bare_solver s -> stays (k s a)) -> stays (obind x k).
Proof. destruct x as [s a|s e|u]; cbn [obind stays]; auto. Qed.
Lemma fails_bind_l A B (x : outcome solver A) (k : solver -> A -> outcome solver B) : fails x -> fails (obind x k).
Proof. destruct x as [s a|s e|u]; cbn [obind]; intros H s' b; try discriminate. elim (H s a). auto. Qed.
Lemma fails_bind_r A B (x : outcome solver A) (k : solver -> A -> outcome solver B) : stays x ->
  (forall s a, x = Ok s a -> bare_solver s -> fails (k s a)) -> fails (obind x k).
Proof. destruct x as [s a|s e|u]; cbn [obind stays]; intros H K s' b; try discriminate. apply K; auto. Qed.

Lemma update_values_defined (r : values) : forall st u, update_values r st <> Undef u.
Proof.
  induction r as [|[k v] r IH]; intros st u; cbn [update_values]; [discriminate|].
  destruct (kfind k (fst st)) as [v0|]; [destruct (same_type v0 v); [apply IH|discriminate]|].
  destruct (kfind k (snd st)) as [v0|]; [destruct (same_type v0 v); [apply IH|discriminate]|apply IH].
Qed.
Lemma finish_stays r (s : solver) : bare_solver s -> stays (finish r s).
Proof.
  intros [P L]. unfold finish. destruct (update_values r (s_vals s, s_tvals s)) as [[v tv] ?|[v tv] e|u]; cbn [stays]; auto.
  - rewrite P. split; [exact P|exact L].
  - split; [exact P|exact L].
Qed.
Lemma finish_never r (s : solver) : never (finish r s).
Proof.
  unfold finish. intro u. destruct (update_values r (s_vals s, s_tvals s)) as [[v tv] ?|[v tv] e|u'] eqn:E; try discriminate.
  elim (@update_values_defined r (s_vals s, s_tvals s) u'). auto.
Qed.

Lemma optimize_bare (s : solver) : bare_solver s ->
  stays (optimize C W s) /\ (optimising_hurts C -> fails (optimize C W s)) /\ (~ optimising_hurts C -> never (optimize C W s)).
Proof.
  intros B. pose proof B as [P L]. unfold optimize, gnc_branch, fixed_graph. rewrite P.
  destruct (vinsert_all (s_tvals s) (s_vals s)) as [full x|v e|u] eqn:E.
  2:{ cbn [stays]. repeat split; auto; intros; intro; discriminate. }
  2:{ elim (@vinsert_all_not_undef O (s_tvals s) (s_vals s) u). auto. }
  unfold optimising_hurts. destruct (c_fix C) eqn:FX; cbn [obind].
  { cbn [stays]. split; [exact I|]. split; [intros _ s' a; discriminate|intro H; elim H; auto]. }
  unfold call_opt. destruct (so_opt W (s_trace s) _) as [a|]; cbn [obind].
  2:{ cbn [stays]. split; [split; auto|]. split; [intros _ s' b; discriminate|intros _ u; discriminate]. }
  rewrite L. cbn [Nat.ltb Nat.leb]. replace (length (s_w s) <? 0) with false by reflexivity. replace (length (s_nfg s) <? 0) with false by reflexivity.
  destruct (c_debug C), (c_gn C); cbn [andb negb].
  2:{ cbn [stays]. split; [exact I|]. split; [intros _ s' b; discriminate|intro H; elim H; auto]. }
  all: split; [apply finish_stays; split; auto|]; split; [intros [H|[H1 H2]]; discriminate|intros _; apply finish_never].
Qed.
Lemma add_stays fs vs (s : solver) : bare_solver s -> stays (add_and_check fs vs s).
Proof.
  intros [P L]. unfold add_and_check. destruct (vinsert_all vs _); cbn [stays]; auto; [|split; auto].
  destruct fs as [|[f|] [|y fs]]; cbn [stays]; auto; split; auto.
Qed.
Lemma add_never fs vs (s : solver) : fs <> [None] -> never (add_and_check fs vs s).
Proof.
  intros H u. unfold add_and_check. destruct (vinsert_all vs _) as [v x|v e|u'] eqn:E; try discriminate.
  - destruct fs as [|[f|] [|y fs]]; try discriminate. elim H. auto.
  - elim (@vinsert_all_not_undef O _ _ _ E).
Qed.
Lemma add_null vs (s : solver) : fails (add_and_check [None] vs s).
Proof. intros s' b. unfold add_and_check. destruct (vinsert_all vs _); discriminate. Qed.
Lemma add_asks fs vs (s s' : solver) b : add_and_check fs vs s = Ok s' b -> (b = true <-> asks fs vs).
Proof.
  unfold add_and_check. destruct (vinsert_all vs _); try discriminate.
  destruct fs as [|[f|] [|y fs]]; intro H; try discriminate H; injection H as _ <-; cbn [asks]; try tauto.
  - destruct vs; cbn [length Nat.eqb negb]; split; intro H; congruence.
  - rewrite negb_true_iff, andb_false_iff, !Nat.eqb_neq. split; [intros [X|X] [Y Z]; congruence|].
    intro X. destruct (Nat.eq_dec (length (f_keys f)) 2); [right; intro; apply X; auto|auto].
Qed.
Lemma log_bare (s : solver) : bare_solver s -> stays (log_status C s) /\ (c_log C = true -> fails (log_status C s)) /\
  (c_log C = false -> never (log_status C s)).
Proof.
  intros B. pose proof B as [P L]. unfold log_status. rewrite P. destruct (c_log C); cbn [stays]; repeat split; auto; intros; try discriminate;
  intro; discriminate.
Qed.
Lemma pop_bare (s : solver) : bare_solver s -> stays (remove_last_factor s) /\
  (nothing_to_pop (s_nfg s) -> fails (remove_last_factor s)) /\ (~ nothing_to_pop (s_nfg s) -> never (remove_last_factor s)).
Proof.
  intros B. unfold remove_last_factor, nothing_to_pop. pose proof (rev_involutive (s_nfg s)) as R. destruct (rev (s_nfg s)) as [|[f|] g].
  - cbn [stays]. split; [exact I|]. split; [intros _ s' a; discriminate|]. intros H u. exfalso. apply H. intros (g' & f & k & ks & X & _).
    cbn [rev] in R. rewrite <- R in X. destruct g'; discriminate X.
  - destruct (f_keys f) as [|k ks] eqn:K.
    + cbn [stays]. split; [exact I|]. split; [intros _ s' a; discriminate|]. intros H u. exfalso. apply H. intros (g' & f' & k & ks & X & Y).
      cbn [rev] in R. rewrite <- R in X. apply app_inj_tail in X. destruct X as [_ X]. injection X as <-. congruence.
    + cbn [stays]. split; [split; apply B|]. split; [|intros _ u; discriminate]. intros H. exfalso. apply H. exists (rev g), f, k, ks. auto.
  - cbn [stays]. split; [exact I|]. split; [intros _ s' a; discriminate|]. intros H u. exfalso. apply H. intros (g' & f' & k & ks & X & Y).
    cbn [rev] in R. rewrite <- R in X. apply app_inj_tail in X. destruct X as [_ X]. discriminate X.
Qed.
Lemma temp_stays fs vs (s : solver) : bare_solver s -> stays (temp_update fs vs s) /\ never (temp_update fs vs s).
Proof.
  intros [P L]. unfold temp_update. destruct (vinsert_all vs (s_tvals s)) as [v x|v e|u] eqn:E.
  - split; [split; auto|intro; discriminate].
  - split; [split; auto|intro; discriminate].
  - elim (@vinsert_all_not_undef O vs (s_tvals s) u). auto.
Qed.
Definition verdict {A} (x : outcome solver A) (H : Prop) : Prop := stays x /\ (H -> fails x) /\ (~ H -> never x).
Lemma verdict_ret A B (x : outcome solver A) (g : A -> B) H : verdict x H -> verdict (obind x (fun s a => Ok s (g a))) H.
Proof.
  intros (S1 & F & N0). split; [apply stays_bind; auto|]. split; intro X; [apply fails_bind_l; auto|].
  apply never_bind; auto. intros s a _ _ u. discriminate.
Qed.
Lemma hurts_dec : optimising_hurts C \/ ~ optimising_hurts C.
Proof.
  unfold optimising_hurts. destruct (c_fix C), (c_debug C), (c_gn C); try (left; auto; fail); right; intros [H|[H1 H2]]; discriminate.
Qed.
Lemma hazard_step o (s : solver) : bare_solver s -> verdict (step C W o s) (hazard C o s).
Proof.
  intro B. pose proof B as [P L]. destruct o as [fs vs opt|fs vs|c opt|x y| |c|c|fs vs|fs vs|]; cbn [step hazard].
  - apply (verdict_ret (fun _ => None)). unfold update, ingest. rewrite P.
    assert (T : forall (s1 : solver) b, bare_solver s1 ->
      verdict (obind (if b && opt then optimize C W s1 else Ok s1 tt) (fun s2 _ => if opt then log_status C s2 else Ok s2 tt))
        (opt = true /\ (c_log C = true \/ (b = true /\ optimising_hurts C)))).
    { intros s1 b B1. destruct opt; rewrite ?andb_false_r, ?andb_true_r.
      2:{ cbn [obind]. split; [exact B1|]. split; [intros [X _]; discriminate X|intros _ u; discriminate]. }
      destruct (optimize_bare B1) as (O1 & O2 & O3).
      assert (S1 : stays (if b then optimize C W s1 else Ok s1 tt)) by (destruct b; auto).
      split; [apply stays_bind; auto; intros; apply log_bare; auto|]. split.
      - intros [_ [X|[X1 X2]]].
        + apply fails_bind_r; auto. intros s2 a _ B2. apply log_bare; auto.
        + subst b. apply fails_bind_l. auto.
      - intro X. apply never_bind; auto.
        + destruct b; [apply O3; intro; apply X; auto|intro; discriminate].
        + intros s2 a _ B2. apply log_bare; auto. apply not_true_iff_false. intro Y. apply X. auto. }
    split; [apply stays_bind; [apply add_stays; auto|]; intros; apply T; auto|]. split.
    + intros [->|[X Y]]; [apply fails_bind_l, add_null|].
      apply fails_bind_r; [apply add_stays; auto|]. intros s1 b E B1. apply (T s1 b B1). split; auto.
      destruct Y as [Y|[Y1 Y2]]; auto. right. split; auto. eapply add_asks; eauto.
    + intro X. apply never_bind; [apply add_stays; auto|apply add_never; auto|].
      intros s1 b E B1. apply (T s1 b B1). intros [Y Z]. apply X. right. split; auto. destruct Z as [Z|[Z1 Z2]]; auto.
      right. split; auto. eapply add_asks; eauto.
  - apply (verdict_ret (fun _ => None)). unfold force_update, ingest. rewrite P.
    assert (T : forall (s1 : solver), bare_solver s1 ->
      verdict (obind (optimize C W s1) (fun s2 _ => log_status C s2)) (c_log C = true \/ optimising_hurts C)).
    { intros s1 B1. destruct (optimize_bare B1) as (O1 & O2 & O3).
      split; [apply stays_bind; auto; intros; apply log_bare; auto|]. split.
      - intros [X|X]; [|apply fails_bind_l; auto]. apply fails_bind_r; auto. intros s2 a _ B2. apply log_bare; auto.
      - intro X. apply never_bind; auto. intros s2 a _ B2. apply log_bare; auto. apply not_true_iff_false. intro Y. apply X. auto. }
    split; [apply stays_bind; [apply add_stays; auto|]; intros; apply T; auto|]. split.
    + intros [->|X]; [apply fails_bind_l, add_null|]. apply fails_bind_r; [apply add_stays; auto|]. intros s1 b E B1. apply (T s1 B1). auto.
    + intro X. apply never_bind; [apply add_stays; auto|apply add_never; auto|]. intros s1 b E B1. apply (T s1 B1). auto.
  - apply (verdict_ret (fun _ => None)). unfold remove_priors. rewrite P.
    assert (B1 : bare_solver (set_nfg s (filter (keep_prior (O := O) c) (s_nfg s)))) by (split; auto).
    destruct opt.
    + destruct (optimize_bare B1) as (O1 & O2 & O3). split; [auto|]. split; [intros [_ X]; auto|]. intro X. apply O3. intro Y. apply X. auto.
    + split; [exact B1|]. split; [intros [X _]; discriminate X|intros _ u; discriminate].
  - apply (verdict_ret Some). unfold remove_last_id. rewrite P. destruct (pop_bare B) as (P1 & P2 & P3).
    assert (T : forall s1 (e : option (key * key)), bare_solver s1 -> verdict (obind (optimize C W s1) (fun s2 _ => Ok s2 e)) (optimising_hurts C)).
    { intros s1 e B1. apply (verdict_ret (fun _ : unit => e)). apply optimize_bare; auto. }
    split; [apply stays_bind; auto; intros; apply T; auto|]. split.
    + intros [X|X]; [apply fails_bind_l; auto|]. apply fails_bind_r; auto. intros s1 e _ B1. apply (T s1 e B1). auto.
    + intro X. apply never_bind; auto. intros s1 e _ B1. apply (T s1 e B1). auto.
  - apply (verdict_ret Some). unfold remove_last. rewrite P. destruct (pop_bare B) as (P1 & P2 & P3).
    assert (T : forall s1 (e : option (key * key)), bare_solver s1 -> verdict (obind (optimize C W s1) (fun s2 _ => Ok s2 e)) (optimising_hurts C)).
    { intros s1 e B1. apply (verdict_ret (fun _ : unit => e)). apply optimize_bare; auto. }
    split; [apply stays_bind; auto; intros; apply T; auto|]. split.
    + intros [X|X]; [apply fails_bind_l; auto|]. apply fails_bind_r; auto. intros s1 e _ B1. apply (T s1 e B1). auto.
    + intro X. apply never_bind; auto. intros s1 e _ B1. apply (T s1 e B1). auto.
  - apply (verdict_ret (fun _ => None)). unfold ignore_prefix, with_pcm. rewrite P. apply optimize_bare; auto.
  - apply (verdict_ret (fun _ => None)). unfold revive_prefix, with_pcm. rewrite P. apply optimize_bare; auto.
  - apply (verdict_ret (fun _ => None)). destruct (temp_stays fs vs B) as [T1 T2]. split; auto. split; auto. intros [].
  - apply (verdict_ret (fun _ => None)). split; [split; auto|]. split; [intros []|intros _ u; discriminate].
  - apply (verdict_ret (fun _ => None)). split; [split; auto|]. split; [intros []|intros _ u; discriminate].
Qed.
Lemma run_on_bare h : forall s s' : solver, bare_solver s -> run_on C W h s = Val s' -> bare_solver s'.
Proof.
  induction h as [|o h IH]; intros s s' B H; cbn [run_on] in H; [injection H as <-; auto|].
  destruct (hazard_step o B) as [S1 _]. destruct (step C W o s) as [s1 r|s1 e|u]; cbn [stays] in S1; [| |discriminate H]; eapply IH; eauto.
Qed.
Theorem none_exact h o (s : solver) : run_on C W h (solver_init false) = Val s ->
  (hazard C o s -> forall s' r, step C W o s <> Ok s' r) /\ (~ hazard C o s -> forall u, step C W o s <> Undef u).
Proof.
  intro H. apply run_on_bare in H; [|split; reflexivity]. destruct (hazard_step o H) as (_ & A & B). split; auto.
Qed.
Lemma none_getters h (s : solver) : run_on C W h (solver_init false) = Val s ->
  get_num_lc s = Bad NullDeref /\ (get_num_inliers C s = Bad NullDeref <-> c_gnc C = false).
Proof.
  intro H. apply run_on_bare in H; [|split; reflexivity]. destruct H as [P _]. unfold get_num_lc, get_num_inliers. rewrite P.
  split; auto. destruct (c_gnc C); split; intro X; congruence.
Qed.
End N.
