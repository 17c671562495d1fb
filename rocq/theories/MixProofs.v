(** * How the factors of a call are mixed does not matter *)
From Coq Require Import QArith Lia.
From Verif Require Import Prelude Keys KMap UMap Geometry Factors Clique Pcm Solver PcmSpec PcmProofs HistSpec LogsProofs MixSpec.
Set Implicit Arguments.
Local Open Scope nat_scope.

Lemma same_end_refl S A (x : outcome S A) : same_end x x.
Proof. destruct x; cbn [same_end]; auto. Qed.
Lemma same_end_bind S A B (x y : outcome S A) (k : S -> A -> outcome S B) : same_end x y -> same_end (obind x k) (obind y k).
Proof.
  destruct x as [s a|s e|u], y as [s' a'|s' e'|u']; cbn [same_end obind]; intro H; try destruct H; subst; auto. apply same_end_refl.
Qed.
Lemma same_end_trans S A (x y z : outcome S A) : same_end x y -> same_end y z -> same_end x z.
Proof. destruct x, y; cbn [same_end]; try tauto; destruct z; cbn [same_end]; try tauto; intuition congruence. Qed.
Lemma same_end_sym S A (x y : outcome S A) : same_end x y -> same_end y x.
Proof. destruct x, y; cbn [same_end]; intuition congruence. Qed.

Section M.
Variable O : tops.
Variable C : config.
Variable W : soracles O.
Notation bf := (bf O).
Notation factor := (factor O).
Notation values := (values O).
Notation graph_t := (graph_t O).
Notation solver := (solver O).
Notation op := (op O).
Notation pcm := (pcm O).
Notation sp := (c_special C).

Fixpoint odo_all (vals : values) (l : list bf) (p : pcm) : outcome pcm unit :=
  match l with [] => Ok p tt | b :: l' => obind (update_odom vals b p) (fun p' _ => odo_all vals l' p') end.
Definition first_all (l : list bf) (p : pcm) : pcm := fold_left (fun p b => first_landmark C b p) l p.
Definition plus_special (l : list factor) (p : pcm) : pcm := set_special p (p_special p ++ l).

Lemma odo_first vals b x (p : pcm) : update_odom vals b (first_landmark C x p) = omap (first_landmark C x) (update_odom vals b p).
Proof.
  unfold update_odom. destruct (t_of O b); auto. cbn [first_landmark set_total set_lms set_odom p_trajs p_odom].
  destruct (ufind N.eqb (chr (b_to b)) (p_trajs p)); cbn [obind omap]; [reflexivity|].
  destruct (kfind (b_from b) vals) as [[y|y]|]; cbn [obind omap]; reflexivity.
Qed.
Lemma odo_special vals b l (p : pcm) : update_odom vals b (plus_special l p) = omap (plus_special l) (update_odom vals b p).
Proof.
  unfold update_odom, plus_special. destruct (t_of O b); auto. cbn [set_special set_odom p_trajs p_odom p_special].
  destruct (ufind N.eqb (chr (b_to b)) (p_trajs p)); cbn [obind omap]; [reflexivity|].
  destruct (kfind (b_from b) vals) as [[y|y]|]; cbn [obind omap]; reflexivity.
Qed.
Lemma odos_first vals x l : forall p : pcm, odo_all vals l (first_landmark C x p) = omap (first_landmark C x) (odo_all vals l p).
Proof.
  induction l as [|b l IH]; intro p; cbn [odo_all]; [reflexivity|]. rewrite odo_first.
  destruct (update_odom vals b p) as [p1 y|p1 e|u]; cbn [omap obind]; auto.
Qed.
Lemma odos_special vals m l : forall p : pcm, odo_all vals l (plus_special m p) = omap (plus_special m) (odo_all vals l p).
Proof.
  induction l as [|b l IH]; intro p; cbn [odo_all]; [reflexivity|]. rewrite odo_special.
  destruct (update_odom vals b p) as [p1 y|p1 e|u]; cbn [omap obind]; auto.
Qed.
Lemma firsts_special m l : forall p : pcm, first_all l (plus_special m p) = plus_special m (first_all l p).
Proof. induction l as [|b l IH]; intro p; cbn [first_all fold_left]; [reflexivity|]. rewrite <- IH. reflexivity. Qed.
Lemma specials_app m l (p : pcm) : plus_special l (plus_special m p) = plus_special (m ++ l) p.
Proof. unfold plus_special. cbn [set_special p_special]. rewrite app_assoc. reflexivity. Qed.

Definition sorted_out (nv vals : values) (fs : graph_t) (p : pcm) (acc : list bf * bool) : outcome pcm (list bf * bool) :=
  obind (odo_all vals (filter (sp_odometry sp nv) (betweens fs)) p) (fun p' _ =>
    Ok (plus_special (others fs) (first_all (filter (sp_first sp nv) (betweens fs)) p'))
       (fst acc ++ filter (sp_candidate sp nv) (betweens fs), snd acc || negb (length (others fs) =? 0))).

Lemma plus_nothing (p : pcm) : plus_special [] p = p.
Proof. destruct p as [a1 a2 a3 a4 a5 a6 a7 a8 a9 a10]. unfold plus_special, set_special. cbn [p_special p_odom p_lcs p_trajs p_lms p_order p_total p_good p_ignored p_robots]. rewrite app_nil_r. reflexivity. Qed.

Lemma sorted_other nv vals x fs (p : pcm) acc : (forall b, x <> FBetween b) ->
  same_end (sorted_out nv vals fs (set_special p (p_special p ++ [x])) (fst acc, true)) (sorted_out nv vals (Some x :: fs) p acc).
Proof.
  intro H. unfold sorted_out. assert (B : betweens (Some x :: fs) = betweens fs) by (destruct x; auto; elim (H b); auto).
  assert (R : others (Some x :: fs) = x :: others fs) by (destruct x; auto; elim (H b); auto). rewrite B, R.
  change (set_special p (p_special p ++ [x])) with (plus_special [x] p). rewrite odos_special.
  destruct (odo_all vals (filter (sp_odometry sp nv) (betweens fs)) p) as [p1 y|p1 e|u]; cbn [omap obind same_end]; auto.
  cbn [fst snd length Nat.eqb negb orb]. rewrite orb_true_r. split; auto. rewrite firsts_special, specials_app. reflexivity.
Qed.

Lemma proc_sorted nv vals fs : forall (p : pcm) acc, same_end (proc_factors C nv vals fs p acc) (sorted_out nv vals fs p acc).
Proof.
  induction fs as [|of fs IH]; intros p acc.
  { cbn [proc_factors]. unfold sorted_out. cbn [betweens others flat_map filter odo_all obind first_all fold_left same_end].
    rewrite plus_nothing, app_nil_r, orb_false_r. destruct acc; auto. }
  cbn [proc_factors]. destruct of as [x|]; [|cbn [proc_factor obind]; apply IH].
  destruct x as [b|k y|k y|ks t].
  2-4: cbn [proc_factor classify obind]; eapply same_end_trans; [apply IH|]; apply sorted_other; intros b X; discriminate X.
  unfold proc_factor. rewrite classify_spec.
  assert (BT : betweens (Some (FBetween b) :: fs) = b :: betweens fs) by reflexivity.
  assert (OT : others (Some (FBetween b) :: fs) = others fs) by reflexivity.
  unfold sorted_out. rewrite BT, OT. cbn [filter].
  destruct (sp_first sp nv b) eqn:F.
  - assert (D : sp_odometry sp nv b = false) by (apply (first_not_odometry C); auto).
    assert (K : sp_candidate sp nv b = false) by (unfold sp_candidate; rewrite F, D; auto).
    rewrite D, K. cbn [obind first_all fold_left]. eapply same_end_trans; [apply IH|]. unfold sorted_out. rewrite odos_first.
    destruct (odo_all vals (filter (sp_odometry sp nv) (betweens fs)) p) as [p1 y|p1 e|u]; cbn [omap obind same_end]; auto.
  - destruct (sp_odometry sp nv b) eqn:D.
    + assert (K : sp_candidate sp nv b = false) by (unfold sp_candidate; rewrite D; auto). rewrite K. cbn [odo_all].
      destruct (update_odom vals b p) as [p1 y|p1 e|u]; cbn [obind same_end]; auto. apply IH.
    + assert (K : sp_candidate sp nv b = negb (b_from b =? b_to b)%N) by (unfold sp_candidate; rewrite F, D; auto). rewrite K.
      destruct (b_from b =? b_to b)%N; cbn [negb obind].
      * apply IH.
      * eapply same_end_trans; [apply IH|]. unfold sorted_out. cbn [fst snd].
        destruct (odo_all vals (filter (sp_odometry sp nv) (betweens fs)) p) as [p1 y|p1 e|u]; cbn [obind same_end]; auto.
        rewrite <- app_assoc. auto.
Qed.
Lemma proc_mixed nv vals (fs fs' : graph_t) p acc : remixed sp nv fs fs' ->
  same_end (proc_factors C nv vals fs p acc) (proc_factors C nv vals fs' p acc).
Proof.
  intros [E1 E2 E3 E4 E5]. eapply same_end_trans; [apply proc_sorted|]. eapply same_end_trans; [|apply same_end_sym, proc_sorted].
  unfold sorted_out. rewrite E2, E3, E4, E5. apply same_end_refl.
Qed.
Lemma removal_mixed nv (fs fs' : graph_t) (st : pst O) : remixed sp nv fs fs' ->
  same_end (remove_outliers C (so_pcm W) fs nv st) (remove_outliers C (so_pcm W) fs' nv st).
Proof.
  intro R. unfold remove_outliers. destruct (vinsert_all nv (ps_vals st)) as [v z|v e|u]; cbn [same_end]; auto.
  destruct fs as [|x fs], fs' as [|x' fs'].
  - apply same_end_refl.
  - destruct (rm_empty R) as [A _]. discriminate (A eq_refl).
  - destruct (rm_empty R) as [_ A]. discriminate (A eq_refl).
  - pose proof (proc_mixed v (ps_pcm st) ([], false) R) as P.
    destruct (proc_factors C nv v (x :: fs) (ps_pcm st) ([], false)) as [p1 a|p1 e|u],
      (proc_factors C nv v (x' :: fs') (ps_pcm st) ([], false)) as [p2 a'|p2 e'|u']; cbn [same_end] in P; try destruct P; subst; cbn [same_end]; auto.
    apply same_end_refl.
Qed.
Lemma ingest_mixed nv (fs fs' : graph_t) (s : solver) p : s_pcm s = Some p -> remixed sp nv fs fs' -> same_end (ingest C W fs nv s) (ingest C W fs' nv s).
Proof.
  intros P R. unfold ingest. rewrite P. unfold run_pcm. pose proof (removal_mixed (PSt p (s_nfg s) (s_vals s)) R) as X.
  destruct (remove_outliers C (so_pcm W) fs nv _) as [a b|a e|u], (remove_outliers C (so_pcm W) fs' nv _) as [a' b'|a' e'|u'];
    cbn [same_end] in *; auto; try destruct X; subst; auto.
Qed.
Lemma step_mixed o o' (s : solver) p : s_pcm s = Some p -> remixed_op sp o o' -> same_end (step C W o s) (step C W o' s).
Proof.
  intros P R. destruct o as [fs vs opt|fs vs|c opt|x y| |c|c|fs vs|fs vs|], o' as [fs' vs' opt'|fs' vs'|c' opt'|x' y'| |c'|c'|fs' vs'|fs' vs'|];
    cbn [remixed_op] in R; try discriminate R; try (rewrite R; apply same_end_refl); try apply same_end_refl.
  - destruct R as (<- & <- & R). cbn [step]. unfold no_ret, update. do 2 apply same_end_bind. apply (ingest_mixed _ P R).
  - destruct R as (<- & R). cbn [step]. unfold no_ret, force_update. do 2 apply same_end_bind. apply (ingest_mixed _ P R).
Qed.
Lemma run_mixed h h' : Forall2 (remixed_op sp) h h' -> forall s : solver, s_pcm s <> None -> same_end (run C W h s) (run C W h' s).
Proof.
  induction 1 as [|o o' h h' R _ IH]; intros s P; cbn [run]; [apply same_end_refl|].
  destruct (s_pcm s) as [p|] eqn:E; [|elim P; auto]. pose proof (step_mixed o o' s E R) as X.
  assert (Y := @step_has_pcm O C W o s). rewrite E in Y. specialize (Y P).
  destruct (step C W o s) as [s1 r|s1 e|u], (step C W o' s) as [s2 r2|s2 e2|u2]; cbn [same_end] in X; try destruct X; subst; cbn [obind].
  - apply same_end_bind. apply IH. exact Y.
  - reflexivity.
  - reflexivity.
Qed.
Theorem mixing h h' : Forall2 (remixed_op sp) h h' -> same_end (run C W h (solver_init true)) (run C W h' (solver_init true)).
Proof. intro R. apply run_mixed; auto. discriminate. Qed.
End M.
