(** * Proofs of C08, C09, C10, C18, C27 *)
From Coq Require Import QArith.
From Verif Require Import Prelude Keys KMap UMap Geometry Factors Clique Pcm Solver ValuesProofs
  PcmSpec PcmProofs PcmInv PcmStore HistSpec SolverProofs HistProofs PlainProofs.
Set Implicit Arguments.
Local Open Scope nat_scope.

Section G.
Variable O : tops.
Variable C : config.
Variable W : soracles O.
Notation bf := (bf O).
Notation factor := (factor O).
Notation pcm := (pcm O).
Notation solver := (solver O).
Notation op := (op O).
Notation sp := (c_special C).

Lemma graph_split (h : list op) (s : solver) (p : pcm) : hist_inv C W h s p ->
  s_nfg s = map Some (map FBetween (sp_odoms sp h) ++ sp_others h ++
     map FBetween (build_lcs (so_pcm W) p ++ build_lms (so_pcm W) p)).
Proof.
  intros I. rewrite (hi_nfg I). unfold graph_of, build. rewrite (hi_odom I), (hi_special I), (map_app _ (build_lcs (so_pcm W) p)). auto.
Qed.

Lemma c08 h (s : solver) rs : run C W h (solver_init true) = Ok s rs ->
  exists tail, s_nfg s = map Some (map FBetween (sp_odoms sp h) ++ sp_others h ++ map FBetween tail).
Proof. intro H. destruct (hist_run _ _ _ H) as [p I]. rewrite (graph_split I). eauto. Qed.

Lemma sp_odoms_delivered h b : In b (sp_odoms (O := O) sp h) -> delivered h (FBetween b).
Proof.
  unfold sp_odoms. rewrite in_flat_map. intros (o & Ho & Hb).
  destruct (call_of o) as [[fs vs]|] eqn:E; [|destruct Hb].
  apply filter_In in Hb. exists o, fs, vs. split; auto. split; auto. apply In_betweens. tauto.
Qed.

Lemma sp_others_delivered h (f : factor) : In f (sp_others h) -> delivered h f.
Proof.
  induction h as [|o h IH] using rev_ind; [intros []|]. rewrite sp_others_snoc.
  assert (GO : In f (sp_others h) -> delivered (h ++ [o]) f) by (intro; apply delivered_snoc; auto).
  destruct o as [fs vs opt|fs vs|c opt|a0 b0| |c|c|fs vs|fs vs|]; cbn [sp_others_step]; auto; intro Hin.
  - apply in_app_or in Hin. destruct Hin as [Hin|Hin]; auto. apply In_others in Hin.
    exists (OpUpdate fs vs opt), fs, vs. split; [apply in_or_app; right; left; auto|auto].
  - apply in_app_or in Hin. destruct Hin as [Hin|Hin]; auto. apply In_others in Hin.
    exists (OpForce fs vs), fs, vs. split; [apply in_or_app; right; left; auto|auto].
  - apply filter_In in Hin. tauto.
Qed.

Lemma entered_delivered h b : entered C W h b -> delivered h (FBetween b).
Proof.
  intros (h1 & o & h2 & fs & vs & s1 & p1 & rs & -> & Hc & Hin & _).
  exists o, fs, vs. split; auto. apply in_or_app. right; left; auto.
Qed.

Lemma c10 h (s : solver) rs : run C W h (solver_init true) = Ok s rs ->
  exists lcs lms,
    s_nfg s = map Some (map FBetween (sp_odoms sp h) ++ sp_others h ++ map FBetween (lcs ++ lms)) /\
    (forall b, In b lms -> sp_landmark sp (b_from b) || sp_landmark sp (b_to b) = true /\
                           delivered h (FBetween b)) /\
    (forall b, In b lcs ->
       sp_landmark sp (b_from b) = false /\ sp_landmark sp (b_to b) = false /\
       b_from b <> b_to b /\
       sp_ignored h (chr (b_from b)) = false /\ sp_ignored h (chr (b_to b)) = false /\
       exists h1 o h2 fs vs s1 p1 rs1,
         h = h1 ++ o :: h2 /\ call_of o = Some (fs, vs) /\ In (Some (FBetween b)) fs /\
         sp_candidate sp vs b = true /\
         supplied (h1 ++ [o]) (b_from b) /\ supplied (h1 ++ [o]) (b_to b) /\
         run C W (h1 ++ [o]) (solver_init true) = Ok s1 rs1 /\ s_pcm s1 = Some p1 /\
         (chr (b_from b) = chr (b_to b) -> c_odom_check C = true ->
          sp_odom_test (tref p1) b = Some true)).
Proof.
  intro H. destruct (hist_run _ _ _ H) as [p I].
  exists (build_lcs (so_pcm W) p), (build_lms (so_pcm W) p).
  split; [apply (graph_split I)|]. split.
  - intros b Hb. pose proof (build_lms_ok (so_pcm W) (hi_stored I)) as F. rewrite Forall_forall in F.
    apply (F b Hb).
  - intros b Hb. pose proof (build_lcs_ok (so_pcm W) (hi_stored I)) as F. rewrite Forall_forall in F.
    destruct (F b Hb) as (L & E & I1 & I2). clear F.
    unfold is_landmark_factor in L. apply orb_false_iff in L. destruct L as [L1 L2].
    destruct E as (h1 & o & h2 & fs & vs & s1 & p1 & rs1 & E1 & E2 & E3 & E4 & E5 & E6 & E7 & E8 & E9).
    rewrite (hi_ign I) in I1, I2. apply not_true_iff_false in I1, I2.
    split; auto. split; auto. split; [eapply candidate_neq; eauto|]. split; auto. split; auto.
    exists h1, o, h2, fs, vs, s1, p1, rs1. repeat split; auto.
Qed.

Lemma c09 with_pcm h (s : solver) rs f : run C W h (solver_init with_pcm) = Ok s rs ->
  In (Some f) (s_nfg s) -> delivered h f.
Proof.
  intros H Hin. destruct with_pcm.
  - destruct (hist_run _ _ _ H) as [p I]. rewrite (graph_split I) in Hin.
    apply in_map_iff in Hin. destruct Hin as (f' & E & Hin). inversion E; subst. clear E.
    rewrite !in_app_iff, !in_map_iff in Hin. destruct Hin as [(b & <- & Hb)|[Hin|(b & <- & Hb)]].
    + apply sp_odoms_delivered; auto.
    + apply sp_others_delivered; auto.
    + apply in_app_or in Hb. destruct Hb as [Hb|Hb].
      * pose proof (build_lcs_ok (so_pcm W) (hi_stored I)) as F. rewrite Forall_forall in F.
        destruct (F b Hb) as (_ & E & _). apply entered_delivered; auto.
      * pose proof (build_lms_ok (so_pcm W) (hi_stored I)) as F. rewrite Forall_forall in F.
        destruct (F b Hb) as (_ & E). auto.
  - apply plain_run in H. rewrite (pi_nfg H) in Hin. apply sp_plain_delivered; auto.
Qed.

Lemma c18 with_pcm h (s : solver) rs : run C W h (solver_init with_pcm) = Ok s rs ->
  ksorted (s_vals s) /\ forall k, In k (map fst (s_vals s)) <-> supplied h k.
Proof.
  intro H. destruct with_pcm.
  - destruct (hist_run _ _ _ H) as [p I]. split; [apply (hi_sorted I)|].
    intro k. rewrite <- (hi_keys I k), kmem_In. reflexivity.
  - apply plain_run in H. split; [apply (pi_sorted H)|]. intro k. rewrite <- (pi_keys H k), kmem_In. reflexivity.
Qed.

Lemma filter_map_Some {A} (f : option A -> bool) (l : list A) :
  filter f (map Some l) = map Some (filter (fun x => f (Some x)) l).
Proof.
  induction l as [|x l IH]; cbn; auto. destruct (f (Some x)); cbn; rewrite IH; auto.
Qed.

Lemma filter_map_between (f : factor -> bool) (l : list bf) : (forall b, f (FBetween b) = true) ->
  filter f (map FBetween l) = map FBetween l.
Proof. intro H. induction l as [|x l IH]; cbn; auto. rewrite H, IH. auto. Qed.

Lemma step_priors_nfg c opt (s s' : solver) r p : s_pcm s = Some p -> step C W (OpRemovePriors c opt) s = Ok s' r ->
  s_nfg s' = graph_of (so_pcm W) (pcm_remove_priors c p).
Proof.
  intros Hp H. destruct (step_inv C W _ s Hp H) as (s1 & p' & b & [_ E] & _ & _ & _ & Ho). cbn in E.
  destruct E as (-> & EN & _). destruct (optimises (OpRemovePriors c opt) b).
  - apply optimize_same in Ho. destruct Ho as (_ & O2 & _). congruence.
  - congruence.
Qed.

Lemma c27_pcm h (s : solver) rs c opt s' r :
  run C W h (solver_init true) = Ok s rs -> step C W (OpRemovePriors c opt) s = Ok s' r ->
  s_nfg s' = filter (fun of => match of with Some (FPrior k _) => negb (names c k) | _ => true end) (s_nfg s).
Proof.
  intros H Hs. destruct (run_synced _ _ _ H) as (p & Hp & Hn). rewrite (step_priors_nfg _ _ _ Hp Hs), Hn.
  unfold graph_of, build, pcm_remove_priors. cbn [p_odom p_special set_special].
  rewrite filter_map_Some, !filter_app, !filter_map_between by auto. reflexivity.
Qed.

Lemma c27_plain (s : solver) c opt s' r :
  s_pcm s = None -> step C W (OpRemovePriors c opt) s = Ok s' r ->
  s_nfg s' = filter (fun of => negb (any_prior_on c of)) (s_nfg s).
Proof.
  intros Hp H. cbn [step] in H. unfold no_ret, remove_priors in H. rewrite Hp in H.
  assert (E : filter (keep_prior c) (s_nfg s) = filter (fun of => negb (any_prior_on c of)) (s_nfg s)).
  { apply filter_ext. intros [[x|k x|k t|ks t]|]; reflexivity. }
  destruct opt.
  - destruct (optimize C W (set_nfg s (filter (keep_prior c) (s_nfg s)))) as [s2 []| |] eqn:EO; cbn [obind] in H; try discriminate.
    inversion H; subst. apply optimize_same in EO. destruct EO as (_ & O2 & _). rewrite O2. exact E.
  - cbn [obind] in H. inversion H; subst. exact E.
Qed.

(** Prefixes below 128 are named by the character with that number, the others by none. *)
Lemma names_low c k : (c < 128)%N -> names c k = (chr k =? c)%N.
Proof. intro H. unfold names. apply N.ltb_lt in H. rewrite H. apply andb_true_r. Qed.
Lemma names_high c k : (128 <= c)%N -> names c k = false.
Proof. intro H. unfold names. apply N.ltb_ge in H. rewrite H. apply andb_false_r. Qed.
Lemma filter_same {A} (f : A -> bool) l : (forall x, f x = true) -> filter f l = l.
Proof. intro H. induction l as [|x l IH]; cbn; auto. rewrite H, IH. auto. Qed.

Lemma c27_pcm_low h (s : solver) rs c opt s' r : (c < 128)%N ->
  run C W h (solver_init true) = Ok s rs -> step C W (OpRemovePriors c opt) s = Ok s' r ->
  s_nfg s' = filter (fun of => match of with Some (FPrior k _) => negb (chr k =? c)%N | _ => true end) (s_nfg s).
Proof.
  intros Hc H Hs. rewrite (@c27_pcm _ _ _ _ _ _ _ H Hs). apply filter_ext. intros [[x|k x|k t|ks t]|]; auto. rewrite names_low; auto.
Qed.
Lemma c27_plain_low (s : solver) c opt s' r : (c < 128)%N ->
  s_pcm s = None -> step C W (OpRemovePriors c opt) s = Ok s' r ->
  s_nfg s' = filter (fun of => match of with
                               | Some (FPrior k _) => negb (chr k =? c)%N
                               | Some (FPriorOther k _) => negb (chr k =? c)%N
                               | _ => true
                               end) (s_nfg s).
Proof.
  intros Hc H Hs. rewrite (@c27_plain _ _ _ _ _ H Hs). apply filter_ext. intros [[x|k x|k t|ks t]|]; auto; cbn; rewrite names_low; auto.
Qed.
Lemma c27_pcm_high h (s : solver) rs c opt s' r : (128 <= c)%N ->
  run C W h (solver_init true) = Ok s rs -> step C W (OpRemovePriors c opt) s = Ok s' r -> s_nfg s' = s_nfg s.
Proof.
  intros Hc H Hs. rewrite (@c27_pcm _ _ _ _ _ _ _ H Hs). apply filter_same. intros [[x|k x|k t|ks t]|]; auto. rewrite names_high; auto.
Qed.
Lemma c27_plain_high (s : solver) c opt s' r : (128 <= c)%N ->
  s_pcm s = None -> step C W (OpRemovePriors c opt) s = Ok s' r -> s_nfg s' = s_nfg s.
Proof.
  intros Hc H Hs. rewrite (@c27_plain _ _ _ _ _ H Hs). apply filter_same. intros [[x|k x|k t|ks t]|]; auto; cbn; rewrite names_high; auto.
Qed.

End G.
