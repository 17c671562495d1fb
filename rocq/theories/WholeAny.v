(** * Histories without a wrong measurement: nothing is left out *)
From Coq Require Import ZArith Bool List Lia Permutation.
From Verif Require Import Prelude Num Keys KMap UMap Geometry Factors Clique Pcm Params Solver PcmSpec HistSpec StoreSpec RemoveSpec ApartSpec IncSpec
  PcmProofs PcmInv PcmStore SolverProofs HistProofs GraphProofs StoreProofs AcceptProofs TrajProofs AlgProofs PlainProofs ItemProofs ApartProofs ApartMore NanProofs OutlierSpec LatticeSpec LatticeProofs LatticeHist
  TrueSpec TrueAny WholeSpec.
Set Implicit Arguments.
Local Open Scope nat_scope.

(** ** Lists *)
Lemma filter_perm {A} (f : A -> bool) l l' : Permutation l l' -> Permutation (filter f l) (filter f l').
Proof.
  induction 1 as [|x l l' P IH|x y l|l l' l'' P1 I1 P2 I2]; cbn; auto.
  - destruct (f x); auto.
  - destruct (f x), (f y); auto. apply perm_swap.
  - eapply perm_trans; eauto.
Qed.
Lemma filter_parts {A} (f : A -> bool) l : Permutation l (filter f l ++ filter (fun x => negb (f x)) l).
Proof.
  induction l as [|x l IH]; cbn; auto. destruct (f x); cbn; [apply perm_skip, IH|]. apply Permutation_cons_app, IH.
Qed.
Lemma filter_swap {A} (f g : A -> bool) l : filter f (filter g l) = filter g (filter f l).
Proof. induction l as [|x l IH]; cbn; auto. destruct (g x) eqn:Eg, (f x) eqn:Ef; cbn; rewrite ?Ef, ?Eg; try congruence. Qed.
Lemma by_class {A} (same : A -> A -> bool) : (forall x, same x x = true) -> forall n (M N : list A), length M <= n ->
  (forall x, In x M \/ In x N -> Permutation (filter (same x) M) (filter (same x) N)) -> Permutation M N.
Proof.
  intro RE. induction n as [|n IH]; intros M N HL H.
  - destruct M; [|cbn in HL; lia]. destruct N as [|y N]; auto. exfalso. specialize (H y (or_intror (or_introl eq_refl))). cbn in H. rewrite RE in H.
    apply Permutation_nil in H. discriminate H.
  - destruct M as [|x M].
    { destruct N as [|y N]; auto. exfalso. specialize (H y (or_intror (or_introl eq_refl))). cbn in H. rewrite RE in H. apply Permutation_nil in H. discriminate H. }
    rewrite (filter_parts (same x) (x :: M)), (filter_parts (same x) N). apply Permutation_app; [apply H; left; left; auto|].
    apply IH.
    + cbn [filter]. rewrite RE. cbn [negb]. pose proof (Permutation_length (filter_parts (same x) M)) as Q. rewrite app_length in Q. cbn in HL. lia.
    + intros y Hy. rewrite !(filter_swap (same y)). apply filter_perm, H. destruct Hy as [Hy|Hy]; apply filter_In in Hy; tauto.
Qed.
Lemma flat_map_perm {A B} (f g : A -> list B) l : (forall x, In x l -> Permutation (f x) (g x)) -> Permutation (flat_map f l) (flat_map g l).
Proof. induction l as [|x l IH]; intro H; cbn; auto. apply Permutation_app; [apply H; left; auto|apply IH; intros; apply H; right; auto]. Qed.
Lemma flat_map_two {A B} (f g : A -> list B) l : Permutation (flat_map (fun x => f x ++ g x) l) (flat_map f l ++ flat_map g l).
Proof.
  induction l as [|x l IH]; cbn; auto. rewrite IH, <- !app_assoc. apply Permutation_app_head. rewrite !app_assoc. apply Permutation_app_tail, Permutation_app_comm.
Qed.
Lemma filter_flat_map {A B} (f : B -> bool) (g : A -> list B) l : filter f (flat_map g l) = flat_map (fun x => filter f (g x)) l.
Proof. induction l as [|x l IH]; cbn; auto. rewrite filter_app, IH. auto. Qed.
Lemma map_flat_map {A B D} (f : B -> D) (g : A -> list B) l : map f (flat_map g l) = flat_map (fun x => map f (g x)) l.
Proof. induction l as [|x l IH]; cbn; auto. rewrite map_app, IH. auto. Qed.
Lemma filter_ext_on {A} (f g : A -> bool) l : (forall x, In x l -> f x = g x) -> filter f l = filter g l.
Proof. induction l as [|x l IH]; intro H; cbn; auto. rewrite (H x), IH by (intros; auto with datatypes). auto. Qed.
Lemma filter_filter_and {A} (f g : A -> bool) l : filter f (filter g l) = filter (fun x => g x && f x) l.
Proof. induction l as [|x l IH]; cbn; auto. destruct (g x); cbn; [destruct (f x)|]; rewrite ?IH; auto. Qed.

Section Whole.
Variable O : tops.
Variable C : config.
Variable W : soracles O.
Notation op := (op O).
Notation bf := (bf O).
Notation sp := (c_special C).

Lemma calls_no_removal (h : list op) : only_calls h -> no_removal h.
Proof. intros H o Ho. specialize (H o Ho). destruct o; auto; exfalso; apply H; reflexivity. Qed.
Lemma calls_not_ignored (h : list op) c : only_calls h -> sp_ignored h c = false.
Proof.
  unfold sp_ignored. intro H. assert (Q : forall b, fold_left (fun acc o => match o with OpIgnore c' => if (c' =? c)%N then true else acc | OpRevive c' => if (c' =? c)%N then false else acc | _ => acc end) h b = b).
  { induction h as [|o h IH]; intro b; cbn [fold_left]; auto. rewrite IH by (intros x Hx; apply H; right; auto).
    pose proof (H o (or_introl eq_refl)) as HO. destruct o; auto; exfalso; apply HO; reflexivity. }
  apply Q.
Qed.
Lemma calls_others (h : list op) : only_calls h -> sp_others h = flat_map (fun o => match call_of o with Some (fs, _) => others fs | None => [] end) h.
Proof.
  unfold sp_others. intro H. assert (Q : forall a, fold_left (@sp_others_step O) h a = a ++ flat_map (fun o => match call_of o with Some (fs, _) => others fs | None => [] end) h).
  { induction h as [|o h IH]; intro a; cbn [fold_left flat_map]; [rewrite app_nil_r; auto|]. rewrite IH by (intros x Hx; apply H; right; auto). rewrite app_assoc. f_equal.
    pose proof (H o (or_introl eq_refl)) as HO. destruct o; auto; exfalso; apply HO; reflexivity. }
  apply Q.
Qed.

Lemma factors_parts (fs : graph_t O) : Permutation (flat_map (fun f => match f with Some f => [f] | None => [] end) fs) (map FBetween (betweens fs) ++ others fs).
Proof.
  induction fs as [|f fs IH]; cbn; auto. destruct f as [f|]; [|exact IH]. destruct f; cbn; auto; apply Permutation_cons_app; exact IH.
Qed.
Lemma given_parts (h : list op) : only_calls h ->
  Permutation (given h) (map FBetween (sp_odoms sp h) ++ sp_others h ++ map FBetween (non_odometry C h)).
Proof.
  intro OC. rewrite (calls_others OC). unfold given, sp_odoms, non_odometry.
  eapply perm_trans; [|apply Permutation_app_head, Permutation_app_comm]. rewrite app_assoc, <- map_app.
  eapply perm_trans; [apply (@flat_map_perm _ _ _ (fun o => match call_of o with Some (fs, vs) => map FBetween (betweens fs) | None => [] end ++ match call_of o with Some (fs, _) => others fs | None => [] end))|].
  { intros o _. destruct (call_of o) as [[fs vs]|]; [apply factors_parts|apply perm_nil]. }
  rewrite flat_map_two. apply Permutation_app_tail. rewrite <- flat_map_two, map_flat_map. apply flat_map_perm. intros o _. destruct (call_of o) as [[fs vs]|]; [|apply perm_nil].
  apply Permutation_map, filter_parts.
Qed.

Lemma given_all (h : list op) : (forall o fs vs, In o h -> call_of o = Some (fs, vs) -> ~ In None fs) -> map Some (given h) = sp_all h.
Proof.
  intro H. unfold given, sp_all. rewrite map_flat_map. apply flat_map_in_ext. intros o Ho. destruct (call_of o) as [[fs vs]|] eqn:E; auto. specialize (H o fs vs Ho E).
  clear - H. induction fs as [|f fs IH]; cbn; auto. destruct f as [f|]; [|exfalso; apply H; left; auto]. cbn. f_equal. apply IH. intro Q. apply H. right. auto.
Qed.
Lemma calls_add (h : list op) : only_calls h -> forall o, In o h -> only_adds o = true.
Proof. intros H o Ho. specialize (H o Ho). destruct o; auto; exfalso; apply H; reflexivity. Qed.

Section Hist.
Variable h : list op.
Variable s : solver O.
Variable rs : list ret.
Hypothesis R : run C W h (solver_init true) = Ok s rs.
Hypothesis OC : only_calls h.
Variable keep : bf -> bool.
Hypothesis ND : forall b, In b (non_odometry C h) -> b_from b <> b_to b.
Hypothesis PR : forall x, In x (non_odometry C h) -> sp_lmk C x = false ->
  exists id, of_pair id x = true /\ Permutation (graph_lcs C h id (s_nfg s)) (filter keep (closures_in C id h)).
Hypothesis LR : forall x, In x (non_odometry C h) -> sp_lmk C x = true -> let l := sp_landmark_key sp x in
  introduced C l h /\ graph_lms C h l (s_nfg s) = filter keep (map fst (current C l (sp_sightings C W h))) /\
  (forall P o T b, h = P ++ o :: T -> In b (all_betweens o) -> sees C l b = true -> b_to b = l /\ knows (P ++ [o]) (b_from b) = true).

Lemma lmk_not_odometry vs (b : bf) : sp_lmk C b = true -> sp_odometry sp vs b = false.
Proof. unfold sp_lmk, sp_odometry. intro H. apply orb_true_iff in H. destruct H as [H | H]; rewrite H; cbn; auto. rewrite andb_false_r. auto. Qed.
Lemma first_lmk vs (b : bf) : sp_first sp vs b = true -> sp_lmk C b = true.
Proof. unfold sp_first, sp_lmk. intro H. apply andb_true_iff in H. tauto. Qed.
Lemma in_non_odometry o fs vs b : In o h -> call_of o = Some (fs, vs) -> In b (betweens fs) -> sp_odometry sp vs b = false -> In b (non_odometry C h).
Proof.
  intros Ho E Hb H. unfold non_odometry. apply in_flat_map. exists o. split; auto. rewrite E. apply filter_In. split; auto. rewrite H. auto.
Qed.
Definition pair (b : bf) : obsid := (chr (b_from b), chr (b_to b)).
Definition same (x y : bf) : bool :=
  if sp_lmk C x then sees C (sp_landmark_key sp x) y else of_pair (pair x) y && negb (sp_lmk C y).
Lemma same_refl x : same x x = true.
Proof.
  unfold same, sees, of_landmark, of_pair. destruct (sp_lmk C x) eqn:E; [rewrite N.eqb_refl; reflexivity|]. unfold pair. rewrite oid_eqb_refl. reflexivity.
Qed.

Lemma graph_given x : In x (graph_extra C h (s_nfg s)) -> In x (non_odometry C h).
Proof.
  intro H. destruct (sp_lmk C x) eqn:E.
  - assert (Q : In x (graph_lms C h (sp_landmark_key sp x) (s_nfg s))).
    { unfold graph_lms. apply filter_In. split; auto. unfold of_landmark. rewrite N.eqb_refl, E. auto. }
    destruct (hist_run C W h R) as [p I]. rewrite (graph_lms_eq _ I) in Q. unfold uget in Q.
    destruct (ufind N.eqb (sp_landmark_key sp x) (p_lms p)) as [v|] eqn:EU; [|destruct Q].
    apply ufind_In in EU. destruct EU as (k & EK & HI). pose proof (so_lms (hi_stored I)) as S1. rewrite Forall_forall in S1. destruct (S1 _ HI) as [F1 F2].
    cbn [fst snd] in F1, F2. apply F2 in Q. rewrite Forall_forall in F1. destruct (F1 _ Q) as (_ & _ & (o & fs & vs & Ho & EC & Hb)).
    apply (@in_non_odometry o fs vs); auto; [apply In_betweens; auto|apply lmk_not_odometry; auto].
  - assert (Q : In x (graph_lcs C h (pair x) (s_nfg s))).
    { unfold graph_lcs. apply filter_In. split; auto. unfold of_pair, pair. rewrite oid_eqb_refl, E. auto. }
    destruct (@in_graph_entered O C W h s rs (pair x) x R Q) as ((h1 & o & h2 & fs & vs & s1 & p1 & rs1 & EH & EC & Hb & CA & _) & _).
    apply (@in_non_odometry o fs vs); auto; [rewrite EH; apply in_or_app; right; left; auto|apply In_betweens; auto|].
    unfold sp_candidate in CA. rewrite !andb_true_iff in CA. destruct CA as ((CA & _) & _). apply negb_true_iff. auto.
Qed.

Lemma pair_class x : In x (non_odometry C h) -> sp_lmk C x = false -> Permutation (filter (same x) (graph_extra C h (s_nfg s))) (filter (same x) (filter keep (non_odometry C h))).
Proof.
  intros Hx E. destruct (PR x Hx E) as (id & ID & GP). rewrite filter_swap.
  assert (SE : forall y, same x y = closure C id y).
  { intro y. unfold same, closure. rewrite E. f_equal. unfold of_pair in *. fold (pair x) in ID. fold (pair y). apply eq_true_iff_eq. split; intro Q.
    - eapply oid_eqb_trans; [exact Q|exact ID].
    - eapply oid_eqb_trans; [exact Q|]. rewrite oid_eqb_sym. exact ID. }
  rewrite (filter_ext_on _ (closure C id) (graph_extra C h (s_nfg s))) by (intros; apply SE). rewrite (filter_ext_on _ (closure C id) (non_odometry C h)) by (intros; apply SE).
  eapply perm_trans; [exact GP|]. apply filter_perm.
  unfold closures_in, non_odometry. rewrite !filter_flat_map. apply flat_map_perm. intros o Ho. unfold candidates. destruct (call_of o) as [[fs vs]|] eqn:EC; [|apply perm_nil].
  rewrite !filter_filter_and. erewrite filter_ext_on; [apply Permutation_refl|]. intros b Hb. cbv beta.
  destruct (closure C id b) eqn:K; [|rewrite !andb_false_r; auto]. rewrite !andb_true_r. unfold sp_candidate.
  unfold closure in K. apply andb_true_iff in K. destruct K as [_ K]. apply negb_true_iff in K.
  destruct (sp_first sp vs b) eqn:EF; [rewrite (first_lmk _ _ EF) in K; discriminate K|]. cbn [negb]. rewrite andb_true_r.
  destruct (sp_odometry sp vs b) eqn:EO; auto. cbn [negb andb]. apply negb_true_iff, N.eqb_neq. apply ND. apply (@in_non_odometry o fs vs); auto.
Qed.

(** ** Landmarks *)
Lemma sights_one l (x : sighting O) : sights C l [x] = if of_landmark C l (fst (si_obs x)) then [si_obs x] else [].
Proof. reflexivity. Qed.
Lemma current_more l (M N : list (sighting O)) : (forall x, In x N -> of_landmark C l (fst (si_obs x)) = true -> si_first x = false) ->
  current C l (M ++ N) = current C l M ++ sights C l N.
Proof.
  induction N as [|x N IH] using rev_ind; intro H; [rewrite !app_nil_r; auto|].
  rewrite app_assoc, (sights_app C l). unfold current. rewrite fold_left_app. fold (current C l (M ++ N)). rewrite IH by (intros; apply H; auto with datatypes).
  cbn [fold_left]. rewrite sights_one. destruct (of_landmark C l (fst (si_obs x))) eqn:E; [|rewrite !app_nil_r; auto].
  rewrite (H x) by (auto with datatypes). rewrite app_assoc. auto.
Qed.
Lemma current_new l (M N : list (sighting O)) : (forall x, In x N -> si_first x = true) -> forall l0 y, sights C l N = l0 ++ [y] -> current C l (M ++ N) = [y].
Proof.
  induction N as [|x N IH] using rev_ind; intros H l0 y E; [destruct l0; discriminate E|].
  rewrite (sights_app C l) in E. rewrite app_assoc. unfold current. rewrite fold_left_app. fold (current C l (M ++ N)). cbn [fold_left].
  rewrite sights_one in E. destruct (of_landmark C l (fst (si_obs x))).
  - rewrite (H x) by (auto with datatypes). apply app_inj_tail in E. destruct E as [_ ->]. auto.
  - rewrite app_nil_r in E. eapply IH; eauto. intros; apply H; auto with datatypes.
Qed.
Definition new_part P (o : op) : list (sighting O) :=
  match call_of o with Some (fs, vs) => map (fun b => Sight true (b, refs_after C W (P ++ [o]))) (filter (sp_first sp vs) (betweens fs)) | None => [] end.
Definition old_part P (o : op) : list (sighting O) :=
  match call_of o with Some (fs, vs) => map (fun b => Sight false (b, refs_after C W (P ++ [o]))) (filter (stores_lm C (knows (P ++ [o]))) (filter (sp_candidate sp vs) (betweens fs))) | None => [] end.
Lemma sighted_parts P o : sighted C W P o = new_part P o ++ old_part P o.
Proof. unfold sighted, new_part, old_part. destruct (call_of o) as [[fs vs]|]; auto. Qed.
Lemma sights_map l q (ref : N -> key -> t_T O) (M : list bf) : sights C l (map (fun b => Sight q (b, ref)) M) = map (fun b => (b, ref)) (filter (of_landmark C l) M).
Proof. unfold sights. rewrite map_map. cbn [si_obs]. apply filter_map_fst. Qed.
Lemma sights_new l P o : map fst (sights C l (new_part P o)) = firsts C l o.
Proof.
  unfold new_part, firsts. destruct (call_of o) as [[fs vs]|]; auto. rewrite sights_map, map_map. cbn [fst]. rewrite map_id, filter_filter_and.
  apply filter_ext_on. intros. apply andb_comm.
Qed.
Lemma current_step l P o : (exists b, firsts C l o = [b]) /\ current C l (sp_sightings C W P) = [] \/ firsts C l o = [] ->
  current C l (sp_sightings C W (P ++ [o])) = current C l (sp_sightings C W P) ++ sights C l (sighted C W P o).
Proof.
  intro H. rewrite sp_sightings_snoc, sighted_parts, (sights_app C l), app_assoc, current_more.
  2:{ intros x Hx _. unfold old_part in Hx. destruct (call_of o) as [[fs vs]|]; [|destruct Hx]. apply in_map_iff in Hx. destruct Hx as (b & <- & _). reflexivity. }
  rewrite app_assoc. f_equal. pose proof (sights_new l P o) as E. destruct H as [[[b H] HC]|H]; rewrite H in E.
  - destruct (sights C l (new_part P o)) as [|y [|z t]] eqn:EN; try discriminate E. rewrite HC. cbn [app]. apply (@current_new l _ (new_part P o)) with (l0 := []); auto.
    intros x Hx. unfold new_part in Hx. destruct (call_of o) as [[fs vs]|]; [|destruct Hx]. apply in_map_iff in Hx. destruct Hx as (b0 & <- & _). reflexivity.
  - apply map_eq_nil in E. rewrite current_more; [reflexivity|]. intros x Hx K. exfalso.
    assert (Q : In (si_obs x) (sights C l (new_part P o))) by (unfold sights; apply filter_In; split; [apply in_map; auto|auto]). rewrite E in Q. destruct Q.
Qed.

Definition looks l (o : op) : list bf := filter (sees C l) (all_betweens o).
Lemma sighted_all l P o T : h = P ++ o :: T -> (forall b, In b (all_betweens o) -> sees C l b = true -> b_to b = l /\ knows (P ++ [o]) (b_from b) = true) -> knows (P ++ [o]) l = true ->
  Permutation (map fst (sights C l (sighted C W P o))) (looks l o).
Proof.
  intros EH TS KN. unfold looks. rewrite sighted_parts, (sights_app C l), map_app, sights_new. unfold firsts, old_part, all_betweens.
  destruct (call_of o) as [[fs vs]|] eqn:EC; [|apply perm_nil]. rewrite sights_map, map_map. cbn [fst]. rewrite map_id.
  rewrite (filter_parts (sp_first sp vs) (filter (sees C l) (betweens fs))), !filter_filter_and.
  apply Permutation_app.
  - erewrite filter_ext_on; [apply Permutation_refl|]. intros b _. cbv beta. unfold sees. destruct (sp_first sp vs b) eqn:E; [rewrite (first_lmk _ _ E)|]; rewrite ?andb_true_r, ?andb_false_r; auto.
  - erewrite filter_ext_on; [apply Permutation_refl|]. intros b Hb. cbv beta. unfold sees, stores_lm.
    destruct (of_landmark C l b) eqn:EL; [|rewrite !andb_false_r; auto]. rewrite andb_true_r. cbn [andb].
    destruct (sp_lmk C b) eqn:EK; [|rewrite !andb_false_r; auto]. rewrite andb_true_r. cbn [andb].
    assert (IB : In b (all_betweens o)) by (unfold all_betweens; rewrite EC; auto).
    destruct (TS b IB) as (T3 & K1); [unfold sees; rewrite EL, EK; reflexivity|]. rewrite T3, K1, KN, andb_true_r. cbn [andb].
    unfold sp_candidate. rewrite (lmk_not_odometry vs b EK). cbn [negb andb].
    assert (NS : (b_from b =? b_to b)%N = false).
    { apply N.eqb_neq. apply ND. apply (@in_non_odometry o fs vs); auto; [rewrite EH; apply in_or_app; right; left; auto|apply lmk_not_odometry; auto]. }
    rewrite NS. apply andb_true_r.
Qed.

Lemma current_all l : introduced C l h -> (forall P o T b, h = P ++ o :: T -> In b (all_betweens o) -> sees C l b = true -> b_to b = l /\ knows (P ++ [o]) (b_from b) = true) ->
  Permutation (map fst (current C l (sp_sightings C W h))) (filter (sees C l) (non_odometry C h)).
Proof.
  intros (h1 & o & h2 & b & EH & N1 & F1 & KN & F2) TS.
  assert (EB : filter (sees C l) (non_odometry C h) = flat_map (looks l) h).
  { unfold non_odometry, looks, all_betweens. rewrite filter_flat_map. apply flat_map_in_ext. intros o' Ho. destruct (call_of o') as [[fs vs]|]; auto.
    rewrite filter_filter_and. apply filter_ext_on. intros y _. cbv beta. unfold sees. destruct (sp_lmk C y) eqn:EY; [rewrite (lmk_not_odometry vs y EY); auto|rewrite !andb_false_r; auto]. }
  rewrite EB. assert (Q : forall Q T, h2 = Q ++ T -> Permutation (map fst (current C l (sp_sightings C W (h1 ++ o :: Q)))) (flat_map (looks l) (h1 ++ o :: Q))).
  2:{ rewrite EH. apply (Q h2 []). rewrite app_nil_r. auto. }
  assert (L1 : flat_map (looks l) h1 = []).
  { clear - N1. induction h1 as [|a t IH]; auto. cbn [flat_map]. unfold looks at 1. rewrite (N1 a) by (left; auto). apply IH. intros; apply N1; right; auto. }
  assert (S1 : sights C l (sp_sightings C W h1) = []).
  { clear - N1. induction h1 as [|a t IH] using rev_ind; auto. rewrite sp_sightings_snoc, (sights_app C l), IH by (intros; apply N1; auto with datatypes). cbn [app].
    destruct (sights C l (sighted C W t a)) as [|y r] eqn:EY; auto. exfalso. assert (Hy : In y (sights C l (sighted C W t a))) by (rewrite EY; left; auto).
    unfold sights in Hy. apply filter_In in Hy. destruct Hy as [Hy K]. destruct (sighted_in C W _ _ _ Hy) as (A & B & _).
    assert (Z0 : In (fst y) (filter (sees C l) (all_betweens a))) by (apply filter_In; split; auto; unfold sees; rewrite K, B; auto). rewrite N1 in Z0 by (auto with datatypes). destruct Z0. }
  assert (C1 : current C l (sp_sightings C W h1) = []).
  { destruct (current_suffix C l (sp_sightings C W h1)) as [l0 EC]. rewrite S1 in EC. symmetry in EC. apply app_eq_nil in EC. tauto. }
  induction Q as [|q Q IH] using rev_ind; intros T EQ.
  - rewrite current_step by (left; split; eauto). rewrite C1. cbn [app]. rewrite flat_map_app, L1. cbn [flat_map app]. rewrite app_nil_r.
    apply (@sighted_all l h1 o h2); auto. intros; eapply TS; eauto.
  - rewrite app_comm_cons, app_assoc, current_step by (right; apply F2; rewrite EQ; apply in_or_app; left; apply in_or_app; right; left; auto).
    rewrite map_app, flat_map_app. cbn [flat_map]. rewrite app_nil_r. apply Permutation_app; [apply (IH (q :: T)); rewrite EQ, <- app_assoc; auto|].
    assert (EH3 : h = (h1 ++ o :: Q) ++ q :: T) by (rewrite EH, EQ, <- !app_assoc; reflexivity).
    apply (@sighted_all l (h1 ++ o :: Q) q T); auto.
    + intros; eapply TS; eauto.
    + replace ((h1 ++ o :: Q) ++ [q]) with ((h1 ++ [o]) ++ (Q ++ [q])) by (rewrite <- !app_assoc; auto). apply knows_app. exact KN.
Qed.
Lemma lm_class x : In x (non_odometry C h) -> sp_lmk C x = true -> Permutation (filter (same x) (graph_extra C h (s_nfg s))) (filter (same x) (filter keep (non_odometry C h))).
Proof.
  intros Hx E. destruct (LR x Hx E) as (IN & GL & TS). rewrite filter_swap.
  set (l := sp_landmark_key sp x) in *.
  assert (SE : forall y, same x y = sees C l y) by (intro y; unfold same; rewrite E; auto).
  rewrite (filter_ext_on _ (sees C l) (graph_extra C h (s_nfg s))) by (intros; apply SE). rewrite (filter_ext_on _ (sees C l) (non_odometry C h)) by (intros; apply SE).
  change (filter (sees C l) (graph_extra C h (s_nfg s))) with (graph_lms C h l (s_nfg s)).
  rewrite GL. apply filter_perm, current_all; assumption.
Qed.

Theorem any_graph_keep : Permutation (s_nfg s ++ map Some (map FBetween (filter (fun b => negb (keep b)) (non_odometry C h)))) (map Some (given h)).
Proof.
  destruct (hist_run C W h R) as [p I]. rewrite (graph_split I), <- (graph_extra_eq I), <- map_app. apply Permutation_map.
  eapply perm_trans; [|apply Permutation_sym, given_parts; exact OC]. rewrite <- !app_assoc. apply Permutation_app_head, Permutation_app_head. rewrite <- map_app. apply Permutation_map.
  eapply perm_trans; [|apply Permutation_sym, (filter_parts keep)]. apply Permutation_app_tail.
  apply (@by_class _ same same_refl _ _ _ (le_n _)). intros x Hx.
  assert (HB : In x (non_odometry C h)) by (destruct Hx as [Hx|Hx]; [apply graph_given; auto|apply filter_In in Hx; exact (proj1 Hx)]).
  destruct (sp_lmk C x) eqn:E; [apply lm_class|apply pair_class]; auto.
Qed.
End Hist.

Theorem any_graph (h : list op) (s : solver O) (rs : list ret) : run C W h (solver_init true) = Ok s rs -> only_calls h ->
  (forall b, In b (non_odometry C h) -> b_from b <> b_to b) ->
  (forall x, In x (non_odometry C h) -> sp_lmk C x = false ->
     exists id, of_pair id x = true /\ Permutation (graph_lcs C h id (s_nfg s)) (closures_in C id h)) ->
  (forall x, In x (non_odometry C h) -> sp_lmk C x = true -> let l := sp_landmark_key sp x in
     introduced C l h /\ graph_lms C h l (s_nfg s) = map fst (current C l (sp_sightings C W h)) /\
     (forall P o T b, h = P ++ o :: T -> In b (all_betweens o) -> sees C l b = true -> b_to b = l /\ knows (P ++ [o]) (b_from b) = true)) ->
  Permutation (s_nfg s) (map Some (given h)).
Proof.
  intros R OC ND PR LR. assert (FT : forall l : list bf, filter (fun _ => true) l = l) by (intro l; apply filter_all; auto).
  assert (FF : forall l : list bf, filter (fun _ => negb true) l = []) by (induction l; auto).
  eapply perm_trans; [|apply (@any_graph_keep h s rs R OC (fun _ => true) ND)].
  - rewrite FF. cbn [map]. rewrite app_nil_r. apply Permutation_refl.
  - intros x Hx E. destruct (PR x Hx E) as (id & A & B). exists id. split; [exact A|]. refine (eq_rect_r (fun l => Permutation _ l) B (FT _)).
  - intros x Hx E. destruct (LR x Hx E) as (A & B & D). split; [exact A|]. split; [|exact D]. refine (eq_trans B (eq_sym (FT _))).
Qed.
End Whole.
