(** * Histories whose measurements all pass the tests, for any way of keeping poses *)
From Coq Require Import ZArith Bool List Lia Permutation.
From Verif Require Import Prelude Num Keys KMap UMap Geometry Factors Clique Pcm Params Solver PcmSpec HistSpec StoreSpec RemoveSpec ApartSpec IncSpec HeuSpec ExactSpec
  PcmProofs PcmInv PcmStore SolverProofs HistProofs StoreProofs TrajProofs TrajRel AlgProofs ItemProofs ApartProofs ApartMore NanProofs OutlierSpec GroupSpec GroupProofs LatticeSpec LatticeProofs LatticeHist TrueSpec.
Set Implicit Arguments.
Local Open Scope nat_scope.

Lemma split_at {A} (h1 : list A) o h2 : forall P T, h1 ++ o :: h2 = P ++ T -> (exists l, P = h1 ++ o :: l) \/ (exists l, h1 = P ++ l).
Proof.
  induction h1 as [|a h1 IH]; intros [|b P] T H; cbn in H.
  { right. exists []. reflexivity. }
  { left. exists P. injection H as -> _. reflexivity. }
  { right. exists (a :: h1). reflexivity. }
  injection H as -> H. destruct (IH P T H) as [[l ->]|[l ->]]; [left|right]; exists l; reflexivity.
Qed.
Lemma in_order_app {A} (R : A -> A -> Prop) M N : in_order M R -> (forall x y, In x (M ++ N) -> In y N -> R x y) -> in_order (M ++ N) R.
Proof.
  intros HM HN i j x y Hij Ex Ey. destruct (Nat.lt_ge_cases j (length M)) as [Hj|Hj].
  - rewrite nth_error_app1 in Ex, Ey by lia. exact (HM i j x y Hij Ex Ey).
  - apply HN; [eapply nth_error_In; eauto|]. rewrite nth_error_app2 in Ey by lia. eapply nth_error_In; eauto.
Qed.
Lemma in_order_suffix {A} (R : A -> A -> Prop) M N : in_order (M ++ N) R -> in_order N R.
Proof.
  intros H i j x y Hij Ex Ey. assert (S : forall n, nth_error (M ++ N) (length M + n) = nth_error N n).
  { intro n. rewrite nth_error_app2 by lia. f_equal. lia. }
  apply (H (length M + i) (length M + j)); [lia| |]; rewrite S; auto.
Qed.
Lemma chain_to O k (bs : list (bf O)) : chain k bs -> forall i b, nth_error bs i = Some b -> b_to b = (k + N.of_nat (S i))%N.
Proof.
  revert k. induction bs as [|a bs IH]; intros k (* *) H i b E; [destruct i; discriminate E|]. destruct H as (H1 & H2 & H3).
  destruct i as [|i]; cbn in E; [injection E as <-; rewrite H2; lia|]. rewrite (IH _ H3 i b E). lia.
Qed.

Section Any.
Variable O : tops.
Variable C : config.
Variable W : soracles O.
Notation op := (op O).
Notation bf := (bf O).

Lemma any_members M : at_places (O := O) M (members (length M) (fun _ => true)) = map fst M.
Proof.
  unfold at_places, members. rewrite filter_all by auto.
  induction M as [|x M IH] using rev_ind; [reflexivity|]. rewrite app_length, Nat.add_1_r, seq_S, flat_map_app, map_app. cbn [flat_map Nat.add].
  f_equal.
  - rewrite <- IH. apply flat_map_in_ext. intros j Hj. apply in_seq in Hj. rewrite nth_error_app1 by lia. reflexivity.
  - rewrite nth_error_app2, Nat.sub_diag by lia. reflexivity.
Qed.
Lemma any_separate (test : bf * (N -> key -> t_T O) -> bf * (N -> key -> t_T O) -> option bool) M :
  in_order M (fun x y => test x y = Some true) -> separate_group (length M) (agreeb test M) (fun _ => true).
Proof.
  intro H. split; [|split; intros; discriminate]. intros i j Hi Hj N _ _. unfold agreeb.
  destruct (nth_error M i) as [x|] eqn:Ex; [|apply nth_error_None in Ex; lia]. destruct (nth_error M j) as [y|] eqn:Ey; [|apply nth_error_None in Ey; lia].
  destruct (Nat.ltb_spec i j); [rewrite (H i j x y) by (auto; lia); auto|]. destruct (Nat.ltb_spec j i); [rewrite (H j i y x) by (auto; lia); auto|lia].
Qed.

Lemma knows_app (h1 h2 : list op) k : knows h1 k = true -> knows (h1 ++ h2) k = true.
Proof. unfold knows. rewrite existsb_app. intros ->. auto. Qed.
Lemma unmentioned_odoms c (h : list op) : not_mentioned c h -> robot_odoms C c h = [].
Proof.
  intro Hn. unfold robot_odoms. destruct (filter (to_robot c) _) as [|x l] eqn:EF; auto. exfalso.
  assert (Y : In x (x :: l)) by (left; auto). rewrite <- EF in Y. apply filter_In in Y. destruct Y as [X1 X2].
  apply in_flat_map in X1. destruct X1 as (o' & Y1 & Y2). destruct (call_of o') as [[fs' vs']|] eqn:EC; [|destruct Y2].
  apply filter_In in Y2. destruct Y2 as [Y2 _]. apply (Hn x); [|apply mentions_to; auto].
  exists o', fs', vs'. split; auto. split; auto. apply In_betweens. auto.
Qed.
Lemma odom_known c (h : list op) b : In b (robot_odoms C c h) -> knows h (b_to b) = true.
Proof.
  intro H. apply filter_In in H. destruct H as [H _]. apply in_flat_map in H. destruct H as (o & Ho & H).
  unfold knows. apply existsb_exists. exists o. split; auto. destruct (call_of o) as [[fs vs]|]; [|destruct H].
  apply filter_In in H. destruct H as [_ H]. unfold sp_odometry in H. rewrite !andb_true_iff in H. tauto.
Qed.
Lemma been_more first c (h1 h2 : list op) k : been C first c h1 k -> been C first c (h1 ++ h2) k.
Proof.
  intros (H & i & Hi & ->). unfold TrueSpec.been. rewrite robot_odoms_app, app_length. split.
  - intro E. apply app_eq_nil in E. tauto.
  - exists i. split; [lia|auto].
Qed.

Lemma filter_stores (f g k : bf -> bool) l : (forall b, In b l -> k b = true -> f b = true /\ g b = true) -> (forall b, f b = true -> g b = true -> k b = true) ->
  filter f (filter g l) = filter k l.
Proof.
  intros H1 H2. induction l as [|b l IH]; auto. cbn [filter]. assert (IH' := IH (fun b H => H1 b (or_intror H))).
  destruct (k b) eqn:K.
  - destruct (H1 b (or_introl eq_refl) K) as [A B]. rewrite B. cbn [filter]. rewrite A, IH'. auto.
  - destruct (g b) eqn:EG; auto. cbn [filter]. destruct (f b) eqn:EF; auto. rewrite (H2 b EF EG) in K. discriminate K.
Qed.

Definition sights (l : key) (M : list (sighting O)) : list (bf * (N -> key -> t_T O)) := filter (fun x => of_landmark C l (fst x)) (map (@si_obs O) M).

Lemma sights_app l M N : sights l (M ++ N) = sights l M ++ sights l N.
Proof. unfold sights. rewrite map_app, filter_app. auto. Qed.
Lemma sighted_in P o x : In x (map (@si_obs O) (sighted C W P o)) -> In (fst x) (all_betweens o) /\ sp_lmk C (fst x) = true /\ snd x = refs_after C W (P ++ [o]).
Proof.
  unfold sighted, all_betweens. destruct (call_of o) as [[fs vs]|]; [|intros []]. rewrite map_app, !map_map. cbn [si_obs].
  intro H. apply in_app_or in H. destruct H as [H|H]; apply in_map_iff in H; destruct H as (b & <- & H); apply filter_In in H; destruct H as [H1 H2]; cbn [fst snd].
  - split; [exact H1|]. split; [|auto]. unfold sp_first in H2. apply andb_true_iff in H2. exact (proj1 H2).
  - apply filter_In in H1. split; [exact (proj1 H1)|]. split; [|auto]. unfold stores_lm in H2. apply andb_true_iff in H2. exact (proj2 H2).
Qed.
Lemma current_suffix l M : exists l0, sights l M = l0 ++ current C l M.
Proof.
  induction M as [|x M IH] using rev_ind; [exists []; reflexivity|]. destruct IH as [l0 E]. rewrite sights_app, E. unfold current. rewrite fold_left_app. fold (current C l M).
  unfold sights. cbn [fold_left map filter]. destruct (of_landmark C l (fst (si_obs x))); [destruct (si_first x)|].
  - exists (l0 ++ current C l M). auto.
  - exists l0. rewrite app_assoc. auto.
  - exists l0. rewrite app_nil_r. auto.
Qed.


Section Whole.
Variable h : list op.
Variable s : solver O.
Variable rs : list ret.
Hypothesis R : run C W h (solver_init true) = Ok s rs.

Section Pair.
Variable id : obsid.
Variable fine : list op -> bf -> Prop.
Hypothesis fine_more : forall P T b, fine P b -> fine (P ++ T) b.
Hypothesis TC : forall h1 o h2 b, h = h1 ++ o :: h2 -> In b (candidates C o) -> closure C id b = true -> fine (h1 ++ [o]) b.
Hypothesis fine_stores : forall P o T b, h = (P ++ [o]) ++ T -> fine (P ++ [o]) b -> sp_lmk C b = false ->
  stores C (knows (P ++ [o])) (refs_after C W (P ++ [o])) b = true.
Hypothesis fine_pass : forall P T x y, h = P ++ T -> fine P x -> fine P y -> sp_loop_test (refs_after C W P) x y = Some true.

Lemma any_pair_prefix P : forall T, h = P ++ T ->
  map fst (pair_items C W id P) = closures_in C id P /\
  (forall x, In x (pair_items C W id P) -> fine P (fst x)) /\
  in_order (pair_items C W id P) (fun x y => lc_test x y = Some true).
Proof.
  induction P as [|o P IH] using rev_ind; intros T E.
  - split; [reflexivity|]. split; [intros x []|intros i j x y _ Ex; destruct i; discriminate Ex].
  - assert (E' : h = P ++ o :: T) by (rewrite E, <- app_assoc; auto). destruct (IH _ E') as (I1 & I2 & I3).
    assert (NW : filter (fun x => of_pair id (fst x)) (newly C W P o) =
                 map (fun b => (b, refs_after C W (P ++ [o]))) (filter (closure C id) (candidates C o))).
    { unfold newly, candidates. destruct (call_of o) as [[fs vs]|] eqn:EC; [|reflexivity]. rewrite filter_map_fst. f_equal. apply filter_stores.
      - intros b Hb K. assert (Hc : In b (candidates C o)) by (unfold candidates; rewrite EC; auto).
        pose proof (@TC _ _ _ _ E' Hc K) as FI. unfold closure in K. apply andb_true_iff in K. destruct K as [K1 K2]. split; auto.
        apply (@fine_stores P o T); auto. apply negb_true_iff. auto.
      - intros b HB HA. unfold stores in HA. rewrite !andb_true_iff in HA. unfold closure. rewrite HB. tauto. }
    assert (PI : pair_items C W id (P ++ [o]) = pair_items C W id P ++ map (fun b => (b, refs_after C W (P ++ [o]))) (filter (closure C id) (candidates C o))).
    { unfold pair_items. rewrite sp_stored_snoc, filter_app, NW. auto. }
    assert (FI : forall x, In x (pair_items C W id (P ++ [o])) -> fine (P ++ [o]) (fst x)).
    { intros x Hx. rewrite PI in Hx. apply in_app_or in Hx. destruct Hx as [Hx|Hx]; [apply fine_more, I2; auto|].
      apply in_map_iff in Hx. destruct Hx as (b & <- & Hb). apply filter_In in Hb. destruct Hb as [Hb K]. exact (@TC _ _ _ _ E' Hb K). }
    split; [|split; [exact FI|]].
    + rewrite PI, map_app, map_map, I1. cbn [fst]. rewrite map_id. unfold closures_in. rewrite flat_map_app, filter_app. cbn [flat_map]. rewrite app_nil_r. auto.
    + rewrite PI in *. apply in_order_app; auto. intros x y Hx Hy.
      pose proof (FI x Hx) as X1. pose proof (FI y (in_or_app _ _ _ (or_intror Hy))) as Y1.
      apply in_map_iff in Hy. destruct Hy as (b & <- & Hb). cbn [fst snd] in *. exact (@fine_pass _ _ _ _ E X1 Y1).
Qed.

Theorem any_closures : c_loop_check C = true -> no_removal h ->
  small C (length (sp_stored C W h)) -> pair_ignored h id = false ->
  Permutation (graph_lcs C h id (s_nfg s)) (closures_in C id h).
Proof.
  intros HL NR SM IG. destruct (@any_pair_prefix h [] (eq_sym (app_nil_r h))) as (E & FI & IO). rewrite <- E. revert IO. rewrite <- (live_items_pair C W id NR). intro IO.
  rewrite <- any_members. apply (@pairs_group O C W h s rs id (fun _ => true) HL R (sound_none C W NR) SM (fun _ => NR) IG). apply any_separate. exact IO.
Qed.
End Pair.

Section Landmark.
Variable l : key.
Variable clear : list op -> bf -> Prop.
Hypothesis clear_more : forall P T b, clear P b -> clear (P ++ T) b.
Hypothesis TS : forall h1 o h2 b, h = h1 ++ o :: h2 -> In b (all_betweens o) -> of_landmark C l b = true -> sp_lmk C b = true -> clear (h1 ++ [o]) b.
Hypothesis clear_from : forall b, clear h b -> b_from b <> l.
Hypothesis clear_pass : forall P T x y, h = P ++ T -> clear P x -> clear P y -> sp_lm_test (refs_after C W P) x y = Some true.

Lemma any_lm_prefix P : forall T, h = P ++ T ->
  (forall x, In x (sights l (sp_sightings C W P)) -> clear P (fst x)) /\ in_order (sights l (sp_sightings C W P)) (fun x y => lm_test x y = Some true).
Proof.
  induction P as [|o P IH] using rev_ind; intros T E.
  - split; [intros x []|intros i j x y _ Ex; destruct i; discriminate Ex].
  - assert (E' : h = P ++ o :: T) by (rewrite E, <- app_assoc; auto). destruct (IH _ E') as (I2 & I3).
    assert (PI : sights l (sp_sightings C W (P ++ [o])) = sights l (sp_sightings C W P) ++ sights l (sighted C W P o)) by (rewrite sp_sightings_snoc; apply sights_app).
    assert (NW : forall x, In x (sights l (sighted C W P o)) -> clear (P ++ [o]) (fst x) /\ snd x = refs_after C W (P ++ [o])).
    { intros x Hx. apply filter_In in Hx. destruct Hx as [Hx K]. destruct (sighted_in _ _ _ Hx) as (A & B & D). split; [|exact D]. exact (@TS _ _ _ _ E' A K B). }
    assert (FI : forall x, In x (sights l (sp_sightings C W (P ++ [o]))) -> clear (P ++ [o]) (fst x)).
    { intros x Hx. rewrite PI in Hx. apply in_app_or in Hx. destruct Hx as [Hx|Hx]; [apply clear_more, I2; auto|apply NW; auto]. }
    split; [exact FI|]. rewrite PI in *. apply in_order_app; auto. intros x y Hx Hy.
    pose proof (FI x Hx) as X1. destruct (NW y Hy) as (Y1 & Y5). unfold lm_test. rewrite Y5. exact (@clear_pass _ _ _ _ E X1 Y1).
Qed.

Theorem any_sightings : graph_lms C h l (s_nfg s) = map fst (current C l (sp_sightings C W h)).
Proof.
  pose proof (eq_sym (app_nil_r h)) as EH. destruct (@any_lm_prefix h [] EH) as (FI & IO).
  destruct (current_suffix l (sp_sightings C W h)) as [l0 ES]. rewrite ES in FI, IO. apply in_order_suffix in IO.
  assert (FC : forall x, In x (current C l (sp_sightings C W h)) -> clear h (fst x)) by (intros x Hx; apply FI, in_or_app; auto).
  assert (REC : recorded l (current C l (sp_sightings C W h)) = current C l (sp_sightings C W h)).
  { unfold recorded. destruct (Nat.leb _ 1); auto. cbn [orb].
    destruct (current C l (sp_sightings C W h)) as [|x0 rest] eqn:EM; [reflexivity|]. rewrite <- EM in *.
    replace (forallb (fun x => negb (b_from (fst x) =? l)%N) (current C l (sp_sightings C W h))) with true; auto. symmetry. apply forallb_forall. intros x Hx.
    apply negb_true_iff, N.eqb_neq. apply clear_from, FC, Hx. }
  rewrite <- REC in IO. rewrite <- REC at 1. rewrite <- any_members. apply (@landmarks_group O C W h s rs l (fun _ => true) R). apply any_separate. exact IO.
Qed.
End Landmark.
End Whole.
End Any.
