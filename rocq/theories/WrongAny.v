(** * Wrong measurements that fail every test against the right ones, for any way of keeping poses *)
From Coq Require Import ZArith Bool List Lia Permutation.
From Verif Require Import Prelude Num Keys KMap UMap Geometry Factors Clique Pcm Params Solver PcmSpec HistSpec StoreSpec RemoveSpec ApartSpec IncSpec HeuSpec ExactSpec
  PcmProofs PcmInv PcmStore SolverProofs HistProofs StoreProofs TrajProofs TrajRel AlgProofs ItemProofs ApartProofs ApartMore NanProofs OutlierSpec GroupSpec GroupProofs OutlierProofs LatticeSpec LatticeProofs LatticeHist
  TrueSpec TrueAny WholeSpec WholeAny WrongSpec.
Set Implicit Arguments.
Local Open Scope nat_scope.

Lemma filter_map_fst_eq {A B} (f : A -> bool) (l : list (A * B)) : filter f (map fst l) = map fst (filter (fun x => f (fst x)) l).
Proof. induction l as [|x l IH]; cbn; auto. destruct (f (fst x)); cbn; rewrite IH; auto. Qed.
Lemma mostly_perm {A} (f : A -> bool) l l' : Permutation l l' -> mostly f l -> mostly f l'.
Proof. unfold mostly. intro P. rewrite (Permutation_length P), (Permutation_length (filter_perm f P)). auto. Qed.
(** Leaving out some that are not good. *)
Lemma mostly_part {A} (f k : A -> bool) l : (forall x, f x = true -> k x = true) -> mostly f l -> mostly f (filter k l).
Proof.
  intros H M. unfold mostly in *. assert (E : filter f (filter k l) = filter f l).
  { rewrite filter_filter_and. apply filter_ext_on. intros x _. destruct (f x) eqn:E; [rewrite (H x E); auto|apply andb_false_r]. }
  rewrite E. pose proof (Permutation_length (filter_parts k l)) as L. rewrite app_length in L. lia.
Qed.

Lemma outnumbered_perm {A} (f : A -> bool) k l l' : Permutation l l' -> outnumbered f k l -> outnumbered f k l'.
Proof.
  intros P H a Ia Fa. pose proof (H a (Permutation_in _ (Permutation_sym P) Ia) Fa) as Q.
  rewrite (Permutation_length (filter_perm (fun b => negb (f b) && k a b) P)), (Permutation_length (filter_perm f P)) in Q. exact Q.
Qed.
(** Leaving out some that are not good. *)
Lemma outnumbered_less {A} (f : A -> bool) k l ms : Forall (fun b => f b = false) ms -> outnumbered f k (l ++ ms) -> outnumbered f k l.
Proof.
  intros HF H a Ia Fa. pose proof (H a (in_or_app _ _ _ (or_introl Ia)) Fa) as Q. rewrite !filter_app, !app_length in Q.
  replace (filter f ms) with (@nil A) in Q; [cbn [length] in Q; lia|]. clear - HF. induction HF as [|b ms Hb HF IH]; cbn; auto. rewrite Hb. exact IH.
Qed.
Lemma mostly_outnumbered {A} (f : A -> bool) k l : mostly f l -> outnumbered f k l.
Proof.
  intros M a _ _. unfold mostly in M. pose proof (Permutation_length (filter_parts f l)) as L. rewrite app_length in L.
  assert (Q : length (filter (fun b => negb (f b) && k a b) l) <= length (filter (fun b => negb (f b)) l)).
  { clear. induction l as [|b l IH]; cbn; auto. destruct (f b); cbn; auto. destruct (k a b); cbn; lia. }
  lia.
Qed.

Section Any.
Variable O : tops.
Variable C : config.
Variable W : soracles O.
Notation op := (op O).
Notation bf := (bf O).
Notation item := (bf * (N -> key -> t_T O))%type.
Variable good : bf -> bool.

Definition goods (M : list item) (i : nat) : bool := match nth_error M i with Some x => good (fst x) | None => false end.
Lemma members_app_part (M N : list item) : at_places (O := O) (M ++ N) (filter (goods (M ++ N)) (seq 0 (length M))) = at_places (O := O) M (members (length M) (goods M)).
Proof.
  unfold at_places, members.
  rewrite (filter_ext_on (goods (M ++ N)) (goods M)).
  - apply flat_map_in_ext. intros j Hj. apply filter_In in Hj. destruct Hj as [Hj _]. apply in_seq in Hj. rewrite nth_error_app1 by lia. reflexivity.
  - intros j Hj. apply in_seq in Hj. unfold goods. rewrite nth_error_app1 by lia. reflexivity.
Qed.
Lemma members_good (M : list item) : at_places (O := O) M (members (length M) (goods M)) = filter good (map fst M).
Proof.
  induction M as [|x M IH] using rev_ind; [reflexivity|].
  unfold members. rewrite app_length, Nat.add_1_r, seq_S, filter_app, map_app, filter_app. unfold at_places. rewrite flat_map_app.
  fold (at_places (O := O) (M ++ [x]) (filter (goods (M ++ [x])) (seq 0 (length M)))). rewrite members_app_part, IH. f_equal.
  cbn [Nat.add filter map]. unfold goods at 1. rewrite nth_error_app2, Nat.sub_diag by lia. cbn [nth_error]. destruct (good (fst x)); cbn [flat_map]; auto.
  rewrite nth_error_app2, Nat.sub_diag by lia. reflexivity.
Qed.
Lemma count_good (M : list item) : length (filter (goods M) (seq 0 (length M))) = length (filter good (map fst M)).
Proof.
  induction M as [|x M IH] using rev_ind; [reflexivity|].
  rewrite app_length, Nat.add_1_r, seq_S, filter_app, map_app, filter_app, !app_length. f_equal.
  - rewrite (filter_ext_on (goods (M ++ [x])) (goods M)); [exact IH|]. intros j Hj. apply in_seq in Hj. unfold goods. rewrite nth_error_app1 by lia. reflexivity.
  - cbn [Nat.add filter map]. unfold goods. rewrite nth_error_app2, Nat.sub_diag by lia. cbn [nth_error]. destruct (good (fst x)); auto.
Qed.

(** Right ones agree; wrong ones do not agree with right ones, and only with their friends. *)
Definition told_apart (friends : bf -> bf -> bool) (test : item -> item -> option bool) (x y : item) : Prop :=
  (good (fst x) = true -> good (fst y) = true -> test x y = Some true) /\ (good (fst x) <> good (fst y) -> test x y = Some false) /\
  (good (fst x) = false -> good (fst y) = false -> friends (fst x) (fst y) && friends (fst y) (fst x) = false -> test x y = Some false).
End Any.

(** [majority_separate] for any way of keeping poses. *)
Lemma any_group O good friends (test : bf O * (N -> key -> t_T O) -> bf O * (N -> key -> t_T O) -> option bool) M : (forall b, friends b b = true) ->
  in_order M (told_apart good friends test) -> outnumbered good friends (map fst M) -> separate_group (length M) (agreeb test M) (goods good M).
Proof.
  intros FR H HM.
  assert (GV : forall i x, nth_error M i = Some x -> goods good M i = good (fst x)) by (intros i x E; unfold goods; rewrite E; reflexivity).
  assert (AG : forall i j x y, nth_error M i = Some x -> nth_error M j = Some y -> i < j -> agreeb test M i j = passes (test x y)).
  { intros i j x y Ex Ey Lij. unfold agreeb. rewrite Ex, Ey. rewrite (proj2 (Nat.ltb_lt i j) Lij). reflexivity. }
  assert (T1 : forall i j, i < length M -> j < length M -> i < j -> (goods good M i = true -> goods good M j = true -> agreeb test M i j = true) /\
    (goods good M i <> goods good M j -> agreeb test M i j = false)).
  { intros i j Hi Hj Lij. destruct (nth_error M i) as [x|] eqn:Ex; [|apply nth_error_None in Ex; lia]. destruct (nth_error M j) as [y|] eqn:Ey; [|apply nth_error_None in Ey; lia].
    destruct (H i j x y (Nat.lt_le_incl _ _ Lij) Ex Ey) as (A & B & _). rewrite (AG i j x y Ex Ey Lij), (GV i x Ex), (GV j y Ey). split; [intros U V; rewrite (A U V); reflexivity|intro U; rewrite (B U); reflexivity]. }
  assert (B' : forall i j, i < length M -> j < length M -> goods good M i = true -> goods good M j = false -> agreeb test M i j = false).
  { intros i j Hi Hj Gi Gj. destruct (Nat.lt_trichotomy i j) as [L|[L|L]]; [|subst; congruence|].
    - apply (proj2 (T1 i j Hi Hj L)). congruence.
    - rewrite agreeb_sym. apply (proj2 (T1 j i Hj Hi L)). congruence. }
  split; [|split; [exact B'|]].
  - intros i j Hi Hj N Gi Gj. destruct (Nat.lt_trichotomy i j) as [L|[L|L]]; [|contradiction|].
    + exact (proj1 (T1 i j Hi Hj L) Gi Gj).
    + rewrite agreeb_sym. exact (proj1 (T1 j i Hj Hi L) Gj Gi).
  - intros j Hj Gj. destruct (nth_error M j) as [y|] eqn:Ey; [|apply nth_error_None in Ey; lia].
    assert (Gy : good (fst y) = false) by (rewrite <- (GV j y Ey); exact Gj).
    assert (Iy : In (fst y) (map fst M)) by (apply in_map; eapply nth_error_In; exact Ey).
    pose proof (HM (fst y) Iy Gy) as Q. unfold members. rewrite count_good. eapply Nat.le_lt_trans; [|exact Q].
    rewrite <- (count_good (fun b => negb (good b) && friends (fst y) b) M).
    set (p := goods (fun b => negb (good b) && friends (fst y) b) M).
    assert (ND : NoDup (j :: filter (agreeb test M j) (seq 0 (length M)))).
    { constructor; [|apply NoDup_filter, seq_NoDup]. rewrite filter_In. intros [_ E]. rewrite agreeb_irr in E. discriminate E. }
    change (length (j :: filter (agreeb test M j) (seq 0 (length M))) <= length (filter p (seq 0 (length M)))).
    apply NoDup_incl_length; [exact ND|]. intros i [<-|Hi]; apply filter_In.
    + split; [apply in_seq; lia|]. unfold p, goods. rewrite Ey, Gy, FR. reflexivity.
    + apply filter_In in Hi. destruct Hi as [Hi E]. split; [exact Hi|]. apply in_seq in Hi. destruct Hi as [_ Hi]. cbn in Hi.
      destruct (nth_error M i) as [x|] eqn:Ex; [|apply nth_error_None in Ex; lia].
      assert (Gi : goods good M i = false) by (destruct (goods good M i) eqn:Gi; auto; rewrite agreeb_sym, (B' i j Hi Hj Gi Gj) in E; discriminate E).
      assert (Gx : good (fst x) = false) by (rewrite <- (GV i x Ex); exact Gi).
      unfold p, goods. rewrite Ex, Gx. cbn [negb andb]. destruct (friends (fst y) (fst x)) eqn:FE; auto. exfalso.
      destruct (Nat.lt_trichotomy i j) as [L|[L|L]].
      * destruct (H i j x y (Nat.lt_le_incl _ _ L) Ex Ey) as (_ & _ & D). rewrite agreeb_sym, (AG i j x y Ex Ey L), D in E; [discriminate E|exact Gx|exact Gy|rewrite FE; apply andb_false_r].
      * subst i. rewrite agreeb_irr in E. discriminate E.
      * destruct (H j i y x (Nat.lt_le_incl _ _ L) Ey Ex) as (_ & _ & D). rewrite (AG j i y x Ey Ex L), D in E; [discriminate E|exact Gy|exact Gx|rewrite FE; reflexivity].
Qed.

Section Hist.
Variable O : tops.
Variable C : config.
Variable W : soracles O.
Notation op := (op O).
Notation bf := (bf O).
Notation item := (bf * (N -> key -> t_T O))%type.
Variable good : bf -> bool.
Variable friends : bf -> bf -> bool.
Hypothesis FR : forall b, friends b b = true.
Variable h : list op.
Variable s : solver O.
Variable rs : list ret.
Hypothesis R : run C W h (solver_init true) = Ok s rs.

Section Pair.
Variable id : obsid.
Variable fine : list op -> bf -> Prop.
Hypothesis fine_more : forall P T b, fine P b -> fine (P ++ T) b.
Hypothesis TC : forall h1 o h2 b, h = h1 ++ o :: h2 -> In b (candidates C o) -> closure C id b = true -> fine (h1 ++ [o]) b.
Hypothesis fine_stores : forall P o T b, h = (P ++ [o]) ++ T -> fine (P ++ [o]) b -> good b = true -> sp_lmk C b = false ->
  stores C (knows (P ++ [o])) (refs_after C W (P ++ [o])) b = true.
Hypothesis fine_told : forall P T x y, h = P ++ T -> fine P x -> fine P y -> In x (closures_in C id h) -> In y (closures_in C id h) ->
  told_apart good friends (@lc_test O) (x, refs_after C W P) (y, refs_after C W P).

Lemma closures_prefix P T b : h = P ++ T -> In b (closures_in C id P) -> In b (closures_in C id h).
Proof. intros -> H. unfold closures_in in *. rewrite flat_map_app, filter_app. apply in_or_app. left. exact H. Qed.
(** What is stored: some of the closures, all the right ones among them. *)
Lemma mixed_prefix P : forall T, h = P ++ T ->
  (exists ms, Permutation (closures_in C id P) (map fst (pair_items C W id P) ++ ms) /\ Forall (fun b => good b = false) ms) /\
  filter good (map fst (pair_items C W id P)) = filter good (closures_in C id P) /\
  (forall x, In x (pair_items C W id P) -> fine P (fst x) /\ In (fst x) (closures_in C id P)) /\
  in_order (pair_items C W id P) (told_apart good friends (@lc_test O)).
Proof.
  induction P as [|o P IH] using rev_ind; intros T E.
  - split; [exists []; split; [apply perm_nil|constructor]|]. split; [reflexivity|]. split; [intros x []|intros i j x y _ Ex; destruct i; discriminate Ex].
  - assert (E' : h = P ++ o :: T) by (rewrite E, <- app_assoc; auto). destruct (IH _ E') as ((ms & I0 & IM) & I1 & I2 & I3).
    set (st := stores C (knows (P ++ [o])) (refs_after C W (P ++ [o]))).
    set (ref := refs_after C W (P ++ [o])).
    set (cl := filter (closure C id) (candidates C o)).
    assert (FC : forall b, In b cl -> fine (P ++ [o]) b).
    { intros b Hb. apply filter_In in Hb. destruct Hb as [Hb K]. exact (@TC _ _ _ _ E' Hb K). }
    assert (GS : forall b, In b cl -> good b = true -> st b = true).
    { intros b Hb Gb. pose proof (FC b Hb) as FI. apply filter_In in Hb. destruct Hb as [_ K]. unfold closure in K. apply andb_true_iff in K. destruct K as [_ K]. apply negb_true_iff in K.
      exact (@fine_stores P o T b E FI Gb K). }
    assert (NW : filter (fun x => of_pair id (fst x)) (newly C W P o) = map (fun b => (b, ref)) (filter st cl)).
    { unfold cl, newly, candidates. destruct (call_of o) as [[fs vs]|] eqn:EC; [|reflexivity]. rewrite filter_map_fst. f_equal. fold st.
      rewrite (filter_filter_and (of_pair id) st), (filter_filter_and st (closure C id)). apply filter_ext_on. intros b _. unfold closure. destruct (st b) eqn:ES; [|rewrite andb_false_r; reflexivity]. rewrite andb_true_r. cbn [andb].
      unfold st, stores in ES. apply andb_true_iff in ES. destruct ES as [ES _]. apply andb_true_iff in ES. destruct ES as [_ ES]. rewrite ES, andb_true_r. reflexivity. }
    assert (PI : pair_items C W id (P ++ [o]) = pair_items C W id P ++ map (fun b => (b, ref)) (filter st cl)).
    { unfold pair_items. rewrite sp_stored_snoc, filter_app, NW. auto. }
    assert (CI : closures_in C id (P ++ [o]) = closures_in C id P ++ cl).
    { unfold closures_in. rewrite flat_map_app, filter_app. cbn [flat_map]. rewrite app_nil_r. auto. }
    assert (FI : forall x, In x (pair_items C W id (P ++ [o])) -> fine (P ++ [o]) (fst x) /\ In (fst x) (closures_in C id (P ++ [o]))).
    { intros x Hx. rewrite PI in Hx. rewrite CI. apply in_app_or in Hx. destruct Hx as [Hx|Hx].
      - destruct (I2 x Hx) as [A B]. split; [apply fine_more; exact A|apply in_or_app; left; exact B].
      - apply in_map_iff in Hx. destruct Hx as (b & <- & Hb). apply filter_In in Hb. destruct Hb as [Hb _]. cbn [fst]. split; [apply FC; exact Hb|apply in_or_app; right; exact Hb]. }
    split; [|split; [|split; [exact FI|]]].
    + exists (ms ++ filter (fun b => negb (st b)) cl). split.
      * rewrite CI, PI, map_app, map_map. cbn [fst]. rewrite map_id.
        eapply perm_trans; [apply Permutation_app; [exact I0|apply (filter_parts st)]|]. rewrite <- !app_assoc. apply Permutation_app_head.
        rewrite !app_assoc. apply Permutation_app_tail, Permutation_app_comm.
      * apply Forall_app. split; [exact IM|]. apply Forall_forall. intros b Hb. apply filter_In in Hb. destruct Hb as [Hb N]. destruct (good b) eqn:Gb; auto. rewrite (GS b Hb Gb) in N. discriminate N.
    + rewrite CI, PI, map_app, !filter_app, I1, map_map. cbn [fst]. rewrite map_id. f_equal. rewrite filter_filter_and. apply filter_ext_on. intros b Hb.
      destruct (good b) eqn:Gb; [rewrite (GS b Hb Gb); reflexivity|apply andb_false_r].
    + rewrite PI in *. apply in_order_app; auto. intros x y Hx Hy.
      destruct (FI x Hx) as [X1 X2]. destruct (FI y (in_or_app _ _ _ (or_intror Hy))) as [Y1 Y2].
      apply in_map_iff in Hy. destruct Hy as (b & <- & Hb). cbn [fst snd] in *.
      exact (@fine_told _ _ _ _ E X1 Y1 (@closures_prefix _ _ _ E X2) (@closures_prefix _ _ _ E Y2)).
Qed.

Theorem mixed_pair : c_loop_check C = true -> no_removal h -> small C (length (sp_stored C W h)) -> pair_ignored h id = false -> outnumbered good friends (closures_in C id h) ->
  Permutation (graph_lcs C h id (s_nfg s)) (filter good (closures_in C id h)).
Proof.
  intros HL NR SM IG MO. destruct (@mixed_prefix h [] (eq_sym (app_nil_r h))) as ((ms & E0 & EM) & E1 & FI & IO).
  assert (MM : outnumbered good friends (map fst (pair_items C W id h))) by exact (@outnumbered_less _ _ _ _ _ EM (@outnumbered_perm _ _ _ _ _ E0 MO)).
  rewrite <- E1. revert IO MM. rewrite <- (live_items_pair C W id NR). intros IO MM.
  rewrite <- members_good. apply (@pairs_group O C W h s rs id _ HL R (sound_none C W NR) SM (fun _ => NR) IG). apply (@any_group O good friends _ _ FR IO MM).
Qed.
End Pair.

Section Landmark.
Variable l : key.
Variable clear : list op -> bf -> Prop.
Hypothesis clear_more : forall P T b, clear P b -> clear (P ++ T) b.
Hypothesis TS : forall h1 o h2 b, h = h1 ++ o :: h2 -> In b (all_betweens o) -> of_landmark C l b = true -> sp_lmk C b = true -> clear (h1 ++ [o]) b.
Hypothesis clear_from : forall b, clear h b -> b_from b <> l.
Hypothesis clear_told : forall P T x y, h = P ++ T -> clear P x -> clear P y -> told_apart good friends (@lm_test O) (x, refs_after C W P) (y, refs_after C W P).

Lemma mixed_lm_prefix P : forall T, h = P ++ T ->
  (forall x, In x (sights C l (sp_sightings C W P)) -> clear P (fst x)) /\ in_order (sights C l (sp_sightings C W P)) (told_apart good friends (@lm_test O)).
Proof.
  induction P as [|o P IH] using rev_ind; intros T E.
  - split; [intros x []|intros i j x y _ Ex; destruct i; discriminate Ex].
  - assert (E' : h = P ++ o :: T) by (rewrite E, <- app_assoc; auto). destruct (IH _ E') as (I2 & I3).
    assert (PI : sights C l (sp_sightings C W (P ++ [o])) = sights C l (sp_sightings C W P) ++ sights C l (sighted C W P o)) by (rewrite sp_sightings_snoc; apply sights_app).
    assert (NW : forall x, In x (sights C l (sighted C W P o)) -> clear (P ++ [o]) (fst x) /\ snd x = refs_after C W (P ++ [o])).
    { intros x Hx. apply filter_In in Hx. destruct Hx as [Hx K]. destruct (sighted_in C W _ _ _ Hx) as (A & B & D). split; [|exact D]. exact (@TS _ _ _ _ E' A K B). }
    assert (FI : forall x, In x (sights C l (sp_sightings C W (P ++ [o]))) -> clear (P ++ [o]) (fst x)).
    { intros x Hx. rewrite PI in Hx. apply in_app_or in Hx. destruct Hx as [Hx|Hx]; [apply clear_more, I2; auto|apply NW; auto]. }
    split; [exact FI|]. rewrite PI in *. apply in_order_app; auto. intros x y Hx Hy.
    pose proof (FI x Hx) as X1. destruct (NW y Hy) as (Y1 & Y5). pose proof (@clear_told _ _ _ _ E X1 Y1) as T0. unfold told_apart, lm_test in *. cbn [fst snd] in T0. rewrite Y5. exact T0.
Qed.

Theorem mixed_lm : outnumbered good friends (map fst (current C l (sp_sightings C W h))) ->
  graph_lms C h l (s_nfg s) = filter good (map fst (current C l (sp_sightings C W h))).
Proof.
  intro MO. pose proof (eq_sym (app_nil_r h)) as EH. destruct (@mixed_lm_prefix h [] EH) as (FI & IO).
  destruct (current_suffix C l (sp_sightings C W h)) as [l0 ES]. rewrite ES in FI, IO. apply in_order_suffix in IO.
  assert (FC : forall x, In x (current C l (sp_sightings C W h)) -> clear h (fst x)) by (intros x Hx; apply FI, in_or_app; auto).
  assert (REC : recorded l (current C l (sp_sightings C W h)) = current C l (sp_sightings C W h)).
  { unfold recorded. destruct (Nat.leb _ 1); auto. cbn [orb].
    destruct (current C l (sp_sightings C W h)) as [|x0 rest] eqn:EM; [reflexivity|]. rewrite <- EM in *.
    replace (forallb (fun x => negb (b_from (fst x) =? l)%N) (current C l (sp_sightings C W h))) with true; auto. symmetry. apply forallb_forall. intros x Hx.
    apply negb_true_iff, N.eqb_neq. apply clear_from, FC, Hx. }
  rewrite <- REC in IO, MO. rewrite <- REC at 1. rewrite <- members_good. apply (@landmarks_group O C W h s rs l _ R). apply (@any_group O good friends _ _ FR IO MO).
Qed.
End Landmark.
End Hist.
