(** * Delivering factors in one call or in several *)
From Verif Require Import Prelude Num Keys KMap UMap Geometry Factors Clique Pcm Solver ValuesProofs
  PcmSpec PcmProofs PcmInv PcmStore HistSpec SolverProofs HistProofs.
Set Implicit Arguments.
Local Open Scope nat_scope.

Definition rmap {A B} (f : A -> B) (r : res A) : res B := match r with Val x => Val (f x) | Bad u => Bad u end.

Section Deliver.
Variable O : tops.
Variable C : config.
Variable W : soracles O.
Notation bf := (bf O).
Notation factor := (factor O).
Notation values := (values O).
Notation graph_t := (graph_t O).
Notation T := (t_T O).
Notation pcm := (pcm O).
Notation meas := (meas O).
Notation sp := (c_special C).
Notation op := (op O).
Notation solver := (solver O).
Notation start := (@solver_init O true).
Notation lc_get := (uget oid_eqb (@meas_default O)).
Notation lm_get := (uget N.eqb (@meas_default O)).

(** ** Everything that the intake of loop closures neither reads nor writes, blanked *)
Definition blank (m : meas) : meas := Meas (me_factors m) [] (me_adj m).
Definition bmap {K} (m : umap K meas) : umap K meas := map (fun kv => (fst kv, blank (snd kv))) m.
Definition reframe (s : list factor) (r : list N) (p : pcm) : pcm :=
  Pcm (p_odom p) s (bmap (p_lcs p)) (p_trajs p) (bmap (p_lms p)) (p_order p) (p_total p) 0 (p_ignored p) r.

Lemma bmap_find {K} eqb (k : K) m : ufind eqb k (bmap m) = option_map blank (ufind eqb k m).
Proof. induction m as [|[k' v] m IH]; cbn; auto. destruct (eqb k k'); auto. Qed.
Lemma bmap_get {K} eqb (k : K) m : uget eqb (@meas_default O) k (bmap m) = blank (uget eqb (@meas_default O) k m).
Proof. unfold uget. rewrite bmap_find. destruct (ufind eqb k m); auto. Qed.
Lemma bmap_set {K} eqb (k : K) v m : uset eqb k (blank v) (bmap m) = bmap (uset eqb k v m).
Proof. induction m as [|[k' v'] m IH]; cbn; auto. destruct (eqb k k'); cbn; auto. f_equal. apply IH. Qed.
Lemma bmap_bmap {K} (m : umap K meas) : bmap (bmap m) = bmap m.
Proof. unfold bmap. rewrite map_map. reflexivity. Qed.

Variables (s0 : list factor) (r0 : list N).
Notation F := (reframe s0 r0).

Lemma F_traj_between p c a b : traj_between (F p) c a b = let '(t, p') := traj_between p c a b in (t, F p').
Proof. unfold traj_between. cbn [p_trajs reframe]. destruct (get_between _ a b). reflexivity. Qed.

Lemma F_odom p b : is_odom_consistent C (F p) b = rmap (fun x => (fst x, F (snd x))) (is_odom_consistent C p b).
Proof.
  unfold is_odom_consistent. destruct (negb (c_odom_check C)); auto. rewrite F_traj_between.
  destruct (traj_between p (chr (b_from b)) (b_from b) (b_to b)) as [t p']. destruct (t_of O b); auto.
Qed.

Lemma F_loops p f1 f2 : are_loops_consistent C (F p) f1 f2 = rmap (fun x => (fst x, F (snd x))) (are_loops_consistent C p f1 f2).
Proof.
  unfold are_loops_consistent. destruct (negb (c_loop_check C)); auto.
  destruct (t_of O f1); auto. destruct (t_of O f2); auto.
  destruct (if (chr (b_from f1) =? chr (b_from f2))%N then _ else _) as [c d].
  rewrite F_traj_between. destruct (traj_between p _ _ _) as [t1 p1]. rewrite F_traj_between.
  destruct (traj_between p1 _ _ _) as [t2 p2]. reflexivity.
Qed.

Lemma F_lc_bits fs new : forall p bits, lc_bits C fs new (F p) bits = rmap (fun x => (fst x, F (snd x))) (lc_bits C fs new p bits).
Proof.
  induction fs as [|f fs IH]; intros p bits; cbn [lc_bits]; auto. rewrite F_loops.
  destruct (are_loops_consistent C p f new) as [[r p']|]; cbn [rmap rbind fst snd]; auto.
Qed.
Lemma F_lm_bits l fs new : forall p bits, lm_bits l fs new (F p) bits = rmap (fun x => (fst x, F (snd x))) (lm_bits l fs new p bits).
Proof.
  induction fs as [|f fs IH]; intros p bits; cbn [lm_bits]; auto.
  destruct (_ || _); auto. destruct (t_of O f); auto. destruct (t_of O new); auto.
  rewrite F_traj_between. destruct (traj_between p _ _ _) as [t1 p1]. auto.
Qed.

Lemma F_increment id new p : increment_adj C id new (F p) = rmap F (increment_adj C id new p).
Proof.
  unfold increment_adj. cbn [p_lcs reframe]. rewrite bmap_get. cbn [me_factors blank me_cons me_adj].
  set (m := lc_get id (p_lcs p)).
  assert (ST : forall adj (q : pcm), set_lcs (F q) (uset oid_eqb id (Meas (me_factors m) [] adj) (p_lcs (F q))) =
     F (set_lcs q (uset oid_eqb id (Meas (me_factors m) (me_cons m) adj) (p_lcs q)))).
  { intros adj q. unfold reframe, set_lcs. cbn [p_odom p_special p_lcs p_trajs p_lms p_order p_total p_good p_ignored p_robots]. f_equal. rewrite <- bmap_set. reflexivity. }
  destruct (length (me_factors m) <=? 1).
  - cbn [rmap]. f_equal. apply (ST (zero_mat (length (me_factors m))) p).
  - destruct (dims_are _ _); auto. rewrite F_lc_bits.
    destruct (lc_bits C _ new p []) as [[bits p']|]; cbn [rmap rbind fst snd]; auto. f_equal. apply ST.
Qed.

Lemma F_increment_lm l new p : increment_landmark_adj l new (F p) = rmap F (increment_landmark_adj l new p).
Proof.
  unfold increment_landmark_adj. cbn [p_lms reframe]. rewrite bmap_get. cbn [me_factors blank me_cons me_adj].
  set (m := lm_get l (p_lms p)).
  assert (ST : forall adj (q : pcm), set_lms (F q) (uset N.eqb l (Meas (me_factors m) [] adj) (p_lms (F q))) =
     F (set_lms q (uset N.eqb l (Meas (me_factors m) (me_cons m) adj) (p_lms q)))).
  { intros adj q. unfold reframe, set_lms. cbn [p_odom p_special p_lcs p_trajs p_lms p_order p_total p_good p_ignored p_robots]. f_equal. rewrite <- bmap_set. reflexivity. }
  destruct (length (me_factors m) <=? 1).
  - cbn [rmap]. f_equal. apply (ST (zero_mat (length (me_factors m))) p).
  - destruct (dims_are _ _); auto. rewrite F_lm_bits.
    destruct (lm_bits l _ new p []) as [[[bits|] p']|]; cbn [rmap rbind fst snd]; auto. f_equal. apply ST.
Qed.

Definition F2 (x : pcm * numnew) := (F (fst x), snd x).
Lemma F_parse_one vals b p nn : parse_one C vals b (F p, nn) = rmap F2 (parse_one C vals b (p, nn)).
Proof.
  cbv beta iota zeta delta [parse_one]. destruct (_ || _); auto. destruct (is_special C (b_from b) || is_special C (b_to b)).
  - set (l := landmark_key C b).
    change (p_lms (F p)) with (bmap (p_lms p)). change (p_total (F p)) with (p_total p). 
    rewrite (bmap_get N.eqb l (p_lms p) : lm_get l (bmap (p_lms p)) = _).
    assert (E : set_total (set_lms (F p) (uset N.eqb l (meas_add (blank (lm_get l (p_lms p))) b) (bmap (p_lms p)))) (S (p_total p)) =
      F (set_total (set_lms p (uset N.eqb l (meas_add (lm_get l (p_lms p)) b) (p_lms p))) (S (p_total p)))).
    { unfold reframe, set_total, set_lms. cbn [p_odom p_special p_lcs p_trajs p_lms p_order p_total p_good p_ignored p_robots]. f_equal. rewrite <- bmap_set. reflexivity. }
    rewrite E, F_increment_lm. destruct (increment_landmark_adj l b _); reflexivity.
  - assert (E : (if (chr (b_from b) =? chr (b_to b))%N then is_odom_consistent C (F p) b else Val (true, F p)) =
       rmap (fun x => (fst x, F (snd x))) (if (chr (b_from b) =? chr (b_to b))%N then is_odom_consistent C p b else Val (true, p))).
    { destruct (_ =? _)%N; auto. apply F_odom. }
    rewrite E. clear E. destruct (if (chr (b_from b) =? chr (b_to b))%N then is_odom_consistent C p b else Val (true, p)) as [[ok p1]|]; cbn [rmap rbind fst snd]; auto.
    destruct ok; auto. set (id := (chr (b_from b), chr (b_to b))).
    change (p_lcs (F p1)) with (bmap (p_lcs p1)).
    rewrite (bmap_get oid_eqb id (p_lcs p1) : lc_get id (bmap (p_lcs p1)) = _).
    assert (E2 : forall q : pcm, q = p1 -> 
      set_total (set_order (set_lcs (F q) (uset oid_eqb id (meas_add (blank (lc_get id (p_lcs q))) b) (bmap (p_lcs q))))
         (p_order (set_lcs (F q) (uset oid_eqb id (meas_add (blank (lc_get id (p_lcs q))) b) (bmap (p_lcs q)))) ++ [id]))
         (S (p_total (set_lcs (F q) (uset oid_eqb id (meas_add (blank (lc_get id (p_lcs q))) b) (bmap (p_lcs q)))))) =
      F (set_total (set_order (set_lcs q (uset oid_eqb id (meas_add (lc_get id (p_lcs q)) b) (p_lcs q)))
         (p_order (set_lcs q (uset oid_eqb id (meas_add (lc_get id (p_lcs q)) b) (p_lcs q))) ++ [id]))
         (S (p_total (set_lcs q (uset oid_eqb id (meas_add (lc_get id (p_lcs q)) b) (p_lcs q))))))).
    { intros q _. unfold reframe, set_total, set_order, set_lcs. cbn [p_odom p_special p_lcs p_trajs p_lms p_order p_total p_good p_ignored p_robots]. f_equal. rewrite <- bmap_set. reflexivity. }
    rewrite (E2 p1 eq_refl). destruct (c_loop_check C); auto. rewrite F_increment.
    destruct (increment_adj C id b _); reflexivity.
Qed.

Lemma F_parse_all vals bs : forall p nn, rfold (parse_one C vals) bs (F p, nn) = rmap F2 (rfold (parse_one C vals) bs (p, nn)).
Proof.
  induction bs as [|b bs IH]; intros p nn; cbn [rfold]; auto. rewrite F_parse_one.
  destruct (parse_one C vals b (p, nn)) as [[p' nn']|]; cbn [rmap rbind F2 fst snd]; auto.
  apply IH.
Qed.

(** [findInliers] reads no consistent factors and writes nothing else. *)
Lemma bmap_inliers {K} (f : meas -> res meas) (m : umap K meas) : (forall x, f (blank x) = f x) ->
  umapM f (bmap m) = umapM f m.
Proof. intro Hf. induction m as [|[k v] m IH]; auto.
  change (umapM f (bmap ((k, v) :: m))) with (let* v' := f (blank v) in let* m'' := umapM f (bmap m) in Val ((k, v') :: m'')).
  rewrite Hf, IH. auto.
Qed.
Lemma bmap_selected {K} (f : meas -> res meas) (m m' : umap K meas) : (forall x y, f x = Val y -> blank y = blank x) ->
  umapM f m = Val m' -> bmap m' = bmap m.
Proof.
  intro Hf. revert m'. induction m as [|[k v] m IH]; intros m' H; cbn [umapM] in H.
  - inversion H; auto.
  - destruct (f v) as [v'|] eqn:E; cbn [rbind] in H; [|discriminate].
    destruct (umapM f m) as [m''|] eqn:E2; cbn [rbind] in H; [|discriminate].
    inversion H; subst. change ((k, blank v') :: bmap m'' = (k, blank v) :: bmap m).
    rewrite (IH m'' eq_refl), (Hf _ _ E). auto.
Qed.
Lemma heu_blank (x y : meas) : heu_inliers x = Val y -> blank y = blank x.
Proof.
  unfold heu_inliers. destruct (find_max_clique_heu (me_adj x)) as [[k d]|]; cbn [rbind]; [|discriminate].
  destruct (select (me_factors x) k d); cbn [rbind]; [|discriminate]. intro H. inversion H. reflexivity.
Qed.
Lemma pair_blank (x y : meas) : pair_inliers C x = Val y -> blank y = blank x.
Proof.
  unfold pair_inliers. destruct (c_loop_check C); [apply heu_blank|]. intro H. inversion H. reflexivity.
Qed.

Definition recast (p : pcm) : pcm := set_robots (set_special p s0) r0.

Lemma F_find_inliers p : find_inliers C (F p) = rmap recast (find_inliers C p).
Proof.
  unfold find_inliers. change (p_lcs (F p)) with (bmap (p_lcs p)). change (p_lms (F p)) with (bmap (p_lms p)).
  rewrite !bmap_inliers by reflexivity.
  destruct (umapM (pair_inliers C) (p_lcs p)); cbn [rbind]; auto.
  destruct (umapM (heu_inliers (O:=O)) (p_lms p)); cbn [rbind]; auto.
Qed.
Lemma find_inliers_F p q : find_inliers C p = Val q -> F q = F p.
Proof.
  unfold find_inliers. destruct (umapM (pair_inliers C) (p_lcs p)) as [a|] eqn:E1; cbn [rbind]; [|discriminate].
  destruct (umapM (heu_inliers (O:=O)) (p_lms p)) as [b|] eqn:E2; cbn [rbind]; [|discriminate].
  intro H. inversion H. unfold reframe. cbn. f_equal;
    [eapply bmap_selected; [|exact E1]; apply pair_blank|eapply bmap_selected; [|exact E2]; apply heu_blank].
Qed.
Lemma F_recast p : F (recast p) = F p.
Proof. reflexivity. Qed.
End Deliver.

Section Batch.
Variable O : tops.
Variable C : config.
Variable W : soracles O.
Notation bf := (bf O).
Notation factor := (factor O).
Notation values := (values O).
Notation graph_t := (graph_t O).
Notation pcm := (pcm O).
Notation sp := (c_special C).
Notation op := (op O).
Notation solver := (solver O).
Notation start := (@solver_init O true).

(** Storing a batch of candidates and selecting among everything stored. *)
Definition batch (vs : values) (cs : list bf) (p : pcm) : res pcm :=
  rbind (parse_all C vs cs p) (fun x => find_inliers C (fst x)).

Lemma parse_one_nn vs b (p : pcm) nn nn' :
  rmap fst (parse_one C vs b (p, nn)) = rmap fst (parse_one C vs b (p, nn')).
Proof.
  cbv beta iota zeta delta [parse_one]. destruct (_ || _); auto. destruct (is_special C (b_from b) || is_special C (b_to b)).
  - destruct (increment_landmark_adj _ _ _); reflexivity.
  - destruct (if (chr (b_from b) =? chr (b_to b))%N then is_odom_consistent C p b else Val (true, p)) as [[[] p1]|];
      cbn [rbind rmap]; auto. destruct (c_loop_check C); auto. destruct (increment_adj _ _ _ _); reflexivity.
Qed.
Lemma parse_nn vs bs : forall (p : pcm) nn nn',
  rmap fst (rfold (parse_one C vs) bs (p, nn)) = rmap fst (rfold (parse_one C vs) bs (p, nn')).
Proof.
  induction bs as [|b bs IH]; intros p nn nn'; cbn [rfold]; auto.
  pose proof (parse_one_nn vs b p nn nn') as E.
  destruct (parse_one C vs b (p, nn)) as [[p1 n1]|], (parse_one C vs b (p, nn')) as [[p2 n2]|]; cbn [rmap fst rbind] in *;
    try discriminate; auto. inversion E; subst. apply IH.
Qed.

Lemma rfold_app {A B} (f : A -> B -> res B) l1 l2 : forall x,
  rfold f (l1 ++ l2) x = rbind (rfold f l1 x) (rfold f l2).
Proof. induction l1 as [|a l1 IH]; intro x; cbn; auto. destruct (f a x); cbn; auto. Qed.

Lemma parse_one_keys vs vs' b (x : pcm * numnew) : (forall k, kmem k vs = kmem k vs') ->
  parse_one C vs b x = parse_one C vs' b x.
Proof. intro H. destruct x. unfold parse_one. rewrite !H. reflexivity. Qed.
Lemma batch_keys vs vs' cs (p : pcm) : (forall k, kmem k vs = kmem k vs') -> batch vs cs p = batch vs' cs p.
Proof.
  intro H. unfold batch, parse_all.
  assert (G : forall x, rfold (parse_one C vs) cs x = rfold (parse_one C vs') cs x).
  { induction cs as [|c cs IH]; intro x; cbn [rfold]; auto. rewrite (parse_one_keys vs vs' c x H).
    destruct (parse_one C vs' c x); cbn; auto. }
  rewrite G. auto.
Qed.

Lemma parsed_keeps vs b (p p' : pcm) o : parsed C vs b p p' o -> p_special p' = p_special p /\ p_robots p' = p_robots p.
Proof. intro H. inversion H; subst; auto. Qed.
Lemma batch_keeps vs cs (p q : pcm) : batch vs cs p = Val q -> p_special q = p_special p /\ p_robots q = p_robots p.
Proof.
  unfold batch. destruct (parse_all C vs cs p) as [[p2 nn]|] eqn:E; cbn [rbind fst]; [|discriminate].
  intro H. apply parse_all_inv in E. destruct E as [E _].
  assert (A : p_special q = p_special p2 /\ p_robots q = p_robots p2).
  { revert H. unfold find_inliers. destruct (umapM _ (p_lcs p2)); cbn [rbind]; [|discriminate].
    destruct (umapM _ (p_lms p2)); cbn [rbind]; [|discriminate]. intro H. inversion H; auto. }
  destruct A as [-> ->]. clear H. induction E as [|b bs p o p1 p2 E1 E2 IH]; auto.
  apply parsed_keeps in E1. destruct E1 as [<- <-]. auto.
Qed.

Lemma batch_reframe vs cs s r (p : pcm) : batch vs cs (reframe s r p) = rmap (recast s r) (batch vs cs p).
Proof.
  unfold batch. assert (E : parse_all C vs cs (reframe s r p) = rmap (F2 s r) (parse_all C vs cs p)) by exact (F_parse_all C s r vs cs p []).
  rewrite E. destruct (parse_all C vs cs p) as [[p2 nn]|]; cbn [rmap rbind F2 fst]; auto.
  apply F_find_inliers.
Qed.
Lemma recast_same (p : pcm) : recast (p_special p) (p_robots p) p = p.
Proof. destruct p; reflexivity. Qed.
Lemma batch_own vs cs (p : pcm) : batch vs cs (reframe (p_special p) (p_robots p) p) = batch vs cs p.
Proof.
  rewrite batch_reframe. destruct (batch vs cs p) as [q|] eqn:E; cbn [rmap]; auto.
  apply batch_keeps in E. destruct E as [<- <-]. rewrite recast_same. auto.
Qed.
Lemma batch_recast vs cs s r (p : pcm) : batch vs cs (recast s r p) = rmap (recast s r) (batch vs cs p).
Proof. rewrite <- batch_own. cbn [p_special p_robots recast set_robots set_special]. exact (batch_reframe vs cs s r p). Qed.

Lemma batch_app vs c1 c2 (p q : pcm) : batch vs c1 p = Val q -> batch vs (c1 ++ c2) p = batch vs c2 q.
Proof.
  intro H. unfold batch in H. destruct (parse_all C vs c1 p) as [[p2 nn]|] eqn:E; cbn [rbind fst] in H; [|discriminate].
  transitivity (batch vs c2 p2).
  - unfold batch. assert (E2 : parse_all C vs (c1 ++ c2) p = rfold (parse_one C vs) c2 (p2, nn)).
    { unfold parse_all in *. rewrite rfold_app, E. auto. }
    rewrite E2. assert (N : rmap fst (rfold (parse_one C vs) c2 (p2, nn)) = rmap fst (parse_all C vs c2 p2)) by apply parse_nn.
    destruct (rfold (parse_one C vs) c2 (p2, nn)) as [[a n1]|], (parse_all C vs c2 p2) as [[b n2]|];
      cbn [rmap fst rbind] in *; congruence.
  - rewrite <- (batch_own vs c2 q), <- (batch_own vs c2 p2).
    rewrite (find_inliers_F C (p_special q) (p_robots q) _ H). f_equal.
    assert (A : p_special q = p_special p2 /\ p_robots q = p_robots p2).
    { revert H. unfold find_inliers. destruct (umapM _ (p_lcs p2)); cbn [rbind]; [|discriminate].
      destruct (umapM _ (p_lms p2)); cbn [rbind]; [|discriminate]. intro H. inversion H; auto. }
    destruct A as [-> ->]. auto.
Qed.

(** ** A call that supplies no values *)
Definition cands (fs : graph_t) : list bf := filter (sp_candidate sp []) (betweens fs).
Definition with_others (fs : graph_t) (p : pcm) : pcm := set_special p (p_special p ++ others fs).
Definition intake (vs : values) (fs : graph_t) (p : pcm) : res pcm :=
  match cands fs with [] => Val (with_others fs p) | cs => batch vs cs (with_others fs p) end.

Lemma intake_app vs f1 f2 (p q : pcm) : intake vs f1 p = Val q -> intake vs (f1 ++ f2) p = intake vs f2 q.
Proof.
  unfold intake, cands. rewrite betweens_app, filter_app. fold (cands f1) (cands f2). intro H.
  assert (W1 : with_others (f1 ++ f2) p = recast (p_special p ++ others f1 ++ others f2) (p_robots p) (with_others f1 p)).
  { unfold with_others, recast. rewrite others_app. destruct p; reflexivity. }
  assert (HK : p_special q = p_special p ++ others f1 /\ p_robots q = p_robots p).
  { destruct (cands f1); [inversion H; subst; auto|]. apply batch_keeps in H. auto. }
  assert (W2 : with_others f2 q = recast (p_special p ++ others f1 ++ others f2) (p_robots p) q).
  { unfold with_others, recast. destruct HK as [-> <-]. rewrite app_assoc. destruct q; reflexivity. }
  destruct (cands f1) as [|c l] eqn:E1.
  - inversion H; subst q. cbn [app].
    assert (W3 : with_others (f1 ++ f2) p = with_others f2 (with_others f1 p)) by congruence.
    rewrite W3. auto.
  - rewrite W1, W2. change ((c :: l) ++ cands f2) with (c :: (l ++ cands f2)). cbv iota.
    change (c :: (l ++ cands f2)) with ((c :: l) ++ cands f2). rewrite batch_recast.
    destruct (cands f2) as [|d l2].
    + rewrite app_nil_r, H. reflexivity.
    + rewrite (batch_app _ _ _ _ H), batch_recast. reflexivity.
Qed.

Lemma intake_recast vs fs r (p : pcm) : intake vs fs (set_robots p r) = rmap (fun q => set_robots q r) (intake vs fs p).
Proof.
  unfold intake. destruct (cands fs) as [|c l]; [reflexivity|].
  replace (with_others fs (set_robots p r)) with (recast (p_special p ++ others fs) r (with_others fs p)) by (destruct p; reflexivity).
  rewrite batch_recast. destruct (batch vs (c :: l) (with_others fs p)) as [q|] eqn:E; auto. cbn [rmap]. f_equal.
  apply batch_keeps in E. destruct E as [E _]. unfold recast. cbn in E. rewrite <- E. destruct q; reflexivity.
Qed.

(** Robot prefixes are sorted once; sorting again changes nothing. *)
Fixpoint nsorted (l : list N) : Prop := match l with [] => True | x :: l' => (forall y, In y l' -> (schar x <= schar y)%Z) /\ nsorted l' end.
Lemma ninsert_In x l y : In y (ninsert x l) <-> y = x \/ In y l.
Proof.
  induction l as [|z l IH]; cbn [ninsert In]; [intuition|]. destruct (schar x <=? schar z)%Z; cbn [In]; [intuition|]. rewrite IH. intuition.
Qed.
Lemma ninsert_sorted x l : nsorted l -> nsorted (ninsert x l).
Proof.
  induction l as [|z l IH]; cbn [ninsert nsorted In]; [intuition|]. intros [H1 H2]. destruct (Z.leb_spec (schar x) (schar z)); cbn [nsorted In].
  - split; auto. intros y [<-|Hy]; auto. specialize (H1 y Hy). lia.
  - split; auto. intros y Hy. apply ninsert_In in Hy. destruct Hy as [->|Hy]; [lia|auto].
Qed.
Lemma nsort_sorted l : nsorted (nsort l).
Proof. induction l; [exact I|]. apply ninsert_sorted; auto. Qed.
Lemma nsort_fix l : nsorted l -> nsort l = l.
Proof.
  induction l as [|x l IH]; auto. intros [H1 H2]. change (ninsert x (nsort l) = x :: l). rewrite IH; auto.
  destruct l as [|y l]; cbn [ninsert]; auto. destruct (Z.leb_spec (schar x) (schar y)); auto. specialize (H1 y (or_introl eq_refl)). lia.
Qed.
Lemma nsort_idem l : nsort (nsort l) = nsort l.
Proof. apply nsort_fix, nsort_sorted. Qed.
Lemma nsort_length l : length (nsort l) = length l.
Proof.
  assert (G : forall x l, length (ninsert x l) = S (length l)).
  { intros x k. induction k as [|z k IH]; cbn [ninsert]; auto. destruct (schar x <=? schar z)%Z; cbn [length]; auto. }
  induction l as [|x l IH]; auto. change (length (ninsert x (nsort l)) = S (length l)). rewrite G, IH. auto.
Qed.

Definition settle (p : pcm) : pcm :=
  if c_align C && (1 <? length (p_robots p)) then set_robots p (nsort (p_robots p)) else p.
Lemma settle_robots (p : pcm) : settle p = set_robots p (p_robots (settle p)).
Proof. unfold settle. destruct (_ && _); destruct p; reflexivity. Qed.
Lemma settle_settle (p q : pcm) : p_robots q = p_robots (settle p) -> settle q = q.
Proof.
  unfold settle. destruct (c_align C && (1 <? length (p_robots p))) eqn:E; cbn [p_robots set_robots]; intro R; rewrite R.
  - rewrite nsort_length, E, nsort_idem, <- R. destruct q; reflexivity.
  - rewrite E. auto.
Qed.

Lemma proc_no_values vs fs : forall (p : pcm) acc, exists o,
  proc_factors C [] vs fs p acc = Ok (with_others fs p) (fst acc ++ cands fs, o).
Proof.
  induction fs as [|of fs IH]; intros p [l o]; cbn [proc_factors fst].
  - exists o. unfold with_others, cands. cbn. rewrite !app_nil_r. destruct p; reflexivity.
  - assert (G : forall f, of = Some f -> match f with FBetween _ => False | _ => True end -> exists o',
      obind (proc_factor C [] vs (Some f) p (l, o)) (fun p' acc' => proc_factors C [] vs fs p' acc') =
      Ok (with_others (Some f :: fs) p) (l ++ cands (Some f :: fs), o')).
    { intros f -> Hf. assert (E : proc_factor C [] vs (Some f) p (l, o) = Ok (set_special p (p_special p ++ [f])) (l, true))
        by (destruct f; [destruct Hf| | |]; reflexivity).
      rewrite E. cbn [obind]. destruct (IH (set_special p (p_special p ++ [f])) (l, true)) as [o' ->]. exists o'.
      assert (E1 : with_others fs (set_special p (p_special p ++ [f])) = with_others (Some f :: fs) p).
      { unfold with_others. change (Some f :: fs) with ([Some f] ++ fs). rewrite others_app.
        destruct f; [destruct Hf| | |]; cbn; rewrite <- app_assoc; reflexivity. }
      assert (E2 : cands (Some f :: fs) = cands fs) by (destruct f; [destruct Hf| | |]; reflexivity).
      rewrite E1, E2. reflexivity. }
    destruct of as [[b| | |]|]; try (apply G; auto; fail); clear G.
    + assert (EC : classify C [] (FBetween b) = LoopClosure).
      { unfold classify. destruct (_ || _); auto. destruct (_ =? _)%N; reflexivity. }
      cbn [proc_factor]. rewrite EC. 
      assert (E0 : with_others (Some (FBetween b) :: fs) p = with_others fs p) by reflexivity.
      assert (E2 : cands (Some (FBetween b) :: fs) = (if (b_from b =? b_to b)%N then [] else [b]) ++ cands fs).
      { unfold cands. cbn [betweens flat_map app filter].
        assert (EQ : sp_candidate sp [] b = negb (b_from b =? b_to b)%N).
        { unfold sp_candidate, sp_odometry, sp_first, sp_supplied. cbn. rewrite !andb_false_r. reflexivity. }
        rewrite EQ. destruct (b_from b =? b_to b)%N; reflexivity. }
      rewrite E0, E2. destruct (b_from b =? b_to b)%N; cbn [obind fst snd].
      * apply (IH p (l, o)).
      * destruct (IH p (l ++ [b], o)) as [o' ->]. exists o'. cbn [fst]. rewrite <- app_assoc. reflexivity.
    + cbn [proc_factor obind]. apply (IH p (l, o)).
Qed.

Variable w : oracles O.
Hypothesis HINC : c_incremental C = false.

Lemma ro_intake fs (p : pcm) nfg v st b : remove_outliers C w fs [] (PSt p nfg v) = Ok st b -> fs <> [] ->
  exists q, intake v fs p = Val q /\ ps_pcm st = settle q /\ ps_nfg st = graph_of w (settle q).
Proof.
  unfold remove_outliers. cbn [ps_vals ps_pcm ps_nfg vinsert_all]. intros H Hf.
  destruct fs as [|of fs]; [congruence|]. clear Hf. set (gs := of :: fs) in *.
  destruct (proc_no_values v gs p ([], false)) as [o E]. rewrite E in H. cbn [fst app] in H. clear E. rewrite HINC in H.
  unfold intake.
  assert (G : forall q o', (if c_align C && (1 <? length (p_robots q)) then
       match align w (set_robots q (nsort (p_robots q))) v with
       | Ok vs' _ => Ok (PSt (set_robots q (nsort (p_robots q))) (graph_of w q) vs') o'
       | Throw _ e => Throw (PSt (set_robots q (nsort (p_robots q))) (graph_of w q) v) e
       | Undef u => Undef u
       end else Ok (PSt q (graph_of w q) v) o') = Ok st b ->
     ps_pcm st = settle q /\ ps_nfg st = graph_of w (settle q)).
  { intros q o'. unfold settle. destruct (c_align C && (1 <? length (p_robots q))).
    - destruct (align w _ v); try discriminate. intro X. inversion X; subst. auto.
    - intro X. inversion X; subst. auto. }
  destruct (cands gs) as [|c l].
  - exists (with_others gs p). split; auto. eapply G. exact H.
  - unfold batch. destruct (parse_all C v (c :: l) (with_others gs p)) as [[p2 nn]|]; cbn [rbind fst] in *; [|discriminate].
    destruct (find_inliers C p2) as [p3|]; cbn [rbind] in *; [|discriminate].
    exists p3. split; auto. eapply G. exact H.
Qed.

Lemma intake_ro fs (p q : pcm) nfg v : c_align C = false -> intake v fs p = Val q ->
  nfg = graph_of w p -> exists b, remove_outliers C w fs [] (PSt p nfg v) = Ok (PSt q (graph_of w q) v) b.
Proof.
  intros HA H Hn. unfold remove_outliers. cbn [ps_vals ps_pcm ps_nfg vinsert_all].
  destruct fs as [|of fs].
  { exists false. unfold intake, with_others in H. cbn in H. rewrite app_nil_r in H. inversion H; subst.
    destruct p; reflexivity. }
  set (gs := of :: fs) in *. destruct (proc_no_values v gs p ([], false)) as [o E]. rewrite E. cbn [fst app]. rewrite HINC, HA.
  cbn [andb]. unfold intake in H. destruct (cands gs) as [|c l].
  - inversion H; subst. eauto.
  - unfold batch in H. destruct (parse_all C v (c :: l) (with_others gs p)) as [[p2 nn]|]; cbn [rbind fst] in *; [|discriminate].
    rewrite H. cbn [rbind]. eauto.
Qed.

Lemma intake_keys vs vs' fs (p : pcm) : (forall k, kmem k vs = kmem k vs') -> intake vs fs p = intake vs' fs p.
Proof. intro H. unfold intake. destruct (cands fs); auto. apply batch_keys; auto. Qed.
Lemma intake_robots vs fs (p q : pcm) : intake vs fs p = Val q -> p_robots q = p_robots p.
Proof. unfold intake. destruct (cands fs); [intro H; inversion H; auto|]. intro H. apply batch_keeps in H. tauto. Qed.
End Batch.

Section Split.
Variable O : tops.
Variable C : config.
Variable W : soracles O.
Notation graph_t := (graph_t O).
Notation pcm := (pcm O).
Notation op := (op O).
Notation solver := (solver O).
Hypothesis HINC : c_incremental C = false.

(** A call that hands over these factors and no values. *)
Definition hands (o : op) (fs : graph_t) : Prop := call_of o = Some (fs, []).

Lemma hands_step o fs (s s' : solver) p r : hands o fs -> s_pcm s = Some p -> s_nfg s = graph_of (so_pcm W) p ->
  step C W o s = Ok s' r ->
  exists p', s_pcm s' = Some p' /\ s_nfg s' = graph_of (so_pcm W) p' /\
    (forall k, kmem k (s_vals s') = kmem k (s_vals s)) /\
    (if fs then p' = p else exists q, intake C (s_vals s) fs p = Val q /\ p' = settle C q).
Proof.
  intros Hh Hp Hn H. pose proof (step_inv C W o s Hp H) as (s1 & p' & b & E & _ & _ & HR & HO).
  assert (HR' : remove_outliers C (so_pcm W) fs [] (PSt p (s_nfg s) (s_vals s)) = Ok (PSt p' (s_nfg s1) (s_vals s1)) b).
  { apply HR. unfold hands in Hh. destruct o; cbn in Hh; inversion Hh; subst; eauto. }
  assert (HS : s_pcm s' = s_pcm s1 /\ s_nfg s' = s_nfg s1 /\ (forall k, kmem k (s_vals s') = kmem k (s_vals s1))).
  { destruct (optimises o b); [|subst; auto]. apply optimize_same in HO. destruct HO as (A1 & A2 & _ & A3 & _). auto. }
  destruct HS as (S1 & S2 & S3). destruct E as [Hp1 _].
  exists p'. rewrite S1, S2.
  assert (HKK : forall k, kmem k (s_vals s1) = kmem k (s_vals s)).
  { pose proof (remove_outliers_ok C W _ _ _ _ _ HR') as (_ & _ & _ & HK & _). intro k. rewrite HK. cbn. apply orb_false_r. }
  split; [auto|]. split; [|split; [intro k; rewrite S3; auto|]].
  - eapply ro_synced; eauto.
  - destruct fs as [|f fs].
    + unfold remove_outliers in HR'. cbn in HR'. inversion HR'; auto.
    + destruct (@ro_intake _ _ (so_pcm W) HINC _ _ _ _ _ _ HR') as (q & Hq & H1 & _); [discriminate|]. eauto.
Qed.

Lemma split_run os : forall gss (s s' : solver) p rs, Forall2 hands os gss ->
  s_pcm s = Some p -> s_nfg s = graph_of (so_pcm W) p -> run C W os s = Ok s' rs ->
  exists p', s_pcm s' = Some p' /\ s_nfg s' = graph_of (so_pcm W) p' /\
    (if concat gss then p' = p else exists q, intake C (s_vals s) (concat gss) p = Val q /\ p' = settle C q).
Proof.
  induction os as [|o os IH]; intros gss s s' p rs HF Hp Hn H; inversion HF as [|? g ? gs Hh HF']; subst; clear HF; cbn [run] in H.
  - inversion H; subst. cbn. eauto.
  - destruct (step C W o s) as [s1 r1| |] eqn:E; cbn [obind] in H; try discriminate.
    destruct (run C W os s1) as [s2 r2| |] eqn:E2; cbn [obind] in H; try discriminate. inversion H; subst; clear H.
    destruct (@hands_step _ _ _ _ _ _ Hh Hp Hn E) as (p1 & A1 & A2 & A3 & A4).
    destruct (IH gs s1 s' p1 r2 HF' A1 A2 E2) as (p2 & B1 & B2 & B3).
    exists p2. split; [auto|]. split; [auto|]. cbn [concat].
    destruct g as [|f g].
    + subst p1. cbn [app]. destruct (concat gs); auto.
      rewrite <- (intake_keys C _ _ _ _ A3). auto.
    + destruct A4 as (q & Hq & ->). change (((f :: g) ++ concat gs)) with (f :: (g ++ concat gs)). cbv iota.
      change (f :: (g ++ concat gs)) with ((f :: g) ++ concat gs). rewrite (intake_app _ _ _ _ _ Hq).
      destruct (concat gs) as [|f2 g2] eqn:EG.
      * exists q. split; [|congruence]. unfold intake, with_others. cbn. rewrite app_nil_r. destruct q; reflexivity.
      * destruct B3 as (q2 & B3 & ->). rewrite (intake_keys C _ _ _ _ A3) in B3.
        rewrite (settle_robots C q), intake_recast in B3.
        destruct (intake C (s_vals s) (f2 :: g2) q) as [q3|] eqn:E3; cbn [rmap] in B3; [|discriminate].
        inversion B3; subst. exists q3. split; auto.
        apply intake_robots in E3. rewrite (settle_settle C q); [|reflexivity].
        unfold settle. rewrite E3. destruct (_ && _); [reflexivity|]. rewrite <- E3. destruct q3; reflexivity.
Qed.

Theorem split_same h os o gss (s s1 s2 : solver) rs rs1 r2 :
  run C W h (@solver_init O true) = Ok s rs ->
  Forall2 hands os gss -> hands o (concat gss) ->
  run C W os s = Ok s1 rs1 -> step C W o s = Ok s2 r2 ->
  s_pcm s1 = s_pcm s2 /\ s_nfg s1 = s_nfg s2.
Proof.
  intros H HF Hh H1 H2. destruct (hist_run _ _ _ H) as [p I].
  destruct (@split_run _ _ _ _ _ _ HF (hi_pcm I) (hi_nfg I) H1) as (p1 & A1 & A2 & A3).
  destruct (@hands_step _ _ _ _ _ _ Hh (hi_pcm I) (hi_nfg I) H2) as (p2 & B1 & B2 & _ & B3).
  rewrite A1, A2, B1, B2. assert (p1 = p2); [|subst; auto].
  destruct (concat gss); [congruence|]. destruct A3 as (q & Q1 & ->), B3 as (q' & Q2 & ->). congruence.
Qed.

Theorem split_one h os gss (s s1 : solver) rs rs1 : c_align C = false ->
  run C W h (@solver_init O true) = Ok s rs ->
  Forall2 hands os gss -> run C W os s = Ok s1 rs1 ->
  exists s2 r2, step C W (OpUpdate (concat gss) [] false) s = Ok s2 r2 /\
    s_pcm s1 = s_pcm s2 /\ s_nfg s1 = s_nfg s2.
Proof.
  intros HA H HF H1. destruct (hist_run _ _ _ H) as [p I].
  destruct (@split_run _ _ _ _ _ _ HF (hi_pcm I) (hi_nfg I) H1) as (p1 & A1 & A2 & A3).
  assert (HI : intake C (s_vals s) (concat gss) p = Val p1).
  { destruct (concat gss).
    - subst. unfold intake, with_others. cbn. rewrite app_nil_r. destruct p; reflexivity.
    - destruct A3 as (q & Q1 & ->). unfold settle. rewrite HA. auto. }
  destruct (@intake_ro _ _ (so_pcm W) HINC _ _ _ _ _ HA HI (hi_nfg I)) as [b HR].
  assert (HS : exists s2 r2, step C W (OpUpdate (concat gss) [] false) s = Ok s2 r2).
  { cbn [step]. unfold update, ingest. rewrite (hi_pcm I). unfold run_pcm. rewrite HR. cbn [obind]. rewrite andb_false_r.
    cbn. eauto. }
  destruct HS as (s2 & r2 & HS). exists s2, r2. split; auto.
  eapply split_same; eauto. reflexivity.
Qed.
End Split.
