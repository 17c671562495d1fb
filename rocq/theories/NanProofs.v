(** * NaN is handed on by every operation and fails every test *)
From Coq Require Import ZArith Lia Permutation.
From Verif Require Import Prelude Num Keys KMap UMap Geometry Factors Clique Pcm Solver PcmSpec PcmProofs PcmInv PcmStore HistSpec StoreSpec
  SolverProofs HistProofs GraphProofs StoreProofs AcceptProofs RemoveSpec RecordProofs IncSpec IncProofs TrajProofs Lie LieProofs Floats NanSpec.
Set Implicit Arguments.
Local Open Scope nat_scope.

(** ** Numbers *)
Notation nan := S754_nan.
Lemma add_nl x : dadd nan x = nan. Proof. destruct x; reflexivity. Qed.
Lemma add_nr x : dadd x nan = nan. Proof. destruct x; reflexivity. Qed.
Lemma mul_nl x : dmul nan x = nan. Proof. destruct x; reflexivity. Qed.
Lemma mul_nr x : dmul x nan = nan. Proof. destruct x; reflexivity. Qed.
Lemma sub_nl x : dsub nan x = nan. Proof. destruct x; reflexivity. Qed.
Lemma sub_nr x : dsub x nan = nan. Proof. destruct x; reflexivity. Qed.
Lemma div_nl x : ddiv nan x = nan. Proof. destruct x; reflexivity. Qed.
Lemma lt_nl x : dlt nan x = false. Proof. destruct x; reflexivity. Qed.

Lemma ksum_nan n : forall (f : nat -> ds) k, k < n -> f k = nan -> @ksum ds n f = nan.
Proof.
  induction n as [|n IH]; intros f k Hk E; [lia|]. cbn [ksum]. change (dadd (f 0) (@ksum ds n (fun i => f (S i))) = nan).
  destruct k as [|k]; [rewrite E; apply add_nl|]. rewrite (IH (fun i => f (S i)) k) by (auto; lia). apply add_nr.
Qed.

Lemma dot_acc u v : forall acc, acc = nan -> fold_left (fun acc p => dadd acc (dmul (fst p) (snd p))) (combine u v) acc = nan.
Proof. generalize (combine u v). induction l as [|p l IH]; intros acc E; cbn [fold_left]; auto. apply IH. rewrite E. apply add_nl. Qed.
Lemma dot_nan u v i : i < length v -> nth_error u i = Some nan -> dot u v = nan.
Proof.
  unfold dot. generalize dzero. revert v i. induction u as [|x u IH]; intros v i d Hi E; [destruct i; discriminate E|].
  destruct v as [|y v]; cbn [length] in Hi; [lia|]. cbn [combine fold_left fst snd]. destruct i as [|i]; cbn [nth_error] in E.
  - injection E as ->. rewrite mul_nl, add_nr. apply dot_acc. reflexivity.
  - apply (IH v i); auto. lia.
Qed.

Lemma forward_length n : forall M, length (forward n M) = length M.
Proof.
  induction n as [|n IH]; intros [|r M]; cbn [forward length]; auto. rewrite map_length, IH, map_length. reflexivity.
Qed.
Lemma backward_length n M : forall i, length (backward n i M) = length M.
Proof. induction M as [|r M IH]; intro i; cbn [backward length]; auto. Qed.
Lemma dsolve_length A v : length (dsolve A v) = min (length A) (length v).
Proof. unfold dsolve. rewrite backward_length, forward_length, map_length, combine_length. reflexivity. Qed.
Lemma to_rows_length n (A : mat ds n) : length (to_rows A) = n.
Proof. unfold to_rows. rewrite map_length, seq_length. reflexivity. Qed.

Section Logs.
Variable P : Type.
Variables (dim r_dim t_dim : nat).
Variable log : P -> cvec ds dim.
Hypothesis DIM : r_dim + t_dim = dim.

Lemma flog_at p i : i < dim -> nth_error (flog dim log p) i = Some (at_ (log p) i).
Proof.
  intro Hi. unfold flog. rewrite nth_error_map. replace (nth_error (seq 0 dim) i) with (Some i); [reflexivity|].
  rewrite (nth_error_nth' _ 0) by (rewrite seq_length; exact Hi). rewrite seq_nth by exact Hi. reflexivity.
Qed.
Lemma flog_length p : length (flog dim log p) = dim.
Proof. unfold flog. rewrite map_length, seq_length. reflexivity. Qed.
Lemma nth_skipn A (l : list A) n i : nth_error (skipn n l) i = nth_error l (n + i).
Proof. revert l. induction n as [|n IH]; intro l; [reflexivity|]. destruct l as [|x l]; [destruct i; reflexivity|apply IH]. Qed.

Lemma tsq_nan p i : dim - t_dim <= i < dim -> at_ (log p) i = nan -> sumsq (skipn (dim - t_dim) (flog dim log p)) = nan.
Proof.
  intros Hi E. unfold sumsq. apply dot_nan with (i := i - (dim - t_dim)).
  - rewrite skipn_length, flog_length. lia.
  - rewrite nth_skipn. replace (dim - t_dim + (i - (dim - t_dim))) with i by lia. rewrite flog_at by lia. rewrite E. reflexivity.
Qed.
Lemma maha_nan p c full i : dim - t_dim <= i < dim -> at_ (log p) i = nan -> fmaha_sq dim r_dim t_dim log p c full = nan.
Proof.
  intros Hi E. unfold fmaha_sq. destruct full.
  - apply dot_nan with (i := i); [rewrite dsolve_length, to_rows_length, flog_length; lia|]. rewrite flog_at by lia. rewrite E. reflexivity.
  - apply dot_nan with (i := i - (dim - t_dim)).
    + rewrite dsolve_length, skipn_length, flog_length. unfold block. rewrite map_length, firstn_length, skipn_length, to_rows_length. lia.
    + rewrite nth_skipn. replace (dim - t_dim + (i - (dim - t_dim))) with i by lia. rewrite flog_at by lia. rewrite E. reflexivity.
Qed.
End Logs.

(** ** Poses *)
Record nan_laws (G : geom) (bad lost worse : g_pose G -> Prop) : Prop := {
  nl_lost : forall a, lost a -> bad a;
  nl_worse : forall a, worse a -> bad a;
  nl_inv : forall a, bad a -> worse (g_inv G a);
  nl_comp_r : forall a b, bad b -> bad (g_comp G a b);
  nl_worse_l : forall a b, worse a -> worse (g_comp G a b);
  nl_worse_r : forall a b, worse b -> worse (g_comp G a b);
  nl_lost_r : forall a b, lost b -> worse (g_comp G a b);
  nl_mid : forall a b c, bad b -> worse (g_comp G (g_comp G a b) c);
  nl_comp_l : forall a b, bad a -> bad (g_comp G a b);
  nl_tsq : forall a, worse a -> g_log_tsq G a = nan;
  nl_maha : forall a c f, worse a -> g_maha_sq G a c f = nan }.

Lemma at_vadd (u v : cvec ds 3) i : i < 3 -> at_ (vadd u v) i = dadd (at_ u i) (at_ v i).
Proof. intro H. unfold vadd. rewrite at_tab by exact H. reflexivity. Qed.
Lemma at_app (A : mat ds 3) (v : cvec ds 3) i : i < 3 -> at_ (Lie.app A v) i = @ksum ds 3 (fun k => dmul (get A i k) (at_ v k)).
Proof. intro H. unfold Lie.app. rewrite at_tab by exact H. reflexivity. Qed.
Lemma app_nan_v (A : mat ds 3) (v : cvec ds 3) i k : i < 3 -> k < 3 -> at_ v k = nan -> at_ (Lie.app A v) i = nan.
Proof. intros Hi Hk E. rewrite at_app by exact Hi. apply ksum_nan with (k := k); auto. rewrite E. apply mul_nr. Qed.
Lemma app_nan_m (A : mat ds 3) (v : cvec ds 3) i k : i < 3 -> k < 3 -> get A i k = nan -> at_ (Lie.app A v) i = nan.
Proof. intros Hi Hk E. rewrite at_app by exact Hi. apply ksum_nan with (k := k); auto. rewrite E. apply mul_nl. Qed.
Lemma mmul_nan_r (A B : mat ds 3) i k j : i < 3 -> k < 3 -> j < 3 -> get B k j = nan -> get (mmul A B) i j = nan.
Proof. intros Hi Hk Hj E. unfold mmul. rewrite get_tab by auto. apply ksum_nan with (k := k); auto. rewrite E. apply mul_nr. Qed.
Lemma mmul_nan_l (A B : mat ds 3) i k j : i < 3 -> k < 3 -> j < 3 -> get A i k = nan -> get (mmul A B) i j = nan.
Proof. intros Hi Hk Hj E. unfold mmul. rewrite get_tab by auto. apply ksum_nan with (k := k); auto. rewrite E. apply mul_nl. Qed.

Lemma log3_nan (p : se3 ds) i : i < 3 -> at_ (e_t p) i = nan -> at_ (se3_log p) (3 + i) = nan.
Proof.
  intros Hi E. unfold se3_log. rewrite (@at_tab ds 6) by lia. replace (3 + i <? 3) with false by (symmetry; apply Nat.ltb_ge; lia).
  replace (3 + i - 3) with i by lia. destruct (dlt _ _); auto. rewrite !at_vadd by exact Hi. rewrite E, !add_nl. reflexivity.
Qed.

Theorem nan_laws3 : nan_laws fgeom3 nan3 lost3 lost3.
Proof.
  assert (LR : forall a b, lost3 b -> lost3 (se3_comp a b)).
  { intros a b (i & Hi & E). exists i. split; auto. unfold se3_comp. cbn [e_t]. rewrite at_vadd by exact Hi. rewrite (app_nan_v _ _ Hi Hi E). apply add_nr. }
  assert (LL : forall a b, lost3 a -> lost3 (se3_comp a b)).
  { intros a b (i & Hi & E). exists i. split; auto. unfold se3_comp. cbn [e_t]. rewrite at_vadd by exact Hi. rewrite E. apply add_nl. }
  assert (RL : forall (a b : se3 ds) i k, i < 3 -> k < 3 -> get (e_R a) i k = nan -> lost3 (se3_comp a b)).
  { intros a b i k Hi Hk E. exists i. split; auto. unfold se3_comp. cbn [e_t]. rewrite at_vadd by exact Hi. rewrite (app_nan_m _ _ Hi Hk E). apply add_nr. }
  split; cbn [fgeom3 float_geom g_pose g_inv g_comp g_log_tsq g_maha_sq]; auto.
  - intros a H. left. exact H.
  - intros a H. left. exact H.
  - intros a [(k & Hk & E)|(k & i & Hk & Hi & E)]; exists i || exists k; split; auto; unfold se3_inv, vneg; cbn [e_t]; rewrite at_tab by auto.
    + rewrite (app_nan_v _ _ Hk Hk E). reflexivity.
    + rewrite (@app_nan_m (mtr (e_R a)) _ i k Hi Hk); [reflexivity|]. unfold mtr. rewrite get_tab by auto. exact E.
  - intros a b [H|(k & j & Hk & Hj & E)]; [left; auto|]. right. exists 0, j. split; [lia|]. split; auto. unfold se3_comp. cbn [e_R]. apply (@mmul_nan_r _ _ 0 k j); auto; lia.
  - intros a b c [H|(k & j & Hk & Hj & E)]; [auto|]. apply RL with (i := 0) (k := j); auto. unfold se3_comp. cbn [e_R]. apply (@mmul_nan_r _ _ 0 k j); auto; lia.
  - intros a b [H|(i & k & Hi & Hk & E)]; left; eauto.
  - intros a (i & Hi & E). apply (@tsq_nan _ 6 3 3 se3_log eq_refl a (3 + i)); [lia|]. apply log3_nan; auto.
  - intros a c f (i & Hi & E). apply (@maha_nan _ 6 3 3 se3_log eq_refl a c f (3 + i)); [lia|]. apply log3_nan; auto.
Qed.

Definition lost_all2 (p : se2 ds) : Prop := e_x p = nan /\ e_y p = nan.
Lemma log2_nan (p : se2 ds) : lost_all2 p -> at_ (se2_log p) 1 = nan.
Proof.
  intros [E1 E2]. unfold se2_log. destruct (dlt _ _).
  - exact E2.
  - change (dmul (ddiv (datan2 (e_s p) (e_c p)) (dadd (dmul (dsub (e_c p) done) (dsub (e_c p) done)) (dmul (e_s p) (e_s p))))
      (dsub (dadd (dmul (e_c p) (e_x p)) (dmul (e_s p) (e_y p))) (e_x p)) = nan). rewrite E1, sub_nr. apply mul_nr.
Qed.
Ltac n2 := repeat first [rewrite add_nl|rewrite add_nr|rewrite mul_nl|rewrite mul_nr|rewrite sub_nl|rewrite sub_nr].

Theorem nan_laws2 : nan_laws fgeom2 nan2 lost2 lost_all2.
Proof.
  split; cbn [fgeom2 float_geom g_pose g_inv g_comp g_log_tsq g_maha_sq].
  - intros a H. left. exact H.
  - intros a [H _]. left. left. exact H.
  - intros a [[E|E]|[E|E]]; unfold lost_all2, se2_inv; cbn [e_x e_y]; rewrite !E; split; cbn [kadd kmul ksub ds]; n2; reflexivity.
  - intros a b [[E|E]|[E|E]]; unfold nan2, lost2, se2_comp; cbn [e_x e_y e_c e_s kadd kmul ksub ds]; rewrite !E; n2; auto.
  - intros a b [E1 E2]; unfold lost_all2, se2_comp; cbn [e_x e_y e_c e_s kadd kmul ksub ds]; rewrite E1, E2; n2; auto.
  - intros a b [E1 E2]; unfold lost_all2, se2_comp; cbn [e_x e_y e_c e_s kadd kmul ksub ds]; rewrite E1, E2; n2; auto.
  - intros a b [E|E]; unfold lost_all2, se2_comp; cbn [e_x e_y e_c e_s kadd kmul ksub ds]; rewrite E; n2; auto.
  - intros a b c [[E|E]|[E|E]]; unfold lost_all2, se2_comp; cbn [e_x e_y e_c e_s kadd kmul ksub ds]; rewrite !E; n2; auto.
  - intros a b [[E|E]|[E|E]]; unfold nan2, lost2, se2_comp; cbn [e_x e_y e_c e_s kadd kmul ksub ds]; rewrite !E; n2; auto.
  - intros a H. apply (@tsq_nan _ 3 1 2 se2_log eq_refl a 1); [lia|]. apply log2_nan; auto.
  - intros a c f H. apply (@maha_nan _ 3 1 2 se2_log eq_refl a c f 1); [lia|]. apply log2_nan; auto.
Qed.

(** ** Tests *)
Record nan_ops (O : tops) (bad lost worse : t_pose O -> Prop) : Prop := {
  no_of : forall b d, t_of O b = Some d -> t_getpose O d = b_meas b;
  no_comp : forall a b, t_getpose O (t_comp O a b) = t_pcomp O (t_getpose O a) (t_getpose O b);
  no_inv : forall a, t_getpose O (t_inv O a) = t_pinv O (t_getpose O a);
  no_between : forall a b, t_getpose O (t_between O a b) = t_pcomp O (t_pinv O (t_getpose O a)) (t_getpose O b);
  no_lost : forall a, lost a -> bad a;
  no_worse : forall a, worse a -> bad a;
  no_pinv : forall a, bad a -> worse (t_pinv O a);
  no_bad_r : forall a b, bad b -> bad (t_pcomp O a b);
  no_bad_l : forall a b, bad a -> bad (t_pcomp O a b);
  no_worse_l : forall a b, worse a -> worse (t_pcomp O a b);
  no_worse_r : forall a b, worse b -> worse (t_pcomp O a b);
  no_lost_r : forall a b, lost b -> worse (t_pcomp O a b);
  no_mid : forall a b c, bad b -> worse (t_pcomp O (t_pcomp O a b) c);
  no_odom : forall a, worse (t_getpose O a) -> t_odom_ok O a = false;
  no_loop : forall a, worse (t_getpose O a) -> t_loop_ok O a = false }.

Lemma pn_of_pose G (b : bfactor (g_pose G) (g_cov G)) m : pn_of G b = Some m -> pn_pose m = b_meas b.
Proof. unfold pn_of. destruct (b_noise b); [|discriminate]. intro H. injection H as <-. reflexivity. Qed.
Lemma pc_of_pose G (b : bfactor (g_pose G) (g_cov G)) m : pc_of G b = Some m -> pc_pose m = b_meas b.
Proof. unfold pc_of. destruct (b_noise b); [|discriminate]. intro H. injection H as <-. destruct (g_rot_nan G c); reflexivity. Qed.

Lemma node_nan G pp bad lost worse : nan_laws G bad lost worse -> @nan_ops (node_ops G pp) bad lost worse.
Proof.
  intro L. destruct L as [L1 L1' L2 L3 L4 L5 L6 L7 L8 L9 L10]. split; cbn [node_ops t_of t_getpose t_comp t_inv t_between t_pcomp t_pinv t_odom_ok t_loop_ok t_pose]; auto.
  - exact (@pn_of_pose G).
  - intros a H. unfold pn_odom_ok, pn_avg_trans. rewrite (L9 _ H). change (dsqrt nan) with nan. rewrite div_nl, lt_nl. auto.
  - intros a H. unfold pn_loop_ok, pn_avg_trans. rewrite (L9 _ H). change (dsqrt nan) with nan. rewrite div_nl, lt_nl. auto.
Qed.
Lemma cov_nan G pp bad lost worse : nan_laws G bad lost worse -> @nan_ops (cov_ops G pp) bad lost worse.
Proof.
  intro L. destruct L as [L1 L1' L2 L3 L4 L5 L6 L7 L8 L9 L10]. split; cbn [cov_ops t_of t_getpose t_comp t_inv t_between t_pcomp t_pinv t_odom_ok t_loop_ok t_pose]; auto.
  - exact (@pc_of_pose G).
  - intros a H. unfold pc_odom_ok, pc_maha. rewrite (L10 _ _ _ H). change (dsqrt nan) with nan. rewrite lt_nl. auto.
  - intros a H. unfold pc_loop_ok, pc_maha. rewrite (L10 _ _ _ H). change (dsqrt nan) with nan. rewrite lt_nl. auto.
Qed.
Theorem doubles_nan O bad lost : in_doubles O bad lost -> exists worse, @nan_ops O bad lost worse.
Proof.
  intros [pp|pp|pp|pp].
  - exists lost3. apply node_nan, nan_laws3.
  - exists lost3. apply cov_nan, nan_laws3.
  - exists lost_all2. apply node_nan, nan_laws2.
  - exists lost_all2. apply cov_nan, nan_laws2.
Qed.

Section Contain.
Variable O : tops.
Variables bad lost : t_pose O -> Prop.
Notation bf := (bf O).
Notation op := (op O).
Notation graph_t := (graph_t O).
Notation T := (t_T O) (only parsing).
Notation start := (@solver_init O true).

Section Laws.
Variable worse : t_pose O -> Prop.
Hypothesis L : nan_ops O bad lost worse.
Notation pose := (t_getpose O).

Theorem tests_fail (b : bf) : (bad (b_meas b) -> fails_odom b /\ fails_pairwise b) /\ (lost (b_meas b) -> fails_sightings b).
Proof.
  assert (LC : forall a, worse (pose a) -> Some (t_loop_ok O a) <> Some true).
  { intros a H X. rewrite (no_loop L _ H) in X. discriminate X. }
  split; [intro B; split|intro B].
  - intro ref. unfold sp_odom_test. destruct (t_of O b) as [m|] eqn:E; [|discriminate]. rewrite <- (no_of L _ E) in B.
    intro X. injection X as X. rewrite (no_odom L) in X; [discriminate X|]. rewrite (no_comp L), (no_inv L). apply (no_worse_r L), (no_pinv L), B.
  - intros ref b'. split; unfold sp_loop_test; destruct (t_of O b) as [m|] eqn:E, (t_of O b') as [m'|] eqn:E'; try discriminate;
      rewrite <- (no_of L _ E) in B; apply LC; rewrite ?(no_comp L), ?(no_inv L), ?(no_comp L).
    + apply (no_mid L), B.
    + apply (no_worse_l L), (no_worse_l L), (no_pinv L), (no_bad_r L), B.
  - intros ref b'. split; unfold sp_lm_test; destruct (t_of O b) as [m|] eqn:E, (t_of O b') as [m'|] eqn:E'; try discriminate;
      rewrite <- (no_of L _ E) in B; apply LC; rewrite ?(no_comp L), ?(no_inv L), ?(no_comp L).
    + apply (no_lost_r L), B.
    + apply (no_worse_l L), (no_pinv L), (no_bad_r L), (no_lost L), B.
Qed.

(** *** With poses that are not numbers *)
Lemma worse_between a b : worse (pose a) \/ worse (pose b) -> worse (pose (t_between O a b)).
Proof. rewrite (no_between L). intros [H|H]; [apply (no_worse_l L), (no_pinv L), (no_worse L), H|apply (no_worse_r L), H]. Qed.
Lemma bad_odom (ref : N -> key -> T) (b : bf) : chr (b_from b) = chr (b_to b) ->
  bad (pose (ref (chr (b_from b)) (b_from b))) \/ bad (pose (ref (chr (b_from b)) (b_to b))) -> sp_odom_test ref b <> Some true.
Proof.
  intros E H. unfold sp_odom_test, sp_rel. destruct (t_of O b) as [m|]; [|discriminate]. rewrite E, N.eqb_refl, <- E. intro X. injection X as X.
  rewrite (no_odom L) in X; [discriminate X|]. rewrite (no_comp L), (no_between L). destruct H as [H|H].
  - apply (no_worse_l L), (no_worse_l L), (no_pinv L), H.
  - apply (no_mid L), H.
Qed.
Lemma worse_loop (ref : N -> key -> T) (f g : bf) k : oid_eqb (pair_of f) (pair_of g) = true -> In k [b_from f; b_to f; b_from g; b_to g] ->
  worse (pose (ref (chr k) k)) -> sp_loop_test ref f g <> Some true.
Proof.
  intros E HK H. unfold sp_loop_test. destruct (t_of O f) as [m1|]; [|discriminate]. destruct (t_of O g) as [m2|]; [|discriminate].
  cbv zeta. set (c := if (chr (b_from f) =? chr (b_from g))%N then b_from g else b_to g). set (d := if (chr (b_from f) =? chr (b_from g))%N then b_to g else b_from g).
  assert (X : chr (b_from f) = chr c /\ chr (b_to f) = chr d /\ In k [b_from f; b_to f; c; d]).
  { unfold c, d. rewrite oid_eqb_spec in E. unfold pair_of in E. cbn [fst snd] in E. destruct (N.eqb_spec (chr (b_from f)) (chr (b_from g))) as [Y|Y].
    - repeat split; auto. destruct E as [[E1 E2]|[E1 E2]]; congruence.
    - repeat split; [| |cbn in HK |- *; tauto]; destruct E as [[E1 E2]|[E1 E2]]; congruence. }
  destruct X as (X1 & X2 & X3). clearbody c d. intro Z. injection Z as Z. rewrite (no_loop L) in Z; [discriminate Z|].
  unfold sp_rel. rewrite X1, X2, !N.eqb_refl, <- X1, <- X2. rewrite !(no_comp L), (no_inv L), (no_comp L).
  assert (LEFT : worse (pose (t_between O (ref (chr (b_from f)) (b_from f)) (ref (chr (b_from f)) c))) \/
                 worse (pose (t_between O (ref (chr (b_to f)) (b_to f)) (ref (chr (b_to f)) d)))).
  { destruct X3 as [<-|[<-|[<-|[<-|[]]]]].
    - left. apply worse_between. auto.
    - right. apply worse_between. auto.
    - left. rewrite X1. apply worse_between. auto.
    - right. rewrite X2. apply worse_between. auto. }
  destruct LEFT as [HL|HL].
  - apply (no_worse_l L), (no_worse_l L), (no_pinv L), (no_worse L), (no_worse_l L), HL.
  - apply (no_worse_r L), HL.
Qed.

Lemma fold_bad ds : forall t, bad (pose t) \/ (exists d : T, In d ds /\ bad (pose d)) -> bad (pose (fold_left (t_comp O) ds t)).
Proof.
  induction ds as [|d ds IH]; intros t H; cbn [fold_left].
  - destruct H as [H|(d & [] & _)]; auto.
  - apply IH. rewrite (no_comp L). destruct H as [H|(e & [->|He] & B)]; [left; apply (no_bad_l L), H|left; apply (no_bad_r L), B|right; eauto].
Qed.
Lemma fold_worse ds : forall t, worse (pose t) \/ (exists d : T, In d ds /\ lost (pose d)) -> worse (pose (fold_left (t_comp O) ds t)).
Proof.
  induction ds as [|d ds IH]; intros t H; cbn [fold_left].
  - destruct H as [H|(d & [] & _)]; auto.
  - apply IH. rewrite (no_comp L). destruct H as [H|(e & [->|He] & B)]; [left; apply (no_worse_l L), H|left; apply (no_lost_r L), B|right; eauto].
Qed.
End Laws.

Variable C : config.
Variable W : soracles O.
Hypothesis D : in_doubles O bad lost.

Theorem fails (b : bf) : (bad (b_meas b) -> fails_odom b /\ fails_pairwise b) /\ (lost (b_meas b) -> fails_sightings b).
Proof. destruct (doubles_nan D) as [worse L]. apply (tests_fail L). Qed.

Lemma star_alone (test : bf * (N -> key -> t_T O) -> bf * (N -> key -> t_T O) -> option bool) M cs (b : bf) : star_of test M cs -> In b cs ->
  (forall x y, fst x = b \/ fst y = b -> test x y <> Some true) -> cs = [b].
Proof.
  intros (idx & HF & (c & l & -> & HS) & _) Hb HT. inversion HF as [|i x is xs E1 F1]; subst.
  assert (NA : forall i j, nth_error (map fst M) i = Some b \/ nth_error (map fst M) j = Some b -> ~ agree test M i j).
  { intros i j H (u & v & A1 & A2 & A3). rewrite !nth_error_map, A1, A2 in H. cbn [option_map] in H.
    destruct A3 as [[_ A3]|[_ A3]]; revert A3; apply HT; destruct H as [H|H]; injection H as H; auto. }
  destruct Hb as [->|Hb].
  - destruct l as [|i l]; [inversion F1; reflexivity|]. exfalso. apply (NA c i); [left; exact E1|]. apply HS. left. auto.
  - exfalso. clear E1. assert (X : exists i, In i l /\ nth_error (map fst M) i = Some b).
    { clear -F1 Hb. induction F1 as [|i x l xs E F1 IH]; [destruct Hb|]. destruct Hb as [->|Hb]; [exists i; cbn; auto|]. destruct (IH Hb) as (j & J1 & J2). exists j. cbn. auto. }
    destruct X as (i & X1 & X2). apply (NA c i); auto.
Qed.

Theorem only_alone h (s : solver O) rs id (b : bf) : run C W h start = Ok s rs -> records_sound C W h -> small C (length (sp_stored C W h)) ->
  c_loop_check C = true -> bad (b_meas b) -> In b (graph_lcs C h id (s_nfg s)) -> graph_lcs C h id (s_nfg s) = [b].
Proof.
  intros H HK HZ HC B HIN. destruct (pair_ignored h id) eqn:HG.
  { destruct (hist_run C W h H) as [p I]. rewrite (graph_lcs_eq id I), HG in HIN. destruct HIN. }
  assert (HN : live_items C W id h <> []).
  { intro E. pose proof (@kept_all_modes O C W h s rs id H HK HZ HC HG) as P. rewrite E in P.
    assert (P' : Permutation (graph_lcs C h id (s_nfg s)) []) by (apply P; intros i j x y _ X; destruct i; discriminate X).
    apply Permutation_sym, Permutation_nil in P'. rewrite P' in HIN. destruct HIN. }
  eapply star_alone; [exact (@kept_star O C W h s rs id H HK HZ HC HG HN)|exact HIN|].
  intros x y X. unfold lc_test. destruct (proj2 (proj1 (fails b) B) (snd y) (fst x)) as [_ X1]. destruct (proj2 (proj1 (fails b) B) (snd y) (fst y)) as [X2 _].
  destruct X as [<-|<-]; auto.
Qed.

Theorem lm_only_alone h (s : solver O) rs l (b : bf) : run C W h start = Ok s rs -> lost (b_meas b) ->
  In b (graph_lms C h l (s_nfg s)) -> graph_lms C h l (s_nfg s) = [b].
Proof.
  intros H B HIN.
  assert (HN : current C l (sp_sightings C W h) <> []).
  { intro HN. destruct (@store_hist O C W _ _ _ H) as (p & I & J). rewrite (graph_lms_eq l I) in HIN. pose proof (ho_lms (si_lm J) l) as H1. rewrite HN in H1.
    unfold uget in *. destruct (settled_get N.eqb _ l (si_lms J)) as [E|(v & E & Hv)]; rewrite E in *; [destruct HIN|].
    apply heu_inliers_inv in Hv. destruct Hv as (k & data & cs & V1 & V2 & V3). rewrite H1 in V2. apply select_inv in V2. destruct V2 as (_ & _ & V2).
    rewrite V3 in HIN. cbn [me_cons] in HIN. clear -V2 HIN. induction V2 as [|i x is xs E V2 IH]; [destruct HIN|]. destruct i; discriminate E. }
  eapply star_alone; [exact (@accepted_lm O C W h s rs l H HN)|exact HIN|].
  intros x y X. unfold lm_test. destruct (proj2 (fails b) B (snd y) (fst x)) as [_ X1]. destruct (proj2 (fails b) B (snd y) (fst y)) as [X2 _].
  destruct X as [<-|<-]; auto.
Qed.

Lemma in_graph_entered h (s : solver O) rs id (b : bf) : run C W h start = Ok s rs -> In b (graph_lcs C h id (s_nfg s)) ->
  entered C W h b /\ oid_eqb (pair_of b) id = true.
Proof.
  intros H HIN. destruct (hist_run C W h H) as [p I]. rewrite (graph_lcs_eq id I) in HIN. destruct (pair_ignored h id); [destruct HIN|].
  unfold uget in HIN. destruct (ufind oid_eqb id (p_lcs p)) as [v|] eqn:E; [|destruct HIN].
  apply ufind_In in E. destruct E as (k & E & HI). pose proof (so_lcs (hi_stored I)) as S1. rewrite Forall_forall in S1. destruct (S1 _ HI) as [F1 F2].
  cbn [fst snd] in F1, F2. apply F2 in HIN. rewrite Forall_forall in F1. destruct (F1 _ HIN) as (G1 & _ & G2). split; auto. clear F1 F2.
  apply (@oid_eqb_trans _ k); [exact G1|]. rewrite oid_eqb_sym. exact E.
Qed.

Theorem within_robot h (s : solver O) rs c (b : bf) : run C W h start = Ok s rs -> c_odom_check C = true -> bad (b_meas b) ->
  ~ In b (graph_lcs C h (c, c) (s_nfg s)).
Proof.
  intros H HC B HIN. destruct (@in_graph_entered _ _ _ _ _ H HIN) as ((h1 & o & h2 & fs & vs & s1 & p1 & rs1 & _ & _ & _ & _ & _ & _ & _ & _ & X) & E).
  rewrite oid_eqb_spec in E. unfold pair_of in E. cbn [fst snd] in E.
  apply (proj1 (proj1 (fails b) B) (tref p1)). apply X; auto. destruct E as [[-> ->]|[-> ->]]; auto.
Qed.

(** *** After odometry that is not a number *)
Lemma chain_prefix l l' : forall k, chain k (l ++ l') -> @chain O k l.
Proof. induction l as [|b l IH]; intros k H; cbn [chain List.app] in *; auto. destruct H as (H1 & H2 & H3). split; [|split]; eauto. Qed.
Lemma f2_in (l : list bf) ds j i (b : bf) : Forall2 (fun b d => t_of O b = Some d) l ds -> nth_error l j = Some b -> j < i ->
  exists d, In d (firstn i ds) /\ t_of O b = Some d.
Proof.
  intro F. revert j i. induction F as [|x d l ds E F IH]; intros j i N Hj; [destruct j; discriminate N|].
  destruct i as [|i]; [lia|]. cbn [firstn]. destruct j as [|j]; cbn [nth_error] in N.
  - injection N as ->. exists d. cbn. auto.
  - destruct (IH j i N ltac:(lia)) as (e & E1 & E2). exists e. cbn. auto.
Qed.

Section After.
Variables (h1 : list op) (o : op) (h2 : list op) (s1 : solver O) (rs1 : list ret) (fs : graph_t) (vs : values O) (c : N) (k0 : key) (x0 : t_pose O).
Hypothesis R1 : run C W h1 start = Ok s1 rs1.
Hypothesis CO : call_of o = Some (fs, vs).
Hypothesis NM : not_mentioned c h1.
Hypothesis NO : robot_odoms C c [o] <> [].
Hypothesis VO : kfind k0 (s_vals s1) = Some (VPose x0) \/ kfind k0 vs = Some (VPose x0).
Hypothesis CH : chain k0 (robot_odoms C c (h1 ++ o :: h2)).
Variables (j : nat) (b0 : bf).
Hypothesis NJ : nth_error (robot_odoms C c (h1 ++ o :: h2)) j = Some b0.

Theorem after_odometry (s : solver O) rs p : run C W (h1 ++ o :: h2) start = Ok s rs -> s_pcm s = Some p ->
  forall i, j < i <= length (robot_odoms C c (h1 ++ o :: h2)) ->
  (bad (b_meas b0) -> forall b : bf, chr (b_from b) = c -> chr (b_to b) = c -> (b_from b = k0 + N.of_nat i \/ b_to b = k0 + N.of_nat i)%N ->
     sp_odom_test (tref p) b <> Some true) /\
  (lost (b_meas b0) -> chr (k0 + N.of_nat i)%N = c -> forall f g : bf, oid_eqb (pair_of f) (pair_of g) = true ->
     In (k0 + N.of_nat i)%N [b_from f; b_to f; b_from g; b_to g] -> sp_loop_test (tref p) f g <> Some true).
Proof.
  intros R2 HP i Hi. destruct (doubles_nan D) as [worse L].
  destruct (@c33 O C W h1 o h2 s1 rs1 s rs p fs vs c k0 x0 R1 R2 HP CO NM NO VO CH) as (ds & F & _ & E).
  specialize (E i). rewrite <- (Forall2_len F) in E. specialize (E (proj2 Hi)).
  destruct (@f2_in _ _ j i b0 F NJ (proj1 Hi)) as (d & I1 & I2). pose proof (no_of L _ I2) as PD.
  split.
  - intros B b C1 C2 HB. apply (bad_odom L); [congruence|]. rewrite C1.
    assert (X : bad (t_getpose O (tref p c (k0 + N.of_nat i)%N))).
    { rewrite E. apply (fold_bad L). right. exists d. rewrite PD. auto. }
    destruct HB as [->| ->]; auto.
  - intros B CK f g HPr HIN. apply (worse_loop L) with (k := (k0 + N.of_nat i)%N); auto. rewrite CK, E. apply (fold_worse L). right. exists d. rewrite PD. auto.
Qed.
End After.

(** A closure within the robot that first comes after the pose is known never enters the graph. *)
Theorem after_odometry_graph h1 (o : op) h2 h3 (s1 : solver O) rs1 (s : solver O) rs fs vs c k0 x0 j b0 i (b : bf) :
  run C W h1 start = Ok s1 rs1 -> run C W (h1 ++ o :: h2 ++ h3) start = Ok s rs -> call_of o = Some (fs, vs) ->
  not_mentioned c h1 -> robot_odoms C c [o] <> [] ->
  kfind k0 (s_vals s1) = Some (VPose x0) \/ kfind k0 vs = Some (VPose x0) ->
  chain k0 (robot_odoms C c (h1 ++ o :: h2 ++ h3)) ->
  nth_error (robot_odoms C c (h1 ++ o :: h2)) j = Some b0 -> bad (b_meas b0) -> c_odom_check C = true ->
  j < i <= length (robot_odoms C c (h1 ++ o :: h2)) ->
  chr (b_from b) = c -> chr (b_to b) = c -> (b_from b = k0 + N.of_nat i \/ b_to b = k0 + N.of_nat i)%N ->
  ~ delivered (h1 ++ o :: h2) (FBetween b) -> ~ In b (graph_lcs C (h1 ++ o :: h2 ++ h3) (c, c) (s_nfg s)).
Proof.
  intros R1 R2 CO NM NO VO CH NJ B HC Hi C1 C2 HB ND HIN.
  destruct (@in_graph_entered _ _ _ _ _ R2 HIN) as ((g1 & u & g2 & fu & vu & s2 & p2 & rs2 & EH & CU & IU & _ & R3 & HP & _ & _ & X) & _).
  assert (PRE : exists m, g1 ++ [u] = (h1 ++ o :: h2) ++ m).
  { assert (EH' : (h1 ++ o :: h2) ++ h3 = g1 ++ u :: g2) by (rewrite <- EH, <- app_assoc; reflexivity).
    assert (G : forall l l' a a' : list op, l ++ l' = a ++ a' -> exists m, (l = a ++ m /\ a' = m ++ l') \/ (a = l ++ m /\ l' = m ++ a')).
    { clear. induction l as [|x l IH]; intros l' a a' E; [exists a; right; auto|]. destruct a as [|y a]; [exists (x :: l); left; auto|].
      cbn in E. injection E as -> E. destruct (IH _ _ _ E) as (m & [[M1 M2]|[M1 M2]]); exists m; [left|right]; subst; auto. }
    destruct (G _ _ _ _ EH') as (m & [[M1 M2]|[M1 M2]]).
    - destruct m as [|v m].
      + rewrite app_nil_r in M1. cbn in M2. exists [u]. rewrite M1. reflexivity.
      + exfalso. injection M2 as -> M2. apply ND. exists v, fu, vu. split; [rewrite M1; apply in_or_app; right; left; auto|auto].
    - exists (m ++ [u]). rewrite M1, <- app_assoc. reflexivity. }
  destruct PRE as [m PRE]. rewrite PRE in R3. rewrite <- app_assoc in R3. cbn [List.app] in R3.
  assert (CHM : chain k0 (robot_odoms C c (h1 ++ o :: h2 ++ m))).
  { apply chain_prefix with (l' := robot_odoms C c g2). rewrite <- robot_odoms_app. replace ((h1 ++ o :: h2 ++ m) ++ g2) with (h1 ++ o :: h2 ++ h3); auto.
    rewrite EH. change (u :: g2) with ([u] ++ g2). rewrite app_assoc, PRE. f_equal. rewrite <- app_assoc. reflexivity. }
  assert (EO : robot_odoms C c (h1 ++ o :: h2 ++ m) = robot_odoms C c (h1 ++ o :: h2) ++ robot_odoms C c m).
  { rewrite <- robot_odoms_app, <- app_assoc. reflexivity. }
  assert (NJM : nth_error (robot_odoms C c (h1 ++ o :: h2 ++ m)) j = Some b0).
  { rewrite EO, nth_error_app1; auto. lia. }
  refine (proj1 (@after_odometry h1 o (h2 ++ m) s1 rs1 fs vs c k0 x0 R1 CO NM NO VO CHM j b0 NJM s2 rs2 p2 R3 HP i _) B b C1 C2 HB _).
  - rewrite EO, app_length. lia.
  - apply X; congruence.
Qed.
End Contain.
