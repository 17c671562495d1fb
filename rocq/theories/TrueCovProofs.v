(** * Histories without a wrong measurement: everything is accepted, for poses with covariances *)
From Coq Require Import ZArith QArith Qcanon Bool List Lia Permutation.
From Verif Require Import Prelude Num Keys KMap UMap Geometry Factors Clique Pcm Params Solver PcmSpec HistSpec StoreSpec RemoveSpec ApartSpec IncSpec
  PcmProofs PcmInv PcmStore SolverProofs HistProofs StoreProofs TrajProofs AlgProofs TrajRel ItemProofs NanProofs OutlierSpec Lie LieProofs LiePoses LieSpec LieCov LiePd LieTraj LieExact
  TrueSpec TrueAny WholeSpec WholeAny TrueCovSpec.
Set Implicit Arguments.
Local Open Scope nat_scope.

(** ** Blocks *)
Lemma psd_block n r t (c : mat xs n) : n = r + t -> psd c -> psd (@tab xs t (fun i j => get c (r + i) (r + j))).
Proof.
  intros E (F & SY & H). split; [|split].
  - intros i j Hi Hj. rewrite get_tab by auto. apply F; lia.
  - intros i j Hi Hj. rewrite !get_tab by auto. apply SY; lia.
  - intro u. set (v := fun k => if k <? r then Q2Qc 0 else u (k - r)).
    assert (E1 : form c v = form (@tab xs t (fun i j => get c (r + i) (r + j))) u); [|rewrite <- E1; apply H].
    unfold form. change (@ksum qs) with qsum. subst n.
    assert (Z : forall k, k < r -> v k = Q2Qc 0).
    { intros k Hk. unfold v. replace (k <? r) with true by (symmetry; apply Nat.ltb_lt; lia). reflexivity. }
    assert (Y : forall k, v (r + k) = u k).
    { intro k. unfold v. replace (r + k <? r) with false by (symmetry; apply Nat.ltb_ge; lia). f_equal. lia. }
    rewrite qsum_shift.
    2:{ intros k Hk. transitivity (qsum (r + t) (fun _ => Q2Qc 0)); [|apply qsum_0]. apply qsum_ext. intros l Hl.
        rewrite (Z k) by auto. rewrite !Qcmult_0_l. reflexivity. }
    apply qsum_ext. intros k Hk. rewrite qsum_shift.
    2:{ intros l Hl. rewrite (Z l) by auto. rewrite Qcmult_0_r. reflexivity. }
    apply qsum_ext. intros l Hl. rewrite !Y, get_tab by auto. reflexivity.
Qed.
Lemma block_add n r t (a b : mat xs n) : n = r + t ->
  @tab xs t (fun i j => get (madd a b) (r + i) (r + j)) = madd (@tab xs t (fun i j => get a (r + i) (r + j))) (@tab xs t (fun i j => get b (r + i) (r + j))).
Proof. intro E. apply mext. intros i j Hi Hj. unfold madd. rewrite !get_tab by (auto; lia). reflexivity. Qed.
Lemma keep_block n r t (c : mat xs n) : n = r + t ->
  @tab xs t (fun i j => get (@keep_trans n r t c) (r + i) (r + j)) = @tab xs t (fun i j => get c (r + i) (r + j)).
Proof.
  intro E. apply (@mext xs t). intros i j Hi Hj. rewrite !get_tab by auto. unfold keep_trans. rewrite get_tab by lia.
  replace (r <=? r + i) with true by (symmetry; apply Nat.leb_le; lia). replace (r + i <? r + t) with true by (symmetry; apply Nat.ltb_lt; lia).
  replace (r <=? r + j) with true by (symmetry; apply Nat.leb_le; lia). replace (r + j <? r + t) with true by (symmetry; apply Nat.ltb_lt; lia). reflexivity.
Qed.
Lemma keep_rot n r t (c : mat xs n) i j : i < n -> j < n -> i < r \/ j < r -> get (@keep_trans n r t c) i j = Some (Q2Qc 0).
Proof.
  intros Hi Hj H. unfold keep_trans. rewrite get_tab by auto.
  destruct H as [H|H]; [replace (r <=? i) with false by (symmetry; apply Nat.leb_gt; lia)|replace (r <=? j) with false by (symmetry; apply Nat.leb_gt; lia)]; rewrite ?andb_false_r; reflexivity.
Qed.
Lemma keep_psd n r t (c : mat xs n) : n = r + t -> pd (@tab xs t (fun i j => get c (r + i) (r + j))) -> psd (@keep_trans n r t c).
Proof.
  intros E (FI & SY & H). assert (KB := keep_block r t c E).
  assert (IN : forall i j, i < n -> j < n -> ~ (i < r \/ j < r) -> get (@keep_trans n r t c) i j = get (@tab xs t (fun i j => get c (r + i) (r + j))) (i - r) (j - r)).
  { intros i j Hi Hj Q. rewrite <- KB, get_tab by lia. f_equal; lia. }
  assert (DE : forall i j, {i < r \/ j < r} + {~ (i < r \/ j < r)}).
  { intros i j. destruct (lt_dec i r); [left; auto|]. destruct (lt_dec j r); [left; auto|right; lia]. }
  split; [|split].
  - intros i j Hi Hj. destruct (DE i j) as [Q|Q]; [rewrite (@keep_rot n r t c i j Hi Hj Q); discriminate|]. rewrite (IN i j Hi Hj Q). apply FI; lia.
  - intros i j Hi Hj. destruct (DE i j) as [Q|Q]; [rewrite !keep_rot by tauto; reflexivity|]. rewrite (IN i j Hi Hj Q), (IN j i Hj Hi) by tauto. apply SY; lia.
  - intro u.
    assert (E1 : form (@keep_trans n r t c) u = form (@tab xs t (fun i j => get c (r + i) (r + j))) (fun k => u (r + k))).
    { unfold form. change (@ksum qs) with qsum. subst n. rewrite <- KB. rewrite qsum_shift.
      2:{ intros k Hk. transitivity (qsum (r + t) (fun _ => Q2Qc 0)); [|apply qsum_0]. apply qsum_ext. intros l Hl.
          rewrite keep_rot by tauto || lia. cbn [num]. rewrite Qcmult_0_r, Qcmult_0_l. reflexivity. }
      apply qsum_ext. intros k Hk. rewrite qsum_shift.
      2:{ intros l Hl. rewrite keep_rot by lia. cbn [num]. rewrite Qcmult_0_r, Qcmult_0_l. reflexivity. }
      apply qsum_ext. intros l Hl. rewrite get_tab by auto. reflexivity. }
    rewrite E1. destruct (Nat.eq_dec t 0) as [->|NZ]; [apply Qcle_refl|].
    set (v := fun k => u (r + k)).
    assert (Z : (exists i, i < t /\ v i <> Q2Qc 0) \/ forall i, i < t -> v i = Q2Qc 0).
    { clear. induction t as [|m IH]; [right; intros; lia|]. destruct IH as [(i & Hi & Hv)|IH]; [left; exists i; split; auto|].
      destruct (Qc_eq_dec (v m) (Q2Qc 0)) as [Q|Q]; [right|left; exists m; split; auto].
      intros i Hi. destruct (Nat.eq_dec i m) as [->|]; auto. apply IH. lia. }
    destruct Z as [Z|Z]; [apply Qclt_le_weak, H, Z|]. unfold form. change (@ksum qs) with qsum.
    replace (qsum t _) with (Q2Qc 0); [apply Qcle_refl|]. symmetry. transitivity (qsum t (fun _ => Q2Qc 0)); [|apply qsum_0]. apply qsum_ext. intros i Hi.
    transitivity (qsum t (fun _ => Q2Qc 0)); [|apply qsum_0]. apply qsum_ext. intros j Hj. rewrite (Z i Hi), Qcmult_0_l, Qcmult_0_l. reflexivity.
Qed.

Lemma xsum_finite n : forall f : nat -> xq, (forall i, i < n -> f i <> None) -> @ksum xs n f <> None.
Proof.
  induction n as [|n IH]; intros f H; cbn [ksum]; [discriminate|]. pose proof (H 0 ltac:(lia)) as H0. pose proof (IH (fun i => f (S i)) (fun i Hi => H (S i) ltac:(lia))) as H1.
  destruct (f 0); [|congruence]. destruct (@ksum xs n (fun i => f (S i))); [discriminate|congruence].
Qed.
Lemma xsum_nan n : forall f : nat -> xq, (exists i, i < n /\ f i = None) -> @ksum xs n f = None.
Proof.
  induction n as [|n IH]; intros f (i & Hi & H); [lia|]. cbn [ksum]. destruct i as [|i]; [rewrite H; reflexivity|].
  rewrite (IH (fun i => f (S i))) by (exists i; split; [lia|auto]). destruct (f 0); reflexivity.
Qed.

Lemma pc_gauss G (b : bfactor (g_pose G) (g_cov G)) q : b_noise b = Gauss q ->
  pc_of G b = Some (if g_rot_nan G q then PC G (b_meas b) (g_keep_trans G q) false else PC G (b_meas b) q true).
Proof. intro E. unfold pc_of. rewrite E. reflexivity. Qed.

Section Lie.
Variables (P : Type) (id : P) (comp : P -> P -> P) (inv : P -> P) (d r t : nat) (ad : P -> mat qs (S d)).
Variables (lg : P -> nat -> Qc) (mi : nat -> (nat -> nat -> xq) -> nat -> nat -> xq).
Notation G := (@lie_geom P id comp inv (S d) r t ad lg mi).
Hypothesis L : pose_group G.
Hypothesis ad_id : ad id = mone.
Hypothesis ad_comp : forall a b, ad (comp a b) = mmul (ad a) (ad b).
Hypothesis dims : S d = r + t.
Hypothesis log_id : forall i, lg id i = Q2Qc 0.
Hypothesis MI : inverts mi.
Variable pp : pcm_params.
Notation O := (cov_ops G pp).
Variable X : key -> P.
Variable F : N -> P.
Notation op := (op O).
Notation bf := (bf O).
Notation PD := (fun c : g_cov G => pd (c : mat xs (S d))).
Notation SC := (fun c : g_cov G => sighting_cov r t (c : mat xs (S d))).
Notation blk c := (@tab xs t (fun i j => get (c : mat xs (S d)) (r + i) (r + j))).

Lemma sure_of (b : bf) : with_noise (G := G) (pp := pp) PD b -> exists m, pc_of G b = Some m /\ pd (pc_cov m : mat xs (S d)).
Proof.
  intros (q & E & H). eexists. split; [exact (@pc_gauss G b q E)|].
  assert (Z : g_rot_nan G q = false).
  { change (match @ksum xs r (fun i => get (q : mat xs (S d)) i i) with None => true | Some _ => false end = false).
    pose proof (@xsum_finite r (fun i => get (q : mat xs (S d)) i i)) as K. destruct (@ksum xs r _); auto. exfalso. apply K; auto.
    intros i Hi. apply H; lia. }
  rewrite Z. exact H.
Qed.
Lemma sighting_of (b : bf) : with_noise (G := G) (pp := pp) SC b -> exists m, pc_of G b = Some m /\ psd (pc_cov m : mat xs (S d)) /\
  (pd (pc_cov m : mat xs (S d)) \/ pc_rot m = false /\ pd (blk (pc_cov m))).
Proof.
  intros (q & E & [H | [N0 H]]).
  - destruct (@sure_of b) as (m & E1 & E2); [exists q; auto|]. exists m. split; [exact E1|]. split; [apply pd_psd; exact E2|auto].
  - eexists. split; [exact (@pc_gauss G b q E)|].
    assert (Z : g_rot_nan G q = true).
    { change (match @ksum xs r (fun i => get (q : mat xs (S d)) i i) with None => true | Some _ => false end = true). rewrite xsum_nan; auto. }
    rewrite Z. cbn [pc_cov pc_rot]. change (g_keep_trans G q) with (@keep_trans (S d) r t q). split; [apply keep_psd; auto|]. right. split; auto.
    rewrite keep_block by exact dims. exact H.
Qed.
Lemma block_zero_form (e : t_T O) : pc_rot (e : pcov G) = false -> pd (blk (pc_cov (e : pcov G))) -> @zero_form G pp e.
Proof.
  intros N0 H. unfold zero_form. change (maha_sq (S d) r t lg mi id (pc_cov (e : pcov G) : mat xs (S d)) (pc_rot (e : pcov G)) = dzero). rewrite N0.
  unfold maha_sq, maha_form. assert (Z : dofx (Some (Q2Qc 0)) = dzero) by reflexivity. rewrite <- Z. f_equal.
  apply qform_zero; [intros; apply log_id|]. intros i j Hi Hj. destruct (@MI _ _ H) as (B & HB & _). rewrite HB by auto. discriminate.
Qed.

(** Two true sightings of one landmark. *)
Lemma lm_cov (ref : N -> key -> t_T O) (f1 f2 : bf) : with_noise (G := G) (pp := pp) SC f1 -> with_noise (G := G) (pp := pp) SC f2 -> exact G X f1 -> exact G X f2 ->
  chr (b_from f1) = chr (b_from f2) -> b_to f1 = b_to f2 ->
  placed G X F O (@pc_pose G) ref (b_from f1) -> placed G X F O (@pc_pose G) ref (b_from f2) ->
  psd (pc_cov (sp_rel ref (chr (b_from f1)) (b_from f1) (b_from f2) : pcov G) : mat xs (S d)) ->
  dpositive (pp_lc pp) -> sp_lm_test (O := O) ref f1 f2 = Some true.
Proof.
  intros H1 H2 E1 E2 C1 C2 P1 P2 RS Pt. destruct (sighting_of H1) as (m1 & M1 & _ & Q1). destruct (sighting_of H2) as (m2 & M2 & S2 & _).
  unfold sp_lm_test. change (t_of O f1) with (pc_of G f1). change (t_of O f2) with (pc_of G f2). rewrite M1, M2. f_equal.
  apply (@id_passes_cov G pp); auto.
  - apply (@lm_error_id G L X F O (@pc_pose G) (fun _ _ => eq_refl) (fun _ => eq_refl) (fun _ _ => eq_refl) ref (b_from f1) (b_from f2) (b_to f1) m1 m2 C1 P1 P2).
    + exact (pc_exact M1 E1).
    + rewrite C2. exact (pc_exact M2 E2).
  - set (e1 := t_inv O (t_comp O (sp_rel ref (chr (b_from f1)) (b_from f1) (b_from f2)) m2)).
    assert (S1 : psd (pc_cov (e1 : pcov G) : mat xs (S d))) by (apply (@psd_comp P id comp inv d r t ad lg mi); [exact RS|exact S2]).
    destruct Q1 as [Q1|[N1 Q1]].
    + apply (pd_zero_form dims log_id MI). apply (@pd_comp_r P id comp inv d r t ad lg mi); [exact S1|exact Q1].
    + apply block_zero_form; [change (pc_rot (e1 : pcov G) && pc_rot m1 = false); rewrite N1; apply andb_false_r|].
      change (pd (blk (@madd xs (S d) (g_act G (g_inv G (pc_pose m1)) (pc_cov (e1 : pcov G))) (pc_cov m1)))). rewrite block_add by exact dims.
      apply pd_add_r; [|exact Q1]. apply psd_block; [exact dims|]. apply psd_act. exact S1.
Qed.

Lemma fold_out l : forall x a, comp x (fold_left comp l a) = fold_left comp l (comp x a).
Proof. induction l as [|y l IH]; intros x a; cbn [fold_left]; auto. rewrite IH. f_equal. apply (pg_assoc L). Qed.
Lemma along (f : P) (bs : list bf) : forall k, chain k bs -> Forall (exact G X) bs -> forall i, i <= length bs ->
  fold_left comp (map (@b_meas _ _) (firstn i bs)) (comp f (X k)) = comp f (X (k + N.of_nat i)%N).
Proof.
  induction bs as [|b bs IH]; intros k CH EX i Hi; destruct i as [|i]; cbn [firstn map fold_left]; try (rewrite N.add_0_r; reflexivity); [cbn in Hi; lia|].
  destruct CH as (A & B & CH). inversion EX as [|? ? EB ER]; subst.
  assert (ST : comp (comp f (X (b_from b))) (b_meas b) = comp f (X (b_from b + 1)%N)).
  { assert (EB' : b_meas b = comp (inv (X (b_from b))) (X (b_to b))) by exact EB. rewrite B in EB'. refine (eq_trans (f_equal (comp (comp f (X (b_from b)))) EB') _).
    rewrite <- (pg_assoc L : forall a b c, comp a (comp b c) = comp (comp a b) c). f_equal. exact (pg_cancel_l' L (X (b_from b)) (X (b_from b + 1)%N)). }
  rewrite ST, (IH (b_from b + 1)%N CH ER i) by (cbn in Hi; lia). f_equal. f_equal. lia.
Qed.

Variable C : config.
Variable W : soracles O.
Variable first : N -> key.
Notation drives := (drives_cov (G := G) PD X F (pp := pp) C W first).
Notation been := (been (O := O) C first).

Section Whole.
Variable h : list op.
Variable s : solver O.
Variable rs : list ret.
Hypothesis R : run C W h (solver_init true) = Ok s rs.

Lemma drive_ref c Q T : drives c h -> h = Q ++ T -> robot_odoms C c Q <> [] ->
  (forall i, i <= length (robot_odoms C c Q) -> chr (first c + N.of_nat i)%N = c /\ knows Q (first c + N.of_nat i)%N = true /\
     pc_pose (refs_after C W Q c (first c + N.of_nat i)%N : pcov G) = comp (F c) (X (first c + N.of_nat i)%N)) /\
  (forall i j, i <= length (robot_odoms C c Q) -> j <= length (robot_odoms C c Q) ->
     psd (pc_cov (sp_rel (refs_after C W Q) c (first c + N.of_nat i)%N (first c + N.of_nat j)%N : pcov G) : mat xs (S d))).
Proof.
  intros (ST & HC & CH & TM & SU) EP NE.
  destruct ST as (h1 & o & h2 & s1 & rs1 & fs & vs & E & R1 & CO & NM & OD & KN & VA).
  assert (E2 := E). rewrite EP in E2. symmetry in E2. destruct (split_at _ _ _ _ _ E2) as [[l El]|[l El]].
  2:{ exfalso. apply NE. rewrite El in NM. apply unmentioned_odoms. intros b Hb. apply NM. destruct Hb as (o' & fs' & vs' & Hin & Z). exists o', fs', vs'. split; auto. apply in_or_app. auto. }
  assert (R2 := R). rewrite EP in R2. destruct (run_app C W Q T _ R2) as (sp & rp & rt & RP & _). rewrite El in RP.
  assert (LE : robot_odoms C c h = robot_odoms C c Q ++ robot_odoms C c T) by (rewrite EP; apply robot_odoms_app).
  destruct (hist_run C W _ RP) as [p HI]. pose proof (hi_pcm HI) as Hp.
  assert (RF : refs_after C W Q = tref p) by (rewrite El; exact (refs_after_run C W _ RP Hp)).
  assert (CP : chain (first c) (robot_odoms C c Q)) by (rewrite LE in CH; apply chain_prefix in CH; exact CH).
  assert (TP : Forall (exact G X) (robot_odoms C c Q)) by (rewrite LE in TM; apply Forall_app in TM; tauto).
  assert (SP : Forall (with_noise (G := G) (pp := pp) PD) (robot_odoms C c Q)) by (rewrite LE in SU; apply Forall_app in SU; tauto).
  assert (HPD : forall b m, In b (robot_odoms C c Q) -> pc_of G b = Some m -> pd (pc_cov m : mat xs (S d))).
  { intros b m Hb Hm. rewrite Forall_forall in SP. destruct (sure_of (SP b Hb)) as (m' & M1 & M2). assert (m = m') by congruence. subst. exact M2. }
  set (bs := robot_odoms C c Q) in *.
  assert (EB : robot_odoms C c (h1 ++ o :: l) = bs) by (unfold bs; rewrite El; reflexivity).
  rewrite <- EB in HPD, CP.
  destruct (@c33_lie P id comp inv d r t ad lg mi L ad_id ad_comp pp C W h1 o l s1 rs1 sp rp p fs vs c (first c) (comp (F c) (X (first c))) R1 RP Hp CO NM OD VA HC CP HPD) as (ds & D1 & D2).
  rewrite EB in D1, D2, CP.
  assert (CK : forall i, i <= length bs -> chr (first c + N.of_nat i)%N = c).
  { intros i Hi. apply (@chain_chr O c (first c) bs); auto. apply robot_odoms_to. }
  split.
  - intros i Hi. split; [apply CK; auto|]. split.
    + destruct i as [|i].
      * cbn. rewrite N.add_0_r, El. replace (h1 ++ o :: l) with ((h1 ++ [o]) ++ l) by (rewrite <- app_assoc; auto). apply knows_app, KN.
      * destruct (nth_error bs i) as [b|] eqn:EN; [|apply nth_error_None in EN; lia].
        rewrite <- (chain_to _ _ CP i EN). apply (@odom_known O C c Q b). exact (nth_error_In _ _ EN).
    + rewrite RF. destruct (D2 i i (conj (le_n i) Hi)) as (E1 & _). rewrite E1. cbn [pc_comp pc_init pc_pose].
      change (g_comp G) with comp. refine (eq_trans _ (@along (F c) bs (first c) CP TP i Hi)).
      assert (FP : forall (l : list (pcov G)) a, pc_pose (fold_left (@pc_comp G) l a) = fold_left comp (map (@pc_pose G) l) (pc_pose a)).
      { induction l0 as [|x l0 IH]; intro a; cbn [fold_left map]; [reflexivity|]. rewrite IH. reflexivity. }
      unfold composite. rewrite FP. cbn [pc_default pc_pose]. rewrite fold_out.
      assert (IR : comp (comp (F c) (X (first c))) id = comp (F c) (X (first c))) by exact (pg_id_r L _).
      change (g_id G) with id. rewrite IR. f_equal.
      clear - D1. revert i. induction D1 as [|b x bs ds Hb D1 IH]; intros [|n]; cbn [firstn map]; auto. f_equal; [|apply IH].
      unfold pc_of in Hb. destruct (b_noise b) as [q|]; [|discriminate].
      destruct (g_rot_nan G q); injection Hb as Hb; subst x; reflexivity.
  - intros i j Hi Hj. rewrite RF. destruct (Nat.le_ge_cases i j) as [Hij|Hij].
    + destruct (D2 i j (conj Hij Hj)) as (_ & E1 & _ & Z). rewrite E1. exact Z.
    + destruct (D2 j i (conj Hij Hi)) as (_ & _ & E1 & Z). rewrite E1. exact Z.
Qed.

Lemma been_cov c Q T k : drives c h -> h = Q ++ T -> been c Q k ->
  chr k = c /\ placed G X F O (@pc_pose G) (refs_after C W Q) k /\ knows Q k = true.
Proof.
  intros D E (NE & i & Hi & ->). destruct (@drive_ref _ _ _ D E NE) as [A _]. destruct (A i Hi) as (A1 & A2 & A3).
  split; [exact A1|]. split; [|exact A2]. unfold placed. rewrite A1. exact A3.
Qed.
Lemma rel_cov c Q T k k' : drives c h -> h = Q ++ T -> been c Q k -> been c Q k' ->
  psd (pc_cov (sp_rel (refs_after C W Q) c k k' : pcov G) : mat xs (S d)).
Proof. intros D E (NE & i & Hi & ->) (_ & j & Hj & ->). apply (@drive_ref _ _ _ D E NE); auto. Qed.

Section Pair.
Variable id2 : obsid.
Hypothesis D1 : drives (fst id2) h.
Hypothesis D2 : drives (snd id2) h.
Hypothesis TC : true_closures_cov (G := G) PD X C first id2 h.
Hypothesis OC : c_odom_check C = true -> fst id2 = snd id2 -> dpositive (pp_odom pp).
Definition fine_cov (Q : list op) (b : bf) : Prop :=
  with_noise (G := G) (pp := pp) PD b /\ exact G X b /\ been (fst id2) Q (b_from b) /\ been (snd id2) Q (b_to b).

Lemma fine_cov_stores Q o T b : h = (Q ++ [o]) ++ T -> fine_cov (Q ++ [o]) b -> sp_lmk C b = false ->
  stores C (knows (Q ++ [o])) (refs_after C W (Q ++ [o])) b = true.
Proof.
  intros E (F1 & F2 & F3 & F4) LM. destruct (@been_cov _ _ _ _ D1 E F3) as (A1 & A2 & A3). destruct (@been_cov _ _ _ _ D2 E F4) as (B1 & B2 & B3).
  unfold stores. rewrite A3, B3, LM. cbn [andb negb]. unfold passes_odom. destruct (N.eqb_spec (chr (b_from b)) (chr (b_to b))) as [EC|]; auto.
  destruct (c_odom_check C) eqn:OE; auto. cbn [andb].
  assert (EI : fst id2 = snd id2) by congruence. pose proof (OC eq_refl EI) as PO. destruct (sure_of F1) as (m & M1 & M2).
  replace (sp_odom_test (refs_after C W (Q ++ [o])) b) with (Some true); [reflexivity|]. symmetry.
  apply (@c34_odom_cov G L X F pp (refs_after C W (Q ++ [o])) b m M1 F2 EC A2 B2); [|exact PO].
  apply (pd_zero_form dims log_id MI). apply (@pd_comp_r P id comp inv d r t ad lg mi); [|exact M2].
  assert (F4' : been (fst id2) (Q ++ [o]) (b_to b)) by (rewrite EI; exact F4).
  pose proof (@rel_cov _ _ _ _ _ D1 E F3 F4') as RC. rewrite <- A1 in RC. exact RC.
Qed.

Theorem closures_all_cov : dpositive (pp_lc pp) -> c_loop_check C = true -> no_removal h ->
  small C (length (sp_stored C W h)) -> pair_ignored h id2 = false ->
  Permutation (graph_lcs C h id2 (s_nfg s)) (closures_in C id2 h).
Proof.
  intros Pt HL NR SM IG. apply (@any_closures O C W h s rs R id2 fine_cov); auto.
  - intros Q T b (A & B & U & V). split; [|split; [|split]]; auto; apply been_more; auto.
  - exact fine_cov_stores.
  - intros Q T x y E (X1 & X2 & X3 & X4) (Y1 & Y2 & Y3 & Y4).
    destruct (@been_cov _ _ _ _ D1 E X3) as (A1 & A2 & _). destruct (@been_cov _ _ _ _ D2 E X4) as (B1 & B2 & _).
    destruct (@been_cov _ _ _ _ D1 E Y3) as (A1' & A2' & _). destruct (@been_cov _ _ _ _ D2 E Y4) as (B1' & B2' & _).
    destruct (sure_of X1) as (m1 & M1 & P1). destruct (sure_of Y1) as (m2 & M2 & P2).
    apply (@c34_pairs_lie P id comp inv d r t ad lg mi L ad_id ad_comp dims log_id MI pp X F (refs_after C W Q) x y m1 m2 M1 M2 X2 Y2).
    + exact (eq_trans A1 (eq_sym A1')).
    + exact (eq_trans B1 (eq_sym B1')).
    + intros k [<-|[<-|[<-|[<-|[]]]]]; auto.
    + exact P1.
    + apply pd_psd. exact P2.
    + pose proof (@rel_cov _ _ _ _ _ D1 E X3 Y3) as RC. rewrite <- A1 in RC. exact RC.
    + pose proof (@rel_cov _ _ _ _ _ D2 E X4 Y4) as RC. rewrite <- B1 in RC. exact RC.
    + exact Pt.
Qed.
End Pair.

Section Landmark.
Variable c : N.
Variable l : key.
Hypothesis DC : drives c h.
Hypothesis TS : true_sightings_cov (G := G) SC X C first c l h.
Definition clear_cov (Q : list op) (b : bf) : Prop := with_noise (G := G) (pp := pp) SC b /\ exact G X b /\ (b_to b = l /\ sp_lmk C b = true) /\ been c Q (b_from b).

Lemma robot_cov Q k : been c Q k -> (exists T, h = Q ++ T) -> sp_landmark (c_special C) k = false.
Proof.
  intros HB [T E]. pose proof (proj1 (@been_cov _ _ _ _ DC E HB)) as CK. destruct HB as (NE & _).
  destruct (robot_odoms C c Q) as [|b bs] eqn:EO; [contradiction|].
  assert (HI : In b (robot_odoms C c Q)) by (rewrite EO; left; auto).
  pose proof (robot_odoms_to C c Q) as FT. rewrite Forall_forall in FT. specialize (FT b HI). unfold to_robot in FT. apply N.eqb_eq in FT.
  apply filter_In in HI. destruct HI as [HI _]. apply in_flat_map in HI. destruct HI as (o & _ & HI). destruct (call_of o) as [[fs vs]|]; [|destruct HI].
  apply filter_In in HI. destruct HI as [_ HI]. unfold sp_odometry in HI. rewrite !andb_true_iff in HI. destruct HI as (((_ & HI) & _) & _). apply negb_true_iff in HI.
  unfold sp_landmark in *. rewrite CK, <- FT. exact HI.
Qed.

Theorem sightings_all_cov : dpositive (pp_lc pp) -> graph_lms C h l (s_nfg s) = map fst (current C l (sp_sightings C W h)).
Proof.
  intros Pt. apply (@any_sightings O C W h s rs R l clear_cov).
  - intros Q T b (A & B & U & V). split; [|split; [|split]]; auto. apply been_more; auto.
  - intros h1 o h2 b E A K B. destruct (@TS _ _ _ _ E A K B) as (T1 & T2 & T3 & T4). split; [|split; [|split; [split|]]]; auto.
  - intros b (_ & _ & (TO & LK) & BE) EL.
    pose proof (@robot_cov h _ BE (ex_intro _ [] (eq_sym (app_nil_r h)))) as NL. unfold sp_lmk in LK. assert (EQ : b_to b = b_from b) by exact (eq_trans TO (eq_sym EL)).
    rewrite EQ in LK. assert (LK2 : false || false = true) by exact (eq_trans (eq_sym (f_equal2 orb NL NL)) LK). discriminate LK2.
  - intros Q T x y E (X1 & X2 & (X3 & _) & X4) (Y1 & Y2 & (Y3 & _) & Y4).
    destruct (@been_cov _ _ _ _ DC E X4) as (A1 & A2 & _). destruct (@been_cov _ _ _ _ DC E Y4) as (A1' & A2' & _).
    apply lm_cov; auto.
    + exact (eq_trans A1 (eq_sym A1')).
    + exact (eq_trans X3 (eq_sym Y3)).
    + pose proof (@rel_cov _ _ _ _ _ DC E X4 Y4) as RC. rewrite <- A1 in RC. exact RC.
Qed.
End Landmark.
End Whole.

Theorem whole_graph_cov : forall h s rs, run C W h (solver_init true) = Ok s rs ->
  only_calls h -> true_history_cov (G := G) PD SC X F C W first h ->
  dpositive (pp_lc pp) -> c_loop_check C = true -> small C (length (sp_stored C W h)) ->
  Permutation (s_nfg s) (map Some (given h)).
Proof.
  intros h s rs R OC TH Pt HL SM. apply (@any_graph _ C W h s rs R OC).
  - intros b Hb. apply TH. exact Hb.
  - intros x Hx E. destruct (@TH _ Hx) as (_ & HP & _). destruct (HP E) as (id2 & ID & D1 & D2 & TC & OD). exists id2. split; [exact ID|].
    apply (@closures_all_cov h s rs R id2 D1 D2 TC OD Pt HL (calls_no_removal OC) SM).
    unfold pair_ignored. rewrite !calls_not_ignored by auto. auto.
  - intros x Hx E. destruct (@TH _ Hx) as (_ & _ & HP). destruct (HP E) as (IN & c & DC & TS). split; [exact IN|].
    split; [exact (@sightings_all_cov h s rs R c _ DC TS Pt)|].
    intros Q o T b EH IB SE. unfold sees in SE. apply andb_true_iff in SE. destruct SE as [EL EK]. destruct (@TS _ _ _ _ EH IB EL EK) as (_ & _ & T3 & T4). split; [exact T3|].
    assert (EH' : h = (Q ++ [o]) ++ T) by (rewrite EH, <- app_assoc; auto).
    exact (proj2 (proj2 (@been_cov h s rs R c (Q ++ [o]) T (b_from b) DC EH' T4))).
Qed.
End Lie.
