(** * Covariances that are not numbers: proofs *)
From Coq Require Import ZArith Lia Permutation.
From Verif Require Import Prelude Num Keys KMap UMap Geometry Factors Clique Pcm Solver PcmSpec PcmProofs PcmInv PcmStore HistSpec StoreSpec
  SolverProofs HistProofs GraphProofs StoreProofs AcceptProofs RemoveSpec RecordProofs IncSpec IncProofs TrajProofs Lie LieProofs Floats NanSpec NanProofs NanCovSpec.
Set Implicit Arguments.
Local Open Scope nat_scope.

(** ** Sums of variances *)
Lemma shr_1_pos m : (0 <= shr_m m)%Z -> (0 <= shr_m (shr_1 m))%Z.
Proof. destruct m as [m r s]. unfold shr_1. cbn [shr_m]. destruct m as [|[p|p|]|[p|p|]]; cbn; lia. Qed.
Lemma iter_shr_pos p : forall m, (0 <= shr_m m)%Z -> (0 <= shr_m (SpecFloat.iter_pos shr_1 p m))%Z.
Proof. induction p as [p IH|p IH|]; intros m H; cbn [SpecFloat.iter_pos]; auto using shr_1_pos. Qed.
Lemma shr_fexp_pos prec emax m e l : (0 <= m)%Z -> (0 <= shr_m (fst (shr_fexp prec emax m e l)))%Z.
Proof.
  intro H. unfold shr_fexp, shr. assert (X : (0 <= shr_m (shr_record_of_loc m l))%Z) by (destruct l as [|[]]; exact H).
  destruct (fexp prec emax (Zdigits2 m + e) - e)%Z; cbn [fst]; auto using iter_shr_pos.
Qed.
Lemma round_even_pos m l : (0 <= m)%Z -> (0 <= round_nearest_even m l)%Z.
Proof. intro H. unfold round_nearest_even. destruct l as [|[]]; try destruct (Z.even m); lia. Qed.
Lemma round_aux_number prec emax sx m e l : (0 <= m)%Z -> binary_round_aux prec emax sx m e l <> S754_nan.
Proof.
  intro H. unfold binary_round_aux. pose proof (shr_fexp_pos prec emax e l H) as H1.
  destruct (shr_fexp prec emax m e l) as [m1 e1]. cbn [fst] in H1.
  assert (H2 : (0 <= round_nearest_even (shr_m m1) (loc_of_shr_record m1))%Z) by (apply round_even_pos; exact H1).
  pose proof (shr_fexp_pos prec emax e1 loc_Exact H2) as H3.
  destruct (shr_fexp prec emax _ e1 loc_Exact) as [m2 e2]. cbn [fst] in H3.
  destruct (shr_m m2) as [|p|p]; try discriminate; [|lia]. destruct (Zle_bool e2 (emax - prec)); discriminate.
Qed.

Lemma add_variance x y : variance x -> variance y -> variance (dadd x y).
Proof.
  destruct x as [s|s| |s m e], y as [s'|s'| |s' m' e']; cbn [variance]; intros H H'; subst; try tauto; try exact I; try reflexivity.
  - destruct s, s'; exact I.
  - unfold dadd, SFadd. set (ez := Z.min e e'). cbn [SpecFloat.cond_Zopp].
    set (m1 := fst (shl_align m e ez)). set (m2 := fst (shl_align m' e' ez)).
    change (Zpos m1 + Zpos m2)%Z with (Zpos (m1 + m2)). cbn [binary_normalize]. unfold binary_round.
    destruct (shl_align (m1 + m2) ez _) as [mz ee].
    pose proof (binary_round_aux_sign dprec demax false (Zpos mz) ee loc_Exact) as S1.
    assert (N1 : binary_round_aux dprec demax false (Zpos mz) ee loc_Exact <> S754_nan) by (apply round_aux_number; lia).
    destruct (binary_round_aux dprec demax false (Zpos mz) ee loc_Exact) as [z|z| |z mm zz]; cbn [variance]; auto.
Qed.
Lemma ksum_variance n : forall f : nat -> ds, (forall k, k < n -> variance (f k)) -> variance (@ksum ds n f).
Proof.
  induction n as [|n IH]; intros f H; cbn [ksum]; [exact I|].
  change (variance (dadd (f 0) (@ksum ds n (fun i => f (S i))))). apply add_variance; [apply H; lia|]. apply IH. intros k Hk. apply H. lia.
Qed.

(** ** Elimination *)
Lemma div_nr x : ddiv x nan = nan. Proof. destruct x; reflexivity. Qed.
Lemma axpy_at a u v i x y : nth_error u i = Some x -> nth_error v i = Some y -> nth_error (axpy a u v) i = Some (dsub y (dmul a x)).
Proof.
  revert v i. induction u as [|x' u IH]; intros v i E1 E2; [destruct i; discriminate E1|].
  destruct v as [|y' v]; [destruct i; discriminate E2|]. destruct i as [|i]; cbn [nth_error] in E1, E2.
  - injection E1 as ->. injection E2 as ->. reflexivity.
  - exact (IH v i E1 E2).
Qed.
Lemma axpy_length a u v : length u = length v -> length (axpy a u v) = length v.
Proof. intro E. unfold axpy. rewrite map_length, combine_length, E. apply Nat.min_id. Qed.
Lemma tl_length A (l : list A) n : length l = S n -> length (tl l) = n.
Proof. destruct l; cbn; lia. Qed.
Lemma nth_tl A (l : list A) i : nth_error (tl l) i = nth_error l (S i).
Proof. destruct l; [destruct i|]; reflexivity. Qed.
Lemma drow_at l i x : nth_error l i = Some x -> drow l i = x.
Proof. intro E. unfold drow. apply nth_error_nth. exact E. Qed.

Lemma less_nan u v i : i < length v -> nth_error u i = Some nan ->
  forall acc, fold_left (fun acc p => dsub acc (dmul (fst p) (snd p))) (combine u v) acc = nan.
Proof.
  assert (A : forall l acc, acc = nan -> fold_left (fun acc p => dsub acc (dmul (fst p) (snd p))) l acc = nan).
  { induction l as [|p l IH]; intros acc E; cbn [fold_left]; auto. apply IH. rewrite E. apply sub_nl. }
  revert v i. induction u as [|x u IH]; intros v i Hi E acc; [destruct i; discriminate E|].
  destruct v as [|y v]; cbn [length] in Hi; [lia|]. cbn [combine fold_left fst snd]. destruct i as [|i]; cbn [nth_error] in E.
  - injection E as ->. apply A. rewrite mul_nl. apply sub_nr.
  - apply (IH v i); auto. lia.
Qed.

Lemma nth_error_firstn_low A (l : list A) n : forall i, i < n -> nth_error (firstn n l) i = nth_error l i.
Proof. revert l. induction n as [|n IH]; intros l i H; [lia|]. destruct l as [|x l]; [destruct i; reflexivity|]. destruct i as [|i]; cbn; auto. apply IH. lia. Qed.

Definition zeros (i : nat) : list double := repeat dzero i.
Lemma zeros_snoc i (l : list double) : zeros i ++ dzero :: l = zeros (S i) ++ l.
Proof. unfold zeros. induction i as [|i IH]; cbn; auto. f_equal. exact IH. Qed.
Lemma zeros_length i : length (zeros i) = i.
Proof. apply repeat_length. Qed.

(** [k] equations in [k] unknowns with a NaN coefficient in row [a]: the [a]-th unknown is NaN. *)
Lemma solve_nan k : forall (M : list (list double)) i a b row, length M = k -> (forall s, In s M -> length s = S k) ->
  nth_error M a = Some row -> b < k -> nth_error row b = Some nan ->
  nth_error (backward (i + k) i (map (fun s => zeros i ++ s) (forward k M))) a = Some nan.
Proof.
  induction k as [|k IH]; intros M i a b row HM HR HA HB HN; [lia|].
  destruct M as [|r M]; [discriminate HM|]. injection HM as HM. cbn [forward map backward].
  assert (LR : length r = S (S k)) by (apply HR; left; auto).
  rewrite map_map. rewrite (map_ext _ _ (zeros_snoc i)).
  set (M2 := map (fun s => tl (axpy (ddiv (drow s 0) (drow r 0)) r s)) M).
  set (xs := backward (i + S k) (S i) (map (fun s => zeros (S i) ++ s) (forward k M2))).
  assert (LX : length xs = k).
  { unfold xs. rewrite backward_length, map_length, forward_length. unfold M2. rewrite map_length. exact HM. }
  assert (L2 : forall s, In s M2 -> length s = S k).
  { unfold M2. intros s Hs. apply in_map_iff in Hs. destruct Hs as (u & <- & Hu). apply tl_length. rewrite axpy_length; [apply HR; right; exact Hu|].
    etransitivity; [exact LR|symmetry; apply HR; right; exact Hu]. }
  assert (E2 : length M2 = k) by (unfold M2; rewrite map_length; exact HM).
  destruct a as [|a]; cbn [nth_error] in HA |- *.
  - injection HA as <-. f_equal. destruct b as [|b].
    + rewrite (@drow_at (zeros i ++ r) i nan); [apply div_nr|]. rewrite nth_error_app2 by (rewrite zeros_length; lia). rewrite zeros_length, Nat.sub_diag. exact HN.
    + rewrite (@less_nan _ xs b); [apply div_nl|rewrite LX; lia|].
      rewrite nth_skipn. rewrite nth_error_firstn_low by lia. rewrite nth_error_app2 by (rewrite zeros_length; lia). rewrite zeros_length.
      replace (S i + b - i) with (S b) by lia. exact HN.
  - unfold xs. replace (i + S k) with (S i + k) by lia.
    assert (HA2 : nth_error M2 a = Some (tl (axpy (ddiv (drow row 0) (drow r 0)) r row))) by (unfold M2; rewrite nth_error_map, HA; reflexivity).
    assert (IR : In row M) by (eapply nth_error_In; exact HA). assert (LW : length row = S (S k)) by (apply HR; right; exact IR).
    assert (AK : a < k). { rewrite <- HM. apply nth_error_Some. congruence. }
    destruct b as [|b].
    + apply (IH M2 (S i) a 0 _ E2 L2 HA2); [lia|]. rewrite nth_tl. rewrite (drow_at _ _ HN).
      destruct r as [|r0 [|r1 r]]; cbn in LR; try lia. destruct row as [|w0 [|w1 row]]; cbn in LW; try lia.
      rewrite (@axpy_at _ _ _ 1 r1 w1) by reflexivity. f_equal. rewrite div_nl, mul_nl. apply sub_nr.
    + apply (IH M2 (S i) a b _ E2 L2 HA2); [lia|]. rewrite nth_tl.
      destruct (nth_error r (S b)) as [x|] eqn:EX; [|apply nth_error_None in EX; lia].
      rewrite (axpy_at _ _ _ _ EX HN). rewrite sub_nl. reflexivity.
Qed.

Lemma nth_combine A B (u : list A) (v : list B) : forall i x y, nth_error u i = Some x -> nth_error v i = Some y -> nth_error (combine u v) i = Some (x, y).
Proof.
  revert v. induction u as [|a u IH]; intros v i x y E1 E2; [destruct i; discriminate E1|]. destruct v as [|b v]; [destruct i; discriminate E2|].
  destruct i as [|i]; cbn in *; [congruence|auto].
Qed.
Lemma dsolve_nan (A : list (list double)) v n a b row : length A = n -> length v = n -> (forall s, In s A -> length s = n) ->
  nth_error A a = Some row -> b < n -> nth_error row b = Some nan -> nth_error (dsolve A v) a = Some nan.
Proof.
  intros LA LV LR HA HB HN. unfold dsolve. rewrite LA.
  assert (AN : a < n) by (rewrite <- LA; apply nth_error_Some; congruence).
  destruct (nth_error v a) as [y|] eqn:EY; [|apply nth_error_None in EY; lia].
  set (M := map (fun p => fst p ++ [snd p])%list (combine A v)).
  assert (X : nth_error (backward (0 + n) 0 (map (fun s => zeros 0 ++ s) (forward n M))) a = Some nan).
  { apply (@solve_nan n M 0 a b (row ++ [y])); auto.
    - unfold M. rewrite map_length, combine_length, LA, LV. apply Nat.min_id.
    - unfold M. intros s Hs. apply in_map_iff in Hs. destruct Hs as ([u w] & <- & Hu). apply in_combine_l in Hu. cbn [fst snd]. rewrite app_length, (LR _ Hu). cbn. lia.
    - unfold M. rewrite nth_error_map, (nth_combine _ _ _ HA EY). reflexivity.
    - rewrite nth_error_app1; auto. apply nth_error_Some. congruence. }
  rewrite (map_ext (fun s => zeros 0 ++ s) (fun s => s)), map_id in X by reflexivity. exact X.
Qed.

Lemma dot_nan_r u v i : i < length u -> nth_error v i = Some nan -> dot u v = nan.
Proof.
  unfold dot. generalize dzero. revert v i. induction u as [|x u IH]; intros v i d Hi E; cbn [length] in Hi; [lia|].
  destruct v as [|y v]; [destruct i; discriminate E|]. cbn [combine fold_left fst snd]. destruct i as [|i]; cbn [nth_error] in E.
  - injection E as ->. rewrite mul_nr, add_nr. apply dot_acc. reflexivity.
  - apply (IH v i); auto. lia.
Qed.

Lemma firstn_In' A (l : list A) n x : In x (firstn n l) -> In x l.
Proof. revert n. induction l as [|y l IH]; intros [|n] H; cbn in *; auto; destruct H; eauto. Qed.
Lemma skipn_In' A (l : list A) n x : In x (skipn n l) -> In x l.
Proof. revert n. induction l as [|y l IH]; intros [|n] H; cbn in *; auto. eauto. Qed.

(** ** Matrices *)
Section Mats.
Variable n : nat.
Implicit Types A B : mat ds n.
Definition nan_all A : Prop := forall i j, i < n -> j < n -> get A i j = nan.
Lemma nan_mul_r A B i k j : i < n -> k < n -> j < n -> get B k j = nan -> get (mmul A B) i j = nan.
Proof. intros Hi Hk Hj E. unfold mmul. rewrite get_tab by auto. apply ksum_nan with (k := k); auto. rewrite E. apply mul_nr. Qed.
Lemma nan_mul_l A B i k j : i < n -> k < n -> j < n -> get A i k = nan -> get (mmul A B) i j = nan.
Proof. intros Hi Hk Hj E. unfold mmul. rewrite get_tab by auto. apply ksum_nan with (k := k); auto. rewrite E. apply mul_nl. Qed.
Lemma nan_add_l A B i j : i < n -> j < n -> get A i j = nan -> get (madd A B) i j = nan.
Proof. intros Hi Hj E. unfold madd. rewrite get_tab by auto. rewrite E. apply add_nl. Qed.
Lemma nan_add_r A B i j : i < n -> j < n -> get B i j = nan -> get (madd A B) i j = nan.
Proof. intros Hi Hj E. unfold madd. rewrite get_tab by auto. rewrite E. apply add_nr. Qed.
Lemma to_rows_at A i : i < n -> nth_error (to_rows A) i = Some (map (fun j => get A i j) (seq 0 n)).
Proof.
  intro Hi. unfold to_rows. rewrite nth_error_map. replace (nth_error (seq 0 n) i) with (Some i); [reflexivity|].
  rewrite (nth_error_nth' _ 0) by (rewrite seq_length; exact Hi). rewrite seq_nth by exact Hi. reflexivity.
Qed.
Lemma row_at A i j : j < n -> nth_error (map (fun j => get A i j) (seq 0 n)) j = Some (get A i j).
Proof.
  intro Hj. rewrite nth_error_map. replace (nth_error (seq 0 n) j) with (Some j); [reflexivity|].
  rewrite (nth_error_nth' _ 0) by (rewrite seq_length; exact Hj). rewrite seq_nth by exact Hj. reflexivity.
Qed.
Lemma to_rows_lengths A s : In s (to_rows A) -> length s = n.
Proof. unfold to_rows. intro H. apply in_map_iff in H. destruct H as (i & <- & _). rewrite map_length, seq_length. reflexivity. Qed.
End Mats.
Arguments nan_all {n} A.

(** ** Transforms that spoil whatever they are part of *)
Record spoils (O : tops) (sp : t_T O -> Prop) : Prop := {
  sp_comp : forall a b, sp a \/ sp b -> sp (t_comp O a b);
  sp_inv : forall a, sp a -> sp (t_inv O a);
  sp_between : forall a b, sp a \/ sp b -> sp (t_between O a b);
  sp_odom : forall a, sp a -> t_odom_ok O a = false;
  sp_loop : forall a, sp a -> t_loop_ok O a = false }.

Section Hist.
Variable O : tops.
Variable C : config.
Variable W : soracles O.
Notation bf := (bf O).
Notation op := (op O).
Notation start := (@solver_init O true).

Theorem h_within h (s : solver O) rs c (b : bf) : run C W h start = Ok s rs -> c_odom_check C = true -> fails_odom b ->
  ~ In b (graph_lcs C h (c, c) (s_nfg s)).
Proof.
  intros H HC B HIN. destruct (@in_graph_entered _ _ _ _ _ _ _ _ H HIN) as ((h1 & o & h2 & fs & vs & s1 & p1 & rs1 & _ & _ & _ & _ & _ & _ & _ & _ & X) & E).
  rewrite oid_eqb_spec in E. unfold pair_of in E. cbn [fst snd] in E.
  apply (B (tref p1)). apply X; auto. destruct E as [[-> ->]|[-> ->]]; auto.
Qed.
Theorem h_alone h (s : solver O) rs id (b : bf) : run C W h start = Ok s rs -> records_sound C W h -> small C (length (sp_stored C W h)) ->
  c_loop_check C = true -> fails_pairwise b -> In b (graph_lcs C h id (s_nfg s)) -> graph_lcs C h id (s_nfg s) = [b].
Proof.
  intros H HK HZ HC B HIN. destruct (pair_ignored h id) eqn:HG.
  { destruct (hist_run C W h H) as [p I]. rewrite (graph_lcs_eq id I), HG in HIN. destruct HIN. }
  assert (HN : live_items C W id h <> []).
  { intro E. pose proof (@kept_all_modes O C W h s rs id H HK HZ HC HG) as P. rewrite E in P.
    assert (P' : Permutation (graph_lcs C h id (s_nfg s)) []) by (apply P; intros i j x y _ X; destruct i; discriminate X).
    apply Permutation_sym, Permutation_nil in P'. rewrite P' in HIN. destruct HIN. }
  eapply star_alone; [exact (@kept_star O C W h s rs id H HK HZ HC HG HN)|exact HIN|].
  intros x y X. unfold lc_test. destruct (B (snd y) (fst x)) as [_ X1]. destruct (B (snd y) (fst y)) as [X2 _].
  destruct X as [<-|<-]; auto.
Qed.
Theorem h_lm_alone h (s : solver O) rs l (b : bf) : run C W h start = Ok s rs -> fails_sightings b ->
  In b (graph_lms C h l (s_nfg s)) -> graph_lms C h l (s_nfg s) = [b].
Proof.
  intros H B HIN.
  assert (HN : current C l (sp_sightings C W h) <> []).
  { intro HN. destruct (@store_hist O C W _ _ _ H) as (p & I & J). rewrite (graph_lms_eq l I) in HIN. pose proof (ho_lms (si_lm J) l) as H1. rewrite HN in H1.
    unfold uget in *. destruct (settled_get N.eqb _ l (si_lms J)) as [E|(v & E & Hv)]; rewrite E in *; [destruct HIN|].
    apply heu_inliers_inv in Hv. destruct Hv as (k & data & cs & V1 & V2 & V3). rewrite H1 in V2. apply select_inv in V2. destruct V2 as (_ & _ & V2).
    rewrite V3 in HIN. cbn [me_cons] in HIN. clear -V2 HIN. induction V2 as [|i x is xs E V2 IH]; [destruct HIN|]. destruct i; discriminate E. }
  eapply star_alone; [exact (@accepted_lm O C W h s rs l H HN)|exact HIN|].
  intros x y X. unfold lm_test. destruct (B (snd y) (fst x)) as [_ X1]. destruct (B (snd y) (fst y)) as [X2 _].
  destruct X as [<-|<-]; auto.
Qed.

Section Spoils.
Variable sp : t_T O -> Prop.
Hypothesis L : spoils O sp.
Lemma spoilt_odom (ref : N -> key -> t_T O) (b : bf) : chr (b_from b) = chr (b_to b) ->
  sp (ref (chr (b_from b)) (b_from b)) \/ sp (ref (chr (b_from b)) (b_to b)) -> sp_odom_test ref b <> Some true.
Proof.
  intros E H. unfold sp_odom_test, sp_rel. destruct (t_of O b) as [m|]; [|discriminate]. rewrite E, N.eqb_refl, <- E. intro X. injection X as X.
  rewrite (sp_odom L) in X; [discriminate X|]. apply (sp_comp L). left. apply (sp_between L), H.
Qed.
Lemma spoilt_loop (ref : N -> key -> t_T O) (f g : bf) k : oid_eqb (pair_of f) (pair_of g) = true -> In k [b_from f; b_to f; b_from g; b_to g] ->
  sp (ref (chr k) k) -> sp_loop_test ref f g <> Some true.
Proof.
  intros E HK H. unfold sp_loop_test. destruct (t_of O f) as [m1|]; [|discriminate]. destruct (t_of O g) as [m2|]; [|discriminate].
  cbv zeta. set (c := if (chr (b_from f) =? chr (b_from g))%N then b_from g else b_to g). set (d := if (chr (b_from f) =? chr (b_from g))%N then b_to g else b_from g).
  assert (X : chr (b_from f) = chr c /\ chr (b_to f) = chr d /\ In k [b_from f; b_to f; c; d]).
  { unfold c, d. rewrite oid_eqb_spec in E. unfold pair_of in E. cbn [fst snd] in E. destruct (N.eqb_spec (chr (b_from f)) (chr (b_from g))) as [Y|Y].
    - repeat split; auto. destruct E as [[E1 E2]|[E1 E2]]; congruence.
    - repeat split; [| |cbn in HK |- *; tauto]; destruct E as [[E1 E2]|[E1 E2]]; congruence. }
  destruct X as (X1 & X2 & X3). clearbody c d. intro Z. injection Z as Z. rewrite (sp_loop L) in Z; [discriminate Z|].
  unfold sp_rel. rewrite X1, X2, !N.eqb_refl, <- X1, <- X2.
  assert (LEFT : sp (t_between O (ref (chr (b_from f)) (b_from f)) (ref (chr (b_from f)) c)) \/
                 sp (t_between O (ref (chr (b_to f)) (b_to f)) (ref (chr (b_to f)) d))).
  { destruct X3 as [<-|[<-|[<-|[<-|[]]]]].
    - left. apply (sp_between L). auto.
    - right. apply (sp_between L). auto.
    - left. rewrite X1. apply (sp_between L). auto.
    - right. rewrite X2. apply (sp_between L). auto. }
  destruct LEFT as [HL|HL]; apply (sp_comp L); [left|right; exact HL]. apply (sp_comp L). left. apply (sp_inv L), (sp_comp L). left. exact HL.
Qed.
Lemma fold_spoilt ds : forall t, sp t \/ (exists d : t_T O, In d ds /\ sp d) -> sp (fold_left (t_comp O) ds t).
Proof.
  induction ds as [|d ds IH]; intros t H; cbn [fold_left].
  - destruct H as [H|(d & [] & _)]; auto.
  - apply IH. destruct H as [H|(e & [->|He] & B)]; [left; apply (sp_comp L); auto|left; apply (sp_comp L); auto|right; eauto].
Qed.

Section After.
Variables (h1 : list op) (o : op) (h2 : list op) (s1 : solver O) (rs1 : list ret) (fs : graph_t O) (vs : values O) (c : N) (k0 : key) (x0 : t_pose O).
Hypothesis R1 : run C W h1 start = Ok s1 rs1.
Hypothesis CO : call_of o = Some (fs, vs).
Hypothesis NM : not_mentioned c h1.
Hypothesis NO : robot_odoms C c [o] <> [].
Hypothesis VO : kfind k0 (s_vals s1) = Some (VPose x0) \/ kfind k0 vs = Some (VPose x0).
Hypothesis CH : chain k0 (robot_odoms C c (h1 ++ o :: h2)).
Variables (j : nat) (b0 : bf).
Hypothesis NJ : nth_error (robot_odoms C c (h1 ++ o :: h2)) j = Some b0.
Hypothesis SB : forall m, t_of O b0 = Some m -> sp m.

Theorem h_after (s : solver O) rs p : run C W (h1 ++ o :: h2) start = Ok s rs -> s_pcm s = Some p ->
  forall i, j < i <= length (robot_odoms C c (h1 ++ o :: h2)) ->
  (forall b : bf, chr (b_from b) = c -> chr (b_to b) = c -> (b_from b = k0 + N.of_nat i \/ b_to b = k0 + N.of_nat i)%N ->
     sp_odom_test (tref p) b <> Some true) /\
  (chr (k0 + N.of_nat i)%N = c -> forall f g : bf, oid_eqb (pair_of f) (pair_of g) = true ->
     In (k0 + N.of_nat i)%N [b_from f; b_to f; b_from g; b_to g] -> sp_loop_test (tref p) f g <> Some true).
Proof.
  intros R2 HP i Hi.
  destruct (@c33 O C W h1 o h2 s1 rs1 s rs p fs vs c k0 x0 R1 R2 HP CO NM NO VO CH) as (ds & F & _ & E).
  specialize (E i). rewrite <- (Forall2_len F) in E. specialize (E (proj2 Hi)).
  destruct (@f2_in _ _ _ j i b0 F NJ (proj1 Hi)) as (d & I1 & I2).
  assert (X : sp (tref p c (k0 + N.of_nat i)%N)) by (rewrite E; apply fold_spoilt; right; exists d; auto).
  split.
  - intros b C1 C2 HB. apply spoilt_odom; [congruence|]. rewrite C1. destruct HB as [->| ->]; auto.
  - intros CK f g HPr HIN. apply spoilt_loop with (k := (k0 + N.of_nat i)%N); auto. rewrite CK. exact X.
Qed.
End After.
End Spoils.
End Hist.

Section Inst.
Variable P : Type.
Variables (id : P) (comp : P -> P -> P) (inv : P -> P).
Variables (dim r_dim t_dim : nat).
Variable ad : P -> mat ds dim.
Variable log : P -> cvec ds dim.
Hypothesis DIM : r_dim + t_dim = dim.
Hypothesis TP : 0 < t_dim.
Notation G := (float_geom id comp inv dim r_dim t_dim ad log).
Notation get := (@Lie.get ds dim).
Notation maha := (fmaha_sq dim r_dim t_dim log).

Lemma act_nan p (c : mat ds dim) i j : i < dim -> j < dim -> get c i j = nan -> nan_all (fact dim ad p c).
Proof.
  intros Hi Hj E a b Ha Hb. unfold fact. apply nan_mul_l with (k := j); auto. apply nan_mul_r with (k := i); auto.
Qed.

Lemma maha_nan_full p (c : mat ds dim) i j : i < dim -> j < dim -> get c i j = nan -> maha p c true = nan.
Proof.
  intros Hi Hj E. unfold fmaha_sq. apply dot_nan_r with (i := i); [rewrite flog_length; exact Hi|].
  apply (@dsolve_nan (to_rows c) (flog dim log p) dim i j (map (fun j => get c i j) (seq 0 dim))); auto using to_rows_length, flog_length, to_rows_at.
  - intros s. apply to_rows_lengths.
  - rewrite row_at by exact Hj. rewrite E. reflexivity.
Qed.
Lemma maha_nan_block p (c : mat ds dim) full i j : position r_dim t_dim i -> position r_dim t_dim j -> get c i j = nan -> maha p c full = nan.
Proof.
  unfold position. intros Hi Hj E. destruct full; [apply maha_nan_full with (i := i) (j := j); auto; lia|].
  assert (LV : length (skipn (dim - t_dim) (flog dim log p)) = t_dim) by (rewrite skipn_length, flog_length; lia).
  unfold fmaha_sq. apply dot_nan_r with (i := i - r_dim); [rewrite LV; lia|].
  apply (@dsolve_nan (block r_dim t_dim (to_rows c)) _ t_dim (i - r_dim) (j - r_dim) (firstn t_dim (skipn r_dim (map (fun j => get c i j) (seq 0 dim))))); auto.
  - unfold block. rewrite map_length, firstn_length, skipn_length, to_rows_length. lia.
  - unfold block. intros s Hs. apply in_map_iff in Hs. destruct Hs as (u & <- & Hu). apply firstn_In', skipn_In' in Hu.
    rewrite firstn_length, skipn_length, (@to_rows_lengths _ _ _ Hu). lia.
  - unfold block. rewrite nth_error_map. rewrite nth_error_firstn_low by lia. rewrite nth_skipn. replace (r_dim + (i - r_dim)) with i by lia.
    rewrite to_rows_at by lia. reflexivity.
  - lia.
  - rewrite nth_error_firstn_low by lia. rewrite nth_skipn. replace (r_dim + (j - r_dim)) with j by lia. rewrite row_at by lia. rewrite E. reflexivity.
Qed.
Lemma maha_nan_all p (c : mat ds dim) full : nan_all c -> maha p c full = nan.
Proof. intro H. apply maha_nan_block with (i := r_dim) (j := r_dim); unfold position; try lia. apply H; lia. Qed.

(** *** What a measurement turns into *)
Lemma frot_unsure (c : mat ds dim) : unsure G get r_dim c -> frot_nan dim r_dim c = true.
Proof. intros (k & Hk & E). unfold frot_nan. rewrite (@ksum_nan r_dim (fun i => get c i i) k Hk E). reflexivity. Qed.
Lemma frot_sure (c : mat ds dim) : sure G get r_dim c -> frot_nan dim r_dim c = false.
Proof.
  intro H. unfold frot_nan. assert (V := @ksum_variance r_dim (fun i => get c i i) H). destruct (@ksum ds r_dim _) as [z|z| |z m e]; auto. destruct V.
Qed.

Notation bn := (bfactor P (mat ds dim)).
Lemma keep_at (c : mat ds dim) i j : position r_dim t_dim i -> position r_dim t_dim j -> get (fkeep_trans dim r_dim t_dim c) i j = get c i j.
Proof.
  unfold position. intros Hi Hj. unfold fkeep_trans. rewrite get_tab by lia.
  replace (r_dim <=? i) with true by (symmetry; apply Nat.leb_le; lia). replace (i <? r_dim + t_dim) with true by (symmetry; apply Nat.ltb_lt; lia).
  replace (r_dim <=? j) with true by (symmetry; apply Nat.leb_le; lia). replace (j <? r_dim + t_dim) with true by (symmetry; apply Nat.ltb_lt; lia). reflexivity.
Qed.
Lemma used_position (b : bn) m : nan_position G get r_dim t_dim b -> pc_of G b = Some m ->
  exists i j, position r_dim t_dim i /\ position r_dim t_dim j /\ get (pc_cov m) i j = nan.
Proof.
  intros (c & i & j & EN & Hi & Hj & E) HM. exists i, j. split; auto. split; auto. unfold pc_of in HM. rewrite EN in HM. injection HM as <-.
  cbn [g_rot_nan float_geom]. destruct (frot_nan dim r_dim c); [exact (eq_trans (keep_at c Hi Hj) E)|exact E].
Qed.
Lemma used_somewhere (b : bn) m : nan_position G get r_dim t_dim b \/ nan_somewhere G get r_dim t_dim b -> pc_of G b = Some m ->
  exists i j, i < dim /\ j < dim /\ get (pc_cov m) i j = nan.
Proof.
  intros [H|(c & i & j & EN & Hi & Hj & E & HS)] HM.
  - destruct (used_position H HM) as (i & j & Hi & Hj & E). unfold position in *. exists i, j. repeat split; auto; lia.
  - exists i, j. split; [clear - DIM Hi; lia|]. split; [clear - DIM Hj; lia|]. unfold pc_of in HM. rewrite EN in HM. injection HM as <-.
    cbn [g_rot_nan float_geom]. rewrite (frot_sure HS). exact E.
Qed.

Variable pp : pcm_params.
Notation O := (cov_ops G pp).
Notation act := (fact dim ad).

Lemma fails_of (e : pcov G) x : maha (pc_pose e) (pc_cov e) (pc_rot e) = nan -> Some (dlt (pc_maha e) x) <> Some true.
Proof. intros E X. injection X as X. unfold pc_maha in X. change (g_maha_sq G) with maha in X. rewrite E in X. change (dsqrt nan) with nan in X. rewrite lt_nl in X. discriminate X. Qed.

Lemma comp_nan_r (a b : pcov G) i j : i < dim -> j < dim -> get (pc_cov b) i j = nan -> get (pc_cov (pc_comp a b)) i j = nan.
Proof. intros Hi Hj E. cbn [pc_comp pc_cov]. apply nan_add_r; auto. Qed.
Lemma comp_nan_l (a b : pcov G) i j : i < dim -> j < dim -> get (pc_cov a) i j = nan -> nan_all (pc_cov (pc_comp a b) : mat ds dim).
Proof. intros Hi Hj E u v Hu Hv. cbn [pc_comp pc_cov]. apply nan_add_l; auto. apply (act_nan _ _ Hi Hj E); auto. Qed.
Lemma comp_all_l (a b : pcov G) : nan_all (pc_cov a : mat ds dim) -> nan_all (pc_cov (pc_comp a b) : mat ds dim).
Proof. intro H. apply comp_nan_l with (i := 0) (j := 0); try lia. apply H; lia. Qed.

Theorem pairwise_fails (b : bf O) : nan_position G get r_dim t_dim b \/ nan_somewhere G get r_dim t_dim b -> fails_pairwise b.
Proof.
  intros H ref b'. split; unfold sp_loop_test; cbv zeta; change (t_of O) with (pc_of G);
    destruct (pc_of G b) as [m|] eqn:E, (pc_of G b') as [m'|] eqn:E'; try discriminate; destruct (used_somewhere H E) as (i & j & Hi & Hj & N);
    apply fails_of; apply maha_nan_all.
  - apply comp_nan_l with (i := i) (j := j); auto. apply comp_nan_r; auto.
  - apply comp_all_l. apply comp_nan_l with (i := i) (j := j); auto. cbn [t_inv cov_ops pc_inv pc_cov]. apply comp_nan_r; auto.
Qed.
Theorem odom_fails (b : bf O) : nan_position G get r_dim t_dim b -> fails_odom b.
Proof.
  intros H ref. unfold sp_odom_test. change (t_of O) with (pc_of G). destruct (pc_of G b) as [m|] eqn:E; [|discriminate].
  destruct (used_position H E) as (i & j & Hi & Hj & N). unfold position in *. apply fails_of. apply maha_nan_block with (i := i) (j := j); auto.
  apply comp_nan_r; auto; lia.
Qed.
Theorem sightings_fail (b : bf O) : nan_position G get r_dim t_dim b -> fails_sightings b.
Proof.
  intros H ref b'. split; unfold sp_lm_test; change (t_of O) with (pc_of G);
    destruct (pc_of G b) as [m|] eqn:E, (pc_of G b') as [m'|] eqn:E'; try discriminate; destruct (used_position H E) as (i & j & Hi & Hj & N);
    apply fails_of; unfold position in *.
  - apply maha_nan_block with (i := i) (j := j); auto. apply comp_nan_r; auto; lia.
  - apply maha_nan_all. apply comp_nan_l with (i := i) (j := j); try lia. cbn [t_inv cov_ops pc_inv pc_cov]. apply comp_nan_r; auto; lia.
Qed.

(** *** With poses whose covariances are not numbers *)
Definition spoilt (e : pcov G) : Prop := exists i j, position r_dim t_dim i /\ position r_dim t_dim j /\ get (pc_cov e) i j = nan.
Lemma spoilt_all (e : pcov G) : nan_all (pc_cov e : mat ds dim) -> spoilt e.
Proof. intro H. exists r_dim, r_dim. unfold position. repeat split; try lia. apply H; lia. Qed.
Lemma sub_nan_l (A B : mat ds dim) i j : i < dim -> j < dim -> get A i j = nan -> get (msub A B) i j = nan.
Proof. intros Hi Hj E. unfold msub. rewrite get_tab by auto. rewrite E. apply sub_nl. Qed.
Lemma sub_nan_r (A B : mat ds dim) i j : i < dim -> j < dim -> get B i j = nan -> get (msub A B) i j = nan.
Proof. intros Hi Hj E. unfold msub. rewrite get_tab by auto. rewrite E. apply sub_nr. Qed.
Lemma inst_spoilt : spoils O spoilt.
Proof.
  constructor.
  - intros a b H. destruct H as [(i & j & Hi & Hj & E)|(i & j & Hi & Hj & E)]; pose proof Hi as Hi'; pose proof Hj as Hj'; unfold position in Hi', Hj'.
    + apply spoilt_all. exact (@comp_nan_l a b i j ltac:(lia) ltac:(lia) E).
    + exists i, j. split; auto. split; auto. exact (@comp_nan_r a b i j ltac:(lia) ltac:(lia) E).
  - intros a H. exact H.
  - intros a b H. change (spoilt (pc_between a b)). unfold pc_between. cbv zeta. set (c1 := g_csub G _ _). set (c2 := g_csub G (pc_cov a) _).
    destruct H as [(i & j & Hi & Hj & E)|(i & j & Hi & Hj & E)]; pose proof Hi as Hi'; pose proof Hj as Hj'; unfold position in Hi', Hj';
      exists i, j; (split; [auto|]); (split; [auto|]); cbn [pc_cov]; destruct (g_llt_ok G c1).
    + apply sub_nan_r; try lia. apply (act_nan _ _ (i := i) (j := j)); auto; lia.
    + apply sub_nan_l; auto; lia.
    + apply sub_nan_l; auto; lia.
    + apply sub_nan_r; try lia. apply (act_nan _ _ (i := i) (j := j)); auto; lia.
  - intros a (i & j & Hi & Hj & E). pose proof (@fails_of a (pp_odom pp) (maha_nan_block _ _ _ Hi Hj E)) as X.
    change (t_odom_ok O a) with (dlt (pc_maha a) (pp_odom pp)). destruct (dlt (pc_maha a) (pp_odom pp)); auto. destruct (X eq_refl).
  - intros a (i & j & Hi & Hj & E). pose proof (@fails_of a (pp_lc pp) (maha_nan_block _ _ _ Hi Hj E)) as X.
    change (t_loop_ok O a) with (dlt (pc_maha a) (pp_lc pp)). destruct (dlt (pc_maha a) (pp_lc pp)); auto. destruct (X eq_refl).
Qed.
Lemma inst_spoilt_of (b : bf O) m : nan_position G get r_dim t_dim b -> t_of O b = Some m -> spoilt m.
Proof. exact (@used_position b m). Qed.
End Inst.

(** ** The geometries *)
Section Geoms.
Variable G : geom.
Variable ent : g_cov G -> nat -> nat -> double.
Variables r t : nat.
Hypothesis F : float_geoms G ent r t.
Variable pp : pcm_params.
Notation O := (cov_ops G pp).

Theorem g_pairwise (b : bf O) : nan_position G ent r t b \/ nan_somewhere G ent r t b -> fails_pairwise b.
Proof. destruct F; apply pairwise_fails; lia. Qed.
Theorem g_odom (b : bf O) : nan_position G ent r t b -> fails_odom b.
Proof. destruct F; apply odom_fails; lia. Qed.
Theorem g_sightings (b : bf O) : nan_position G ent r t b -> fails_sightings b.
Proof. destruct F; apply sightings_fail; lia. Qed.
Theorem g_spoilt : exists sp, spoils O sp /\ forall (b : bf O) m, nan_position G ent r t b -> t_of O b = Some m -> sp m.
Proof. destruct F; eexists; (split; [apply inst_spoilt; lia|apply inst_spoilt_of; lia]). Qed.

Lemma g_rot_unsure c : unsure G ent r c -> g_rot_nan G c = true.
Proof. destruct F; [exact (@frot_unsure _ se3_id se3_comp se3_inv 6 3 3 se3_ad se3_log c)|exact (@frot_unsure _ se2_id se2_comp se2_inv 3 1 2 se2_ad se2_log c)]. Qed.
Lemma g_rot_sure c : sure G ent r c -> g_rot_nan G c = false.
Proof. destruct F; [exact (@frot_sure _ se3_id se3_comp se3_inv 6 3 3 se3_ad se3_log c)|exact (@frot_sure _ se2_id se2_comp se2_inv 3 1 2 se2_ad se2_log c)]. Qed.
Lemma g_keep c i j : i < r + t -> j < r + t -> ent (g_keep_trans G c) i j = if (r <=? i) && (r <=? j) then ent c i j else dzero.
Proof.
  destruct F; intros Hi Hj; cbn [g_keep_trans fgeom3 fgeom2 float_geom]; unfold fkeep_trans; rewrite get_tab by assumption.
  - rewrite (proj2 (Nat.ltb_lt i (3 + 3)) Hi), (proj2 (Nat.ltb_lt j (3 + 3)) Hj), !andb_true_r. reflexivity.
  - rewrite (proj2 (Nat.ltb_lt i (1 + 2)) Hi), (proj2 (Nat.ltb_lt j (1 + 2)) Hj), !andb_true_r. reflexivity.
Qed.
Theorem g_unsure (b : bfactor (g_pose G) (g_cov G)) c : b_noise b = Gauss c -> unsure G ent r c ->
  (exists n, pn_of G b = Some n /\ pn_pose n = b_meas b /\ pn_rot n = false) /\
  exists e, pc_of G b = Some e /\ pc_pose e = b_meas b /\ pc_rot e = false /\
    forall i j, i < r + t -> j < r + t -> ent (pc_cov e) i j = if (r <=? i) && (r <=? j) then ent c i j else dzero.
Proof.
  intros EN H. unfold pn_of, pc_of. rewrite EN, (g_rot_unsure H). split; (eexists; split; [reflexivity|]); (split; [reflexivity|]); [reflexivity|].
  split; [reflexivity|]. intros i j. apply g_keep.
Qed.
Theorem g_sure (b : bfactor (g_pose G) (g_cov G)) c : b_noise b = Gauss c -> sure G ent r c ->
  (exists n, pn_of G b = Some n /\ pn_pose n = b_meas b /\ pn_rot n = true) /\
  exists e, pc_of G b = Some e /\ pc_pose e = b_meas b /\ pc_rot e = true /\ pc_cov e = c.
Proof.
  intros EN H. unfold pn_of, pc_of. rewrite EN, (g_rot_sure H). split; (eexists; split; [reflexivity|]); auto.
Qed.
End Geoms.

(** ** Cholesky *)
Lemma axpy_nan x y : Forall (fun v => v = nan) (axpy nan x y).
Proof. unfold axpy. rewrite Forall_map, Forall_forall. intros p _. rewrite mul_nl. apply sub_nr. Qed.
Lemma axpy_row_nan a x y : Forall (fun v => v = nan) x -> Forall (fun v => v = nan) (axpy a x y).
Proof.
  intro H. unfold axpy. rewrite Forall_map, Forall_forall. intros [u v] HI. apply in_combine_l in HI. rewrite Forall_forall in H. cbn [fst snd]. rewrite (H _ HI), mul_nr. apply sub_nr.
Qed.
Lemma llt_nan_all n : forall M : list (list double), Forall (fun s => length s = n /\ Forall (fun v => v = nan) s) M -> dllt n M = true.
Proof.
  induction n as [|n IH]; intros [|r M] H; auto. inversion H as [|? ? [H1 H2] H3]; subst. destruct r as [|v r]; [discriminate H1|]. injection H1 as H1.
  assert (E : v = nan) by (inversion H2; auto). cbn [dllt drow nth]. rewrite E. cbn [negb andb dle]. change (negb (dle nan dzero)) with true. cbn [andb].
  apply IH. rewrite Forall_map. eapply Forall_impl; [|exact H3]. intros s [L A]. split.
  - destruct s as [|w s]; [discriminate L|]. injection L as L. cbn. rewrite map_length, combine_length. exact (eq_trans (f_equal2 Nat.min H1 L) (Nat.min_id n)).
  - assert (X : Forall (fun v => v = nan) (axpy (ddiv (drow s 0) nan) (nan :: r) s)) by (apply axpy_row_nan; constructor; [reflexivity|inversion H2; auto]).
    destruct (axpy _ _ _); cbn [tl]; auto. inversion X; auto.
Qed.
Lemma llt_nan_first n r (M : list (list double)) : drow r 0 = nan -> Forall (fun s => length s = S n) (r :: M) -> dllt (S n) (r :: M) = true.
Proof.
  intros E H. inversion H as [|? ? H1 H2]; subst. cbn [dllt]. rewrite E. change (negb (dle nan dzero)) with true. cbn [andb].
  apply llt_nan_all. rewrite Forall_map. eapply Forall_impl; [|exact H2]. intros s L. cbn beta in L. split.
  - destruct r as [|v r]; [discriminate H1|]. destruct s as [|w s]; [discriminate L|]. cbn. rewrite map_length, combine_length. cbn in *. lia.
  - replace (ddiv (drow s 0) nan) with nan by (destruct (drow s 0); reflexivity). pose proof (axpy_nan r s) as X. destruct (axpy _ _ _); cbn [tl]; auto. inversion X; auto.
Qed.
Lemma llt_mat n (c : mat ds (S n)) : get c 0 0 = nan -> dllt (S n) (to_rows c) = true.
Proof.
  intro E. unfold to_rows. cbn [seq map]. apply llt_nan_first; [exact E|]. constructor; [cbn [length]; rewrite map_length, seq_length; reflexivity|].
  rewrite Forall_map, Forall_forall. intros i _. cbn [length]. rewrite map_length, seq_length. reflexivity.
Qed.
Theorem g_between_nan G ent r t (a b : pcov G) : float_geoms G ent r t -> ent (pc_cov b) 0 0 = nan ->
  pc_cov (pc_between a b) = g_csub G (pc_cov b) (g_act G (g_inv G (g_between G (pc_pose a) (pc_pose b))) (pc_cov a)).
Proof.
  intros F E. assert (X : forall c, ent c 0 0 = nan -> g_llt_ok G c = true).
  { destruct F; intros c H; [exact (@llt_mat 5 c H)|exact (@llt_mat 2 c H)]. }
  unfold pc_between. cbv zeta. cbn [pc_cov]. rewrite X; auto.
  destruct F; apply sub_nan_l; auto; lia.
Qed.

(** ** Exact poses *)
Lemma ksum_undef n : forall (f : nat -> xs) k, k < n -> f k = None -> @ksum xs n f = None.
Proof.
  induction n as [|n IH]; intros f k Hk E; [lia|]. cbn [ksum]. destruct k as [|k].
  - rewrite E. reflexivity.
  - rewrite (IH (fun i => f (S i)) k) by (auto; lia). cbn [kadd xs]. destruct (f 0); reflexivity.
Qed.
Lemma qform_undef n v B i j : i < n -> j < n -> B i j = None -> qform n v B = None.
Proof.
  intros Hi Hj E. unfold qform. apply ksum_undef with (k := i); auto. apply ksum_undef with (k := j); auto. rewrite E. reflexivity.
Qed.
Theorem exact_undef P id comp inv dim r_dim t_dim ad log minv : let G := @lie_geom P id comp inv dim r_dim t_dim ad log minv in
  forall (e : pcov G) i j x,
  (if pc_rot e then i < dim /\ j < dim /\ minv dim (get (pc_cov e : mat xs dim)) i j = None
   else i < t_dim /\ j < t_dim /\ minv t_dim (fun u v => get (pc_cov e : mat xs dim) (r_dim + u) (r_dim + v)) i j = None) ->
  dlt (pc_maha e) x = false.
Proof.
  cbv zeta. intros [q c full] i j x H. unfold pc_maha. cbn [pc_pose pc_cov pc_rot g_maha_sq lie_geom] in *. unfold maha_sq, maha_form.
  destruct full; destruct H as (Hi & Hj & E); rewrite (qform_undef _ _ Hi Hj E); apply lt_nl.
Qed.
