(** * Properties: what GTSAM is told, and averages of poses *)
From Coq Require Import QArith Qcanon String Permutation Lqa.
From Verif Require Import Prelude Num Keys KMap UMap Geometry Factors Clique Pcm Params ParamSpec Solver Grid HistSpec StoreSpec ParamProofs Scenes
  AlgProofs AlignSpec Lie LieProofs LiePoses LieSpec LieCov LiePd LieScenes Settings SettingsSpec SettingsProofs PropAlign PropLie.
Local Open Scope nat_scope.

(** ** C63 *)
(** Whatever was called to set the parameters, and whatever is then called on the solver, even after
    exceptions: about every optimisation GTSAM is told exactly what was asked for last. *)
Theorem C63_gtsam_told : forall O l (W : soracles O) b h s r,
  run_on (config_of (st_params (settings_after l))) W h (solver_init b) = Val s -> In r (s_trace s) ->
  told_well l r (tells (settings_after l) r).
Proof. exact told. Qed.
Print Assumptions C63_gtsam_told.

(** Settings and log folder; the other settings are those of C60. *)
Theorem C63_settings : forall l,
  st_params (settings_after l) = params_after (flat_map forget l) /\
  last_said say_align AlignNone l (st_align (settings_after l)) /\
  last_said say_prob (dlit 99 100) l (st_prob (settings_after l)) /\
  last_said say_folder EmptyString l (st_folder (settings_after l)).
Proof.
  intro l. split; [apply settings_forget|]. split; [|split].
  - apply (said st_align). intros st []; reflexivity.
  - apply (said st_prob). intros st []; reflexivity.
  - apply (said st_folder). intros st []; reflexivity.
Qed.
Print Assumptions C63_settings.

Definition calls1 : list call :=
  [CallSimple false (dofZ 1) (dofZ 1) (Some VQuiet); CallGnc false (dlit 9 10) (Some 7%N) None None None None (Some true);
   CallGnc true (dofZ 5) None (Some (dofZ 2)) None None (Some false) None; CallBias; CallSpecial [108%N]].
Example C63_example :
  match run_on (config_of (st_params (settings_after calls1))) W1 (base ++ [lc_good; OpTempUpdate [bet (ka 1) (ka 3) (fwd 20)] []; OpForce [] []]) (solver_init true) with
  | Val s => map (tells (settings_after calls1)) (skipn 3 (s_trace s)) =
      [[TellDamping true; TellKnown (seq 0 6); TellIterations 100; TellMuStep (dofZ 2); TellRelativeTol (dlit 1 100000);
        TellWeightsTol (dlit 1 10000); TellWeights (repeat 1%Q 6 ++ [0%Q; 0%Q]); TellCost (dofZ 5)]]
  | Bad _ => False
  end.
Proof. vm_compute. reflexivity. Qed.

(** ** C64 *)
(** In space, rotation components have standard deviation 1/10 and translation components 1/2. *)
Theorem C64_deviations_3d : forall st ps i, i < 6 ->
  (turns3 i -> av_sigma (average3 st ps) i = Q2Qc (1 # 10)) /\ (~ turns3 i -> av_sigma (average3 st ps) i = Q2Qc (1 # 2)).
Proof.
  intros st ps i Hi. rewrite turns3_iff by auto. cbn [average3 average_problem av_sigma]. unfold sigmas.
  split; intro H; do 6 (destruct i as [|i]; [try lia; reflexivity|]); lia.
Qed.
Print Assumptions C64_deviations_3d.

(** In the plane the rotation has that of translations, and one of the translations that of rotations. *)
Theorem C64_deviations_2d : forall st ps,
  (turns2 2 /\ av_sigma (average2 st ps) 2 = Q2Qc (1 # 2)) /\
  (~ turns2 0 /\ av_sigma (average2 st ps) 0 = Q2Qc (1 # 10)) /\
  (~ turns2 1 /\ av_sigma (average2 st ps) 1 = Q2Qc (1 # 2)).
Proof. intros st ps. rewrite !turns2_iff by lia. repeat split; lia. Qed.
Print Assumptions C64_deviations_2d.
Theorem C64_deviations_2d_refuted : exists st ps i j, i < 3 /\ j < 3 /\
  turns2 i /\ av_sigma (average2 st ps) i <> Q2Qc (1 # 10) /\ ~ turns2 j /\ av_sigma (average2 st ps) j <> Q2Qc (1 # 2).
Proof.
  exists settings_default, [p2_id], 2, 0. rewrite !turns2_iff by lia. do 2 (split; [lia|]). split; [reflexivity|]. split; [|split; [lia|]].
  - intro E. apply (f_equal this) in E. vm_compute in E. discriminate E.
  - intro E. apply (f_equal this) in E. vm_compute in E. discriminate E.
Qed.
Print Assumptions C64_deviations_2d_refuted.

(** Shifts of the same length cost the same in space, not in the plane. *)
Definition len2 (p : pose2) : Qc := (e_x (proj1_sig p) * e_x (proj1_sig p) + e_y (proj1_sig p) * e_y (proj1_sig p))%Qc.
Definition len3 (p : pose3) : Qc := @ksum qs 3 (fun i => at_ (e_t (proj1_sig p)) i * at_ (e_t (proj1_sig p)) i)%Qc.
Definition error2 (N : numerics pose2) st ps (t x : pose2) : Qc := away p2_comp p2_inv (logmap N) 3 (av_sigma (average2 st ps)) t x.
Definition error3 (N : numerics pose3) st ps (t x : pose3) : Qc := away p3_comp p3_inv (logmap N) 6 (av_sigma (average3 st ps)) t x.

Theorem C64_shifts_3d : forall N st ps t x y, logs3 (logmap N) ->
  shift3 (proj1_sig (p3_comp (p3_inv t) x)) -> shift3 (proj1_sig (p3_comp (p3_inv t) y)) ->
  len3 (p3_comp (p3_inv t) x) = len3 (p3_comp (p3_inv t) y) -> error3 N st ps t x = error3 N st ps t y.
Proof.
  assert (E : forall N st ps t x, logs3 (logmap N) -> shift3 (proj1_sig (p3_comp (p3_inv t) x)) ->
    error3 N st ps t x = (Q2Qc 2 * len3 (p3_comp (p3_inv t) x))%Qc).
  { intros N st ps t x [L _] H. unfold error3, away, len3. cbn [average3 average_problem av_sigma ksum k0 kadd qs].
    destruct (L _ 0 H ltac:(lia)) as [A0 B0]. destruct (L _ 1 H ltac:(lia)) as [A1 B1]. destruct (L _ 2 H ltac:(lia)) as [A2 B2].
    cbn [Nat.add] in B0, B1, B2. rewrite A0, A1, A2, B0, B1, B2.
    change (sigmas 6 3 3 3) with (Q2Qc (1 # 2)). change (sigmas 6 3 3 4) with (Q2Qc (1 # 2)). change (sigmas 6 3 3 5) with (Q2Qc (1 # 2)).
    unfold Qcdiv. change (/ Q2Qc (1 # 2))%Qc with (Q2Qc 2).
    generalize (at_ (e_t (proj1_sig (p3_comp (p3_inv t) x))) 0) (at_ (e_t (proj1_sig (p3_comp (p3_inv t) x))) 1) (at_ (e_t (proj1_sig (p3_comp (p3_inv t) x))) 2).
    generalize (/ sigmas 6 3 3 0)%Qc (/ sigmas 6 3 3 1)%Qc (/ sigmas 6 3 3 2)%Qc. intros a b c u v w. cbn [k_t qs] in *.
    assert (HH : (Q2Qc (1 # 2) * (Q2Qc 2 * Q2Qc 2) = Q2Qc 2)%Qc) by (apply Qc_is_canon; reflexivity).
    transitivity (Q2Qc (1 # 2) * (Q2Qc 2 * Q2Qc 2) * (u * u + (v * v + (w * w + Q2Qc 0))))%Qc; [ring|rewrite HH; reflexivity]. }
  intros N st ps t x y L Hx Hy HL. rewrite (E N st ps t x L Hx), (E N st ps t y L Hy), HL. reflexivity.
Qed.
Print Assumptions C64_shifts_3d.
Theorem C64_shifts_2d_refuted : exists N st ps t x y, logs2 (logmap N) /\
  shift2 (proj1_sig (p2_comp (p2_inv t) x)) /\ shift2 (proj1_sig (p2_comp (p2_inv t) y)) /\
  len2 (p2_comp (p2_inv t) x) = len2 (p2_comp (p2_inv t) y) /\ (error2 N st ps t y < error2 N st ps t x)%Qc.
Proof.
  exists N2, settings_default, [], p2_id, (at2 1 0), (at2 0 1). split; [exact log2_ok|].
  do 2 (split; [split; apply Qc_is_canon; vm_compute; reflexivity|]). split; [apply Qc_is_canon; vm_compute; reflexivity|].
  vm_compute. reflexivity.
Qed.
Print Assumptions C64_shifts_2d_refuted.

(** The limit on the errors of inliers: none with L2, the probability set last with GNC. *)
Theorem C64_limit : forall l P id dim r t (ps : list P), exists m p,
  last_said say_align AlignNone l m /\ last_said say_prob (dlit 99 100) l p /\
  (c_align (config_of (st_params (settings_after l))) = true <-> m <> AlignNone) /\
  (m = AlignL2 -> av_limit (average_problem id dim r t (settings_after l) ps) = LimitMax) /\
  (m = AlignGnc -> av_limit (average_problem id dim r t (settings_after l) ps) = LimitProb p).
Proof.
  intros l P id dim r t ps. destruct (C63_settings l) as (E & A & B & _).
  exists (st_align (settings_after l)), (st_prob (settings_after l)). split; auto. split; auto. split; [|split].
  - cbn [config_of c_align]. unfold settings_after. generalize l. clear. intro l. induction l as [|c l IH] using rev_ind; [split; [discriminate|intro H; exfalso; apply H; reflexivity]|].
    rewrite fold_left_app. cbn [fold_left]. set (st := fold_left apply_call l settings_default) in *.
    destruct c; cbn [apply_call st_params st_align set_params apply_setter set_method pr_align]; auto.
    destruct m; cbn; split; congruence.
  - intro H. cbn [average_problem av_limit]. rewrite H. reflexivity.
  - intro H. cbn [average_problem av_limit]. rewrite H. reflexivity.
Qed.
Print Assumptions C64_limit.
Example C64_limit_example :
  av_limit (average3 (settings_after [CallAlign AlignL2; CallProb (dlit 5 10); CallAlign AlignGnc; CallIncremental]) []) = LimitProb (dlit 5 10).
Proof. reflexivity. Qed.

(** With or without limit: when all measurements agree, the best pose is their common value. *)
Definition best2 (N : numerics pose2) lim st ps := best p2_comp p2_inv (logmap N) 3 lim (average2 st ps).
Definition best3 (N : numerics pose3) lim st ps := best p3_comp p3_inv (logmap N) 6 lim (average3 st ps).
Definition above_zero (lim : option Qc) : Prop := forall c, lim = Some c -> (0 < c)%Qc.

Lemma sigma2_ok st (ps : list pose2) i : i < 3 -> av_sigma (average2 st ps) i <> Q2Qc 0.
Proof. intro H. do 3 (destruct i as [|i]; [intro E; apply (f_equal this) in E; vm_compute in E; discriminate E|]). lia. Qed.
Lemma sigma3_ok st (ps : list pose3) i : i < 6 -> av_sigma (average3 st ps) i <> Q2Qc 0.
Proof. intro H. do 6 (destruct i as [|i]; [intro E; apply (f_equal this) in E; vm_compute in E; discriminate E|]). lia. Qed.

Theorem C64_agreeing_3d : forall N lim st n q t, sharp_log (logmap N) 6 p3_id -> above_zero lim -> 0 < n ->
  best3 N lim st (repeat q n) t <-> t = q.
Proof.
  intros N lim st n q t HS HL Hn. destruct (geom3_group N) as [A B C].
  exact (@agreeing pose3 p3_comp p3_inv p3_id (logmap N) 6 _ A B C HS (sigma3_ok st (repeat q n)) lim HL n q t Hn).
Qed.
Print Assumptions C64_agreeing_3d.
Theorem C64_agreeing_2d : forall N lim st n q t, sharp_log (logmap N) 3 p2_id -> above_zero lim -> 0 < n ->
  best2 N lim st (repeat q n) t <-> t = q.
Proof.
  intros N lim st n q t HS HL Hn. destruct (geom2_group N) as [A B C].
  exact (@agreeing pose2 p2_comp p2_inv p2_id (logmap N) 3 _ A B C HS (sigma2_ok st (repeat q n)) lim HL n q t Hn).
Qed.
Print Assumptions C64_agreeing_2d.

(** With a limit [c]: when more than half of the measurements agree and the others are too far from
    them, the best pose is the common value; the others have no influence. *)
Theorem C64_outliers_dropped_3d : forall N c st ps q m outs t, sharp_log (logmap N) 6 p3_id -> (0 < c)%Qc ->
  Permutation ps (repeat q m ++ outs) -> length outs < m ->
  (forall o, In o outs -> far p3_comp p3_inv (logmap N) 6 (av_sigma (average3 st ps)) c q o) ->
  best3 N (Some c) st ps t <-> t = q.
Proof.
  intros N c st ps q m outs t HS HC HP HL HF. destruct (geom3_group N) as [A B C].
  exact (@outliers_dropped pose3 p3_comp p3_inv p3_id (logmap N) 6 _ A B C HS (sigma3_ok st ps) c HC ps q m outs t HP HL HF).
Qed.
Print Assumptions C64_outliers_dropped_3d.
Theorem C64_outliers_dropped_2d : forall N c st ps q m outs t, sharp_log (logmap N) 3 p2_id -> (0 < c)%Qc ->
  Permutation ps (repeat q m ++ outs) -> length outs < m ->
  (forall o, In o outs -> far p2_comp p2_inv (logmap N) 3 (av_sigma (average2 st ps)) c q o) ->
  best2 N (Some c) st ps t <-> t = q.
Proof.
  intros N c st ps q m outs t HS HC HP HL HF. destruct (geom2_group N) as [A B C].
  exact (@outliers_dropped pose2 p2_comp p2_inv p2_id (logmap N) 3 _ A B C HS (sigma2_ok st ps) c HC ps q m outs t HP HL HF).
Qed.
Print Assumptions C64_outliers_dropped_2d.

(** *** Examples *)

(** Logarithms that are zero for the identity only: the translation, and one for every turn. *)
Definition slog2 (p : pose2) (i : nat) : Qc :=
  match i with
  | 0 => e_x (proj1_sig p) | 1 => e_y (proj1_sig p)
  | _ => if Qc_eq_bool (e_c (proj1_sig p)) (Q2Qc 1) && Qc_eq_bool (e_s (proj1_sig p)) (Q2Qc 0) then Q2Qc 0 else Q2Qc 1
  end.
Definition slog3 (p : pose3) (i : nat) : Qc :=
  if i <? 3 then if mat_eqb (e_R (proj1_sig p)) mone then Q2Qc 0 else Q2Qc 1
  else at_ (e_t (proj1_sig p)) (i - 3).
Definition S2 : numerics pose2 := Numerics slog2 (minv N2).
Definition S3 : numerics pose3 := Numerics slog3 (minv N3).

Lemma qc_one_not_zero : Q2Qc 1 <> Q2Qc 0.
Proof. intro E. apply (f_equal this) in E. vm_compute in E. discriminate E. Qed.
Lemma sharp_S2 : sharp_log (logmap S2) 3 p2_id.
Proof.
  intro p. cbn [S2 logmap]. split.
  - intro H. assert (H0 := H 0 ltac:(lia)). assert (H1 := H 1 ltac:(lia)). assert (H2 := H 2 ltac:(lia)). cbn [slog2] in *.
    destruct (Qc_eq_bool (e_c (proj1_sig p)) (Q2Qc 1)) eqn:E1; [|cbn [andb] in H2; destruct (qc_one_not_zero H2)].
    destruct (Qc_eq_bool (e_s (proj1_sig p)) (Q2Qc 0)) eqn:E2; [|cbn [andb] in H2; destruct (qc_one_not_zero H2)].
    apply Qc_eq_bool_correct in E1, E2. apply sig_eq. destruct p as [[c s x y] Hp]. cbn [proj1_sig e_c e_s e_x e_y p2_id] in *. subst. reflexivity.
  - intros -> i Hi. destruct i as [|[|i]]; reflexivity.
Qed.
Lemma sharp_S3 : sharp_log (logmap S3) 6 p3_id.
Proof.
  intro p. cbn [S3 logmap]. unfold slog3. split.
  - intro H. apply sig_eq. destruct p as [[R t] Hp]. cbn [proj1_sig e_R e_t p3_id] in *.
    assert (H0 := H 0 ltac:(lia)). cbn [Nat.ltb Nat.leb] in H0. destruct (mat_eqb R mone) eqn:E; [|destruct (qc_one_not_zero H0)].
    apply mat_eqb_eq in E. subst R. unfold se3_id. f_equal. apply cext. intros i Hi. rewrite at_tab by auto.
    specialize (H (3 + i) ltac:(lia)). replace (3 + i <? 3) with false in H by (symmetry; apply Nat.ltb_ge; lia).
    replace (3 + i - 3) with i in H by lia. exact H.
  - intros -> i Hi. cbn [proj1_sig p3_id]. do 6 (destruct i as [|i]; [vm_compute; reflexivity|]). lia.
Qed.

(** Measurements four apart are too far from each other for the limit one. *)
Lemma shift_error2 st ps t x : (Q2Qc 2 * len2 (p2_comp (p2_inv t) x) <= error2 S2 st ps t x)%Qc.
Proof.
  unfold error2, away, len2. cbn [average2 average_problem av_sigma ksum k0 kadd qs]. cbn [S2 logmap].
  change (slog2 (p2_comp (p2_inv t) x) 0) with (e_x (proj1_sig (p2_comp (p2_inv t) x))).
  change (slog2 (p2_comp (p2_inv t) x) 1) with (e_y (proj1_sig (p2_comp (p2_inv t) x))).
  change (sigmas 3 1 2 0) with (Q2Qc (1 # 10)). change (sigmas 3 1 2 1) with (Q2Qc (1 # 2)).
  generalize (e_x (proj1_sig (p2_comp (p2_inv t) x))), (e_y (proj1_sig (p2_comp (p2_inv t) x))), (slog2 (p2_comp (p2_inv t) x) 2 / sigmas 3 1 2 2)%Qc.
  intros u v w. unfold Qcdiv. change (/ Q2Qc (1 # 10))%Qc with (Q2Qc 10). change (/ Q2Qc (1 # 2))%Qc with (Q2Qc 2).
  unfold Qcle, Qcplus, Qcmult, Q2Qc. cbn [this]. rewrite !Qred_correct. nra.
Qed.
Lemma shift_error3 st ps t x : (Q2Qc 2 * len3 (p3_comp (p3_inv t) x) <= error3 S3 st ps t x)%Qc.
Proof.
  unfold error3, away, len3. cbn [average3 average_problem av_sigma ksum k0 kadd qs]. cbn [S3 logmap].
  change (slog3 (p3_comp (p3_inv t) x) 3) with (at_ (e_t (proj1_sig (p3_comp (p3_inv t) x))) 0).
  change (slog3 (p3_comp (p3_inv t) x) 4) with (at_ (e_t (proj1_sig (p3_comp (p3_inv t) x))) 1).
  change (slog3 (p3_comp (p3_inv t) x) 5) with (at_ (e_t (proj1_sig (p3_comp (p3_inv t) x))) 2).
  change (sigmas 6 3 3 3) with (Q2Qc (1 # 2)). change (sigmas 6 3 3 4) with (Q2Qc (1 # 2)). change (sigmas 6 3 3 5) with (Q2Qc (1 # 2)).
  generalize (at_ (e_t (proj1_sig (p3_comp (p3_inv t) x))) 0), (at_ (e_t (proj1_sig (p3_comp (p3_inv t) x))) 1), (at_ (e_t (proj1_sig (p3_comp (p3_inv t) x))) 2).
  generalize (slog3 (p3_comp (p3_inv t) x) 0 / sigmas 6 3 3 0)%Qc, (slog3 (p3_comp (p3_inv t) x) 1 / sigmas 6 3 3 1)%Qc, (slog3 (p3_comp (p3_inv t) x) 2 / sigmas 6 3 3 2)%Qc.
  cbn [k_t qs]. intros a b c u v w. unfold Qcdiv. change (/ Q2Qc (1 # 2))%Qc with (Q2Qc 2).
  unfold Qcle, Qcplus, Qcmult, Q2Qc. cbn [this]. rewrite !Qred_correct. nra.
Qed.

Lemma q_sq (z : Q) : (0 <= z * z)%Q.
Proof. nra. Qed.
Lemma apart2 (a0 a1 b0 b1 c s : Qc) : (c * c + s * s = 1)%Qc -> (b0 = a0 + c * Q2Qc 4)%Qc -> (b1 = a1 - s * Q2Qc 4)%Qc ->
  (Q2Qc 2 * (a0 * a0 + a1 * a1) < Q2Qc 1)%Qc -> (Q2Qc 2 * (b0 * b0 + b1 * b1) < Q2Qc 1)%Qc -> False.
Proof.
  intros HC E0 E1. apply (f_equal this) in HC, E0, E1. revert HC E0 E1. unfold Qclt, Qcminus, Qcopp, Qcplus, Qcmult, Q2Qc. cbn [this].
  intros HC E0 E1 L L'. rewrite !Qred_correct in L, L'.
  assert (HC' : (c * c + s * s == 1)%Q) by (rewrite <- (Qred_correct (c * c)), <- (Qred_correct (s * s)), <- Qred_correct, HC; reflexivity).
  assert (E0' : (b0 == a0 + c * 4)%Q) by (rewrite E0, !Qred_correct; reflexivity).
  assert (E1' : (b1 == a1 - s * 4)%Q) by (rewrite E1, !Qred_correct; reflexivity).
  clear HC E0 E1. rewrite E0', E1' in L'. clear E0' E1'.
  assert (X := q_sq (2 * a0 + c * 4)%Q). assert (Y := q_sq (2 * a1 - s * 4)%Q).
  clear b0 b1. destruct a0 as [a0 ?], a1 as [a1 ?], c as [c ?], s as [s ?]. cbn [this] in *. lra.
Qed.
Lemma far_2d st ps : far p2_comp p2_inv (logmap S2) 3 (av_sigma (average2 st ps)) (Q2Qc 1) (at2 0 0) (at2 4 0).
Proof.
  intro t. destruct (Qclt_le_dec (error2 S2 st ps t (at2 0 0)) (Q2Qc 1)) as [L|]; [right|left; auto].
  destruct (Qclt_le_dec (error2 S2 st ps t (at2 4 0)) (Q2Qc 1)) as [L'|]; auto. exfalso.
  assert (A := shift_error2 st ps t (at2 0 0)). assert (B := shift_error2 st ps t (at2 4 0)).
  apply (Qcle_lt_trans _ _ _ A) in L. apply (Qcle_lt_trans _ _ _ B) in L'. clear A B. unfold len2 in L, L'.
  destruct t as [[c s x y] Hp]. pose proof (proj1 (unit2_iff _) Hp) as HC. unfold circle in HC. cbn [e_c e_s] in HC.
  refine (apart2 _ _ _ _ c s HC _ _ L L'); cbn [p2_comp p2_inv proj1_sig se2_comp se2_inv e_x e_y e_c e_s at2 kadd kmul ksub k0 k1 qs k_t];
    change (@eq (k_t qs)) with (@eq Qc); ring.
Qed.

Lemma apart3 (a0 a1 a2 b0 b1 b2 r0 r1 r2 : Qc) : (r0 * r0 + (r1 * r1 + r2 * r2) = 1)%Qc ->
  (b0 = a0 + r0 * Q2Qc 4)%Qc -> (b1 = a1 + r1 * Q2Qc 4)%Qc -> (b2 = a2 + r2 * Q2Qc 4)%Qc ->
  (Q2Qc 2 * (a0 * a0 + (a1 * a1 + (a2 * a2 + Q2Qc 0))) < Q2Qc 1)%Qc -> (Q2Qc 2 * (b0 * b0 + (b1 * b1 + (b2 * b2 + Q2Qc 0))) < Q2Qc 1)%Qc -> False.
Proof.
  intros HC E0 E1 E2. apply (f_equal this) in HC, E0, E1, E2. revert HC E0 E1 E2. unfold Qclt, Qcminus, Qcopp, Qcplus, Qcmult, Q2Qc. cbn [this].
  intros HC E0 E1 E2 L L'. rewrite !Qred_correct in L, L'.
  assert (HC' : (r0 * r0 + (r1 * r1 + r2 * r2) == 1)%Q).
  { rewrite <- (Qred_correct (r0 * r0)), <- (Qred_correct (r1 * r1)), <- (Qred_correct (r2 * r2)), <- (Qred_correct (Qred (r1 * r1) + Qred (r2 * r2))), <- Qred_correct, HC. reflexivity. }
  assert (E0' : (b0 == a0 + r0 * 4)%Q) by (rewrite E0, !Qred_correct; reflexivity).
  assert (E1' : (b1 == a1 + r1 * 4)%Q) by (rewrite E1, !Qred_correct; reflexivity).
  assert (E2' : (b2 == a2 + r2 * 4)%Q) by (rewrite E2, !Qred_correct; reflexivity).
  clear HC E0 E1 E2. rewrite E0', E1', E2' in L'. clear E0' E1' E2'.
  assert (X := q_sq (2 * a0 + r0 * 4)%Q). assert (Y := q_sq (2 * a1 + r1 * 4)%Q).
  assert (Z := q_sq (2 * a2 + r2 * 4)%Q).
  clear b0 b1 b2. destruct a0 as [a0 ?], a1 as [a1 ?], a2 as [a2 ?], r0 as [r0 ?], r1 as [r1 ?], r2 as [r2 ?]. cbn [this] in *. lra.
Qed.
Lemma far_3d st ps : far p3_comp p3_inv (logmap S3) 6 (av_sigma (average3 st ps)) (Q2Qc 1) (at3 0 0 0) (at3 4 0 0).
Proof.
  intro t. destruct (Qclt_le_dec (error3 S3 st ps t (at3 0 0 0)) (Q2Qc 1)) as [L|]; [right|left; auto].
  destruct (Qclt_le_dec (error3 S3 st ps t (at3 4 0 0)) (Q2Qc 1)) as [L'|]; auto. exfalso.
  assert (A := shift_error3 st ps t (at3 0 0 0)). assert (B := shift_error3 st ps t (at3 4 0 0)).
  apply (Qcle_lt_trans _ _ _ A) in L. apply (Qcle_lt_trans _ _ _ B) in L'. clear A B. unfold len3 in L, L'.
  destruct t as [[R v] Hp]. pose proof (proj1 (unit3_iff _) Hp) as (HC & _). cbn [e_R] in HC.
  assert (HR : (get R 0 0 * get R 0 0 + (get R 0 1 * get R 0 1 + get R 0 2 * get R 0 2) = 1)%Qc).
  { apply (f_equal (fun M => get M 0 0)) in HC. unfold mmul, mtr in HC. rewrite get_tab in HC by lia. cbn [ksum] in HC.
    rewrite !get_tab in HC by lia. unfold mone in HC. rewrite get_tab in HC by lia. cbn [Nat.eqb kadd kmul k0 k1 qs] in HC.
    etransitivity; [|exact HC]. change (@eq (k_t qs)) with (@eq Qc). ring. }
  clear HC. cbn [ksum] in L, L'.
  refine (apart3 _ _ _ _ _ _ (get R 0 0) (get R 0 1) (get R 0 2) HR _ _ _ L L');
    cbn [p3_comp p3_inv proj1_sig se3_comp se3_inv e_R e_t at3]; unfold vadd, vneg, app, mtr; rewrite !at_tab by lia;
    cbn [ksum]; rewrite ?get_tab, ?at_tab by lia; cbn [ksum kadd kmul ksub k0 qs]; change (@eq (k_t qs)) with (@eq Qc).
  all: cbn; ring.
Qed.

Example C64_outliers_example_3d : forall st t,
  best3 S3 (Some (Q2Qc 1)) st [at3 0 0 0; at3 4 0 0; at3 0 0 0] t <-> t = at3 0 0 0.
Proof.
  intros st t. apply (C64_outliers_dropped_3d S3 (Q2Qc 1) st [at3 0 0 0; at3 4 0 0; at3 0 0 0] (at3 0 0 0) 2 [at3 4 0 0] t).
  - exact sharp_S3.
  - reflexivity.
  - cbn [repeat List.app]. apply perm_skip, perm_swap.
  - cbn. lia.
  - intros x [<-|[]]. apply far_3d.
Qed.

Example C64_outliers_example_2d : forall st t,
  best2 S2 (Some (Q2Qc 1)) st [at2 0 0; at2 4 0; at2 0 0] t <-> t = at2 0 0.
Proof.
  intros st t. apply (C64_outliers_dropped_2d S2 (Q2Qc 1) st [at2 0 0; at2 4 0; at2 0 0] (at2 0 0) 2 [at2 4 0] t).
  - exact sharp_S2.
  - reflexivity.
  - cbn [repeat List.app]. apply perm_skip, perm_swap.
  - cbn. lia.
  - intros x [<-|[]]. apply far_2d.
Qed.

(** Without a limit (L2) outliers move the average. *)
Theorem C64_without_limit_refuted : exists N st ps q outs,
  sharp_log (logmap N) 6 p3_id /\ Permutation ps (repeat q 2 ++ outs) /\ length outs < 2 /\
  (forall o, In o outs -> far p3_comp p3_inv (logmap N) 6 (av_sigma (average3 st ps)) (Q2Qc 1) q o) /\
  st = settings_after [CallAlign AlignL2] /\ ~ best3 N None st ps q.
Proof.
  exists S3, (settings_after [CallAlign AlignL2]), [at3 0 0 0; at3 0 0 0; at3 4 0 0], (at3 0 0 0), [at3 4 0 0].
  split; [exact sharp_S3|]. split; [apply Permutation_refl|]. split; [cbn; lia|]. split; [intros x [<-|[]]; apply far_3d|]. split; [reflexivity|].
  intro H. specialize (H (at3 1 0 0)). apply Qcle_not_lt in H. apply H. vm_compute. reflexivity.
Qed.
Print Assumptions C64_without_limit_refuted.

(** *** Alignment *)

(** With an averaging that returns only best poses and returns on measurements that agree, the closures
    accepted between two robots hold between the aligned poses whenever they agree (C39). *)
Definition averages {P} (best : list P -> P -> Prop) (avg : list P -> option P) : Prop :=
  (forall ts t, ts <> [] -> avg ts = Some t -> best ts t) /\ (forall q n, avg (repeat q (S n)) <> None).
Lemma all_same {A} (l : list A) x : (forall t, In t l -> t = x) -> l = repeat x (length l).
Proof. induction l as [|y l IH]; intro H; [reflexivity|]. cbn [length repeat]. rewrite (H y (or_introl eq_refl)). f_equal. apply IH. intros t Ht. apply H. right. auto. Qed.
Lemma averages_exact {P} (best : list P -> P -> Prop) avg :
  (forall n q t, 0 < n -> best (repeat q n) t <-> t = q) -> averages best avg ->
  forall ts x, ts <> [] -> (forall t, In t ts -> t = x) -> avg ts = Some x.
Proof.
  intros HB [H1 H2] ts x HN HA. apply all_same in HA. destruct ts as [|t ts]; [congruence|]. cbn [length] in HA. rewrite HA in *.
  destruct (avg (repeat x (S (length ts)))) as [y|] eqn:E; [|destruct (H2 x (length ts) E)].
  f_equal. apply (HB (S (length ts))); [lia|]. apply H1; auto.
Qed.

Definition closures_hold (O : tops) (C : config) (h : list (op O)) (s s' : solver O) : Prop :=
  exists p v, s_pcm s' = Some p /\ working_values s s' v /\
    forall r0 c tf, In r0 (p_robots p) -> In c (p_robots p) -> (forall c', In c' (p_robots p) -> (r0 <= c')%N) -> r0 <> c ->
    pair_ignored h (r0, c) = false ->
    (forall b, In b (graph_lcs C h (r0, c) (s_nfg s')) -> frame_says p r0 b = Some tf) ->
    forall b, In b (graph_lcs C h (r0, c) (s_nfg s')) ->
    exists x y, kfind (b_from b) v = Some (VPose x) /\ kfind (b_to b) v = Some (VPose y) /\
      t_pcomp O (t_pinv O x) y = b_meas b.

Theorem C64_aligned_3d : forall N pp C (W : soracles (pcm3d N pp)) lim st h s rs o fs vs s' r,
  sharp_log (logmap N) 6 p3_id -> above_zero lim -> averages (best3 N lim st) (w_avg (so_pcm W)) ->
  run C W h (solver_init true) = Ok s rs -> call_of o = Some (fs, vs) -> step C W o s = Ok s' r ->
  c_align C = true -> tidy C (h ++ [o]) -> fs <> [] -> closures_hold (pcm3d N pp) C (h ++ [o]) s s'.
Proof.
  intros N pp C W lim st h s rs o fs vs s' r HS HL HA HR HC HT HAl HTi HF.
  assert (G : tgroup (pcm3d N pp)) by (destruct (geom3_group N) as [A B D]; constructor; [exact A|exact B|exact D]).
  apply (C39_accepted_closures_hold (pcm3d N pp) C W G h s rs o fs vs s' r); auto.
  apply (averages_exact (best3 N lim st)); auto. intros n q t Hn. apply C64_agreeing_3d; auto.
Qed.
Print Assumptions C64_aligned_3d.

Theorem C64_aligned_simple_3d : forall N pp C (W : soracles (pcm_simple3d N pp)) lim st h s rs o fs vs s' r,
  sharp_log (logmap N) 6 p3_id -> above_zero lim -> averages (best3 N lim st) (w_avg (so_pcm W)) ->
  run C W h (solver_init true) = Ok s rs -> call_of o = Some (fs, vs) -> step C W o s = Ok s' r ->
  c_align C = true -> tidy C (h ++ [o]) -> fs <> [] -> closures_hold (pcm_simple3d N pp) C (h ++ [o]) s s'.
Proof.
  intros N pp C W lim st h s rs o fs vs s' r HS HL HA HR HC HT HAl HTi HF.
  assert (G : tgroup (pcm_simple3d N pp)) by (destruct (geom3_group N) as [A B D]; constructor; [exact A|exact B|exact D]).
  apply (C39_accepted_closures_hold (pcm_simple3d N pp) C W G h s rs o fs vs s' r); auto.
  apply (averages_exact (best3 N lim st)); auto. intros n q t Hn. apply C64_agreeing_3d; auto.
Qed.
Print Assumptions C64_aligned_simple_3d.

Theorem C64_aligned_2d : forall N pp C (W : soracles (pcm2d N pp)) lim st h s rs o fs vs s' r,
  sharp_log (logmap N) 3 p2_id -> above_zero lim -> averages (best2 N lim st) (w_avg (so_pcm W)) ->
  run C W h (solver_init true) = Ok s rs -> call_of o = Some (fs, vs) -> step C W o s = Ok s' r ->
  c_align C = true -> tidy C (h ++ [o]) -> fs <> [] -> closures_hold (pcm2d N pp) C (h ++ [o]) s s'.
Proof.
  intros N pp C W lim st h s rs o fs vs s' r HS HL HA HR HC HT HAl HTi HF.
  assert (G : tgroup (pcm2d N pp)) by (destruct (geom2_group N) as [A B D]; constructor; [exact A|exact B|exact D]).
  apply (C39_accepted_closures_hold (pcm2d N pp) C W G h s rs o fs vs s' r); auto.
  apply (averages_exact (best2 N lim st)); auto. intros n q t Hn. apply C64_agreeing_2d; auto.
Qed.
Print Assumptions C64_aligned_2d.

Theorem C64_aligned_simple_2d : forall N pp C (W : soracles (pcm_simple2d N pp)) lim st h s rs o fs vs s' r,
  sharp_log (logmap N) 3 p2_id -> above_zero lim -> averages (best2 N lim st) (w_avg (so_pcm W)) ->
  run C W h (solver_init true) = Ok s rs -> call_of o = Some (fs, vs) -> step C W o s = Ok s' r ->
  c_align C = true -> tidy C (h ++ [o]) -> fs <> [] -> closures_hold (pcm_simple2d N pp) C (h ++ [o]) s s'.
Proof.
  intros N pp C W lim st h s rs o fs vs s' r HS HL HA HR HC HT HAl HTi HF.
  assert (G : tgroup (pcm_simple2d N pp)) by (destruct (geom2_group N) as [A B D]; constructor; [exact A|exact B|exact D]).
  apply (C39_accepted_closures_hold (pcm_simple2d N pp) C W G h s rs o fs vs s' r); auto.
  apply (averages_exact (best2 N lim st)); auto. intros n q t Hn. apply C64_agreeing_2d; auto.
Qed.
Print Assumptions C64_aligned_simple_2d.

(** Such an averaging: the common value of measurements that agree. *)
Definition common (ts : list pose3) : option pose3 :=
  match ts with
  | [] => None
  | x :: l => if forallb (fun y => mat_eqb (e_R (proj1_sig x)) (e_R (proj1_sig y)) &&
                                   forallb (fun i => Qc_eq_bool (at_ (e_t (proj1_sig x)) i) (at_ (e_t (proj1_sig y)) i)) (seq 0 3)) l
              then Some x else None
  end.
Example C64_averages_example : forall st, averages (best3 S3 None st) common.
Proof.
  intro st. split.
  - intros ts t _ H. destruct ts as [|x l]; [discriminate|]. cbn [common] in H.
    match type of H with (if ?b then _ else _) = _ => destruct b eqn:E; [|discriminate] end. injection H as <-. rewrite forallb_forall in E.
    assert (HX : x :: l = repeat x (S (length l))).
    { cbn [repeat]. f_equal. apply all_same. intros y Hy. specialize (E y Hy). apply andb_true_iff in E. destruct E as [E1 E2].
      apply mat_eqb_eq in E1. rewrite forallb_forall in E2. symmetry. apply sig_eq. destruct x as [[R t] ?], y as [[R' t'] ?].
      cbn [proj1_sig e_R e_t] in *. subst R'. f_equal. apply cext. intros i Hi. apply Qc_eq_bool_correct, E2, in_seq. lia. }
    rewrite HX. apply C64_agreeing_3d; [exact sharp_S3|intros c Hc; discriminate Hc|lia|reflexivity].
  - intros q n. cbn [repeat common]. match goal with |- (if ?b then _ else _) <> _ => replace b with true; [discriminate|] end. symmetry. apply forallb_forall.
    intros y Hy. apply repeat_spec in Hy. subst y. apply andb_true_iff. split; [apply mat_eqb_eq; reflexivity|].
    apply forallb_forall. intros i _. unfold Qc_eq_bool. destruct (Qc_eq_dec _ _); auto.
Qed.
