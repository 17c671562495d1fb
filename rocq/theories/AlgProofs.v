(** * Pose algebra: relative poses of dead-reckoned trajectories, noise-free measurements *)
From Verif Require Import Prelude Num Keys KMap UMap Geometry Factors PcmSpec.
From Coq Require Import ZArith.
Set Implicit Arguments.
Local Open Scope nat_scope.

(** ** Small positive integers as doubles *)

Lemma size_le_53 p : (Zpos p < 2 ^ 53)%Z -> (Zpos (digits2_pos p) <= 53)%Z.
Proof.
  intro H. assert (E : digits2_pos p = Pos.size p) by (induction p; cbn; auto).
  rewrite E. pose proof (Pos.size_le p) as L.
  destruct (Z_le_gt_dec (Zpos (Pos.size p)) 53) as [?|G]; auto. exfalso.
  assert (2 ^ 53 <= 2 ^ (Zpos (Pos.size p) - 1))%Z by (apply Z.pow_le_mono_r; lia).
  assert (X : (2 ^ Zpos (Pos.size p) <= 2 * Zpos p)%Z).
  { change (2 * Zpos p)%Z with (Zpos p~0). rewrite <- Pos2Z.inj_pow. exact L. }
  replace (Zpos (Pos.size p)) with (Z.succ (Zpos (Pos.size p) - 1)) in X by lia.
  rewrite Z.pow_succ_r in X by lia. lia.
Qed.

Lemma digits2_shift d p : Zpos (digits2_pos (shift_pos d p)) = (Zpos (digits2_pos p) + Zpos d)%Z.
Proof.
  unfold shift_pos. revert d. apply (Pos.peano_ind (fun d => _)).
  - cbn. lia.
  - intros d IH. rewrite Pos.iter_succ. cbn [digits2_pos]. lia.
Qed.

(** Counters below [2^53] are exact and positive. *)
Lemma dofZ_pos z : (0 < z < 2 ^ 53)%Z -> exists m e, dofZ z = S754_finite false m e.
Proof.
  intros [H1 H2]. destruct z as [|p|p]; try lia. pose proof (size_le_53 H2) as D.
  unfold dofZ, binary_normalize, binary_round. unfold shl_align, fexp, emin, dprec, demax.
  set (n := Zpos (digits2_pos p)) in *.
  assert (E : (Z.max (n + 0 - 53) (3 - 1024 - 53) - 0)%Z = (n - 53)%Z) by lia. 
  rewrite E. clear E.
  assert (AUX : forall mz ez, (Zpos (digits2_pos mz) = 53)%Z -> (-52 <= ez <= 0)%Z ->
    binary_round_aux 53 1024 false (Zpos mz) ez loc_Exact = S754_finite false mz ez).
  { intros mz ez Hm He. unfold binary_round_aux, shr_fexp, Zdigits2, fexp, emin. rewrite Hm.
    replace (Z.max (53 + ez - 53) (3 - 1024 - 53) - ez)%Z with 0%Z by lia.
    cbn [shr shr_record_of_loc shr_m round_nearest_even loc_of_shr_record]. unfold Zdigits2. rewrite Hm.
    replace (Z.max (53 + ez - 53) (3 - 1024 - 53) - ez)%Z with 0%Z by lia. cbn [shr shr_record_of_loc shr_m].
    replace (ez <=? 1024 - 53)%Z with true by (symmetry; apply Z.leb_le; lia). reflexivity. }
  destruct (n - 53)%Z as [|q|q] eqn:EN; try lia.
  - exists p, 0%Z. apply AUX; lia.
  - exists (shift_pos q p), (Z.neg q). replace (Z.max (n + 0 - 53) (3 - 1024 - 53))%Z with (Z.neg q) by lia.
    apply AUX; [rewrite digits2_shift; fold n; lia|unfold n in EN; lia].
Qed.

Definition dpositive (x : double) : Prop := dlt dzero x = true.

Lemma zero_passes z t : (0 < z < 2 ^ 53)%Z -> dpositive t -> dlt (ddiv (dsqrt dzero) (dofZ z)) t = true.
Proof. intros H Ht. destruct (dofZ_pos H) as (m & e & ->). exact Ht. Qed.

Lemma loop_test_same (O : tops) (ref : N -> key -> t_T O) f1 f2 m1 m2 :
  t_of O f1 = Some m1 -> t_of O f2 = Some m2 -> chr (b_from f1) = chr (b_from f2) ->
  sp_loop_test ref f1 f2 = Some (t_loop_ok O
    (t_comp O (t_comp O (t_inv O (t_comp O (sp_rel ref (chr (b_from f1)) (b_from f1) (b_from f2)) m2)) m1)
              (sp_rel ref (chr (b_to f1)) (b_to f1) (b_to f2)))).
Proof. intros H1 H2 H. unfold sp_loop_test. rewrite H1, H2, H, N.eqb_refl. auto. Qed.

(** ** Pose groups *)

Record pose_group (G : geom) : Prop := {
  pg_assoc : forall a b c, g_comp G a (g_comp G b c) = g_comp G (g_comp G a b) c;
  pg_id_l : forall a, g_comp G (g_id G) a = a;
  pg_inv_l : forall a, g_comp G (g_inv G a) a = g_id G }.

(** Covariances added and transported along poses; [ok] marks those for which the laws hold (no NaN). *)
Record cov_action (G : geom) (ok : g_cov G -> Prop) : Prop := {
  ca_ok_zero : ok (g_czero G);
  ca_ok_add : forall x y, ok x -> ok y -> ok (g_cadd G x y);
  ca_ok_act : forall a x, ok x -> ok (g_act G a x);
  ca_assoc : forall x y z, ok x -> ok y -> ok z -> g_cadd G x (g_cadd G y z) = g_cadd G (g_cadd G x y) z;
  ca_comm : forall x y, ok x -> ok y -> g_cadd G x y = g_cadd G y x;
  ca_zero_l : forall x, ok x -> g_cadd G (g_czero G) x = x;
  ca_sub : forall x y, ok x -> ok y -> g_csub G (g_cadd G x y) x = y;
  ca_act_id : forall x, ok x -> g_act G (g_id G) x = x;
  ca_act_comp : forall a b x, ok x -> g_act G (g_comp G a b) x = g_act G a (g_act G b x);
  ca_act_add : forall a x y, ok x -> ok y -> g_act G a (g_cadd G x y) = g_cadd G (g_act G a x) (g_act G a y);
  ca_act_zero : forall a, g_act G a (g_czero G) = g_czero G }.

Section Group.
Variable G : geom.
Hypothesis L : pose_group G.
Notation "a * b" := (g_comp G a b).
Notation "/ a" := (g_inv G a).
Notation id := (g_id G).

Lemma pg_inv_r a : a * / a = id.
Proof.
  rewrite <- (pg_id_l L (a * / a)). rewrite <- (pg_inv_l L (/ a)) at 1.
  rewrite <- (pg_assoc L). rewrite (pg_assoc L (/ a) a (/ a)). rewrite (pg_inv_l L), (pg_id_l L). apply (pg_inv_l L).
Qed.
Lemma pg_id_r a : a * id = a.
Proof. rewrite <- (pg_inv_l L a), (pg_assoc L), pg_inv_r. apply (pg_id_l L). Qed.
Lemma pg_cancel_l a b : / a * (a * b) = b.
Proof. rewrite (pg_assoc L), (pg_inv_l L). apply (pg_id_l L). Qed.
Lemma pg_cancel_l' a b : a * (/ a * b) = b.
Proof. rewrite (pg_assoc L), pg_inv_r. apply (pg_id_l L). Qed.
Lemma pg_unique a b : a * b = id -> b = / a.
Proof. intro H. rewrite <- (pg_cancel_l a b), H. apply pg_id_r. Qed.
Lemma pg_inv_comp a b : / (a * b) = / b * / a.
Proof. symmetry. apply pg_unique. rewrite <- (pg_assoc L), pg_cancel_l'. apply pg_inv_r. Qed.
Lemma pg_inv_inv a : / / a = a.
Proof. symmetry. apply pg_unique. apply (pg_inv_l L). Qed.
Lemma pg_inv_id : / id = id.
Proof. symmetry. apply pg_unique. apply (pg_id_l L). Qed.
Lemma between_shift f a b : g_between G (f * a) (f * b) = g_between G a b.
Proof. unfold g_between. rewrite pg_inv_comp, <- (pg_assoc L), pg_cancel_l. auto. Qed.
Lemma between_inv a b : / g_between G a b = g_between G b a.
Proof. unfold g_between. rewrite pg_inv_comp, pg_inv_inv. auto. Qed.

Lemma fold_comp xs : forall a, fold_left (g_comp G) xs a = a * fold_left (g_comp G) xs id.
Proof.
  induction xs as [|x xs IH]; intro a; cbn [fold_left]; [symmetry; apply pg_id_r|].
  rewrite IH, (IH (id * x)), (pg_id_l L), (pg_assoc L). auto.
Qed.

(** ** Relative poses, [PoseWithNode] *)

Notation bn := (bfactor (g_pose G) (g_cov G)).
Definition increments (f : bn -> option (pnode G)) (bs : list bn) (ds : list (pnode G)) : Prop :=
  Forall2 (fun b d => f b = Some d) bs ds.

(** The stretch of a list from position [i] (included) to [j] (excluded). *)
Definition stretch {A} (i j : nat) (l : list A) : list A := firstn (j - i) (skipn i l).
Definition knows_rot (b : bn) : bool := match b_noise b with Gauss c => negb (g_rot_nan G c) | NonGauss => true end.
Definition motion (bs : list bn) : g_pose G := fold_left (g_comp G) (map (@b_meas _ _) bs) id.

Lemma firstn_stretch {A} i j (l : list A) : i <= j -> firstn j l = firstn i l ++ stretch i j l.
Proof.
  intro H. unfold stretch. rewrite <- (firstn_skipn i l) at 1. rewrite firstn_app, firstn_firstn.
  rewrite Nat.min_r by lia. f_equal. destruct (Nat.le_gt_cases (length l) i).
  - rewrite (skipn_all2 l) by lia. rewrite !firstn_nil. auto.
  - rewrite firstn_length_le by lia. auto.
Qed.

Lemma Forall2_firstn {A B} (P : A -> B -> Prop) n : forall l l', Forall2 P l l' -> Forall2 P (firstn n l) (firstn n l').
Proof. induction n; intros l l' H; [constructor|]. inversion H; subst; cbn [firstn]; constructor; auto. Qed.
Lemma Forall2_skipn {A B} (P : A -> B -> Prop) n : forall l l', Forall2 P l l' -> Forall2 P (skipn n l) (skipn n l').
Proof. induction n; intros l l' H; auto. inversion H; subst; cbn [skipn]; auto. Qed.
Lemma Forall2_stretch {A B} (P : A -> B -> Prop) i j l l' : Forall2 P l l' -> Forall2 P (stretch i j l) (stretch i j l').
Proof. intro H. apply Forall2_firstn, Forall2_skipn. auto. Qed.

Lemma node_fold bs ds t : increments (@pn_of G) bs ds ->
  fold_left (@pn_comp G) ds t =
  PN G (pn_pose t * motion bs) (pn_node t + Z.of_nat (length bs)) (pn_rot t && forallb knows_rot bs).
Proof.
  intro H. revert t. induction H as [|b d bs ds H1 H2 IH]; intro t; cbn [fold_left forallb length].
  - unfold motion. cbn. rewrite pg_id_r, Z.add_0_r, andb_true_r. destruct t; auto.
  - rewrite IH. unfold pn_of in H1. destruct (b_noise b) eqn:E; [|discriminate]. injection H1 as <-.
    unfold pn_comp. cbn [pn_pose pn_node pn_rot]. f_equal.
    + unfold motion. cbn [map fold_left]. rewrite (fold_comp _ (id * b_meas b)), (pg_id_l L), <- (pg_assoc L). auto.
    + lia.
    + unfold knows_rot at 2. rewrite E. rewrite andb_assoc. auto.
Qed.

Lemma node_between bs ds t i j : increments (@pn_of G) bs ds -> i <= j <= length bs ->
  let r k := fold_left (@pn_comp G) (firstn k ds) t in
  pn_between (r i) (r j) = PN G (motion (stretch i j bs)) (Z.of_nat (j - i)) (pn_rot t && forallb knows_rot (firstn j bs)) /\
  pn_between (r j) (r i) = PN G (/ motion (stretch i j bs)) (Z.of_nat (j - i)) (pn_rot t && forallb knows_rot (firstn j bs)).
Proof.
  intros H Hij r.
  assert (Hi : increments (@pn_of G) (firstn i bs) (firstn i ds)) by (apply Forall2_firstn; auto).
  assert (Hs : increments (@pn_of G) (stretch i j bs) (stretch i j ds)) by (apply Forall2_stretch; auto).
  assert (Er : r j = fold_left (@pn_comp G) (stretch i j ds) (r i)).
  { unfold r. rewrite (@firstn_stretch _ i j ds) by lia. apply fold_left_app. }
  rewrite (node_fold _ Hs) in Er.
  assert (LS : length (stretch i j bs) = j - i).
  { unfold stretch. rewrite firstn_length_le; auto. rewrite skipn_length. lia. }
  rewrite LS in Er.
  assert (RI : pn_rot (r i) = pn_rot t && forallb knows_rot (firstn i bs)) by (unfold r; rewrite (node_fold _ Hi); auto).
  assert (RJ : pn_rot (r j) = pn_rot t && forallb knows_rot (firstn j bs)).
  { rewrite Er. cbn [pn_rot]. rewrite RI, (@firstn_stretch _ i j bs) by lia. rewrite forallb_app, andb_assoc. auto. }
  assert (RR : pn_rot (r i) && pn_rot (r j) = pn_rot t && forallb knows_rot (firstn j bs)).
  { rewrite RJ, RI. rewrite (@firstn_stretch _ i j bs) by lia. rewrite forallb_app.
    destruct (pn_rot t), (forallb knows_rot (firstn i bs)); cbn; auto. }
  unfold pn_between. rewrite (andb_comm (pn_rot (r j))), RR. rewrite Er. cbn [pn_pose pn_node]. split; f_equal; try lia.
  - unfold g_between. apply pg_cancel_l.
  - unfold g_between. rewrite pg_inv_comp, <- (pg_assoc L), (pg_inv_l L). apply pg_id_r.
Qed.

(** ** Relative poses, [PoseWithCovariance] *)

Section Action.
Variable ok : g_cov G -> Prop.
Hypothesis A : cov_action G ok.
Let okp (d : pcov G) := ok (pc_cov d).
Let A0 := ca_ok_zero A. Let A1 := ca_ok_add A. Let A2 := ca_ok_act A.
Local Hint Resolve A0 A1 A2 : core.

Lemma cov_fold_pose ds : forall t, pc_pose (fold_left (@pc_comp G) ds t) = pc_pose t * fold_left (g_comp G) (map (@pc_pose G) ds) id.
Proof.
  induction ds as [|d ds IH]; intro t; cbn [fold_left map]; [symmetry; apply pg_id_r|].
  rewrite IH. cbn [pc_comp pc_pose]. rewrite (fold_comp _ (id * pc_pose d)), (pg_id_l L), (pg_assoc L). auto.
Qed.

Lemma ok_comp a b : okp a -> okp b -> okp (pc_comp a b).
Proof. unfold okp. intros. cbn [pc_comp pc_cov]. auto. Qed.
Lemma ok_fold ds : forall t, okp t -> Forall okp ds -> okp (fold_left (@pc_comp G) ds t).
Proof. induction ds as [|d ds IH]; intros t H F; cbn [fold_left]; auto. inversion F; subst. apply IH; auto using ok_comp. Qed.

Lemma cov_comp_assoc (a b c : pcov G) : okp a -> okp b -> okp c -> pc_comp (pc_comp a b) c = pc_comp a (pc_comp b c).
Proof.
  unfold okp. intros Oa Ob Oc. unfold pc_comp. cbn [pc_pose pc_cov pc_rot]. f_equal.
  - symmetry. apply (pg_assoc L).
  - rewrite (ca_act_add A), <- (ca_act_comp A), pg_inv_comp, (ca_assoc A) by auto. auto.
  - symmetry. apply andb_assoc.
Qed.

(** Composing a whole stretch onto [t] is composing the stretch's own composite onto [t]. *)
Lemma cov_fold_assoc ds : forall t, okp t -> Forall okp ds ->
  fold_left (@pc_comp G) ds t = pc_comp t (fold_left (@pc_comp G) ds (pc_default G)).
Proof.
  assert (OD : okp (pc_default G)) by (unfold okp, pc_default; cbn; auto).
  pose proof cov_comp_assoc as C.
  assert (D : forall a : pcov G, okp a -> pc_comp (pc_default G) a = a).
  { unfold okp. intros a Oa. unfold pc_comp, pc_default. cbn. rewrite (pg_id_l L), (ca_act_zero A), (ca_zero_l A) by auto. destruct a; auto. }
  induction ds as [|d ds IH]; intros t Ot F; cbn [fold_left].
  - unfold okp in *. unfold pc_comp, pc_default. cbn. rewrite pg_id_r, pg_inv_id, (ca_act_id A), andb_true_r by auto.
    rewrite (ca_comm A), (ca_zero_l A) by auto. destruct t; auto.
  - inversion F as [|? ? Od F']; subst.
    rewrite IH by auto using ok_comp. rewrite (IH (pc_comp (pc_default G) d)) by auto using ok_comp. rewrite D by auto.
    apply C; auto using ok_fold.
Qed.

Lemma Forall_firstn' T (Q : T -> Prop) k l : Forall Q l -> Forall Q (firstn k l).
Proof. intro H. rewrite <- (firstn_skipn k l) in H. apply Forall_app in H. tauto. Qed.
Lemma Forall_stretch T (Q : T -> Prop) i j l : Forall Q l -> Forall Q (stretch i j l).
Proof.
  intro H. unfold stretch. rewrite <- (firstn_skipn i l) in H. apply Forall_app in H. destruct H as [_ H].
  rewrite <- (firstn_skipn (j - i) (skipn i l)) in H. apply Forall_app in H. tauto.
Qed.

Lemma cov_between ds t i j : okp t -> Forall okp ds -> i <= j <= length ds ->
  let r k := fold_left (@pc_comp G) (firstn k ds) t in
  let m := fold_left (@pc_comp G) (stretch i j ds) (pc_default G) in
  let rot := pc_rot t && forallb (@pc_rot G) (firstn j ds) in
  (g_llt_ok G (pc_cov m) = true -> pc_between (r i) (r j) = PC G (pc_pose m) (pc_cov m) rot) /\
  (g_llt_ok G (g_csub G (pc_cov (r i)) (g_act G (pc_pose m) (pc_cov (r j)))) = false ->
   pc_between (r j) (r i) = PC G (/ pc_pose m) (pc_cov m) rot).
Proof.
  intros Ot OF.
  assert (OD : okp (pc_default G)) by (unfold okp, pc_default; cbn; auto).
  intros Hij r m rot.
  assert (Er : r j = pc_comp (r i) m).
  { unfold r. rewrite (@firstn_stretch _ i j ds) by lia. rewrite fold_left_app. apply cov_fold_assoc; auto using Forall_stretch, ok_fold, Forall_firstn'. }
  assert (FR : forall xs t, pc_rot (fold_left (@pc_comp G) xs t) = pc_rot t && forallb (@pc_rot G) xs).
  { clear. induction xs as [|x xs IH]; intro t; cbn [fold_left forallb]; [rewrite andb_true_r; auto|].
    rewrite IH. cbn [pc_comp pc_rot]. rewrite andb_assoc. auto. }
  assert (RR : pc_rot (r i) && pc_rot (r j) = rot).
  { unfold rot, r. rewrite !FR, (@firstn_stretch _ i j ds), forallb_app by lia.
    destruct (pc_rot t), (forallb (@pc_rot G) (firstn i ds)); cbn; auto. }
  assert (PB : g_between G (pc_pose (r i)) (pc_pose (r j)) = pc_pose m).
  { rewrite Er. cbn [pc_comp pc_pose]. unfold g_between. apply pg_cancel_l. }
  assert (PB' : g_between G (pc_pose (r j)) (pc_pose (r i)) = / pc_pose m) by (rewrite <- PB; symmetry; apply between_inv).
  assert (C1 : g_csub G (pc_cov (r j)) (g_act G (/ pc_pose m) (pc_cov (r i))) = pc_cov m).
  { rewrite Er. cbn [pc_comp pc_cov]. apply (ca_sub A).
    - apply (ca_ok_act A). apply (@ok_fold (firstn i ds) t); auto using Forall_firstn'.
    - apply (@ok_fold (stretch i j ds) (pc_default G)); auto using Forall_stretch. }
  unfold pc_between. rewrite (andb_comm (pc_rot (r j))), RR, PB, PB', C1, pg_inv_inv. split; intros ->; auto.
Qed.
End Action.

(** ** Noise-free measurements *)

Variable X : key -> g_pose G.       (* true poses *)
Variable F : N -> g_pose G.         (* frame of each robot's odometry *)
Definition exact (b : bn) : Prop := b_meas b = g_between G (X (b_from b)) (X (b_to b)).

Section Errors.
Variable O : tops.
Variable pose : t_T O -> g_pose G.
Variable meas_of : bf O -> bn.
Hypothesis pose_comp : forall a b, pose (t_comp O a b) = pose a * pose b.
Hypothesis pose_inv : forall a, pose (t_inv O a) = / pose a.
Hypothesis pose_between : forall a b, pose (t_between O a b) = g_between G (pose a) (pose b).
Variable ref : N -> key -> t_T O.

(** The reference pose of a key is its true pose seen from the robot's odometry frame. *)
Definition placed (k : key) : Prop := pose (ref (chr k) k) = F (chr k) * X k.

Lemma rel_exact a b : chr a = chr b -> placed a -> placed b -> pose (sp_rel ref (chr a) a b) = g_between G (X a) (X b).
Proof.
  unfold placed, sp_rel. intros E Ha Hb. rewrite E, N.eqb_refl, pose_between. rewrite E in Ha.
  rewrite Ha, Hb. apply between_shift.
Qed.

Lemma odom_error_id a b m : chr a = chr b -> placed a -> placed b -> pose m = g_between G (X a) (X b) ->
  pose (t_comp O (sp_rel ref (chr a) a b) (t_inv O m)) = id.
Proof. intros E Ha Hb Hm. rewrite pose_comp, pose_inv, rel_exact, Hm by auto. apply pg_inv_r. Qed.

Lemma loop_error_id a b c d m1 m2 : chr a = chr c -> chr b = chr d -> placed a -> placed b -> placed c -> placed d ->
  pose m1 = g_between G (X a) (X b) -> pose m2 = g_between G (X c) (X d) ->
  pose (t_comp O (t_comp O (t_inv O (t_comp O (sp_rel ref (chr a) a c) m2)) m1) (sp_rel ref (chr b) b d)) = id.
Proof.
  intros E1 E2 Ha Hb Hc Hd H1 H2. rewrite !pose_comp, pose_inv, pose_comp, !rel_exact, H1, H2 by auto.
  unfold g_between. rewrite !pg_inv_comp, !pg_inv_inv.
  rewrite <- !(pg_assoc L). repeat (rewrite pg_cancel_l || rewrite pg_cancel_l'). apply (pg_inv_l L).
Qed.

Lemma lm_error_id i j l m1 m2 : chr i = chr j -> placed i -> placed j ->
  pose m1 = g_between G (X i) (X l) -> pose m2 = g_between G (X j) (X l) ->
  pose (t_comp O (t_inv O (t_comp O (sp_rel ref (chr i) i j) m2)) m1) = id.
Proof.
  intros E Hi Hj H1 H2. rewrite pose_comp, pose_inv, pose_comp, rel_exact, H1, H2 by auto.
  unfold g_between. rewrite !pg_inv_comp, !pg_inv_inv.
  rewrite <- !(pg_assoc L). repeat (rewrite pg_cancel_l || rewrite pg_cancel_l'). apply (pg_inv_l L).
Qed.

(** Opposite directions: [m2] goes from [d] to [c] but is used as if it went from [c] to [d]. *)
Lemma loop_error_opposite a b c d m1 m2 : chr a = chr c -> chr b = chr d -> placed a -> placed b -> placed c -> placed d ->
  pose m1 = g_between G (X a) (X b) -> pose m2 = g_between G (X d) (X c) ->
  pose (t_comp O (t_comp O (t_inv O (t_comp O (sp_rel ref (chr a) a c) m2)) m1) (sp_rel ref (chr b) b d)) =
  / pose m2 * / pose m2.
Proof.
  intros E1 E2 Ha Hb Hc Hd H1 H2. rewrite !pose_comp, pose_inv, pose_comp, !rel_exact, H1 by auto.
  rewrite pg_inv_comp. rewrite <- !(pg_assoc L). f_equal. rewrite H2.
  unfold g_between. rewrite !pg_inv_comp, !pg_inv_inv.
  rewrite <- !(pg_assoc L). repeat (rewrite pg_cancel_l || rewrite pg_cancel_l'). auto.
Qed.
End Errors.

(** *** [PoseWithNode] *)
Section NodeTests.
Variable pp : pcm_params.
Notation O := (node_ops G pp).
Variable ref : N -> key -> t_T O.
Notation ref_node := (fun k => pn_node (ref (chr k) k)).
Hypothesis Lt : g_log_tsq G id = dzero.
Hypothesis Lr : g_log_rsq G id = dzero.

Lemma pn_exact b m : pn_of G b = Some m -> exact b -> pn_pose m = g_between G (X (b_from b)) (X (b_to b)) /\ pn_node m = 1%Z.
Proof. unfold pn_of. intros H E. destruct (b_noise b); [|discriminate]. injection H as <-. auto. Qed.

Lemma rel_node a b : chr a = chr b -> pn_node (sp_rel (O := O) ref (chr a) a b) = Z.abs (ref_node b - ref_node a).
Proof. intro E. unfold sp_rel. rewrite E, N.eqb_refl. reflexivity. Qed.

Lemma id_passes (e : pnode G) t r : pn_pose e = id -> (0 < pn_node e < 2 ^ 53)%Z -> dpositive t -> dpositive r ->
  dlt (pn_avg_trans e) t && dlt (pn_avg_rot e) r = true.
Proof.
  intros E H Ht Hr. unfold pn_avg_trans, pn_avg_rot. rewrite E, Lt, Lr, !zero_passes by auto. cbn [andb].
  destruct (pn_rot e); [apply zero_passes; auto|exact Hr].
Qed.

Theorem c34_odom b m : pn_of G b = Some m -> exact b -> chr (b_from b) = chr (b_to b) ->
  placed O (@pn_pose G) ref (b_from b) -> placed O (@pn_pose G) ref (b_to b) ->
  (Z.abs (ref_node (b_to b) - ref_node (b_from b)) + 1 < 2 ^ 53)%Z ->
  dpositive (pp_odom_trans pp) -> dpositive (pp_odom_rot pp) -> sp_odom_test (O := O) ref b = Some true.
Proof.
  intros Hm He Hc Hf Ht Hn Pt Pr. destruct (pn_exact Hm He) as [M1 M2].
  unfold sp_odom_test. change (t_of O b) with (pn_of G b). rewrite Hm. f_equal.
  change (t_odom_ok O) with (@pn_odom_ok G pp). unfold pn_odom_ok. apply id_passes; auto.
  - apply (@odom_error_id O (@pn_pose G)); auto.
  - change (0 < pn_node (sp_rel (O := O) ref (chr (b_from b)) (b_from b) (b_to b)) + pn_node m < 2 ^ 53)%Z.
    rewrite rel_node, M2 by auto. lia.
Qed.

Theorem c34_loop f1 f2 m1 m2 : pn_of G f1 = Some m1 -> pn_of G f2 = Some m2 -> exact f1 -> exact f2 ->
  chr (b_from f1) = chr (b_from f2) -> chr (b_to f1) = chr (b_to f2) ->
  (forall k, In k [b_from f1; b_to f1; b_from f2; b_to f2] -> placed O (@pn_pose G) ref k) ->
  (Z.abs (ref_node (b_from f2) - ref_node (b_from f1)) + Z.abs (ref_node (b_to f2) - ref_node (b_to f1)) + 2 < 2 ^ 53)%Z ->
  dpositive (pp_dist_trans pp) -> dpositive (pp_dist_rot pp) -> sp_loop_test (O := O) ref f1 f2 = Some true.
Proof.
  intros H1 H2 E1 E2 C1 C2 HP Hn Pt Pr. destruct (pn_exact H1 E1) as [M1 N1]. destruct (pn_exact H2 E2) as [M2 N2].
  rewrite (@loop_test_same O ref f1 f2 m1 m2 H1 H2 C1). f_equal.
  change (t_loop_ok O) with (@pn_loop_ok G pp). unfold pn_loop_ok. apply id_passes; auto.
  - apply (@loop_error_id O (@pn_pose G)); auto; apply HP; cbn; tauto.
  - change (0 < (pn_node (sp_rel (O := O) ref (chr (b_from f1)) (b_from f1) (b_from f2)) + pn_node m2) + pn_node m1 +
             pn_node (sp_rel (O := O) ref (chr (b_to f1)) (b_to f1) (b_to f2)) < 2 ^ 53)%Z.
    rewrite !rel_node, N1, N2 by auto. lia.
Qed.

Theorem c34_landmark f1 f2 m1 m2 : pn_of G f1 = Some m1 -> pn_of G f2 = Some m2 -> exact f1 -> exact f2 ->
  chr (b_from f1) = chr (b_from f2) -> b_to f1 = b_to f2 ->
  (forall k, In k [b_from f1; b_from f2] -> placed O (@pn_pose G) ref k) ->
  (Z.abs (ref_node (b_from f2) - ref_node (b_from f1)) + 2 < 2 ^ 53)%Z ->
  dpositive (pp_dist_trans pp) -> dpositive (pp_dist_rot pp) -> sp_lm_test (O := O) ref f1 f2 = Some true.
Proof.
  intros H1 H2 E1 E2 C1 C2 HP Hn Pt Pr. destruct (pn_exact H1 E1) as [M1 N1]. destruct (pn_exact H2 E2) as [M2 N2].
  unfold sp_lm_test. change (t_of O f1) with (pn_of G f1). change (t_of O f2) with (pn_of G f2). rewrite H1, H2. f_equal.
  change (t_loop_ok O) with (@pn_loop_ok G pp). unfold pn_loop_ok. apply id_passes; auto.
  - apply (@lm_error_id O (@pn_pose G)) with (l := b_to f1); auto; try (apply HP; cbn; tauto). rewrite C2. exact M2.
  - change (0 < (pn_node (sp_rel (O := O) ref (chr (b_from f1)) (b_from f1) (b_from f2)) + pn_node m2) + pn_node m1 < 2 ^ 53)%Z.
    rewrite !rel_node, N1, N2 by auto. lia.
Qed.
End NodeTests.

(** *** [PoseWithCovariance] *)
Section CovTests.
Variable pp : pcm_params.
Notation O := (cov_ops G pp).
Variable ref : N -> key -> t_T O.

(** The quadratic form of an identity error is zero for this covariance (it is not when the
    covariance is singular: the code inverts it). *)
Definition zero_form (e : t_T O) : Prop := g_maha_sq G id (pc_cov e) (pc_rot e) = dzero.

Lemma pc_exact b m : pc_of G b = Some m -> exact b -> pc_pose m = g_between G (X (b_from b)) (X (b_to b)).
Proof. unfold pc_of. intros H E. destruct (b_noise b); [|discriminate]. injection H as <-. destruct (g_rot_nan G c); auto. Qed.

Lemma id_passes_cov (e : pcov G) t : pc_pose e = id -> zero_form e -> dpositive t -> dlt (pc_maha e) t = true.
Proof. unfold zero_form. intros E Z H. unfold pc_maha. rewrite E. cbn in Z. rewrite Z. exact H. Qed.

Theorem c34_odom_cov b m : pc_of G b = Some m -> exact b -> chr (b_from b) = chr (b_to b) ->
  placed O (@pc_pose G) ref (b_from b) -> placed O (@pc_pose G) ref (b_to b) ->
  zero_form (t_comp O (sp_rel ref (chr (b_from b)) (b_from b) (b_to b)) (t_inv O m)) ->
  dpositive (pp_odom pp) -> sp_odom_test (O := O) ref b = Some true.
Proof.
  intros Hm He Hc Hf Ht Z Pt. pose proof (pc_exact Hm He) as M1.
  unfold sp_odom_test. change (t_of O b) with (pc_of G b). rewrite Hm. f_equal.
  apply id_passes_cov; auto. apply (@odom_error_id O (@pc_pose G)); auto.
Qed.

Theorem c34_loop_cov f1 f2 m1 m2 : pc_of G f1 = Some m1 -> pc_of G f2 = Some m2 -> exact f1 -> exact f2 ->
  chr (b_from f1) = chr (b_from f2) -> chr (b_to f1) = chr (b_to f2) ->
  (forall k, In k [b_from f1; b_to f1; b_from f2; b_to f2] -> placed O (@pc_pose G) ref k) ->
  zero_form (t_comp O (t_comp O (t_inv O (t_comp O (sp_rel ref (chr (b_from f1)) (b_from f1) (b_from f2)) m2)) m1)
              (sp_rel ref (chr (b_to f1)) (b_to f1) (b_to f2))) ->
  dpositive (pp_lc pp) -> sp_loop_test (O := O) ref f1 f2 = Some true.
Proof.
  intros H1 H2 E1 E2 C1 C2 HP Z Pt. pose proof (pc_exact H1 E1) as M1. pose proof (pc_exact H2 E2) as M2.
  rewrite (@loop_test_same O ref f1 f2 m1 m2 H1 H2 C1). f_equal.
  apply id_passes_cov; auto. apply (@loop_error_id O (@pc_pose G)); auto; apply HP; cbn; tauto.
Qed.
End CovTests.

End Group.
