(** * Fixed-point numbers in double precision: sums and products are exact *)
From Coq Require Import ZArith Bool Lia.
From Verif Require Import Prelude Num Lie Floats WeightProofs LatticeSpec.
Set Implicit Arguments.
Local Open Scope Z_scope.

(** ** Rounding what needs no rounding *)
Lemma iter_exact q n : 0 <= q -> Nat.iter n shr_1 (Build_shr_record (q * 2 ^ Z.of_nat n) false false) = Build_shr_record q false false.
Proof.
  intro Hq. destruct (@shr_steps n (q * 2 ^ Z.of_nat n)) as (rem & H1 & H2 & H3 & H4); [apply Z.mul_nonneg_nonneg; [lia|apply Z.pow_nonneg; lia]|].
  destruct (Nat.iter n shr_1 _) as [m r s]. cbn [shr_m shr_r shr_s] in *. set (P := 2 ^ Z.of_nat n) in *.
  assert (m = q) by nia. subst m. assert (rem = 0) by lia. subst rem.
  destruct r; [cbn in H4; specialize (H4 eq_refl); lia|]. destruct s; [cbn in H4; specialize (H4 eq_refl); lia|]. reflexivity.
Qed.
Lemma digits_of p n : 0 < n -> 2 ^ (n - 1) <= Zpos p < 2 ^ n -> Zpos (digits2_pos p) = n.
Proof.
  intros Hn [H1 H2]. pose proof (@digits_le p n ltac:(lia) H2). pose proof (@digits_ge p (n - 1) ltac:(lia) H1). lia.
Qed.
Lemma aux_exact s q m n e1 : 2 ^ 52 <= Zpos q < 2 ^ 53 -> -1074 <= e1 <= 900 -> 0 <= n -> m = Zpos q * 2 ^ n ->
  binary_round_aux dprec demax s m (e1 - n) loc_Exact = S754_finite s q e1.
Proof.
  intros Hq He Hn ->. unfold binary_round_aux, shr_fexp.
  assert (Hp : 0 < 2 ^ n) by (apply Z.pow_pos_nonneg; lia).
  destruct (Zpos q * 2 ^ n) as [|p|p] eqn:E; try lia. cbn [Zdigits2].
  assert (D : Zpos (digits2_pos p) = 53 + n).
  { apply digits_of; [lia|]. rewrite <- E. replace (53 + n - 1) with (52 + n) by lia. rewrite !Z.pow_add_r by lia. nia. }
  assert (F : fexp dprec demax (Zpos (digits2_pos p) + (e1 - n)) - (e1 - n) = n) by (rewrite D, fe_spec; lia).
  rewrite F. cbn [shr_record_of_loc].
  assert (B : shr (Build_shr_record (Zpos p) false false) (e1 - n) n = (Build_shr_record (Zpos q) false false, e1)).
  { unfold shr. destruct n as [|d|d]; [| |lia].
    - rewrite Z.mul_1_r in E. rewrite E. f_equal. lia.
    - rewrite iter_pos_nat. rewrite <- E. replace (2 ^ Zpos d) with (2 ^ Z.of_nat (Pos.to_nat d)) by (rewrite positive_nat_Z; reflexivity). rewrite iter_exact by lia. f_equal. lia. }
  rewrite B. cbn [shr_m loc_of_shr_record round_nearest_even Zdigits2 shr_record_of_loc].
  rewrite (@digits_of q 53 ltac:(lia) Hq).
  replace (fexp dprec demax (53 + e1) - e1) with 0 by (rewrite fe_spec; lia). cbn [shr shr_m].
  replace (e1 <=? demax - dprec) with true by (symmetry; apply Z.leb_le; change (demax - dprec) with 971; lia). reflexivity.
Qed.
Lemma round_exact s q m e e1 : 2 ^ 52 <= Zpos q < 2 ^ 53 -> -1074 <= e1 <= 900 ->
  (e <= e1 /\ Zpos m = Zpos q * 2 ^ (e1 - e) \/ e1 < e /\ Zpos q = Zpos m * 2 ^ (e - e1)) -> binary_round dprec demax s m e = S754_finite s q e1.
Proof.
  intros Hq He H. unfold binary_round.
  assert (D : Zpos (digits2_pos m) + e = 53 + e1).
  { pose proof (digits_range m) as R. destruct H as [[H1 H2]|[H1 H2]].
    - assert (Zpos (digits2_pos m) = 53 + (e1 - e)); [|lia]. apply digits_of; [lia|]. rewrite H2. replace (53 + (e1 - e) - 1) with (52 + (e1 - e)) by lia.
      rewrite !Z.pow_add_r by lia. assert (0 < 2 ^ (e1 - e)) by (apply Z.pow_pos_nonneg; lia). nia.
    - assert (X : Zpos (digits2_pos q) = 53) by (apply digits_of; [lia|exact Hq]).
      destruct (e - e1) as [|d|d] eqn:ED; try lia. assert (Y : q = shift_pos d m).
      { apply Pos2Z.inj. rewrite Zpower.shift_pos_correct, H2. change (Z.pow_pos 2 d) with (2 ^ Zpos d). ring. }
      rewrite Y, digits_shift in X. lia. }
  rewrite D. replace (fexp dprec demax (53 + e1)) with e1 by (rewrite fe_spec; lia).
  unfold shl_align. destruct H as [[H1 H2]|[H1 H2]].
  - destruct (e1 - e) as [|d|d] eqn:ED; [| |lia].
    + pose proof (@aux_exact s q (Zpos m) 0 e1 Hq He ltac:(lia) H2) as X. rewrite Z.sub_0_r in X. replace e with e1 by lia. exact X.
    + pose proof (@aux_exact s q (Zpos m) (Zpos d) e1 Hq He ltac:(lia) H2) as X. replace e with (e1 - Zpos d) by lia. exact X.
  - destruct (e1 - e) as [|d|d] eqn:ED; try lia.
    pose proof (@aux_exact s q (Zpos (shift_pos d m)) 0 e1 Hq He ltac:(lia)) as X. rewrite Z.sub_0_r in X. apply X.
    rewrite Z.mul_1_r, Zpower.shift_pos_correct. change (Z.pow_pos 2 d) with (2 ^ Zpos d). replace (e - e1) with (Zpos d) in H2 by lia. lia.
Qed.

(** ** The double of a fixed-point number *)
Definition dig (p : positive) : Z := Zpos (digits2_pos p).
Definition mant (p : positive) : positive := Z.to_pos (Zpos p * 2 ^ (53 - dig p)).
Lemma mant_val p : Zpos p < lim -> Zpos (mant p) = Zpos p * 2 ^ (53 - dig p) /\ 2 ^ 52 <= Zpos (mant p) < 2 ^ 53 /\ 1 <= dig p <= 53.
Proof.
  unfold lim, mant, dig. intro H. pose proof (digits_range p) as [R1 R2]. pose proof (@digits_le p 53 ltac:(lia) H) as D.
  assert (P : 0 < 2 ^ (53 - Zpos (digits2_pos p))) by (apply Z.pow_pos_nonneg; lia).
  assert (E : Zpos (Z.to_pos (Zpos p * 2 ^ (53 - Zpos (digits2_pos p)))) = Zpos p * 2 ^ (53 - Zpos (digits2_pos p))) by (apply Z2Pos.id; lia).
  rewrite E. split; [reflexivity|]. split; [|lia].
  assert (E1 : 2 ^ 52 = 2 ^ (Zpos (digits2_pos p) - 1) * 2 ^ (53 - Zpos (digits2_pos p))) by (rewrite <- Z.pow_add_r by lia; f_equal; lia).
  assert (E2 : 2 ^ 53 = 2 ^ (Zpos (digits2_pos p)) * 2 ^ (53 - Zpos (digits2_pos p))) by (rewrite <- Z.pow_add_r by lia; f_equal; lia).
  rewrite E1, E2. split; [apply Z.mul_le_mono_nonneg_r; lia|apply Z.mul_lt_mono_pos_r; lia].
Qed.
Lemma round_num s p m e k : scale k -> Zpos p < lim -> e <= - k -> Zpos m = Zpos p * 2 ^ (- k - e) ->
  binary_round dprec demax s m e = S754_finite s (mant p) (dig p - 53 - k).
Proof.
  intros Hk Hp He Hm. destruct (mant_val Hp) as (M1 & M2 & M3). unfold scale in Hk. apply round_exact; [exact M2|lia|].
  rewrite M1, Hm. destruct (Z_le_gt_dec e (dig p - 53 - k)) as [X|X]; [left|right]; (split; [lia|]).
  - rewrite <- Z.mul_assoc, <- Z.pow_add_r by lia. f_equal. f_equal. lia.
  - rewrite <- Z.mul_assoc, <- Z.pow_add_r by lia. f_equal. f_equal. lia.
Qed.
Definition neg (z : Z) : bool := z <? 0.
Definition mag (z : Z) : positive := Z.to_pos (Z.abs z).
Lemma mag_val z : z <> 0 -> Zpos (mag z) = Z.abs z.
Proof. intro H. unfold mag. apply Z2Pos.id. lia. Qed.
Lemma normalize_num z m e k b : scale k -> z <> 0 -> Z.abs z < lim -> e <= - k -> m = z * 2 ^ (- k - e) ->
  binary_normalize dprec demax m e b = S754_finite (neg z) (mant (mag z)) (dig (mag z) - 53 - k).
Proof.
  intros Hk Hz Hl He Hm. assert (P : 0 < 2 ^ (- k - e)) by (apply Z.pow_pos_nonneg; lia). rewrite <- (mag_val Hz) in Hl.
  unfold binary_normalize, neg. destruct m as [|p|p]; [nia| |].
  - assert (0 < z) by nia. replace (z <? 0) with false by (symmetry; apply Z.ltb_ge; lia). apply round_num; auto. rewrite mag_val by auto. rewrite Z.abs_eq by lia. exact Hm.
  - assert (z < 0) by nia. replace (z <? 0) with true by (symmetry; apply Z.ltb_lt; lia). apply round_num; auto. rewrite mag_val by auto. rewrite Z.abs_neq by lia. lia.
Qed.
Lemma num_form k z : scale k -> z <> 0 -> Z.abs z < lim -> num k z = S754_finite (neg z) (mant (mag z)) (dig (mag z) - 53 - k).
Proof. intros Hk Hz Hl. unfold num. apply normalize_num; auto; [lia|]. replace (- k - - k) with 0 by lia. lia. Qed.
Lemma num_zero k : num k 0 = S754_zero false.
Proof. reflexivity. Qed.

Lemma is_num_cases k z x : scale k -> Z.abs z < lim -> is_num k z x ->
  z = 0 /\ (exists s, x = S754_zero s) \/ z <> 0 /\ x = S754_finite (neg z) (mant (mag z)) (dig (mag z) - 53 - k).
Proof.
  intros Hk Hl [->|[-> H]]; [|left; auto]. destruct (Z.eq_dec z 0) as [->|N]; [left; split; auto; exists false; apply num_zero|right; split; auto using num_form].
Qed.
Lemma is_num_intro k z x : scale k -> Z.abs z < lim ->
  (z = 0 /\ (exists s, x = S754_zero s) \/ z <> 0 /\ x = S754_finite (neg z) (mant (mag z)) (dig (mag z) - 53 - k)) -> is_num k z x.
Proof. intros Hk Hl [H|[N ->]]; [right; exact H|left; symmetry; apply num_form; auto]. Qed.

(** ** Arithmetic *)
Lemma signed_mant k z ez : scale k -> z <> 0 -> Z.abs z < lim -> ez <= dig (mag z) - 53 - k ->
  cond_Zopp (neg z) (Zpos (fst (shl_align (mant (mag z)) (dig (mag z) - 53 - k) ez))) = z * 2 ^ (- k - ez).
Proof.
  intros Hk Hz Hl He. pose proof Hl as Hl'. rewrite <- (mag_val Hz) in Hl'. destruct (mant_val Hl') as (M1 & M2 & M3).
  assert (V : Zpos (fst (shl_align (mant (mag z)) (dig (mag z) - 53 - k) ez)) = Z.abs z * 2 ^ (- k - ez)).
  { assert (X : Zpos (fst (shl_align (mant (mag z)) (dig (mag z) - 53 - k) ez)) = Zpos (mant (mag z)) * 2 ^ (dig (mag z) - 53 - k - ez)).
    { unfold shl_align. destruct (ez - (dig (mag z) - 53 - k)) as [|d|d] eqn:ED; cbn [fst]; [|lia|].
      - replace (dig (mag z) - 53 - k - ez) with 0 by lia. lia.
      - rewrite Zpower.shift_pos_correct. change (Z.pow_pos 2 d) with (2 ^ Zpos d). replace (dig (mag z) - 53 - k - ez) with (Zpos d) by lia. ring. }
    rewrite X, M1, (mag_val Hz), <- Z.mul_assoc, <- Z.pow_add_r by lia. f_equal. f_equal. lia. }
  rewrite V. unfold neg. destruct (Z.ltb_spec z 0); cbn [cond_Zopp]; [rewrite Z.abs_neq by lia|rewrite Z.abs_eq by lia]; lia.
Qed.
Lemma num_add k a b x y : scale k -> Z.abs a < lim -> Z.abs b < lim -> Z.abs (a + b) < lim -> is_num k a x -> is_num k b y -> is_num k (a + b) (dadd x y).
Proof.
  intros Hk Ha Hb Hab Hx Hy. apply is_num_intro; auto.
  destruct (is_num_cases Hk Ha Hx) as [[-> [sx ->]]|[Na ->]], (is_num_cases Hk Hb Hy) as [[-> [sy ->]]|[Nb ->]]; unfold dadd; cbn [SFadd].
  - left. split; [lia|]. destruct (Bool.eqb sx sy); eauto.
  - right. auto.
  - right. rewrite Z.add_0_r. auto.
  - pose proof Ha as Ha'. rewrite <- (mag_val Na) in Ha'. pose proof Hb as Hb'. rewrite <- (mag_val Nb) in Hb'.
    destruct (mant_val Ha') as (_ & _ & Da), (mant_val Hb') as (_ & _ & Db). unfold scale in *.
    set (ez := Z.min _ _). rewrite !signed_mant by (auto; unfold scale; lia).
    rewrite <- Z.mul_add_distr_r. destruct (Z.eq_dec (a + b) 0) as [E|N]; [left; split; [exact E|]|right; split; [exact N|]].
    + rewrite E. exists false. reflexivity.
    + apply normalize_num; auto; unfold scale; lia.
Qed.
Lemma num_sub k a b x y : scale k -> Z.abs a < lim -> Z.abs b < lim -> Z.abs (a - b) < lim -> is_num k a x -> is_num k b y -> is_num k (a - b) (dsub x y).
Proof.
  intros Hk Ha Hb Hab Hx Hy. apply is_num_intro; auto.
  destruct (is_num_cases Hk Ha Hx) as [[-> [sx ->]]|[Na ->]], (is_num_cases Hk Hb Hy) as [[-> [sy ->]]|[Nb ->]]; unfold dsub; cbn [SFsub].
  - left. split; [lia|]. destruct (Bool.eqb sx (negb sy)); eauto.
  - right. split; [lia|]. replace (0 - b) with (- b) by lia. unfold mag. rewrite Z.abs_opp. f_equal. unfold neg.
    destruct (Z.ltb_spec b 0), (Z.ltb_spec (- b) 0); cbn; auto; lia.
  - right. rewrite Z.sub_0_r. auto.
  - pose proof Ha as Ha'. rewrite <- (mag_val Na) in Ha'. pose proof Hb as Hb'. rewrite <- (mag_val Nb) in Hb'.
    destruct (mant_val Ha') as (_ & _ & Da), (mant_val Hb') as (_ & _ & Db). unfold scale in *.
    set (ez := Z.min _ _). rewrite !signed_mant by (auto; unfold scale; lia).
    rewrite <- Z.mul_sub_distr_r. destruct (Z.eq_dec (a - b) 0) as [E|N]; [left; split; [exact E|]|right; split; [exact N|]].
    + rewrite E. exists false. reflexivity.
    + apply normalize_num; auto; unfold scale; lia.
Qed.
Lemma num_mul k a b x y : scale k -> Z.abs a < lim -> Z.abs b < lim -> Z.abs (a * b) < lim -> is_num 0 a x -> is_num k b y -> is_num k (a * b) (dmul x y).
Proof.
  intros Hk Ha Hb Hab Hx Hy. assert (H0 : scale 0) by (unfold scale; lia). apply is_num_intro; auto.
  destruct (is_num_cases H0 Ha Hx) as [[-> [sx ->]]|[Na ->]], (is_num_cases Hk Hb Hy) as [[-> [sy ->]]|[Nb ->]]; unfold dmul; cbn [SFmul].
  - left. split; eauto.
  - left. split; eauto.
  - left. split; [lia|eauto].
  - assert (Nab : a * b <> 0) by nia. right. split; [exact Nab|].
    pose proof Ha as Ha'. rewrite <- (mag_val Na) in Ha'. pose proof Hb as Hb'. rewrite <- (mag_val Nb) in Hb'. pose proof Hab as Hab'. rewrite <- (mag_val Nab) in Hab'.
    destruct (mant_val Ha') as (Ma & _ & Da), (mant_val Hb') as (Mb & _ & Db), (mant_val Hab') as (Mab & Qab & Dab). unfold scale in *.
    assert (SG : xorb (neg a) (neg b) = neg (a * b)).
    { unfold neg. destruct (Z.ltb_spec a 0), (Z.ltb_spec b 0), (Z.ltb_spec (a * b) 0); cbn; auto; nia. }
    assert (DD : dig (mag a) + dig (mag b) - 1 <= dig (mag (a * b))).
    { unfold dig in *. pose proof (digits_range (mag a)) as [R1 _]. pose proof (digits_range (mag b)) as [R2 _].
      assert (X : Zpos (digits2_pos (mag a)) + Zpos (digits2_pos (mag b)) - 2 < Zpos (digits2_pos (mag (a * b)))); [|lia]. apply digits_ge; [lia|].
      rewrite (mag_val Nab), Z.abs_mul, <- (mag_val Na), <- (mag_val Nb).
      replace (Zpos (digits2_pos (mag a)) + Zpos (digits2_pos (mag b)) - 2) with ((Zpos (digits2_pos (mag a)) - 1) + (Zpos (digits2_pos (mag b)) - 1)) by lia.
      rewrite Z.pow_add_r by lia. apply Z.mul_le_mono_nonneg; auto; apply Z.pow_nonneg; lia. }
    set (n := dig (mag (a * b)) - dig (mag a) - dig (mag b) + 53).
    replace (dig (mag a) - 53 - 0 + (dig (mag b) - 53 - k)) with (dig (mag (a * b)) - 53 - k - n) by (unfold n; lia). rewrite SG.
    apply aux_exact; auto; [lia|unfold n; lia|].
    rewrite Pos2Z.inj_mul, Ma, Mb, Mab, (mag_val Na), (mag_val Nb), (mag_val Nab), Z.abs_mul.
    replace (Z.abs a * 2 ^ (53 - dig (mag a)) * (Z.abs b * 2 ^ (53 - dig (mag b)))) with (Z.abs a * Z.abs b * (2 ^ (53 - dig (mag a)) * 2 ^ (53 - dig (mag b)))) by ring.
    rewrite <- (Z.mul_assoc (Z.abs a * Z.abs b)), <- !Z.pow_add_r by (unfold n; lia). f_equal. f_equal. unfold n. lia.
Qed.
