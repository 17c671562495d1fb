(** * Sums of GNC weights in double precision: bounds and exactness *)
From Coq Require Import ZArith List Permutation QArith Qpower Qround Lia.
From Verif Require Import Prelude Num Clique Weights TextSpec WeightSpec Keys KMap Geometry Factors Pcm Solver CountProofs.
Import ListNotations.
Set Implicit Arguments.
Local Open Scope Z_scope.

(** ** Digits *)
Lemma digits_range p : 2 ^ (Zpos (digits2_pos p) - 1) <= Zpos p < 2 ^ Zpos (digits2_pos p).
Proof.
  induction p as [p IH|p IH|]; cbn [digits2_pos]; [| |cbn; lia].
  all: rewrite Pos2Z.inj_succ; replace (Z.succ (Zpos (digits2_pos p)) - 1) with (Z.succ (Zpos (digits2_pos p) - 1)) by lia;
    rewrite !Z.pow_succ_r by lia; lia.
Qed.

Lemma digits_le p n : 0 <= n -> Zpos p < 2 ^ n -> Zpos (digits2_pos p) <= n.
Proof.
  intros Hn H. pose proof (digits_range p) as [R _]. 
  assert (X : Zpos (digits2_pos p) - 1 < n) by (apply (Z.pow_lt_mono_r_iff 2); lia). lia.
Qed.
Lemma digits_ge p n : 0 <= n -> 2 ^ n <= Zpos p -> n < Zpos (digits2_pos p).
Proof.
  intros Hn H. pose proof (digits_range p) as [_ R]. apply (Z.pow_lt_mono_r_iff 2); lia.
Qed.
Lemma digits_shift p d : Zpos (digits2_pos (shift_pos d p)) = Zpos (digits2_pos p) + Zpos d.
Proof.
  pose proof (digits_range p) as [R1 R2]. assert (E : Zpos (shift_pos d p) = 2 ^ Zpos d * Zpos p).
  { apply Zpower.shift_pos_correct. }
  apply Z.le_antisymm.
  - apply digits_le; [lia|]. rewrite E, Z.pow_add_r by lia. nia.
  - assert (X : Zpos (digits2_pos p) - 1 + Zpos d < Zpos (digits2_pos (shift_pos d p))); [|lia].
    apply digits_ge; [lia|]. rewrite E, Z.pow_add_r by lia. nia.
Qed.

(** ** Shifting to the right *)
Lemma iter_plus {A} (f : A -> A) n m x : Nat.iter (n + m) f x = Nat.iter n f (Nat.iter m f x).
Proof. induction n as [|n IH]; cbn; [reflexivity|]. f_equal. exact IH. Qed.
Lemma iter_pos_nat {A} (f : A -> A) p : forall x, iter_pos f p x = Nat.iter (Pos.to_nat p) f x.
Proof.
  induction p as [p IH|p IH|]; intro x; cbn [iter_pos]; [| |reflexivity].
  - rewrite !IH, Pos2Nat.inj_xI. replace (S (2 * Pos.to_nat p)) with (Pos.to_nat p + (Pos.to_nat p + 1))%nat by lia.
    rewrite !iter_plus. reflexivity.
  - rewrite !IH, Pos2Nat.inj_xO. replace (2 * Pos.to_nat p)%nat with (Pos.to_nat p + Pos.to_nat p)%nat by lia. rewrite iter_plus. reflexivity.
Qed.

Lemma shr_steps n m : 0 <= m -> let x := Nat.iter n shr_1 (Build_shr_record m false false) in
  exists rem, 0 <= shr_m x /\ m = shr_m x * 2 ^ Z.of_nat n + rem /\ 0 <= rem < 2 ^ Z.of_nat n /\ (shr_r x || shr_s x = true -> 0 < rem).
Proof.
  intro Hm. induction n as [|n IH]; cbn zeta.
  { exists 0. cbn. repeat split; try lia; try discriminate. }
  change (Nat.iter (S n) shr_1 (Build_shr_record m false false)) with (shr_1 (Nat.iter n shr_1 (Build_shr_record m false false))). destruct (Nat.iter n shr_1 (Build_shr_record m false false)) as [m1 r s] eqn:E. cbn zeta in IH. cbn [shr_m shr_r shr_s] in IH.
  destruct IH as (rem & H1 & H2 & H3 & H4). rewrite Nat2Z.inj_succ, Z.pow_succ_r by lia.
  set (P := 2 ^ Z.of_nat n) in *. assert (HP : 0 < P) by lia.
  destruct m1 as [|[q|q|]|q]; cbn [shr_1 shr_m shr_r shr_s]; [| | | |lia].
  - exists rem. repeat split; try lia. exact H4.
  - exists (P + rem). rewrite Pos2Z.inj_xI in H2. repeat split; try lia. 
  - exists rem. rewrite Pos2Z.inj_xO in H2. repeat split; try lia. exact H4.
  - exists (P + rem). repeat split; try lia.
Qed.

(** ** Rounding

    [scaled m e] is the value in units of the smallest positive double. *)
Definition unit : Z := 2 ^ 1074.
Definition scaled (m e : Z) : Z := m * 2 ^ (e + 1074).
Notation fe := (fexp dprec demax).

Lemma fe_spec e : fe e = Z.max (e - 53) (-1074).
Proof. reflexivity. Qed.

(** The result is a neighbour of the exact value on the grid of its binade. *)
Lemma round_neighbour m e : -1074 <= e -> let e1 := fe (Zpos (digits2_pos m) + e) in e1 <= 900 ->
  exists m' e' q rem p, binary_round dprec demax false m e = S754_finite false m' e' /\ -1074 <= e' /\
    scaled (Zpos m) e = q * 2 ^ (e1 + 1074) + rem /\ 0 <= rem < 2 ^ (e1 + 1074) /\ 
    scaled (Zpos m') e' = p * 2 ^ (e1 + 1074) /\ (p = q \/ p = q + 1 /\ 0 < rem).
Proof.
  intros He e1 HE. unfold binary_round. fold e1.
  assert (DE : fe (Zpos (digits2_pos m) + e) = e1) by reflexivity. assert (E0 := DE). rewrite fe_spec in E0. clearbody e1.
  assert (A : exists mz ez, shl_align m e e1 = (mz, ez) /\ ez <= e1 /\ -1074 <= ez /\ scaled (Zpos mz) ez = scaled (Zpos m) e /\
                Zpos (digits2_pos mz) + ez = Zpos (digits2_pos m) + e).
  { unfold shl_align. destruct (e1 - e) as [|d|d] eqn:ED.
    - exists m, e. repeat split; lia.
    - exists m, e. repeat split; lia.
    - exists (shift_pos d m), e1. split; [reflexivity|]. split; [lia|]. 
      assert (X : -1074 <= e1) by lia. split; [exact X|]. split.
      + unfold scaled. rewrite Zpower.shift_pos_correct. change (Z.pow_pos 2 d) with (2 ^ Zpos d).
        replace (e + 1074) with (Zpos d + (e1 + 1074)) by lia. rewrite (Z.pow_add_r 2 (Zpos d) (e1 + 1074)) by lia. ring.
      + rewrite digits_shift. lia. }
  destruct A as (mz & ez & -> & A1 & A2 & A3 & A4).
  unfold binary_round_aux, shr_fexp. cbn [shr_record_of_loc Zdigits2].
  rewrite A4, DE.
  assert (B : shr (Build_shr_record (Zpos mz) false false) ez (e1 - ez) =
              (Nat.iter (Z.to_nat (e1 - ez)) shr_1 (Build_shr_record (Zpos mz) false false), e1)).
  { unfold shr. destruct (e1 - ez) as [|d|d] eqn:ED; [|rewrite iter_pos_nat|lia].
    - cbn. f_equal. lia.
    - cbn [Z.to_nat]. f_equal. lia. }
  rewrite B. clear B.
  destruct (@shr_steps (Z.to_nat (e1 - ez)) (Zpos mz) ltac:(lia)) as (rem0 & S1 & S2 & S3 & S4).
  destruct (Nat.iter (Z.to_nat (e1 - ez)) shr_1 (Build_shr_record (Zpos mz) false false)) as [q r s]. cbn [shr_m shr_r shr_s] in *.
  rewrite Z2Nat.id in * by lia. set (P := 2 ^ (e1 - ez)) in *. assert (HP : 0 < P) by (apply Z.pow_pos_nonneg; lia).
  pose proof (digits_range mz) as [D1 D2]. assert (E1 : e1 = Z.max (Zpos (digits2_pos mz) + ez - 53) (-1074)) by lia.
  assert (Q1 : q < 2 ^ 53).
  { assert (X : Zpos mz < 2 ^ 53 * P).
    { unfold P. rewrite <- Z.pow_add_r by lia. eapply Z.lt_le_trans; [exact D2|]. apply Z.pow_le_mono_r; lia. }
    nia. }
  assert (Q0 : 1 <= q).
  { destruct (Z_lt_le_dec q 1) as [X|X]; [|exact X]. exfalso. assert (q = 0) by lia. subst q. 
    assert (Y : P <= Zpos mz); [|lia]. unfold P. destruct (Z_le_gt_dec (Zpos (digits2_pos mz) + ez - 53) (-1074)).
    - replace (e1 - ez) with 0 by lia. cbn. lia.
    - eapply Z.le_trans; [|exact D1]. apply Z.pow_le_mono_r; lia. }
  assert (U : 0 < 2 ^ (ez + 1074)) by (apply Z.pow_pos_nonneg; lia).
  assert (PU : P * 2 ^ (ez + 1074) = 2 ^ (e1 + 1074)) by (unfold P; rewrite <- Z.pow_add_r by lia; f_equal; lia).
  set (p := round_nearest_even q (loc_of_shr_record (Build_shr_record q r s))).
  assert (HPQ : p = q \/ p = q + 1 /\ 0 < rem0).
  { unfold p, round_nearest_even. destruct r, s; cbn [loc_of_shr_record]; auto. destruct (Z.even q); auto. }
  assert (FIN : exists m' e', (let '(mrs'', e'') := shr (Build_shr_record p false false) e1 (fe (Zdigits2 p + e1) - e1) in
     match shr_m mrs'' with
     | 0 => S754_zero false
     | Zpos m0 => if e'' <=? demax - dprec then S754_finite false m0 e'' else S754_infinity false
     | Zneg _ => S754_nan
     end) = S754_finite false m' e' /\ -1074 <= e' /\ scaled (Zpos m') e' = p * 2 ^ (e1 + 1074)).
  { assert (LIM : demax - dprec = 971) by reflexivity. rewrite LIM.
    destruct (Z.eq_dec p (2 ^ 53)) as [EP|NP].
    - rewrite EP. change (Zdigits2 (2 ^ 53)) with 54. replace (fe (54 + e1) - e1) with 1 by (rewrite fe_spec; lia).
      exists (2 ^ 52)%positive, (e1 + 1). cbn [shr iter_pos]. change (shr_m (shr_1 (Build_shr_record (2 ^ 53) false false))) with (Zpos (2 ^ 52)).
      cbv iota. replace (e1 + 1 <=? 971) with true by (symmetry; apply Z.leb_le; lia). split; [reflexivity|]. split; [lia|].
      unfold scaled. replace (e1 + 1 + 1074) with (1 + (e1 + 1074)) by lia. rewrite (Z.pow_add_r 2 1 (e1 + 1074)) by lia. 
      change (Zpos (2 ^ 52)) with (2 ^ 52). change (2 ^ 53) with (2 ^ 52 * 2 ^ 1). ring.
    - assert (PR : 1 <= p < 2 ^ 53) by lia. destruct p as [|pp|pp]; try lia. cbn [Zdigits2].
      assert (X : Zpos (digits2_pos pp) <= 53) by (apply digits_le; lia).
      assert (Y : fe (Zpos (digits2_pos pp) + e1) - e1 <= 0) by (rewrite fe_spec; lia).
      exists pp, e1. unfold shr. destruct (fe (Zpos (digits2_pos pp) + e1) - e1) as [|d|d]; try lia; cbn [shr_m];
        (replace (e1 <=? 971) with true by (symmetry; apply Z.leb_le; lia)); (split; [reflexivity|split; [lia|reflexivity]]). }
  destruct FIN as (m' & e' & F1 & F2 & F3). exists m', e', q, (rem0 * 2 ^ (ez + 1074)), p. split; [exact F1|]. split; [exact F2|].
  split; [rewrite <- A3; unfold scaled; rewrite S2, <- PU; ring|]. split; [rewrite <- PU; nia|]. split; [exact F3|].
  destruct HPQ as [X|[X Y]]; [left; exact X|right; split; [exact X|nia]].
Qed.

Lemma unit_pos : 0 < unit.
Proof. apply Z.pow_pos_nonneg; lia. Qed.

Lemma round_bounds m e i j : -1074 <= e -> i * unit <= scaled (Zpos m) e <= j * unit -> j < 2 ^ 53 ->
  exists m' e', binary_round dprec demax false m e = S754_finite false m' e' /\ -1074 <= e' /\
    i * unit <= scaled (Zpos m') e' <= j * unit.
Proof.
  intros He [H1 H2] Hj. pose proof (digits_range m) as [D1 D2].
  assert (X : Zpos (digits2_pos m) - 1 + e < 53).
  { assert (Y : 2 ^ (Zpos (digits2_pos m) - 1 + (e + 1074)) < 2 ^ (53 + 1074)).
    { rewrite (Z.pow_add_r 2 53 1074), (Z.pow_add_r 2 (Zpos (digits2_pos m) - 1) (e + 1074)) by lia. eapply Z.le_lt_trans; [|apply Z.mul_lt_mono_pos_r; [apply unit_pos|exact Hj]].
      eapply Z.le_trans; [|exact H2]. unfold scaled. apply Z.mul_le_mono_nonneg_r; [apply Z.pow_nonneg; lia|exact D1]. }
    apply Z.pow_lt_mono_r_iff in Y; lia. }
  destruct (@round_neighbour m e He) as (m' & e' & q & rem & p & A1 & A2 & A3 & A4 & A5 & A6).
  { rewrite fe_spec. lia. }
  set (e1 := fe (Zpos (digits2_pos m) + e)) in *. assert (E1 : -1074 <= e1 <= 0) by (unfold e1; rewrite fe_spec; lia). clearbody e1.
  exists m', e'. split; [exact A1|]. split; [exact A2|]. rewrite A5.
  assert (EU : unit = 2 ^ (- e1) * 2 ^ (e1 + 1074)) by (unfold unit; rewrite <- Z.pow_add_r by lia; f_equal; lia).
  assert (G : 0 < 2 ^ (e1 + 1074)) by (apply Z.pow_pos_nonneg; lia). set (g := 2 ^ (e1 + 1074)) in *.
  rewrite EU, A3 in *. set (k := 2 ^ (- e1)) in *. clearbody g k. clear A5 A1 D1 D2 EU.
  assert (L : i * k <= q) by nia.
  destruct A6 as [->|[-> R]]; [nia|]. assert (q < j * k) by nia. nia.
Qed.

(** ** Additions *)
Definition within (a b : Z) (d : double) : Prop :=
  match d with
  | S754_zero _ => a <= 0 <= b
  | S754_finite false m e => -1074 <= e /\ a * unit <= scaled (Zpos m) e <= b * unit
  | _ => False
  end.

Lemma align_value m e e' : e' <= e -> -1074 <= e' -> scaled (Zpos (fst (shl_align m e e'))) e' = scaled (Zpos m) e.
Proof.
  intros H H'. unfold shl_align, scaled. destruct (e' - e) as [|d|d] eqn:E; cbn [fst]; [|lia|].
  - replace e' with e by lia. reflexivity.
  - rewrite Zpower.shift_pos_correct. change (Z.pow_pos 2 d) with (2 ^ Zpos d).
    replace (e + 1074) with (Zpos d + (e' + 1074)) by lia. rewrite (Z.pow_add_r 2 (Zpos d) (e' + 1074)) by lia. ring.
Qed.

Lemma within_add a b c d x y : 0 <= a -> 0 <= c -> b + d < 2 ^ 53 -> within a b x -> within c d y -> within (a + c) (b + d) (wadd x y).
Proof.
  intros Ha Hc HL Hx Hy. pose proof unit_pos as HU.
  destruct x as [sx|sx| |[|] mx ex], y as [sy|sy| |[|] my ey]; cbn [within] in Hx, Hy; try contradiction.
  - unfold wadd. cbn [SFadd]. destruct (Bool.eqb sx sy); cbn [within]; lia.
  - cbn [wadd SFadd within]. destruct Hy as [Hy1 Hy2]. split; [lia|]. nia.
  - cbn [wadd SFadd within]. destruct Hx as [Hx1 Hx2]. split; [lia|]. nia.
  - destruct Hx as [Hx1 Hx2], Hy as [Hy1 Hy2]. unfold wadd, SFadd. cbn [cond_Zopp].
    set (ez := Z.min ex ey). assert (Z1 : ez <= ex) by lia. assert (Z2 : ez <= ey) by lia. assert (Z3 : -1074 <= ez) by lia.
    pose proof (@align_value mx ex ez Z1 Z3) as V1. pose proof (@align_value my ey ez Z2 Z3) as V2.
    set (m1 := fst (shl_align mx ex ez)) in *. set (m2 := fst (shl_align my ey ez)) in *.
    change (Zpos m1 + Zpos m2) with (Zpos (m1 + m2)). cbn [binary_normalize].
    destruct (@round_bounds (m1 + m2) ez (a + c) (b + d) Z3) as (m' & e' & R1 & R2 & R3).
    + assert (E : scaled (Zpos (m1 + m2)) ez = scaled (Zpos mx) ex + scaled (Zpos my) ey).
      { rewrite <- V1, <- V2. unfold scaled. rewrite Pos2Z.inj_add. ring. }
      rewrite E. lia.
    + exact HL.
    + rewrite R1. cbn [within]. auto.
Qed.

(** ** Sums in any order *)
Lemma scaled_val m e : -1074 <= e -> (inject_Z (scaled (Zpos m) e) == (inject_Z (Zpos m) * (2 # 1) ^ e) * inject_Z unit)%Q.
Proof.
  intro He. unfold scaled, unit. rewrite inject_Z_mult, !Zpower_Qpower by lia. change (inject_Z 2) with (2 # 1)%Q.
  rewrite Qpower_plus by discriminate. ring.
Qed.

Lemma weight_within d : weight d -> within (if is_one d then 1 else 0) (if is_some d then 1 else 0) d.
Proof.
  intros [V (q & E & Q0 & Q1)]. destruct d as [s|s| |s m e]; cbn in E; try discriminate E.
  - destruct s; cbn; lia.
  - cbn in V. apply andb_true_iff in V. destruct V as [V _]. unfold canonical_mantissa in V. apply Zeq_bool_eq in V.
    assert (He : -1074 <= e) by (rewrite <- V, fe_spec; lia).
    assert (P : (0 < (2 # 1) ^ e)%Q) by (apply Qpower_0_lt; reflexivity). injection E as <-.
    destruct s.
    { exfalso. revert Q0. apply Qlt_not_le. setoid_replace 0%Q with (0 * (2 # 1) ^ e)%Q by ring. apply Qmult_lt_r; [exact P|reflexivity]. }
    assert (U : (0 < inject_Z unit)%Q) by (change 0%Q with (inject_Z 0); rewrite <- Zlt_Qlt; apply unit_pos).
    assert (S1 : scaled (Zpos m) e <= unit).
    { rewrite Zle_Qle, scaled_val by exact He. setoid_replace (inject_Z unit) with (1 * inject_Z unit)%Q at 2 by ring. apply Qmult_le_r; auto. }
    assert (S0 : 0 <= scaled (Zpos m) e) by (unfold scaled; apply Z.mul_nonneg_nonneg; [lia|apply Z.pow_nonneg; lia]).
    replace (is_some (S754_finite false m e)) with true by reflexivity. cbn [within]. split; [exact He|]. split; [|lia].
    destruct (is_one (S754_finite false m e)) eqn:E1; [|lia].
    unfold is_one, SFeqb in E1. change (dofZ 1) with (S754_finite false (2 ^ 52) (-52)) in E1. cbn [SFcompare] in E1.
    destruct (Z.compare_spec e (-52)) as [->| |]; try discriminate E1.
    destruct (Pos.compare_cont Eq m (2 ^ 52)) eqn:EM; try discriminate E1. apply Pos.compare_eq in EM. subst m.
    unfold scaled, unit. change (Zpos (2 ^ 52)) with (2 ^ 52). rewrite <- Z.pow_add_r by lia. lia.
Qed.

Lemma length_filter_cons {A} (f : A -> bool) x l : Z.of_nat (length (filter f (x :: l))) = (if f x then 1 else 0) + Z.of_nat (length (filter f l)).
Proof. cbn [filter]. destruct (f x); cbn [length]; lia. Qed.

Lemma added_within t : Forall weight (leaves t) -> Z.of_nat (some_of (leaves t)) < 2 ^ 53 ->
  within (Z.of_nat (ones_of (leaves t))) (Z.of_nat (some_of (leaves t))) (added t).
Proof.
  unfold ones_of, some_of. induction t as [w|a IHa b IHb]; cbn [leaves added]; intros HF HL.
  - inversion HF as [|x l Hw _]; subst. rewrite !length_filter_cons. cbn [filter length Z.of_nat]. rewrite !Z.add_0_r. apply weight_within; auto.
  - apply Forall_app in HF. destruct HF as [F1 F2]. rewrite !filter_app, !app_length, !Nat2Z.inj_add in *.
    apply within_add; try lia; [apply IHa|apply IHb]; auto; lia.
Qed.

Lemma filter_perm {A} (f : A -> bool) l l' : Permutation l l' -> length (filter f l) = length (filter f l').
Proof.
  induction 1 as [|x l l' H IH|x y l|l l' l'' H IH H' IH']; auto; cbn [filter].
  - destruct (f x); cbn [length]; lia.
  - destruct (f x), (f y); reflexivity.
  - congruence.
Qed.
Lemma filter_repeat {A} (f : A -> bool) x n : f x = false -> filter f (repeat x n) = [].
Proof. intro H. induction n as [|n IH]; cbn [repeat filter]; [auto|]. rewrite H. exact IH. Qed.

Lemma weight_zero : weight dzero.
Proof. split; [reflexivity|]. exists 0%Q. split; [reflexivity|]. split; discriminate. Qed.

Lemma sum_within ws d : Forall weight ws -> Z.of_nat (some_of ws) < 2 ^ 53 -> sum_of ws d ->
  within (Z.of_nat (ones_of ws)) (Z.of_nat (some_of ws)) d.
Proof.
  intros HF HL (t & j & HP & <-).
  assert (X : forall f, f dzero = false -> length (filter f (leaves t)) = length (filter f ws)).
  { intros f Hf. rewrite (filter_perm f HP), filter_app, (filter_repeat _ _ _ Hf), app_nil_r. reflexivity. }
  unfold ones_of, some_of in *. rewrite <- (X is_one), <- (X is_some) in * by reflexivity. apply added_within; [|exact HL].
  apply (Permutation_Forall (Permutation_sym HP)). apply Forall_app. split; [exact HF|].
  apply Forall_forall. intros y Hy. apply repeat_spec in Hy. subst y. apply weight_zero.
Qed.

Lemma within_truncated a b d : 0 <= a -> within a b d -> exists n, truncated d = Some n /\ a <= n <= b.
Proof.
  intros Ha H. pose proof unit_pos as HU. destruct d as [s|s| |[|] m e]; cbn [within truncated] in *; try contradiction; [eauto|].
  destruct H as [He H]. eexists. split; [reflexivity|]. unfold scaled in H. destruct (Z.leb_spec 0 e) as [L|L].
  - rewrite Z.pow_add_r in H by lia. fold unit in H. nia.
  - assert (EU : unit = 2 ^ (- e) * 2 ^ (e + 1074)) by (unfold unit; rewrite <- Z.pow_add_r by lia; f_equal; lia).
    assert (G : 0 < 2 ^ (e + 1074)) by (apply Z.pow_pos_nonneg; lia). assert (K : 0 < 2 ^ (- e)) by (apply Z.pow_pos_nonneg; lia).
    rewrite EU in H. set (g := 2 ^ (e + 1074)) in *. set (k := 2 ^ (- e)) in *. clearbody g k.
    split; [apply Z.div_le_lower_bound; nia|apply Z.div_le_upper_bound; nia].
Qed.

(** ** Results *)
Lemma filter_le {A} (f : A -> bool) l : (length (filter f l) <= length l)%nat.
Proof. induction l as [|x l IH]; cbn [filter length]; [lia|]. destruct (f x); cbn [length]; lia. Qed.

Lemma c67_bounds ws d : Forall weight ws -> Z.of_nat (length ws) < 2 ^ 53 -> sum_of ws d ->
  exists n, to_size_t d = Some n /\ Z.of_nat (ones_of ws) <= n <= Z.of_nat (some_of ws).
Proof.
  intros HF HL HS. assert (L : (some_of ws <= length ws)%nat) by apply filter_le.
  assert (L53 : 2 ^ 53 < size_t_mod) by reflexivity.
  destruct (@within_truncated _ _ d (Nat2Z.is_nonneg _) (@sum_within ws d HF ltac:(lia) HS)) as (n & E & B).
  exists n. split; [|exact B]. unfold to_size_t. rewrite E.
  replace (0 <=? n) with true by (symmetry; apply Z.leb_le; lia). replace (n <? size_t_mod) with true by (symmetry; apply Z.ltb_lt; lia). reflexivity.
Qed.

Lemma known_ones k ws : (k <= length ws)%nat -> (forall w, In w (firstn k ws) -> is_one w = true) ->
  ones_of ws = (k + ones_of (skipn k ws))%nat.
Proof.
  intros HK H. unfold ones_of. rewrite <- (firstn_skipn k ws) at 1. rewrite filter_app, app_length. f_equal.
  assert (X : filter is_one (firstn k ws) = firstn k ws).
  { revert H. generalize (firstn k ws). induction l as [|w l IH]; intro H; [reflexivity|]. cbn [filter]. rewrite (H w) by (cbn; auto).
    f_equal. apply IH. intros x Hx. apply H. cbn; auto. }
  rewrite X, firstn_length. lia.
Qed.

Lemma one_is_some w : is_one w = true -> is_some w = true.
Proof.
  unfold is_one, is_some, SFeqb. change (dofZ 1) with (S754_finite false (2 ^ 52) (-52)). 
  unfold dzero. destruct w as [s|s| |s m e]; cbn [SFcompare]; [discriminate| | |]; intro H; try discriminate H; destruct s; reflexivity.
Qed.

Lemma known_some k ws : (k <= length ws)%nat -> (forall w, In w (firstn k ws) -> is_one w = true) ->
  some_of ws = (k + some_of (skipn k ws))%nat.
Proof.
  intros HK H. unfold some_of. rewrite <- (firstn_skipn k ws) at 1. rewrite filter_app, app_length. f_equal.
  assert (X : filter is_some (firstn k ws) = firstn k ws).
  { revert H. generalize (firstn k ws). induction l as [|w l IH]; intro H; [reflexivity|]. cbn [filter]. rewrite (one_is_some w) by (apply H; cbn; auto).
    f_equal. apply IH. intros x Hx. apply H. cbn; auto. }
  rewrite X, firstn_length. lia.
Qed.

Lemma c67_counted ws d k : Forall weight ws -> Z.of_nat (length ws) < 2 ^ 53 -> sum_of ws d ->
  (k <= length ws)%nat -> (forall w, In w (firstn k ws) -> is_one w = true) ->
  exists n, counted d k = Some n /\ Z.of_nat (ones_of (skipn k ws)) <= n <= Z.of_nat (some_of (skipn k ws)).
Proof.
  intros HF HL HS HK H1. destruct (c67_bounds HF HL HS) as (n & E & B).
  rewrite (known_ones ws HK H1), (known_some ws HK H1) in B. exists (n - Z.of_nat k). unfold counted. rewrite E.
  assert (L : (some_of ws <= length ws)%nat) by apply filter_le. rewrite (known_some ws HK H1) in L.
  assert (L53 : 2 ^ 53 < size_t_mod) by reflexivity.
  rewrite Z.mod_small by lia. split; [reflexivity|lia].
Qed.

Lemma binary_same ws : Forall (fun w => is_one w = true \/ is_some w = false) ws -> some_of ws = ones_of ws.
Proof.
  unfold some_of, ones_of. induction 1 as [|w l H HF IH]; [reflexivity|]. cbn [filter]. destruct H as [H|H].
  - rewrite H, (one_is_some w H). cbn [length]. f_equal. exact IH.
  - rewrite H. destruct (is_one w) eqn:E; [apply one_is_some in E; congruence|exact IH].
Qed.

Lemma c67_binary ws d k : Forall weight ws -> Z.of_nat (length ws) < 2 ^ 53 -> sum_of ws d ->
  (k <= length ws)%nat -> (forall w, In w (firstn k ws) -> is_one w = true) ->
  (forall w, In w ws -> is_one w = true \/ is_some w = false) ->
  counted d k = Some (Z.of_nat (ones_of (skipn k ws))).
Proof.
  intros HF HL HS HK H1 HB. destruct (c67_counted HF HL HS HK H1) as (n & E & B).
  rewrite (@binary_same (skipn k ws)) in B.
  - rewrite E. f_equal. lia.
  - apply Forall_forall. intros w Hw. apply HB. rewrite <- (firstn_skipn k ws). apply in_or_app. auto.
Qed.

Lemma wadd_nan x y : x = S754_nan \/ y = S754_nan -> wadd x y = S754_nan.
Proof. intros [->| ->]; [reflexivity|]. destruct x; reflexivity. Qed.

Lemma c67_nan ws d : In S754_nan ws -> sum_of ws d -> to_size_t d = None.
Proof.
  intros HI (t & j & HP & <-). assert (HT : In S754_nan (leaves t)) by (eapply Permutation_in; [apply Permutation_sym; exact HP|apply in_or_app; auto]).
  clear - HT. assert (X : added t = S754_nan); [|rewrite X; reflexivity].
  induction t as [w|a IHa b IHb]; cbn [leaves added] in *.
  - destruct HT as [<-|[]]. reflexivity.
  - apply in_app_or in HT. apply wadd_nan. destruct HT; auto.
Qed.

(** ** The model with rational weights *)
Definition same_value (d : double) (q : Q) : Prop := exists v, dval d = Some v /\ (v == q)%Q.

Lemma c67_model ws w d k : Forall2 same_value ws w -> Forall weight ws -> Z.of_nat (length ws) < 2 ^ 53 -> sum_of ws d ->
  (k <= length ws)%nat -> (forall x, In x (firstn k ws) -> is_one x = true) ->
  (forall x, In x ws -> is_one x = true \/ is_some x = false) ->
  counted d k = Some (inlier_count w k).
Proof.
  intros HV HF HL HS HK H1 HB. rewrite (c67_binary HF HL HS HK H1 HB). f_equal.
  assert (X : (qsum w == inject_Z (Z.of_nat (ones_of ws)))%Q).
  { clear HF HL HS HK H1. unfold ones_of. induction HV as [|x q ws w (v & E & Hv) HV IH]; [reflexivity|].
    rewrite length_filter_cons, inject_Z_plus. cbn [qsum fold_right]. fold (qsum w). rewrite IH by (intros; apply HB; cbn; auto).
    apply Qplus_comp; [|reflexivity]. rewrite <- Hv. destruct (HB x (or_introl eq_refl)) as [H|H].
    - rewrite H. unfold is_one, SFeqb in H. change (dofZ 1) with (S754_finite false (2 ^ 52) (-52)) in H.
      destruct x as [s|s| |[|] m e]; cbn [SFcompare] in H; try discriminate H; try (destruct s; discriminate H).
      destruct (Z.compare_spec e (-52)) as [->| |]; try discriminate H.
      destruct (Pos.compare_cont Eq m (2 ^ 52)) eqn:EM; try discriminate H. apply Pos.compare_eq in EM. subst m.
      injection E as <-. reflexivity.
    - destruct (is_one x) eqn:E1; [apply one_is_some in E1; congruence|].
      clear E1. unfold is_some, SFeqb, dzero in H. destruct x as [s|s| |s m e]; cbn [SFcompare dval negb] in H, E; try discriminate.
      + injection E as <-. reflexivity.
      + destruct s; discriminate H. }
  unfold inlier_count. rewrite (Qfloor_comp _ _ X), Qfloor_Z, (known_ones ws HK H1).
  assert (L : (ones_of ws <= length ws)%nat) by apply filter_le. rewrite (known_ones ws HK H1) in L.
  assert (L53 : 2 ^ 53 < size_t_mod) by reflexivity. rewrite Z.mod_small by lia. lia.
Qed.
