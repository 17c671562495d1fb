(** * Rounding to double precision is monotone

    A non-negative real number is given by its comparison with the multiples of [2^-1075], so that
    quotients and square roots are treated alike. *)
From Coq Require Import ZArith List Bool QArith Qcanon Lia.
From Verif Require Import Prelude Num Lie WeightProofs.
Set Implicit Arguments.
Local Open Scope Z_scope.
Local Notation fe := (fexp dprec demax).

Definition cut := Z -> comparison.
(** [k * 2^-1075] is compared with the number. *)
Definition increasing (R : cut) : Prop := forall k k', 0 <= k < k' -> R k <> Lt -> R k' = Gt.
Definition cut_le (R R' : cut) : Prop := forall k, 0 <= k -> (R' k = Gt -> R k = Gt) /\ (R' k <> Lt -> R k <> Lt).

(** [m * 2^e] and half of [2^e]. *)
Definition hs (m e : Z) : Z := m * 2 ^ (e + 1075).
Definition half (e : Z) : Z := 2 ^ (e + 1074).
Lemma half_pos e : -1074 <= e -> 0 < half e.
Proof. intro. apply Z.pow_pos_nonneg; lia. Qed.
Lemma hs_half m e : -1074 <= e -> hs m e = 2 * m * half e.
Proof. intro H. unfold hs, half. replace (e + 1075) with (1 + (e + 1074)) by lia. rewrite Z.pow_add_r by lia. ring. Qed.
Lemma hs_up m e : -1074 <= e -> hs m (e + 1) = hs (2 * m) e.
Proof. intro H. unfold hs. replace (e + 1 + 1075) with (1 + (e + 1075)) by lia. rewrite Z.pow_add_r by lia. ring. Qed.
Lemma half_up e : -1074 <= e -> half (e + 1) = hs 1 e.
Proof. intro H. unfold hs, half. rewrite Z.mul_1_l. f_equal. lia. Qed.

Section Cut.
Variable R : cut.
Hypothesis HR : increasing R.

Lemma below k k' : 0 <= k <= k' -> R k' = Lt -> R k = Lt.
Proof.
  intros H E. destruct (R k) eqn:X; auto; exfalso; (destruct (Z.eq_dec k k') as [<-|N]; [congruence|]); rewrite (@HR k k') in E; try congruence; lia.
Qed.
Lemma above k k' : 0 <= k <= k' -> R k = Gt -> R k' = Gt.
Proof. intros H E. destruct (Z.eq_dec k k') as [<-|N]; auto. apply (@HR k k'); [lia|congruence]. Qed.
Lemma under k k' : 0 <= k < k' -> R k' <> Gt -> R k = Lt.
Proof. intros H E. destruct (R k) eqn:X; auto; exfalso; apply E; apply (@HR k k'); auto; congruence. Qed.

Definition inb (m e : Z) (l : location) : Prop :=
  match l with
  | loc_Exact => R (hs m e) = Eq
  | loc_Inexact c => R (hs m e) = Lt /\ R (hs (m + 1) e) = Gt /\ R (hs m e + half e) = CompOpp c
  end.

Lemma inb_next m e (l : location) : 0 <= m -> -1074 <= e -> inb m e l -> R (hs (m + 1) e) = Gt /\ R (hs m e) <> Gt.
Proof.
  intros Hm He. pose proof (half_pos He) as H. destruct l as [|c]; cbn; [|intros (A & B & _); split; [auto|congruence]].
  intro E. split; [|congruence]. apply (@HR (hs m e)); [|congruence]. rewrite !hs_half by auto. nia.
Qed.

(** One bit shifted out. *)
Lemma shr_1_inb m e l : 0 <= m -> -1074 <= e -> inb m e l ->
  exists m' l', shr_1 (shr_record_of_loc m l) = shr_record_of_loc m' l' /\ 0 <= m' /\ 2 * m' <= m < 2 * m' + 2 /\ inb m' (e + 1) l'.
Proof.
  intros Hm He HB. pose proof (half_pos He) as HH. destruct (@inb_next m e l Hm He HB) as (N1 & N2).
  assert (EV : forall p, 0 <= p -> m = 2 * p -> l <> loc_Exact -> inb p (e + 1) (loc_Inexact Lt)).
  { intros p Hp E NL. cbn [inb CompOpp]. rewrite !hs_up, half_up by auto. rewrite <- E.
    replace (hs m e + hs 1 e) with (hs (m + 1) e) by (unfold hs; ring).
    destruct l as [|c]; [congruence|]. destruct HB as (A & B & _). split; [auto|]. split; [|auto].
    apply (@above (hs (m + 1) e)); auto. rewrite !hs_half by auto. nia. }
  assert (EX : forall p, 0 <= p -> m = 2 * p -> l = loc_Exact -> inb p (e + 1) loc_Exact).
  { intros p Hp E ->. cbn [inb] in *. rewrite hs_up, <- E by auto. auto. }
  assert (OD : forall p c, 0 <= p -> m = 2 * p + 1 -> R (hs m e) = CompOpp c -> inb p (e + 1) (loc_Inexact c)).
  { intros p c Hp E HC. cbn [inb]. rewrite !hs_up, half_up by auto.
    replace (hs (2 * p) e + hs 1 e) with (hs m e) by (unfold hs; rewrite E; ring).
    replace (2 * (p + 1)) with (m + 1) by lia. split; [|auto].
    apply (@under (hs (2 * p) e) (hs m e)); auto. rewrite !hs_half by auto. nia. }
  assert (LE : forall p, 0 <= p -> m = 2 * p -> exists l', inb p (e + 1) l' /\ shr_record_of_loc p l' = Build_shr_record p false (match l with loc_Exact => false | _ => true end)).
  { intros p Hp E. destruct l as [|c]; [exists loc_Exact|exists (loc_Inexact Lt)]; (split; [|reflexivity]); [apply (EX p)|apply (EV p)]; auto; congruence. }
  assert (LO : forall p, 0 <= p -> m = 2 * p + 1 -> exists l', inb p (e + 1) l' /\ shr_record_of_loc p l' = Build_shr_record p true (match l with loc_Exact => false | _ => true end)).
  { intros p Hp E. destruct l as [|c]; [exists (loc_Inexact Eq)|exists (loc_Inexact Gt)]; (split; [|reflexivity]); apply (OD p); auto. apply HB. }
  assert (SR : forall m', exists r s, shr_record_of_loc m' l = Build_shr_record m' r s /\ orb r s = match l with loc_Exact => false | _ => true end).
  { intro m'. destruct l as [|[]]; cbn; eauto. }
  destruct (SR m) as (r & s & -> & ES).
  destruct m as [|[p|p|]|p]; try lia; cbn [shr_1]; rewrite ES.
  - destruct (LE 0) as (l' & A & B); [lia..|]. exists 0, l'. rewrite B. repeat split; auto; lia.
  - destruct (LO (Zpos p)) as (l' & A & B); [lia..|]. exists (Zpos p), l'. rewrite B. repeat split; auto; lia.
  - destruct (LE (Zpos p)) as (l' & A & B); [lia..|]. exists (Zpos p), l'. rewrite B. repeat split; auto; lia.
  - destruct (LO 0) as (l' & A & B); [lia..|]. exists 0, l'. rewrite B. repeat split; auto; lia.
Qed.

Lemma shr_inb n : forall m e l, 0 <= m -> -1074 <= e -> inb m e l ->
  exists m' l', Nat.iter n shr_1 (shr_record_of_loc m l) = shr_record_of_loc m' l' /\ 0 <= m' /\
    2 ^ Z.of_nat n * m' <= m < 2 ^ Z.of_nat n * (m' + 1) /\ inb m' (e + Z.of_nat n) l'.
Proof.
  induction n as [|n IH]; intros m e l Hm He HB.
  - exists m, l. cbn [Nat.iter nat_rect]. split; [reflexivity|]. change (Z.of_nat 0) with 0. rewrite Z.add_0_r, Z.pow_0_r. repeat split; auto; lia.
  - destruct (IH m e l Hm He HB) as (m1 & l1 & A & B & C & D).
    destruct (@shr_1_inb m1 (e + Z.of_nat n) l1 B ltac:(lia) D) as (m2 & l2 & A2 & B2 & C2 & D2).
    exists m2, l2. change (Nat.iter (S n) shr_1 (shr_record_of_loc m l)) with (shr_1 (Nat.iter n shr_1 (shr_record_of_loc m l))).
    rewrite A, A2. split; [reflexivity|]. split; [exact B2|]. rewrite Nat2Z.inj_succ, Z.pow_succ_r by lia.
    split; [|replace (e + Z.succ (Z.of_nat n)) with (e + Z.of_nat n + 1) by lia; exact D2].
    assert (0 < 2 ^ Z.of_nat n) by (apply Z.pow_pos_nonneg; lia). set (P := 2 ^ Z.of_nat n) in *. nia.
Qed.

(** The nearest multiple of [2^e], the even one of two. *)
Definition nearest (M e : Z) : Prop :=
  (1 <= M -> R (hs M e - half e) <> Gt /\ (R (hs M e - half e) = Eq -> Z.even M = true)) /\
  R (hs M e + half e) <> Lt /\ (R (hs M e + half e) = Eq -> Z.even M = true).

Lemma round_nearest m e l : 0 <= m -> -1074 <= e -> inb m e l -> nearest (round_nearest_even m l) e.
Proof.
  intros Hm He HB. pose proof (half_pos He) as HH. destruct (@inb_next m e l Hm He HB) as (N1 & N2).
  assert (LO : R (hs m e + half e) = Gt -> nearest m e).
  { intro X. split; [|split; congruence]. intro H1.
    assert (Y : R (hs m e - half e) = Lt) by (apply (@under _ (hs m e)); auto; rewrite !hs_half by auto; nia). split; congruence. }
  assert (HI : R (hs m e + half e) = Lt -> nearest (m + 1) e).
  { intro X. assert (E : hs (m + 1) e - half e = hs m e + half e) by (rewrite !hs_half by auto; ring).
    assert (Y : R (hs (m + 1) e + half e) = Gt) by (apply (@above (hs (m + 1) e)); auto; rewrite !hs_half by auto; nia).
    split; [intros _; rewrite E; split; congruence|split; congruence]. }
  destruct l as [|[]]; cbn [round_nearest_even inb] in *.
  - apply LO. apply (@HR (hs m e)); [rewrite !hs_half by auto; nia|congruence].
  - destruct HB as (A & B & C). cbn in C. destruct (Z.even m) eqn:EV.
    + split; [|split; congruence]. intro H1.
      assert (Y : R (hs m e - half e) = Lt) by (apply (@under _ (hs m e)); [rewrite !hs_half by auto; nia|congruence]). split; congruence.
    + assert (E : hs (m + 1) e - half e = hs m e + half e) by (rewrite !hs_half by auto; ring).
      assert (Y : R (hs (m + 1) e + half e) = Gt) by (apply (@above (hs (m + 1) e)); auto; rewrite !hs_half by auto; nia).
      assert (V : Z.even (m + 1) = true) by (rewrite Z.even_add, EV; reflexivity).
      split; [intros _; rewrite E; split; congruence|split; congruence].
  - apply LO. apply HB.
  - apply HI. apply HB.
Qed.

(** ** What the code's rounding returns *)
Definition packed (M e : Z) : double :=
  if M =? 0 then S754_zero false
  else if M =? 2 ^ 53 then (if e + 1 <=? 971 then S754_finite false (2 ^ 52)%positive (e + 1) else S754_infinity false)
  else if e <=? 971 then S754_finite false (Z.to_pos M) e else S754_infinity false.

Definition rounds_to (M e m : Z) : Prop :=
  -1074 <= e /\ 0 <= m < 2 ^ 53 /\ (e = -1074 \/ 2 ^ 52 <= m) /\ (M = m \/ M = m + 1) /\ nearest M e /\ R (hs m e) <> Gt /\ R (hs (m + 1) e) = Gt.

Lemma packed_round M e : 0 <= M <= 2 ^ 53 -> -1074 <= e ->
  (let '(mrs'', e'') := shr_fexp dprec demax M e loc_Exact in
   match shr_m mrs'' with
   | 0 => S754_zero false
   | Zpos m0 => if e'' <=? demax - dprec then S754_finite false m0 e'' else S754_infinity false
   | Zneg _ => S754_nan
   end) = packed M e.
Proof.
  intros HM He. assert (LIM : demax - dprec = 971) by reflexivity. rewrite LIM. unfold packed, shr_fexp. cbn [shr_record_of_loc].
  destruct (Z.eqb_spec M 0) as [->|N0].
  - cbn [Zdigits2]. unfold shr. destruct (fe (0 + e) - e) as [|d|d] eqn:X; try reflexivity.
    rewrite fe_spec in X. lia.
  - destruct (Z.eqb_spec M (2 ^ 53)) as [EP|NP].
    + rewrite EP. change (Zdigits2 (2 ^ 53)) with 54. replace (fe (54 + e) - e) with 1 by (rewrite fe_spec; lia).
      cbn [shr iter_pos]. change (shr_m (shr_1 (Build_shr_record (2 ^ 53) false false))) with (Zpos (2 ^ 52)). reflexivity.
    + destruct M as [|pp|pp]; try lia. cbn [Zdigits2 Z.to_pos].
      assert (X : Zpos (digits2_pos pp) <= 53) by (apply digits_le; lia).
      assert (Y : fe (Zpos (digits2_pos pp) + e) - e <= 0) by (rewrite fe_spec; lia).
      unfold shr. destruct (fe (Zpos (digits2_pos pp) + e) - e) as [|d|d]; try lia; reflexivity.
Qed.

Lemma zdigits_range m : 0 <= m -> m < 2 ^ Zdigits2 m /\ (0 < m -> 2 ^ (Zdigits2 m - 1) <= m) /\ 0 <= Zdigits2 m.
Proof. destruct m as [|p|p]; cbn [Zdigits2]; try lia. intros _. pose proof (digits_range p). lia. Qed.

Lemma round_aux m e l : 0 <= m -> -1074 <= e -> e <= fe (Zdigits2 m + e) -> inb m e l ->
  exists M e1 m1, binary_round_aux dprec demax false m e l = packed M e1 /\ rounds_to M e1 m1.
Proof.
  intros Hm He HF HB. unfold binary_round_aux.
  set (e1 := fe (Zdigits2 m + e)) in *. assert (E1 : e1 = Z.max (Zdigits2 m + e - 53) (-1074)) by reflexivity.
  destruct (@shr_inb (Z.to_nat (e1 - e)) m e l Hm He HB) as (m1 & l1 & A & B & C & D).
  rewrite Z2Nat.id in * by lia.
  assert (S1 : shr_fexp dprec demax m e l = (shr_record_of_loc m1 l1, e1)).
  { unfold shr_fexp. fold e1. unfold shr. rewrite <- A. destruct (e1 - e) as [|d|d] eqn:ED; [|rewrite iter_pos_nat|lia].
    - cbn. f_equal. lia.
    - cbn [Z.to_nat]. f_equal. lia. }
  rewrite S1. replace (e + (e1 - e)) with e1 in D by lia.
  assert (L1 : shr_m (shr_record_of_loc m1 l1) = m1 /\ loc_of_shr_record (shr_record_of_loc m1 l1) = l1) by (destruct l1 as [|[]]; auto).
  destruct L1 as [-> ->]. destruct (zdigits_range Hm) as (Z1 & Z2 & Z3).
  assert (HP : 0 < 2 ^ (e1 - e)) by (apply Z.pow_pos_nonneg; lia).
  assert (Q1 : m1 < 2 ^ 53).
  { assert (X : m < 2 ^ (e1 - e) * 2 ^ 53).
    { rewrite <- Z.pow_add_r by lia. eapply Z.lt_le_trans; [exact Z1|]. apply Z.pow_le_mono_r; lia. }
    set (P := 2 ^ (e1 - e)) in *. nia. }
  assert (Q2 : e1 = -1074 \/ 2 ^ 52 <= m1).
  { destruct (Z.eq_dec e1 (-1074)) as [X|X]; [left; exact X|right].
    assert (Y : e1 = Zdigits2 m + e - 53) by lia.
    assert (W : 2 ^ (e1 - e) * 2 ^ 52 <= m).
    { rewrite <- Z.pow_add_r by lia. replace (e1 - e + 52) with (Zdigits2 m - 1) by lia. apply Z2.
      destruct m; cbn [Zdigits2] in *; lia. }
    set (P := 2 ^ (e1 - e)) in *. nia. }
  assert (HM : round_nearest_even m1 l1 = m1 \/ round_nearest_even m1 l1 = m1 + 1).
  { destruct l1 as [|[]]; cbn; auto. destruct (Z.even m1); auto. }
  exists (round_nearest_even m1 l1), e1, m1. split; [apply packed_round; lia|].
  destruct (@inb_next m1 e1 l1 B ltac:(lia) D) as (N1 & N2).
  repeat split; auto; try lia; apply (@round_nearest m1 e1 l1 B ltac:(lia) D); auto.
Qed.
End Cut.

(** ** Order of the results *)
Lemma packed_le M e M' e' : 0 <= M <= 2 ^ 53 -> 0 <= M' <= 2 ^ 53 -> -1074 <= e -> -1074 <= e' ->
  e = e' /\ M <= M' \/ e < e' /\ 2 ^ 52 <= M' -> (2 ^ 52 <= M' \/ e' = -1074) -> (2 ^ 52 <= M \/ e = -1074) ->
  SFleb (packed M e) (packed M' e') = true.
Proof.
  intros HM HM' He He' H C C'. unfold packed.
  destruct (Z.eqb_spec M 0) as [X0|X0]; destruct (Z.eqb_spec M' 0) as [Y0|Y0]; try (exfalso; lia).
  - reflexivity.
  - destruct (M' =? 2 ^ 53); [destruct (e' + 1 <=? 971)|destruct (e' <=? 971)]; reflexivity.
  - destruct (Z.eqb_spec M (2 ^ 53)) as [X|X]; destruct (Z.eqb_spec M' (2 ^ 53)) as [Y|Y].
    + destruct (Z.leb_spec (e + 1) 971) as [L|L]; destruct (Z.leb_spec (e' + 1) 971) as [L'|L']; try reflexivity; try (exfalso; lia).
      unfold SFleb, SFcompare. destruct (Z.compare_spec (e + 1) (e' + 1)); try reflexivity; try (exfalso; lia).
    + destruct (Z.leb_spec (e + 1) 971) as [L|L]; destruct (Z.leb_spec e' 971) as [L'|L']; try reflexivity; try (exfalso; lia).
      unfold SFleb, SFcompare. destruct (Z.compare_spec (e + 1) e'); try reflexivity; try (exfalso; lia).
      change (Pos.compare_cont Eq (2 ^ 52) (Z.to_pos M'))%positive with (2 ^ 52 ?= Z.to_pos M')%positive. destruct (Pos.compare_spec (2 ^ 52)%positive (Z.to_pos M')) as [Q|Q|Q]; try reflexivity.
      exfalso. assert (Zpos (Z.to_pos M') = M') by (apply Z2Pos.id; lia). assert (Zpos (Z.to_pos M') < Zpos (2 ^ 52)) by exact Q. change (Zpos (2 ^ 52)) with (2 ^ 52) in *. lia.
    + destruct (Z.leb_spec e 971) as [L|L]; destruct (Z.leb_spec (e' + 1) 971) as [L'|L']; try reflexivity; try (exfalso; lia).
      unfold SFleb, SFcompare. destruct (Z.compare_spec e (e' + 1)); try reflexivity; try (exfalso; lia).
    + destruct (Z.leb_spec e 971) as [L|L]; destruct (Z.leb_spec e' 971) as [L'|L']; try reflexivity; try (exfalso; lia).
      unfold SFleb, SFcompare. destruct (Z.compare_spec e e'); try reflexivity; try (exfalso; lia).
      change (Pos.compare_cont Eq (Z.to_pos M) (Z.to_pos M'))%positive with (Z.to_pos M ?= Z.to_pos M')%positive. destruct (Pos.compare_spec (Z.to_pos M) (Z.to_pos M')) as [Q|Q|Q]; try reflexivity.
      exfalso. assert (Zpos (Z.to_pos M') = M') by (apply Z2Pos.id; lia). assert (Zpos (Z.to_pos M) = M) by (apply Z2Pos.id; lia). assert (Zpos (Z.to_pos M') < Zpos (Z.to_pos M)) by exact Q. lia.
Qed.

Lemma rounds_le R R' M e m M' e' m' : increasing R -> increasing R' -> cut_le R R' -> rounds_to R M e m -> rounds_to R' M' e' m' ->
  SFleb (packed M e) (packed M' e') = true.
Proof.
  intros I I' L (A1 & A2 & A3 & A4 & A5 & A6 & A7) (B1 & B2 & B3 & B4 & B5 & B6 & B7).
  pose proof (half_pos A1) as HH. pose proof (half_pos B1) as HH'.
  apply packed_le; try lia.
  destruct (Ztrichotomy e e') as [X|[X|X]]; [right; lia| |exfalso].
  - left. split; [exact X|]. subst e'. destruct (Z_le_gt_dec M M') as [Y|Y]; [exact Y|exfalso].
    destruct A5 as [A5 _]. destruct (A5 ltac:(lia)) as [P1 P2]. destruct B5 as (_ & P3 & P4).
    set (k := hs M e - half e) in *. set (k' := hs M' e + half e) in *.
    assert (K : 0 <= k' <= k) by (unfold k, k'; rewrite !hs_half by auto; nia).
    destruct (L k ltac:(lia)) as [L1 L2].
    destruct (Z.eq_dec k' k) as [E|N].
    + assert (M = M' + 1) by (unfold k, k' in E; rewrite !hs_half in E by auto; nia).
      rewrite E in *. assert (E1 : R' k = Eq) by (destruct (R' k); auto; exfalso; auto; apply P3; reflexivity).
      assert (E2 : R k = Eq) by (destruct (R k); auto; exfalso; [apply L2; congruence|apply P1; reflexivity]).
      pose proof (P2 E2) as V. pose proof (P4 E1) as V'. subst M. rewrite Z.even_add, V' in V. discriminate.
    + apply P1, L1. apply (I' k' k); [lia|exact P3].
  - destruct (L (hs m e) ltac:(rewrite hs_half by auto; nia)) as [L1 _]. apply A6, L1.
    apply (@above R' I' (hs (m' + 1) e')); [|exact B7]. unfold hs. split; [assert (0 <= 2 ^ (e' + 1075)) by (apply Z.pow_nonneg; lia); nia|].
    assert (Y : 2 ^ 52 <= m) by lia. assert (W : 2 ^ (e' + 1075) * 2 <= 2 ^ (e + 1075)).
    { replace (2 ^ (e' + 1075) * 2) with (2 ^ (e' + 1075 + 1)) by (rewrite Z.pow_add_r by lia; reflexivity). apply Z.pow_le_mono_r; lia. }
    assert (0 <= 2 ^ (e' + 1075)) by (apply Z.pow_nonneg; lia). 
    apply Z.le_trans with (2 ^ 53 * 2 ^ (e' + 1075)); [apply Z.mul_le_mono_nonneg_r; lia|].
    apply Z.le_trans with (2 ^ 52 * 2 ^ (e + 1075)); [|apply Z.mul_le_mono_nonneg_r; lia].
    change (2 ^ 53) with (2 ^ 52 * 2). lia.
Qed.

(** ** Quotients *)
Definition quotient_cut (a b : positive) : cut := fun k => k * Zpos b ?= Zpos a * 2 ^ 1075.

Lemma quotient_increasing a b : increasing (quotient_cut a b).
Proof.
  intros k k' H. unfold quotient_cut. destruct (Z.compare_spec (k * Zpos b) (Zpos a * 2 ^ 1075)) as [X|X|X]; intro N; [| congruence |];
    apply Z.compare_gt_iff; nia.
Qed.

Lemma div_rounds a b : exists M e m, SFdiv dprec demax (S754_finite false a 0) (S754_finite false b 0) = packed M e /\ rounds_to (quotient_cut a b) M e m.
Proof.
  unfold SFdiv. destruct (SFdiv_core_binary dprec demax (Zpos a) 0 (Zpos b) 0) as [[mz ez] lz] eqn:E. change (xorb false false) with false.
  unfold SFdiv_core_binary in E. rewrite !Z.add_0_r in E. change (0 - 0) with 0 in E. cbn [Zdigits2] in E.
  set (e' := Z.min (fe (Zpos (digits2_pos a) - Zpos (digits2_pos b))) 0) in *.
  assert (HE : e' = Z.min (Z.max (Zpos (digits2_pos a) - Zpos (digits2_pos b) - 53) (-1074)) 0) by reflexivity. clearbody e'.
  assert (HM : match 0 - e' with 0 => Zpos a | Zpos _ => Z.shiftl (Zpos a) (0 - e') | Zneg _ => 0 end = Zpos a * 2 ^ (- e')).
  { destruct (0 - e') as [|p|p] eqn:X; [| |lia].
    - replace e' with 0 by lia. rewrite Z.pow_0_r. lia.
    - rewrite Z.shiftl_mul_pow2 by lia. f_equal. f_equal. lia. }
  rewrite HM in E. clear HM. set (N := Zpos a * 2 ^ (- e')) in *.
  pose proof (Z_div_mod N (Zpos b) ltac:(lia)) as DM. destruct (Z.div_eucl N (Zpos b)) as [q r]. destruct DM as [DM HR].
  injection E as <- <- <-.
  assert (P : 0 < 2 ^ (- e')) by (apply Z.pow_pos_nonneg; lia).
  assert (HQ : 0 <= q) by (unfold N in DM; nia).
  pose proof (digits_range a) as [DA _]. pose proof (digits_range b) as [_ DB].
  apply round_aux; auto; try lia; [apply quotient_increasing| |].
  - rewrite fe_spec. destruct (Z_le_gt_dec e' (-1074)) as [X|X]; [lia|].
    assert (Y : 2 ^ (Zpos (digits2_pos a) - Zpos (digits2_pos b) - 1 - e') <= q).
    { assert (W : 2 ^ (Zpos (digits2_pos a) - Zpos (digits2_pos b) - 1 - e') * Zpos b < (q + 1) * Zpos b).
      { apply Z.lt_le_trans with (2 ^ (Zpos (digits2_pos a) - Zpos (digits2_pos b) - 1 - e') * 2 ^ Zpos (digits2_pos b)).
        - apply Z.mul_lt_mono_pos_l; [apply Z.pow_pos_nonneg; lia|exact DB].
        - rewrite <- Z.pow_add_r by lia. apply Z.le_trans with N; [|lia]. unfold N.
          replace (Zpos (digits2_pos a) - Zpos (digits2_pos b) - 1 - e' + Zpos (digits2_pos b)) with (Zpos (digits2_pos a) - 1 + - e') by lia.
          rewrite Z.pow_add_r by lia. apply Z.mul_le_mono_nonneg_r; lia. }
      apply Z.mul_lt_mono_pos_r in W; lia. }
    destruct q as [|q|q]; [exfalso; assert (0 < 2 ^ (Zpos (digits2_pos a) - Zpos (digits2_pos b) - 1 - e')) by (apply Z.pow_pos_nonneg; lia); lia| |lia].
    cbn [Zdigits2]. apply digits_ge in Y; lia.
  - assert (U : 0 < 2 ^ (e' + 1074)) by (apply Z.pow_pos_nonneg; lia).
    assert (F : Zpos a * 2 ^ 1075 = N * 2 * 2 ^ (e' + 1074)).
    { unfold N. rewrite <- Z.mul_assoc, <- Z.mul_assoc. f_equal. rewrite Z.mul_assoc, (Z.mul_comm _ 2), <- Z.mul_assoc, <- Z.pow_add_r, <- Z.pow_succ_r by lia. f_equal. lia. }
    assert (G : forall z, hs z e' = z * 2 * 2 ^ (e' + 1074)) by (intro; rewrite hs_half by lia; unfold half; ring).
    assert (CMP : forall z c, (z ?= r * 2) = c -> (2 * q * 2 ^ (e' + 1074) * Zpos b + z * 2 ^ (e' + 1074) ?= Zpos a * 2 ^ 1075) = c).
    { intros z c <-. rewrite F, DM. destruct (Z.compare_spec z (r * 2)) as [X|X|X]; [apply Z.compare_eq_iff|apply Z.compare_lt_iff|apply Z.compare_gt_iff]; nia. }
    assert (K : inb (quotient_cut a b) q e' (if Z.eqb r 0 then loc_Exact else loc_Inexact (2 * r ?= Zpos b))).
    { destruct (Z.eqb_spec r 0) as [Z0|Z0]; cbn [inb]; unfold quotient_cut; rewrite ?G; unfold half.
      - replace (q * 2 * 2 ^ (e' + 1074) * Zpos b) with (2 * q * 2 ^ (e' + 1074) * Zpos b + 0 * 2 ^ (e' + 1074)) by ring. apply CMP. subst r. reflexivity.
      - split; [|split].
        + replace (q * 2 * 2 ^ (e' + 1074) * Zpos b) with (2 * q * 2 ^ (e' + 1074) * Zpos b + 0 * 2 ^ (e' + 1074)) by ring. apply CMP. apply Z.compare_lt_iff. lia.
        + replace ((q + 1) * 2 * 2 ^ (e' + 1074) * Zpos b) with (2 * q * 2 ^ (e' + 1074) * Zpos b + (2 * Zpos b) * 2 ^ (e' + 1074)) by ring. apply CMP. apply Z.compare_gt_iff. lia.
        + replace ((q * 2 * 2 ^ (e' + 1074) + 2 ^ (e' + 1074)) * Zpos b) with (2 * q * 2 ^ (e' + 1074) * Zpos b + Zpos b * 2 ^ (e' + 1074)) by ring. apply CMP.
          rewrite (Z.mul_comm r 2). apply Z.compare_antisym. }
    replace (new_location (Zpos b) r) with (if r =? 0 then loc_Exact else loc_Inexact (2 * r ?= Zpos b)); [exact K|].
    assert (ZB : Zeq_bool r 0 = (r =? 0)) by (destruct (Z.eqb_spec r 0) as [->|X]; [reflexivity|apply Zeq_is_eq_bool_neg || (destruct (Zeq_bool r 0) eqn:Y; [apply Zeq_bool_eq in Y; lia|reflexivity])]).
    unfold new_location. destruct (Z.even (Zpos b)) eqn:EV; unfold new_location_even, new_location_odd; rewrite ZB; [reflexivity|].
    destruct (r =? 0) eqn:RZ; [reflexivity|]. f_equal.
    assert (OB : exists t, Zpos b = 2 * t + 1) by (exists (Zpos b / 2); pose proof (Zmod_even (Zpos b)) as Q; rewrite EV in Q; pose proof (Z.div_mod (Zpos b) 2); lia).
    destruct OB as [t ->]. destruct (Z.compare_spec (2 * r) (2 * t + 1)); destruct (Z.compare_spec (2 * r + 1) (2 * t + 1)); reflexivity || (exfalso; lia).
Qed.

(** ** Square roots *)
Definition root_cut (m : positive) (e : Z) : cut := fun k => k * k ?= Zpos m * 2 ^ (e + 2150).

Lemma root_increasing m e : increasing (root_cut m e).
Proof.
  intros k k' H. unfold root_cut. destruct (Z.compare_spec (k * k) (Zpos m * 2 ^ (e + 2150))) as [X|X|X]; intro N; [| congruence |];
    apply Z.compare_gt_iff; nia.
Qed.

Lemma sqrt_rounds a e : -1074 <= e -> exists M e1 m, SFsqrt dprec demax (S754_finite false a e) = packed M e1 /\ rounds_to (root_cut a e) M e1 m.
Proof.
  intro He. unfold SFsqrt. destruct (SFsqrt_core_binary dprec demax (Zpos a) e) as [[mz ez] lz] eqn:E.
  unfold SFsqrt_core_binary in E. cbn [Zdigits2] in E.
  set (e' := Z.min (fe (Z.div2 (Zpos (digits2_pos a) + e + 1))) (Z.div2 e)) in *.
  assert (HE : e' = Z.min (Z.max (Z.div2 (Zpos (digits2_pos a) + e + 1) - 53) (-1074)) (Z.div2 e)) by reflexivity. clearbody e'.
  rewrite !Z.div2_div in HE. pose proof (Z.div_mod e 2 ltac:(lia)) as D1. pose proof (Z.mod_pos_bound e 2 ltac:(lia)) as D2.
  pose proof (Z.div_mod (Zpos (digits2_pos a) + e + 1) 2 ltac:(lia)) as D3. pose proof (Z.mod_pos_bound (Zpos (digits2_pos a) + e + 1) 2 ltac:(lia)) as D4.
  assert (E1 : -1074 <= e') by lia. assert (E2 : 2 * e' <= e) by lia.
  assert (HM : match e - 2 * e' with 0 => Zpos a | Zpos _ => Z.shiftl (Zpos a) (e - 2 * e') | Zneg _ => 0 end = Zpos a * 2 ^ (e - 2 * e')).
  { destruct (e - 2 * e') as [|p|p] eqn:X; [| |lia].
    - rewrite Z.pow_0_r. lia.
    - rewrite Z.shiftl_mul_pow2 by lia. reflexivity. }
  rewrite HM in E. clear HM. set (N := Zpos a * 2 ^ (e - 2 * e')) in *.
  assert (P : 0 < 2 ^ (e - 2 * e')) by (apply Z.pow_pos_nonneg; lia).
  pose proof (Z.sqrtrem_spec N ltac:(unfold N; lia)) as SQ. destruct (Z.sqrtrem N) as [q r]. destruct SQ as [DM HR].
  injection E as <- <- <-.
  assert (HQ : 0 <= q) by lia. pose proof (digits_range a) as [DA _].
  apply round_aux; auto; [apply root_increasing| |].
  - rewrite fe_spec. destruct (Z_le_gt_dec e' (-1074)) as [X|X]; [lia|].
    set (h := (Zpos (digits2_pos a) + e + 1) / 2) in *.
    assert (Y : 2 ^ (h - 1 - e') <= q).
    { destruct (Z_le_gt_dec (2 ^ (h - 1 - e')) q) as [W|W]; [exact W|exfalso].
      assert (V : 2 ^ (h - 1 - e') * 2 ^ (h - 1 - e') <= N).
      { rewrite <- Z.pow_add_r by lia. unfold N. apply Z.le_trans with (2 ^ (Zpos (digits2_pos a) - 1) * 2 ^ (e - 2 * e')).
        - rewrite <- Z.pow_add_r by lia. apply Z.pow_le_mono_r; lia.
        - apply Z.mul_le_mono_nonneg_r; lia. }
      set (H := 2 ^ (h - 1 - e')) in *. nia. }
    destruct q as [|q|q]; [exfalso; assert (0 < 2 ^ (h - 1 - e')) by (apply Z.pow_pos_nonneg; lia); lia| |lia].
    cbn [Zdigits2]. apply digits_ge in Y; lia.
  - assert (U : 0 < 2 ^ (e' + 1074)) by (apply Z.pow_pos_nonneg; lia).
    assert (F : Zpos a * 2 ^ (e + 2150) = N * 4 * (2 ^ (e' + 1074) * 2 ^ (e' + 1074))).
    { unfold N. change 4 with (2 ^ 2). rewrite <- !Z.mul_assoc, <- !Z.pow_add_r by lia. f_equal. f_equal. lia. }
    assert (G : forall z, hs z e' = z * 2 * 2 ^ (e' + 1074)) by (intro; rewrite hs_half by lia; unfold half; ring).
    set (u := 2 ^ (e' + 1074)) in *.
    assert (CMP : forall z c, (z * z ?= 4 * q * q + 4 * r) = c -> (z * u * (z * u) ?= Zpos a * 2 ^ (e + 2150)) = c).
    { intros z c <-. rewrite F, DM. replace (z * u * (z * u)) with (z * z * (u * u)) by ring. replace ((q * q + r) * 4 * (u * u)) with ((4 * q * q + 4 * r) * (u * u)) by ring.
      assert (0 < u * u) by nia. symmetry. apply Zmult_compare_compat_r. lia. }
    assert (ZB : Zeq_bool r 0 = (r =? 0)) by (destruct (Z.eqb_spec r 0) as [->|X]; [reflexivity|destruct (Zeq_bool r 0) eqn:Y; [apply Zeq_bool_eq in Y; lia|reflexivity]]).
    rewrite ZB. destruct (Z.eqb_spec r 0) as [Z0|Z0]; cbn [inb]; unfold root_cut; rewrite ?G; unfold half; fold u.
    + apply CMP. apply Z.compare_eq_iff. lia.
    + split; [|split].
      * apply CMP. apply Z.compare_lt_iff. lia.
      * apply CMP. apply Z.compare_gt_iff. nia.
      * replace (q * 2 * u + u) with ((q * 2 + 1) * u) by ring. apply CMP. destruct (Z.leb_spec r q); [apply Z.compare_gt_iff|apply Z.compare_lt_iff]; nia.
Qed.

(** ** Monotonicity *)
Lemma dofQc_pos q : (0 <= q)%Qc -> q = Q2Qc 0 /\ dofQc q = S754_zero false \/
  exists a b, this q = Qmake (Zpos a) b /\ dofQc q = SFdiv dprec demax (S754_finite false a 0) (S754_finite false b 0).
Proof.
  intro H. destruct q as [[n d] C]. unfold dofQc. cbn [this Qnum Qden] in *. destruct n as [|a|a].
  - left. split; [|reflexivity]. apply Qc_is_canon. cbn. reflexivity.
  - right. exists a, d. split; reflexivity.
  - exfalso. unfold Qcle, Qle in H. cbn in H. lia.
Qed.

Lemma quotient_le a b a' b' : Zpos a * Zpos b' <= Zpos a' * Zpos b -> cut_le (quotient_cut a b) (quotient_cut a' b').
Proof.
  intros H k Hk. unfold quotient_cut. assert (U : 0 < 2 ^ 1075) by (apply Z.pow_pos_nonneg; lia). set (u := 2 ^ 1075) in *. clearbody u.
  assert (H' : Zpos a * u * Zpos b' <= Zpos a' * u * Zpos b) by nia. 
  split; [rewrite !Z.compare_gt_iff|rewrite !Z.compare_ge_iff]; intro X.
  - assert (Zpos a * u * Zpos b' < k * Zpos b * Zpos b') by nia. nia.
  - assert (Zpos a * u * Zpos b' <= k * Zpos b * Zpos b') by nia. nia.
Qed.

Lemma packed_zero_le M e : 0 <= M <= 2 ^ 53 -> SFleb (S754_zero false) (packed M e) = true.
Proof.
  intro H. unfold packed. destruct (M =? 0); [reflexivity|]. destruct (M =? 2 ^ 53); [destruct (e + 1 <=? 971)|destruct (e <=? 971)]; reflexivity.
Qed.

Lemma rounds_range R M e m : rounds_to R M e m -> 0 <= M <= 2 ^ 53.
Proof. intros (A1 & A2 & A3 & A4 & _). lia. Qed.

Lemma dofQc_le q q' : (0 <= q)%Qc -> (q <= q')%Qc -> SFleb (dofQc q) (dofQc q') = true.
Proof.
  intros H0 H. assert (H0' : (0 <= q')%Qc) by (eapply Qcle_trans; eauto).
  destruct (dofQc_pos H0') as [[E' X']|(a' & b' & E' & X')].
  - assert (E : q = Q2Qc 0) by (apply Qcle_antisym; [subst q'; exact H|exact H0]). subst q q'. reflexivity.
  - destruct (div_rounds a' b') as (M' & e' & m' & D' & R'). rewrite X', D'.
    destruct (dofQc_pos H0) as [[E X]|(a & b & E & X)]; rewrite X; [apply packed_zero_le; eapply rounds_range; eauto|].
    destruct (div_rounds a b) as (M & e & m & D & R). rewrite D. eapply rounds_le; eauto; try apply quotient_increasing.
    apply quotient_le. unfold Qcle, Qle in H. rewrite E, E' in H. exact H.
Qed.

(** The result of a rounding, or zero or infinity. *)
Definition sound_double (d : double) : Prop :=
  match d with
  | S754_zero false | S754_infinity false => True
  | S754_finite false m e => -1074 <= e /\ Zpos m < 2 ^ 53 /\ (2 ^ 52 <= Zpos m \/ e = -1074)
  | _ => False
  end.

Lemma packed_sound R M e m : rounds_to R M e m -> sound_double (packed M e).
Proof.
  intros (A1 & A2 & A3 & A4 & _). unfold packed. destruct (Z.eqb_spec M 0) as [|N0]; [exact I|]. destruct (Z.eqb_spec M (2 ^ 53)) as [|N].
  - destruct (e + 1 <=? 971); [|exact I]. cbn [sound_double]. change (Zpos (2 ^ 52)) with (2 ^ 52). lia.
  - destruct (e <=? 971); [|exact I]. cbn [sound_double]. rewrite Z2Pos.id; lia.
Qed.

Lemma dofQc_sound q : (0 <= q)%Qc -> sound_double (dofQc q).
Proof.
  intro H. destruct (dofQc_pos H) as [[_ ->]|(a & b & _ & ->)]; [exact I|].
  destruct (div_rounds a b) as (M & e & m & -> & R). eapply packed_sound; eauto.
Qed.

Lemma root_le m e m' e' : -1074 <= e -> -1074 <= e' -> Zpos m * 2 ^ (e + 2150) <= Zpos m' * 2 ^ (e' + 2150) -> cut_le (root_cut m e) (root_cut m' e').
Proof. intros He He' H k Hk. unfold root_cut. split; [rewrite !Z.compare_gt_iff|rewrite !Z.compare_ge_iff]; lia. Qed.

Lemma finite_le m e m' e' : sound_double (S754_finite false m e) -> sound_double (S754_finite false m' e') ->
  SFleb (S754_finite false m e) (S754_finite false m' e') = true -> Zpos m * 2 ^ (e + 2150) <= Zpos m' * 2 ^ (e' + 2150).
Proof.
  intros (A & B & C) (A' & B' & C'). unfold SFleb, SFcompare. destruct (Z.compare_spec e e') as [E|E|E]; [| |discriminate].
  - subst e'. intro H. assert (Zpos m <= Zpos m'). 
    { change (Pos.compare_cont Eq m m') with (m ?= m')%positive in H. destruct (Pos.compare_spec m m') as [X|X|X]; [subst; lia|apply Z.lt_le_incl; exact X|discriminate]. }
    apply Z.mul_le_mono_nonneg_r; [apply Z.pow_nonneg; lia|auto].
  - intros _. assert (W : 2 ^ (e + 2150) * 2 <= 2 ^ (e' + 2150)).
    { replace (2 ^ (e + 2150) * 2) with (2 ^ (e + 2150 + 1)) by (rewrite Z.pow_add_r by lia; reflexivity). apply Z.pow_le_mono_r; lia. }
    assert (0 <= 2 ^ (e + 2150)) by (apply Z.pow_nonneg; lia). 
    apply Z.le_trans with (2 ^ 53 * 2 ^ (e + 2150)); [apply Z.mul_le_mono_nonneg_r; lia|].
    apply Z.le_trans with (2 ^ 52 * 2 ^ (e' + 2150)); [|apply Z.mul_le_mono_nonneg_r; lia].
    change (2 ^ 53) with (2 ^ 52 * 2). lia.
Qed.

Lemma dsqrt_le d d' : sound_double d -> sound_double d' -> SFleb d d' = true -> SFleb (dsqrt d) (dsqrt d') = true.
Proof.
  intros S S' H.
  destruct d as [[]|[]| |[] m e]; try (destruct S; fail); destruct d' as [[]|[]| |[] m' e']; try (destruct S'; fail); try discriminate H; try reflexivity.
  - destruct (@sqrt_rounds m' e') as (M & e1 & k & E & R); [apply S'|]. unfold dsqrt. rewrite E. apply packed_zero_le. eapply rounds_range; eauto.
  - destruct (@sqrt_rounds m e) as (M & e1 & k & E & R); [apply S|]. unfold dsqrt. rewrite E. pose proof (packed_sound R) as P.
    cbn [SFsqrt]. destruct (packed M e1) as [[]|[]| |[] x y]; try destruct P; reflexivity.
  - destruct (@sqrt_rounds m e) as (M & e1 & k & E & R); [apply S|]. destruct (@sqrt_rounds m' e') as (M' & e1' & k' & E' & R'); [apply S'|].
    unfold dsqrt. rewrite E, E'. eapply rounds_le; eauto; try apply root_increasing. apply root_le; [apply S|apply S'|]. apply finite_le; auto.
Qed.

Lemma dsqrt_sound d : sound_double d -> sound_double (dsqrt d).
Proof.
  intro S. destruct d as [[]|[]| |[] m e]; try (destruct S; fail); try exact I.
  destruct (@sqrt_rounds m e) as (M & e1 & k & E & R); [apply S|]. unfold dsqrt. rewrite E. eapply packed_sound; eauto.
Qed.

Lemma le_lt_trans x y t : SFleb x y = true -> SFltb y t = true -> SFltb x t = true.
Proof.
  unfold SFleb, SFltb, SFcompare.
  destruct x as [[]|[]| |[] mx ex], y as [[]|[]| |[] my ey], t as [[]|[]| |[] mt et]; try discriminate; try reflexivity; try (intros; assumption).
  all: change (Pos.compare_cont Eq) with Pos.compare.
  all: destruct (Z.compare_spec ex ey) as [E1|E1|E1]; destruct (Z.compare_spec ey et) as [E2|E2|E2]; destruct (Z.compare_spec ex et) as [E3|E3|E3]; try discriminate; try reflexivity; try (exfalso; lia).
  all: destruct (Pos.compare_spec mx my) as [F1|F1|F1]; destruct (Pos.compare_spec my mt) as [F2|F2|F2]; destruct (Pos.compare_spec mx mt) as [F3|F3|F3]; cbn; try discriminate; try reflexivity; intros; exfalso; lia.
Qed.

Lemma lt_le_trans x y t : SFltb x y = true -> SFleb y t = true -> SFltb x t = true.
Proof.
  unfold SFleb, SFltb, SFcompare.
  destruct x as [[]|[]| |[] mx ex], y as [[]|[]| |[] my ey], t as [[]|[]| |[] mt et]; try discriminate; try reflexivity; try (intros; assumption).
  all: change (Pos.compare_cont Eq) with Pos.compare.
  all: destruct (Z.compare_spec ex ey) as [E1|E1|E1]; destruct (Z.compare_spec ey et) as [E2|E2|E2]; destruct (Z.compare_spec ex et) as [E3|E3|E3]; try discriminate; try reflexivity; try (exfalso; lia).
  all: destruct (Pos.compare_spec mx my) as [F1|F1|F1]; destruct (Pos.compare_spec my mt) as [F2|F2|F2]; destruct (Pos.compare_spec mx mt) as [F3|F3|F3]; cbn; try discriminate; try reflexivity; intros; exfalso; lia.
Qed.

(** A smaller squared distance passes every test that a larger one passes. *)
Lemma distance_test q q' t : (0 <= q')%Qc -> (q' <= q)%Qc -> dlt (dsqrt (dofQc q)) t = true -> dlt (dsqrt (dofQc q')) t = true.
Proof.
  intros H0 H L. assert (H1 : (0 <= q)%Qc) by (eapply Qcle_trans; eauto).
  eapply le_lt_trans; [|exact L]. apply dsqrt_le; [apply dofQc_sound; auto..|]. apply dofQc_le; auto.
Qed.
