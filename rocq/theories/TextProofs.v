(** * What is written can be read: proofs *)
From Coq Require Import ZArith NArith QArith Qabs Qpower List Bool String Ascii Lia Lqa.
From Verif Require Import Num NumText TextSpec.
Import ListNotations.
Local Open Scope Z_scope.

(** ** Digits *)

Definition is_digit (d : Z) : Prop := 0 <= d <= 9.

Lemma digit_of_digit d : is_digit d -> digit_of (digit d) = Some d.
Proof.
  unfold is_digit. intro H. unfold digit_of, digit. rewrite nat_ascii_embedding by lia. rewrite Z2Nat.id by lia.
  replace (48 <=? 48 + d) with true by (symmetry; apply Z.leb_le; lia).
  replace (48 + d <=? 57) with true by (symmetry; apply Z.leb_le; lia). cbn [andb]. f_equal. lia.
Qed.

Definition value_from (acc : Z) (l : list Z) : Z := fold_left (fun a d => 10 * a + d) l acc.

Lemma value_from_app acc l1 l2 : value_from acc (l1 ++ l2) = value_from (value_from acc l1) l2.
Proof. apply fold_left_app. Qed.

Lemma value_from_acc l : forall acc, value_from acc l = acc * 10 ^ Z.of_nat (List.length l) + value_from 0 l.
Proof.
  induction l as [|d l IH]; intro acc; [cbn; lia|].
  change (value_from acc (d :: l)) with (value_from (10 * acc + d) l).
  change (value_from 0 (d :: l)) with (value_from (10 * 0 + d) l).
  rewrite IH, (IH (10 * 0 + d)). cbn [List.length]. rewrite Nat2Z.inj_succ, Z.pow_succ_r by lia. ring.
Qed.

Definition no_digit_head (s : string) : Prop :=
  match s with EmptyString => True | String c _ => digit_of c = None end.

Lemma rd_digits_text l : Forall is_digit l -> forall acc n rest, no_digit_head rest ->
  rd_digits (append (text_of l) rest) acc n = (value_from acc l, n + Z.of_nat (List.length l), rest).
Proof.
  induction 1 as [|d l Hd _ IH]; intros acc n rest Hr.
  - cbn. destruct rest as [|c rest]; cbn; [f_equal; f_equal; lia|].
    cbn in Hr. rewrite Hr. f_equal. f_equal. lia.
  - unfold text_of. cbn [map string_of_list_ascii append rd_digits]. rewrite digit_of_digit by auto.
    change (string_of_list_ascii (map digit l)) with (text_of l). rewrite IH by auto. cbn [value_from fold_left List.length].
    f_equal. f_equal. lia.
Qed.

Lemma digits_length k : forall n, List.length (digits k n) = k.
Proof. induction k; intro n; cbn; auto. rewrite app_length, IHk. cbn. lia. Qed.

Lemma digits_digit k : forall n, Forall is_digit (digits k n).
Proof.
  induction k; intro n; cbn; auto. apply Forall_app. split; auto. constructor; auto.
  unfold is_digit. pose proof (Z.mod_pos_bound n 10). lia.
Qed.

Lemma digits_value k : forall n, value_from 0 (digits k n) = n mod 10 ^ Z.of_nat k.
Proof.
  induction k; intro n; [cbn; rewrite Z.mod_1_r; auto|].
  cbn [digits]. rewrite value_from_app, IHk. cbn [value_from fold_left].
  rewrite Nat2Z.inj_succ, Z.pow_succ_r by lia.
  rewrite Z.rem_mul_r by lia. lia.
Qed.

Lemma strip_spec l : exists k, l = strip l ++ repeat 0 k.
Proof.
  induction l as [|d l [k IH]]; [exists 0%nat; auto|]. cbn [strip]. destruct (strip l) as [|a l'] eqn:E.
  - destruct (Z.eqb_spec d 0) as [e|_]; [rewrite e; exists (S k); rewrite IH; auto|exists k; rewrite IH at 1; auto].
  - exists k. rewrite IH at 1. auto.
Qed.

Lemma value_zeros k acc : value_from acc (repeat 0 k) = acc * 10 ^ Z.of_nat k.
Proof.
  rewrite value_from_acc, repeat_length. replace (value_from 0 (repeat 0 k)) with 0; [lia|].
  induction k; cbn; auto.
Qed.

Lemma strip_digit l : Forall is_digit l -> Forall is_digit (strip l).
Proof.
  intro H. destruct (strip_spec l) as [k E]. rewrite E in H. apply Forall_app in H. apply H.
Qed.

(** ** Powers of ten *)

Definition p10 (z : Z) : Q := ((10 # 1) ^ z)%Q.

Lemma p10_pos z : (0 < p10 z)%Q.
Proof. apply Qpower_0_lt. reflexivity. Qed.

Lemma p10_plus a b : (p10 (a + b) == p10 a * p10 b)%Q.
Proof. apply Qpower_plus. discriminate. Qed.

Lemma p10_Z z : 0 <= z -> (p10 z == inject_Z (10 ^ z))%Q.
Proof. intro H. unfold p10. change (10 # 1)%Q with (inject_Z 10). rewrite Zpower_Qpower by lia. reflexivity. Qed.

Lemma p10_opp z : (p10 z * p10 (- z) == 1)%Q.
Proof. rewrite <- p10_plus. rewrite Z.add_opp_diag_r. reflexivity. Qed.

Lemma ndig_spec fuel : forall n, 0 < n < 2 * 2 ^ Z.of_nat fuel -> 1 <= ndig fuel n /\ 10 ^ (ndig fuel n - 1) <= n < 10 ^ ndig fuel n.
Proof.
  induction fuel as [|f IH]; intros n Hn.
  - cbn in *. lia.
  - cbn [ndig]. destruct (Z.ltb_spec n 10); [cbn; lia|].
    rewrite Nat2Z.inj_succ, Z.pow_succ_r in Hn by lia.
    destruct (IH (n / 10)) as (A & B & D).
    { split; [apply Z.div_str_pos; lia|]. apply Z.div_lt_upper_bound; lia. }
    split; [lia|]. replace (1 + ndig f (n / 10) - 1) with (Z.succ (ndig f (n / 10) - 1)) by lia.
    replace (1 + ndig f (n / 10)) with (Z.succ (ndig f (n / 10))) by lia.
    rewrite !Z.pow_succ_r by lia. pose proof (Z.div_mod n 10 ltac:(lia)). pose proof (Z.mod_pos_bound n 10). lia.
Qed.

Lemma ndigits_spec n : 0 < n -> 1 <= ndigits n /\ 10 ^ (ndigits n - 1) <= n < 10 ^ ndigits n.
Proof.
  intro H. apply ndig_spec. pose proof (Z.log2_spec n H) as L. pose proof (Z.log2_nonneg n).
  rewrite Z2Nat.id by lia. rewrite Z.pow_succ_r in L by lia. lia.
Qed.

(** ** Reading a written numeral *)

Lemma no_digit_frac l rest : no_digit_head rest -> no_digit_head (append (frac_text l) rest).
Proof. destruct l; cbn; auto. Qed.

Lemma rd_frac_text l acc rest : Forall is_digit l -> no_digit_head rest ->
  (match rest with String "." _ => False | _ => True end) ->
  rd_frac (append (frac_text l) rest) acc = (value_from acc l, Z.of_nat (List.length l), rest).
Proof.
  intros Hl Hr Hd. destruct l as [|d l].
  - cbn [frac_text append]. unfold rd_frac. cbn [value_from fold_left List.length]. destruct rest as [|[[] [] [] [] [] [] [] []] rest]; try reflexivity.
    destruct Hd.
  - unfold frac_text. cbn [append rd_frac]. rewrite rd_digits_text by auto. f_equal.
Qed.

Lemma rd_exp_text x : rd_exp (exp_text x) = Some x.
Proof.
  unfold exp_text. set (k := Nat.max 2 (Z.to_nat (ndigits (Z.abs x)))).
  assert (Hk : Z.abs x < 10 ^ Z.of_nat k).
  { unfold k. destruct (Z.eq_dec x 0) as [->|Hn]; [reflexivity|].
    destruct (ndigits_spec (Z.abs x)) as (A & B); [lia|]. apply Z.lt_le_trans with (1 := proj2 B). apply Z.pow_le_mono_r; lia. }
  pose proof (rd_digits_text (digits k (Z.abs x)) (digits_digit _ _) 0 0 "" I) as H.
  rewrite digits_value, Z.mod_small in H by lia.
  assert (A : forall s, append s "" = s) by (induction s; cbn; congruence). rewrite A in H.
  destruct (Z.ltb_spec x 0); cbn [rd_exp]; rewrite H; f_equal; lia.
Qed.

Lemma rd_sign_text s b : (match b with String "-" _ => False | _ => True end) -> rd_sign (append (sign_text s) b) = (s, b).
Proof.
  intro H. destruct s; cbn; auto. destruct b as [|[[] [] [] [] [] [] [] []] b]; try reflexivity. destruct H.
Qed.

Lemma text_no_sign l rest : Forall is_digit l -> l <> [] ->
  match append (text_of l) rest with String "-" _ => False | _ => True end.
Proof.
  intros H Hn. destruct l as [|d l]; [congruence|]. inversion H as [|? ? Hd _]; subst. unfold text_of. cbn [map string_of_list_ascii append].
  pose proof (digit_of_digit _ Hd) as X. destruct (digit d) as [[] [] [] [] [] [] [] []]; try exact I. discriminate X.
Qed.

(** A numeral made of digits, fraction and exponent. *)
Lemma read_parts s l1 l2 rest x : Forall is_digit l1 -> l1 <> [] -> Forall is_digit l2 -> no_digit_head rest ->
  (match rest with String "." _ => False | _ => True end) -> rd_exp rest = Some x ->
  read_num (append (sign_text s) (append (text_of l1) (append (frac_text l2) rest))) =
  Some (inject_Z (if s then - value_from 0 (l1 ++ l2) else value_from 0 (l1 ++ l2)) * p10 (x - Z.of_nat (List.length l2)))%Q.
Proof.
  intros H1 Hn H2 H3 H4 H5. unfold read_num. rewrite rd_sign_text by (apply text_no_sign; auto).
  rewrite rd_digits_text by (auto; apply no_digit_frac; auto). rewrite rd_frac_text by auto. rewrite H5.
  rewrite value_from_app.
  replace (0 + Z.of_nat (List.length l1) + Z.of_nat (List.length l2) =? 0) with false; [reflexivity|].
  symmetry. apply Z.eqb_neq. destruct l1; [congruence|cbn [List.length]; lia].
Qed.

Lemma append_assoc a b c : append (append a b) c = append a (append b c).
Proof. induction a; cbn; congruence. Qed.
Lemma append_nil a : append a "" = a.
Proof. induction a; cbn; congruence. Qed.

Lemma strip_value acc l : exists k, value_from acc l = value_from acc (strip l) * 10 ^ Z.of_nat k /\
  List.length l = (List.length (strip l) + k)%nat.
Proof.
  destruct (strip_spec l) as [k E]. exists k. split.
  - rewrite E at 1. rewrite value_from_app, value_zeros. auto.
  - rewrite E at 1. rewrite app_length, repeat_length. auto.
Qed.

(** [a * 10 ^ k] units of [10 ^ x] are [a] units of [10 ^ (x + k)]. *)
Lemma shift_units a k x : (inject_Z (a * 10 ^ Z.of_nat k) * p10 x == inject_Z a * p10 (x + Z.of_nat k))%Q.
Proof. rewrite p10_plus, (p10_Z (Z.of_nat k)) by lia. rewrite inject_Z_mult. ring. Qed.

Definition signed (s : bool) (z : Z) : Z := if s then - z else z.

Lemma signed_mult s a b : signed s (a * b) = signed s a * b.
Proof. unfold signed. destruct s; lia. Qed.

(** The text of [six] digits with exponent denotes them. *)
Lemma body_read s num den d x : six num den = (d, x) -> 10 ^ 5 <= d < 10 ^ 6 ->
  exists q, read_num (append (sign_text s) (body num den)) = Some q /\ (q == inject_Z (signed s d) * p10 (x - 5))%Q.
Proof.
  intros E Hd. unfold body. rewrite E.
  assert (HV : value_from 0 (digits 6 d) = d) by (rewrite digits_value; apply Z.mod_small; change (10 ^ Z.of_nat 6) with (10 ^ 6); lia).
  pose proof (digits_digit 6 d) as HD. pose proof (digits_length 6 d) as HL.
  set (ds := digits 6 d) in *. clearbody ds.
  assert (Gen : forall n rest x', (n <= 6)%nat -> (0 < n)%nat -> no_digit_head rest ->
     (match rest with String "." _ => False | _ => True end) -> rd_exp rest = Some x' ->
     exists q, read_num (append (sign_text s) (append (text_of (firstn n ds)) (append (frac_text (strip (skipn n ds))) rest))) = Some q /\
       (q == inject_Z (signed s d) * p10 (x' - (6 - Z.of_nat n)))%Q).
  { intros n rest x' Hn1 Hn2 Hr Hr' He.
    assert (HF : Forall is_digit (firstn n ds) /\ Forall is_digit (skipn n ds)).
    { rewrite <- (firstn_skipn n ds) in HD. apply Forall_app in HD. auto. }
    assert (Hne : firstn n ds <> []).
    { intro X. apply (f_equal (@List.length Z)) in X. rewrite firstn_length_le in X by lia. cbn in X. lia. }
    eexists. split; [apply read_parts with (x := x'); auto; [apply HF|apply strip_digit, HF]|].
    destruct (strip_value (value_from 0 (firstn n ds)) (skipn n ds)) as (k & K1 & K2).
    rewrite skipn_length, HL in K2.
    assert (Ed : d = value_from 0 (firstn n ds ++ strip (skipn n ds)) * 10 ^ Z.of_nat k).
    { rewrite value_from_app, <- K1, <- value_from_app, firstn_skipn. auto. }
    rewrite Ed. change (if s then - ?a else ?a) with (signed s a). fold (signed s (value_from 0 (firstn n ds ++ strip (skipn n ds)))).
    rewrite signed_mult, shift_units.
    replace (x' - (6 - Z.of_nat n) + Z.of_nat k) with (x' - Z.of_nat (List.length (strip (skipn n ds)))) by lia. reflexivity. }
  destruct ((-4 <=? x) && (x <? 6)) eqn:R.
  - apply andb_true_iff in R. destruct R as [R1 R2]. apply Z.leb_le in R1. apply Z.ltb_lt in R2.
    destruct (Z.leb_spec 0 x) as [P|P].
    + destruct (Gen (Z.to_nat (x + 1)) ""%string 0) as (q & Q1 & Q2); try (cbn; auto; fail); try lia.
      rewrite append_nil in Q1. exists q. split; auto. rewrite Q2. rewrite Z2Nat.id by lia.
      replace (0 - (6 - (x + 1))) with (x - 5) by lia. reflexivity.
    + destruct (strip_value 0 ds) as (k & K1 & K2). rewrite HL in K2. rewrite HV in K1.
      assert (HZ : Forall is_digit (repeat 0 (Z.to_nat (- x - 1)) ++ strip ds)).
      { apply Forall_app. split; [|apply strip_digit; auto]. apply Forall_forall. intros y Hy. apply repeat_spec in Hy. subst. unfold is_digit. lia. }
      eexists. split.
      { rewrite <- (append_nil (frac_text _)). apply read_parts with (x := 0); cbn [rd_exp no_digit_head]; auto; [|discriminate].
        constructor; auto. unfold is_digit. lia. }
      assert (EV : value_from 0 ([0] ++ repeat 0 (Z.to_nat (- x - 1)) ++ strip ds) = value_from 0 (strip ds)).
      { rewrite !value_from_app. change (value_from 0 [0]) with 0. rewrite value_zeros, Z.mul_0_l. auto. }
      rewrite EV. fold (signed s (value_from 0 (strip ds))). rewrite K1, signed_mult, shift_units.
      rewrite app_length, repeat_length.
      replace (0 - Z.of_nat (Z.to_nat (- x - 1) + List.length (strip ds))) with (x - 5 + Z.of_nat k) by lia. reflexivity.
  - rewrite append_assoc. destruct (Gen 1%nat (exp_text x) x) as (q & Q1 & Q2); try lia; try exact I.
    + reflexivity.
    + apply rd_exp_text.
    + exists q. split; [exact Q1|]. rewrite Q2. replace (x - (6 - Z.of_nat 1)) with (x - 5) by lia. reflexivity.
Qed.

(** ** Rounding *)

Lemma div_even_near a b : 0 < b -> 2 * Z.abs (a - div_even a b * b) <= b.
Proof.
  intro Hb. unfold div_even. pose proof (Z.div_mod a b ltac:(lia)) as H1. pose proof (Z.mod_pos_bound a b Hb) as H2.
  set (q := a / b) in *. set (r := a mod b) in *. clearbody q r.
  assert (Hr : a - q * b = r) by lia. assert (Hr' : a - (q + 1) * b = r - b) by lia.
  destruct (Z.ltb_spec (2 * r) b); [rewrite Hr; lia|]. destruct (Z.ltb_spec b (2 * r)); [rewrite Hr'; lia|].
  destruct (Z.even q); [rewrite Hr|rewrite Hr']; lia.
Qed.

Lemma div_even_exact a b : 0 < b -> div_even (a * b) b = a.
Proof.
  intro Hb. unfold div_even. rewrite Z.div_mul, Z.mod_mul by lia. replace (2 * 0 <? b) with true; auto.
  symmetry. apply Z.ltb_lt. lia.
Qed.

Lemma div_even_mono a b lo hi : 0 < b -> lo * b <= a <= hi * b -> lo <= div_even a b <= hi.
Proof.
  intros Hb H. pose proof (div_even_near a b Hb) as N. set (q := div_even a b) in *. clearbody q.
  split; apply Z.nlt_ge; intro X.
  - assert (q * b <= (lo - 1) * b) by (apply Z.mul_le_mono_nonneg_r; lia). lia.
  - assert ((hi + 1) * b <= q * b) by (apply Z.mul_le_mono_nonneg_r; lia). lia.
Qed.

Local Open Scope Q_scope.

Lemma ge_pow10_spec num den x : (0 < den)%Z -> ge_pow10 num den x = true <-> p10 x * inject_Z den <= inject_Z num.
Proof.
  intro Hd. unfold ge_pow10. destruct (Z.leb_spec 0 x).
  - rewrite Z.leb_le, Zle_Qle, inject_Z_mult, <- p10_Z by lia. rewrite Qmult_comm. reflexivity.
  - rewrite Z.leb_le, Zle_Qle, inject_Z_mult, <- p10_Z by lia.
    pose proof (p10_opp x) as P. pose proof (p10_pos x). pose proof (p10_pos (- x)). split; intro X.
    + setoid_replace (inject_Z num) with (p10 x * (inject_Z num * p10 (- x))) by (transitivity (inject_Z num * (p10 x * p10 (- x))); [rewrite P; ring|ring]).
      apply Qmult_le_l; auto.
    + setoid_replace (inject_Z den) with (p10 x * inject_Z den * p10 (- x)) by (transitivity (inject_Z den * (p10 x * p10 (- x))); [rewrite P; ring|ring]).
      apply Qmult_le_r; auto.
Qed.

Lemma dec_exp_spec num den : (0 < num)%Z -> (0 < den)%Z ->
  p10 (dec_exp num den) * inject_Z den <= inject_Z num /\ inject_Z num < p10 (dec_exp num den + 1) * inject_Z den.
Proof.
  intros Hn Hd. unfold dec_exp. destruct (ndigits_spec num Hn) as (A1 & A2 & A3). destruct (ndigits_spec den Hd) as (B1 & B2 & B3).
  set (a := ndigits num) in *. set (b := ndigits den) in *. clearbody a b.
  assert (A2' : p10 (a - 1) <= inject_Z num) by (rewrite p10_Z by lia; rewrite <- Zle_Qle; auto).
  assert (A3' : inject_Z num < p10 a) by (rewrite p10_Z by lia; rewrite <- Zlt_Qlt; auto).
  assert (B2' : p10 (b - 1) <= inject_Z den) by (rewrite p10_Z by lia; rewrite <- Zle_Qle; auto).
  assert (B3' : inject_Z den < p10 b) by (rewrite p10_Z by lia; rewrite <- Zlt_Qlt; auto).
  destruct (ge_pow10 num den (a - b)) eqn:G.
  - apply ge_pow10_spec in G; auto. split; auto.
    apply Qlt_le_trans with (p10 a); auto.
    setoid_replace (p10 a) with (p10 (a - b + 1) * p10 (b - 1)) by (rewrite <- p10_plus; replace (a - b + 1 + (b - 1))%Z with a by lia; reflexivity).
    apply Qmult_le_l; auto. apply p10_pos.
  - assert (G' : ~ p10 (a - b) * inject_Z den <= inject_Z num) by (rewrite <- ge_pow10_spec by auto; rewrite G; discriminate).
    apply Qnot_le_lt in G'. replace (a - b - 1 + 1)%Z with (a - b)%Z by lia. split; auto.
    apply Qle_trans with (p10 (a - 1)); auto.
    setoid_replace (p10 (a - 1)) with (p10 (a - b - 1) * p10 b) by (rewrite <- p10_plus; replace (a - b - 1 + b)%Z with (a - 1)%Z by lia; reflexivity).
    apply Qmult_le_l; [apply p10_pos|]. apply Qlt_le_weak. auto.
Qed.

(** [num / den] in units of [10 ^ y] rounds to [z]. *)
Definition scaled (num den y : Z) : Z * Z := if (0 <=? y)%Z then (num, den * 10 ^ y)%Z else (num * 10 ^ (- y), den)%Z.

Lemma scaled_spec num den y a b : (0 < den)%Z -> scaled num den y = (a, b) -> (0 < b)%Z /\
  inject_Z num * inject_Z b == inject_Z a * inject_Z den * p10 y.
Proof.
  unfold scaled. intros Hd E. destruct (Z.leb_spec 0 y); inversion E; subst.
  - split; [apply Z.mul_pos_pos; auto; apply Z.pow_pos_nonneg; lia|]. rewrite inject_Z_mult, <- p10_Z by lia. ring.
  - split; auto. rewrite inject_Z_mult, <- p10_Z by lia. pose proof (p10_opp y) as P.
    transitivity (inject_Z num * inject_Z b * (p10 y * p10 (- y))); [rewrite P; ring|ring].
Qed.

Lemma six_scaled num den : six num den =
  let x := dec_exp num den in
  let d := (let '(a, b) := scaled num den (x - 5) in div_even a b) in
  if (d =? 10 ^ 6)%Z then (10 ^ 5, x + 1)%Z else (d, x).
Proof.
  unfold six, scaled. cbv zeta. destruct (Z.leb_spec 5 (dec_exp num den)); destruct (Z.leb_spec 0 (dec_exp num den - 5)); try lia; auto.
  replace (- (dec_exp num den - 5))%Z with (5 - dec_exp num den)%Z by lia. auto.
Qed.

Lemma p10_mono a b : (a <= b)%Z -> p10 a <= p10 b.
Proof.
  intro H. replace b with (a + (b - a))%Z by lia. rewrite p10_plus, (p10_Z (b - a)) by lia.
  setoid_replace (p10 a) with (p10 a * 1) at 1 by ring. apply Qmult_le_l; [apply p10_pos|].
  change 1 with (inject_Z 1). rewrite <- Zle_Qle. pose proof (Z.pow_pos_nonneg 10 (b - a)). lia.
Qed.

Lemma p10_lt_inv a b : p10 a < p10 b -> (a < b)%Z.
Proof. intro H. apply Z.nle_gt. intro X. apply p10_mono in X. apply Qlt_not_le in H. auto. Qed.

Lemma Qcancel_r a b c : 0 < c -> a * c <= b * c -> a <= b.
Proof. intros H. apply Qmult_le_r; auto. Qed.

Lemma Zpos_inj z : (0 < z)%Z -> 0 < inject_Z z.
Proof. intro H. change 0 with (inject_Z 0). rewrite <- Zlt_Qlt. auto. Qed.

(** The rounded value [d * 10 ^ (x - 5)]. *)
Lemma six_spec num den d x : (0 < num)%Z -> (0 < den)%Z -> six num den = (d, x) ->
  (10 ^ 5 <= d < 10 ^ 6)%Z /\
  Qabs (inject_Z d * p10 (x - 5) * inject_Z den - inject_Z num) <= (5 # 1000000) * inject_Z num /\
  (dec_exp num den <= x <= dec_exp num den + 1)%Z /\
  (forall M E, (0 <= M < 10 ^ 6)%Z -> inject_Z num == inject_Z M * p10 E * inject_Z den ->
     inject_Z d * p10 (x - 5) * inject_Z den == inject_Z num).
Proof.
  intros Hn Hd E6. rewrite six_scaled in E6. cbv zeta in E6. destruct (dec_exp_spec num den Hn Hd) as [X1 X2].
  set (x0 := dec_exp num den) in *. clearbody x0.
  destruct (scaled num den (x0 - 5)) as [a b] eqn:ES. destruct (scaled_spec _ _ _ _ _ Hd ES) as [Hb HS].
  set (y := (x0 - 5)%Z) in *. set (d0 := div_even a b) in *.
  assert (P5 : p10 x0 == inject_Z (10 ^ 5) * p10 y) by (rewrite <- p10_Z by lia; rewrite <- p10_plus; unfold y; replace (5 + (x0 - 5))%Z with x0 by lia; reflexivity).
  assert (P6 : p10 (x0 + 1) == inject_Z (10 ^ 6) * p10 y) by (rewrite <- p10_Z by lia; rewrite <- p10_plus; unfold y; replace (6 + (x0 - 5))%Z with (x0 + 1)%Z by lia; reflexivity).
  pose proof (Zpos_inj _ Hb) as Hb'. pose proof (Zpos_inj _ Hd) as Hd'. pose proof (Zpos_inj _ Hn) as Hn'. pose proof (p10_pos y) as Hy.
  assert (Hdy : 0 < inject_Z den * p10 y) by (apply Qmult_lt_0_compat; auto).
  assert (A1 : (10 ^ 5 * b <= a)%Z).
  { rewrite Zle_Qle, inject_Z_mult. apply Qcancel_r with (inject_Z den * p10 y); auto.
    rewrite P5 in X1. apply Qmult_le_r with (z := inject_Z b) in X1; auto. rewrite HS in X1.
    setoid_replace (inject_Z (10 ^ 5) * inject_Z b * (inject_Z den * p10 y)) with (inject_Z (10 ^ 5) * p10 y * inject_Z den * inject_Z b) by ring.
    setoid_replace (inject_Z a * (inject_Z den * p10 y)) with (inject_Z a * inject_Z den * p10 y) by ring. exact X1. }
  assert (A2 : (a <= 10 ^ 6 * b)%Z).
  { rewrite Zle_Qle, inject_Z_mult. apply Qcancel_r with (inject_Z den * p10 y); auto.
    apply Qlt_le_weak in X2. rewrite P6 in X2. apply Qmult_le_r with (z := inject_Z b) in X2; auto. rewrite HS in X2.
    setoid_replace (inject_Z (10 ^ 6) * inject_Z b * (inject_Z den * p10 y)) with (inject_Z (10 ^ 6) * p10 y * inject_Z den * inject_Z b) by ring.
    setoid_replace (inject_Z a * (inject_Z den * p10 y)) with (inject_Z a * inject_Z den * p10 y) by ring. exact X2. }
  pose proof (div_even_mono a b (10 ^ 5) (10 ^ 6) Hb (conj A1 A2)) as HR. fold d0 in HR.
  pose proof (div_even_near a b Hb) as HN. fold d0 in HN.
  assert (HV : inject_Z d * p10 (x - 5) == inject_Z d0 * p10 y /\ (10 ^ 5 <= d < 10 ^ 6)%Z /\ (x0 <= x <= x0 + 1)%Z).
  { destruct (Z.eqb_spec d0 (10 ^ 6)) as [e|ne]; inversion E6; subst d x.
    - split; [|split; [|lia]]; [|split; [lia|reflexivity]]. rewrite e.
      replace (x0 + 1 - 5)%Z with (1 + y)%Z by (unfold y; lia). rewrite p10_plus. change (p10 1) with (10 # 1).
      setoid_replace (inject_Z (10 ^ 6)) with (inject_Z (10 ^ 5) * (10 # 1)) by reflexivity. change (Z.pow_pos 10 5) with (10 ^ 5)%Z. ring.
    - split; [reflexivity|]. split; lia. }
  destruct HV as (HV & HD & HX). split; [exact HD|]. split; [|split; [exact HX|]].
  - rewrite HV. apply Qcancel_r with (inject_Z b); auto.
    rewrite <- (Qabs_pos (inject_Z b)) at 1 by (apply Qlt_le_weak; auto). rewrite <- Qabs_Qmult.
    setoid_replace ((inject_Z d0 * p10 y * inject_Z den - inject_Z num) * inject_Z b)
      with (- inject_Z (a - d0 * b) * (inject_Z den * p10 y)).
    2:{ unfold Z.sub. rewrite inject_Z_plus, inject_Z_opp, inject_Z_mult.
        setoid_replace ((inject_Z d0 * p10 y * inject_Z den - inject_Z num) * inject_Z b) with (inject_Z d0 * p10 y * inject_Z den * inject_Z b - inject_Z num * inject_Z b) by ring.
        rewrite HS. ring. }
    rewrite Qabs_Qmult, Qabs_opp, (Qabs_pos (inject_Z den * p10 y)) by (apply Qlt_le_weak; auto).
    assert (N1 : 2 * Qabs (inject_Z (a - d0 * b)) <= inject_Z b).
    { change (Qabs (inject_Z (a - d0 * b))) with (inject_Z (Z.abs (a - d0 * b))). change 2 with (inject_Z 2). rewrite <- inject_Z_mult, <- Zle_Qle. exact HN. }
    assert (N2 : inject_Z (10 ^ 5) * p10 y * inject_Z den <= inject_Z num) by (rewrite <- P5; exact X1).
    set (u := Qabs (inject_Z (a - d0 * b))) in *.
    apply Qle_trans with ((1 # 2) * inject_Z b * (inject_Z den * p10 y)).
    { apply Qmult_le_compat_r; [|apply Qlt_le_weak; auto]. lra. }
    apply Qle_trans with ((5 # 1000000) * (inject_Z (10 ^ 5) * p10 y * inject_Z den) * inject_Z b).
    { apply Qle_lteq. right. setoid_replace (inject_Z (10 ^ 5)) with (100000 # 1) by reflexivity. ring. }
    apply Qmult_le_compat_r; [|apply Qlt_le_weak; auto]. apply Qmult_le_l; auto. reflexivity.
  - intros M E' HM HE. rewrite HV.
    assert (HE' : (y <= E')%Z).
    { apply Z.nlt_ge. intro X. apply Qle_not_lt in X1. apply X1. rewrite HE.
      apply Qmult_lt_compat_r; auto. apply Qlt_le_trans with (inject_Z (10 ^ 6) * p10 E').
      - apply Qmult_lt_compat_r; [apply p10_pos|]. rewrite <- Zlt_Qlt. lia.
      - rewrite <- p10_Z by lia. rewrite <- p10_plus. apply p10_mono. unfold y in X. lia. }
    assert (HA : a = (M * 10 ^ (E' - y) * b)%Z).
    { apply inject_Z_injective. rewrite !inject_Z_mult, <- p10_Z by lia.
      assert (HH : inject_Z a * (inject_Z den * p10 y) == inject_Z M * p10 (E' - y) * inject_Z b * (inject_Z den * p10 y)).
      { setoid_replace (inject_Z a * (inject_Z den * p10 y)) with (inject_Z num * inject_Z b) by (rewrite HS; ring). rewrite HE.
        setoid_replace (p10 E') with (p10 (E' - y) * p10 y) by (rewrite <- p10_plus; replace (E' - y + y)%Z with E' by lia; reflexivity). ring. }
      apply Qmult_inj_r in HH; auto. intro Z0. rewrite Z0 in Hdy. apply Qlt_irrefl in Hdy. auto. }
    assert (HD0 : d0 = (M * 10 ^ (E' - y))%Z) by (unfold d0; rewrite HA; apply div_even_exact; auto).
    rewrite HD0, HE, inject_Z_mult, <- p10_Z by lia.
    setoid_replace (p10 E') with (p10 (E' - y) * p10 y) by (rewrite <- p10_plus; replace (E' - y + y)%Z with E' by lia; reflexivity). ring.
Qed.

(** ** Natural numbers *)

Lemma read_nat_text n : read_nat (nat_text n) = Some n.
Proof.
  unfold read_nat, nat_text. set (z := Z.of_N n). assert (Hz : (0 <= z)%Z) by (unfold z; lia).
  set (k := Z.to_nat (ndigits z)).
  assert (HK : (0 < k)%nat /\ (z < 10 ^ Z.of_nat k)%Z).
  { unfold k. destruct (Z.eq_dec z 0) as [->|Hn]; [cbn; lia|]. destruct (ndigits_spec z) as (A & B); [lia|]. rewrite Z2Nat.id by lia. lia. }
  rewrite <- (append_nil (text_of _)), rd_digits_text; [|apply digits_digit|exact I].
  rewrite digits_length, digits_value, Z.mod_small by lia.
  replace (0 + Z.of_nat k =? 0)%Z with false by (symmetry; apply Z.eqb_neq; lia). f_equal. unfold z. apply N2Z.id.
Qed.

(** ** Doubles *)

Definition num_of (m : positive) (e : Z) : Z := if (0 <=? e)%Z then (Zpos m * 2 ^ e)%Z else Zpos m.
Definition den_of (e : Z) : Z := if (0 <=? e)%Z then 1%Z else (2 ^ (- e))%Z.

Lemma num_text_finite s m e : num_text (S754_finite s m e) = append (sign_text s) (body (num_of m e) (den_of e)).
Proof. unfold num_text, num_of, den_of. destruct (0 <=? e)%Z; auto. Qed.

Lemma fraction_value s m e : dval (S754_finite s m e) =
  Some (inject_Z (signed s (Zpos m)) * (2 # 1) ^ e) /\ (0 < num_of m e)%Z /\ (0 < den_of e)%Z /\
  inject_Z (Zpos m) * (2 # 1) ^ e * inject_Z (den_of e) == inject_Z (num_of m e).
Proof.
  split; [destruct s; reflexivity|]. unfold num_of, den_of. destruct (Z.leb_spec 0 e).
  - split; [apply Z.mul_pos_pos; [lia|apply Z.pow_pos_nonneg; lia]|]. split; [lia|].
    rewrite inject_Z_mult. change (2 # 1) with (inject_Z 2). rewrite Zpower_Qpower by lia. ring.
  - split; [lia|]. split; [apply Z.pow_pos_nonneg; lia|].
    rewrite Zpower_Qpower by lia. change (inject_Z 2) with (2 # 1).
    assert (P : (2 # 1) ^ e * (2 # 1) ^ (- e) == 1).
    { rewrite <- Qpower_plus by discriminate. rewrite Z.add_opp_diag_r. reflexivity. }
    rewrite <- Qmult_assoc, P. ring.
Qed.

Lemma signed_value s d : inject_Z (signed s d) == (if s then - (1) else 1) * inject_Z d.
Proof. destruct s; unfold signed; [rewrite inject_Z_opp|]; ring. Qed.

(** The written text denotes the number up to half a unit in the sixth significant digit. *)
Theorem text_close x v : dval x = Some v ->
  exists q, read_num (num_text x) = Some q /\ Qabs (q - v) <= (5 # 1000000) * Qabs v /\
    forall M E, (Z.abs M < 10 ^ 6)%Z -> v == inject_Z M * (10 # 1) ^ E -> q == v.
Proof.
  intros HV. destruct x as [s|s| |s m e]; try discriminate HV.
  - injection HV as <-. destruct s; (eexists; split; [reflexivity|split; [discriminate|reflexivity]]).
  - destruct (fraction_value s m e) as (F1 & N & D & F2).
    rewrite F1 in HV. injection HV as <-. rewrite num_text_finite.
    destruct (six (num_of m e) (den_of e)) as [d x] eqn:E6. destruct (six_spec _ _ _ _ N D E6) as (S1 & S2 & _ & S4).
    destruct (body_read s _ _ _ _ E6 S1) as (q & Q1 & Q2). exists q. split; [exact Q1|].
    set (num := num_of m e) in *. set (den := den_of e) in *. clearbody num den.
    set (w := inject_Z (Zpos m) * (2 # 1) ^ e) in *. set (u := inject_Z d * p10 (x - 5)) in *.
    pose proof (Zpos_inj _ D) as D'. pose proof (Zpos_inj _ N) as N'.
    assert (EQ : q == (if s then - (1) else 1) * u) by (rewrite Q2, signed_value; unfold u; ring).
    assert (EV : inject_Z (signed s (Zpos m)) * (2 # 1) ^ e == (if s then - (1) else 1) * w) by (rewrite signed_value; unfold w; ring).
    assert (AB : forall z, Qabs ((if s then - (1) else 1) * z) == Qabs z).
    { intro z. destruct s; [setoid_replace (- (1) * z) with (- z) by ring; apply Qabs_opp|]. setoid_replace (1 * z) with z by ring. reflexivity. }
    rewrite EV. rewrite EQ. clearbody w u. split.
    + setoid_replace ((if s then - (1) else 1) * u - (if s then - (1) else 1) * w) with ((if s then - (1) else 1) * (u - w)) by ring.
      rewrite !AB. apply Qcancel_r with (inject_Z den); auto.
      rewrite <- (Qabs_pos (inject_Z den)) by (apply Qlt_le_weak; auto).
      rewrite <- Qmult_assoc, <- !Qabs_Qmult.
      setoid_replace ((u - w) * inject_Z den) with (u * inject_Z den - w * inject_Z den) by ring. rewrite F2.
      rewrite (Qabs_pos (inject_Z num)) by (apply Qlt_le_weak; auto). exact S2.
    + intros M E HM HE. rewrite EV in HE. 
      assert (HW : w == inject_Z (Z.abs M) * p10 E).
      { assert (W0 : 0 < w). { apply Qmult_lt_r with (z := inject_Z den); auto. rewrite F2. ring_simplify. exact N'. }
        assert (A : Qabs w == Qabs (inject_Z M * p10 E)) by (unfold p10; rewrite <- HE, AB; reflexivity).
        rewrite Qabs_Qmult, (Qabs_pos w), (Qabs_pos (p10 E)) in A by (apply Qlt_le_weak; auto using p10_pos). exact A. }
      assert (HU : u * inject_Z den == w * inject_Z den).
      { rewrite F2. apply S4 with (Z.abs M) E; [lia|]. rewrite <- F2, HW. reflexivity. }
      apply Qmult_inj_r in HU; [rewrite EQ, ?EV, HU; reflexivity|]. intro Z0. rewrite Z0 in D'. apply Qlt_irrefl in D'. auto.
Qed.

(** Infinities and not-a-numbers have no reading. *)
Lemma text_none x : dval x = None -> read_num (num_text x) = None.
Proof. destruct x as [s|s| |s m e]; try discriminate; try reflexivity. destruct s; reflexivity. Qed.
