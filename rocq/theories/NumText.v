(** * Decimal text of numbers

    What [std::ostream::operator<<] writes for [uint64_t] and (with the default precision 6 and no
    format flags, C++17 [facet.num.put.virtuals]: conversion "%g") for [double].  The exact binary
    value is rounded to six significant decimal digits, ties to even, as glibc does. *)
From Coq Require Import ZArith NArith List Bool Lia String Ascii.
From Verif Require Import Num.
Import ListNotations.
Local Open Scope Z_scope.

(** One decimal digit. *)
Definition digit (d : Z) : ascii := ascii_of_nat (Z.to_nat (48 + d)).

(** [n] in decimal, [k] digits, most significant first. *)
Fixpoint digits (k : nat) (n : Z) : list Z :=
  match k with
  | O => []
  | S k' => digits k' (n / 10) ++ [n mod 10]
  end.

(** Number of decimal digits of [n > 0]. *)
Fixpoint ndig (fuel : nat) (n : Z) : Z :=
  match fuel with
  | O => 1
  | S f => if n <? 10 then 1 else 1 + ndig f (n / 10)
  end.
Definition ndigits (n : Z) : Z := ndig (Z.to_nat (Z.log2 n)) n.

(** Division rounding to nearest, ties to even. *)
Definition div_even (a b : Z) : Z :=
  let q := a / b in
  let r := a mod b in
  if 2 * r <? b then q else if b <? 2 * r then q + 1 else if Z.even q then q else q + 1.

(** The positive number [num / den] compared with [10 ^ x]. *)
Definition ge_pow10 (num den x : Z) : bool :=
  if 0 <=? x then den * 10 ^ x <=? num else den <=? num * 10 ^ (- x).

(** Its decimal exponent: [10 ^ x <= num / den < 10 ^ (x + 1)]. *)
Definition dec_exp (num den : Z) : Z :=
  let x := ndigits num - ndigits den in
  if ge_pow10 num den x then x else x - 1.

(** Six significant digits [d] and the exponent [x] of the first: the number is shown as
    [d * 10 ^ (x - 5)]. *)
Definition six (num den : Z) : Z * Z :=
  let x := dec_exp num den in
  let d := if 5 <=? x then div_even num (den * 10 ^ (x - 5)) else div_even (num * 10 ^ (5 - x)) den in
  if d =? 10 ^ 6 then (10 ^ 5, x + 1) else (d, x).

(** Trailing zeros are not written. *)
Fixpoint strip (l : list Z) : list Z :=
  match l with
  | [] => []
  | d :: l' => match strip l' with
               | [] => if d =? 0 then [] else [d]
               | l'' => d :: l''
               end
  end.

Definition text_of (l : list Z) : string := string_of_list_ascii (map digit l).

(** [operator<<(uint64_t)]: keys and sizes. *)
Definition nat_text (n : N) : string := text_of (digits (Z.to_nat (ndigits (Z.of_N n))) (Z.of_N n)).

(** The fraction with its point, nothing if there is none. *)
Definition frac_text (l : list Z) : string :=
  match l with [] => EmptyString | _ => String "."%char (text_of l) end.

(** Exponent: sign and at least two digits. *)
Definition exp_text (x : Z) : string :=
  let a := Z.abs x in
  String "e"%char (String (if x <? 0 then "-"%char else "+"%char) (text_of (digits (Nat.max 2 (Z.to_nat (ndigits a))) a))).

Definition body (num den : Z) : string :=
  let '(d, x) := six num den in
  let ds := digits 6 d in
  if (-4 <=? x) && (x <? 6) then
    if 0 <=? x then
      append (text_of (firstn (Z.to_nat (x + 1)) ds)) (frac_text (strip (skipn (Z.to_nat (x + 1)) ds)))
    else append (text_of [0]) (frac_text (repeat 0 (Z.to_nat (- x - 1)) ++ strip ds))
  else append (append (text_of (firstn 1 ds)) (frac_text (strip (skipn 1 ds)))) (exp_text x).

Definition sign_text (s : bool) : string := if s then "-"%string else EmptyString.

(** [operator<<(double)].  The sign of a not-a-number is not represented. *)
Definition num_text (x : double) : string :=
  match x with
  | S754_zero s => append (sign_text s) "0"
  | S754_infinity s => append (sign_text s) "inf"
  | S754_nan => "nan"
  | S754_finite s m e =>
      append (sign_text s) (if 0 <=? e then body (Zpos m * 2 ^ e) 1 else body (Zpos m) (2 ^ (- e)))
  end.
