(** * Reading numbers back: the specification against which the written text is measured

    Independent of [NumText]: what a decimal numeral denotes. *)
From Coq Require Import ZArith NArith QArith Qabs List Bool String Ascii.
From Verif Require Import Num.
Import ListNotations.
Local Open Scope Z_scope.

Definition digit_of (c : ascii) : option Z :=
  let n := Z.of_nat (nat_of_ascii c) in if (48 <=? n) && (n <=? 57) then Some (n - 48) else None.

(** A maximal run of digits continuing the number [acc]: number, how many digits, what follows. *)
Fixpoint rd_digits (s : string) (acc n : Z) : Z * Z * string :=
  match s with
  | EmptyString => (acc, n, s)
  | String c s' => match digit_of c with Some d => rd_digits s' (10 * acc + d) (n + 1) | None => (acc, n, s) end
  end.

Definition rd_sign (s : string) : bool * string :=
  match s with
  | String "-" s' => (true, s')
  | _ => (false, s)
  end.

(** Optional fraction. *)
Definition rd_frac (s : string) (acc : Z) : Z * Z * string :=
  match s with String "." s' => rd_digits s' acc 0 | _ => (acc, 0, s) end.

(** Optional exponent, then the end. *)
Definition rd_exp (s : string) : option Z :=
  match s with
  | EmptyString => Some 0
  | String "e" (String "+" s') => match rd_digits s' 0 0 with (x, _, EmptyString) => Some x | _ => None end
  | String "e" (String "-" s') => match rd_digits s' 0 0 with (x, _, EmptyString) => Some (- x) | _ => None end
  | _ => None
  end.

(** The rational number a numeral denotes. *)
Definition read_num (s : string) : option Q :=
  let '(neg, s1) := rd_sign s in
  let '(v1, n1, s2) := rd_digits s1 0 0 in
  let '(v2, n2, s3) := rd_frac s2 v1 in
  match rd_exp s3 with
  | Some x => if n1 + n2 =? 0 then None else Some (inject_Z (if neg then - v2 else v2) * (10 # 1) ^ (x - n2))%Q
  | None => None
  end.

(** The rational number a finite double is. *)
Definition dval (x : double) : option Q :=
  match x with
  | S754_zero _ => Some 0%Q
  | S754_finite s m e => Some (inject_Z (if s then Zneg m else Zpos m) * (2 # 1) ^ e)%Q
  | _ => None
  end.

(** Natural numbers. *)
Definition read_nat (s : string) : option N :=
  match rd_digits s 0 0 with (v, n, EmptyString) => if n =? 0 then None else Some (Z.to_N v) | _ => None end.
