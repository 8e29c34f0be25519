(** * What [std::cout << x] writes for a float or double

    /repo/matrix/matrix_print.hpp:36-39 [print_num]: [std::cout << num << " "].
    With the default flags of the stream this is the conversion [%g] of printf
    with precision 6 (C++17 [facet.num.put.virtuals], C17 7.21.6.1): round to six
    significant decimal digits, drop trailing zeros, and use an exponent if it
    is less than -4 or at least 6.  A [float] is converted to [double] first,
    which changes no value.  The conversion rounds the exact binary value
    correctly, ties to even, as glibc does.

    Simplification: a NaN is written "nan", whatever its sign bit. *)

From Coq Require Import ZArith Lia String Ascii Bool.
From Coq Require Import Decimal DecimalString.
From Flocq Require Import Core.Zaux Core.Digits IEEE754.BinarySingleNaN.
Open Scope string_scope.
Open Scope Z_scope.

Definition ten : radix := Build_radix 10 eq_refl.

(** [num / den * 10^k] as a fraction *)
Definition scale10 (num den k : Z) : Z * Z := (num * 10 ^ Z.max k 0, den * 10 ^ Z.max (- k) 0).

(** the decimal exponent: [10^X <= num/den < 10^(X+1)] *)
Definition dec_exp (num den : Z) : Z :=
  let k := Zdigits ten num - Zdigits ten den in
  let '(a, b) := scale10 num den (- k) in
  if b <=? a then k else k - 1.

(** [a / b] rounded to an integer, ties to even *)
Definition half_even (a b : Z) : Z :=
  let q := a / b in
  match 2 * (a mod b) ?= b with
  | Lt => q
  | Gt => q + 1
  | Eq => if Z.even q then q else q + 1
  end.

(** six significant digits [n] and the exponent [X] of the first one, after
    rounding: the value is [n * 10^(X-5)] *)
Definition six (m : positive) (e : Z) : Z * Z :=
  let num := Z.pos m * 2 ^ Z.max e 0 in
  let den := 2 ^ Z.max (- e) 0 in
  let X := dec_exp num den in
  let '(a, b) := scale10 num den (5 - X) in
  let n := half_even a b in
  if n =? 10 ^ 6 then (10 ^ 5, X + 1) else (n, X).

(** decimal digits of a number, without leading zeros *)
Definition decimal (z : Z) : string := NilEmpty.string_of_int (Z.to_int z).

(** the last [k] decimal digits of a number *)
Fixpoint digits (k : nat) (n : Z) : string :=
  match k with
  | O => ""
  | S k => digits k (n / 10) ++ String (ascii_of_nat (48 + Z.to_nat (n mod 10))) ""
  end.

(** a fraction of [k] digits without its trailing zeros *)
Fixpoint strip (k : nat) (n : Z) : nat * Z :=
  match k with
  | O => (O, n)
  | S k' => if n mod 10 =? 0 then strip k' (n / 10) else (k, n)
  end.

Definition fraction (k : nat) (n : Z) : string :=
  let '(k, n) := strip k n in
  match k with O => "" | _ => "." ++ digits k n end.

(** [n * 10^-k] in positional notation *)
Definition positional (n : Z) (k : nat) : string :=
  decimal (n / 10 ^ Z.of_nat k) ++ fraction k (n mod 10 ^ Z.of_nat k).

(** the exponent: a sign and at least two digits *)
Definition exponent (X : Z) : string :=
  (if X <? 0 then "-" else "+") ++ (if Z.abs X <? 10 then "0" else "") ++ decimal (Z.abs X).

Definition show_six (n X : Z) : string :=
  if (-4 <=? X) && (X <? 6) then positional n (Z.to_nat (5 - X))
  else positional n 5 ++ "e" ++ exponent X.

Definition show_float {prec emax : Z} (x : binary_float prec emax) : string :=
  match x with
  | B754_nan => "nan"
  | B754_infinity s => (if s then "-" else "") ++ "inf"
  | B754_zero s => (if s then "-" else "") ++ "0"
  | B754_finite s m e _ =>
      (if s then "-" else "") ++ (let '(n, X) := six m e in show_six n X)
  end.
