(** * The C++ integer types as element types

    [ityp] is an integer type given by its width and signedness, on the data
    model of the compilers named in /repo/.travis.yml on x86-64: [int] has 32
    bits, [long] and [std::size_t] have 64, conversions to a signed type are
    modular. *)

From Coq Require Import ZArith Bool Lia.
From Coq Require Import Floats.SpecFloat.
From Verif Require Import Base Scalar.
Local Open Scope Z_scope.

Record ityp : Type := IntType { width : Z; sgn : bool }.

Definition int8 := IntType 8 true.       (* signed char *)
Definition uint8 := IntType 8 false.     (* unsigned char *)
Definition int16 := IntType 16 true.     (* short *)
Definition uint16 := IntType 16 false.   (* unsigned short *)
Definition int32 := IntType 32 true.     (* int *)
Definition uint32 := IntType 32 false.   (* unsigned int *)
Definition int64 := IntType 64 true.     (* long *)
Definition uint64 := IntType 64 false.   (* unsigned long = std::size_t *)

Definition imin (t : ityp) : Z := if sgn t then - 2 ^ (width t - 1) else 0.
Definition imax (t : ityp) : Z :=
  if sgn t then 2 ^ (width t - 1) - 1 else 2 ^ (width t) - 1.
Definition in_range (t : ityp) (z : Z) : bool := (imin t <=? z) && (z <=? imax t).

(** conversion of an integer value to type [t]: modulo 2^width *)
Definition iconv (t : ityp) (z : Z) : Z :=
  if sgn t then (z + 2 ^ (width t - 1)) mod 2 ^ (width t) - 2 ^ (width t - 1)
  else z mod 2 ^ (width t).

(** integral promotion: types narrower than [int] become [int] *)
Definition promote (t : ityp) : ityp := if width t <? 32 then int32 else t.

(** the value of an arithmetic operation of mathematical result [z] in type [t]:
    signed overflow is undefined, unsigned arithmetic is modular *)
Definition iarith (t : ityp) (z : Z) : outcome Z :=
  if sgn t then (if in_range t z then Ok z else UB SignedOverflow)
  else Ok (z mod 2 ^ (width t)).

(** truncating division *)
Definition idiv (t : ityp) (a b : Z) : outcome Z :=
  if b =? 0 then UB DivByZero else iarith t (Z.quot a b).

(** [std::abs]; for unsigned [T] of at least 32 bits the C++ call is ambiguous
    and does not compile, the model returns the argument. *)
Definition iabs (t : ityp) (a : Z) : outcome Z :=
  if sgn t then iarith t (Z.abs a) else Ok a.

(** [a > epsilon]: the integer is converted to binary32 (round to nearest even),
    then compared; false when epsilon is a NaN.  [spec_float] is the standard
    library's IEEE-754 datum. *)
Definition to_float32 (a : Z) : spec_float := binary_normalize 24 128 a 0 false.
Definition igt_eps (a : Z) (eps : spec_float) : bool := SFltb eps (to_float32 a).

(** A double converted to an integer: truncated towards zero; infinities and
    NaNs have no integer value. *)
Definition trunc_double (x : spec_float) : option Z :=
  match x with
  | S754_zero _ => Some 0
  | S754_finite s m e =>
      let a := if 0 <=? e then Z.pos m * 2 ^ e else Z.pos m / 2 ^ (- e) in
      Some (if s then - a else a)
  | S754_infinity _ | S754_nan => None
  end.

(** [static_cast<T>(sqrt(a))]: [a] is converted to double (rounded to nearest
    even), its correctly rounded square root is truncated and stored in a [T].
    The conversion of a NaN (the square root of a negative number) or of a value
    out of the range of [T] is undefined. *)
Definition to_double (a : Z) : spec_float := binary_normalize 53 1024 a 0 false.
Definition isqrt (t : ityp) (a : Z) : outcome Z :=
  match trunc_double (SFsqrt 53 1024 (to_double a)) with
  | Some r => if in_range t r then Ok r else UB BadConversion
  | None => UB BadConversion
  end.

(** [static_cast<T>(a / n)] with [n] a [std::size_t]: the usual arithmetic
    conversions turn [a] into an unsigned 64-bit number. *)
Definition idivsz (t : ityp) (a n : Z) : outcome Z :=
  if n =? 0 then UB DivByZero else Ok (iconv t ((a mod 2 ^ 64) / n)).

Definition intS (t : ityp) : scalar :=
  let p := promote t in
  {| elt := Z; xpr := Z; epsT := spec_float;
     ld := fun a => a;
     st := iconv t;
     lit := iconv p;
     xadd := fun a b => iarith p (a + b);
     xsub := fun a b => iarith p (a - b);
     xmul := fun a b => iarith p (a * b);
     xdiv := idiv p;
     xneg := fun a => iarith p (- a);
     xeq := Z.eqb;
     xlt := Z.ltb;
     xabs := iabs p;
     gteps := igt_eps;
     xsqrt := isqrt t;
     divsz := idivsz t |}.

(** the largest and smallest representable values *)
Example int32_bounds : (imin int32, imax int32) = (-2147483648, 2147483647).
Proof. reflexivity. Qed.
