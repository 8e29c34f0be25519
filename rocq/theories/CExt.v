(** * Floating point when expressions are evaluated in a wider format

    CFloat.v assumes FLT_EVAL_METHOD = 0: every operation is rounded to the
    element type.  C++ lets an implementation evaluate expressions with more
    range and precision and round only where a value is assigned, cast or passed
    to a function (FLT_EVAL_METHOD = 1: [float] in [double]; = 2: everything in
    [long double], as 32-bit x86 compilers using the x87 unit do).  Nothing in
    /repo/CMakeLists.txt forbids such a target.  Here elements are stored in the
    format (prec, emax) and expressions are values of the format (xprec, xemax);
    the functions of Model.v are modelled unchanged.

    Simplifications: an assignment, a cast, an argument of std::abs and sqrt and a
    returned value are rounded to the element type, as the standard asks for
    (GCC without -std=c++NN or -fexcess-precision=standard may keep a variable in
    a register with excess precision); conversions round to nearest even; the
    root is taken of the rounded argument and rounded to the element type. *)

From Coq Require Import ZArith Bool Lia.
From Flocq Require Import IEEE754.BinarySingleNaN Core.FLX.
From Verif Require Import Base Scalar CFloat.

(** conversion between two binary formats *)
Section Conv.
Variables p e p' e' : Z.
Context {Hp : Prec_gt_0 p'} {He : Prec_lt_emax p' e'}.

Definition fconv (x : binary_float p e) : binary_float p' e' :=
  match x with
  | B754_zero s => B754_zero s
  | B754_infinity s => B754_infinity s
  | B754_nan => B754_nan
  | B754_finite s m ex _ => binary_normalize p' e' Hp He mode_NE (SpecFloat.cond_Zopp s (Zpos m)) ex s
  end.
End Conv.

Section Ext.
Variables prec emax xprec xemax : Z.
Context {Hp : Prec_gt_0 prec} {He : Prec_lt_emax prec emax}.
Context {Hxp : Prec_gt_0 xprec} {Hxe : Prec_lt_emax xprec xemax}.
Notation fl := (fl prec emax).
Notation xfl := (CFloat.fl xprec xemax).

(** reading an element in an expression, and rounding an expression to T *)
Definition widen : fl -> xfl := fconv prec emax xprec xemax.
Definition narrow : xfl -> fl := fconv xprec xemax prec emax.

Definition extS : scalar :=
  {| elt := fl; xpr := xfl; epsT := fl;
     ld := widen;
     st := narrow;
     lit := f_of_Z xprec xemax;
     xadd := fun a b => Ok (Bplus mode_NE a b);
     xsub := fun a b => Ok (Bminus mode_NE a b);
     xmul := fun a b => Ok (Bmult mode_NE a b);
     xdiv := fun a b => Ok (Bdiv mode_NE a b);
     xneg := fun a => Ok (Bopp a);
     xeq := Beqb;
     xlt := Bltb;
     xabs := fun a => Ok (Babs (widen (narrow a)));
     gteps := fun a eps => Bltb (widen eps) a;
     xsqrt := fun a => Ok (narrow (Bsqrt mode_NE (widen (narrow a))));
     divsz := fun a n => Ok (narrow (Bdiv mode_NE a (f_of_Z xprec xemax n))) |}.

End Ext.

(** the x87 format, and the evaluation methods of C++: [float] in [double],
    [float] and [double] in the x87 format *)
#[global] Instance Hprec80 : Prec_gt_0 64 := eq_refl.
#[global] Instance Hemax80 : Prec_lt_emax 64 16384 := eq_refl.

Definition float_in_double : scalar := extS 24 128 53 1024.
Definition float_in_x87 : scalar := extS 24 128 64 16384.
Definition double_in_x87 : scalar := extS 53 1024 64 16384.
