(** * IEEE-754 binary floating point as element type

    [float] is binary32 and [double] is binary64, every operation rounded to
    nearest even (Flocq's [binary_float], whose single NaN stands for all NaNs).
    Assumptions about the C++ implementation: FLT_EVAL_METHOD = 0, no
    contraction to fused multiply-add, default rounding mode — x86-64 with SSE2,
    no -ffast-math (the flags of /repo/CMakeLists.txt).  CFma.v models contraction, CRound.v the
    other rounding modes, CExt.v the other evaluation methods. *)

From Coq Require Import ZArith Bool Lia.
From Flocq Require Import IEEE754.BinarySingleNaN Core.FLX.
From Verif Require Import Base Scalar.

Section Float.
Variables prec emax : Z.
Context {Hp : Prec_gt_0 prec} {He : Prec_lt_emax prec emax}.

Definition fl := binary_float prec emax.

(** an integer converted to floating point (exact for the literals of the
    library; a size_t may be rounded) *)
Definition f_of_Z (z : Z) : fl := binary_normalize prec emax Hp He mode_NE z 0 false.

(** [epsT]: [compare] takes a [float]; its value is exactly representable in the
    element type, where the comparison is done. *)
Definition floatS : scalar :=
  {| elt := fl; xpr := fl; epsT := fl;
     ld := fun a => a;
     st := fun a => a;
     lit := f_of_Z;
     xadd := fun a b => Ok (Bplus mode_NE a b);
     xsub := fun a b => Ok (Bminus mode_NE a b);
     xmul := fun a b => Ok (Bmult mode_NE a b);
     xdiv := fun a b => Ok (Bdiv mode_NE a b);
     xneg := fun a => Ok (Bopp a);
     xeq := Beqb;
     xlt := Bltb;
     xabs := fun a => Ok (Babs a);
     gteps := fun a e => Bltb e a;
     xsqrt := fun a => Ok (Bsqrt mode_NE a);
     divsz := fun a n => Ok (Bdiv mode_NE a (f_of_Z n)) |}.

End Float.

#[global] Instance Hprec32 : Prec_gt_0 24 := eq_refl.
#[global] Instance Hemax32 : Prec_lt_emax 24 128 := eq_refl.
#[global] Instance Hprec64 : Prec_gt_0 53 := eq_refl.
#[global] Instance Hemax64 : Prec_lt_emax 53 1024 := eq_refl.

Definition float32S : scalar := floatS 24 128.
Definition float64S : scalar := floatS 53 1024.
