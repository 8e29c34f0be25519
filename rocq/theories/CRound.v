(** * Floating point in another rounding mode

    CFloat.v assumes the default rounding mode.  A program may call
    std::fesetround before it calls the library: then every operation rounds in
    the mode chosen.  Nothing in /repo sets or reads the mode, so the functions of
    Model.v are modelled unchanged, over this element type.

    Assumptions: the translation unit is compiled so that the mode is respected
    (-frounding-math, or the functions are not inlined into the caller that
    changes the mode); one mode during the whole call.  Literals of the library
    (0, 1, -1, 2) are exact in every mode.  sqrt rounds in the mode too. *)

From Coq Require Import ZArith Bool.
From Flocq Require Import IEEE754.BinarySingleNaN Core.FLX.
From Verif Require Import Base Scalar CFloat.

Section Round.
Variables prec emax : Z.
Context {Hp : Prec_gt_0 prec} {He : Prec_lt_emax prec emax}.
Variable md : mode.
Notation fl := (fl prec emax).

(** an integer converted to floating point in the mode *)
Definition m_of_Z (z : Z) : fl := binary_normalize prec emax Hp He md z 0 false.

Definition roundS : scalar :=
  {| elt := fl; xpr := fl; epsT := fl;
     ld := fun a => a;
     st := fun a => a;
     lit := m_of_Z;
     xadd := fun a b => Ok (Bplus md a b);
     xsub := fun a b => Ok (Bminus md a b);
     xmul := fun a b => Ok (Bmult md a b);
     xdiv := fun a b => Ok (Bdiv md a b);
     xneg := fun a => Ok (Bopp a);
     xeq := Beqb;
     xlt := Bltb;
     xabs := fun a => Ok (Babs a);
     gteps := fun a e => Bltb e a;
     xsqrt := fun a => Ok (Bsqrt md a);
     divsz := fun a n => Ok (Bdiv md a (m_of_Z n)) |}.
End Round.
