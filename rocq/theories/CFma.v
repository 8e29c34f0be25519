(** * Floating point when the compiler contracts a*b + c

    CFloat.v assumes that every operation rounds its result.  A C++ compiler may
    also evaluate [a*b + c], [a*b - c] and [c - a*b] inside one expression with a
    single rounding (fused multiply-add): GCC does so by default on targets that
    have the instruction (-ffp-contract=fast; e.g. AArch64, or x86-64 with
    -march=native), and nothing in /repo/CMakeLists.txt forbids it.  Here an
    expression that is a product keeps its two factors until it is used, and the
    compiler's choice is a parameter, so that the functions of Model.v are
    modelled unchanged under each choice.

    Simplification: the choice is made by the form of the operation (+ or -, which
    operands are products), the same for all places of that form, and contraction
    across statements (a product stored in a variable, then added) is not modelled:
    the standard does not allow it, but GCC's fast mode may do it after inlining.
    Of the functions of Model.v this concerns strassen, whose seven products are
    stored in variables before they are added. *)

From Coq Require Import ZArith Bool Lia.
From Flocq Require Import IEEE754.BinarySingleNaN Core.FLX.
From Verif Require Import Base Scalar CFloat.

(** what is done with [l + r] or [l - r]: two roundings, or one, the product
    being the left or the right operand *)
Inductive choice := Separate | FuseLeft | FuseRight.

(** [policy sub l r]: the choice for an addition (sub = false) or subtraction
    whose left / right operand is a product *)
Definition policy := bool -> bool -> bool -> choice.

(** no contraction: FLT_CONTRACT off *)
Definition never : policy := fun _ _ _ => Separate.
(** contraction wherever it is possible; of two products the left one is fused,
    or the right one *)
Definition always_l : policy := fun _ l r => if l then FuseLeft else if r then FuseRight else Separate.
Definition always_r : policy := fun _ l r => if r then FuseRight else if l then FuseLeft else Separate.

Section Fma.
Variables prec emax : Z.
Context {Hp : Prec_gt_0 prec} {He : Prec_lt_emax prec emax}.
Variable pol : policy.
Notation fl := (fl prec emax).

(** an expression: a value, or a product not yet rounded *)
Inductive fval := Val (x : fl) | Prd (x y : fl).

Definition is_prd (v : fval) : bool := match v with Val _ => false | Prd _ _ => true end.

(** its value when it is rounded on its own *)
Definition ev (v : fval) : fl := match v with Val x => x | Prd x y => Bmult mode_NE x y end.

Definition fadd (v w : fval) : fl :=
  match pol false (is_prd v) (is_prd w), v, w with
  | FuseLeft, Prd x y, _ => Bfma mode_NE x y (ev w)
  | FuseRight, _, Prd x y => Bfma mode_NE x y (ev v)
  | _, _, _ => Bplus mode_NE (ev v) (ev w)
  end.

Definition fsub (v w : fval) : fl :=
  match pol true (is_prd v) (is_prd w), v, w with
  | FuseLeft, Prd x y, _ => Bfma mode_NE x y (Bopp (ev w))
  | FuseRight, _, Prd x y => Bfma mode_NE (Bopp x) y (ev v)
  | _, _, _ => Bminus mode_NE (ev v) (ev w)
  end.

Definition fmaS : scalar :=
  {| elt := fl; xpr := fval; epsT := fl;
     ld := Val;
     st := ev;
     lit := fun z => Val (f_of_Z prec emax z);
     xadd := fun a b => Ok (Val (fadd a b));
     xsub := fun a b => Ok (Val (fsub a b));
     xmul := fun a b => Ok (Prd (ev a) (ev b));
     xdiv := fun a b => Ok (Val (Bdiv mode_NE (ev a) (ev b)));
     xneg := fun a => Ok (Val (Bopp (ev a)));
     xeq := fun a b => Beqb (ev a) (ev b);
     xlt := fun a b => Bltb (ev a) (ev b);
     xabs := fun a => Ok (Val (Babs (ev a)));
     gteps := fun a e => Bltb e (ev a);
     xsqrt := fun a => Ok (Bsqrt mode_NE (ev a));
     divsz := fun a n => Ok (Bdiv mode_NE (ev a) (f_of_Z prec emax n)) |}.

End Fma.

Arguments Val {prec emax} _.
Arguments Prd {prec emax} _ _.
Arguments is_prd {prec emax} _.
Arguments ev {prec emax Hp He} _.
