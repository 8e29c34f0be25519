(** * Complex elements

    /repo/matrix/matrix_type.hpp:24 includes <complex>; this is [std::complex<V>]
    as an element type, V an element type of Scalar.v.  An element is the pair of
    its real and imaginary part.

    [+], [-], unary [-] and [==] of std::complex work on the two parts.  [*] is
    (a*c - b*d, a*d + b*c); for the floating-point types a compiler that follows
    Annex G of the C standard recomputes a product of which both parts came out
    NaN, to recover infinities ([annex_g] is libgcc's __muldc3).  A product is
    passed through an argument [fix], so that both kinds of types are covered.

    Which functions of the library can be instantiated: fill, zeros, ones, eye,
    sum, sub, ++, --, the products, strassen, trans, swap_rows, swap_cols,
    concatenate, getminor, det up to 3x3, chol, isSymetric, abs, compare, conv2,
    print.  The others compare an element with the int 0 (matrix_det.hpp:107,
    matrix_div.hpp:35, matrix_lu.hpp:61, matrix_inv.hpp:80, so also pow) or divide
    by a size_t (mean, var), for which std::complex has no operator.  Division,
    square root, modulus and order are left arbitrary here ([rest]): no theorem
    of C99 depends on them.  CComplexOps.v gives the first three for chol, abs and
    compare (C100).

    Simplification: the sign of a NaN, which copysign can see, is an argument. *)

From Coq Require Import ZArith Bool.
From Flocq Require Import IEEE754.BinarySingleNaN Core.FLX.
From Verif Require Import Base Scalar CFloat.

Section Complex.
Variable V : scalar.
Notation X := (xpr V * xpr V)%type.

Record rest : Type := Rest {
  c_div : X -> X -> outcome X;
  c_lt : X -> X -> bool;
  c_abs : X -> outcome X;
  c_gt : X -> epsT V -> bool;
  c_sqrt : X -> outcome (elt V * elt V);
  c_divsz : X -> Z -> outcome (elt V * elt V) }.

Definition c_add (x y : X) : outcome X :=
  let* r := xadd (fst x) (fst y) in
  let* i := xadd (snd x) (snd y) in
  Ok (r, i).

Definition c_sub (x y : X) : outcome X :=
  let* r := xsub (fst x) (fst y) in
  let* i := xsub (snd x) (snd y) in
  Ok (r, i).

Definition c_mul (fix_ : X -> X -> X -> X) (x y : X) : outcome X :=
  let* ac := xmul (fst x) (fst y) in
  let* bd := xmul (snd x) (snd y) in
  let* ad := xmul (fst x) (snd y) in
  let* bc := xmul (snd x) (fst y) in
  let* r := xsub ac bd in
  let* i := xadd ad bc in
  Ok (fix_ x y (r, i)).

Definition c_neg (x : X) : outcome X :=
  let* r := xneg (fst x) in
  let* i := xneg (snd x) in
  Ok (r, i).

Definition complexS (fix_ : X -> X -> X -> X) (o : rest) : scalar :=
  {| elt := elt V * elt V; xpr := X; epsT := epsT V;
     ld := fun a => (ld (fst a), ld (snd a));
     st := fun a => (st (fst a), st (snd a));
     lit := fun z => (lit z, lit 0);
     xadd := c_add;
     xsub := c_sub;
     xmul := c_mul fix_;
     xdiv := c_div o;
     xneg := c_neg;
     xeq := fun a b => xeq (fst a) (fst b) && xeq (snd a) (snd b);
     xlt := c_lt o;
     xabs := c_abs o;
     gteps := c_gt o;
     xsqrt := c_sqrt o;
     divsz := c_divsz o |}.

(** no recovery: integers, and floating point with -fcx-limited-range *)
Definition no_fix (x y r : X) : X := r.
End Complex.
Arguments rest _ : clear implicits.
Arguments no_fix {V} _ _ _.

(** ** Annex G: __muldc3 of libgcc *)
Section AnnexG.
Variables prec emax : Z.
Context {Hp : Prec_gt_0 prec} {He : Prec_lt_emax prec emax}.
Notation fl := (binary_float prec emax).
Variable nan_sign : bool.

Definition is_inf (x : fl) : bool := match x with B754_infinity _ => true | _ => false end.

(** copysign(b ? 1 : 0, x) *)
Definition boxed (b : bool) (x : fl) : fl :=
  let v := if b then f_of_Z prec emax 1 else B754_zero false in
  if (if is_nan x then nan_sign else Bsign x) then Bopp v else v.
(** isnan(x) ? copysign(0, x) : x *)
Definition nan0 (x : fl) : fl := if is_nan x then boxed false x else x.

Definition annex_g (z w r : fl * fl) : fl * fl :=
  if is_nan (fst r) && is_nan (snd r) then
    let '(a, b) := z in
    let '(c, d) := w in
    let i1 := is_inf a || is_inf b in
    let '(a, b, c, d) :=
      if i1 then (boxed (is_inf a) a, boxed (is_inf b) b, nan0 c, nan0 d) else (a, b, c, d) in
    let i2 := is_inf c || is_inf d in
    let '(a, b, c, d) :=
      if i2 then (nan0 a, nan0 b, boxed (is_inf c) c, boxed (is_inf d) d) else (a, b, c, d) in
    let i3 := negb (i1 || i2) &&
      (is_inf (Bmult mode_NE (fst z) (fst w)) || is_inf (Bmult mode_NE (snd z) (snd w)) ||
       is_inf (Bmult mode_NE (fst z) (snd w)) || is_inf (Bmult mode_NE (snd z) (fst w))) in
    let '(a, b, c, d) := if i3 then (nan0 a, nan0 b, nan0 c, nan0 d) else (a, b, c, d) in
    if i1 || i2 || i3 then
      (Bmult mode_NE (B754_infinity false) (Bminus mode_NE (Bmult mode_NE a c) (Bmult mode_NE b d)),
       Bmult mode_NE (B754_infinity false) (Bplus mode_NE (Bmult mode_NE a d) (Bmult mode_NE b c)))
    else r
  else r.

(** std::complex<float>, std::complex<double> *)
Definition cfloatS (o : rest (floatS prec emax)) : scalar := complexS (floatS prec emax) annex_g o.
End AnnexG.
