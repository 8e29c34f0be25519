(** * Division, modulus and square root of complex elements

    The generic templates of libstdc++'s <complex> (operator/=, __complex_abs,
    __complex_sqrt), over an element type V of Scalar.v.  matrix_cholesky.hpp:71,80
    calls [sqrt] and [/] on std::complex, matrix_abs.hpp:39 and
    matrix_utils.hpp:55 call std::abs on it, whose result is a V: matrix_abs.hpp
    assigns it to a complex (imaginary part 0), matrix_utils.hpp compares it with a
    float.

    Simplifications: for float, double and long double compilers call other
    routines (hypot, csqrt, __divdc3), which round differently; the order and the
    division by a size_t that std::complex does not have are arguments. *)

From Coq Require Import ZArith Bool.
From Verif Require Import Base Scalar CComplex.

Section Ops.
Variable V : scalar.
Notation X := (xpr V * xpr V)%type.

(** a value stored in a variable of type V *)
Notation var e := (ld (st e)).

(** std::norm *)
Definition c_norm (z : X) : outcome (xpr V) :=
  let* p := xmul (fst z) (fst z) in
  let* q := xmul (snd z) (snd z) in
  let* r := xadd p q in
  Ok (var r).

(** operator/= *)
Definition cdiv_std (z w : X) : outcome X :=
  let* p := xmul (fst z) (fst w) in
  let* q := xmul (snd z) (snd w) in
  let* r := xadd p q in
  let* n := c_norm w in
  let* p := xmul (snd z) (fst w) in
  let* q := xmul (fst z) (snd w) in
  let* i := xsub p q in
  let* i := xdiv i n in
  let* r := xdiv (var r) n in
  Ok (var r, var i).

(** __complex_abs; std::max(a, b) is [a < b ? b : a] *)
Definition cabs_std (z : X) : outcome (xpr V) :=
  let* a := xabs (fst z) in
  let* b := xabs (snd z) in
  let s := if xlt a b then b else a in
  if xeq s (lit 0) then Ok s else
  let* x := xdiv (fst z) s in
  let* y := xdiv (snd z) s in
  let* p := xmul (var x) (var x) in
  let* q := xmul (var y) (var y) in
  let* t := xadd p q in
  let* h := xsqrt t in
  let* r := xmul s (ld h) in
  Ok (var r).

(** __complex_sqrt *)
Definition csqrt_std (z : X) : outcome (elt V * elt V) :=
  let x := fst z in
  let y := snd z in
  let* ay := xabs y in
  if xeq x (lit 0) then
    let* h := xdiv ay (lit 2) in
    let* t := xsqrt h in
    let* m := xneg (ld t) in
    Ok (t, if xlt y (lit 0) then st m else t)
  else
    let* m := cabs_std z in
    let* ax := xabs x in
    let* d := xadd m ax in
    let* e := xmul (lit 2) d in
    let* t := xsqrt e in
    let* u := xdiv (ld t) (lit 2) in
    if xlt (lit 0) x then
      let* v := xdiv y (ld t) in
      Ok (st u, st v)
    else
      let* v := xdiv ay (ld t) in
      let* m := xneg (var u) in
      Ok (st v, if xlt y (lit 0) then st m else st u).

Definition rest_std (lt : X -> X -> bool) (dz : X -> Z -> outcome (elt V * elt V)) : rest V :=
  {| c_div := cdiv_std;
     c_lt := lt;
     c_abs := fun z => let* r := cabs_std z in Ok (r, lit 0);
     c_gt := fun z e => gteps (fst z) e;
     c_sqrt := csqrt_std;
     c_divsz := dz |}.
End Ops.
