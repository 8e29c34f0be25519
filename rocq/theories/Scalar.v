(** * Element types

    Every function of /repo/matrix is a template over the element type [T].
    The model is parametric in the record below, which lists the operations the
    templates apply to [T].  [elt] is the type of a stored element ([T] itself);
    [xpr] is the type of an arithmetic expression built from elements, i.e. [T]
    after the integral promotions ([int] when [T] is [short] or [unsigned char],
    [T] itself when [T] is [int], [unsigned], [float] or [double]).  Keeping the
    two apart is what lets one text of the model describe narrow integer types
    faithfully.

    Instances: exact arithmetic over a ring or field (Exact.v), the C++ integer
    types (CInt.v), IEEE-754 binary32/binary64 (CFloat.v). *)

From Coq Require Import ZArith.
From Verif Require Import Base.

Record scalar : Type := Scalar {
  elt : Type;
  xpr : Type;
  epsT : Type;                             (* type of [const float epsilon] of compare() *)
  ld : elt -> xpr;                         (* reading an element in an expression *)
  st : xpr -> elt;                         (* converting an expression to T (assignment, return) *)
  lit : Z -> xpr;                          (* an int literal used as operand together with T *)
  xadd : xpr -> xpr -> outcome xpr;        (* a + b *)
  xsub : xpr -> xpr -> outcome xpr;        (* a - b *)
  xmul : xpr -> xpr -> outcome xpr;        (* a * b *)
  xdiv : xpr -> xpr -> outcome xpr;        (* a / b *)
  xneg : xpr -> outcome xpr;               (* -a *)
  xeq : xpr -> xpr -> bool;                (* a == b *)
  xlt : xpr -> xpr -> bool;                (* a < b *)
  xabs : xpr -> outcome xpr;               (* std::abs(a) *)
  gteps : xpr -> epsT -> bool;             (* a > epsilon, epsilon a float *)
  xsqrt : xpr -> outcome elt;              (* static_cast<T>(sqrt(a)) *)
  divsz : xpr -> Z -> outcome elt          (* static_cast<T>(a / n), n a std::size_t *)
}.

Arguments ld {_} _.
Arguments st {_} _.
Arguments lit {_} _.
Arguments xadd {_} _ _.
Arguments xsub {_} _ _.
Arguments xmul {_} _ _.
Arguments xdiv {_} _ _.
Arguments xneg {_} _.
Arguments xeq {_} _ _.
Arguments xlt {_} _ _.
Arguments xabs {_} _.
Arguments gteps {_} _ _.
Arguments xsqrt {_} _.
Arguments divsz {_} _ _.

(** An int literal converted to [T]: [T factor{1}], [fill<T,n,n>(0)], [sum = 0]. *)
Definition lite (S : scalar) (z : Z) : elt S := st (lit z).
