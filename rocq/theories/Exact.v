(** * Exact arithmetic as element type

    [exactS R lt ab sq] is a scalar whose arithmetic is that of the mathcomp
    (unit) ring [R]: no rounding, no overflow, [xpr = elt = R].  A division by a
    non-invertible element (by 0, in a field) is [UB DivByZero].  The comparison
    [<], the absolute value and the square root are parameters, because a field
    need not have them; [ordS] and [realS] fix them for ordered and real closed
    fields. *)

From Coq Require Import ZArith.
From mathcomp Require Import all_ssreflect all_algebra.

From Verif Require Import Base Scalar.

Set Implicit Arguments.
Unset Strict Implicit.
Unset Printing Implicit Defensive.

Import GRing.Theory Num.Theory.
Local Open Scope ring_scope.
Delimit Scope Z_scope with Z.

(** an integer literal in the ring *)
Definition ring_of_Z (R : ringType) (z : Z) : R :=
  match z with
  | Z0 => 0
  | Zpos p => (Pos.to_nat p)%:R
  | Zneg p => - (Pos.to_nat p)%:R
  end.

Definition exact_div (R : unitRingType) (a b : R) : outcome R :=
  if b \is a GRing.unit then Ok (a / b) else UB DivByZero.

Definition exactS (R : unitRingType) (lt : R -> R -> bool) (ab : R -> R)
  (sq : R -> outcome R) : scalar :=
  {| elt := R; xpr := R; epsT := R;
     ld := fun a => a;
     st := fun a => a;
     lit := ring_of_Z R;
     xadd := fun a b => Ok (a + b);
     xsub := fun a b => Ok (a - b);
     xmul := fun a b => Ok (a * b);
     xdiv := @exact_div R;
     xneg := fun a => Ok (- a);
     xeq := fun a b => a == b;
     xlt := lt;
     xabs := fun a => Ok (ab a);
     gteps := fun a e => lt e a;
     xsqrt := sq;
     divsz := fun a n => exact_div a (ring_of_Z R n) |}.

(** an ordered field; the square root is still a parameter *)
Definition ordS (R : realFieldType) (sq : R -> outcome R) : scalar :=
  @exactS R (fun a b => a < b) (fun a => `|a|) sq.

(** a real closed field: square roots of non-negative elements exist *)
Definition realS (R : rcfType) : scalar :=
  ordS (fun a : R => if a < 0 then UB BadConversion else Ok (Num.sqrt a)).

(** the list of rows of a mathcomp matrix *)
Definition mxrows (T : Type) (n m : nat) (A : 'M[T]_(n, m)) : matrix T :=
  [seq [seq A i j | j <- enum 'I_m] | i <- enum 'I_n].

(** [A * ... * A], k factors; the identity for k = 0 *)
Fixpoint mxpow (R : ringType) (n : nat) (A : 'M[R]_n) (k : nat) : 'M[R]_n :=
  if k is k'.+1 then A *m mxpow A k' else 1%:M.

(** triangular matrices *)
Definition unit_lower (R : ringType) (n : nat) (L : 'M[R]_n) : Prop :=
  (forall i : 'I_n, L i i = 1) /\ (forall i j : 'I_n, (i < j)%N -> L i j = 0).
Definition lower (R : ringType) (n : nat) (L : 'M[R]_n) : Prop :=
  forall i j : 'I_n, (i < j)%N -> L i j = 0.
Definition upper (R : ringType) (n : nat) (U : 'M[R]_n) : Prop :=
  forall i j : 'I_n, (j < i)%N -> U i j = 0.

(** the leading principal minor of order k: the determinant of the first k rows
    and columns *)
Definition lead_minor (R : comRingType) (n : nat) (A : 'M[R]_n) (k : nat) (Hk : (k <= n)%N) : R :=
  \det (\matrix_(i < k, j < k) A (widen_ord Hk i) (widen_ord Hk j)).

(** symmetric and positive definite *)
Definition symmetric (R : ringType) (n : nat) (A : 'M[R]_n) : Prop := A^T = A.
Definition pos_def (R : realFieldType) (n : nat) (A : 'M[R]_n) : Prop :=
  forall x : 'rV[R]_n, x != 0 -> 0 < (x *m A *m x^T) 0 0.

(** the arithmetic mean of the elements, and the mean squared deviation from it *)
Definition mxmean (R : fieldType) (n m : nat) (A : 'M[R]_(n, m)) : R :=
  (\sum_i \sum_j A i j) / (n * m)%:R.
Definition mxvar (R : fieldType) (n m : nat) (A : 'M[R]_(n, m)) : R :=
  (\sum_i \sum_j (A i j - mxmean A) ^+ 2) / (n * m)%:R.

(** The element of [A] at the integer position (p, q), and 0 outside of [A]. *)
Definition at0 (R : ringType) (n m : nat) (A : 'M[R]_(n, m)) (p q : Z) : R :=
  if (Z.leb 0 p && Z.leb 0 q)%bool then
    match insub (Z.to_nat p), insub (Z.to_nat q) with
    | Some i, Some j => A i j
    | _, _ => 0
    end
  else 0.

(** integer position of an index *)
Definition pos (n : nat) (i : 'I_n) : Z := Z.of_nat i.

(** Octave's [conv2(A, k)] with a 3x3 kernel at the integer position (r, c) of its
    result, from 0: the sum of k(a,b) * A(r-a, c-b), elements outside A being 0.
    The result has shape (n+2) x (m+2); ['same'] is its n x m central part, ['valid']
    its (n-2) x (m-2) central part. *)
Definition octave (R : ringType) (n m : nat) (A : 'M[R]_(n, m)) (k : 'M[R]_3) (r c : Z) : R :=
  \sum_(a < 3) \sum_(b < 3) k a b * at0 A (r - pos a)%Z (c - pos b)%Z.
Definition octave_full (R : ringType) (n m : nat) (A : 'M[R]_(n, m)) (k : 'M[R]_3) : 'M[R]_(n + 2, m + 2) :=
  \matrix_(r, c) octave A k (pos r) (pos c).
Definition octave_same (R : ringType) (n m : nat) (A : 'M[R]_(n, m)) (k : 'M[R]_3) : 'M[R]_(n, m) :=
  \matrix_(r, c) octave A k (pos r + 1)%Z (pos c + 1)%Z.
Definition octave_valid (R : ringType) (n m : nat) (A : 'M[R]_(n, m)) (k : 'M[R]_3) : 'M[R]_(n - 2, m - 2) :=
  \matrix_(r, c) octave A k (pos r + 2)%Z (pos c + 2)%Z.

(** the kernel rotated by 180 degrees *)
Definition rot180 (R : ringType) (k : 'M[R]_3) : 'M[R]_3 :=
  \matrix_(a, b) k (rev_ord a) (rev_ord b).

(** the correlation of [A] with [k] centred at (r, c) *)
Definition correlation (R : ringType) (n m : nat) (A : 'M[R]_(n, m)) (k : 'M[R]_3) (r c : Z) : R :=
  \sum_(a < 3) \sum_(b < 3) k a b * at0 A (r + pos a - 1)%Z (c + pos b - 1)%Z.
