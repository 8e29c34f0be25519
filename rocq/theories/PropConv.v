(** * Properties C43-C46: convolution

    [octave_same A k], [octave_full A k], [octave_valid A k] are Octave's conv2
    with shape 'same', 'full', 'valid' (Exact.v); [rot180 k] is the kernel
    rotated by 180 degrees; [correlation A k r c] is the sum over a, b of
    k[a][b] * A[r+a-1][c+b-1], elements outside A being 0. *)

From Coq Require Import ZArith List Lia.
From mathcomp Require Import all_ssreflect all_algebra.
From mathcomp Require Import zify.
From Verif Require Import Base Scalar Model CInt Spec Loops Struct Conv Exact ExactLemmas Alg Det ConvExact PropAlg.

Set Implicit Arguments.
Unset Strict Implicit.
Unset Printing Implicit Defensive.

Import GRing.Theory.
Local Open Scope ring_scope.
Delimit Scope Z_scope with Z.

Section C43.
Variables (R : unitRingType) (lt : R -> R -> bool) (ab : R -> R) (sq : R -> outcome R).
Notation K := (exactS lt ab sq).
Variables (n m : nat).
Hypothesis Hn : (Z.of_nat n <= 2 ^ 31)%Z.
Hypothesis Hm : (Z.of_nat m <= 2 ^ 31)%Z.
Implicit Types (A : 'M[R]_(n, m)) (k : 'M[R]_3).

Theorem c43_correlation A k : conv2 K n m (mxrows A) (mxrows k) =
  Ok (mxrows (\matrix_(r < n, c < m) \sum_(a < 3) \sum_(b < 3)
    k a b * at0 A (pos r + pos a - 1)%Z (pos c + pos b - 1)%Z)).
Proof. exact: conv2_correlation. Qed.

Theorem c43_octave_rotated A k :
  conv2 K n m (mxrows A) (mxrows k) = Ok (mxrows (octave_same A (rot180 k))).
Proof. exact: conv2_mx. Qed.

Theorem c43_octave_iff k : (1 < n)%N -> (1 < m)%N ->
  (forall A, conv2 K n m (mxrows A) (mxrows k) = Ok (mxrows (octave_same A k))) <-> rot180 k = k.
Proof. exact: conv2_octave_iff. Qed.

Theorem c45_full A k :
  conv2_full K n m (mxrows A) (mxrows k) = Ok (mxrows (octave_full A (rot180 k))).
Proof. exact: conv2_full_mx. Qed.
End C43.
Print Assumptions c43_correlation.
Print Assumptions c43_octave_rotated.
Print Assumptions c43_octave_iff.
Print Assumptions c45_full.

(** a kernel that is not invariant, and one that is (Laplace) *)
Example c43_ex : rot180 (delta_mx ord0 ord0 : 'M[rat]_3) <> delta_mx ord0 ord0 /\
  rot180 (const_mx 1 : 'M[rat]_3) = const_mx 1.
Proof.
  split; last by apply/matrixP=> i j; rewrite !mxE.
  move/matrixP/(_ ord0 ord0). by rewrite !mxE.
Qed.

(** the kernel [1 0 0; 0 0 0; 0 0 0] shifts A down-right in Octave, but up-left here *)
Example c43_ex_run :
  conv2 (intS int32) 2 2 [:: [:: 1; 2]; [:: 3; 4]]%Z [:: [:: 1; 0; 0]; [:: 0; 0; 0]; [:: 0; 0; 0]]%Z
  = Ok [:: [:: 0; 0]; [:: 0; 1]]%Z.
Proof. by []. Qed.

(** ** C44 the bounds test *)

(** [inside i j p q]: position (p, q) lies in an i x j matrix.  The test receives
    each index squeezed from size_t arithmetic through int. *)
Theorem c44_bounds i j p q :
  (Z.of_nat i <= 2 ^ 31)%Z -> (Z.of_nat j <= 2 ^ 31)%Z ->
  (- 2 ^ 31 <= p < 2 ^ 31 + 4)%Z -> (- 2 ^ 31 <= q < 2 ^ 31 + 4)%Z ->
  isOutOfRange i j (size_to_int (p mod 2 ^ 64)) (size_to_int (q mod 2 ^ 64)) = 0%N <->
  (0 <= p < Z.of_nat i)%Z /\ (0 <= q < Z.of_nat j)%Z.
Proof.
  move=> H1 H2 H3 H4. have := isOutOfRange_spec i j p q H1 H2 H3 H4. rewrite /inside => E.
  split=> [H|H].
  - by move: E; rewrite H => /esym /andP [/andP [/andP []]]; lia.
  - apply/PeanoNat.Nat.eqb_eq. rewrite E. lia.
Qed.
Print Assumptions c44_bounds.

Theorem c44_too_large i j q : (2 ^ 31 < Z.of_nat i)%Z -> (0 <= q < Z.of_nat j)%Z ->
  inside i j (2 ^ 31) q = true /\
  isOutOfRange i j (size_to_int (2 ^ 31 mod 2 ^ 64)) q <> 0%N.
Proof.
  move=> H1 H2. have [-> H] := isOutOfRange_wrong i j q H1. split=> //. lia.
Qed.
Print Assumptions c44_too_large.

(** ** C45 the three variants, every element type *)

(** the same function [corr K i j f k], evaluated at shifted positions *)
Theorem c45_same_full (K : scalar) i j (f k : nat -> nat -> elt K) :
  (Z.of_nat i <= 2 ^ 31)%Z -> (Z.of_nat j <= 2 ^ 31)%Z ->
  forall F, conv2_full K i j (mk i j f) (mk 3 3 k) = Ok (mk (i + 2) (j + 2) F) ->
  conv2 K i j (mk i j f) (mk 3 3 k) = Ok (mk i j (fun r c => F (r + 1)%N (c + 1)%N)).
Proof. exact: conv2_from_full. Qed.
Print Assumptions c45_same_full.

Theorem c45_same_valid (K : scalar) n (f k : nat -> nat -> elt K) :
  (2 <= n)%N -> (Z.of_nat n <= 2 ^ 31)%Z ->
  forall C, conv2 K n n (mk n n f) (mk 3 3 k) = Ok (mk n n C) ->
  conv2_valid K n (mk n n f) (mk 3 3 k) = Ok (mk (n - 2) (n - 2) (fun r c => C (r + 1)%N (c + 1)%N)).
Proof. move=> /leP H. exact: conv2_valid_tab. Qed.
Print Assumptions c45_same_valid.

(** whatever is returned by conv2_full has that form, so the hypothesis is met
    whenever conv2_full returns *)
Theorem c45_shapes (K : scalar) i j (A k : matrix (elt K)) X :
  (Z.of_nat i <= 2 ^ 31)%Z -> (Z.of_nat j <= 2 ^ 31)%Z -> shape i j A -> shape 3 3 k ->
  conv2_full K i j A k = Ok X -> exists F, X = mk (i + 2) (j + 2) F.
Proof.
  move=> Hi Hj /(shape_mk (lite K 0)) [f ->] /(shape_mk (lite K 0)) [g ->].
  rewrite conv2_full_tab // => /(tabM_inv (lite K 0)) [F [-> _]]. by exists F.
Qed.
Print Assumptions c45_shapes.

Theorem c45_valid_exact (R : unitRingType) lt ab sq n (A : 'M[R]_n) (k : 'M[R]_3) :
  (1 < n)%N -> (Z.of_nat n <= 2 ^ 31)%Z ->
  conv2_valid (exactS lt ab sq) n (mxrows A) (mxrows k) =
  Ok (mxrows (\matrix_(r < n - 2, c < n - 2) \sum_(a < 3) \sum_(b < 3)
    k a b * mxf 0 A (r + a) (c + b))).
Proof. move=> H1 H2. exact: conv2_valid_inside. Qed.
Print Assumptions c45_valid_exact.

Example c45_ex :
  conv2_full (intS int32) 1 2 [:: [:: 5; 7]]%Z [:: [:: 1; 2; 3]; [:: 4; 5; 6]; [:: 7; 8; 9]]%Z =
    Ok [:: [:: 45; 103; 91; 49]; [:: 30; 67; 55; 28]; [:: 15; 31; 19; 7]]%Z /\
  conv2 (intS int32) 1 2 [:: [:: 5; 7]]%Z [:: [:: 1; 2; 3]; [:: 4; 5; 6]; [:: 7; 8; 9]]%Z =
    Ok [:: [:: 67; 55]]%Z.
Proof. by []. Qed.

(** ** C46 linearity *)
Section C46.
Variables (R : comUnitRingType) (lt : R -> R -> bool) (ab : R -> R) (sq : R -> outcome R).
Notation K := (exactS lt ab sq).
Variables (n m : nat).
Hypothesis Hn : (Z.of_nat n <= 2 ^ 31)%Z.
Hypothesis Hm : (Z.of_nat m <= 2 ^ 31)%Z.

Theorem c46_add (A B k : matrix R) : shape n m A -> shape n m B -> shape 3 3 k ->
  (let* X := sum K n m A B in conv2 K n m X k) =
  (let* X := conv2 K n m A k in let* Y := conv2 K n m B k in sum K n m X Y).
Proof.
  move=> H1 H2 H3; tomx H1; tomx H2; tomx H3.
  rewrite sum_mx /= !conv2_correlation //= sum_mx. congr (Ok (mxrows _)).
  apply/matrixP=> i j; by rewrite !mxE correlation_add.
Qed.

Theorem c46_scale (A k : matrix R) (s : R) : shape n m A -> shape 3 3 k ->
  (let* X := mult_scalar K n m A s in conv2 K n m X k) =
  (let* X := conv2 K n m A k in mult_scalar K n m X s).
Proof.
  move=> H1 H3; tomx H1; tomx H3.
  rewrite mult_scalar_mx /= !conv2_correlation //= mult_scalar_mx. congr (Ok (mxrows _)).
  apply/matrixP=> i j; rewrite !mxE mulrC -correlation_scale.
  congr correlation; apply/matrixP=> a b; by rewrite !mxE mulrC.
Qed.

Theorem c46_kernel_add (A k k' : matrix R) : shape n m A -> shape 3 3 k -> shape 3 3 k' ->
  (let* q := sum K 3 3 k k' in conv2 K n m A q) =
  (let* X := conv2 K n m A k in let* Y := conv2 K n m A k' in sum K n m X Y).
Proof.
  move=> H1 H2 H3; tomx H1; tomx H2; tomx H3.
  rewrite sum_mx /= !conv2_correlation //= sum_mx. congr (Ok (mxrows _)).
  apply/matrixP=> i j; by rewrite !mxE correlation_kadd.
Qed.

Theorem c46_kernel_scale (A k : matrix R) (s : R) : shape n m A -> shape 3 3 k ->
  (let* q := mult_scalar K 3 3 k s in conv2 K n m A q) =
  (let* X := conv2 K n m A k in mult_scalar K n m X s).
Proof.
  move=> H1 H3; tomx H1; tomx H3.
  rewrite mult_scalar_mx /= !conv2_correlation //= mult_scalar_mx. congr (Ok (mxrows _)).
  apply/matrixP=> i j; rewrite !mxE mulrC -correlation_kscale.
  congr correlation; apply/matrixP=> a b; by rewrite !mxE mulrC.
Qed.

Theorem c46_centre (A : matrix R) : shape n m A ->
  conv2 K n m A [:: [:: 0; 0; 0]; [:: 0; 1; 0]; [:: 0; 0; 0]] = Ok A.
Proof.
  move=> H; tomx H.
  have -> : [:: [:: 0; 0; 0]; [:: 0; 1; 0]; [:: 0; 0; 0]] = mxrows (centre R).
    rewrite (@mxrows_mk _ _ _ _ (fun i j => ((i == 1%N) && (j == 1%N))%:R)) // => i j.
    by rewrite /centre mxE -!val_eqE.
  rewrite conv2_correlation //. congr (Ok (mxrows _)). apply/matrixP=> i j.
  by rewrite mxE correlation_centre.
Qed.
End C46.
Print Assumptions c46_add.
Print Assumptions c46_scale.
Print Assumptions c46_kernel_add.
Print Assumptions c46_kernel_scale.
Print Assumptions c46_centre.
