(** * C79, exact arithmetic: convolution and powers of the transpose *)

From Coq Require Import ZArith List Lia.
From mathcomp Require Import all_ssreflect all_algebra.
From mathcomp Require Import zify.
From Verif Require Import Base Scalar Model Spec Loops Struct Elim Alg Exact ExactLemmas Det Inv Pow Conv ConvExact PropAlg.

Set Implicit Arguments.
Unset Strict Implicit.
Unset Printing Implicit Defensive.

Import GRing.Theory.
Local Open Scope ring_scope.
Delimit Scope Z_scope with Z.

Section Conv.
Variables (R : unitRingType) (lt : R -> R -> bool) (ab : R -> R) (sq : R -> outcome R).
Notation K := (exactS lt ab sq).

Lemma at0_tr n m (A : 'M[R]_(n, m)) p q : at0 A^T q p = at0 A p q.
Proof.
  rewrite /at0 andbC. case: ifP => // _. case: insubP => [i _ _|_]; case: insubP => [j _ _|_] //. by rewrite mxE.
Qed.

Lemma correlation_tr n m (A : 'M[R]_(n, m)) (k : 'M[R]_3) r c : correlation A^T k^T c r = correlation A k r c.
Proof.
  rewrite /correlation exchange_big; apply: eq_bigr => a _; apply: eq_bigr => b _. by rewrite mxE at0_tr.
Qed.

(** the kernel is transposed too *)
Theorem c79_conv n m (A k : matrix R) : shape n m A -> shape 3 3 k ->
  (Z.of_nat n <= 2 ^ 31)%Z -> (Z.of_nat m <= 2 ^ 31)%Z ->
  (let* C := conv2 K n m A k in trans K n m C) =
  (let* X := trans K n m A in let* y := trans K 3 3 k in conv2 K m n X y) /\
  (let* C := conv2_full K n m A k in trans K (n + 2) (m + 2) C) =
  (let* X := trans K n m A in let* y := trans K 3 3 k in conv2_full K m n X y).
Proof.
  move=> HA Hk Hn Hm. tomx HA. tomx Hk. rewrite !trans_mx /=.
  rewrite !conv2_correlation // !conv2_full_correlation //=.
  by split; rewrite trans_mx; congr (Ok (mxrows _)); apply/matrixP=> i j; rewrite !mxE correlation_tr.
Qed.
End Conv.

Section Pow.
Variables (F : fieldType) (lt : F -> F -> bool) (ab : F -> F) (sq : F -> outcome F).
Notation K := (exactS lt ab sq).

Lemma mxpow_tr n (A : 'M[F]_n) p : mxpow A^T p = (mxpow A p)^T.
Proof.
  elim: p => [|p IH] /=; first by rewrite trmx1. rewrite IH -trmx_mul. congr (_^T).
  elim: p {IH} => [|p IH] /=; first by rewrite mul1mx mulmx1. by rewrite -mulmxA IH.
Qed.

Theorem c79_pow n w (A : matrix F) (p : nat) : shape n n A -> (1 <= w)%Z -> (Z.of_nat p < 2 ^ (w - 1))%Z ->
  (let* C := pow K n w A (Z.of_nat p) in trans K n n C) = (let* X := trans K n n A in pow K n w X (Z.of_nat p)).
Proof. move=> HA Hw Hp. tomx HA. by rewrite trans_mx /= !pow_mx //= trans_mx mxpow_tr. Qed.
End Pow.

Print Assumptions c79_conv.
Print Assumptions c79_pow.
