(** * strassen in exact arithmetic, over any ring *)

From Coq Require Import ZArith List Lia.
From mathcomp Require Import all_ssreflect all_algebra.
From mathcomp Require Import zify.
From Verif Require Import Base Scalar Model Spec Loops Struct Exact ExactLemmas Sim IntMx.

Set Implicit Arguments.
Unset Strict Implicit.
Unset Printing Implicit Defensive.

Import GRing.Theory.
Local Open Scope ring_scope.

Section Exact.
Variables (R : unitRingType) (lt : R -> R -> bool) (ab : R -> R) (sq : R -> outcome R).
Notation K := (exactS lt ab sq).

Lemma sim_exact : @sim K R eq eq.
Proof.
by split=> //= a x b y -> -> v [<-].
Qed.

Lemma strassen_mx (A B : 'M[R]_2) :
  strassen K (mxrows A) (mxrows B) = Ok (mxrows (A *m B)).
Proof.
have [C E] : returns (strassen K (mxrows A) (mxrows B)).
  by rewrite (mxrowsE 0 A) (mxrowsE 0 B); apply: returns_strassen => a b; eexists.
have relE n m (X : 'M[R]_(n, m)) : @relM K R eq n m (mxrows X) X.
  by exists (mxf 0 X); split; [exact: mxrowsE|move=> i j; rewrite mxf_ord].
case: (strassen_sim sim_exact (relE _ _ A) (relE _ _ B) E) => f [Ef Hf].
by rewrite E Ef; congr Ok; symmetry; apply: mxrows_mk => i j; rewrite Hf.
Qed.
End Exact.
