(** * The [ring] and [field] tactics on mathcomp structures; small determinants *)

From Coq Require Import ZArith List Lia Ring Field.
From mathcomp Require Import all_ssreflect all_algebra.

Set Implicit Arguments.
Unset Strict Implicit.
Unset Printing Implicit Defensive.

Import GRing.Theory.
Local Open Scope ring_scope.

(** The operations at a fixed carrier, so that [ring] recognises them whatever
    canonical structure they were written with. *)
Definition radd (R : comRingType) (a b : R) : R := a + b.
Definition rmul (R : comRingType) (a b : R) : R := a * b.
Definition ropp (R : comRingType) (a : R) : R := - a.
Definition rsub (R : comRingType) (a b : R) : R := a - b.
Definition rzero (R : comRingType) : R := 0.
Definition rone (R : comRingType) : R := 1.
Definition finv (F : fieldType) (a : F) : F := a^-1.
Definition fdiv (F : fieldType) (a b : F) : F := a / b.

Lemma comring_theory (R : comRingType) :
  ring_theory (rzero R) (rone R) (@radd R) (@rmul R) (@rsub R) (@ropp R) eq.
Proof.
split=> //.
- exact: add0r.
- exact: addrC.
- exact: addrA.
- exact: mul1r.
- exact: mulrC.
- exact: mulrA.
- exact: mulrDl.
- by move=> x; rewrite /radd subrr.
Qed.

Lemma mfield_theory (F : fieldType) :
  Field_theory.field_theory (rzero F) (rone F) (@radd F) (@rmul F) (@rsub F) (@ropp F)
    (@fdiv F) (@finv F) eq.
Proof.
split=> //.
- exact: comring_theory.
- by apply/eqP; exact: oner_neq0.
- by move=> p /eqP H; rewrite /rmul /finv mulVf.
Qed.

Ltac fold_ops R := repeat match goal with
  | |- context [@GRing.add ?Z ?x ?y] => change (@GRing.add Z x y) with (@radd R x y)
  | |- context [@GRing.mul ?Z ?x ?y] => change (@GRing.mul Z x y) with (@rmul R x y)
  | |- context [@GRing.opp ?Z ?x] => change (@GRing.opp Z x) with (@ropp R x)
  | |- context [@GRing.zero ?Z] => change (@GRing.zero Z) with (@rzero R)
  | |- context [@GRing.one ?Z] => change (@GRing.one Z) with (@rone R)
  end.
Ltac fold_finv F := repeat match goal with
  | |- context [@GRing.inv ?Z ?x] => change (@GRing.inv Z x) with (@finv F x)
  end.
Ltac at_carrier T := match goal with |- @eq _ ?a ?b => change (@eq T a b) end.

Ltac mc_ring R := fold_ops R; at_carrier (GRing.ComRing.sort R); ring.

Section DetF.
Variable R : comRingType.
Add Ring Rring : (comring_theory R).

(** the determinant of the leading n x n part of a function *)
Definition detf n (f : nat -> nat -> R) : R := \det (\matrix_(i < n, j < n) f i j).

Lemma detf_ext n (f g : nat -> nat -> R) :
  (forall i j, (i < n)%N -> (j < n)%N -> f i j = g i j) -> detf n f = detf n g.
Proof. by move=> H; congr (\det _); apply/matrixP => i j; rewrite !mxE H. Qed.

(** Laplace expansion along row i *)
Lemma detf_row n (f : nat -> nat -> R) i : (i < n)%N ->
  detf n f = \sum_(j < n) f i j * ((-1) ^+ (i + j) * detf n.-1 (fun a b => f (bump i a) (bump j b))).
Proof.
case: n => // n Hi; rewrite /detf (expand_det_row _ (Ordinal Hi)) /=.
apply: eq_bigr => j _; rewrite mxE /cofactor /=; congr (_ * (_ * \det _)).
by apply/matrixP => a b; rewrite !mxE.
Qed.

Lemma detf1 f : detf 1 f = f 0%N 0%N.
Proof. by rewrite /detf det_mx11 mxE. Qed.

Lemma detf2 f : detf 2 f = f 0%N 0%N * f 1%N 1%N - f 0%N 1%N * f 1%N 0%N.
Proof.
rewrite (@detf_row 2 f 0) // !big_ord_recl big_ord0 /= !detf1 /bump /= ?addn0 ?add0n.
rewrite ?expr0 ?expr1; mc_ring R.
Qed.

Lemma detf3 f : detf 3 f =
  f 0%N 0%N * f 1%N 1%N * f 2%N 2%N + f 0%N 1%N * f 1%N 2%N * f 2%N 0%N
  + f 0%N 2%N * f 1%N 0%N * f 2%N 1%N - f 0%N 2%N * f 1%N 1%N * f 2%N 0%N
  - f 0%N 1%N * f 1%N 0%N * f 2%N 2%N - f 0%N 0%N * f 1%N 2%N * f 2%N 1%N.
Proof.
rewrite (@detf_row 3 f 0) // !big_ord_recl big_ord0 /= !detf2 /bump /= ?addn0 ?add0n ?addn1 ?add1n.
rewrite -?exprnP ?expr0 ?expr1 ?sqrrN ?expr1n; mc_ring R.
Qed.
End DetF.
