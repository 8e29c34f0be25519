(** * mean, variance, standard deviation in exact arithmetic *)

From Coq Require Import ZArith List Lia.
From mathcomp Require Import all_ssreflect all_algebra.
From mathcomp Require Import zify.
From Verif Require Import Base Scalar Model Spec Loops Struct Exact ExactLemmas Alg Det.

Set Implicit Arguments.
Unset Strict Implicit.
Unset Printing Implicit Defensive.

Import GRing.Theory Num.Theory.
Local Open Scope ring_scope.
Delimit Scope Z_scope with Z.

(** sum of all entries *)
Definition msum (R : ringType) n m (A : 'M[R]_(n, m)) : R := \sum_i \sum_j A i j.

Section Sum.
Variables (R : comRingType) (n m : nat).
Implicit Types A B : 'M[R]_(n, m).

Lemma msumD A B : msum (A + B) = msum A + msum B.
Proof.
rewrite /msum -big_split; apply: eq_bigr => i _; rewrite -big_split.
by apply: eq_bigr => j _; rewrite mxE.
Qed.
Lemma msumZ s A : msum (s *: A) = s * msum A.
Proof.
rewrite /msum mulr_sumr; apply: eq_bigr => i _; rewrite mulr_sumr.
by apply: eq_bigr => j _; rewrite mxE.
Qed.
Lemma msum_const s : msum (const_mx s : 'M[R]_(n, m)) = (n * m)%:R * s.
Proof.
rewrite /msum; under eq_bigr do under eq_bigr do rewrite mxE.
rewrite big_const_ord iter_addr_0 big_const_ord iter_addr_0.
by rewrite mulr_natl -mulrnA mulnC.
Qed.
End Sum.

Section Loop.
Variables (R : unitRingType) (lt : R -> R -> bool) (ab : R -> R) (sq : R -> outcome R).
Notation K := (exactS lt ab sq).
Variables (n m : nat).
Implicit Types A : 'M[R]_(n, m).

(** accumulation over all elements *)
Lemma acc2 A (g : R -> R) (body : R -> R -> outcome R) :
  (forall a c, body a c = Ok (c + g a)) ->
  for_ 0 n (fun it r => for_ 0 m (fun jt r =>
    let* a := aget (mxrows A) it jt in body a r) r) 0 = Ok (\sum_i \sum_j g (A i j)).
Proof.
move=> H.
rewrite (@for_sum0 R n (fun i => \sum_(j < m) g (mxf 0 A i j))).
  by congr Ok; apply: eq_bigr => i _; apply: eq_bigr => j _; rewrite mxf_ord.
move=> i c Hi; rewrite (@for_sum R 0 m (fun j => g (mxf 0 A i j))) ?big_mkord //.
move=> j c' /andP[_ Hj]; rewrite (mxrowsE 0) aget_mk /=; try exact/ltP.
by rewrite H.
Qed.
End Loop.

Lemma size_mulE n m : (Z.of_nat (n * m) < 2 ^ 64)%Z -> size_mul n m = Z.of_nat (n * m).
Proof. by move=> H; rewrite /size_mul -Nat2Z.inj_mul Z.mod_small //; split; [exact: Nat2Z.is_nonneg|]. Qed.

Section Stat.
Variables (R : realFieldType) (sq : R -> outcome R).
Notation K := (ordS sq).
Variables (n m : nat).
Hypothesis Hpos : (0 < n * m)%N.
Implicit Types A B : 'M[R]_(n, m).

Lemma size_unit : ((n * m)%:R : R) != 0.
Proof. by rewrite pnatr_eq0 -lt0n. Qed.
Let Nz := size_unit.

Section Code.
Hypothesis Hsz : (Z.of_nat (n * m) < 2 ^ 64)%Z.

Lemma divszE (a : R) : @divsz K a (size_mul n m) = Ok (a / (n * m)%:R).
Proof. by rewrite /= size_mulE // ring_of_Z_nat /exact_div unitfE Nz. Qed.

Lemma mean_mx A : mean K n m (mxrows A) = Ok (mxmean A).
Proof.
rewrite /mean (@acc2 _ n m A id (fun a r => Ok (r + a))) //.
exact: divszE.
Qed.

Lemma var_mx A : var K n m (mxrows A) = Ok (mxvar A).
Proof.
rewrite /var mean_mx [bind _ _]/=.
rewrite (@acc2 _ n m A (fun a => (a - mxmean A) ^+ 2)
   (fun a r => Ok (r + (a - mxmean A) * (a - mxmean A)))) //.
exact: divszE.
Qed.
End Code.

Lemma mxmeanE A : mxmean A = msum A / (n * m)%:R. Proof. by []. Qed.

Lemma mxmean_shift A s : mxmean (A + const_mx s) = mxmean A + s.
Proof. by rewrite !mxmeanE msumD msum_const mulrDl mulrAC divff ?mul1r. Qed.

Lemma mxmean_add A B : mxmean (A + B) = mxmean A + mxmean B.
Proof. by rewrite !mxmeanE msumD mulrDl. Qed.

Lemma mxmean_scale A s : mxmean (s *: A) = s * mxmean A.
Proof. by rewrite !mxmeanE msumZ mulrA. Qed.

Lemma msum_ge A B : (forall i j, A i j <= B i j) -> msum A <= msum B.
Proof. by move=> H; apply: ler_sum => i _; apply: ler_sum => j _. Qed.

Lemma mxmean_le A B : (forall i j, A i j <= B i j) -> mxmean A <= mxmean B.
Proof. by move=> H; rewrite !mxmeanE ler_pdivr_mulr ?ltr0n // divfK // msum_ge. Qed.

Lemma mxmean_const s : mxmean (const_mx s : 'M[R]_(n, m)) = s.
Proof. by rewrite mxmeanE msum_const mulrAC divff ?mul1r. Qed.

Lemma mxmean_ge A lo : (forall i j, lo <= A i j) -> lo <= mxmean A.
Proof. by move=> H; rewrite -[X in X <= _]mxmean_const; apply: mxmean_le => i j; rewrite mxE. Qed.

Lemma mxmean_ub A hi : (forall i j, A i j <= hi) -> mxmean A <= hi.
Proof. by move=> H; rewrite -[X in _ <= X]mxmean_const; apply: mxmean_le => i j; rewrite mxE. Qed.

(** the matrix of squares *)
Definition mxsq A : 'M[R]_(n, m) := map_mx (fun x => x ^+ 2) A.

Lemma mxvarE A : mxvar A = mxmean (mxsq (A - const_mx (mxmean A))).
Proof.
rewrite /mxvar /mxmean; congr (_ / _).
by apply: eq_bigr => i _; apply: eq_bigr => j _; rewrite !mxE.
Qed.

Lemma mxvar_ge0 A : 0 <= mxvar A.
Proof. by rewrite mxvarE; apply: mxmean_ge => i j; rewrite mxE sqr_ge0. Qed.

Lemma mxvar_eq0 A : mxvar A = 0 <-> exists c, A = const_mx c.
Proof.
split=> [|[c ->]].
  move=> /eqP; rewrite /mxvar mulf_eq0 invr_eq0 (negbTE Nz) orbF => /eqP.
  move=> H; exists (mxmean A); apply/matrixP => i j; rewrite mxE.
  have H2 i' : 0 <= \sum_j' (A i' j' - mxmean A) ^+ 2 by apply: sumr_ge0 => *; exact: sqr_ge0.
  have := psumr_eq0P (fun i' _ => H2 i') H => /(_ i isT) H3.
  have := psumr_eq0P (fun j' _ => sqr_ge0 _) H3 => /(_ j isT) /eqP.
  by rewrite sqrf_eq0 subr_eq0 => /eqP.
rewrite mxvarE mxmean_const; have -> : mxsq (const_mx c - const_mx c) = const_mx 0.
  by apply/matrixP => i j; rewrite !mxE subrr expr0n.
exact: mxmean_const.
Qed.

Lemma mxvar_koenig A : mxvar A = mxmean (mxsq A) - mxmean A ^+ 2.
Proof.
rewrite mxvarE; set mu := mxmean A.
have -> : mxsq (A - const_mx mu) = mxsq A + ((- (mu *+ 2)) *: A + const_mx (mu ^+ 2)).
  by apply/matrixP => i j; rewrite !mxE sqrrB mulNr -addrA [A i j * _]mulrC mulrnAl.
rewrite !mxmean_add mxmean_scale mxmean_const -/mu; congr (_ + _).
by rewrite mulNr mulrnAl -expr2 mulr2n opprD addrNK.
Qed.

Lemma mxvar_shift A s : mxvar (A + const_mx s) = mxvar A.
Proof.
rewrite !mxvarE; congr mxmean; apply/matrixP => i j; rewrite !mxE mxmean_shift.
by congr (_ ^+ 2); rewrite opprD addrACA subrr addr0.
Qed.

Lemma mxvar_scale A s : mxvar (s *: A) = s ^+ 2 * mxvar A.
Proof.
rewrite !mxvarE -mxmean_scale; congr mxmean; apply/matrixP => i j; rewrite !mxE mxmean_scale.
by rewrite -mulrBr exprMn.
Qed.
End Stat.

(** the mean and variance of an empty matrix divide by zero *)
Lemma mean_empty (R : realFieldType) (sq : R -> outcome R) n m (A : 'M[R]_(n, m)) :
  (n * m = 0)%N -> mean (ordS sq) n m (mxrows A) = UB DivByZero /\
    var (ordS sq) n m (mxrows A) = UB DivByZero.
Proof.
move=> H0; have E : mean (ordS sq) n m (mxrows A) = UB DivByZero.
  rewrite /mean (@acc2 _ n m A id (fun a r => Ok (r + a))) //=.
  by rewrite size_mulE H0 // /exact_div unitr0.
by split => //; rewrite /var E.
Qed.

Section Real.
Variable R : rcfType.
Variables (n m : nat).
Hypothesis Hpos : (0 < n * m)%N.
Hypothesis Hsz : (Z.of_nat (n * m) < 2 ^ 64)%Z.

Lemma stddev_mx (A : 'M[R]_(n, m)) : stddev (realS R) n m (mxrows A) = Ok (Num.sqrt (mxvar A)).
Proof.
rewrite /stddev var_mx // [bind _ _]/=.
by rewrite Order.POrderTheory.le_gtF ?mxvar_ge0.
Qed.
End Real.
