(** * Matrices of dual numbers: what the ring operations do to values and derivatives *)

From Coq Require Import ZArith List Lia.
From mathcomp Require Import all_ssreflect all_algebra all_fingroup.
From mathcomp Require Import zify.
From Verif Require Import Base Scalar Model Spec Loops Struct Elim Alg Exact ExactLemmas Det Inv Param Dual.

Set Implicit Arguments.
Unset Strict Implicit.
Unset Printing Implicit Defensive.

Import GRing.Theory.
Local Open Scope ring_scope.

Section Dmx.
Variable F : fieldType.
Notation D := (dual F).

Lemma dual_eq (x y : D) : x.1 = y.1 -> x.2 = y.2 -> x = y.
Proof. by case: x y => [x1 x2] [y1 y2] /= -> ->. Qed.

(** the matrix with the values A and the derivatives B *)
Definition dmx n m (A B : 'M[F]_(n, m)) : 'M[dual_ringType F]_(n, m) := \matrix_(i, j) ((A i j, B i j) : D).

Lemma dmx_inj n m (A B A' B' : 'M[F]_(n, m)) : dmx A B = dmx A' B' -> A = A' /\ B = B'.
Proof. by move=> /matrixP E; split; apply/matrixP => i j; have := E i j; rewrite !mxE => -[]. Qed.

Lemma dmx_vals n m (X : 'M[dual_ringType F]_(n, m)) :
  X = dmx (\matrix_(i, j) (X i j).1) (\matrix_(i, j) (X i j).2).
Proof. by apply/matrixP => i j; rewrite !mxE; case: (X i j). Qed.

Lemma sum1 (I : finType) (g : I -> D) : (\sum_i g i).1 = \sum_i (g i).1.
Proof. exact: (raddf_sum (dval_additive F)). Qed.
Lemma sum2 (I : finType) (g : I -> D) : (\sum_i g i).2 = \sum_i (g i).2.
Proof. by elim/big_rec2: _ => // i x y _ <-. Qed.
Lemma sum2c (I : finType) (P : pred I) (g : I -> D) : (\sum_(i | P i) g i).2 = \sum_(i | P i) (g i).2.
Proof. by elim/big_rec2: _ => // i x y _ <-. Qed.

Lemma dmxD n m (A B A' B' : 'M[F]_(n, m)) : dmx A B + dmx A' B' = dmx (A + A') (B + B').
Proof. by apply/matrixP => i j; rewrite !mxE. Qed.
Lemma dmxN n m (A B : 'M[F]_(n, m)) : - dmx A B = dmx (- A) (- B).
Proof. by apply/matrixP => i j; rewrite !mxE. Qed.
Lemma dmxB n m (A B A' B' : 'M[F]_(n, m)) : dmx A B - dmx A' B' = dmx (A - A') (B - B').
Proof. by rewrite dmxN dmxD. Qed.
Lemma dmxT n m (A B : 'M[F]_(n, m)) : (dmx A B)^T = dmx A^T B^T.
Proof. by apply/matrixP => i j; rewrite !mxE. Qed.
Lemma dmxM n m p (A B : 'M[F]_(n, m)) (A' B' : 'M[F]_(m, p)) :
  dmx A B *m dmx A' B' = dmx (A *m A') (A *m B' + B *m A').
Proof.
apply/matrixP => i j; rewrite [LHS]mxE [RHS]mxE; apply: dual_eq; rewrite /= ?sum1 ?sum2 !mxE.
  by apply: eq_bigr => k _; rewrite !mxE.
by rewrite -big_split; apply: eq_bigr => k _; rewrite !mxE.
Qed.
Lemma dmx1 n : 1%:M = dmx (1%:M : 'M[F]_n) 0.
Proof. by apply/matrixP => i j; rewrite !mxE; case: (i == j). Qed.

Lemma dmxX n (A B : 'M[F]_n) p :
  mxpow (dmx A B) p = dmx (mxpow A p) (\sum_(k < p) mxpow A k *m B *m mxpow A (p - k.+1)).
Proof.
elim: p => [|p IH] /=; first by rewrite big_ord0 dmx1.
rewrite IH dmxM; congr dmx; rewrite big_ord_recl /= mul1mx subn1 addrC; congr (_ + _).
rewrite mulmx_sumr; apply: eq_bigr => k _.
by rewrite /bump /= add1n /= !mulmxA.
Qed.

(** a product of dual numbers *)
Lemma prod12 n (g : 'I_n -> D) : \prod_i g i =
  (\prod_i (g i).1, \sum_i (g i).2 * \prod_(k | i != k) (g k).1) :> D.
Proof.
elim: n g => [|n IH] g; first by rewrite !big_ord0.
rewrite big_ord_recl IH; apply: dual_eq; rewrite /= ?big_ord_recl //.
rewrite addrC; congr (_ * _ + _).
  by rewrite [in RHS]big_mkcond [in RHS]big_ord_recl /= mul1r.
rewrite mulr_sumr; apply: eq_bigr => i _; rewrite mulrCA; congr (_ * _).
rewrite [in RHS]big_mkcond [in RHS]big_ord_recl /= [in LHS]big_mkcond; congr (_ * _).
Qed.

(** Jacobi's formula *)
Lemma dmx_det n (A B : 'M[F]_n) : \det (dmx A B) = (\det A, \sum_i \sum_j cofactor A i j * B i j) :> D.
Proof.
rewrite /determinant.
have E (s : 'S_n) : (-1) ^+ s * \prod_i dmx A B i (s i) =
    ((-1) ^+ s * \prod_i A i (s i), \sum_i (-1) ^+ s * (B i (s i) * \prod_(k | i != k) A k (s k))) :> D.
  rewrite prod12.
  have -> : (-1) ^+ s = ((-1) ^+ s, 0) :> D by rewrite -[RHS]/(dcst _) rmorphX rmorphN rmorph1.
  apply: dual_eq; rewrite /= ?mul0r ?addr0.
    by congr (_ * _); apply: eq_bigr => i _; rewrite mxE.
  rewrite mulr_sumr; apply: eq_bigr => i _; rewrite mxE; congr (_ * (_ * _)).
  by apply: eq_bigr => k _; rewrite mxE.
rewrite (eq_bigr _ (fun s _ => E s)); apply: dual_eq; first by rewrite sum1.
rewrite sum2 /= exchange_big /=; apply: eq_bigr => i _.
rewrite (partition_big (fun s : 'S_n => s i) xpredT) //=; apply: eq_bigr => j _.
rewrite expand_cofactor mulr_suml; apply: eq_bigr => s /eqP <-.
by rewrite mulrAC mulrA.
Qed.

Lemma dmx_unit n (A B : 'M[F]_n) : (dmx A B \in unitmx) = (A \in unitmx).
Proof. by rewrite !unitmxE dmx_det dunitE /= unitfE. Qed.

Lemma dmx_inv n (A B : 'M[F]_n) : A \in unitmx ->
  invmx (dmx A B) = dmx (invmx A) (- (invmx A *m B *m invmx A)).
Proof.
move=> UA; have UD : dmx A B \in unitmx by rewrite dmx_unit.
have E : dmx A B *m dmx (invmx A) (- (invmx A *m B *m invmx A)) = 1%:M.
  by rewrite dmxM mulmxV // dmx1; congr dmx; rewrite mulmxN !mulmxA mulmxV // mul1mx addNr.
by rewrite -[LHS]mulmx1 -E mulmxA mulVmx // mul1mx.
Qed.

(** ** Along the line A + t*B: polynomials and their first two coefficients *)
Definition jet (p : {poly F}) : D := (p`_0, p`_1).
Lemma jet_morph : rmorphism jet.
Proof.
split=> [p q|]; first by apply: dual_eq; rewrite /= coefB.
split=> [p q|]; last by apply: dual_eq; rewrite /= coef1.
apply: dual_eq; rewrite /= coefM !big_ord_recl big_ord0 /= ?addr0 ?subn0 //.
Qed.
Canonical jet_additive := Additive jet_morph.
Canonical jet_rmorphism := RMorphism jet_morph.

(** the matrix of polynomials A + 'X B *)
Definition line n m (A B : 'M[F]_(n, m)) : 'M[{poly F}]_(n, m) := \matrix_(i, j) ((A i j)%:P + 'X * (B i j)%:P).

Lemma line_jet n m (A B : 'M[F]_(n, m)) : map_mx jet (line A B) = dmx A B.
Proof.
apply/matrixP => i j; rewrite !mxE; apply: dual_eq; rewrite /= coefD coefXM !coefC /= ?addr0 ?add0r //.
Qed.
Lemma line_horner n m (A B : 'M[F]_(n, m)) t : map_mx (horner_eval t) (line A B) = A + t *: B.
Proof.
by apply/matrixP => i j; rewrite !mxE /horner_eval hornerD hornerM hornerX !hornerC.
Qed.

Lemma poly_taylor (p : {poly F}) : exists q : {poly F}, forall t, p.[t] = p`_0 + t * p`_1 + t ^+ 2 * q.[t].
Proof.
exists (\poly_(k < size p) p`_(k.+2)) => t.
have E : p = (p`_0)%:P + 'X * (p`_1)%:P + 'X^2 * \poly_(k < size p) p`_(k.+2).
  apply/polyP => k; rewrite !coefD coefXM coefXnM !coefC coef_poly.
  case: k => [|[|k]] /=; rewrite ?addr0 ?add0r // !subSS subn0.
  by case: ltnP => // H; rewrite nth_default //; lia.
by rewrite {1}E hornerD [('X^2 * _).[t]]hornerM hornerXn hornerD hornerM hornerX !hornerC.
Qed.

Lemma det_taylor n (A B : 'M[F]_n) : exists q : {poly F}, forall t,
  \det (A + t *: B) = \det A + t * (\sum_i \sum_j cofactor A i j * B i j) + t ^+ 2 * q.[t].
Proof.
have [q Hq] := poly_taylor (\det (line A B)); exists q => t.
have : jet (\det (line A B)) = \det (dmx A B) by rewrite -det_map_mx line_jet.
rewrite dmx_det => -[<- <-]; rewrite -Hq -[RHS]/(horner_eval t _) -det_map_mx.
by rewrite line_horner.
Qed.

(** the derivative of the inverse, with the remainder *)
Lemma inv_taylor n (A B : 'M[F]_n) t : A \in unitmx -> A + t *: B \in unitmx ->
  invmx (A + t *: B) = invmx A + t *: (- (invmx A *m B *m invmx A)) +
    t ^+ 2 *: (invmx A *m B *m invmx A *m B *m invmx (A + t *: B)).
Proof.
set V := invmx A; set W := invmx _ => UA UC.
have E : W = V - t *: (V *m B *m W).
  have : V *m (A + t *: B) *m W = V by rewrite -mulmxA mulmxV // mulmx1.
  rewrite mulmxDr mulVmx // mulmxDl mul1mx -scalemxAr -scalemxAl => E0.
  exact: (canRL (addrK _) E0).
rewrite {1}E {1}E mulmxBr scalerBr opprB addrA -scalemxAr scalerA -expr2 !mulmxA.
by rewrite scalerN addrAC.
Qed.
End Dmx.
