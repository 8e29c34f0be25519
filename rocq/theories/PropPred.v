(** * Properties C32-C34, C36: predicates and absolute value *)

From Coq Require Import ZArith List Lia.
From mathcomp Require Import all_ssreflect all_algebra.
From mathcomp Require Import zify.
From Verif Require Import Base Scalar Model CInt Spec Loops Struct Exact ExactLemmas Preds PropAlg.

Set Implicit Arguments.
Unset Strict Implicit.
Unset Printing Implicit Defensive.

Import Order.TTheory GRing.Theory Num.Theory.
Local Notation ltP := ssrnat.ltP (only parsing).
Local Notation leP := ssrnat.leP (only parsing).
Local Open Scope ring_scope.
Delimit Scope Z_scope with Z.

(** ** C32 isSymetric *)

(** every element type: the pairs strictly below the diagonal are compared *)
Theorem c32_any (K : scalar) n (f : nat -> nat -> elt K) :
  exists b, isSymetric K n (mk n n f) = Ok b /\
  (b = true <-> forall i j, (j < i < n)%N -> xeq (ld (f i j)) (ld (f j i)) = true).
Proof.
  have [b [E H]] := isSymetric_mk K n f. exists b; split=> //. rewrite H; split=> G i j.
  - move=> /andP [/ltP H1 /ltP H2]. exact: G.
  - move=> [/ltP H1 /ltP H2]. apply: G. by rewrite H1 H2.
Qed.
Print Assumptions c32_any.

(** if == is reflexive and symmetric on the elements of A (no NaN), that is all pairs *)
Theorem c32_all_pairs (K : scalar) n (f : nat -> nat -> elt K) :
  (forall i j, xeq (ld (f i j)) (ld (f i j)) = true) ->
  (forall i j k l, xeq (ld (f i j)) (ld (f k l)) = xeq (ld (f k l)) (ld (f i j))) ->
  exists b, isSymetric K n (mk n n f) = Ok b /\
  (b = true <-> forall i j, (i < n)%N -> (j < n)%N -> xeq (ld (f i j)) (ld (f j i)) = true).
Proof.
  move=> Hr Hs. have [b [E H]] := c32_any n f. exists b; split=> //. rewrite H; split=> G i j.
  - move=> Hi Hj. case: (ltngtP i j) => [L|L|->]; last exact: Hr.
    + rewrite Hs. apply: G. by rewrite L Hj.
    + apply: G. by rewrite L Hi.
  - move=> /andP [H1 H2]. apply: G => //. exact: ltn_trans H1 H2.
Qed.
Print Assumptions c32_all_pairs.

(** exact arithmetic *)
Theorem c32_exact (R : unitRingType) lt ab sq n (A : matrix R) : shape n n A ->
  let K := exactS lt ab sq in
  exists b, isSymetric K n A = Ok b /\ (b = true <-> trans K n n A = Ok A).
Proof.
  move=> H; tomx H. rewrite /= trans_mx (mxrowsE 0 X).
  have [b [-> Hb]] := @c32_all_pairs (exactS lt ab sq) n (mxf 0 X) (fun _ _ => eqxx _)
    (fun _ _ _ _ => eq_sym _ _).
  exists b; split=> //. rewrite Hb /=. split.
  - move=> G. rewrite -mxrowsE. congr (Ok (mxrows _)). apply/matrixP=> i j; rewrite mxE.
    have /eqP := G _ _ (ltn_ord j) (ltn_ord i). by rewrite !mxf_ord.
  - rewrite -mxrowsE => -[/(mxrows_inj 0) E] i j Hi Hj.
    have := congr1 (fun M : 'M_n => M (Ordinal Hi) (Ordinal Hj)) E; rewrite mxE.
    by rewrite -(mxf_ord 0 X (Ordinal Hj)) -(mxf_ord 0 X (Ordinal Hi)) /= => ->; rewrite eqxx.
Qed.
Print Assumptions c32_exact.

Example c32_ex : isSymetric (intS int32) 2 [:: [:: 1; 2]; [:: 2; 5]]%Z = Ok true /\
  isSymetric (intS int32) 2 [:: [:: 1; 2]; [:: 3; 5]]%Z = Ok false.
Proof. by []. Qed.

(** ** C33 isIdentity *)

Theorem c33_isIdentity n (f : nat -> nat -> Z) :
  exists b, isIdentity (intS uint32) n (mk n n f) = Ok b /\
  (b = true <-> forall i j, (i < n)%N -> (j < n)%N -> f i j = if i == j then 1%Z else 0%Z).
Proof.
  have [b [E H]] := isIdentity_mk (intS uint32) n f. exists b; split=> //. rewrite H; split=> G i j.
  - move=> /ltP Hi /ltP Hj. move: (G i j Hi Hj); rewrite /= -[Nat.eqb i j]/(i == j).
    by case: (i == j) => /Z.eqb_eq.
  - move=> /ltP Hi /ltP Hj. rewrite /= (G i j Hi Hj) -[Nat.eqb i j]/(i == j). by case: (i == j).
Qed.
Print Assumptions c33_isIdentity.

(** equivalently: A is the array eye returns *)
Theorem c33_eye n (A : matrix Z) : shape n n A ->
  exists b, isIdentity (intS uint32) n A = Ok b /\ (b = true <-> eye1 (intS uint32) n = Ok A).
Proof.
  move=> /(shape_mk (0 : Z)%Z) [f ->]. have [b [E H]] := c33_isIdentity n f.
  exists b; split=> //. rewrite eye1_mk H; split=> G.
  - congr Ok. apply: mk_ext => i j /ltP Hi /ltP Hj. by rewrite G.
  - case: G => /mk_inj G i j /ltP Hi /ltP Hj. by rewrite -G.
Qed.
Print Assumptions c33_eye.

Example c33_ex : isIdentity (intS uint32) 2 [:: [:: 1; 0]; [:: 0; 1]]%Z = Ok true /\
  isIdentity (intS uint32) 2 [:: [:: 1; 0]; [:: 4294967295; 1]]%Z = Ok false.
Proof. by []. Qed.

(** ** C34 compare, exact ordered arithmetic *)
Section C34.
Variables (R : realFieldType) (sq : R -> outcome R).
Notation K := (ordS sq).

Theorem c34_compare n m (A B : 'M[R]_(n, m)) (e : R) :
  exists b, compare K n m (mxrows A) (mxrows B) e = Ok b /\
  (b = true <-> forall i j, `|A i j - B i j| <= e).
Proof.
  rewrite (mxrowsE 0 A) (mxrowsE 0 B).
  have [|b [-> H]] := @compare_mk K n m (mxf 0 A) (mxf 0 B)
    (fun i j => `|mxf 0 A i j - mxf 0 B i j|) e; first by [].
  exists b; split=> //. rewrite H; split=> G i j.
  - have /ltP Hi := ltn_ord i. have /ltP Hj := ltn_ord j.
    have := G i j Hi Hj; rewrite /= !mxf_ord. by rewrite leNgt => ->.
  - move=> /ltP Hi /ltP Hj. have := G (Ordinal Hi) (Ordinal Hj).
    rewrite -(mxf_ord 0 A) -(mxf_ord 0 B) /=. by rewrite leNgt => /negbTE.
Qed.

Lemma compareP n m (A B : 'M[R]_(n, m)) (e : R) :
  compare K n m (mxrows A) (mxrows B) e = Ok true <-> forall i j, `|A i j - B i j| <= e.
Proof.
  have [b [-> H]] := c34_compare A B e. rewrite -H. by split=> [[]|->].
Qed.

Theorem c34_refl n m (A : matrix R) e : shape n m A -> 0 <= e -> compare K n m A A e = Ok true.
Proof. move=> H He; tomx H. apply/compareP=> i j. by rewrite subrr normr0. Qed.

Theorem c34_sym n m (A B : matrix R) e : shape n m A -> shape n m B ->
  compare K n m A B e = compare K n m B A e.
Proof.
  move=> H1 H2; tomx H1; tomx H2.
  have [b [-> Hb]] := c34_compare X X0 e. have [c [-> Hc]] := c34_compare X0 X e.
  congr Ok. apply/idP/idP.
  - move/Hb=> H; apply/Hc=> i j; by rewrite distrC.
  - move/Hc=> H; apply/Hb=> i j; by rewrite distrC.
Qed.

Theorem c34_mono n m (A B : matrix R) e e' : shape n m A -> shape n m B -> e <= e' ->
  compare K n m A B e = Ok true -> compare K n m A B e' = Ok true.
Proof.
  move=> H1 H2 L; tomx H1; tomx H2. move/compareP=> H; apply/compareP=> i j.
  exact: le_trans (H i j) L.
Qed.

Theorem c34_triangle n m (A B C : matrix R) e1 e2 : shape n m A -> shape n m B -> shape n m C ->
  compare K n m A B e1 = Ok true -> compare K n m B C e2 = Ok true ->
  compare K n m A C (e1 + e2) = Ok true.
Proof.
  move=> H1 H2 H3; tomx H1; tomx H2; tomx H3.
  move/compareP=> G1 /compareP G2; apply/compareP=> i j.
  apply: le_trans (ler_add (G1 i j) (G2 i j)). exact: ler_dist_add.
Qed.

(** tolerance 0 is equality *)
Theorem c34_zero n m (A B : matrix R) : shape n m A -> shape n m B ->
  (compare K n m A B 0 = Ok true <-> A = B).
Proof.
  move=> H1 H2; tomx H1; tomx H2. rewrite compareP; split=> H.
  - congr mxrows; apply/matrixP=> i j. have := H i j. by rewrite normr_le0 subr_eq0 => /eqP.
  - move=> i j. by rewrite (mxrows_inj 0 H) subrr normr0.
Qed.

(** ** C36 abs, exact part *)

Theorem c36_abs n m junk (A : 'M[R]_(n, m)) :
  Model.abs K n m (mk n m junk) (mxrows A) = Ok (mxrows (\matrix_(i, j) `|A i j|)).
Proof.
  rewrite (mxrowsE 0 A) abs_tab. apply: tabM_mx => i j. by rewrite mxE /= mxf_ord.
Qed.

Theorem c36_idem n m (J A : matrix R) : shape n m J -> shape n m A ->
  (let* X := Model.abs K n m J A in Model.abs K n m J X) = Model.abs K n m J A.
Proof.
  move=> /(shape_mk 0) [j ->] H; tomx H. rewrite c36_abs /= c36_abs. congr (Ok (mxrows _)).
  apply/matrixP=> i k; by rewrite !mxE normr_id.
Qed.
End C34.
Print Assumptions c34_compare.
Print Assumptions c34_refl.
Print Assumptions c34_sym.
Print Assumptions c34_mono.
Print Assumptions c34_triangle.
Print Assumptions c34_zero.
Print Assumptions c36_abs.
Print Assumptions c36_idem.

(** every element type: what the result array contained before is irrelevant *)
Theorem c36_junk (K : scalar) n m (J J' A : matrix (elt K)) :
  shape n m J -> shape n m J' -> shape n m A ->
  Model.abs K n m J A = Model.abs K n m J' A.
Proof.
  move=> /(shape_mk (lite K 0)) [j ->] /(shape_mk (lite K 0)) [j' ->] /(shape_mk (lite K 0)) [f ->].
  by rewrite !abs_tab.
Qed.
Print Assumptions c36_junk.

Example c36_ex : Model.abs (intS int32) 2 2 [:: [:: 9; 9]; [:: 9; 9]]%Z [:: [:: 1; -2]; [:: 0; -4]]%Z
  = Ok [:: [:: 1; 2]; [:: 0; 4]]%Z.
Proof. by []. Qed.

Example c34_ex (sq : rat -> outcome rat) :
  compare (ordS sq) 1 2 [:: [:: 1; 2%:R]] [:: [:: 1; 3%:R]] 1 = Ok true /\
  compare (ordS sq) 1 2 [:: [:: 1; 2%:R]] [:: [:: 1; 3%:R]] (1 / 2%:R) = Ok false.
Proof. by []. Qed.
