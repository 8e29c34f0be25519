(** * C99: matrices of complex numbers in exact arithmetic

    [R] is an ordered field, [R[i]] mathcomp's complex numbers over it.  The
    element type [C] is std::complex over [R] (CComplex.v), with the operations no
    theorem depends on arbitrary. *)

From Coq Require Import ZArith List Lia.
From mathcomp Require Import all_ssreflect all_algebra.
From mathcomp Require Import complex.
From mathcomp Require Import zify ssrZ.
From Verif Require Import Base Scalar Model Spec Loops Struct CComplex Param RingOps Exact ExactLemmas Det SimExact Preds PropAlg BoundedInt.

Set Implicit Arguments.
Unset Strict Implicit.
Unset Printing Implicit Defensive.

Import GRing.Theory Num.Theory.
Local Open Scope ring_scope.
Delimit Scope Z_scope with Z.

Section Exact.
Variables (R : realFieldType) (lt : R -> R -> bool) (ab : R -> R) (sq : R -> outcome R).
Notation K := (exactS lt ab sq).
Variable o : rest K.
Notation C := (complexS K no_fix o).
Variables (ltc : R[i] -> R[i] -> bool) (abc : R[i] -> R[i]) (sqc : R[i] -> outcome R[i]).
Notation RI := (exactS ltc abc sqc).

(** the two parts of a complex number, and a matrix of complex numbers as the
    program stores it *)
Definition parts (z : R[i]) : R * R := (complex.Re z, complex.Im z).
Definition crows n m (A : 'M[R[i]]_(n, m)) : matrix (R * R) := mxrows (map_mx parts A).
(** the matrix of the real parts, and that of the imaginary parts *)
Definition re_mx n m (A : 'M[R[i]]_(n, m)) : 'M[R]_(n, m) := map_mx (@complex.Re R) A.
Definition im_mx n m (A : 'M[R[i]]_(n, m)) : 'M[R]_(n, m) := map_mx (@complex.Im R) A.

Definition isparts (z : R[i]) (p : R * R) : Prop := p = parts z.

Lemma parts_preserved : preserved RI C isparts.
Proof.
apply: (@preserved_intro RI C isparts isparts).
- by move=> z p ->.
- by move=> z p ->.
- by [].
- by [].
- by move=> [a b] p [c d] q -> ->; apply: ref_ok.
- by move=> [a b] p [c d] q -> ->; apply: ref_ok.
- by move=> [a b] p [c d] q -> ->; apply: ref_ok.
Qed.

Lemma crows_rel n m (A : 'M[R[i]]_(n, m)) : mrel isparts (mxrows A) (crows A).
Proof.
rewrite (mxrowsE 0 A) /crows (@mxrows_mk _ n m _ (fun i j => parts (mxf 0 A i j))).
  exact: mrel_mk.
by move=> i j; rewrite mxf_ord !mxE.
Qed.
Lemma rel_crows n m (A : 'M[R[i]]_(n, m)) X : mrel isparts (mxrows A) X -> X = crows A.
Proof.
have V : forall r x y, Forall2 isparts r x -> Forall2 isparts r y -> x = y.
  move=> r x y H; elim: H y => [|z p r' x' Hz _ IH] y HY; inversion HY as [|? q ? y' Hq H']; subst => //.
  by rewrite (IH _ H') Hz Hq.
have G : forall (M : matrix R[i]) X Y, mrel isparts M X -> mrel isparts M Y -> X = Y.
  move=> M X0 Y0 H; elim: H Y0 => [|r r' M' X' Hr _ IH] Y0 HY; inversion HY as [|? q ? y' Hq H']; subst => //.
  by rewrite (IH _ H') (V _ _ _ Hr Hq).
by move=> H; apply: (G _ _ _ H (crows_rel A)).
Qed.

Lemma ref_to n m (A : 'M[R[i]]_(n, m)) x y : x = Ok (mxrows A) -> refines (mrel isparts) x y -> y = Ok (crows A).
Proof. by move=> -> [Y [-> /rel_crows ->]]. Qed.

(** sums, products, transposes and small determinants are those of complex matrices *)
Theorem c99_exact_sum n m (A B : 'M[R[i]]_(n, m)) : sum C n m (crows A) (crows B) = Ok (crows (A + B)).
Proof. apply: (ref_to (sum_mx ltc abc sqc A B)). by apply: (proj1 parts_preserved); exact: crows_rel. Qed.
Theorem c99_exact_sub n m (A B : 'M[R[i]]_(n, m)) : sub C n m (crows A) (crows B) = Ok (crows (A - B)).
Proof. apply: (ref_to (sub_mx ltc abc sqc A B)). by apply: (proj1 (proj2 parts_preserved)); exact: crows_rel. Qed.
Theorem c99_exact_scale n m (A : 'M[R[i]]_(n, m)) z :
  mult_scalar C n m (crows A) (parts z) = Ok (crows (z *: A)).
Proof.
apply: (@ref_to _ _ _ (mult_scalar RI n m (mxrows A) z)).
  by rewrite mult_scalar_mx; congr (Ok (mxrows _)); apply/matrixP => i j; rewrite !mxE mulrC.
by apply: (proj1 (proj2 (proj2 parts_preserved))) => //; exact: crows_rel.
Qed.
Theorem c99_exact_mult n m p (A : 'M[R[i]]_(n, m)) (B : 'M[R[i]]_(m, p)) :
  mult C n m p (crows A) (crows B) = Ok (crows (A *m B)).
Proof. apply: (ref_to (mult_mx ltc abc sqc A B)). by apply: (proj1 (proj2 (proj2 (proj2 parts_preserved)))); exact: crows_rel. Qed.
Theorem c99_exact_strassen (A B : 'M[R[i]]_2) : strassen C (crows A) (crows B) = Ok (crows (A *m B)).
Proof.
apply: (@ref_to _ _ _ (strassen RI (mxrows A) (mxrows B))); first exact: strassen_mx.
by apply: (proj1 (proj2 (proj2 (proj2 (proj2 parts_preserved))))); exact: crows_rel.
Qed.
Theorem c99_exact_trans n m (A : 'M[R[i]]_(n, m)) : trans C n m (crows A) = Ok (crows A^T).
Proof. apply: (ref_to (trans_mx ltc abc sqc A)). by apply: (proj1 (proj2 (proj2 (proj2 (proj2 (proj2 parts_preserved)))))); exact: crows_rel. Qed.
Theorem c99_exact_det n (A : 'M[R[i]]_n) : (0 < n <= 3)%N -> det C n (crows A) = Ok (parts (\det A)).
Proof.
move=> Hn. have H : refines isparts (det RI n (mxrows A)) (det C n (crows A)).
  by apply: (proj1 (proj2 (proj2 (proj2 (proj2 (proj2 (proj2 parts_preserved))))))); [lia | exact: crows_rel].
by move: H; rewrite det_mx => -[d [-> ->]].
Qed.

(** a complex product by four real ones *)
Lemma Re_add (z w : R[i]) : complex.Re (z + w) = complex.Re z + complex.Re w.
Proof. by case: z => a b; case: w. Qed.
Lemma Im_add (z w : R[i]) : complex.Im (z + w) = complex.Im z + complex.Im w.
Proof. by case: z => a b; case: w. Qed.
Lemma parts_mul n m p (A : 'M[R[i]]_(n, m)) (B : 'M[R[i]]_(m, p)) :
  re_mx (A *m B) = re_mx A *m re_mx B - im_mx A *m im_mx B /\
  im_mx (A *m B) = re_mx A *m im_mx B + im_mx A *m re_mx B.
Proof.
split; apply/matrixP => i j; rewrite !mxE.
- rewrite (big_morph (@complex.Re R) (id1 := 0) (op1 := +%R) Re_add (erefl : complex.Re (0 : R[i]) = 0)) -sumrB; apply: eq_bigr => k _; rewrite !mxE; by case: (A i k) => a b; case: (B k j).
- rewrite (big_morph (@complex.Im R) (id1 := 0) (op1 := +%R) Im_add (erefl : complex.Im (0 : R[i]) = 0)) -big_split; apply: eq_bigr => k _; rewrite !mxE; by case: (A i k) => a b; case: (B k j).
Qed.

Theorem c99_four_products n m p (A : 'M[R[i]]_(n, m)) (B : 'M[R[i]]_(m, p)) :
  exists M : 'M[R[i]]_(n, p), mult C n m p (crows A) (crows B) = Ok (crows M) /\
  (let* P := mult K n m p (mxrows (re_mx A)) (mxrows (re_mx B)) in
   let* Q := mult K n m p (mxrows (im_mx A)) (mxrows (im_mx B)) in
   sub K n p P Q) = Ok (mxrows (re_mx M)) /\
  (let* P := mult K n m p (mxrows (re_mx A)) (mxrows (im_mx B)) in
   let* Q := mult K n m p (mxrows (im_mx A)) (mxrows (re_mx B)) in
   sum K n p P Q) = Ok (mxrows (im_mx M)).
Proof.
exists (A *m B); split; first exact: c99_exact_mult. have [E1 E2] := parts_mul A B.
by rewrite !mult_mx /= sub_mx sum_mx E1 E2.
Qed.

(** ... or by one real product of twice the size: X + iY as [[X, -Y], [Y, X]] *)
Definition dbl n m (A : 'M[R[i]]_(n, m)) : 'M[R]_(n + n, m + m) :=
  block_mx (re_mx A) (- im_mx A) (im_mx A) (re_mx A).
Theorem c99_double n m p (A : 'M[R[i]]_(n, m)) (B : 'M[R[i]]_(m, p)) :
  exists M : 'M[R[i]]_(n, p), mult C n m p (crows A) (crows B) = Ok (crows M) /\
  mult K (n + n) (m + m) (p + p) (mxrows (dbl A)) (mxrows (dbl B)) = Ok (mxrows (dbl M)).
Proof.
exists (A *m B); split; first exact: c99_exact_mult. have [E1 E2] := parts_mul A B.
rewrite mult_mx /dbl mulmx_block E1 E2 !mulNmx !mulmxN opprD. by congr (Ok (mxrows (block_mx _ _ _ _))); rewrite addrC.
Qed.

(** isSymetric compares A with its transpose, not with its conjugate transpose *)
Theorem c99_symmetric n (A : 'M[R[i]]_n) : isSymetric C n (crows A) = Ok (A^T == A).
Proof.
rewrite /crows (@mxrows_mk _ n n _ (fun i j => parts (mxf 0 A i j))); last by move=> i j; rewrite mxf_ord !mxE.
have [b [-> Hb]] := @isSymetric_mk C n (fun i j => parts (mxf 0 A i j)). congr Ok.
have P : forall z w : R[i], @xeq C (@ld C (parts z)) (@ld C (parts w)) = (z == w) by move=> [a c] [d e] /=; rewrite eq_complex.
apply/idP/idP => [/Hb H | /eqP H].
- apply/eqP/matrixP => i j; rewrite mxE.
  have H' : forall i j : 'I_n, (j < i)%N -> A i j = A j i.
    move=> i' j' L. have Hi : (i' < n)%coq_nat by apply/ssrnat.ltP. have Hj : (j' < i')%coq_nat by apply/ssrnat.ltP.
    have := H i' j' (conj Hj Hi). by rewrite P !mxf_ord => /eqP.
  case: (ltnP j i) => [L|]; first by rewrite (H' _ _ L). rewrite leq_eqVlt => /orP[/eqP /val_inj -> // | L]. by rewrite (H' _ _ L).
- apply/Hb => i j Hij; rewrite P. have Hi : (i < n)%N by lia. have Hj : (j < n)%N by lia.
  have := mxf_ord 0 A (Ordinal Hi) (Ordinal Hj). have := mxf_ord 0 A (Ordinal Hj) (Ordinal Hi). rewrite /= => -> ->.
  apply/eqP. by have /matrixP/(_ (Ordinal Hi) (Ordinal Hj)) := H; rewrite mxE => ->.
Qed.
End Exact.

(** ** examples over the rational numbers *)
Section Examples.
Variable sq : rat -> outcome rat.
Notation K := (ordS sq).
Variable o : rest K.
Notation C := (complexS K no_fix o).
Notation q := (fun z : Z => ring_of_Z [ringType of rat] z).

(** i * i = -1 *)
Example c99_i_example : mult C 1 1 1 [:: [:: (q 0, q 1)]] [:: [:: (q 0, q 1)]] = Ok [:: [:: (q (-1), q 0)]].
Proof. by vm_compute. Qed.
(** a row that is not zero, times its transpose, is zero: (1, i) *)
Example c99_isotropic_example :
  (let* T := trans C 1 2 [:: [:: (q 1, q 0); (q 0, q 1)]] in mult C 1 2 1 [:: [:: (q 1, q 0); (q 0, q 1)]] T)
  = Ok [:: [:: (q 0, q 0)]].
Proof. by vm_compute. Qed.
(** a Hermitian matrix is not symmetric, a symmetric one not Hermitian *)
Example c99_hermitian_example :
  isSymetric C 2 [:: [:: (q 1, q 0); (q 0, q 1)]; [:: (q 0, q (-1)); (q 1, q 0)]] = Ok false /\
  isSymetric C 2 [:: [:: (q 1, q 0); (q 0, q 1)]; [:: (q 0, q 1); (q 1, q 0)]] = Ok true.
Proof. by vm_compute. Qed.
(** det [[1+i, 2], [3i, 1-i]] = 2 - 6i *)
Example c99_det_example :
  det C 2 [:: [:: (q 1, q 1); (q 2, q 0)]; [:: (q 0, q 3); (q 1, q (-1))]] = Ok (q 2, q (-6)).
Proof. by vm_compute. Qed.
End Examples.

Print Assumptions c99_exact_sum.
Print Assumptions c99_exact_sub.
Print Assumptions c99_exact_scale.
Print Assumptions c99_exact_mult.
Print Assumptions c99_exact_strassen.
Print Assumptions c99_exact_trans.
Print Assumptions c99_exact_det.
Print Assumptions c99_four_products.
Print Assumptions c99_double.
Print Assumptions c99_symmetric.
