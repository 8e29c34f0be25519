(** * C98: eigenvalues, the characteristic polynomial, updates and least squares

    Exact arithmetic.  [evalp c x] is the value at x of the polynomial with the
    coefficients c, the constant one first; [evalm c n A] computes the same with
    the calls a program would make, by Horner's rule. *)

From Coq Require Import ZArith List Lia.
From mathcomp Require Import all_ssreflect all_algebra.
From mathcomp Require Import zify ssrZ.
From Verif Require Import Base Scalar Model Spec Loops Struct Elim Alg Exact ExactLemmas Det Inv Pow PropAlg PropBlockExact PropPowers.

Set Implicit Arguments.
Unset Strict Implicit.
Unset Printing Implicit Defensive.

Import mathcomp.ssreflect.order.Order.TTheory GRing.Theory Num.Theory.
Local Notation ltP := ssrnat.ltP (only parsing).
Local Notation leP := ssrnat.leP (only parsing).
Local Open Scope ring_scope.
Delimit Scope Z_scope with Z.

Section Field.
Variables (F : fieldType) (lt : F -> F -> bool) (ab : F -> F) (sq : F -> outcome F).
Notation K := (exactS lt ab sq).

(** ** specification *)
Fixpoint evalp (c : seq F) (x : F) : F := if c is a :: c' then a + x * evalp c' x else 0.
Fixpoint evalm n (c : seq F) (A : matrix F) : outcome (matrix F) :=
  if c is a :: c' then
    let* X := evalm n c' A in
    let* Y := mult K n n n A X in
    let* E := eye1 K n in
    let* D := mult_scalar K n n E a in
    sum K n n Y D
  else Ok (zeros K n n).
(** det(x*eye - A) *)
Definition chardet n (A : matrix F) (x : F) : outcome F :=
  let* E := eye1 K n in
  let* X := mult_scalar K n n E x in
  let* Y := sub K n n X A in
  det K n Y.

Lemma scale_mx n m (A : 'M[F]_(n, m)) s : mult_scalar K n m (mxrows A) s = Ok (mxrows (s *: A)).
Proof. by rewrite mult_scalar_mx; congr (Ok (mxrows _)); apply/matrixP => i j; rewrite !mxE mulrC. Qed.

Lemma chardet_mx n (A : 'M[F]_n) x : chardet n (mxrows A) x = Ok (char_poly A).[x].
Proof.
rewrite /chardet eye1_mx /= scale_mx /= sub_mx /= det_mx. congr Ok.
rewrite /char_poly -[RHS]/(horner_eval x (\det (char_poly_mx A))) -det_map_mx. congr (\det _).
apply/matrixP => i j. rewrite !mxE /= horner_evalE hornerD hornerN hornerC.
by case: (i == j); rewrite ?mulr1n ?mulr0n ?hornerX ?horner0 ?mulr1 ?mulr0.
Qed.

Lemma char_poly_trmx n (A : 'M[F]_n) : char_poly A^T = char_poly A.
Proof. by rewrite /char_poly -det_tr; congr (\det _); apply/matrixP => i j; rewrite !mxE eq_sym. Qed.

Lemma evalp_poly c x : evalp c x = (Poly c).[x].
Proof. by elim: c => [|a c IH] /=; rewrite ?horner0 // horner_cons IH addrC mulrC. Qed.

Lemma evalm_mx n c (A : 'M[F]_n.+1) : evalm n.+1 c (mxrows A) = Ok (mxrows (horner_mx A (Poly c))).
Proof.
elim: c => [|a c IH]; first by rewrite /= zeros_mx rmorph0.
rewrite [evalm _ _ _]/= IH /= mult_mx /= eye1_mx /= scale_mx /= sum_mx. congr (Ok (mxrows _)).
rewrite cons_poly_def rmorphD rmorphM /= horner_mx_X horner_mx_C scalemx1. congr (_ + _).
by rewrite -[A *m _]/(A * _); apply/esym/comm_horner_mx.
Qed.

(** ** eigenvalues *)
(** det(x*eye - A) is zero exactly when A multiplies some non-zero column by x *)
Theorem c98_eigen n (A : matrix F) x : shape n n A ->
  chardet n A x = Ok 0 <->
  exists V, shape n 1 V /\ V <> zeros K n 1 /\ mult K n n 1 A V = mult_scalar K n 1 V x.
Proof.
move=> H; tomx H. rewrite chardet_mx. split.
- move=> [E]. have : eigenvalue X^T x by rewrite eigenvalue_root_char char_poly_trmx; apply/eqP.
  move=> /eigenvalueP [v Ev N]. exists (mxrows v^T). split; first exact: (shape_mxrows 0).
  rewrite zeros_mx mult_mx scale_mx. split.
    by move=> /(mxrows_inj 0) /(congr1 trmx); rewrite trmxK trmx0; apply/eqP.
  congr (Ok (mxrows _)). by rewrite -[X]trmxK -trmx_mul Ev linearZ.
- move=> [V [HV [N E]]]. tomx HV. move: N E; rewrite zeros_mx mult_mx scale_mx => N [/(mxrows_inj 0) E].
  congr Ok. apply/eqP. rewrite -[_ == 0]/(root _ x) -char_poly_trmx -eigenvalue_root_char. apply/eigenvalueP. exists X0^T.
    by rewrite -trmx_mul E linearZ.
  apply/eqP => /(congr1 trmx); rewrite trmxK trmx0 => E0. by apply: N; rewrite E0.
Qed.

(** ** the characteristic polynomial *)
(** det(x*eye - A) is a monic polynomial in x of degree n, and A is a root of it *)
Theorem c98_cayley_hamilton n (A : matrix F) : shape n n A -> (0 < n)%N ->
  exists c, size c = n.+1 /\ last 0 c = 1 /\ (forall x, chardet n A x = Ok (evalp c x)) /\
    evalm n c A = Ok (zeros K n n).
Proof.
move=> H Hn; tomx H. case: n Hn X => [//|n] _ X. exists (char_poly X). split; first exact: size_char_poly.
split; first by have /eqP := char_poly_monic X; rewrite lead_coefE nth_last. split=> [x|]; first by rewrite chardet_mx evalp_poly polyseqK.
by rewrite evalm_mx polyseqK Cayley_Hamilton zeros_mx.
Qed.

(** n+1 determinants are enough to find it *)
Theorem c98_interpolate n (A : matrix F) (c xs : seq F) : shape n n A -> (0 < n)%N ->
  (size c <= n.+1)%N -> uniq xs -> (n < size xs)%N -> (forall x, x \in xs -> chardet n A x = Ok (evalp c x)) ->
  (forall x, chardet n A x = Ok (evalp c x)) /\ evalm n c A = Ok (zeros K n n).
Proof.
move=> H Hn; tomx H. case: n Hn X => [//|n] _ X Hc Hu Hs HX.
have E : Poly c = char_poly X.
  apply/eqP; rewrite -subr_eq0; apply/negPn/negP => N.
  have R : all (root (Poly c - char_poly X)) xs.
    apply/allP => x Hx. have := HX x Hx. rewrite chardet_mx evalp_poly => -[E]. by rewrite /root hornerD hornerN -E subrr.
  have := max_poly_roots N R Hu. apply/negP. rewrite -leqNgt. apply: leq_trans Hs.
  apply: leq_trans (size_add _ _) _. rewrite size_opp size_char_poly geq_max leqnn andbT.
  exact: leq_trans (size_Poly _) Hc.
split=> [x|]; first by rewrite chardet_mx evalp_poly E.
by rewrite evalm_mx E Cayley_Hamilton zeros_mx.
Qed.

(** ** updates *)
Lemma sylvester n m (U : 'M[F]_(n, m)) (V : 'M[F]_(m, n)) : \det (1%:M + U *m V) = \det (1%:M + V *m U).
Proof.
have E1 : block_mx 1%:M (- U) V 1%:M = block_mx 1%:M 0 V 1%:M *m block_mx 1%:M (- U) 0 (1%:M + V *m U).
  by rewrite mulmx_block !mul1mx !mulmx0 !mul0mx !mulmx1 !addr0 mulmxN addrCA addNr addr0.
have E2 : block_mx 1%:M (- U) V 1%:M = block_mx (1%:M + U *m V) (- U) 0 1%:M *m block_mx 1%:M 0 V 1%:M.
  by rewrite mulmx_block !mul1mx !mulmx0 !mul0mx !mulmx1 !add0r mulNmx addrK.
have := congr1 determinant E1. rewrite E2 !det_mulmx !det_ublock !det_lblock !matrix.det1. by rewrite !mulr1 !mul1r.
Qed.

(** det(eye + U*V) = det(eye + V*U), whatever the sizes *)
Theorem c98_sylvester n m (U V : matrix F) : shape n m U -> shape m n V ->
  (let* X := mult K n m n U V in let* E := eye1 K n in let* Y := sum K n n E X in det K n Y)
  = (let* X := mult K m n m V U in let* E := eye1 K m in let* Y := sum K m m E X in det K m Y).
Proof.
move=> HU HV; tomx HU; tomx HV. rewrite !mult_mx /= !eye1_mx /= !sum_mx /= !det_mx. by rewrite sylvester.
Qed.

(** the m x m matrix eye + V * B * U *)
Definition capacitance n m (B U V : matrix F) : outcome (matrix F) :=
  let* Q := mult K m n n V B in
  let* R := mult K m n m Q U in
  let* E := eye1 K m in
  sum K m m E R.

Lemma capacitance_mx n m (B : 'M[F]_n) (U : 'M[F]_(n, m)) V :
  capacitance n m (mxrows B) (mxrows U) (mxrows V) = Ok (mxrows (1%:M + V *m B *m U)).
Proof. by rewrite /capacitance mult_mx /= mult_mx /= eye1_mx /= sum_mx. Qed.

Lemma det_update n m (A : 'M[F]_n) (U : 'M[F]_(n, m)) V : A \in unitmx ->
  \det (A + U *m V) = \det A * \det (1%:M + V *m invmx A *m U).
Proof.
move=> HA. have -> : A + U *m V = A *m (1%:M + (invmx A *m U) *m V).
  by rewrite mulmxDr mulmx1 !mulmxA mulmxV // mul1mx.
by rewrite det_mulmx (sylvester (invmx A *m U)) !mulmxA.
Qed.

(** det(A + U*V) = det(A) * det(eye + V*inv(A)*U) *)
Theorem c98_det_update n m (A B U V : matrix F) : (0 < n)%N -> shape n n A -> shape n m U -> shape m n V ->
  inv K n A = Ok B ->
  (let* X := mult K n m n U V in let* Y := sum K n n A X in det K n Y)
  = (let* d := det K n A in let* C := capacitance n m B U V in let* e := det K m C in Ok (d * e)).
Proof.
move=> Hn HA HU HV; tomx HA; tomx HU; tomx HV => /(inv_unit Hn) [HX ->].
rewrite mult_mx /= sum_mx /= !det_mx /= capacitance_mx /= det_mx /=. by rewrite det_update.
Qed.

Lemma woodbury n m (A : 'M[F]_n) (U : 'M[F]_(n, m)) (V : 'M[F]_(m, n)) : A \in unitmx ->
  1%:M + V *m invmx A *m U \in unitmx ->
  A + U *m V \in unitmx /\
  invmx (A + U *m V) = invmx A - invmx A *m U *m invmx (1%:M + V *m invmx A *m U) *m (V *m invmx A).
Proof.
move=> HA HC. set B := invmx A in HC *. set D := 1%:M + _ in HC *. set W := invmx D.
have E : (A + U *m V) *m (B - B *m U *m W *m (V *m B)) = 1%:M.
  rewrite mulmxDl !mulmxBr !mulmxA mulmxV // mul1mx -!mulmxA -!mulmxBr.
  set Y := W *m (V *m B).
  have -> : V *m (B - B *m (U *m Y)) = Y; last by rewrite subrK.
  have : D *m Y = V *m B by rewrite /Y !mulmxA mulmxV // mul1mx.
  by rewrite {1}/D mulmxDl mul1mx mulmxBr => <-; rewrite !mulmxA addrK.
have [HU1 _] := mulmx1_unit E. split=> //.
by rewrite -[RHS](mulKmx HU1) E mulmx1.
Qed.

(** inv(A + U*V) = inv(A) - inv(A)*U * inv(eye + V*inv(A)*U) * V*inv(A) *)
Theorem c98_woodbury n m (A B U V : matrix F) : (0 < n)%N -> (0 < m)%N -> shape n n A -> shape n m U -> shape m n V ->
  inv K n A = Ok B -> forall W, (let* C := capacitance n m B U V in inv K m C) = Ok W ->
  (let* X := mult K n m n U V in let* Y := sum K n n A X in inv K n Y)
  = (let* P := mult K n n m B U in
     let* Q := mult K m n n V B in
     let* R := mult K n m m P W in
     let* T := mult K n m n R Q in
     sub K n n B T).
Proof.
move=> Hn Hm HA HU HV; tomx HA; tomx HU; tomx HV => /(inv_unit Hn) [HX ->] W {B}.
rewrite capacitance_mx /= => /(inv_unit Hm) [HC ->].
rewrite mult_mx /= sum_mx /= mult_mx /= mult_mx /= mult_mx /= mult_mx /= sub_mx.
have [H1 H2] := woodbury HX HC. by rewrite inv_mx // H2.
Qed.

(** a column u and a row v: only one division *)
Theorem c98_sherman_morrison n (A B u v : matrix F) r : (0 < n)%N -> shape n n A -> shape n 1 u -> shape 1 n v ->
  inv K n A = Ok B ->
  (let* Q := mult K 1 n n v B in let* R := mult K 1 n 1 Q u in aget R 0 0) = Ok r -> 1 + r <> 0 ->
  (let* X := mult K n 1 n u v in let* Y := sum K n n A X in inv K n Y)
  = (let* P := mult K n n 1 B u in
     let* Q := mult K 1 n n v B in
     let* T := mult K n 1 n P Q in
     let* D := div K n n T (1 + r) in
     sub K n n B D).
Proof.
move=> Hn HA HU HV; tomx HA; tomx HU; tomx HV => /(inv_unit Hn) [HX ->] {B}.
rewrite mult_mx /= mult_mx /= => Er N.
have E : X1 *m invmx X *m X0 = r%:M.
  move: Er; rewrite (mxrowsE 0) /aget /= => -[Er]; apply/matrixP => i j. by rewrite !ord1 -(mxf_ord 0) Er !mxE.
have C : 1%:M + X1 *m invmx X *m X0 = (1 + r)%:M by rewrite E raddfD.
have U1 : 1 + r \is a GRing.unit by rewrite unitfE; apply/eqP.
have HC : 1%:M + X1 *m invmx X *m X0 \in unitmx by rewrite C unitmxE det_scalar1.
have [H1 H2] := woodbury HX HC.
rewrite mult_mx /= sum_mx /= mult_mx /= mult_mx /= ?mult_mx /= div_mx //= sub_mx inv_mx // H2 C. congr (Ok (mxrows (_ - _))).
rewrite invmx_scalar mul_mx_scalar -scalemxAl. by apply/matrixP => i j; rewrite !mxE mulrC.
Qed.

(** A*B and B*A have the same characteristic polynomial *)
Lemma chardet_scale n (A : 'M[F]_n) x : chardet n (mxrows A) x = Ok (\det (x%:M - A)).
Proof. by rewrite /chardet eye1_mx /= scale_mx /= sub_mx /= det_mx scalemx1. Qed.

Lemma char_swap n m (U : 'M[F]_(n, m)) (V : 'M[F]_(m, n)) x : x != 0 ->
  x ^+ m * \det (x%:M - U *m V) = x ^+ n * \det (x%:M - V *m U).
Proof.
move=> N.
have G k (M : 'M[F]_k) : \det (x%:M - M) = x ^+ k * \det (1%:M - x^-1 *: M).
  by rewrite -detZ scalerBr scalerA divff // scale1r scalemx1.
rewrite !G !mulrA [x ^+ m * _]mulrC. congr (_ * _).
by rewrite -scaleNr -[1%:M - _ *: (V *m U)]/(1%:M + - (_ *: _)) -scaleNr scalemxAl sylvester -scalemxAr.
Qed.

Theorem c98_swap n m (U V : matrix F) x : shape n m U -> shape m n V -> x <> 0 ->
  exists d e, (let* X := mult K n m n U V in chardet n X x) = Ok d /\
    (let* X := mult K m n m V U in chardet m X x) = Ok e /\ x ^+ m * d = x ^+ n * e.
Proof.
move=> HU HV /eqP N; tomx HU; tomx HV. rewrite !mult_mx /= !chardet_scale.
do 2 eexists. split; first reflexivity. split; first reflexivity. exact: char_swap.
Qed.

Theorem c98_swap_square n (U V : matrix F) x : shape n n U -> shape n n V ->
  (let* X := mult K n n n U V in chardet n X x) = (let* X := mult K n n n V U in chardet n X x).
Proof.
move=> HU HV; tomx HU; tomx HV. rewrite !mult_mx /= !chardet_scale. congr Ok.
have [->|N] := eqVneq x 0; last by apply: (mulfI (expf_neq0 n N)); exact: char_swap.
by rewrite raddf0 !sub0r -!scaleN1r !detZ !det_mulmx [\det X * _]mulrC.
Qed.

(** a change of basis does not change it either *)
Theorem c98_similar n (A P Q : matrix F) x : (0 < n)%N -> shape n n A -> shape n n P -> inv K n P = Ok Q ->
  (let* X := mult K n n n Q A in let* Y := mult K n n n X P in chardet n Y x) = chardet n A x.
Proof.
move=> Hn HA HP; tomx HA; tomx HP => /(inv_unit Hn) [HX ->]. rewrite mult_mx /= mult_mx /= !chardet_scale. congr Ok.
have -> : x%:M - invmx X0 *m X *m X0 = invmx X0 *m (x%:M - X) *m X0.
  by rewrite mulmxBr mulmxBl mul_mx_scalar -scalemxAl mulVmx // scalemx1.
by rewrite !det_mulmx mulrAC -det_mulmx mulVmx // matrix.det1 mul1r.
Qed.
End Field.

(** ** least squares *)
Section LeastSquares.
Variables (R : realFieldType) (lt : R -> R -> bool) (ab : R -> R) (sq : R -> outcome R).
Notation K := (exactS lt ab sq).

(** the sum of the squares of the elements *)
Definition sumsq (X : matrix R) : R := \sum_(r <- X) \sum_(x <- r) x ^+ 2.
(** sumsq(A*x - b) *)
Definition residual n m (A b x : matrix R) : outcome R :=
  let* Y := mult K n m 1 A x in let* D := sub K n 1 Y b in Ok (sumsq D).

Lemma sumsq_mx n m (A : 'M[R]_(n, m)) : sumsq (mxrows A) = \sum_i \sum_j A i j ^+ 2.
Proof.
rewrite /sumsq /mxrows big_map big_enum /=. by apply: eq_bigr => i _; rewrite big_map big_enum.
Qed.

Lemma sumsq_col n (v : 'cV[R]_n) : sumsq (mxrows v) = (v^T *m v) 0 0.
Proof. by rewrite sumsq_mx mxE; apply: eq_bigr => i _; rewrite big_ord1 mxE expr2. Qed.

Lemma sumsq_ge0 n m (A : 'M[R]_(n, m)) : 0 <= sumsq (mxrows A).
Proof. by rewrite sumsq_mx; apply: sumr_ge0 => i _; apply: sumr_ge0 => j _; exact: sqr_ge0. Qed.

Lemma sumsq_eq0 n m (A : 'M[R]_(n, m)) : sumsq (mxrows A) = 0 -> A = 0.
Proof.
rewrite sumsq_mx => H. apply/matrixP => i j.
have := psumr_eq0P (fun i _ => sumr_ge0 _ (fun j _ => sqr_ge0 (A i j))) H.
move=> /(_ i isT) /(psumr_eq0P (fun j _ => sqr_ge0 (A i j))) /(_ j isT) /eqP. by rewrite sqrf_eq0 mxE => /eqP.
Qed.

Lemma residual_mx n m (A : 'M[R]_(n, m)) (b : 'cV[R]_n) (x : 'cV[R]_m) :
  residual n m (mxrows A) (mxrows b) (mxrows x) = Ok (sumsq (mxrows (A *m x - b))).
Proof. by rewrite /residual mult_mx /= sub_mx. Qed.

(** trans(A)*A *)
Definition normal n m (A : matrix R) : outcome (matrix R) := let* T := trans K n m A in mult K m n m T A.
Lemma normal_mx n m (A : 'M[R]_(n, m)) : normal n m (mxrows A) = Ok (mxrows (A^T *m A)).
Proof. by rewrite /normal trans_mx /= mult_mx. Qed.

(** trans(A)*A can be inverted exactly when no non-zero column is mapped to zero *)
Theorem c98_normal n m (A : matrix R) : shape n m A -> (0 < m)%N ->
  (exists W, (let* G := normal n m A in inv K m G) = Ok W) <->
  (forall X, shape m 1 X -> mult K n m 1 A X = Ok (zeros K n 1) -> X = zeros K m 1).
Proof.
move=> H Hm; tomx H. rewrite normal_mx /=. split.
- move=> [W /(inv_unit Hm) [U _]] Y HY; tomx HY. rewrite mult_mx !zeros_mx => -[/(mxrows_inj 0) E].
  congr mxrows. by rewrite -[X0]mul1mx -(mulVmx U) -!mulmxA E !mulmx0.
- move=> H. have U : X^T *m X \in unitmx; last by exists (mxrows (invmx (X^T *m X))); rewrite inv_mx.
  rewrite -row_free_unit -kermx_eq0. apply/negPn/negP => /rowV0Pn [v /sub_kermxP E N].
  have E0 : X *m v^T = 0.
    apply: sumsq_eq0. rewrite sumsq_col trmx_mul trmxK !mulmxA -[v *m X^T *m X]mulmxA E mul0mx. by rewrite mxE.
  have := H (mxrows v^T) (shape_mxrows 0 _). rewrite mult_mx E0 !zeros_mx => /(_ erefl) /(mxrows_inj 0) /(congr1 trmx).
  by rewrite trmxK trmx0; apply/eqP.
Qed.

(** inv(trans(A)*A) * trans(A)*b makes the sum of the squares of A*x - b least, and nothing else does *)
Theorem c98_least_squares n m (A b W : matrix R) : shape n m A -> shape n 1 b -> (0 < m)%N ->
  (let* G := normal n m A in inv K m G) = Ok W ->
  exists x e, (let* T := trans K n m A in let* c := mult K m n 1 T b in mult K m m 1 W c) = Ok x /\ shape m 1 x /\
    residual n m A b x = Ok e /\
    forall y, shape m 1 y -> exists f, residual n m A b y = Ok f /\ e <= f /\ (f = e -> y = x).
Proof.
move=> H Hb Hm; tomx H; tomx Hb. rewrite normal_mx /= => /(inv_unit Hm) [U ->].
rewrite trans_mx /= mult_mx /= mult_mx. set x := invmx _ *m _. exists (mxrows x), (sumsq (mxrows (X *m x - X0))).
split=> //. split; first exact: (shape_mxrows 0). split; first exact: residual_mx.
move=> y Hy; tomx Hy. rewrite residual_mx. eexists. split; first reflexivity.
have O : X^T *m (X *m x - X0) = 0.
  by rewrite mulmxBr mulmxA /x mulmxA mulmxV // mul1mx subrr.
have [d Hd] : exists d, d = X1 - x by eexists.
have -> : X *m X1 - X0 = (X *m x - X0) + X *m d by rewrite Hd mulmxBr [RHS]addrC addrA subrK.
move: (X *m x - X0) O => r O.
have E : sumsq (mxrows (r + X *m d)) = sumsq (mxrows r) + sumsq (mxrows (X *m d)).
  rewrite !sumsq_col [(r + X *m d)^T]linearD /= mulmxDl !mulmxDr trmx_mul -[d^T *m X^T *m r]mulmxA O mulmx0 add0r.
  have -> : r^T *m (X *m d) = 0 by rewrite mulmxA -[r^T *m X]trmxK trmx_mul trmxK O trmx0 mul0mx.
  by rewrite addr0 mxE.
rewrite E. split; first by rewrite ler_addl sumsq_ge0.
move=> /eqP. rewrite -subr_eq0 addrC addKr => /eqP /sumsq_eq0 D0. congr mxrows.
apply/eqP; rewrite -subr_eq0 -Hd; apply/eqP. by rewrite -[d]mul1mx -(mulVmx U) -!mulmxA D0 !mulmx0.
Qed.

(** A*inv(trans(A)*A)*trans(A) projects onto the columns of A *)
Theorem c98_projection n m (A W : matrix R) : shape n m A -> (0 < m)%N -> (let* G := normal n m A in inv K m G) = Ok W ->
  exists P, (let* T := trans K n m A in let* X := mult K n m m A W in mult K n m n X T) = Ok P /\
    mult K n n n P P = Ok P /\ trans K n n P = Ok P /\ mult K n n m P A = Ok A.
Proof.
move=> H Hm; tomx H. rewrite normal_mx /= => /(inv_unit Hm) [U ->].
rewrite trans_mx /= mult_mx /= mult_mx. set P := X *m _ *m _. exists (mxrows P). split=> //.
have PA : P *m X = X by rewrite /P -mulmxA -[X *m _ *m _]mulmxA mulVmx // mulmx1.
rewrite !mult_mx trans_mx. split; first by rewrite {2}/P !mulmxA PA.
split; last by rewrite PA. congr (Ok (mxrows _)).
by rewrite /P !trmx_mul trmxK trmx_inv trmx_mul trmxK mulmxA.
Qed.
End LeastSquares.

(** ** examples, with rationals *)
Section Examples.
Variables (lt : rat -> rat -> bool) (ab : rat -> rat) (sq : rat -> outcome rat).
Notation K := (exactS lt ab sq).
Definition sy : matrix rat := [:: [:: 2%:R; 1]; [:: 1; 2%:R]].

(** 3 is an eigenvalue of [[2, 1], [1, 2]]: (1, 1) is a column it multiplies by 3 *)
Example c98_ex_eigen : chardet lt ab sq 2 sy 3%:R = Ok 0 /\
  mult K 2 2 1 sy [:: [:: 1]; [:: 1]] = mult_scalar K 2 1 [:: [:: 1]; [:: 1]] 3%:R.
Proof. by split; vm_compute. Qed.

(** three determinants find x^2 - 4*x + 3 *)
Example c98_ex_interpolate : forall x, x \in [:: 0; 1; 3%:R] -> chardet lt ab sq 2 sy x = Ok (evalp [:: 3%:R; -(4%:R); 1] x).
Proof. by move=> x; rewrite !inE => /orP [/eqP -> | /orP [/eqP -> | /eqP ->]]; vm_compute. Qed.

Example c98_ex_root : evalm lt ab sq 2 [:: 3%:R; -(4%:R); 1] sy = Ok (zeros K 2 2).
Proof. by vm_compute. Qed.

(** the line through (0, 1), (1, 2), (2, 2): 7/6 + x/2 *)
Definition pts : matrix rat := [:: [:: 1; 0]; [:: 1; 1]; [:: 1; 2%:R]].
Example c98_ex_lsq :
  (let* G := normal lt ab sq 3 2 pts in
   let* W := inv K 2 G in
   let* T := trans K 3 2 pts in
   let* c := mult K 2 3 1 T [:: [:: 1]; [:: 2%:R]; [:: 2%:R]] in mult K 2 2 1 W c)
  = Ok [:: [:: 7%:R / 6%:R]; [:: 1 / 2%:R]].
Proof. by vm_compute. Qed.

(** adding the product of the column (1, 0) and the row (0, 1) to [[2, 1], [1, 2]] *)
Example c98_ex_sherman :
  (let* B := inv K 2 sy in
   let* Q := mult K 1 2 2 [:: [:: 0; 1]] B in let* R := mult K 1 2 1 Q [:: [:: 1]; [:: 0]] in aget R 0 0) = Ok (- (1 / 3%:R)) /\
  1 + - (1 / 3%:R) <> 0 :> rat.
Proof. by split; vm_compute. Qed.
End Examples.

Print Assumptions c98_eigen.
Print Assumptions c98_cayley_hamilton.
Print Assumptions c98_interpolate.
Print Assumptions c98_sherman_morrison.
Print Assumptions c98_least_squares.
