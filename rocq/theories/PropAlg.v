(** * Properties C10, C12-C14, C18-C20, C22-C31: exact arithmetic

    [exactS lt ab sq] is exact arithmetic over a ring [R] (with division where
    possible); the order, absolute value and square root are arbitrary functions
    here.  [mxrows A] is the array of the mathematical matrix [A]; every n x m
    array is [mxrows A] for exactly one [A] ([every_array]).  The right-hand
    sides are mathcomp's [+], [*m], [^T], [\det], [invmx], [1%:M].

    The laws are stated on arrays and API calls alone. *)

From Coq Require Import ZArith List Lia.
From mathcomp Require Import all_ssreflect all_algebra all_fingroup.
From mathcomp Require Import zify.
From Verif Require Import Base Scalar Model Spec Loops Struct Exact ExactLemmas Alg Det Inv Pow LU Chol Preds SimExact.

Set Implicit Arguments.
Unset Strict Implicit.
Unset Printing Implicit Defensive.

Import Order.TTheory GRing.Theory Num.Theory.
Local Notation ltP := ssrnat.ltP (only parsing).
Local Notation leP := ssrnat.leP (only parsing).
Local Open Scope ring_scope.
Delimit Scope Z_scope with Z.

(** ** arrays and matrices *)

Lemma every_array (T : Type) (d : T) n m (A : matrix T) : shape n m A ->
  exists! X : 'M[T]_(n, m), A = mxrows X.
Proof.
  move=> /(shape_mk d) [f ->]. exists (\matrix_(i, j) f i j); split.
  - by rewrite -mk_mxrows.
  - move=> X E. apply: (@mxrows_inj _ n m d). by rewrite -E -mk_mxrows.
Qed.

Ltac tomx H :=
  let X := fresh "X" in let E := fresh in
  case: (every_array 0 H) => X [E _]; subst; clear H.

(** a 2x2 matrix given by its elements *)
Definition mx22 (R : ringType) (a b c d : R) : 'M[R]_2 :=
  \matrix_(i < 2, j < 2) (if (i : nat) == 0%N then (if (j : nat) == 0%N then a else b)
                          else (if (j : nat) == 0%N then c else d)).

Lemma det_mx22 (R : comRingType) (a b c d : R) : \det (mx22 a b c d) = a * d - b * c.
Proof.
  rewrite (expand_det_row _ ord0) !big_ord_recl big_ord0 /cofactor !det_mx11 !mxE /=.
  by rewrite addr0 expr0 expr1 !mul1r mulN1r mulrN.
Qed.

Lemma mxrows_mx22 (R : ringType) (a b c d : R) :
  mxrows (mx22 a b c d) = [:: [:: a; b]; [:: c; d]].
Proof.
  rewrite (@mxrows_mk _ _ _ _ (fun i j => if i == 0%N then (if j == 0%N then a else b)
                          else (if j == 0%N then c else d))) // => i j.
  by rewrite mxE.
Qed.

Section Ring.
Variables (R : unitRingType) (lt : R -> R -> bool) (ab : R -> R) (sq : R -> outcome R).
Notation K := (exactS lt ab sq).

(** ** C10 *)

Theorem c10_sum n m (A B : 'M[R]_(n, m)) :
  sum K n m (mxrows A) (mxrows B) = Ok (mxrows (A + B)).
Proof. exact: sum_mx. Qed.

Theorem c10_sub n m (A B : 'M[R]_(n, m)) :
  sub K n m (mxrows A) (mxrows B) = Ok (mxrows (A - B)).
Proof. exact: sub_mx. Qed.

Theorem c10_sum_scalar n m (A : 'M[R]_(n, m)) (s : R) :
  sum_scalar K n m (mxrows A) s = Ok (mxrows (\matrix_(i, j) (A i j + s))) /\
  op_scalar_plus K n m s (mxrows A) = Ok (mxrows (\matrix_(i, j) (A i j + s))).
Proof.
  rewrite /op_scalar_plus /op_plus_scalar sum_scalar_mx.
  suff -> : A + const_mx s = \matrix_(i, j) (A i j + s) by [].
  by apply/matrixP=> i j; rewrite !mxE.
Qed.

Theorem c10_sub_scalar n m (A : 'M[R]_(n, m)) (s : R) :
  sub_scalar K n m (mxrows A) s = Ok (mxrows (\matrix_(i, j) (A i j - s))).
Proof.
  rewrite sub_scalar_mx. congr (Ok (mxrows _)). by apply/matrixP=> i j; rewrite !mxE.
Qed.

Theorem c10_sum_comm n m (A B : matrix R) : shape n m A -> shape n m B ->
  sum K n m A B = sum K n m B A.
Proof. move=> H1 H2; tomx H1; tomx H2. by rewrite !sum_mx addrC. Qed.

Theorem c10_sum_assoc n m (A B C : matrix R) : shape n m A -> shape n m B -> shape n m C ->
  (let* X := sum K n m A B in sum K n m X C) = (let* Y := sum K n m B C in sum K n m A Y).
Proof. move=> H1 H2 H3; tomx H1; tomx H2; tomx H3. by rewrite !sum_mx /= !sum_mx addrA. Qed.

Theorem c10_zeros n m (A : matrix R) : shape n m A ->
  sum K n m A (zeros K n m) = Ok A /\ sum K n m (zeros K n m) A = Ok A.
Proof. move=> H; tomx H. by rewrite zeros_mx !sum_mx addr0 add0r. Qed.

Theorem c10_add_sub n m (A B : matrix R) : shape n m A -> shape n m B ->
  (let* X := sum K n m A B in sub K n m X B) = Ok A.
Proof. move=> H1 H2; tomx H1; tomx H2. by rewrite sum_mx /= sub_mx addrK. Qed.

Theorem c10_sub_self n m (A : matrix R) : shape n m A -> sub K n m A A = Ok (zeros K n m).
Proof. move=> H; tomx H. by rewrite sub_mx zeros_mx subrr. Qed.

Theorem c10_scalar_add_sub n m (A : matrix R) (s : R) : shape n m A ->
  (let* X := sum_scalar K n m A s in sub_scalar K n m X s) = Ok A.
Proof. move=> H; tomx H. by rewrite sum_scalar_mx /= sub_scalar_mx addrK. Qed.

(** the infix operators *)
Theorem c10_operator n m (A B : 'M[R]_(n, m)) (s : R) :
  [/\ op_plus K n m (mxrows A) (mxrows B) = Ok (mxrows (A + B)),
      op_minus K n m (mxrows A) (mxrows B) = Ok (mxrows (A - B)),
      op_plus_scalar K n m (mxrows A) s = Ok (mxrows (\matrix_(i, j) (A i j + s))) &
      op_minus_scalar K n m (mxrows A) s = Ok (mxrows (\matrix_(i, j) (A i j - s)))].
Proof.
  by split; [exact: c10_sum | exact: c10_sub | case: (c10_sum_scalar A s) | exact: c10_sub_scalar].
Qed.

(** ** C12 *)

Theorem c12_mult n m p (A : 'M[R]_(n, m)) (B : 'M[R]_(m, p)) :
  mult K n m p (mxrows A) (mxrows B) =
  Ok (mxrows (\matrix_(i, j) \sum_(k < m) A i k * B k j)).
Proof.
  rewrite mult_mx. congr (Ok (mxrows _)). by apply/matrixP=> i j; rewrite !mxE.
Qed.

Theorem c12_mult_scalar n m (A : 'M[R]_(n, m)) (s : R) :
  mult_scalar K n m (mxrows A) s = Ok (mxrows (\matrix_(i, j) (A i j * s))).
Proof.
  rewrite mult_scalar_mx. congr (Ok (mxrows _)). by apply/matrixP=> i j; rewrite !mxE.
Qed.

(** the infix operators are the functions of the same meaning *)
Theorem c12_operator n m p (A : 'M[R]_(n, m)) (B : 'M[R]_(m, p)) (s : R) :
  op_mult K n m p (mxrows A) (mxrows B) = Ok (mxrows (\matrix_(i, j) \sum_(k < m) A i k * B k j)) /\
  op_mult_scalar K n m (mxrows A) s = Ok (mxrows (\matrix_(i, j) (A i j * s))).
Proof. by split; [exact: c12_mult | exact: c12_mult_scalar]. Qed.

(** ** C13 *)

Theorem c13_assoc n m p q (A B C : matrix R) : shape n m A -> shape m p B -> shape p q C ->
  (let* X := mult K n m p A B in mult K n p q X C) =
  (let* Y := mult K m p q B C in mult K n m q A Y).
Proof. move=> H1 H2 H3; tomx H1; tomx H2; tomx H3. by rewrite !mult_mx /= !mult_mx mulmxA. Qed.

Theorem c13_distr_r n m p (A B C : matrix R) : shape n m A -> shape m p B -> shape m p C ->
  (let* X := sum K m p B C in mult K n m p A X) =
  (let* X := mult K n m p A B in let* Y := mult K n m p A C in sum K n p X Y).
Proof.
  move=> H1 H2 H3; tomx H1; tomx H2; tomx H3. by rewrite sum_mx /= !mult_mx /= sum_mx mulmxDr.
Qed.

Theorem c13_distr_l n m p (A B C : matrix R) : shape n m A -> shape n m B -> shape m p C ->
  (let* X := sum K n m A B in mult K n m p X C) =
  (let* X := mult K n m p A C in let* Y := mult K n m p B C in sum K n p X Y).
Proof.
  move=> H1 H2 H3; tomx H1; tomx H2; tomx H3. by rewrite sum_mx /= !mult_mx /= sum_mx mulmxDl.
Qed.

Theorem c13_eye n m (A : matrix R) : shape n m A ->
  (let* E := eye1 K n in mult K n n m E A) = Ok A /\
  (let* E := eye1 K m in mult K n m m A E) = Ok A.
Proof. move=> H; tomx H. by rewrite !eye1_mx /= !mult_mx mul1mx mulmx1. Qed.

Theorem c13_zeros n m p (A : matrix R) : shape m p A ->
  mult K n m p (zeros K n m) A = Ok (zeros K n p).
Proof. move=> H; tomx H. by rewrite !zeros_mx mult_mx mul0mx. Qed.

Theorem c13_zeros_r n m p (A : matrix R) : shape n m A ->
  mult K n m p A (zeros K m p) = Ok (zeros K n p).
Proof. move=> H; tomx H. by rewrite !zeros_mx mult_mx mulmx0. Qed.

(** ** C14 (exact part) *)

Theorem c14_strassen_exact (A B : matrix R) : shape 2 2 A -> shape 2 2 B ->
  strassen K A B = mult K 2 2 2 A B.
Proof. move=> H1 H2; tomx H1; tomx H2. by rewrite strassen_mx mult_mx. Qed.

(** ** C18 (exact part) *)

Theorem c18_div n m (A : 'M[R]_(n, m)) (s : R) : s \is a GRing.unit -> 
  div K n m (mxrows A) s = Ok (mxrows (\matrix_(i, j) (A i j / s))).
Proof.
  move=> U. rewrite div_mx //. congr (Ok (mxrows _)). by apply/matrixP=> i j; rewrite !mxE.
Qed.

Theorem c18_div_mult n m (A : matrix R) (s : R) : shape n m A -> s \is a GRing.unit ->
  (let* X := div K n m A s in mult_scalar K n m X s) = Ok A /\
  (let* X := mult_scalar K n m A s in div K n m X s) = Ok A.
Proof.
  move=> H U; tomx H. rewrite div_mx // mult_scalar_mx /= mult_scalar_mx div_mx //.
  split; congr (Ok (mxrows _)); apply/matrixP=> i j; rewrite !mxE; [exact: divrK|exact: mulrK].
Qed.
End Ring.
Print Assumptions c10_sum.
Print Assumptions c10_sub.
Print Assumptions c10_sum_scalar.
Print Assumptions c10_sub_scalar.
Print Assumptions c10_sum_comm.
Print Assumptions c10_sum_assoc.
Print Assumptions c10_zeros.
Print Assumptions c10_add_sub.
Print Assumptions c10_sub_self.
Print Assumptions c10_scalar_add_sub.
Print Assumptions c12_mult.
Print Assumptions c12_mult_scalar.
Print Assumptions c13_assoc.
Print Assumptions c13_distr_r.
Print Assumptions c13_distr_l.
Print Assumptions c13_eye.
Print Assumptions c13_zeros.
Print Assumptions c13_zeros_r.
Print Assumptions c14_strassen_exact.
Print Assumptions c18_div.
Print Assumptions c18_div_mult.

(** for every element type: a zero divisor ends the program, whatever A *)
Theorem c18_div_zero (K : scalar) n m (A : matrix (elt K)) (s : elt K) :
  xeq (ld s) (@lit K 0) = true -> div K n m A s = Terminate.
Proof. by rewrite /div => ->. Qed.
Print Assumptions c18_div_zero.

(** the operator / *)
Theorem c18_operator (R : unitRingType) (lt : R -> R -> bool) (ab : R -> R) (sq : R -> outcome R) n m
    (A : 'M[R]_(n, m)) (s : R) :
  (s \is a GRing.unit -> op_div (exactS lt ab sq) n m (mxrows A) s = Ok (mxrows (\matrix_(i, j) (A i j / s)))) /\
  op_div (exactS lt ab sq) n m (mxrows A) 0 = Terminate.
Proof. by split=> [U|]; [exact: c18_div | apply: c18_div_zero; rewrite /= eqxx]. Qed.
Print Assumptions c18_operator.

Section ComRing.
Variables (R : comUnitRingType) (lt : R -> R -> bool) (ab : R -> R) (sq : R -> outcome R).
Notation K := (exactS lt ab sq).

Theorem c13_scale n m p (A B : matrix R) (s : R) : shape n m A -> shape m p B ->
  (let* X := op_scalar_mult K n m s A in mult K n m p X B) =
  (let* Y := mult K n m p A B in op_scalar_mult K n p s Y).
Proof.
  move=> H1 H2; tomx H1; tomx H2.
  rewrite /op_scalar_mult /op_mult_scalar mult_scalar_mx mult_mx /= mult_mx mult_scalar_mx.
  congr (Ok (mxrows _)). apply/matrixP=> i j; rewrite !mxE mulr_suml.
  by apply: eq_bigr => k _; rewrite !mxE mulrAC.
Qed.

Theorem c13_trans n m p (A B : matrix R) : shape n m A -> shape m p B ->
  (let* X := mult K n m p A B in trans K n p X) =
  (let* X := trans K m p B in let* Y := trans K n m A in mult K p m n X Y).
Proof.
  move=> H1 H2; tomx H1; tomx H2. by rewrite mult_mx /= !trans_mx /= mult_mx trmx_mul.
Qed.
End ComRing.
Print Assumptions c13_scale.
Print Assumptions c13_trans.

Section Field.
Variables (F : fieldType) (lt : F -> F -> bool) (ab : F -> F) (sq : F -> outcome F).
Notation K := (exactS lt ab sq).

(** ** C19 *)

(** the Leibniz formula *)
Theorem c19_det n (A : 'M[F]_n) :
  det K n (mxrows A) = Ok (\sum_(s : {perm 'I_n}) (-1) ^+ s * \prod_(i < n) A i (s i)).
Proof. exact: det_mx. Qed.

Theorem c19_singular n (A : 'M[F]_n) : det K n (mxrows A) = Ok 0 <-> \det A = 0.
Proof. rewrite det_mx. by split=> [[]|->]. Qed.

(** ** C20 *)

Theorem c20_mult n (A B : matrix F) : shape n n A -> shape n n B ->
  (let* X := mult K n n n A B in det K n X) =
  (let* a := det K n A in let* b := det K n B in Ok (a * b)).
Proof. move=> H1 H2; tomx H1; tomx H2. by rewrite mult_mx /= !det_mx /= det_mulmx. Qed.

Theorem c20_trans n (A : matrix F) : shape n n A ->
  (let* X := trans K n n A in det K n X) = det K n A.
Proof. move=> H; tomx H. by rewrite trans_mx /= !det_mx det_tr. Qed.

Theorem c20_eye n : (let* X := eye1 K n in det K n X) = Ok 1.
Proof. by rewrite eye1_mx /= det_mx mathcomp.algebra.matrix.det1. Qed.

Theorem c20_swap_rows n (A : matrix F) r1 r2 : shape n n A ->
  (r1 < n)%N -> (r2 < n)%N -> r1 <> r2 ->
  (let* X := swap_rows K n n A r1 r2 in det K n X) = (let* d := det K n A in Ok (- d)).
Proof.
  move=> /(shape_mk 0) [f ->] /ltP H1 /ltP H2 /eqP H.
  rewrite swap_rows_mk // /= !det_mk /= -(detf_swap f (a := r1) (b := r2)) //; exact/ltP.
Qed.

Theorem c20_swap_cols n (A : matrix F) c1 c2 : shape n n A ->
  (c1 < n)%N -> (c2 < n)%N -> c1 <> c2 ->
  (let* X := swap_cols K n n A c1 c2 in det K n X) = (let* d := det K n A in Ok (- d)).
Proof.
  move=> /(shape_mk 0) [f ->] /ltP H1 /ltP H2 /eqP H.
  rewrite swap_cols_mk // /= !det_mk /=.
  have T (g : nat -> nat -> F) : detf n g = detf n (fun i j => g j i).
    by rewrite /detf -det_tr; congr (\det _); apply/matrixP=> i j; rewrite !mxE.
  rewrite [in RHS]T -(detf_swap (fun i j => f j i) (a := c1) (b := c2)) //; try exact/ltP.
  rewrite T /detf; congr (Ok (\det _)); apply/matrixP=> i j; by rewrite !mxE !eqbE.
Qed.

Theorem c20_scale n (A : matrix F) (s : F) : shape n n A ->
  (let* X := mult_scalar K n n A s in det K n X) =
  (let* d := det K n A in Ok (s ^+ n * d)).
Proof.
  move=> H; tomx H. rewrite mult_scalar_mx /= !det_mx /= -detZ. congr (Ok (\det _)).
  apply/matrixP=> i j; by rewrite !mxE mulrC.
Qed.

(** ** C22 *)

Theorem c22_inv n (A : matrix F) d : shape n n A -> (0 < n)%N ->
  det K n A = Ok d -> d <> 0 ->
  exists B E, [/\ inv K n A = Ok B, shape n n B, eye1 K n = Ok E,
    mult K n n n A B = Ok E & mult K n n n B A = Ok E].
Proof.
  move=> H Hn; tomx H. rewrite det_mx => -[<-] /eqP D.
  have U : X \in unitmx by rewrite unitmxE unitfE.
  exists (mxrows (invmx X)), (mxrows (1%:M : 'M[F]_n)).
  rewrite inv_mx // eye1_mx !mult_mx mulmxV // mulVmx //. split=> //. exact: shape_mxrows.
Qed.

Theorem c22_inv_matrix n (A : 'M[F]_n) : (0 < n)%N -> A \in unitmx ->
  inv K n (mxrows A) = Ok (mxrows (invmx A)).
Proof. move=> _; exact: inv_mx. Qed.

(** ** C23 *)

Theorem c23_singular n (A : matrix F) : shape n n A -> (0 < n)%N -> det K n A = Ok 0 ->
  inv K n A = (if n == 1%N then UB DivByZero
               else if (n <= 3)%N then Throw OverflowError else Terminate).
Proof.
  move=> H Hn; tomx H. rewrite det_mx => -[D]. rewrite inv_mx_singular //.
  by case: n Hn X D => [|[|[|[|n]]]].
Qed.

Theorem c23_never_returns n (A : matrix F) B : shape n n A -> (0 < n)%N ->
  inv K n A = Ok B -> exists d, det K n A = Ok d /\ d <> 0.
Proof.
  move=> H Hn E. have [X [EX _]] := every_array 0 H. exists (\det X). rewrite EX det_mx. split=> // D.
  have := c23_singular H Hn; rewrite EX det_mx D => /(_ erefl); rewrite -EX E.
  by case: (n == 1%N); case: (n <= 3)%N.
Qed.

(** ** C24 *)

Theorem c24_inv_inv n (A B : matrix F) : shape n n A -> (0 < n)%N ->
  inv K n A = Ok B -> inv K n B = Ok A.
Proof.
  move=> H Hn E. have [d [D /eqP N]] := c23_never_returns H Hn E. tomx H.
  move: D; rewrite det_mx => -[D]. have U : X \in unitmx by rewrite unitmxE unitfE D.
  move: E; rewrite inv_mx // => -[<-]. by rewrite inv_mx ?unitmx_inv // invmxK.
Qed.

Theorem c24_inv_mult n (A B A' B' : matrix F) : shape n n A -> shape n n B -> (0 < n)%N ->
  inv K n A = Ok A' -> inv K n B = Ok B' ->
  (let* X := mult K n n n A B in inv K n X) = mult K n n n B' A'.
Proof.
  move=> H1 H2 Hn E1 E2.
  have [d [D /eqP N]] := c23_never_returns H1 Hn E1.
  have [d' [D' /eqP N']] := c23_never_returns H2 Hn E2. tomx H1; tomx H2.
  move: D; rewrite det_mx => -[D]. have U : X \in unitmx by rewrite unitmxE unitfE D.
  move: D'; rewrite det_mx => -[D']. have U' : X0 \in unitmx by rewrite unitmxE unitfE D'.
  move: E1 E2; rewrite !inv_mx // => -[<-] [<-].
  have UM : X *m X0 \in unitmx by rewrite unitmx_mul U U'.
  rewrite mult_mx /= inv_mx // mult_mx. congr (Ok (mxrows _)).
  apply: (@row_free_inj _ _ _ _ (X *m X0)); first by rewrite row_free_unit.
  by rewrite mulVmx // -!mulmxA (mulmxA (invmx X)) mulVmx // mul1mx mulVmx.
Qed.

Theorem c24_inv_trans n (A B : matrix F) : shape n n A -> (0 < n)%N ->
  inv K n A = Ok B ->
  (let* X := trans K n n A in inv K n X) = trans K n n B.
Proof.
  move=> H Hn E. have [d [D /eqP N]] := c23_never_returns H Hn E. tomx H.
  move: D; rewrite det_mx => -[D]. have U : X \in unitmx by rewrite unitmxE unitfE D.
  move: E; rewrite inv_mx // => -[<-]. by rewrite !trans_mx /= inv_mx ?unitmx_tr // trmx_inv.
Qed.

Theorem c24_det_inv n (A B : matrix F) : shape n n A -> (0 < n)%N ->
  inv K n A = Ok B ->
  exists a b, [/\ det K n A = Ok a, det K n B = Ok b & b * a = 1].
Proof.
  move=> H Hn E. have [d [D /eqP N]] := c23_never_returns H Hn E. tomx H.
  move: D; rewrite det_mx => -[D]. have U : X \in unitmx by rewrite unitmxE unitfE D.
  move: E; rewrite inv_mx // => -[<-]. exists (\det X), (\det (invmx X)). rewrite !det_mx; split=> //.
  by rewrite mathcomp.algebra.matrix.det_inv mulVr // -unitmxE.
Qed.

Theorem c24_inv_eye n : (0 < n)%N ->
  (let* E := eye1 K n in inv K n E) = eye1 K n.
Proof. move=> _. by rewrite eye1_mx /= inv_mx ?unitmx1 // invmx1. Qed.

(** ** C25; [w] is the width in bits of the exponent type *)

Theorem c25_pow n w (A : 'M[F]_n) (p : nat) : (1 <= w)%Z -> (Z.of_nat p < 2 ^ (w - 1))%Z ->
  pow K n w (mxrows A) (Z.of_nat p) = Ok (mxrows (mxpow A p)).
Proof. exact: pow_mx. Qed.

Theorem c25_pow_neg n w (A : 'M[F]_n) (p : nat) : (0 < n)%N -> A \in unitmx -> (1 <= w)%Z ->
  (0 < p)%N -> (Z.of_nat p < 2 ^ (w - 1))%Z ->
  pow K n w (mxrows A) (- Z.of_nat p) = Ok (mxrows (mxpow (invmx A) p)).
Proof. move=> _; exact: pow_neg_mx. Qed.

Theorem c25_pow_neg_singular n w (A : matrix F) (p : nat) : shape n n A -> (0 < p)%N ->
  det K n A = Ok 0 -> pow K n w A (- Z.of_nat p) = inv K n A.
Proof.
  move=> H Hp; tomx H. rewrite det_mx => -[D]. by rewrite pow_neg_singular // inv_mx_singular.
Qed.

(** consequences in API terms *)
Theorem c25_pow_add n w (A : matrix F) (p q : nat) : shape n n A -> (1 <= w)%Z ->
  (Z.of_nat (p + q) < 2 ^ (w - 1))%Z ->
  pow K n w A (Z.of_nat (p + q)) =
  (let* X := pow K n w A (Z.of_nat p) in let* Y := pow K n w A (Z.of_nat q) in mult K n n n X Y).
Proof.
  move=> H Hw Hq; tomx H. rewrite !pow_mx //=; try lia. by rewrite mult_mx mxpowD.
Qed.

(** ** C26 (exact part) *)

Theorem c26_narrow_least n w (A : 'M[F]_n) : A \in unitmx -> (2 <= w < 32)%Z ->
  pow K n w (mxrows A) (- 2 ^ (w - 1)) = Ok (mxrows (mxpow A (2 ^ (Z.to_nat w - 1)))).
Proof. move=> U [H1 H2]. exact: pow_min_narrow. Qed.

(** ** C27 *)

Theorem c27_lu n (A : 'M[F]_n) X Y : lu K n (mxrows A) = Ok (X, Y) ->
  exists L U : 'M[F]_n, [/\ X = mxrows L, Y = mxrows U,
    [/\ unit_lower L, upper U, forall i, U i i != 0 & L *m U = A] &
    forall L' U' : 'M[F]_n, unit_lower L' -> upper U' -> L' *m U' = A -> L' = L /\ U' = U].
Proof.
  case: (lu_mx lt ab sq A) => [[L [U [E G]]]|[-> //]]. rewrite E => -[<- <-].
  exists L, U; split=> // L' U'. exact: lu_good_unique.
Qed.

(** ** C28 *)

Theorem c28_lu_returns_iff n (A : 'M[F]_n) :
  returns (lu K n (mxrows A)) <->
  (forall k (Hk : (k <= n)%N), (0 < k)%N -> lead_minor A Hk != 0).
Proof. exact: lu_iff_minors. Qed.

Theorem c28_lu_otherwise n (A : 'M[F]_n) :
  returns (lu K n (mxrows A)) \/ lu K n (mxrows A) = Throw OverflowError.
Proof. case: (lu_mx lt ab sq A) => [[L [U [E G]]]|[E _]]; [left; by exists (mxrows L, mxrows U)|by right]. Qed.

(** singular matrices with an LU factorisation are rejected too *)
Theorem c28_lu_throws_on_factorable n (A : 'M[F]_n) : (0 < n)%N -> \det A = 0 ->
  lu K n (mxrows A) = Throw OverflowError.
Proof.
  move=> Hn D. case: (c28_lu_otherwise A) => // /c28_lu_returns_iff H.
  have /eqP [] := H n (leqnn n) Hn.
  rewrite /lead_minor -[RHS]D; congr (\det _); apply/matrixP=> i j; rewrite !mxE.
  by congr (A _ _); apply: val_inj.
Qed.

(** ** C29 *)

Theorem c29_lu_det n (A : matrix F) (X Y : matrix F) : shape n n A -> lu K n A = Ok (X, Y) ->
  exists U : 'M[F]_n, Y = mxrows U /\ det K n A = Ok (\prod_(p < n) U p p).
Proof.
  move=> H; tomx H. case: (lu_mx lt ab sq X0) => [[L [U [E G]]]|[-> //]]. rewrite E => -[_ <-].
  exists U. by rewrite det_mx (lu_good_det G).
Qed.
End Field.
Print Assumptions c19_det.
Print Assumptions c19_singular.
Print Assumptions c20_mult.
Print Assumptions c20_trans.
Print Assumptions c20_eye.
Print Assumptions c20_swap_rows.
Print Assumptions c20_swap_cols.
Print Assumptions c20_scale.
Print Assumptions c22_inv.
Print Assumptions c22_inv_matrix.
Print Assumptions c23_singular.
Print Assumptions c23_never_returns.
Print Assumptions c24_inv_inv.
Print Assumptions c24_inv_mult.
Print Assumptions c24_inv_trans.
Print Assumptions c24_det_inv.
Print Assumptions c24_inv_eye.
Print Assumptions c25_pow.
Print Assumptions c25_pow_neg.
Print Assumptions c25_pow_neg_singular.
Print Assumptions c25_pow_add.
Print Assumptions c26_narrow_least.
Print Assumptions c27_lu.
Print Assumptions c28_lu_returns_iff.
Print Assumptions c28_lu_otherwise.
Print Assumptions c28_lu_throws_on_factorable.
Print Assumptions c29_lu_det.

(** ** C26, every element type *)

Theorem c26_small (K : scalar) n w (A : matrix (elt K)) :
  [/\ pow K n w A 0 = eye1 K n, pow K n w A 1 = Ok A, pow K n w A 2 = mult K n n n A A &
      pow K n w A 3 = (let* q := mult K n n n A A in mult K n n n q A)].
Proof. by rewrite pow_0 pow_1 pow_2 pow_3. Qed.
Print Assumptions c26_small.

(** int and long: the least exponent overflows (once the inverse is computed) *)
Theorem c26_least (K : scalar) n w (A B : matrix (elt K)) : (32 <= w)%Z ->
  inv K n A = Ok B -> pow K n w A (- 2 ^ (w - 1)) = UB SignedOverflow.
Proof. move=> H E. by rewrite pow_min // E. Qed.
Print Assumptions c26_least.

(** ** C30, C31 *)

Theorem c30_chol (R : rcfType) n (A : 'M[R]_n) : symmetric A -> pos_def A ->
  exists L : 'M[R]_n, chol (realS R) n (mxrows A) = Ok (mxrows L) /\
  [/\ lower L, forall i, 0 < L i i & L *m L^T = A].
Proof. exact: chol_spd. Qed.
Print Assumptions c30_chol.

Lemma llt_pos_def (R : rcfType) n (L : 'M[R]_n) : lower L -> (forall i, 0 < L i i) ->
  pos_def (L *m L^T).
Proof.
  move=> lL pL x Nx. set y := x *m L.
  have -> : x *m (L *m L^T) *m x^T = y *m y^T by rewrite /y trmx_mul !mulmxA.
  have Ny : y != 0.
    apply: contraNneq Nx => Ey.
    have U : L \in unitmx.
      rewrite unitmxE unitfE det_trig; last by apply/is_trig_mxP=> i j; apply: lL.
      by apply/prodf_neq0 => i _; rewrite gt_eqF.
    by rewrite -(mulmxK U x) -/y Ey mul0mx.
  rewrite mxE. have -> : \sum_j y 0 j * y^T j 0 = \sum_j y 0 j ^+ 2.
    apply: eq_bigr => j _. have -> : y^T j 0 = y 0 j by rewrite [LHS]mxE.
    by rewrite expr2.
  rewrite lt_neqAle sumr_ge0 ?andbT; last by move=> j _; apply: sqr_ge0.
  apply: contraNneq Ny => /esym/eqP; rewrite psumr_eq0; last by move=> j _; apply: sqr_ge0.
  move=> /allP H. apply/eqP/rowP=> j. rewrite [RHS]mxE.
  have := H j (mem_index_enum j). by rewrite /= expf_eq0 /= => /eqP.
Qed.

Lemma chol_unique (R : rcfType) n (L M : 'M[R]_n) : lower L -> lower M ->
  (forall i, 0 < L i i) -> (forall i, 0 < M i i) -> L *m L^T = M *m M^T -> L = M.
Proof.
  move=> lL lM pL pM E.
  suff H a : forall i j : 'I_n, (i < a)%N -> L i j = M i j.
    by apply/matrixP=> i j; apply: (H n).
  elim: a => [|a IHa] i j; first by rewrite ltn0.
  rewrite ltnS leq_eqVlt => /orP [/eqP Ei|]; last exact: IHa.
  case: (ltnP i j) => [Hij|]; first by rewrite lL ?lM.
  suff H b : forall j : 'I_n, (j < b)%N -> (j <= i)%N -> L i j = M i j by apply: (H n).
  elim: b {j} => [|b IHb] j; first by rewrite ltn0.
  rewrite ltnS leq_eqVlt => /orP [/eqP Ej|]; last exact: IHb.
  move=> Hji. have := congr1 (fun X : 'M[R]_n => X i j) E.
  rewrite !mxE (bigD1 j) //= [in X in _ = X](bigD1 j) //= !mxE.
  have -> : \sum_(k < n | k != j) L i k * L^T k j = \sum_(k < n | k != j) M i k * M^T k j.
    apply: eq_bigr => k Nk; rewrite !mxE. case: (ltnP j k) => Hk.
      by rewrite (lL j k Hk) (lM j k Hk) !mulr0.
    have Hk' : (k < b)%N by rewrite -Ej ltn_neqAle Hk andbT.
    rewrite (IHb k) //; last exact: leq_trans Hk Hji.
    move: Hji; rewrite leq_eqVlt => /orP [/eqP Eij|Hji].
      have -> : j = i by apply/val_inj. by rewrite (IHb k) // -Eij.
    by rewrite (IHa j k) // -Ei.
  move/addIr; move: Hji; rewrite leq_eqVlt => /orP [/eqP Eij|Hji].
    have -> : j = i by apply/val_inj.
    by rewrite -!expr2 => /eqP; rewrite eqr_expn2 ?ltW // => /eqP.
  rewrite -(IHa j j) -?Ei // => /mulIf; apply. by rewrite gt_eqF.
Qed.

(** the factor is the only one *)
Theorem c30_unique (R : rcfType) n (A L : 'M[R]_n) : lower L -> (forall i, 0 < L i i) ->
  L *m L^T = A -> chol (realS R) n (mxrows A) = Ok (mxrows L).
Proof.
  move=> lL pL E.
  have Asym : symmetric A by rewrite /symmetric -E trmx_mul trmxK.
  have [|M [-> [lM pM EM]]] := chol_spd Asym.
    rewrite -E. exact: llt_pos_def.
  congr (Ok (mxrows _)). apply: chol_unique => //. by rewrite EM.
Qed.
Print Assumptions c30_unique.

Theorem c31_lower_only (K : scalar) n (f g : nat -> nat -> elt K) :
  (forall i j, (j <= i < n)%N -> f i j = g i j) ->
  chol K n (mk n n f) = chol K n (mk n n g).
Proof. move=> H. apply: chol_lower_only => i j [/leP H1 /ltP H2]. apply: H. by rewrite H1 H2. Qed.
Print Assumptions c31_lower_only.

Theorem c31_returned (R : rcfType) n (A : 'M[R]_n) X : chol (realS R) n (mxrows A) = Ok X ->
  exists L : 'M[R]_n, X = mxrows L /\
  [/\ lower L, forall i, 0 <= L i i &
      L *m L^T = \matrix_(i, j) (if (j <= i)%N then A i j else A j i)].
Proof. exact: chol_ret. Qed.
Print Assumptions c31_returned.

(** a factor with positive diagonal is returned exactly when the matrix with A's
    lower triangle is positive definite, whatever is above A's diagonal *)
Theorem c31_iff (R : rcfType) n (A : 'M[R]_n) :
  (exists L : 'M[R]_n, chol (realS R) n (mxrows A) = Ok (mxrows L) /\ forall i, 0 < L i i) <->
  pos_def (\matrix_(i, j) (if (j <= i)%N then A i j else A j i) : 'M[R]_n).
Proof.
  set B : 'M[R]_n := \matrix_(i, j) _.
  have Esym : symmetric B.
    apply/matrixP=> i j; rewrite !mxE. case: ltngtP => // E. by have -> : i = j by apply/val_inj.
  have EB : chol (realS R) n (mxrows A) = chol (realS R) n (mxrows B).
    rewrite (mxrowsE 0 A) (mxrowsE 0 B). apply: chol_lower_only => i j [/leP H1 /ltP H2].
    have H3 : (j < n)%N by apply: leq_ltn_trans H2.
    rewrite -[i]/(val (Ordinal H2)) -[j]/(val (Ordinal H3)) !mxf_ord mxE /=. by rewrite H1.
  split=> [[L [E pL]]|Pd].
  - have [M [EM [lM _ PM]]] := chol_ret E. have {}EM : L = M by apply: (mxrows_inj 0). rewrite -EM in lM PM.
    have -> : B = L *m L^T by rewrite PM. exact: llt_pos_def.
  - have [L [E [lL pL PL]]] := chol_spd Esym Pd. exists L. by rewrite EB.
Qed.
Print Assumptions c31_iff.

Theorem c31_not_symmetric (R : rcfType) n (A : 'M[R]_n) X : ~ symmetric A ->
  chol (realS R) n (mxrows A) = Ok X ->
  forall L : 'M[R]_n, X = mxrows L -> L *m L^T <> A.
Proof.
  move=> N E L EL. move=> P; apply: N; rewrite /symmetric -P. by rewrite trmx_mul trmxK.
Qed.
Print Assumptions c31_not_symmetric.

(** ** the hypotheses are met: concrete matrices over the rationals and over any
    real closed field *)

Definition exA : 'M[rat]_2 := mx22 1 2%:R 3%:R 5%:R.
Definition exS : 'M[rat]_2 := mx22 1 2%:R 2%:R 4%:R.

Example c22_ex : \det exA = -1 /\ exA \in unitmx /\ mxrows exA = [:: [:: 1; 2%:R]; [:: 3%:R; 5%:R]].
Proof. by rewrite unitmxE det_mx22 mxrows_mx22. Qed.

Example c23_ex : \det exS = 0.
Proof. by rewrite det_mx22. Qed.

Lemma lead_minor22 (R : comRingType) (a b c d : R) k (Hk : (k <= 2)%N) : (0 < k)%N ->
  lead_minor (mx22 a b c d) Hk = if k == 1%N then a else a * d - b * c.
Proof.
  case: k Hk => [//|[|[|//]]] Hk _ /=; rewrite /lead_minor.
  - by rewrite det_mx11 !mxE.
  - rewrite -det_mx22; congr (\det _); apply/matrixP=> i j; by rewrite !mxE.
Qed.

Example c28_ex_ok lt ab sq : returns (lu (exactS lt ab sq) 2 (mxrows exA)).
Proof.
  apply/c28_lu_returns_iff=> k Hk Hk0. rewrite lead_minor22 //. by case: ifP.
Qed.

(** an invertible matrix lu rejects, a singular one with a factorisation it rejects *)
Example c28_ex_throw lt ab sq :
  lu (exactS lt ab sq) 2 (mxrows (mx22 0 1 1 (0 : rat))) = Throw OverflowError /\
  lu (exactS lt ab sq) 2 (mxrows exS) = Throw OverflowError /\
  (exists L U : 'M[rat]_2, [/\ unit_lower L, upper U & L *m U = exS]).
Proof.
  split.
    case: (@c28_lu_otherwise _ lt ab sq _ (mx22 0 1 1 (0 : rat))) => // /c28_lu_returns_iff /(_ 1%N isT isT).
    by rewrite lead_minor22.
  split; first by apply: c28_lu_throws_on_factorable; rewrite ?det_mx22.
  exists (mx22 1 0 2%:R 1), (mx22 1 2%:R 0 0). split.
  - split=> [i|i j]; rewrite !mxE; first by case: i => [[|[|]]].
    by case: i => [[|[|]]] //; case: j => [[|[|]]].
  - move=> i j; rewrite !mxE; by case: i => [[|[|]]] //; case: j => [[|[|]]].
  - apply/matrixP=> i j; rewrite !mxE !big_ord_recl big_ord0 !mxE /=.
    by case: i => [[|[|]]] //= ?; case: j => [[|[|]]] //= ?.
Qed.

(** [[2,1],[1,2]] is symmetric and positive definite *)
Section C30ex.
Variable R : rcfType.
Notation cR := (Num.RealClosedField.comRingType R).
Add Ring Rring : (comring_theory cR).

Example c30_ex : let A : 'M[R]_2 := mx22 2%:R 1 1 2%:R in symmetric A /\ pos_def A.
Proof.
  split.
  - apply/matrixP=> i j; rewrite !mxE; by case: i => [[|[|]]] //; case: j => [[|[|]]].
  - move=> x Nx. rewrite !mxE !big_ord_recl !big_ord0 !mxE !big_ord_recl !big_ord0 !mxE /=.
    set a := x _ _; set b := x _ _.
    have -> : (a * 2%:R + (b * 1 + 0)) * a + ((a * 1 + (b * 2%:R + 0)) * b + 0)
      = a ^+ 2 + b ^+ 2 + (a + b) ^+ 2.
      rewrite !expr2 !mulr2n. mc_ring (Num.RealClosedField.comRingType R).
    have [Ea|Na] := eqVneq a 0; last first.
      by rewrite -addrA ltr_paddr ?exprn_even_gt0 // addr_ge0 // sqr_ge0.
    have Nb : b != 0.
      apply: contraNneq Nx => Eb. apply/eqP/rowP=> j. rewrite mxE.
      case: (unliftP ord0 j) => [k ->|->]; last exact: Ea.
      rewrite (ord1 k). exact: Eb.
    by rewrite addrAC addrC ltr_paddr ?exprn_even_gt0 // addr_ge0 // sqr_ge0.
Qed.

(** a matrix that is not symmetric and is accepted all the same *)
Theorem c31_accepts_asymmetric : let A : 'M[R]_2 := mx22 2%:R 0 1 2%:R in
  ~ symmetric A /\ exists X, chol (realS R) 2 (mxrows A) = Ok X.
Proof.
  move=> A. split.
  - move=> /(congr1 (fun X : 'M[R]_2 => X ord0 (lift ord0 ord0))). rewrite !mxE /= => /eqP.
    by rewrite oner_eq0.
  - have [L [H _]] : exists L : 'M[R]_2, chol (realS R) 2 (mxrows A) = Ok (mxrows L) /\ forall i, 0 < L i i;
      last by exists (mxrows L).
    apply/c31_iff. have [_] := c30_ex. set B := mx22 _ _ _ _. set C := \matrix_(i, j) _.
    have -> : C = B; last by [].
    apply/matrixP=> i j; rewrite !mxE; by case: i => [[|[|]]] //; case: j => [[|[|]]].
Qed.
Print Assumptions c31_accepts_asymmetric.
End C30ex.
