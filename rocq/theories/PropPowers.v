(** * C84: the laws of exponents, and linear systems *)

From Coq Require Import ZArith List Lia.
From mathcomp Require Import all_ssreflect all_algebra.
From mathcomp Require Import zify ssrZ.
From Verif Require Import Base Scalar Model Spec Loops Struct Elim Alg Exact ExactLemmas Det Inv Pow PropAlg PropBlockExact.

Set Implicit Arguments.
Unset Strict Implicit.
Unset Printing Implicit Defensive.

Import GRing.Theory.
Local Open Scope ring_scope.
Delimit Scope Z_scope with Z.

Lemma conj_exp (R : unitRingType) (x y : R) (k : nat) : y \is a GRing.unit -> (y^-1 * x * y) ^+ k = y^-1 * x ^+ k * y.
Proof.
  move=> U. elim: k => [|k IH]; first by rewrite !expr0 mulr1 mulVr.
  by rewrite exprS IH exprS !mulrA -[_ * x * y * y^-1]mulrA divrr // mulr1.
Qed.
Lemma conjXz (R : unitRingType) (x y : R) (k : int) : x \is a GRing.unit -> y \is a GRing.unit ->
  (y^-1 * x * y) ^ k = y^-1 * x ^ k * y.
Proof.
  move=> Ux U. case: k => k; first exact: conj_exp.
  have E : (y^-1 * x * y)^-1 = y^-1 * x^-1 * y.
  { rewrite invrM //; last by rewrite unitrMl ?unitrV. by rewrite invrM ?unitrV // invrK mulrA. }
  rewrite NegzE -[LHS]exprz_inv -[x ^ _]exprz_inv E. exact: conj_exp.
Qed.

Section Field.
Variables (F : fieldType) (lt : F -> F -> bool) (ab : F -> F) (sq : F -> outcome F).
Notation K := (exactS lt ab sq).

(** the exponent has a signed type of w bits and is not its least value *)
Definition exponent (w p : Z) : Prop := (1 <= w)%Z /\ (- 2 ^ (w - 1) < p < 2 ^ (w - 1))%Z.

Lemma mxpow_exp n (A : 'M[F]_n.+1) p : mxpow A p = A ^+ p.
Proof. by elim: p => [|p IH] //=; rewrite exprS -IH. Qed.

Lemma pow_z n w (A : 'M[F]_n.+1) p : A \in unitmx -> exponent w p ->
  pow K n.+1 w (mxrows A) p = Ok (mxrows (A ^ int_of_Z p)).
Proof.
  move=> U [Hw [H1 H2]]. case: (Z_lt_le_dec p 0) => Hp.
  - have -> : p = (- Z.of_nat (Z.to_nat (- p)))%Z by lia.
    rewrite pow_neg_mx //; try lia. rewrite mxpow_exp. congr (Ok (mxrows _)).
    have -> : int_of_Z (- Z.of_nat (Z.to_nat (- p))) = - (Z.to_nat (- p))%:Z by lia.
    by rewrite -exprz_inv.
  - have -> : p = Z.of_nat (Z.to_nat p) by lia. rewrite pow_mx //; last lia. rewrite mxpow_exp. congr (Ok (mxrows _)).
    by have -> : int_of_Z (Z.of_nat (Z.to_nat p)) = (Z.to_nat p)%:Z by lia.
Qed.

Lemma det_unit n (X : 'M[F]_n) d : det K n (mxrows X) = Ok d -> d <> 0 -> X \in unitmx.
Proof. rewrite det_mx => -[<-] /eqP D. by rewrite unitmxE unitfE. Qed.

Ltac pos n := case: n => [//|n].

(** ** exponents: an invertible matrix, exponents of either sign *)
Theorem c84_add n w (A : matrix F) d p q : shape n n A -> (0 < n)%N -> det K n A = Ok d -> d <> 0 ->
  exponent w p -> exponent w q -> exponent w (p + q) ->
  pow K n w A (p + q) = (let* X := pow K n w A p in let* Y := pow K n w A q in mult K n n n X Y).
Proof.
  pos n. move=> H _ D N Hp Hq Hpq. tomx H. have U := det_unit D N.
  rewrite !pow_z //= mult_mx. congr (Ok (mxrows _)).
  have -> : int_of_Z (p + q) = int_of_Z p + int_of_Z q by lia. exact: exprzDr.
Qed.

Theorem c84_mul n w (A : matrix F) d p q : shape n n A -> (0 < n)%N -> det K n A = Ok d -> d <> 0 ->
  exponent w p -> exponent w q -> exponent w (p * q) ->
  (let* X := pow K n w A p in pow K n w X q) = pow K n w A (p * q).
Proof.
  pos n. move=> H _ D N Hp Hq Hpq. tomx H. have U := det_unit D N.
  rewrite !pow_z //= pow_z //; last exact: unitrXz. congr (Ok (mxrows _)).
  have -> : int_of_Z (p * q) = int_of_Z p * int_of_Z q by lia. exact: exprz_exp.
Qed.

Theorem c84_neg n w (A : matrix F) d p : shape n n A -> (0 < n)%N -> det K n A = Ok d -> d <> 0 -> exponent w p ->
  (let* X := pow K n w A p in inv K n X) = pow K n w A (- p) /\
  (let* X := inv K n A in pow K n w X p) = pow K n w A (- p).
Proof.
  pos n. move=> H _ D N Hp. tomx H. have U := det_unit D N.
  have Hm : exponent w (- p) by case: Hp => ? ?; split=> //; lia.
  have E : int_of_Z (- p) = - int_of_Z p by lia.
  rewrite !pow_z //. cbn [bind]. rewrite inv_mx; last exact: (@unitrXz _ X).
  rewrite inv_mx //. cbn [bind]. rewrite pow_z ?unitmx_inv //.
  rewrite E. split; congr (Ok (mxrows _)); first by rewrite -invr_expz. by rewrite -exprz_inv.
Qed.

(** the determinant of a power is the power of the determinant *)
Theorem c84_det n w (A : matrix F) p : shape n n A -> (1 <= w)%Z -> (Z.of_nat p < 2 ^ (w - 1))%Z ->
  (let* X := pow K n w A (Z.of_nat p) in det K n X) = (let* d := det K n A in Ok (d ^+ p)).
Proof.
  move=> H Hw Hp. tomx H. rewrite pow_mx //= !det_mx /=. congr Ok.
  elim: p {Hp} => [|p IH] /=; first by rewrite matrix.det1. by rewrite det_mulmx IH exprS.
Qed.

(** commuting factors *)
Theorem c84_commute n w (A B : matrix F) d e p : shape n n A -> shape n n B -> (0 < n)%N ->
  det K n A = Ok d -> d <> 0 -> det K n B = Ok e -> e <> 0 -> exponent w p ->
  mult K n n n A B = mult K n n n B A ->
  (let* X := mult K n n n A B in pow K n w X p)
  = (let* X := pow K n w A p in let* Y := pow K n w B p in mult K n n n X Y).
Proof.
  pos n. move=> H H' _ D N D' N' Hp. tomx H; tomx H'. have U := det_unit D N. have U' := det_unit D' N'.
  rewrite !mult_mx => -[/(mxrows_inj 0) C]. rewrite /= !pow_z ?unitmx_mul ?U //= mult_mx. congr (Ok (mxrows _)).
  exact: exprMz_comm.
Qed.

(** change of basis *)
Theorem c84_similar n w (A P Q : matrix F) d p : shape n n A -> shape n n P -> (0 < n)%N ->
  det K n A = Ok d -> d <> 0 -> inv K n P = Ok Q -> exponent w p ->
  (let* X := mult K n n n Q A in let* Y := mult K n n n X P in pow K n w Y p)
  = (let* Z := pow K n w A p in let* X := mult K n n n Q Z in mult K n n n X P).
Proof.
  pos n. move=> H H' Hn D N EQ Hp. tomx H; tomx H'. have U := det_unit D N. have [V ->] := inv_unit Hn EQ.
  rewrite !mult_mx /= mult_mx /= !pow_z ?unitmx_mul ?unitmx_inv ?U ?V //= mult_mx /= mult_mx. congr (Ok (mxrows _)).
  rewrite -[RHS]/((X0^-1 * X ^ int_of_Z p) * X0) -[LHS]/((X0^-1 * X * X0) ^ int_of_Z p). exact: conjXz.
Qed.

(** ** linear systems *)

(** inv(A) * B is the one and only solution of A * X = B *)
Theorem c84_solve n m (A A' B : matrix F) : (0 < n)%N -> shape n n A -> shape n m B -> inv K n A = Ok A' ->
  exists X, mult K n n m A' B = Ok X /\ shape n m X /\
  forall Y, shape n m Y -> (mult K n n m A Y = Ok B <-> Y = X).
Proof.
  move=> Hn H HB. tomx H; tomx HB => /(inv_unit Hn) [U ->]. rewrite mult_mx. eexists. split; first reflexivity.
  split; first exact: (shape_mxrows 0). move=> Y HY; tomx HY. rewrite mult_mx. split.
  - by move=> [/(mxrows_inj 0) <-]; rewrite mulmxA mulVmx // mul1mx.
  - by move=> /(mxrows_inj 0) ->; rewrite mulmxA mulmxV // mul1mx.
Qed.

(** det(A) is zero exactly when A maps some non-zero column to zero *)
Theorem c84_kernel n (A : matrix F) : shape n n A ->
  det K n A = Ok 0 <-> exists X, shape n 1 X /\ X <> zeros K n 1 /\ mult K n n 1 A X = Ok (zeros K n 1).
Proof.
  move=> H; tomx H. rewrite det_mx. split.
  - move=> [D]. have : ~~ row_free X^T by rewrite row_free_unit unitmxE unitfE det_tr D eqxx.
    rewrite -kermx_eq0 => /rowV0Pn [v /sub_kermxP E N]. exists (mxrows v^T). split; first exact: (shape_mxrows 0).
    rewrite !zeros_mx. split; first by move=> /(mxrows_inj 0) /(congr1 trmx); rewrite trmxK trmx0; apply/eqP.
    rewrite mult_mx. by rewrite -[X *m v^T]trmxK trmx_mul trmxK E trmx0.
  - move=> [Y [HY [N E]]]. tomx HY. move: N E; rewrite !zeros_mx mult_mx => N [/(mxrows_inj 0) E].
    case: (eqVneq (\det X) 0) => [->//|D]. case: N. congr mxrows.
    have U : X \in unitmx by rewrite unitmxE unitfE. by rewrite -[X0]mul1mx -(mulVmx U) -mulmxA E mulmx0.
Qed.

(** a one-sided inverse is the inverse *)
Theorem c84_one_sided n (A B E : matrix F) : (0 < n)%N -> shape n n A -> shape n n B -> eye1 K n = Ok E ->
  (mult K n n n A B = Ok E \/ mult K n n n B A = Ok E) -> inv K n A = Ok B.
Proof.
  move=> Hn H HB. tomx H; tomx HB. rewrite eye1_mx => -[<-]. rewrite !mult_mx.
  move=> [] [/(mxrows_inj 0) M]; have [U V] := mulmx1_unit M; rewrite inv_mx //; congr (Ok (mxrows _)).
  - by rewrite -[RHS]mul1mx -(mulVmx U) -mulmxA M mulmx1.
  - by rewrite -[RHS]mulmx1 -(mulmxV V) mulmxA M mul1mx.
Qed.

(** Cramer's rule; the numerator is the determinant of A with column k replaced *)
Definition replace_col (k : nat) (b A : matrix F) : matrix F :=
  map (fun rr => take k rr.2 ++ rr.1 ++ drop k.+1 rr.2)%SEQ (zip b A).

Lemma zip_maps (T U V : Type) (f : T -> U) (g : T -> V) s : zip (map f s) (map g s) = map (fun x => (f x, g x)) s.
Proof. by elim: s => //= x s ->. Qed.

Lemma replace_in_row k n (g : nat -> F) x : (k < n)%N ->
  (take k (map g (iota 0 n)) ++ [:: x] ++ drop k.+1 (map g (iota 0 n)))%SEQ = map (fun j => if j == k then x else g j) (iota 0 n).
Proof.
  move=> Hk. have Ss : size (take k (map g (iota 0 n))) = k by rewrite size_takel // size_map size_iota ltnW.
  apply: (@eq_from_nth _ 0).
  { rewrite !size_cat Ss size_drop /= !size_map size_iota. lia. }
  move=> j. rewrite !size_cat Ss size_drop !size_map size_iota => Hj.
  have Hn : (j < n)%N by rewrite /= in Hj; lia.
  rewrite [RHS](nth_map 0%N) ?size_iota // nth_iota // add0n nth_cat Ss.
  case: ltngtP => [L|L|->]; last by rewrite subnn.
  - by rewrite nth_take // (nth_map 0%N) ?size_iota // nth_iota.
  - have -> : (j - k = (j - k.+1).+1)%N by lia. rewrite /= nth_drop subnKC // (nth_map 0%N) ?size_iota //. by rewrite nth_iota.
Qed.

Lemma replace_col_mx n (A : 'M[F]_n) (b : 'cV[F]_n) (k : 'I_n) :
  replace_col k (mxrows b) (mxrows A) = mxrows (\matrix_(i, j) (if j == k then b i 0 else A i j)).
Proof.
  rewrite (mxrowsE 0 A) (mxrowsE 0 b) /replace_col /mk !seq_iota !List_map_map zip_maps -map_comp.
  rewrite (@mxrows_mk _ _ _ _ (fun i j => if j == k :> nat then mxf 0 b i 0 else mxf 0 A i j)); last first.
  { move=> i j. rewrite mxE !mxf_ord. by rewrite (mxf_ord 0 b i ord0). }
  rewrite /mk !seq_iota !List_map_map. apply: eq_map => i /=. rewrite !List_map_map. exact: replace_in_row.
Qed.

Theorem c84_cramer n (A b X : matrix F) d k : (k < n)%N -> shape n n A -> shape n 1 b -> shape n 1 X ->
  det K n A = Ok d -> mult K n n 1 A X = Ok b ->
  exists x, aget X k 0 = Ok x /\ det K n (replace_col k b A) = Ok (x * d).
Proof.
  move=> Hk HA Hb HX. tomx HA; tomx Hb; tomx HX. rename X0 into A, X1 into b, X2 into x. pose k' := Ordinal Hk.
  rewrite det_mx mult_mx => -[<-] [/(mxrows_inj 0) E]. exists (x k' ord0). split.
  - rewrite (mxrowsE 0 x) aget_mk; [|exact/ssrnat.ltP|done]. by rewrite (mxf_ord 0 x k' ord0).
  - rewrite (replace_col_mx A b k') det_mx. congr Ok. rewrite (expand_det_col _ k').
    transitivity ((\adj A *m b) k' 0).
    + rewrite mxE. apply: eq_bigr => i _. rewrite !mxE eqxx mulrC. congr (_ * _). rewrite /cofactor. congr (_ * \det _).
      apply/matrixP => a c. rewrite !mxE. by rewrite eq_sym (negbTE (neq_lift _ _)).
    + by rewrite -E mulmxA mul_adj_mx mul_scalar_mx mxE mulrC.
Qed.
End Field.

(** concrete cases, with rationals: exA = [[1, 2], [3, 5]], of determinant -1 *)
Example c84_ex lt ab sq : exponent 32 (-3) /\ exponent 32 2 /\ exponent 8 127 /\ ~ exponent 8 (-128) /\
  let K := exactS lt ab sq in det K 2 (mxrows exA) = Ok (-1) /\ -1 <> 0 :> rat.
Proof. split; [|split; [|split; [|split]]]; rewrite /exponent; try lia. by rewrite det_mx (proj1 c22_ex). Qed.

Print Assumptions c84_add.
Print Assumptions c84_mul.
Print Assumptions c84_neg.
Print Assumptions c84_det.
Print Assumptions c84_commute.
Print Assumptions c84_similar.
Print Assumptions c84_solve.
Print Assumptions c84_kernel.
Print Assumptions c84_one_sided.
Print Assumptions c84_cramer.
