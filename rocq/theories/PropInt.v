(** * Properties C14-C17, C21, C36, C38: C++ integer element types

    [intS t] is the C++ integer type [t] of a given width and signedness;
    [mx_in t A] says that every element of the integer matrix [A] is
    representable in [t]; [mxrows A] is the array of [A].  Right-hand sides are
    matrices over Z with mathcomp's [+], [*m], [\det]. *)

From Coq Require Import ZArith List Lia.
From mathcomp Require Import all_ssreflect all_algebra.
From mathcomp Require Import zify ssrZ.
From Flocq Require Import IEEE754.BinarySingleNaN.
From Verif Require Import Base Scalar Model CInt CFloat Spec Loops Struct Conv Exact ExactLemmas Alg Det ConvExact Pow StatExact Sim IntMx Int IntStat RepoTests PropAlg.

Set Implicit Arguments.
Unset Strict Implicit.
Unset Printing Implicit Defensive.

Import GRing.Theory.
Local Open Scope ring_scope.
Delimit Scope Z_scope with Z.

(** [[1,2],[3,4]] etc. as matrices *)
Definition exI : 'M[Z]_2 := mx22 (1 : Z) (2 : Z)%Z (3 : Z)%Z (4 : Z)%Z.
Example exI_in : mx_in int32 exI /\ mx_in uint32 exI /\ mx_in int16 exI.
Proof. by split; last split; move=> i j; rewrite mxE; do ?case: ifP. Qed.

Lemma w64 : (32 <= width int64 <= 64)%Z. Proof. by []. Qed.

(** ** C14 strassen on integers and floats *)

Theorem c14_strassen_unsigned t (A B : 'M[Z]_2) : sgn t = false -> (32 <= width t)%Z ->
  mx_in t A -> mx_in t B ->
  strassen (intS t) (mxrows A) (mxrows B) = mult (intS t) 2 2 2 (mxrows A) (mxrows B) /\
  returns (mult (intS t) 2 2 2 (mxrows A) (mxrows B)).
Proof. move=> Hs Hw HA HB. rewrite ustrassen_mx // umult_mx //. by split=> //; eexists. Qed.
Print Assumptions c14_strassen_unsigned.

(** signed: if both return they agree; but strassen may overflow where A*B does not *)
Theorem c14_strassen_signed t (A B : 'M[Z]_2) X Y : sgn t = true -> (32 <= width t)%Z ->
  mx_in t A -> mx_in t B ->
  strassen (intS t) (mxrows A) (mxrows B) = Ok X ->
  mult (intS t) 2 2 2 (mxrows A) (mxrows B) = Ok Y -> X = Y.
Proof.
  move=> Hs Hw HA HB /(sstrassen_exact Hs Hw HA HB) [-> _] /(smult_exact Hs Hw HA HB) [-> _].
  by [].
Qed.
Print Assumptions c14_strassen_signed.

Theorem c14_strassen_overflows : exists A B : matrix Z,
  strassen (intS int32) A B = UB SignedOverflow /\
  mult (intS int32) 2 2 2 A B = Ok A.
Proof.
  exists [:: [:: 1073741824; 0]; [:: 0; 1073741824]]%Z, [:: [:: 1; 0]; [:: 0; 1]]%Z. by split.
Qed.
Print Assumptions c14_strassen_overflows.

(** float: diag(1, 2^24) times the identity comes out with -1 in place of 1 *)
Definition diag24 : matrix (elt float32S) := fm [:: [:: 1; 0]; [:: 0; 16777216]]%Z.
Definition id2 : matrix (elt float32S) := fm [:: [:: 1; 0]; [:: 0; 1]]%Z.

Lemma strassen_float_check :
  match strassen float32S diag24 id2, mult float32S 2 2 2 diag24 id2 with
  | Ok X, Ok Y => [&& ~~ mat_eqb float32S X Y, mat_eqb float32S Y diag24 &
      mat_eqb float32S X (fm [:: [:: -1; 0]; [:: 0; 16777216]]%Z)]
  | _, _ => false
  end = true.
Proof. by vm_compute. Qed.

Theorem c14_strassen_float : exists X Y,
  strassen float32S diag24 id2 = Ok X /\ mult float32S 2 2 2 diag24 id2 = Ok Y /\
  mat_eqb float32S X Y = false /\ mat_eqb float32S Y diag24 = true /\
  mat_eqb float32S X (fm [:: [:: -1; 0]; [:: 0; 16777216]]%Z) = true.
Proof.
  move: strassen_float_check.
  case: (strassen _ _ _) => // X; case: (mult _ _ _ _ _ _) => // Y /and3P [/negbTE H1 H2 H3].
  by exists X, Y.
Qed.
Print Assumptions c14_strassen_float.

(** ** C15 unsigned types are modular *)
Section C15.
Variable t : ityp.
Hypothesis Hs : sgn t = false.
Hypothesis Hw : (32 <= width t)%Z.
Notation K := (intS t).
Notation modulo X := (mxrows (map_mx (fun z => Z.modulo z (2 ^ width t)) X)).

Theorem c15_sum n m (A B : 'M[Z]_(n, m)) : mx_in t A -> mx_in t B ->
  sum K n m (mxrows A) (mxrows B) = Ok (modulo (A + B)).
Proof. exact: usum_mx. Qed.

Theorem c15_sub n m (A B : 'M[Z]_(n, m)) : mx_in t A -> mx_in t B ->
  sub K n m (mxrows A) (mxrows B) = Ok (modulo (A - B)).
Proof. exact: usub_mx. Qed.

Theorem c15_sum_scalar n m (A : 'M[Z]_(n, m)) s : mx_in t A -> in_range t s ->
  sum_scalar K n m (mxrows A) s = Ok (modulo (A + const_mx s)).
Proof. exact: usum_scalar_mx. Qed.

Theorem c15_sub_scalar n m (A : 'M[Z]_(n, m)) s : mx_in t A -> in_range t s ->
  sub_scalar K n m (mxrows A) s = Ok (modulo (A - const_mx s)).
Proof. exact: usub_scalar_mx. Qed.

Theorem c15_mult_scalar n m (A : 'M[Z]_(n, m)) s : mx_in t A -> in_range t s ->
  mult_scalar K n m (mxrows A) s = Ok (modulo (s *: A)).
Proof. exact: umult_scalar_mx. Qed.

Theorem c15_mult n m p (A : 'M[Z]_(n, m)) (B : 'M[Z]_(m, p)) : mx_in t A -> mx_in t B ->
  mult K n m p (mxrows A) (mxrows B) = Ok (modulo (A *m B)).
Proof. exact: umult_mx. Qed.

Theorem c15_strassen (A B : 'M[Z]_2) : mx_in t A -> mx_in t B ->
  strassen K (mxrows A) (mxrows B) = Ok (modulo (A *m B)).
Proof. exact: ustrassen_mx. Qed.

Theorem c15_det n (A : 'M[Z]_n) : (0 < n <= 3)%N -> mx_in t A ->
  det K n (mxrows A) = Ok (Z.modulo (\det A) (2 ^ width t)).
Proof. exact: udet_mx. Qed.

Theorem c15_conv2 n m (A : 'M[Z]_(n, m)) (k : 'M[Z]_3) :
  (Z.of_nat n <= 2 ^ 31)%Z -> (Z.of_nat m <= 2 ^ 31)%Z -> mx_in t A -> mx_in t k ->
  conv2 K n m (mxrows A) (mxrows k) = Ok (modulo (octave_same A (rot180 k))).
Proof. exact: uconv2_mx. Qed.

Theorem c15_pow n w (A : 'M[Z]_n) q : (Z.of_nat q < 2 ^ (Z.max w 32))%Z -> mx_in t A ->
  pow K n w (mxrows A) (Z.of_nat q) = Ok (modulo (mxpow A q)).
Proof. exact: upow_mx. Qed.
End C15.
Print Assumptions c15_sum.
Print Assumptions c15_sub.
Print Assumptions c15_sum_scalar.
Print Assumptions c15_sub_scalar.
Print Assumptions c15_mult_scalar.
Print Assumptions c15_mult.
Print Assumptions c15_strassen.
Print Assumptions c15_det.
Print Assumptions c15_conv2.
Print Assumptions c15_pow.

Example c15_ex : sgn uint32 = false /\ (32 <= width uint32)%Z /\
  mult (intS uint32) 1 2 1 [:: [:: 4294967295; 2]]%Z [:: [:: 2]; [:: 3]]%Z = Ok [:: [:: 4]]%Z.
Proof. by []. Qed.

(** ** C16 signed types are exact or undefined *)
Section C16.
Variable t : ityp.
Hypothesis Hs : sgn t = true.
Hypothesis Hw : (32 <= width t)%Z.
Notation K := (intS t).

Theorem c16_sum n m (A B : 'M[Z]_(n, m)) C : mx_in t A -> mx_in t B ->
  sum K n m (mxrows A) (mxrows B) = Ok C -> C = mxrows (A + B) /\ mx_in t (A + B).
Proof. exact: ssum_exact. Qed.

Theorem c16_sum_returns n m (A B : 'M[Z]_(n, m)) : mx_in t (A + B) ->
  sum K n m (mxrows A) (mxrows B) = Ok (mxrows (A + B)).
Proof. exact: ssum_returns. Qed.

Theorem c16_sub n m (A B : 'M[Z]_(n, m)) C : mx_in t A -> mx_in t B ->
  sub K n m (mxrows A) (mxrows B) = Ok C -> C = mxrows (A - B) /\ mx_in t (A - B).
Proof. exact: ssub_exact. Qed.

Theorem c16_sub_returns n m (A B : 'M[Z]_(n, m)) : mx_in t (A - B) ->
  sub K n m (mxrows A) (mxrows B) = Ok (mxrows (A - B)).
Proof. exact: ssub_returns. Qed.

Theorem c16_mult_scalar n m (A : 'M[Z]_(n, m)) s C : mx_in t A -> in_range t s ->
  mult_scalar K n m (mxrows A) s = Ok C -> C = mxrows (s *: A) /\ mx_in t (s *: A).
Proof. exact: smult_scalar_exact. Qed.

Theorem c16_mult n m p (A : 'M[Z]_(n, m)) (B : 'M[Z]_(m, p)) C : mx_in t A -> mx_in t B ->
  mult K n m p (mxrows A) (mxrows B) = Ok C -> C = mxrows (A *m B) /\ mx_in t (A *m B).
Proof. exact: smult_exact. Qed.

Theorem c16_strassen (A B : 'M[Z]_2) C : mx_in t A -> mx_in t B ->
  strassen K (mxrows A) (mxrows B) = Ok C -> C = mxrows (A *m B) /\ mx_in t (A *m B).
Proof. exact: sstrassen_exact. Qed.

Theorem c16_pow n w (A : 'M[Z]_n) q C : mx_in t A ->
  pow K n w (mxrows A) (Z.of_nat q) = Ok C -> C = mxrows (mxpow A q) /\ mx_in t (mxpow A q).
Proof. exact: spow_exact. Qed.

Theorem c16_det n (A : 'M[Z]_n) d : (0 < n <= 3)%N -> mx_in t A ->
  det K n (mxrows A) = Ok d -> d = \det A /\ in_range t (\det A).
Proof. exact: sdet_exact. Qed.

Theorem c16_conv2 n m (A : 'M[Z]_(n, m)) (k : 'M[Z]_3) C :
  (Z.of_nat n <= 2 ^ 31)%Z -> (Z.of_nat m <= 2 ^ 31)%Z -> mx_in t A -> mx_in t k ->
  conv2 K n m (mxrows A) (mxrows k) = Ok C ->
  C = mxrows (octave_same A (rot180 k)) /\ mx_in t (octave_same A (rot180 k)).
Proof. exact: sconv2_exact. Qed.

Theorem c16_mult_bound n m p (A : 'M[Z]_(n, m)) (B : 'M[Z]_(m, p)) a0 b0 : mx_in t A -> mx_in t B ->
  (forall i k, (Z.abs (A i k) <= a0)%Z) -> (forall k j, (Z.abs (B k j) <= b0)%Z) ->
  (Z.of_nat m * (a0 * b0) <= imax t)%Z ->
  mult K n m p (mxrows A) (mxrows B) = Ok (mxrows (A *m B)).
Proof. exact: smult_bound. Qed.
End C16.
Print Assumptions c16_sum.
Print Assumptions c16_sum_returns.
Print Assumptions c16_sub.
Print Assumptions c16_sub_returns.
Print Assumptions c16_mult_scalar.
Print Assumptions c16_mult.
Print Assumptions c16_strassen.
Print Assumptions c16_pow.
Print Assumptions c16_det.
Print Assumptions c16_conv2.
Print Assumptions c16_mult_bound.

Example c16_ex : sgn int32 = true /\ (32 <= width int32)%Z /\
  (forall i j, (Z.abs (exI i j) <= 4)%Z) /\ (Z.of_nat 2 * (4 * 4) <= imax int32)%Z /\
  mult (intS int32) 2 2 2 (mxrows exI) (mxrows exI) = Ok [:: [:: 7; 10]; [:: 15; 22]]%Z.
Proof.
  split=> //; split=> //; split; last by rewrite mxrows_mx22.
  by move=> i j; rewrite mxE; do ?case: ifP.
Qed.

(** ** C17 unsigned short *)

Theorem c17_sum n m (A B : 'M[Z]_(n, m)) : mx_in uint16 A -> mx_in uint16 B ->
  sum (intS uint16) n m (mxrows A) (mxrows B) = Ok (mxrows (map_mx (fun z => (z mod 65536)%Z) (A + B))).
Proof. exact: nsum_mx. Qed.
Print Assumptions c17_sum.

Theorem c17_sub n m (A B : 'M[Z]_(n, m)) : mx_in uint16 A -> mx_in uint16 B ->
  sub (intS uint16) n m (mxrows A) (mxrows B) = Ok (mxrows (map_mx (fun z => (z mod 65536)%Z) (A - B))).
Proof. exact: nsub_mx. Qed.
Print Assumptions c17_sub.

Theorem c17_mult_undefined : mx_in uint16 (const_mx (65535 : Z)%Z : 'M[Z]_1) /\
  mult (intS uint16) 1 1 1 [:: [:: 65535]]%Z [:: [:: 65535]]%Z = UB SignedOverflow.
Proof. split=> // i j; by rewrite mxE. Qed.
Print Assumptions c17_mult_undefined.

(** the other narrow types never overflow in a product *)
Theorem c17_mult_other t n m p (A : 'M[Z]_(n, m)) (B : 'M[Z]_(m, p)) :
  t = int8 \/ t = uint8 \/ t = int16 -> mx_in t A -> mx_in t B ->
  mult (intS t) n m p (mxrows A) (mxrows B) = Ok (mxrows (map_mx (iconv t) (A *m B))).
Proof. by case=> [->|[->|->]]; apply: nmult_mx => //; [left|right|left]. Qed.
Print Assumptions c17_mult_other.

(** ** C21 det of int matrices *)

Theorem c21_exact3 n (A : 'M[Z]_n) d : (0 < n <= 3)%N -> mx_in int32 A ->
  det (intS int32) n (mxrows A) = Ok d -> d = \det A.
Proof. move=> Hn HA /(@sdet_exact int32 erefl (Z.le_refl 32) n A d Hn HA) []. by []. Qed.
Print Assumptions c21_exact3.

(** the 4x4 matrix [2 1 0 0; 1 1 0 0; 0 0 1 0; 0 0 0 1] *)
Definition bad4 : 'M[Z]_(2 + 2) := block_mx (mx22 (2 : Z)%Z (1 : Z) (1 : Z) (1 : Z)) 0 0 1%:M.

Lemma bad4_rows : mxrows bad4 =
  [:: [:: 2; 1; 0; 0]; [:: 1; 1; 0; 0]; [:: 0; 0; 1; 0]; [:: 0; 0; 0; 1]]%Z.
Proof.
  rewrite (@mxrows_mk _ _ _ _ (fun i j =>
    nth (0 : Z) (nth [::] [:: [:: 2; 1; 0; 0]; [:: 1; 1; 0; 0]; [:: 0; 0; 1; 0]; [:: 0; 0; 0; 1]]%Z i) j)) //.
  move=> i j. rewrite /bad4.
  case: (@splitP 2 2 i) => i' Ei; case: (@splitP 2 2 j) => j' Ej; rewrite Ei Ej.
  - have -> : i = lshift 2 i' by apply: val_inj. have -> : j = lshift 2 j' by apply: val_inj.
    rewrite block_mxEul mxE. by case: i' {Ei} => [[|[|]]] //=; case: j' {Ej} => [[|[|]]].
  - have -> : i = lshift 2 i' by apply: val_inj. have -> : j = rshift 2 j' by apply: val_inj.
    rewrite block_mxEur mxE. by case: i' {Ei} => [[|[|]]] //=; case: j' {Ej} => [[|[|]]].
  - have -> : i = rshift 2 i' by apply: val_inj. have -> : j = lshift 2 j' by apply: val_inj.
    rewrite block_mxEdl mxE. by case: i' {Ei} => [[|[|]]] //=; case: j' {Ej} => [[|[|]]].
  - have -> : i = rshift 2 i' by apply: val_inj. have -> : j = rshift 2 j' by apply: val_inj.
    rewrite block_mxEdr mxE. by case: i' {Ei} => [[|[|]]] //=; case: j' {Ej} => [[|[|]]].
Qed.

Theorem c21_wrong4 : \det bad4 = 1 /\ det (intS int32) 4 (mxrows bad4) = Ok (2 : Z)%Z.
Proof. split; [by rewrite det_ublock det_mx22 mathcomp.algebra.matrix.det1|by rewrite bad4_rows]. Qed.
Print Assumptions c21_wrong4.

(** ** C36 abs of int and long *)

Theorem c36_int t n m junk (A : 'M[Z]_(n, m)) : t = int32 \/ t = int64 -> mx_in t A ->
  (forall i j, A i j <> imin t) ->
  Model.abs (intS t) n m (mk n m junk) (mxrows A) = Ok (mxrows (map_mx Z.abs A)).
Proof. by case=> ->; apply: iabs_mx. Qed.
Print Assumptions c36_int.

Theorem c36_int_min t n m junk (A : 'M[Z]_(n, m)) : t = int32 \/ t = int64 -> mx_in t A ->
  (exists i j, A i j = imin t) ->
  Model.abs (intS t) n m (mk n m junk) (mxrows A) = UB SignedOverflow.
Proof. by case=> ->; apply: iabs_min. Qed.
Print Assumptions c36_int_min.

(** ** C38 mean of int *)

Theorem c38_nonneg n m (A : 'M[Z]_(n, m)) r : (0 < n * m)%N -> (Z.of_nat (n * m) < 2 ^ 64)%Z ->
  mx_in int32 A -> mean (intS int32) n m (mxrows A) = Ok r ->
  (0 <= \sum_i \sum_j A i j)%Z -> r = Z.quot (\sum_i \sum_j A i j) (Z.of_nat (n * m)).
Proof.
  move=> Hn Hm HA E H. rewrite Z.quot_div_nonneg //; last lia. exact: (imean_nonneg _ _ Hn Hm HA E).
Qed.
Print Assumptions c38_nonneg.

(** it does return when the elements are small enough for every partial sum *)
Theorem c38_returns n m (A : 'M[Z]_(n, m)) a0 : (0 < n * m)%N -> (Z.of_nat (n * m) < 2 ^ 64)%Z ->
  (forall i j, (Z.abs (A i j) <= a0)%Z) -> (Z.of_nat (n * m) * a0 <= imax int32)%Z ->
  returns (mean (intS int32) n m (mxrows A)).
Proof. move=> Hn Hm. exact: imean_returns. Qed.
Print Assumptions c38_returns.

Theorem c38_negative n m (A : 'M[Z]_(n, m)) r : (0 < n * m)%N -> (Z.of_nat (n * m) < 2 ^ 64)%Z ->
  mx_in int32 A -> mean (intS int32) n m (mxrows A) = Ok r ->
  (\sum_i \sum_j A i j < 0)%Z ->
  r = iconv int32 ((2 ^ 64 + \sum_i \sum_j A i j) / Z.of_nat (n * m)).
Proof. move=> Hn Hm HA E. exact: (imean_neg _ _ Hn Hm HA E). Qed.
Print Assumptions c38_negative.

(** the mean of -1, -1, -1 *)
Theorem c38_wrong : mean (intS int32) 1 3 [:: [:: -1; -1; -1]]%Z = Ok (1431655764 : Z)%Z.
Proof. by []. Qed.
Print Assumptions c38_wrong.

(** for [long] every negative sum of two or more elements gives a non-negative mean *)
Theorem c38_long n m (A : 'M[Z]_(n, m)) r : (1 < n * m)%N -> (Z.of_nat (n * m) < 2 ^ 64)%Z ->
  mx_in int64 A -> mean (intS int64) n m (mxrows A) = Ok r ->
  (\sum_i \sum_j A i j < 0)%Z -> (0 <= r)%Z.
Proof.
  move=> Hn Hm HA E H.
  have Hn0 : (0 < n * m)%N by apply: leq_trans Hn.
  by have [] := @imean_neg64 int64 erefl w64 n m Hn0 Hm A r erefl Hn HA E H.
Qed.
Print Assumptions c38_long.
