(** * Integer element types: modular, exact, bounded *)

From Coq Require Import ZArith List Lia.
From mathcomp Require Import all_ssreflect all_algebra.
From mathcomp Require Import zify ssrZ.
From Verif Require Import Base Scalar Model CInt Spec Loops Struct Conv Exact ExactLemmas Alg Det ConvExact Pow Sim IntMx.

Set Implicit Arguments.
Unset Strict Implicit.
Unset Printing Implicit Defensive.

Import GRing.Theory.
Local Open Scope ring_scope.
Delimit Scope Z_scope with Z.

Lemma octave_sameE (R : ringType) n m (A : 'M[R]_(n, m)) (k : 'M[R]_3) :
  octave_same A (rot180 k) = \matrix_(r < n, c < m) correlation A k (pos r) (pos c).
Proof. by apply/matrixP => i j; rewrite !mxE octave_correlation. Qed.

Lemma octave_fullE (R : ringType) n m (A : 'M[R]_(n, m)) (k : 'M[R]_3) :
  octave_full A (rot180 k) = \matrix_(r < n + 2, c < m + 2) correlation A k (pos r - 1)%Z (pos c - 1)%Z.
Proof. by apply/matrixP => i j; rewrite !mxE octave_correlation; congr octave; lia. Qed.

Lemma promote_wide t : (32 <= width t)%Z -> promote t = t.
Proof. by move=> H; rewrite /promote; case: Z.ltb_spec => //; lia. Qed.

Lemma in_range0 t : (0 < width t)%Z -> in_range t 0.
Proof.
move=> H; apply/in_rangeP; rewrite /imin /imax; have := pow2_half H.
have H1 : (0 < 2 ^ (width t - 1))%Z by apply: pow2_gt0; lia.
by case: (sgn t); lia.
Qed.

Lemma lite0_int t : (0 < width t)%Z -> lite (intS t) 0 = Z0.
Proof.
move=> H; rewrite /lite /=; have -> : iconv (promote t) 0 = Z0.
  by apply: iconv_id; [|apply: in_range0]; rewrite /promote; case: Z.ltb.
by apply: iconv_id => //; exact: in_range0.
Qed.

(** ** any integer type: whatever is returned is the exact result converted *)
Section Any.
Variable t : ityp.
Hypothesis Hw : (0 < width t)%Z.
Notation K := (intS t).
Notation conv X := (mxrows (map_mx (iconv t) X)).

Lemma isum_conv n m (A B : 'M[Z]_(n, m)) C : mx_in t A -> mx_in t B ->
  sum K n m (mxrows A) (mxrows B) = Ok C -> C = conv (A + B).
Proof. by move=> HA HB E; apply: relM_out; apply: (sum_sim (sim_cong Hw) (relM_in Hw HA) (relM_in Hw HB) E). Qed.

Lemma isub_conv n m (A B : 'M[Z]_(n, m)) C : mx_in t A -> mx_in t B ->
  sub K n m (mxrows A) (mxrows B) = Ok C -> C = conv (A - B).
Proof. by move=> HA HB E; apply: relM_out; apply: (sub_sim (sim_cong Hw) (relM_in Hw HA) (relM_in Hw HB) E). Qed.

Lemma isum_scalar_conv n m (A : 'M[Z]_(n, m)) s C : mx_in t A -> in_range t s ->
  sum_scalar K n m (mxrows A) s = Ok C -> C = conv (A + const_mx s).
Proof.
move=> HA Hs E; apply: relM_out.
by apply: (sum_scalar_sim (sim_cong Hw) (relM_in Hw HA) _ E); rewrite /relc iconv_id.
Qed.

Lemma isub_scalar_conv n m (A : 'M[Z]_(n, m)) s C : mx_in t A -> in_range t s ->
  sub_scalar K n m (mxrows A) s = Ok C -> C = conv (A - const_mx s).
Proof.
move=> HA Hs E; apply: relM_out.
by apply: (sub_scalar_sim (sim_cong Hw) (relM_in Hw HA) _ E); rewrite /relc iconv_id.
Qed.

Lemma scale_mapE n m (A : 'M[Z]_(n, m)) (s : Z) : map_mx (fun a : Z => a * s) A = s *: A.
Proof. by apply/matrixP => i j; rewrite !mxE mulrC. Qed.

Lemma imult_scalar_conv n m (A : 'M[Z]_(n, m)) s C : mx_in t A -> in_range t s ->
  mult_scalar K n m (mxrows A) s = Ok C -> C = conv (s *: A).
Proof.
move=> HA Hs E; apply: relM_out; rewrite -scale_mapE.
by apply: (mult_scalar_sim (sim_cong Hw) (relM_in Hw HA) _ E); rewrite /relc iconv_id.
Qed.

Lemma imult_conv n m p (A : 'M[Z]_(n, m)) (B : 'M[Z]_(m, p)) C : mx_in t A -> mx_in t B ->
  mult K n m p (mxrows A) (mxrows B) = Ok C -> C = conv (A *m B).
Proof. by move=> HA HB E; apply: relM_out; apply: (mult_sim (sim_cong Hw) (relM_in Hw HA) (relM_in Hw HB) E). Qed.

Lemma ipow_conv n w (A : 'M[Z]_n) q C : mx_in t A ->
  pow K n w (mxrows A) (Z.of_nat q) = Ok C -> C = conv (mxpow A q).
Proof. by move=> HA E; apply: relM_out; apply: (pow_sim (sim_cong Hw) (relM_in Hw HA) E). Qed.

Lemma istrassen_conv (A B : 'M[Z]_2) C : mx_in t A -> mx_in t B ->
  strassen K (mxrows A) (mxrows B) = Ok C -> C = conv (A *m B).
Proof. by move=> HA HB E; apply: relM_out; apply: (strassen_sim (sim_cong Hw) (relM_in Hw HA) (relM_in Hw HB) E). Qed.

Lemma iconv2_conv n m (A : 'M[Z]_(n, m)) (k : 'M[Z]_3) C :
  (Z.of_nat n <= 2 ^ 31)%Z -> (Z.of_nat m <= 2 ^ 31)%Z -> mx_in t A -> mx_in t k ->
  conv2 K n m (mxrows A) (mxrows k) = Ok C -> C = conv (octave_same A (rot180 k)).
Proof.
move=> Hn Hm HA Hk E; rewrite octave_sameE; apply: relM_out.
exact: (conv2_sim (sim_cong Hw) Hn Hm (relM_in Hw HA) (relM_in Hw Hk) E).
Qed.

Lemma iconv2_full_conv n m (A : 'M[Z]_(n, m)) (k : 'M[Z]_3) C :
  (Z.of_nat n <= 2 ^ 31)%Z -> (Z.of_nat m <= 2 ^ 31)%Z -> mx_in t A -> mx_in t k ->
  conv2_full K n m (mxrows A) (mxrows k) = Ok C -> C = conv (octave_full A (rot180 k)).
Proof.
move=> Hn Hm HA Hk E; rewrite octave_fullE; apply: relM_out.
exact: (conv2_full_sim (sim_cong Hw) Hn Hm (relM_in Hw HA) (relM_in Hw Hk) E).
Qed.

Lemma idet_conv n (A : 'M[Z]_n) d : (0 < n <= 3)%N -> mx_in t A ->
  det K n (mxrows A) = Ok d -> d = iconv t (\det A).
Proof. by move=> Hn HA E; exact: (det_sim (sim_cong Hw) Hn (relM_in Hw HA) E). Qed.
End Any.

(** ** unsigned types of at least 32 bits: arithmetic modulo 2^w, always *)
Section Unsigned.
Variable t : ityp.
Hypothesis Hs : sgn t = false.
Hypothesis Hw : (32 <= width t)%Z.
Notation K := (intS t).
Notation M := (2 ^ width t)%Z.
Notation modM X := (mxrows (map_mx (fun z => Z.modulo z M) X)).

Let Hw0 : (0 < width t)%Z. Proof. lia. Qed.

Lemma iarith_unsigned z : iarith (promote t) z = Ok (Z.modulo z M).
Proof. by rewrite promote_wide // /iarith Hs. Qed.

Let Hadd a b : returns (@xadd K a b). Proof. by eexists; exact: iarith_unsigned. Qed.
Let Hsub a b : returns (@xsub K a b). Proof. by eexists; exact: iarith_unsigned. Qed.
Let Hmul a b : returns (@xmul K a b). Proof. by eexists; exact: iarith_unsigned. Qed.

Lemma iconv_unsigned : iconv t = (fun z => Z.modulo z M).
Proof. by rewrite /iconv Hs. Qed.

Lemma usum_mx n m (A B : 'M[Z]_(n, m)) : mx_in t A -> mx_in t B ->
  sum K n m (mxrows A) (mxrows B) = Ok (modM (A + B)).
Proof.
move=> HA HB; have [C E] : returns (sum K n m (mxrows A) (mxrows B)).
  by rewrite (mxrowsE Z0 A) (mxrowsE Z0 B); exact: returns_sum.
by rewrite E (isum_conv Hw0 HA HB E) iconv_unsigned.
Qed.

Lemma usub_mx n m (A B : 'M[Z]_(n, m)) : mx_in t A -> mx_in t B ->
  sub K n m (mxrows A) (mxrows B) = Ok (modM (A - B)).
Proof.
move=> HA HB; have [C E] : returns (sub K n m (mxrows A) (mxrows B)).
  by rewrite (mxrowsE Z0 A) (mxrowsE Z0 B); exact: returns_sub.
by rewrite E (isub_conv Hw0 HA HB E) iconv_unsigned.
Qed.

Lemma usum_scalar_mx n m (A : 'M[Z]_(n, m)) s : mx_in t A -> in_range t s ->
  sum_scalar K n m (mxrows A) s = Ok (modM (A + const_mx s)).
Proof.
move=> HA HB; have [C E] : returns (sum_scalar K n m (mxrows A) s).
  by rewrite (mxrowsE Z0 A); exact: returns_sum_scalar.
by rewrite E (isum_scalar_conv Hw0 HA HB E) iconv_unsigned.
Qed.

Lemma usub_scalar_mx n m (A : 'M[Z]_(n, m)) s : mx_in t A -> in_range t s ->
  sub_scalar K n m (mxrows A) s = Ok (modM (A - const_mx s)).
Proof.
move=> HA HB; have [C E] : returns (sub_scalar K n m (mxrows A) s).
  by rewrite (mxrowsE Z0 A); exact: returns_sub_scalar.
by rewrite E (isub_scalar_conv Hw0 HA HB E) iconv_unsigned.
Qed.

Lemma umult_scalar_mx n m (A : 'M[Z]_(n, m)) s : mx_in t A -> in_range t s ->
  mult_scalar K n m (mxrows A) s = Ok (modM (s *: A)).
Proof.
move=> HA HB; have [C E] : returns (mult_scalar K n m (mxrows A) s).
  by rewrite (mxrowsE Z0 A); exact: returns_mult_scalar.
by rewrite E (imult_scalar_conv Hw0 HA HB E) iconv_unsigned.
Qed.

Lemma umult_mx n m p (A : 'M[Z]_(n, m)) (B : 'M[Z]_(m, p)) : mx_in t A -> mx_in t B ->
  mult K n m p (mxrows A) (mxrows B) = Ok (modM (A *m B)).
Proof.
move=> HA HB; have [C E] : returns (mult K n m p (mxrows A) (mxrows B)).
  by rewrite (mxrowsE Z0 A) (mxrowsE Z0 B); exact: returns_mult.
by rewrite E (imult_conv Hw0 HA HB E) iconv_unsigned.
Qed.

Lemma ustrassen_mx (A B : 'M[Z]_2) : mx_in t A -> mx_in t B ->
  strassen K (mxrows A) (mxrows B) = Ok (modM (A *m B)).
Proof.
move=> HA HB; have [C E] : returns (strassen K (mxrows A) (mxrows B)).
  by rewrite (mxrowsE Z0 A) (mxrowsE Z0 B); exact: returns_strassen.
by rewrite E (istrassen_conv Hw0 HA HB E) iconv_unsigned.
Qed.

Lemma udet_mx n (A : 'M[Z]_n) : (0 < n <= 3)%N -> mx_in t A ->
  det K n (mxrows A) = Ok (Z.modulo (\det A) M).
Proof.
move=> Hn HA; have [C E] : returns (det K n (mxrows A)).
  by rewrite (mxrowsE Z0 A); exact: returns_det.
by rewrite E (idet_conv Hw0 Hn HA E) iconv_unsigned.
Qed.

Lemma uconv2_mx n m (A : 'M[Z]_(n, m)) (k : 'M[Z]_3) :
  (Z.of_nat n <= 2 ^ 31)%Z -> (Z.of_nat m <= 2 ^ 31)%Z -> mx_in t A -> mx_in t k ->
  conv2 K n m (mxrows A) (mxrows k) = Ok (modM (octave_same A (rot180 k))).
Proof.
move=> Hn Hm HA Hk; have [C E] : returns (conv2 K n m (mxrows A) (mxrows k)).
  by rewrite (mxrowsE Z0 A) (mxrowsE Z0 k); exact: returns_conv2.
by rewrite E (iconv2_conv Hw0 Hn Hm HA Hk E) iconv_unsigned.
Qed.

Lemma uconv2_full_mx n m (A : 'M[Z]_(n, m)) (k : 'M[Z]_3) :
  (Z.of_nat n <= 2 ^ 31)%Z -> (Z.of_nat m <= 2 ^ 31)%Z -> mx_in t A -> mx_in t k ->
  conv2_full K n m (mxrows A) (mxrows k) = Ok (modM (octave_full A (rot180 k))).
Proof.
move=> Hn Hm HA Hk; have [C E] : returns (conv2_full K n m (mxrows A) (mxrows k)).
  by rewrite (mxrowsE Z0 A) (mxrowsE Z0 k); exact: returns_conv2_full.
by rewrite E (iconv2_full_conv Hw0 Hn Hm HA Hk E) iconv_unsigned.
Qed.

Lemma upow_mx n w (A : 'M[Z]_n) q : (Z.of_nat q < 2 ^ (Z.max w 32))%Z -> mx_in t A ->
  pow K n w (mxrows A) (Z.of_nat q) = Ok (modM (mxpow A q)).
Proof.
move=> Hq HA; have [C E] : returns (pow K n w (mxrows A) (Z.of_nat q)).
  by rewrite (mxrowsE Z0 A); exact: returns_pow.
by rewrite E (ipow_conv Hw0 HA E) iconv_unsigned.
Qed.
End Unsigned.

(** ** signed types of at least 32 bits *)
Section Signed.
Variable t : ityp.
Hypothesis Hs : sgn t = true.
Hypothesis Hw : (32 <= width t)%Z.
Notation K := (intS t).

Let Hw0 : (0 < width t)%Z. Proof. lia. Qed.
Let S0 : @sim K _ (relz t) (relz t). Proof. exact: sim_signed. Qed.

Lemma iarith_signed z : in_range t z -> iarith (promote t) z = Ok z.
Proof. by move=> H; rewrite (promote_wide Hw) /iarith Hs H. Qed.

(** what is returned is exact, and was representable *)
Lemma ssum_exact n m (A B : 'M[Z]_(n, m)) C : mx_in t A -> mx_in t B ->
  sum K n m (mxrows A) (mxrows B) = Ok C -> C = mxrows (A + B) /\ mx_in t (A + B).
Proof. by move=> HA HB E; apply: relM_zout; apply: (sum_sim S0 (relM_zin HA) (relM_zin HB) E). Qed.

Lemma ssub_exact n m (A B : 'M[Z]_(n, m)) C : mx_in t A -> mx_in t B ->
  sub K n m (mxrows A) (mxrows B) = Ok C -> C = mxrows (A - B) /\ mx_in t (A - B).
Proof. by move=> HA HB E; apply: relM_zout; apply: (sub_sim S0 (relM_zin HA) (relM_zin HB) E). Qed.

Lemma ssum_scalar_exact n m (A : 'M[Z]_(n, m)) s C : mx_in t A -> in_range t s ->
  sum_scalar K n m (mxrows A) s = Ok C -> C = mxrows (A + const_mx s) /\ mx_in t (A + const_mx s).
Proof. by move=> HA H E; apply: relM_zout; apply: (sum_scalar_sim S0 (relM_zin HA) (conj erefl H) E). Qed.

Lemma ssub_scalar_exact n m (A : 'M[Z]_(n, m)) s C : mx_in t A -> in_range t s ->
  sub_scalar K n m (mxrows A) s = Ok C -> C = mxrows (A - const_mx s) /\ mx_in t (A - const_mx s).
Proof. by move=> HA H E; apply: relM_zout; apply: (sub_scalar_sim S0 (relM_zin HA) (conj erefl H) E). Qed.

Lemma smult_scalar_exact n m (A : 'M[Z]_(n, m)) s C : mx_in t A -> in_range t s ->
  mult_scalar K n m (mxrows A) s = Ok C -> C = mxrows (s *: A) /\ mx_in t (s *: A).
Proof.
move=> HA H E; apply: relM_zout; rewrite -scale_mapE.
by apply: (mult_scalar_sim S0 (relM_zin HA) (conj erefl H) E).
Qed.

Lemma smult_exact n m p (A : 'M[Z]_(n, m)) (B : 'M[Z]_(m, p)) C : mx_in t A -> mx_in t B ->
  mult K n m p (mxrows A) (mxrows B) = Ok C -> C = mxrows (A *m B) /\ mx_in t (A *m B).
Proof. by move=> HA HB E; apply: relM_zout; apply: (mult_sim S0 (relM_zin HA) (relM_zin HB) E). Qed.

Lemma sstrassen_exact (A B : 'M[Z]_2) C : mx_in t A -> mx_in t B ->
  strassen K (mxrows A) (mxrows B) = Ok C -> C = mxrows (A *m B) /\ mx_in t (A *m B).
Proof. by move=> HA HB E; apply: relM_zout; apply: (strassen_sim S0 (relM_zin HA) (relM_zin HB) E). Qed.

Lemma spow_exact n w (A : 'M[Z]_n) q C : mx_in t A ->
  pow K n w (mxrows A) (Z.of_nat q) = Ok C -> C = mxrows (mxpow A q) /\ mx_in t (mxpow A q).
Proof. by move=> HA E; apply: relM_zout; apply: (pow_sim S0 (relM_zin HA) E). Qed.

Lemma sconv2_exact n m (A : 'M[Z]_(n, m)) (k : 'M[Z]_3) C :
  (Z.of_nat n <= 2 ^ 31)%Z -> (Z.of_nat m <= 2 ^ 31)%Z -> mx_in t A -> mx_in t k ->
  conv2 K n m (mxrows A) (mxrows k) = Ok C ->
  C = mxrows (octave_same A (rot180 k)) /\ mx_in t (octave_same A (rot180 k)).
Proof.
move=> Hn Hm HA Hk E; apply: relM_zout; rewrite octave_sameE.
exact: (conv2_sim S0 Hn Hm (relM_zin HA) (relM_zin Hk) E).
Qed.

Lemma sdet_exact n (A : 'M[Z]_n) d : (0 < n <= 3)%N -> mx_in t A ->
  det K n (mxrows A) = Ok d -> d = \det A /\ in_range t (\det A).
Proof. by move=> Hn HA E; case: (det_sim S0 Hn (relM_zin HA) E) => ->. Qed.

(** elementwise operations return exactly when the result is representable *)
Lemma ssum_returns n m (A B : 'M[Z]_(n, m)) : mx_in t (A + B) ->
  sum K n m (mxrows A) (mxrows B) = Ok (mxrows (A + B)).
Proof.
move=> H; rewrite (mxrowsE Z0 A) (mxrowsE Z0 B) (mxrowsE Z0 (A + B)) sum_tab.
apply: tabM_ok => i j /ssrnat.ltP Hi /ssrnat.ltP Hj.
rewrite -[i]/(val (Ordinal Hi)) -[j]/(val (Ordinal Hj)) !mxf_ord.
by have := H (Ordinal Hi) (Ordinal Hj); rewrite !mxE => H'; rewrite /= (iarith_signed H') /= iconv_id.
Qed.

Lemma ssub_returns n m (A B : 'M[Z]_(n, m)) : mx_in t (A - B) ->
  sub K n m (mxrows A) (mxrows B) = Ok (mxrows (A - B)).
Proof.
move=> H; rewrite (mxrowsE Z0 A) (mxrowsE Z0 B) (mxrowsE Z0 (A - B)) sub_tab.
apply: tabM_ok => i j /ssrnat.ltP Hi /ssrnat.ltP Hj.
rewrite -[i]/(val (Ordinal Hi)) -[j]/(val (Ordinal Hj)) !mxf_ord.
by have := H (Ordinal Hi) (Ordinal Hj); rewrite !mxE => H'; rewrite /= (iarith_signed H') /= iconv_id.
Qed.

Lemma smult_scalar_returns n m (A : 'M[Z]_(n, m)) s : mx_in t (s *: A) ->
  mult_scalar K n m (mxrows A) s = Ok (mxrows (s *: A)).
Proof.
move=> H; rewrite (mxrowsE Z0 A) (mxrowsE Z0 (s *: A)) mult_scalar_tab.
apply: tabM_ok => i j /ssrnat.ltP Hi /ssrnat.ltP Hj.
rewrite -[i]/(val (Ordinal Hi)) -[j]/(val (Ordinal Hj)) !mxf_ord.
have := H (Ordinal Hi) (Ordinal Hj); rewrite !mxE [s * _]mulrC => H'.
by rewrite /= (iarith_signed H') /= iconv_id.
Qed.

(** a dot product whose terms are bounded returns *)
Lemma sdot_bound m (a b : nat -> Z) a0 b0 :
  (forall k, (k < m)%N -> Z.abs (a k) <= a0)%Z -> (forall k, (k < m)%N -> Z.abs (b k) <= b0)%Z ->
  (Z.of_nat m * (a0 * b0) <= imax t)%Z -> returns (dot K m a b).
Proof.
move=> Ha Hb Hm; case: (@for_inv _ (fun k (c : Z) => (Z.abs c <= Z.of_nat k * (a0 * b0))%Z) 0 m
  (fun k c => let* t0 := @xmul K (a k) (b k) in let* v := @xadd K c t0 in Ok (@st K v))
  (lite K 0)).
- lia.
- by rewrite lite0_int /=; lia.
- move=> k c Hk Hc.
  have Hp : (Z.abs (a k * b k) <= a0 * b0)%Z.
    rewrite Z.abs_mul; apply: Z.mul_le_mono_nonneg; try exact: Z.abs_nonneg.
      by apply: Ha; lia.
    by apply: Hb; lia.
  have P0 : (0 <= a0 * b0)%Z by apply: Z.le_trans (Z.abs_nonneg _) Hp.
  have Hle : (Z.of_nat k * (a0 * b0) + a0 * b0 <= imax t)%Z.
    have -> : (Z.of_nat k * (a0 * b0) + a0 * b0 = Z.of_nat k.+1 * (a0 * b0))%Z by lia.
    by apply: Z.le_trans Hm; apply: Z.mul_le_mono_nonneg_r => //; lia.
  have P1 : (0 <= Z.of_nat k * (a0 * b0))%Z by apply: Z.mul_nonneg_nonneg; lia.
  have Hmin : (imin t = - imax t - 1)%Z by rewrite /imin /imax Hs; lia.
  have E1 : in_range t (a k * b k) by apply/in_rangeP; lia.
  have E2 : in_range t (c + a k * b k) by apply/in_rangeP; lia.
  exists (c + a k * b k)%Z; split; last by lia.
  by rewrite /= (iarith_signed E1) /= (iarith_signed E2) /= iconv_id.
by move=> c [E _]; exists c.
Qed.

Lemma smult_bound n m p (A : 'M[Z]_(n, m)) (B : 'M[Z]_(m, p)) a0 b0 : mx_in t A -> mx_in t B ->
  (forall i k, (Z.abs (A i k) <= a0)%Z) -> (forall k j, (Z.abs (B k j) <= b0)%Z) ->
  (Z.of_nat m * (a0 * b0) <= imax t)%Z ->
  mult K n m p (mxrows A) (mxrows B) = Ok (mxrows (A *m B)).
Proof.
move=> HA HB Ha Hb Hm; have [C E] : returns (mult K n m p (mxrows A) (mxrows B)).
  rewrite (mxrowsE Z0 A) (mxrowsE Z0 B) mult_tab; apply: returns_tabM => i j Hi Hj.
  apply: sdot_bound Hm => k Hk.
  - by rewrite -[i]/(val (Ordinal Hi)) -[k]/(val (Ordinal Hk)) mxf_ord.
  - by rewrite -[j]/(val (Ordinal Hj)) -[k]/(val (Ordinal Hk)) mxf_ord.
by rewrite E; case: (smult_exact HA HB E) => ->.
Qed.
End Signed.
