(** * The square root of an integer, computed through double *)

From Coq Require Import ZArith Reals Lra Lia Bool Psatz.
From Flocq Require Import IEEE754.BinarySingleNaN Core.Core.
From Verif Require Import Base Scalar CInt CFloat Float.

Notation fexp64 := (SpecFloat.fexp 53 1024).
Notation rnd64 := (round radix2 fexp64 ZnearestE).

Local Instance fexp64_valid : Valid_exp fexp64.
Proof. apply FLT_exp_valid. exact Hprec64. Qed.

(** ** the standard library's binary64 operations and Flocq's *)
Section Link.
Let prec := 53%Z.
Let emax := 1024%Z.

Lemma round_nearest_even_equiv s m l : SpecFloat.round_nearest_even m l = choice_mode mode_NE s m l.
Proof.
  destruct l as [|c]; [reflexivity|]. destruct c; [|reflexivity|reflexivity].
  cbn. unfold Round.cond_incr. destruct (Z.even m); reflexivity.
Qed.

Lemma binary_round_aux_equiv sx mx ex lx :
  SpecFloat.binary_round_aux prec emax sx mx ex lx = binary_round_aux prec emax mode_NE sx mx ex lx.
Proof.
  unfold SpecFloat.binary_round_aux, binary_round_aux.
  set (m1 := SpecFloat.shr_fexp prec emax mx ex lx). destruct m1 as [mrs e'].
  rewrite (round_nearest_even_equiv sx). reflexivity.
Qed.

Lemma binary_round_equiv s m e : SpecFloat.binary_round prec emax s m e = binary_round prec emax mode_NE s m e.
Proof.
  unfold SpecFloat.binary_round, binary_round, shl_align_fexp.
  set (mez := SpecFloat.shl_align _ _ _). destruct mez as [mz ez]. apply binary_round_aux_equiv.
Qed.

Lemma to_double_equiv a : to_double a = B2SF (f_of_Z 53 1024 a).
Proof.
  unfold to_double, f_of_Z. destruct a as [|p|p]; cbn -[SpecFloat.binary_round binary_round].
  - reflexivity.
  - rewrite B2SF_SF2B. apply binary_round_equiv.
  - rewrite B2SF_SF2B. apply binary_round_equiv.
Qed.

Lemma sqrt_equiv (x : binary_float 53 1024) : SpecFloat.SFsqrt 53 1024 (B2SF x) = B2SF (Bsqrt mode_NE x).
Proof.
  destruct x as [sx|sx| |sx mx ex Bx]; [reflexivity|destruct sx; reflexivity|reflexivity|].
  destruct sx; [reflexivity|]. unfold Bsqrt. cbn -[SpecFloat.SFsqrt_core_binary SpecFloat.binary_round_aux binary_round_aux].
  rewrite B2SF_SF2B. set (mel := SpecFloat.SFsqrt_core_binary _ _ _ _). destruct mel as [[mz ez] lz].
  apply binary_round_aux_equiv.
Qed.
End Link.

Lemma trunc_equiv (x : binary_float 53 1024) : is_finite x = true -> trunc_double (B2SF x) = Some (Ztrunc (B2R x)).
Proof.
  destruct x as [sx|sx| |sx m e Bx]; try discriminate; intros _; cbn [B2SF trunc_double B2R].
  - rewrite Ztrunc_IZR. reflexivity.
  - f_equal. unfold F2R. cbn [Fnum Fexp].
    assert (P : Ztrunc (IZR (Z.pos m) * bpow radix2 e) = if (0 <=? e)%Z then (Z.pos m * 2 ^ e)%Z else (Z.pos m / 2 ^ (- e))%Z).
    { destruct (Z.leb_spec 0 e).
      - rewrite <- IZR_Zpower by assumption. rewrite <- mult_IZR, Ztrunc_IZR. reflexivity.
      - rewrite Ztrunc_floor by (apply Rmult_le_pos; [apply IZR_le; lia|apply bpow_ge_0]).
        rewrite <- (Z.opp_involutive e) at 1. rewrite bpow_opp, <- IZR_Zpower by lia.
        change (Zpower radix2 (- e)) with (2 ^ (- e))%Z. apply Zfloor_div.
        apply Z.pow_nonzero; lia. }
    destruct sx; cbn [SpecFloat.cond_Zopp].
    + change (Z.neg m) with (- Z.pos m)%Z. rewrite opp_IZR, Ropp_mult_distr_l_reverse, Ztrunc_opp, P. reflexivity.
    + rewrite P. reflexivity.
Qed.

(** ** the real number that is truncated *)
Lemma fmt m q : (Z.abs m < 2 ^ 53)%Z -> (-1074 <= q)%Z -> generic_format radix2 fexp64 (IZR m * bpow radix2 q).
Proof.
  intros Hm Hq. apply generic_format_FLT. exists (Float radix2 m q); [reflexivity|exact Hm|exact Hq].
Qed.

Lemma fmtZ m : (Z.abs m <= 2 ^ 53)%Z -> generic_format radix2 fexp64 (IZR m).
Proof. apply (small_format 53 1024). Qed.

Lemma rnd_le x y : (x <= y)%R -> (rnd64 x <= rnd64 y)%R.
Proof. intros. apply round_le; [apply fexp64_valid|apply valid_rnd_N|assumption]. Qed.

Lemma rnd_le_fmt x y : generic_format radix2 fexp64 y -> (x <= y)%R -> (rnd64 x <= y)%R.
Proof. intros F H. rewrite <- (round_generic radix2 fexp64 ZnearestE y F). apply rnd_le, H. Qed.

Lemma rnd_ge_fmt x y : generic_format radix2 fexp64 y -> (y <= x)%R -> (y <= rnd64 x)%R.
Proof. intros F H. rewrite <- (round_generic radix2 fexp64 ZnearestE y F). apply rnd_le, H. Qed.

Lemma isqrt_real t a : (0 <= a < 2 ^ 64)%Z ->
  isqrt t a = let r := Ztrunc (rnd64 (sqrt (rnd64 (IZR a)))) in if in_range t r then Ok r else UB BadConversion.
Proof.
  intros Ha. unfold isqrt. rewrite to_double_equiv, sqrt_equiv.
  assert (R0 : (0 <= rnd64 (IZR a))%R) by (apply (rnd_ge_fmt _ 0); [apply generic_format_0|apply IZR_le; lia]).
  assert (N : B2R (f_of_Z 53 1024 a) = rnd64 (IZR a) /\ is_finite (f_of_Z 53 1024 a) = true /\
              Bsign (f_of_Z 53 1024 a) = false).
  { generalize (binary_normalize_correct 53 1024 Hprec64 Hemax64 mode_NE a 0 false).
    cbv zeta. replace (F2R (Float radix2 a 0)) with (IZR a) by (unfold F2R; cbn; lra). simpl round_mode.
    rewrite Rlt_bool_true.
    - intros [E [F S]]. split; [exact E|split; [exact F|]]. unfold f_of_Z. rewrite S.
      destruct (Rcompare_spec (IZR a) 0); try reflexivity. apply lt_IZR in H. lia.
    - apply Rle_lt_trans with (bpow radix2 64); [|apply bpow_lt; lia]. rewrite Rabs_pos_eq by exact R0.
      apply rnd_le_fmt; [apply generic_format_bpow; cbn; lia|].
      rewrite <- IZR_Zpower by lia. apply IZR_le. cbn. lia. }
  destruct N as [E [F S]].
  destruct (Bsqrt_correct 53 1024 Hprec64 Hemax64 mode_NE (f_of_Z 53 1024 a)) as [E' [F' _]].
  rewrite trunc_equiv.
  - rewrite E'. simpl round_mode. rewrite E. reflexivity.
  - rewrite F'. destruct (f_of_Z 53 1024 a) as [| | |[] ? ? ?]; try discriminate; reflexivity.
Qed.

(** ** the square root of a negative number is not a number *)
Theorem isqrt_neg t a : (a < 0)%Z -> isqrt t a = UB BadConversion.
Proof.
  intros Ha. unfold isqrt. rewrite to_double_equiv, sqrt_equiv.
  assert (N : trunc_double (B2SF (Bsqrt mode_NE (f_of_Z 53 1024 a))) = None).
  2: rewrite N; reflexivity.
  assert (L : forall x : binary_float 53 1024, (is_finite x = true -> (B2R x < 0)%R) ->
     trunc_double (B2SF (Bsqrt mode_NE x)) = None).
  { intros x H2. destruct x as [s|[]| |[] m e B]; try reflexivity.
    - specialize (H2 eq_refl). cbn in H2. lra.
    - specialize (H2 eq_refl). cbn in H2. exfalso.
      assert (0 < F2R (Float radix2 (Z.pos m) e))%R by (apply F2R_gt_0; reflexivity). lra. }
  generalize (binary_normalize_correct 53 1024 Hprec64 Hemax64 mode_NE a 0 false).
  cbv zeta. replace (F2R (Float radix2 a 0)) with (IZR a) by (unfold F2R; cbn; lra). simpl round_mode.
  assert (Hm : (IZR a <= -1)%R) by (apply IZR_le; lia).
  destruct (Rlt_bool_spec (Rabs (rnd64 (IZR a))) (bpow radix2 1024)).
  - intros [E [F _]]. apply L.
    intros _. unfold f_of_Z. rewrite E. apply Rle_lt_trans with (-1)%R; [|lra].
      apply rnd_le_fmt; [apply (fmtZ (-1)); lia|exact Hm].
  - rewrite Rlt_bool_true by lra. intros E. apply L.
    intros F. unfold f_of_Z in F. rewrite <- is_finite_SF_B2SF, E in F. discriminate.
Qed.

(** ** bounds on the integer square root *)
Lemma sqrt_between a : (0 <= a)%Z ->
  (IZR (Z.sqrt a) * IZR (Z.sqrt a) <= IZR a <= (IZR (Z.sqrt a) + 1) * (IZR (Z.sqrt a) + 1) - 1)%R.
Proof.
  intros H. destruct (Z.sqrt_spec a H) as [H1 H2]. split; [rewrite <- mult_IZR; apply IZR_le, H1|].
  replace 1%R with (IZR 1) by reflexivity. rewrite <- plus_IZR, <- mult_IZR, <- minus_IZR. apply IZR_le. lia.
Qed.

Lemma Ztrunc_between k x : (0 <= k)%Z -> (IZR k <= x < IZR k + 1)%R -> Ztrunc x = k.
Proof.
  intros Hk H. assert (0 <= IZR k)%R by (apply IZR_le; lia). rewrite Ztrunc_floor by lra.
  apply Zfloor_imp. rewrite plus_IZR. exact H.
Qed.

Theorem trunc_sqrt_small a : (0 <= a < 2 ^ 52)%Z -> Ztrunc (rnd64 (sqrt (rnd64 (IZR a)))) = Z.sqrt a.
Proof.
  intros Ha. rewrite (round_generic radix2 fexp64 ZnearestE (IZR a)) by (apply fmtZ; lia).
  pose proof (Z.sqrt_nonneg a) as K0.
  assert (K1 : (Z.sqrt a < 2 ^ 26)%Z).
  { apply Z.sqrt_lt_square; lia. }
  destruct (sqrt_between a ltac:(lia)) as [L U].
  assert (R0 : (0 <= IZR (Z.sqrt a))%R) by (apply IZR_le; lia).
  assert (R1 : (IZR (Z.sqrt a) + 1 <= 67108864)%R).
  { replace 1%R with (IZR 1) by reflexivity. rewrite <- plus_IZR. apply IZR_le. lia. }
  apply Ztrunc_between; [exact K0|]. split.
  - apply rnd_ge_fmt; [apply fmtZ; lia|]. rewrite <- (sqrt_square (IZR (Z.sqrt a))) by exact R0. apply sqrt_le_1_alt, L.
  - apply Rle_lt_trans with (IZR ((Z.sqrt a + 1) * 2 ^ 27 - 1) * bpow radix2 (-27))%R.
    + apply rnd_le_fmt; [apply fmt; lia|].
      assert (E : (IZR ((Z.sqrt a + 1) * 2 ^ 27 - 1) * bpow radix2 (-27) = IZR (Z.sqrt a) + 1 - / 134217728)%R).
      { rewrite minus_IZR, mult_IZR, plus_IZR. change (2 ^ 27)%Z with 134217728%Z. cbn [bpow]. 
        change (Z.pow_pos radix2 27) with 134217728%Z. field. }
      rewrite E. set (k := IZR (Z.sqrt a)) in *.
      rewrite <- (sqrt_square (k + 1 - / 134217728)) by lra. apply sqrt_le_1_alt. nra.
    + rewrite minus_IZR, mult_IZR, plus_IZR. change (2 ^ 27)%Z with 134217728%Z. cbn [bpow].
      change (Z.pow_pos radix2 27) with 134217728%Z. lra.
Qed.

(** for 0 <= a < 2^52 the result is the integer square root *)
Theorem isqrt_small t a : (0 <= a < 2 ^ 52)%Z ->
  isqrt t a = if in_range t (Z.sqrt a) then Ok (Z.sqrt a) else UB BadConversion.
Proof. intros Ha. rewrite isqrt_real by lia. cbv zeta. rewrite trunc_sqrt_small by exact Ha. reflexivity. Qed.

Lemma ulp_bound x E : (x <> 0)%R -> (Rabs x < bpow radix2 E)%R -> (-1021 <= E)%Z ->
  (ulp radix2 fexp64 x <= bpow radix2 (E - 53))%R.
Proof.
  intros Hx H HE. rewrite ulp_neq_0 by exact Hx. apply bpow_le. unfold cexp, SpecFloat.fexp, SpecFloat.emin.
  pose proof (mag_le_bpow radix2 x E Hx H). lia.
Qed.

Lemma sqrt_sqr_ge k : (2 ^ 26 <= k < 2 ^ 32)%Z -> (IZR k <= rnd64 (sqrt (rnd64 (IZR (k * k)))))%R.
Proof.
  intros Hk. set (e := (Z.log2 k + 1)%Z).
  destruct (Z.log2_spec k ltac:(lia)) as [H1 H2].
  assert (He : (27 <= e <= 32)%Z).
  { unfold e. assert (26 <= Z.log2 k)%Z by (apply Z.log2_le_pow2; lia).
    assert (Z.log2 k < 32)%Z by (apply Z.log2_lt_pow2; lia). lia. }
  assert (Kp : (0 < IZR k)%R) by (apply IZR_lt; lia).
  assert (Kf : generic_format radix2 fexp64 (IZR k)) by (apply fmtZ; lia).
  destruct (Z.eq_dec k (2 ^ (e - 1))) as [Ek|Nk].
  - (* a power of two *)
    assert (F : generic_format radix2 fexp64 (IZR (k * k))).
    { rewrite Ek, <- Z.pow_add_r by lia. change (2 ^ (e - 1 + (e - 1)))%Z with (Zpower radix2 (e - 1 + (e - 1))).
      rewrite IZR_Zpower by lia. apply generic_format_bpow. unfold SpecFloat.fexp, SpecFloat.emin. lia. }
    rewrite (round_generic _ _ _ _ F), mult_IZR, sqrt_square by lra. apply rnd_ge_fmt; [apply fmtZ; lia|lra].
  - set (P := bpow radix2 e). assert (PP : (0 < P)%R) by apply bpow_gt_0.
    assert (L : (P / 2 < IZR k)%R).
    { unfold P. replace (bpow radix2 e / 2)%R with (bpow radix2 (e - 1)).
      - rewrite <- IZR_Zpower by lia. apply IZR_lt. change (Zpower radix2 (e - 1)) with (2 ^ (e - 1))%Z.
        unfold e in *. replace (Z.log2 k + 1 - 1)%Z with (Z.log2 k) in * by lia. lia.
      - unfold Zminus. rewrite bpow_plus. change (bpow radix2 (- (1)))%R with (/ 2)%R. reflexivity. }
    assert (U : (IZR k < P)%R).
    { unfold P. rewrite <- IZR_Zpower by lia. apply IZR_lt. exact H2. }
    set (c := bpow radix2 (-54)). assert (c0 : (0 < c)%R) by apply bpow_gt_0.
    assert (c1 : (c <= / 1000)%R).
    { unfold c. cbn [bpow]. apply Rinv_le; [lra|]. apply IZR_le. cbn. lia. }
    assert (B : forall q, bpow radix2 (e + q) = (P * bpow radix2 q)%R) by (intros; apply bpow_plus).
    assert (B2 : forall q, bpow radix2 (e + e + q) = (P * P * bpow radix2 q)%R).
    { intros. rewrite !bpow_plus. reflexivity. }
    assert (C53 : bpow radix2 (-53) = (2 * c)%R).
    { unfold c. change (-53)%Z with (1 + -54)%Z. rewrite bpow_plus. reflexivity. }
    (* the gap below k *)
    assert (Mk : mag radix2 (IZR k) = e :> Z).
    { apply mag_unique. rewrite Rabs_pos_eq by lra. split; [|exact U].
      unfold Zminus. rewrite bpow_plus. change (bpow radix2 (- (1)))%R with (/ 2)%R. fold P. lra. }
    assert (Pr : pred radix2 fexp64 (IZR k) = (IZR k - P * (2 * c))%R).
    { rewrite pred_eq_pos by lra. unfold pred_pos. rewrite Mk, Req_bool_false.
      - rewrite ulp_neq_0 by lra. unfold cexp. rewrite Mk. f_equal. rewrite <- C53, <- B. f_equal.
        unfold SpecFloat.fexp, SpecFloat.emin. lia.
      - unfold Zminus. rewrite bpow_plus. change (bpow radix2 (- (1)))%R with (/ 2)%R. fold P. lra. }
    (* the rounding error of k * k *)
    pose proof (error_le_half_ulp radix2 fexp64 (fun x => negb (Z.even x)) (IZR (k * k))) as He'.
    rewrite mult_IZR in *. set (a' := rnd64 (IZR k * IZR k)) in *.
    assert (Kk : (0 < IZR k * IZR k)%R) by nra.
    assert (Er : (Rabs (a' - IZR k * IZR k) + (P * c) * (P * c) < 2 * IZR k * (P * c))%R).
    { destruct (Rlt_le_dec (IZR k * IZR k) (P * P / 2)) as [C|C].
      - assert (Ul : (ulp radix2 fexp64 (IZR k * IZR k) <= P * P * c)%R).
        { unfold c. rewrite <- B2. replace (e + e + -54)%Z with (e + e - 1 - 53)%Z by lia.
          apply ulp_bound; [lra| |lia]. rewrite Rabs_pos_eq by lra.
          replace (e + e - 1)%Z with (e + e + -1)%Z by lia. rewrite B2. change (bpow radix2 (-1)) with (/ 2)%R. lra. }
        apply Rle_lt_trans with (/ 2 * (P * P * c) + P * c * (P * c))%R; [lra|].
        assert (P * P * c * c <= P * P * c * / 1000)%R by (apply Rmult_le_compat_l; [nra|lra]).
        assert (P / 2 * (P * c) < IZR k * (P * c))%R by (apply Rmult_lt_compat_r; nra).
        assert (0 < P * P * c)%R by nra. lra.
      - assert (Ul : (ulp radix2 fexp64 (IZR k * IZR k) <= P * P * (2 * c))%R).
        { rewrite <- C53, <- B2. replace (e + e + -53)%Z with (e + e - 53)%Z by lia.
          apply ulp_bound; [lra| |lia]. rewrite Rabs_pos_eq by lra.
          replace (e + e)%Z with (e + e + 0)%Z by lia. rewrite B2. change (bpow radix2 0) with 1%R. nra. }
        apply Rle_lt_trans with (/ 2 * (P * P * (2 * c)) + P * c * (P * c))%R; [lra|].
        assert (P * P * c * c <= P * P * c * / 1000)%R by (apply Rmult_le_compat_l; [nra|lra]).
        assert (K7 : (7 / 10 * P <= IZR k)%R) by nra.
        assert (7 / 10 * P * (P * c) <= IZR k * (P * c))%R by (apply Rmult_le_compat_r; nra).
        assert (0 < P * P * c)%R by (repeat apply Rmult_lt_0_compat; assumption). lra. }
    apply round_N_ge_midp; [apply fexp64_valid|exact Kf|].
    rewrite Pr. replace ((IZR k + (IZR k - P * (2 * c))) / 2)%R with (IZR k - P * c)%R by field.
    assert (P * c <= P * / 1000)%R by (apply Rmult_le_compat_l; lra).
    assert (K0 : (0 <= IZR k - P * c)%R) by lra.
    rewrite <- (sqrt_square (IZR k - P * c)) by exact K0. apply sqrt_lt_1; [nra| |].
    + apply (rnd_ge_fmt _ 0); [apply generic_format_0|lra].
    + assert (- Rabs (a' - IZR k * IZR k) <= a' - IZR k * IZR k)%R by (pose proof (Rle_abs (- (a' - IZR k * IZR k))); rewrite Rabs_Ropp in *; lra).
      nra.
Qed.

(** for every 64-bit argument the result is the integer square root or one more *)
Theorem trunc_sqrt_all a : (0 <= a < 2 ^ 64)%Z ->
  let r := Ztrunc (rnd64 (sqrt (rnd64 (IZR a)))) in r = Z.sqrt a \/ r = (Z.sqrt a + 1)%Z.
Proof.
  intros Ha. cbv zeta. destruct (Z.lt_ge_cases a (2 ^ 52)) as [S|S]; [left; apply trunc_sqrt_small; lia|].
  set (k := Z.sqrt a).
  assert (K : (2 ^ 26 <= k < 2 ^ 32)%Z).
  { unfold k. split; [apply Z.sqrt_le_square; lia|apply Z.sqrt_lt_square; lia]. }
  destruct (sqrt_between a ltac:(lia)) as [L U]. fold k in L, U.
  assert (R1 : (67108864 <= IZR k)%R) by (apply IZR_le; lia).
  assert (R2 : (IZR k <= 4294967295)%R) by (apply IZR_le; lia).
  assert (Lo : (IZR k <= rnd64 (sqrt (rnd64 (IZR a))))%R).
  { eapply Rle_trans; [apply sqrt_sqr_ge, K|]. apply rnd_le, sqrt_le_1_alt, rnd_le. rewrite mult_IZR. exact L. }
  assert (Hi : (rnd64 (sqrt (rnd64 (IZR a))) <= IZR (2 * k + 3) * bpow radix2 (-1))%R).
  { apply rnd_le_fmt; [apply fmt; lia|].
    pose proof (error_le_half_ulp radix2 fexp64 (fun x => negb (Z.even x)) (IZR a)) as He.
    assert (A0 : (0 < IZR a)%R) by (apply IZR_lt; lia).
    assert (Ul : (ulp radix2 fexp64 (IZR a) <= bpow radix2 (64 - 53))%R).
    { apply ulp_bound; [lra| |lia]. rewrite Rabs_pos_eq by lra. rewrite <- IZR_Zpower by lia. apply IZR_lt. cbn. lia. }
    change (bpow radix2 (64 - 53)) with 2048%R in Ul.
    pose proof (Rle_abs (rnd64 (IZR a) - IZR a)).
    rewrite plus_IZR, mult_IZR. change (bpow radix2 (-1)) with (/ 2)%R.
    replace ((2 * IZR k + 3) * / 2)%R with (IZR k + 3 / 2)%R by field.
    rewrite <- (sqrt_square (IZR k + 3 / 2)) by lra. apply sqrt_le_1_alt. nra. }
  rewrite plus_IZR, mult_IZR in Hi. change (bpow radix2 (-1)) with (/ 2)%R in Hi.
  destruct (Rlt_le_dec (rnd64 (sqrt (rnd64 (IZR a)))) (IZR k + 1)) as [C|C].
  - left. apply Ztrunc_between; [lia|lra].
  - right. apply Ztrunc_between; [lia|]. rewrite plus_IZR. lra.
Qed.

(** squares have the right root, up to 2^64 *)
Theorem trunc_sqrt_square k : (0 <= k < 2 ^ 32)%Z -> Ztrunc (rnd64 (sqrt (rnd64 (IZR (k * k))))) = k.
Proof.
  intros Hk. destruct (Z.lt_ge_cases k (2 ^ 26)) as [S|S].
  - rewrite trunc_sqrt_small by nia. apply Z.sqrt_square. lia.
  - assert (R1 : (67108864 <= IZR k)%R) by (apply IZR_le; lia).
    pose proof (sqrt_sqr_ge k ltac:(lia)) as Lo.
    assert (A0 : (0 < IZR (k * k))%R) by (apply IZR_lt; nia).
    assert (Ul : (ulp radix2 fexp64 (IZR (k * k)) <= bpow radix2 (64 - 53))%R).
    { apply ulp_bound; [lra| |lia]. rewrite Rabs_pos_eq by lra. rewrite <- IZR_Zpower by lia. apply IZR_lt. cbn. nia. }
    change (bpow radix2 (64 - 53)) with 2048%R in Ul.
    pose proof (error_le_half_ulp radix2 fexp64 (fun x => negb (Z.even x)) (IZR (k * k))) as He.
    pose proof (Rle_abs (rnd64 (IZR (k * k)) - IZR (k * k))).
    assert (Hi : (rnd64 (sqrt (rnd64 (IZR (k * k)))) <= IZR (2 * k + 1) * bpow radix2 (-1))%R).
    { apply rnd_le_fmt; [apply fmt; lia|]. rewrite plus_IZR, (mult_IZR 2 k). change (bpow radix2 (-1)) with (/ 2)%R.
      replace ((2 * IZR k + 1) * / 2)%R with (IZR k + 1 / 2)%R by field.
      rewrite <- (sqrt_square (IZR k + 1 / 2)) by lra. apply sqrt_le_1_alt. rewrite mult_IZR in *. nra. }
    rewrite plus_IZR, (mult_IZR 2 k) in Hi. change (bpow radix2 (-1)) with (/ 2)%R in Hi.
    apply Ztrunc_between; [lia|lra].
Qed.

Theorem isqrt_square t k : (0 <= k < 2 ^ 32)%Z -> in_range t k = true -> isqrt t (k * k) = Ok k.
Proof.
  intros Hk R. rewrite isqrt_real by nia. cbv zeta. rewrite trunc_sqrt_square by exact Hk. rewrite R. reflexivity.
Qed.
