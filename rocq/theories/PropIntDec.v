(** * Properties C68, C69: square roots and decompositions of integer matrices

    [isqrt]'s C++ text is static_cast<T>(sqrt(a)): the integer goes to double,
    the root is rounded to double, the result is truncated.  [zsum n f] is
    f 0 + ... + f (n-1). *)

From Coq Require Import ZArith Lia Bool List Arith.
Import ListNotations.
From Verif Require Import Base Scalar CInt Model Spec Loops Struct LURec CholRec IntSqrt IntFactor.
Local Open Scope Z_scope.

(** ** C68 stddev of integer matrices *)

Lemma in_range_iconv t z : 0 < width t -> in_range t (iconv t z) = true.
Proof.
  intros W. unfold in_range, imin, imax, iconv.
  assert (P : 0 < 2 ^ (width t - 1)) by (apply Z.pow_pos_nonneg; lia).
  assert (E : 2 ^ width t = 2 * 2 ^ (width t - 1)).
  { replace (width t) with (Z.succ (width t - 1)) at 1 by lia. rewrite Z.pow_succ_r; lia. }
  destruct (sgn t); apply andb_true_intro; rewrite !Z.leb_le.
  - pose proof (Z.mod_pos_bound (z + 2 ^ (width t - 1)) (2 ^ width t)). lia.
  - pose proof (Z.mod_pos_bound z (2 ^ width t)). lia.
Qed.

Lemma var_in_range t n m A v : 0 < width t -> var (intS t) n m A = Ok v -> in_range t v = true.
Proof.
  intros W H. unfold var in H. apply bind_inv in H. destruct H as [mu [_ H]].
  apply bind_inv in H. destruct H as [r [_ H]]. cbn in H. unfold idivsz in H.
  destruct (size_mul n m =? 0); [discriminate|]. injection H as <-. apply in_range_iconv, W.
Qed.

Lemma in_range_le t r v : 0 < width t -> 0 <= r <= v -> in_range t v = true -> in_range t r = true.
Proof.
  intros W H. unfold in_range, imin, imax. rewrite !andb_true_iff, !Z.leb_le. intros [H1 H2].
  assert (P : 0 < 2 ^ (width t - 1)) by (apply Z.pow_pos_nonneg; lia).
  destruct (sgn t); lia.
Qed.

Lemma sqrt_le_self v : 0 <= v -> 0 <= Z.sqrt v <= v.
Proof. intros H. pose proof (Z.sqrt_nonneg v). destruct (Z.sqrt_spec v H). split; [assumption|]. nia. Qed.

Section Stddev.
Variable t : ityp.
Hypothesis Hw : 0 < width t <= 64.
Notation K := (intS t).

(** the integer square root of the variance, below 2^52 (so for every type of at
    most 32 bits) *)
Theorem c68_stddev n m A v : var K n m A = Ok v -> 0 <= v < 2 ^ 52 ->
  exists r, stddev K n m A = Ok r /\ 0 <= r /\ r * r <= v < (r + 1) * (r + 1).
Proof.
  intros H V. pose proof (var_in_range t n m A v ltac:(lia) H) as R.
  exists (Z.sqrt v). unfold stddev. rewrite H. cbn [bind xsqrt intS ld]. rewrite isqrt_small by exact V.
  pose proof (sqrt_le_self v ltac:(lia)). rewrite (in_range_le t (Z.sqrt v) v) by (try lia; exact R).
  destruct (Z.sqrt_spec v ltac:(lia)) as [S1 S2]. split; [reflexivity|]. unfold Z.succ in S2. lia.
Qed.

(** above, it is the integer square root or one more *)
Theorem c68_stddev_wide n m A v : var K n m A = Ok v -> 2 ^ 52 <= v ->
  exists r, stddev K n m A = Ok r /\ 0 < r /\ (r - 1) * (r - 1) <= v < (r + 1) * (r + 1).
Proof.
  intros H V. pose proof (var_in_range t n m A v ltac:(lia) H) as R.
  assert (V2 : v < 2 ^ 64).
  { unfold in_range, imax in R. apply andb_true_iff in R. rewrite !Z.leb_le in R.
    assert (2 ^ (width t - 1) <= 2 ^ 64 /\ 2 ^ width t <= 2 ^ 64) by (split; apply Z.pow_le_mono_r; lia).
    destruct (sgn t); lia. }
  pose proof (sqrt_le_self v ltac:(lia)). destruct (Z.sqrt_spec v ltac:(lia)) as [S1 S2]. unfold Z.succ in S2.
  assert (S3 : 2 ^ 26 <= Z.sqrt v) by (apply Z.sqrt_le_square; lia).
  pose proof (trunc_sqrt_all v ltac:(lia)) as C. cbv zeta in C.
  assert (Hr : forall r, Z.sqrt v <= r <= Z.sqrt v + 1 -> in_range t r = true).
  { intros r Hr. apply (in_range_le t r v); [lia|nia|exact R]. }
  unfold stddev. rewrite H. cbn [bind xsqrt intS ld]. rewrite isqrt_real by lia. cbv zeta.
  eexists. rewrite Hr by (destruct C as [-> | ->]; lia). split; [reflexivity|].
  destruct C as [-> | ->]; nia.
Qed.

(** a negative variance (the sum of squares wrapped around) has no root *)
Theorem c68_stddev_negative n m A v : var K n m A = Ok v -> v < 0 -> stddev K n m A = UB BadConversion.
Proof. intros H V. unfold stddev. rewrite H. cbn [bind xsqrt intS ld]. apply isqrt_neg, V. Qed.
End Stddev.
Print Assumptions c68_stddev.
Print Assumptions c68_stddev_wide.
Print Assumptions c68_stddev_negative.

(** "one more" does happen: the variance is 67108865^2 - 1, the result 67108865 *)
Theorem c68_one_more :
  let A := [[120; -120; 116235493; -116235493; 330835; -330835]] in
  var (intS int64) 1 6 A = Ok (67108865 * 67108865 - 1) /\ stddev (intS int64) 1 6 A = Ok 67108865.
Proof. vm_compute. split; reflexivity. Qed.
Print Assumptions c68_one_more.

Example c68_ex : var (intS int32) 2 2 [[1; 2]; [3; 10]] = Ok 12 /\ stddev (intS int32) 2 2 [[1; 2]; [3; 10]] = Ok 3.
Proof. vm_compute. split; reflexivity. Qed.

Example c68_ex_negative : var (intS int8) 1 2 [[8; -8]] = Ok (-64) /\
  stddev (intS int8) 1 2 [[8; -8]] = UB BadConversion.
Proof. vm_compute. split; reflexivity. Qed.

(** ** C69 lu and chol of int and long matrices *)
Section Decompositions.
Variable t : ityp.
Hypothesis Hs : sgn t = true.
Hypothesis Hw : 32 <= width t <= 64.
Notation K := (intS t).
Implicit Types (f l u : nat -> nat -> Z).

(** when lu returns, L is unit lower and U upper triangular, L*U equals A on and
    above the diagonal, and below it differs by less than the pivot above *)
Theorem c69_lu n f L U : lu K n (mk n n f) = Ok (L, U) -> exists l u,
  L = mk n n l /\ U = mk n n u /\
  (forall i, (i < n)%nat -> l i i = 1 /\ u i i <> 0) /\
  (forall i j, (i < j < n)%nat -> l i j = 0 /\ u j i = 0) /\
  (forall i j, (i <= j < n)%nat -> f i j = zsum n (fun k => l i k * u k j)) /\
  (forall i j, (j < i < n)%nat -> Z.abs (f i j - zsum n (fun k => l i k * u k j)) < Z.abs (u j j)).
Proof.
  intros H. destruct (lu_recurrence K n f L U H) as [l [u [-> [-> D]]]]. exists l, u.
  split; [reflexivity|]. split; [reflexivity|]. split; [|split; [|split]].
  - intros i Hi. split; [apply (lu_int_unit t Hs ltac:(lia) n f l u D i Hi)|].
    apply (lu_int_lower t Hs ltac:(lia) n f l u D i i ltac:(lia)).
  - intros i j Hij. apply (lu_int_zero t Hs ltac:(lia) n f l u D i j Hij).
  - intros i j Hij. apply (lu_int_exact t Hs ltac:(lia) n f l u D i j Hij).
  - intros i j Hij. rewrite (lu_int_residual t Hs ltac:(lia) n f l u D i j Hij). apply Z.rem_bound_abs.
    apply (lu_int_lower t Hs ltac:(lia) n f l u D i j ltac:(lia)).
Qed.

(** when chol returns, L is lower triangular with a non-negative diagonal;
    L*trans(L) differs from the lower triangle of A by less than |L[j][j]| off the
    diagonal and by at most 2*L[i][i] on it, where it is never too large as long
    as A[i][i] < 2^52 *)
Theorem c69_chol n f L : chol K n (mk n n f) = Ok L -> exists l,
  L = mk n n l /\
  (forall i j, (i < j < n)%nat -> l i j = 0) /\
  (forall i, (i < n)%nat -> 0 <= l i i) /\
  (forall i j, (j < i < n)%nat -> Z.abs (f i j - zsum n (fun k => l i k * l j k)) < Z.abs (l j j)) /\
  (forall i, (i < n)%nat -> - 2 * l i i <= f i i - zsum n (fun k => l i k * l i k) <= 2 * l i i) /\
  (forall i, (i < n)%nat -> f i i < 2 ^ 52 -> zsum n (fun k => l i k * l i k) <= f i i).
Proof.
  intros H. destruct (chol_recurrence K n f L H) as [l [-> [Z0 [DR OR]]]]. exists l.
  assert (G := fun i Hi => chol_int_residual_diag t Hs ltac:(lia) n f l Z0 DR i Hi ltac:(lia)). cbv zeta in G.
  split; [reflexivity|]. split; [|split; [|split; [|split]]].
  - intros i j Hij. apply (chol_int_zero t Hs ltac:(lia) n l Z0 i j Hij).
  - intros i Hi. apply (G i Hi).
  - intros i j Hij. apply (chol_int_residual_off t Hs ltac:(lia) n f l Z0 OR i j Hij).
  - intros i Hi. destruct (G i Hi) as [_ [? [? _]]]. lia.
  - intros i Hi F. destruct (G i Hi) as [_ [_ [_ P]]]. specialize (P F). lia.
Qed.
End Decompositions.
Print Assumptions c69_lu.
Print Assumptions c69_chol.

(** the bounds are reached: the residual of lu is pivot - 1, the residual of chol
    2*L[0][0] on the diagonal and L[0][0] - 1 below it *)
Theorem c69_sharp :
  lu (intS int32) 2 [[7; 1]; [13; 9]] = Ok ([[1; 0]; [1; 1]], [[7; 1]; [0; 8]]) /\
  mult (intS int32) 2 2 2 [[1; 0]; [1; 1]] [[7; 1]; [0; 8]] = Ok [[7; 1]; [7; 9]] /\
  chol (intS int32) 2 [[24; 0]; [11; 20]] = Ok [[4; 0]; [2; 4]] /\
  mult (intS int32) 2 2 2 [[4; 0]; [2; 4]] [[4; 2]; [0; 4]] = Ok [[16; 8]; [8; 20]].
Proof. vm_compute. repeat split; reflexivity. Qed.
Print Assumptions c69_sharp.

(** for long, L*trans(L) can exceed A: the root was rounded up *)
Theorem c69_too_large : chol (intS int64) 1 [[67108865 * 67108865 - 1]] = Ok [[67108865]].
Proof. vm_compute. reflexivity. Qed.
Print Assumptions c69_too_large.
