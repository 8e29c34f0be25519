(** * Property C57, continued: the computed variance and standard deviation
    compared with those of the elements themselves

    In PropFloat2.v the error of var is relative to the mean square deviation from
    the computed mean; here it is relative to the variance proper, which is smaller
    by the square of the error of the mean (bounded in C56). *)

From Coq Require Import ZArith Reals Lra Lia Bool List Arith.
Import ListNotations.
From Flocq Require Import IEEE754.BinarySingleNaN Core.Core Relative Plus_error.
From Verif Require Import Base Scalar CInt CFloat Model Spec Loops Struct Order Stat
  Float FloatMx FloatErr FloatPoly FloatStat PropFloat PropFloat2.

Local Open Scope nat_scope.

(** ** sums over the positions of an n x m array *)
Notation msum n m f := (rsum n (fun i => rsum m (fun j => f i j))) (only parsing).

(** the mean and the variance (mean square deviation from the mean) of n x m numbers *)
Definition rmean (n m : nat) (x : nat -> nat -> R) : R := (msum n m x / INR (n * m))%R.
Definition rvar (n m : nat) (x : nat -> nat -> R) : R :=
  (msum n m (fun i j => (x i j - rmean n m x)²) / INR (n * m))%R.

Lemma rsum_const n c : rsum n (fun _ => c) = (INR n * c)%R.
Proof. induction n as [|n IH]; [simpl; unfold rsum; simpl; ring|]. rewrite rsum_S, IH, S_INR. ring. Qed.

Lemma koenig n m x c : 0 < n * m ->
  (msum n m (fun i j => (x i j - c)²) / INR (n * m) = rvar n m x + (c - rmean n m x)²)%R.
Proof.
  intros H. assert (N0 : (INR (n * m) <> 0)%R) by (apply not_0_INR; lia).
  assert (X : forall c, msum n m (fun i j => ((x i j - c)²)%R) =
    (msum n m (fun i j => (x i j)²) - 2 * c * msum n m x + INR (n * m) * c²)%R).
  { clear. intros c.
    replace (INR (n * m) * c²)%R with (rsum n (fun _ => rsum m (fun _ => c²))%R) by (rewrite !rsum_const, mult_INR; ring).
    replace (2 * c * msum n m x)%R with (msum n m (fun i j => (2 * c) * x i j)%R).
    2:{ rewrite <- rsum_scal. apply rsum_ext. intros i _. apply rsum_scal. }
    unfold Rminus. rewrite <- (Rmult_1_l (msum n m (fun i j => (2 * c) * x i j)%R)), Ropp_mult_distr_l, <- rsum_scal, <- !rsum_add.
    apply rsum_ext. intros i _. rewrite <- rsum_scal, <- !rsum_add. apply rsum_ext.
    intros j _. unfold Rsqr. ring. }
  unfold rvar. rewrite !X. unfold rmean. set (T := msum n m x). generalize (msum n m (fun i j => (x i j)²)%R). intros Q. unfold Rsqr. field. exact N0.
Qed.

Lemma rvar_nonneg n m x : 0 < n * m -> (0 <= rvar n m x)%R.
Proof.
  intros H. unfold rvar. apply Rmult_le_pos.
  - apply rsum_nonneg. intros. apply rsum_nonneg. intros. apply Rle_0_sqr.
  - left. apply Rinv_0_lt_compat, lt_0_INR. lia.
Qed.

Lemma sqrt_dist a b : (0 <= a -> 0 <= b -> Rabs (sqrt a - sqrt b) <= sqrt (Rabs (a - b)))%R.
Proof.
  intros Ha Hb.
  assert (X : forall a b, (0 <= a -> 0 <= b -> b <= a -> sqrt a - sqrt b <= sqrt (a - b))%R).
  { clear. intros a b Ha Hb L. pose proof (sqrt_pos b). pose proof (sqrt_pos (a - b)).
    assert (sqrt a <= sqrt b + sqrt (a - b))%R; [|lra].
    rewrite <- (sqrt_Rsqr (sqrt b + sqrt (a - b))) by lra. apply sqrt_le_1_alt.
    rewrite Rsqr_plus, !Rsqr_sqrt by lra. pose proof (Rmult_le_pos _ _ H H0). lra. }
  destruct (Rle_or_lt b a) as [L|L].
  - assert (sqrt b <= sqrt a)%R by (apply sqrt_le_1_alt; exact L). rewrite !Rabs_right by lra. apply X; assumption.
  - assert (sqrt a <= sqrt b)%R by (apply sqrt_le_1_alt; lra).
    rewrite (Rabs_left1 (sqrt a - sqrt b)), (Rabs_left1 (a - b)) by lra.
    replace (- (sqrt a - sqrt b))%R with (sqrt b - sqrt a)%R by ring.
    replace (- (a - b))%R with (b - a)%R by ring. apply X; lra.
Qed.

Section Format.
Variables prec emax : Z.
Context {Hp : Prec_gt_0 prec} {He : Prec_lt_emax prec emax}.
Notation fl := (binary_float prec emax).
Notation K := (floatS prec emax).
Notation u := (uro prec).
Notation h := (eta prec emax).
Implicit Types (f : nat -> nat -> fl).

(** the bound of C56 for the error of the mean, and the one for the variance *)
Definition mean_bound n m f : R :=
  (((1 + u) ^ (n * m) - 1) * rmean n m (fun i j => Rabs (B2R (f i j))) + h)%R.
Definition var_bound n m f : R :=
  (((1 + u) ^ (n * m + 3) - 1) * rvar n m (fun i j => B2R (f i j)) +
   (1 + u) ^ (n * m + 3) * (mean_bound n m f)² + h * ((1 + u) ^ (n * m) + 1))%R.

Theorem c57_variance n m f r : 0 < n * m -> (Z.of_nat (n * m) <= 2 ^ prec)%Z -> (Z.of_nat (n * m) < 2 ^ 64)%Z ->
  var K n m (mk n m f) = Ok r -> is_finite r = true ->
  (Rabs (B2R r - rvar n m (fun i j => B2R (f i j))) <= var_bound n m f)%R.
Proof.
  intros H0 H1 H2 E F.
  assert (M : exists mu, mean K n m (mk n m f) = Ok mu).
  { unfold var in E. destruct (mean K n m (mk n m f)); try discriminate. eexists. reflexivity. }
  destruct M as [mu Em].
  assert (Fm : is_finite mu = true).
  { rewrite (var_fsum prec emax n m f mu Em) in E. injection E as <-.
    rewrite size_mul_small in F by exact H2.
    destruct (f_of_Z_small prec emax (Z.of_nat (n * m)) ltac:(lia)) as [_ [FN _]].
    destruct (Bdiv_finite prec emax _ _ F FN) as [Fs _].
    pose proof (fsum_finite prec emax _ Fs) as Fz.
    assert (L : length (elements (mk n m f)) = n * m) by apply (elements_length K n m f).
    destruct (elements (mk n m f)) as [|x w]; [simpl in L; lia|].
    assert (Fx : is_finite (fsq prec emax mu x) = true) by (apply Fz; left; reflexivity).
    destruct (Bmult_finite prec emax _ _ Fx) as [Fd _]. destruct (Bminus_finite prec emax _ _ Fd) as [_ [G _]]. exact G. }
  pose proof (c56_mean prec emax n m f mu H0 H1 H2 Em Fm) as B. cbv zeta in B.
  pose proof (c57_error prec emax n m f mu r H0 H1 H2 Em E F) as D. cbv zeta in D.
  rewrite (koenig n m (fun i j => B2R (f i j)) (B2R mu) H0) in D.
  fold (rmean n m (fun i j => B2R (f i j))) in B.
  assert (B' : (Rabs (B2R mu - rmean n m (fun i j => B2R (f i j))) <= mean_bound n m f)%R) by exact B.
  clear B.
  unfold var_bound. set (V := rvar n m _) in *. set (e := (B2R mu - rmean n m _)%R) in *.
  assert (S : (e² <= (mean_bound n m f)²)%R).
  { apply Rsqr_le_abs_1. rewrite (Rabs_right (mean_bound n m f)); [exact B'|].
    pose proof (Rabs_pos e). lra. }
  assert (P : (1 <= (1 + u) ^ (n * m + 3))%R) by (apply pow_R1_Rle; pose proof (uro_pos prec); lra).
  replace (B2R r - V)%R with ((B2R r - (V + e²)) + e²)%R by ring.
  eapply Rle_trans; [apply Rabs_triang|]. rewrite (Rabs_right (e²)) by (apply Rle_ge, Rle_0_sqr).
  assert (X : ((1 + u) ^ (n * m + 3) * e² <= (1 + u) ^ (n * m + 3) * (mean_bound n m f)²)%R)
    by (apply Rmult_le_compat_l; lra).
  lra.
Qed.

(** the standard deviation: the root of the error of the variance, and one rounding *)
Theorem c57_deviation n m f r s : (1 < prec)%Z ->
  0 < n * m -> (Z.of_nat (n * m) <= 2 ^ prec)%Z -> (Z.of_nat (n * m) < 2 ^ 64)%Z ->
  var K n m (mk n m f) = Ok r -> is_finite r = true -> stddev K n m (mk n m f) = Ok s ->
  (Rabs (B2R s - sqrt (rvar n m (fun i j => B2R (f i j)))) <= sqrt (var_bound n m f) + u * B2R s)%R.
Proof.
  intros P1 H0 H1 H2 E F Es. pose proof (c57_variance n m f r H0 H1 H2 E F) as B.
  destruct (c57_stddev prec emax n m f r E) as [s' [Es' [_ G]]]. assert (s' = s) by congruence. subst s'.
  destruct (G F) as [Fs _].
  assert (s = Bsqrt mode_NE r). { unfold stddev in Es. rewrite E in Es. cbn [bind] in Es. injection Es as <-. reflexivity. }
  subst s. destruct (sqrt_back prec emax r P1 Fs) as [_ [Pr [Ps [d [Hd Q]]]]].
  set (s := Bsqrt mode_NE r) in *. set (V := rvar n m _) in *.
  pose proof (rvar_nonneg n m (fun i j => B2R (f i j)) H0) as PV. fold V in PV.
  replace (B2R s - sqrt V)%R with ((sqrt (B2R r) - sqrt V) - B2R s * d)%R by (rewrite Q; ring).
  eapply Rle_trans; [apply Rabs_triang|]. rewrite Rabs_Ropp, Rabs_mult, (Rabs_right (B2R s)) by lra.
  assert (T : (B2R s * Rabs d <= u * B2R s)%R) by (rewrite Rmult_comm; apply Rmult_le_compat_r; lra).
  assert (R : (Rabs (sqrt (B2R r) - sqrt V) <= sqrt (var_bound n m f))%R); [|lra].
  apply Rle_trans with (sqrt (Rabs (B2R r - V))); [|apply sqrt_le_1_alt; exact B].
  apply sqrt_dist; assumption.
Qed.
End Format.
Print Assumptions c57_variance.
Print Assumptions c57_deviation.
