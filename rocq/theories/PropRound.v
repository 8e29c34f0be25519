(** * Property C85: what the rounding mode changes

    [roundS prec emax md] (CRound.v) is the floating-point element type when every
    operation rounds in the mode [md]: to nearest ([mode_NE], the default), down
    ([mode_DN]), up ([mode_UP]), towards zero ([mode_ZR]).  Every binary format. *)

From Coq Require Import ZArith Reals Lra Lia Bool List Arith.
Import ListNotations.
From Flocq Require Import IEEE754.BinarySingleNaN Core.Core Relative Plus_error.
From Verif Require Import Base Scalar CInt CFloat CRound Model Spec Loops Struct Conv Stat LURec Float FloatMx FloatErr FloatLU
  FloatStat FloatPoly Preds Param ParamInst PropParam Round.

Local Open Scope nat_scope.

Section Format.
Variables prec emax : Z.
Context {Hp : Prec_gt_0 prec} {He : Prec_lt_emax prec emax}.
Notation fl := (binary_float prec emax).
Notation K0 := (floatS prec emax).
Notation K := (roundS prec emax).
Notation DN := mode_DN.
Notation UP := mode_UP.
Notation rnd md := (round radix2 (SpecFloat.fexp prec emax) (round_mode md)).
Notation zero := (B754_zero false : fl).
Notation emin := (SpecFloat.emin prec emax).
Notation u2 := (bpow radix2 (1 - prec)).
Notation h2 := (bpow radix2 emin).
Implicit Types (f g : nat -> nat -> fl) (A B : matrix fl) (md : mode).

(** the default mode is the model used everywhere else *)
Theorem c85_default : K mode_NE = K0.
Proof. reflexivity. Qed.

(** ** Rounding down and rounding up enclose the exact result

    [encl r lo hi]: lo, if it is a number, is at most r; hi, if it is a number, at least r *)
Definition encl (r : R) (lo hi : fl) : Prop :=
  (is_finite lo = true -> (B2R lo <= r)%R) /\ (is_finite hi = true -> (r <= B2R hi)%R).

Lemma encl_plus r lo hi r' lo' hi' : encl r lo hi -> encl r' lo' hi' -> encl (r + r') (Bplus DN lo lo') (Bplus UP hi hi').
Proof.
  intros [L U] [L' U']. split; intros F; destruct (plus_args _ _ _ _ _ F) as [F1 F2].
  - eapply Rle_trans; [apply (res_dn _ _ _ _ (res_plus _ _ DN _ _ F1 F2) F)|]. specialize (L F1). specialize (L' F2). lra.
  - eapply Rle_trans; [|apply (res_up _ _ _ _ (res_plus _ _ UP _ _ F1 F2) F)]. specialize (U F1). specialize (U' F2). lra.
Qed.

Lemma encl_mult (x y : fl) : encl (B2R x * B2R y) (Bmult DN x y) (Bmult UP x y).
Proof.
  split; intros F; destruct (mult_args _ _ _ _ _ F) as [F1 F2].
  - apply (res_dn _ _ _ _ (res_mult _ _ DN _ _ F1 F2) F).
  - apply (res_up _ _ _ _ (res_mult _ _ UP _ _ F1 F2) F).
Qed.

Lemma encl_minus (x y : fl) : encl (B2R x - B2R y) (Bminus DN x y) (Bminus UP x y).
Proof.
  split; intros F; destruct (minus_args _ _ _ _ _ F) as [F1 F2].
  - apply (res_dn _ _ _ _ (res_minus _ _ DN _ _ F1 F2) F).
  - apply (res_up _ _ _ _ (res_minus _ _ UP _ _ F1 F2) F).
Qed.

Lemma encl_div r lo hi (N : Z) : (0 < N)%Z -> (N <= 2 ^ prec)%Z -> encl r lo hi ->
  encl (r / IZR N) (Bdiv DN lo (m_of_Z prec emax DN N)) (Bdiv UP hi (m_of_Z prec emax UP N)).
Proof.
  intros HN HP [L U]. assert (P : (0 < IZR N)%R) by (apply IZR_lt; exact HN).
  assert (PI : (0 < / IZR N)%R) by (apply Rinv_0_lt_compat; exact P).
  split; intros F.
  - destruct (m_of_Z_small prec emax DN N) as [V FN]; [lia|].
    destruct (div_args _ _ _ _ _ F FN) as [F1 Nz]. pose proof (res_dn _ _ _ _ (res_div _ _ DN _ _ F1 Nz) F) as Q.
    rewrite V in Q. eapply Rle_trans; [exact Q|]. unfold Rdiv. apply Rmult_le_compat_r; [lra|auto].
  - destruct (m_of_Z_small prec emax UP N) as [V FN]; [lia|].
    destruct (div_args _ _ _ _ _ F FN) as [F1 Nz]. pose proof (res_up _ _ _ _ (res_div _ _ UP _ _ F1 Nz) F) as Q.
    rewrite V in Q. eapply Rle_trans; [|exact Q]. unfold Rdiv. apply Rmult_le_compat_r; [lra|auto].
Qed.

Lemma encl_exact (x : fl) : encl (B2R x) x x.
Proof. split; intros _; lra. Qed.

(** the accumulated dot product *)
Fixpoint mdot md (m : nat) (a b : nat -> fl) : fl :=
  match m with
  | O => zero
  | S m => Bplus md (mdot md m a b) (Bmult md (a m) (b m))
  end.

Lemma dot_mdot md m a b : dot (K md) m a b = Ok (mdot md m a b).
Proof.
  induction m as [|m IH]; [reflexivity|]. unfold dot. rewrite for_snoc by lia.
  unfold dot in IH. rewrite IH. reflexivity.
Qed.

Lemma mult_round md n m p f g :
  mult (K md) n m p (mk n m f) (mk m p g) = Ok (mk n p (fun i j => mdot md m (fun k => f i k) (fun k => g k j))).
Proof. rewrite mult_tab. apply tabM_ok. intros i j _ _. apply dot_mdot. Qed.

Lemma encl_dot m (a b : nat -> fl) : encl (rsum m (fun k => B2R (a k) * B2R (b k))%R) (mdot DN m a b) (mdot UP m a b).
Proof.
  induction m as [|m IH]; [apply encl_exact|]. rewrite rsum_S. apply encl_plus; [exact IH|apply encl_mult].
Qed.

(** *** the matrix product *)
Theorem c85_mult n m p f g : exists lo hi,
  mult (K DN) n m p (mk n m f) (mk m p g) = Ok (mk n p lo) /\
  mult (K UP) n m p (mk n m f) (mk m p g) = Ok (mk n p hi) /\
  forall i j, i < n -> j < p ->
    (is_finite (lo i j) = true -> (B2R (lo i j) <= rsum m (fun k => B2R (f i k) * B2R (g k j)))%R) /\
    (is_finite (hi i j) = true -> (rsum m (fun k => B2R (f i k) * B2R (g k j)) <= B2R (hi i j))%R).
Proof.
  do 2 eexists. split; [apply mult_round|]. split; [apply mult_round|]. intros i j _ _. apply encl_dot.
Qed.

(** *** element by element *)
Theorem c85_elementwise n m f g (s : fl) : exists lo1 hi1 lo2 hi2 lo3 hi3,
  sum (K DN) n m (mk n m f) (mk n m g) = Ok (mk n m lo1) /\ sum (K UP) n m (mk n m f) (mk n m g) = Ok (mk n m hi1) /\
  sub (K DN) n m (mk n m f) (mk n m g) = Ok (mk n m lo2) /\ sub (K UP) n m (mk n m f) (mk n m g) = Ok (mk n m hi2) /\
  mult_scalar (K DN) n m (mk n m f) s = Ok (mk n m lo3) /\ mult_scalar (K UP) n m (mk n m f) s = Ok (mk n m hi3) /\
  forall i j, i < n -> j < m ->
    encl (B2R (f i j) + B2R (g i j)) (lo1 i j) (hi1 i j) /\
    encl (B2R (f i j) - B2R (g i j)) (lo2 i j) (hi2 i j) /\
    encl (B2R (f i j) * B2R s) (lo3 i j) (hi3 i j).
Proof.
  do 6 eexists.
  do 6 (split; [rewrite ?sum_tab, ?sub_tab, ?mult_scalar_tab; apply tabM_ok; intros i j _ _; reflexivity|]).
  intros i j _ _. cbv beta. split; [|split].
  - apply encl_plus; apply encl_exact.
  - apply encl_minus.
  - apply encl_mult.
Qed.

(** *** convolution: the exact value is the correlation of the matrix, extended by zeros, with the kernel *)
Lemma corr_step_round md n m f k p q c ab : corr_step (K md) n m f k p q c ab =
  Ok (Bplus md c (if inside n m (p + Z.of_nat (fst ab) - 1) (q + Z.of_nat (snd ab) - 1)
     then Bmult md (k (fst ab) (snd ab)) (f (Z.to_nat (p + Z.of_nat (fst ab) - 1)) (Z.to_nat (q + Z.of_nat (snd ab) - 1)))
     else zero)).
Proof. unfold corr_step. cbv zeta. destruct (inside _ _ _ _); reflexivity. Qed.

Lemma encl_corr n m f (k : nat -> nat -> fl) p q : exists lo hi,
  corr (K DN) n m f k p q = Ok lo /\ corr (K UP) n m f k p q = Ok hi /\
  encl (rcorr n m (fun i j => B2R (f i j)) (fun i j => B2R (k i j)) p q) lo hi.
Proof.
  rewrite !corr_unfold. cbv zeta. rewrite !corr_step_round. cbn [bind].
  repeat (rewrite corr_step_round; cbn [bind]).
  do 2 eexists. split; [reflexivity|]. split; [reflexivity|].
  assert (T : forall a b, encl (B2R (k a b) * rext n m (fun i j => B2R (f i j)) (p + Z.of_nat a - 1) (q + Z.of_nat b - 1))
    (if inside n m (p + Z.of_nat a - 1) (q + Z.of_nat b - 1)
     then Bmult DN (k a b) (f (Z.to_nat (p + Z.of_nat a - 1)) (Z.to_nat (q + Z.of_nat b - 1))) else zero)
    (if inside n m (p + Z.of_nat a - 1) (q + Z.of_nat b - 1)
     then Bmult UP (k a b) (f (Z.to_nat (p + Z.of_nat a - 1)) (Z.to_nat (q + Z.of_nat b - 1))) else zero)).
  { intros a b. unfold rext. destruct (inside _ _ _ _); [apply encl_mult|]. rewrite Rmult_0_r. apply encl_exact. }
  match goal with |- encl ?r _ _ => replace r with
    (0 + (B2R (k 0%nat 0%nat) * rext n m (fun i j => B2R (f i j)) (p + Z.of_nat 0 - 1) (q + Z.of_nat 0 - 1))
       + (B2R (k 0%nat 1%nat) * rext n m (fun i j => B2R (f i j)) (p + Z.of_nat 0 - 1) (q + Z.of_nat 1 - 1))
       + (B2R (k 0%nat 2%nat) * rext n m (fun i j => B2R (f i j)) (p + Z.of_nat 0 - 1) (q + Z.of_nat 2 - 1))
       + (B2R (k 1%nat 0%nat) * rext n m (fun i j => B2R (f i j)) (p + Z.of_nat 1 - 1) (q + Z.of_nat 0 - 1))
       + (B2R (k 1%nat 1%nat) * rext n m (fun i j => B2R (f i j)) (p + Z.of_nat 1 - 1) (q + Z.of_nat 1 - 1))
       + (B2R (k 1%nat 2%nat) * rext n m (fun i j => B2R (f i j)) (p + Z.of_nat 1 - 1) (q + Z.of_nat 2 - 1))
       + (B2R (k 2%nat 0%nat) * rext n m (fun i j => B2R (f i j)) (p + Z.of_nat 2 - 1) (q + Z.of_nat 0 - 1))
       + (B2R (k 2%nat 1%nat) * rext n m (fun i j => B2R (f i j)) (p + Z.of_nat 2 - 1) (q + Z.of_nat 1 - 1))
       + (B2R (k 2%nat 2%nat) * rext n m (fun i j => B2R (f i j)) (p + Z.of_nat 2 - 1) (q + Z.of_nat 2 - 1)))%R end.
  - repeat (apply encl_plus; [|apply T]). apply encl_exact.
  - unfold rcorr. rewrite !rsum_S, !rsum_0. ring.
Qed.

Theorem c85_conv2 n m f (k : nat -> nat -> fl) : (Z.of_nat n <= 2 ^ 31)%Z -> (Z.of_nat m <= 2 ^ 31)%Z -> exists lo hi,
  conv2 (K DN) n m (mk n m f) (mk 3 3 k) = Ok (mk n m lo) /\
  conv2 (K UP) n m (mk n m f) (mk 3 3 k) = Ok (mk n m hi) /\
  forall i j, i < n -> j < m ->
    encl (rcorr n m (fun i j => B2R (f i j)) (fun i j => B2R (k i j)) (Z.of_nat i) (Z.of_nat j)) (lo i j) (hi i j).
Proof.
  intros Hn Hm.
  exists (fun i j => match corr (K DN) n m f k (Z.of_nat i) (Z.of_nat j) with Ok x => x | _ => zero end).
  exists (fun i j => match corr (K UP) n m f k (Z.of_nat i) (Z.of_nat j) with Ok x => x | _ => zero end).
  split; [|split].
  - rewrite conv2_tab by assumption. apply tabM_ok. intros i j _ _.
    destruct (encl_corr n m f k (Z.of_nat i) (Z.of_nat j)) as [lo [hi [-> _]]]. reflexivity.
  - rewrite conv2_tab by assumption. apply tabM_ok. intros i j _ _.
    destruct (encl_corr n m f k (Z.of_nat i) (Z.of_nat j)) as [lo [hi [_ [-> _]]]]. reflexivity.
  - intros i j _ _. destruct (encl_corr n m f k (Z.of_nat i) (Z.of_nat j)) as [lo [hi [-> [-> H]]]]. exact H.
Qed.

(** *** the mean *)
Definition msum md (v : list fl) : fl := fold_left (fun s a => Bplus md s a) v zero.

Lemma mean_round md n m f : mean (K md) n m (mk n m f) =
  Ok (Bdiv md (msum md (elements (mk n m f))) (m_of_Z prec emax md (size_mul n m))).
Proof.
  unfold mean. change (lite (K md) 0) with zero.
  rewrite (for_ext 0 n _ (fun it r => for_ 0 m (fun jt r =>
    let* a := aget (mk n m f) it jt in Ok ((fun a r => Bplus md r a) a r)) r)).
  - rewrite (row_fold (K md) n m f (fun a r => Bplus md r a)). reflexivity.
  - intros i r Hi. reflexivity.
Qed.

Lemma encl_msum v : encl (lsum B2R v) (msum DN v) (msum UP v).
Proof.
  induction v as [|a v IH] using rev_ind; [apply encl_exact|].
  unfold msum in *. rewrite !fold_left_app, lsum_app. apply encl_plus; [exact IH|].
  replace (lsum B2R [a]) with (B2R a) by (unfold lsum; simpl; ring). apply encl_exact.
Qed.

Theorem c85_mean n m f : 0 < n -> 0 < m -> (Z.of_nat (n * m) <= 2 ^ prec)%Z -> (Z.of_nat (n * m) < 2 ^ 64)%Z -> exists lo hi,
  mean (K DN) n m (mk n m f) = Ok lo /\ mean (K UP) n m (mk n m f) = Ok hi /\
  encl (rsum n (fun i => rsum m (fun j => B2R (f i j))) / INR (n * m)) lo hi.
Proof.
  intros Hn Hm HP H64. do 2 eexists. split; [apply mean_round|]. split; [apply mean_round|].
  rewrite size_mul_small by exact H64. rewrite INR_IZR_INZ. apply encl_div; [nia|exact HP|].
  rewrite <- (lsum_elements prec emax (@B2R prec emax) n m f). apply encl_msum.
Qed.

(** *** division by a scalar, the reciprocal, and the square root *)
Lemma encl_quot (x y : fl) : is_finite y = true -> encl (B2R x / B2R y) (Bdiv DN x y) (Bdiv UP x y).
Proof.
  intros Fy. split; intros F; destruct (div_args prec emax _ _ _ F Fy) as [Fx Ny].
  - apply (res_dn prec emax); [apply res_div; assumption|exact F].
  - apply (res_up prec emax); [apply res_div; assumption|exact F].
Qed.

Lemma lit0_zero md : @lit (K md) 0 = zero.
Proof. reflexivity. Qed.

Theorem c85_div n m f (s : fl) : is_finite s = true ->
  (B2R s = 0%R -> forall md, div (K md) n m (mk n m f) s = Terminate) /\
  (B2R s <> 0%R -> exists lo hi,
    div (K DN) n m (mk n m f) s = Ok (mk n m lo) /\ div (K UP) n m (mk n m f) s = Ok (mk n m hi) /\
    forall i j, i < n -> j < m -> encl (B2R (f i j) / B2R s) (lo i j) (hi i j)).
Proof.
  intros Fs. assert (E : forall md, @xeq (K md) (@ld (K md) s) (@lit (K md) 0) = Req_bool (B2R s) 0).
  { intros md. rewrite lit0_zero. exact (Beqb_correct prec emax s zero Fs eq_refl). }
  split.
  - intros Z md. rewrite div_tab, E, Z, Req_bool_true by reflexivity. reflexivity.
  - intros N. do 2 eexists.
    do 2 (split; [rewrite div_tab, E, Req_bool_false by exact N; apply tabM_ok; intros i j _ _; reflexivity|]).
    intros i j _ _. apply encl_quot, Fs.
Qed.

Theorem c85_inv1 (a : fl) : is_finite a = true -> B2R a <> 0%R -> exists lo hi,
  inv (K DN) 1 [[a]] = Ok [[lo]] /\ inv (K UP) 1 [[a]] = Ok [[hi]] /\ encl (/ B2R a) lo hi.
Proof.
  intros Fa Na. do 2 eexists. split; [reflexivity|]. split; [reflexivity|].
  assert (O : forall md, B2R (m_of_Z prec emax md 1) = 1%R).
  { intros md. apply (m_of_Z_small prec emax md 1). pose proof (pow_prec_ge2 prec). lia. }
  pose proof (encl_quot (m_of_Z prec emax DN 1) a Fa) as [D _]. pose proof (encl_quot (m_of_Z prec emax UP 1) a Fa) as [_ U].
  rewrite O in D, U. unfold Rdiv in D, U. rewrite Rmult_1_l in D, U. split; assumption.
Qed.

(** chol of a 1x1 matrix is the square root *)
Theorem c85_sqrt (a : fl) : is_finite a = true -> exists lo hi,
  chol (K DN) 1 [[a]] = Ok [[lo]] /\ chol (K UP) 1 [[a]] = Ok [[hi]] /\ encl (sqrt (B2R a)) lo hi /\
  ((0 <= B2R a)%R -> is_finite lo = true /\ is_finite hi = true).
Proof.
  intros Fa. do 2 eexists. split; [reflexivity|]. split; [reflexivity|].
  assert (M : forall md, is_finite (Bminus md a zero) = true /\ B2R (Bminus md a zero) = B2R a).
  { intros md. apply (res_exact prec emax md).
    - pose proof (res_minus prec emax md a zero Fa eq_refl) as H. simpl B2R in H at 2. rewrite Rminus_0_r in H. exact H.
    - apply generic_format_B2R.
    - apply abs_lt_emax. }
  assert (Q : forall md, B2R (Bsqrt md (Bminus md a zero)) = rnd md (sqrt (B2R a))).
  { intros md. destruct (Bsqrt_correct prec emax Hp He md (Bminus md a zero)) as [E _]. rewrite (proj2 (M md)) in E. exact E. }
  split; [split; intros _|].
  - eapply Rle_trans; [apply Req_le, (Q DN)|]. apply round_DN_pt; apply fexp_ok; exact Hp.
  - eapply Rle_trans; [|apply Req_le; symmetry; apply (Q UP)]. apply round_UP_pt; apply fexp_ok; exact Hp.
  - intros Pa.
    assert (G : forall md, is_finite (Bsqrt md (Bminus md a zero)) = true).
    { intros md. destruct (Bsqrt_correct prec emax Hp He md (Bminus md a zero)) as [_ [E _]]. rewrite E.
      destruct (M md) as [F V]. destruct (Bminus md a zero) as [t|t| |t mm e B]; try discriminate; try reflexivity.
      destruct t; [|reflexivity]. exfalso. rewrite <- V in Pa. simpl in Pa.
      assert (F2R (Float radix2 (Z.neg mm) e) < 0)%R by (apply F2R_lt_0; simpl; lia). unfold SpecFloat.cond_Zopp in Pa. simpl in Pa. lra. }
    split; apply G.
Qed.

(** ** Every mode gives a value between the two

    [below_mode m1 m2]: m1 is DN, or m2 is UP, or they are the same *)
Lemma dot_le m1 m2 m (a b : nat -> fl) : below_mode m1 m2 ->
  is_finite (mdot m1 m a b) = true -> is_finite (mdot m2 m a b) = true -> (B2R (mdot m1 m a b) <= B2R (mdot m2 m a b))%R.
Proof.
  intros Hm. induction m as [|m IH]; intros F1 F2; [apply Rle_refl|]. cbn [mdot] in *.
  destruct (plus_args _ _ _ _ _ F1) as [G1 P1], (plus_args _ _ _ _ _ F2) as [G2 P2].
  destruct (mult_args _ _ _ _ _ P1) as [Fa Fb].
  refine (res_le prec emax m1 m2 _ _ _ _ Hm _ (res_plus _ _ m1 _ _ G1 P1) (res_plus _ _ m2 _ _ G2 P2) F1 F2).
  apply Rplus_le_compat; [apply IH; assumption|].
  exact (res_le prec emax m1 m2 _ _ _ _ Hm (Rle_refl _) (res_mult _ _ m1 _ _ Fa Fb) (res_mult _ _ m2 _ _ Fa Fb) P1 P2).
Qed.

Theorem c85_between md n m p f g : exists lo c hi,
  mult (K DN) n m p (mk n m f) (mk m p g) = Ok (mk n p lo) /\
  mult (K md) n m p (mk n m f) (mk m p g) = Ok (mk n p c) /\
  mult (K UP) n m p (mk n m f) (mk m p g) = Ok (mk n p hi) /\
  forall i j, i < n -> j < p -> is_finite (c i j) = true ->
    (is_finite (lo i j) = true -> (B2R (lo i j) <= B2R (c i j))%R) /\
    (is_finite (hi i j) = true -> (B2R (c i j) <= B2R (hi i j))%R).
Proof.
  do 3 eexists. do 3 (split; [apply mult_round|]). intros i j _ _ Fc. cbv beta in Fc. split; intros F; apply dot_le; auto.
  - left. reflexivity.
  - right. left. reflexivity.
Qed.

(** ** The enclosure is narrow: the usual bound with twice the unit roundoff (C51) *)
Section Step.
Variables u h : R.
Hypothesis Hu : (0 <= u)%R.
Lemma pow_ge1 k : (1 <= (1 + u) ^ k)%R.
Proof. apply pow_R1_Rle. lra. Qed.

(** adding a term whose error is E2 to a sum whose error is E1 *)
Lemma step_any (c s T p ab d e dd g : R) (k : nat) (A N : R) :
  (Rabs d <= u)%R -> (Rabs dd <= u)%R -> (Rabs e <= h)%R ->
  p = (ab * (1 + dd) + e)%R -> g = ((c + p) * (1 + d))%R ->
  (Rabs s <= T)%R -> (Rabs ab <= A)%R ->
  (Rabs (c - s) <= ((1 + u) ^ k - 1) * T + N * h * (1 + u) ^ k)%R -> (0 <= N)%R -> 1 <= k ->
  (Rabs (g - (s + ab)) <= ((1 + u) ^ (k + 1) - 1) * (T + A) + (N + 1) * h * (1 + u) ^ (k + 1))%R.
Proof.
  intros Hd Hdd He' -> -> Hs Ha Hc HN Hk.
  replace ((c + (ab * (1 + dd) + e)) * (1 + d) - (s + ab))%R with
    ((c - s) * (1 + d) + (s * d + (ab * (dd + d + dd * d) + e * (1 + d))))%R by ring.
  assert (B1 : (Rabs (1 + d) <= 1 + u)%R).
  { eapply Rle_trans; [apply Rabs_triang|]. rewrite Rabs_R1. lra. }
  assert (B2 : (Rabs (dd + d + dd * d) <= (1 + u) * (1 + u) - 1)%R).
  { eapply Rle_trans; [apply Rabs_triang|]. rewrite Rabs_mult.
    assert (Rabs (dd + d) <= 2 * u)%R by (eapply Rle_trans; [apply Rabs_triang|]; lra).
    assert (Rabs dd * Rabs d <= u * u)%R by (apply Rmult_le_compat; auto using Rabs_pos). lra. }
  pose proof (pow_ge1 k) as P1.
  assert (E1 : ((1 + u) ^ (k + 1) = (1 + u) ^ k * (1 + u))%R) by (rewrite pow_add, pow_1; reflexivity).
  assert (P2 : (1 + u <= (1 + u) ^ k)%R).
  { replace k with (1 + (k - 1)) by lia. rewrite pow_add, pow_1. pose proof (pow_ge1 (k - 1)). nra. }
  assert (T1 : (Rabs ((c - s) * (1 + d)) <= (((1 + u) ^ k - 1) * T + N * h * (1 + u) ^ k) * (1 + u))%R).
  { rewrite Rabs_mult. apply Rmult_le_compat; auto using Rabs_pos. }
  assert (T2 : (Rabs (s * d) <= T * u)%R).
  { rewrite Rabs_mult. apply Rmult_le_compat; auto using Rabs_pos. }
  assert (T3 : (Rabs (ab * (dd + d + dd * d)) <= A * ((1 + u) ^ (k + 1) - 1))%R).
  { rewrite Rabs_mult. apply Rmult_le_compat; auto using Rabs_pos. rewrite E1. nra. }
  assert (T4 : (Rabs (e * (1 + d)) <= h * (1 + u) ^ (k + 1))%R).
  { rewrite Rabs_mult. apply Rmult_le_compat; auto using Rabs_pos. rewrite E1. nra. }
  eapply Rle_trans; [apply Rabs_triang|].
  assert (X : (Rabs (s * d + (ab * (dd + d + dd * d) + e * (1 + d))) <=
          T * u + (A * ((1 + u) ^ (k + 1) - 1) + h * (1 + u) ^ (k + 1)))%R).
  { eapply Rle_trans; [apply Rabs_triang|]. apply Rplus_le_compat; [exact T2|].
    eapply Rle_trans; [apply Rabs_triang|]. apply Rplus_le_compat; assumption. }
  eapply Rle_trans; [apply Rplus_le_compat; [exact T1|exact X]|]. rewrite E1. right. ring.
Qed.
End Step.

Definition dot_bound (m : nat) (a b : nat -> fl) : R :=
  (((1 + u2) ^ m - 1) * rsum m (fun k => Rabs (B2R (a k) * B2R (b k))) + INR m * h2 * (1 + u2) ^ m)%R.

Lemma dot_both m (a b : nat -> fl) : is_finite (mdot DN m a b) = true -> is_finite (mdot UP m a b) = true ->
  (Rabs (B2R (mdot DN m a b) - rsum m (fun k => B2R (a k) * B2R (b k))) <= dot_bound m a b)%R /\
  (Rabs (B2R (mdot UP m a b) - rsum m (fun k => B2R (a k) * B2R (b k))) <= dot_bound m a b)%R.
Proof.
  unfold dot_bound. induction m as [|m IH]; intros F1 F2.
  { unfold rsum. simpl. rewrite Rminus_0_r, Rabs_R0. lra. }
  assert (Hle := dot_le DN UP m a b (or_introl eq_refl)).
  cbn [mdot] in *.
  destruct (plus_args _ _ _ _ _ F1) as [G1 P1], (plus_args _ _ _ _ _ F2) as [G2 P2].
  destruct (mult_args _ _ _ _ _ P1) as [Fa Fb]. specialize (Hle G1 G2). specialize (IH G1 G2). destruct IH as [I1 I2].
  destruct (res_both prec emax _ _ _ _ (Rle_refl _) (res_mult _ _ DN _ _ Fa Fb) (res_mult _ _ UP _ _ Fa Fb) P1 P2) as [V1 V2].
  assert (Lp : (B2R (Bmult DN (a m) (b m)) <= B2R (Bmult UP (a m) (b m)))%R).
  { apply (res_le prec emax DN UP _ _ _ _ (or_introl eq_refl) (Rle_refl _) (res_mult _ _ DN _ _ Fa Fb) (res_mult _ _ UP _ _ Fa Fb) P1 P2). }
  destruct (res_both prec emax _ _ _ _ (Rplus_le_compat _ _ _ _ Hle Lp) (res_plus _ _ DN _ _ G1 P1) (res_plus _ _ UP _ _ G2 P2) F1 F2) as [W1 W2].
  rewrite !(rsum_S m). rewrite S_INR.
  assert (Pu := bpow_ge_0 radix2 (1 - prec)). assert (Ph := bpow_ge_0 radix2 emin).
  assert (ONE : forall md, B2R (Bmult md (a m) (b m)) = rnd md (B2R (a m) * B2R (b m)) ->
    B2R (Bplus md (mdot md m a b) (Bmult md (a m) (b m))) = rnd md (B2R (mdot md m a b) + B2R (Bmult md (a m) (b m))) ->
    (Rabs (B2R (mdot md m a b) - rsum m (fun k => B2R (a k) * B2R (b k))) <=
      ((1 + u2) ^ m - 1) * rsum m (fun k => Rabs (B2R (a k) * B2R (b k))) + INR m * h2 * (1 + u2) ^ m)%R ->
    (Rabs (B2R (Bplus md (mdot md m a b) (Bmult md (a m) (b m))) -
       (rsum m (fun k => B2R (a k) * B2R (b k)) + B2R (a m) * B2R (b m))) <=
     ((1 + u2) ^ S m - 1) * (rsum m (fun k => Rabs (B2R (a k) * B2R (b k))) + Rabs (B2R (a m) * B2R (b m))) +
     (INR m + 1) * h2 * (1 + u2) ^ S m)%R).
  { intros md V W HI. destruct (error_any prec emax md (B2R (a m) * B2R (b m))) as [dd [e [Hdd [He' Ep]]]].
    rewrite <- V in Ep. destruct m as [|m].
    - (* the first term is added to 0 exactly *)
      rewrite W. cbn [mdot]. change (B2R zero) with 0%R. rewrite Rplus_0_l.
      rewrite round_generic by (try typeclasses eauto; apply generic_format_B2R).
      rewrite Ep, !rsum_0. simpl INR. rewrite !Rplus_0_l, pow_1, !Rmult_1_l.
      replace (B2R (a 0%nat) * B2R (b 0%nat) * (1 + dd) + e - B2R (a 0%nat) * B2R (b 0%nat))%R with
        (B2R (a 0%nat) * B2R (b 0%nat) * dd + e)%R by ring.
      eapply Rle_trans; [apply Rabs_triang|]. rewrite Rabs_mult.
      assert (Rabs (B2R (a 0%nat) * B2R (b 0%nat)) * Rabs dd <= Rabs (B2R (a 0%nat) * B2R (b 0%nat)) * u2)%R
        by (apply Rmult_le_compat_l; [apply Rabs_pos|exact Hdd]).
      nra.
    - destruct (error_sum prec emax md (mdot md (S m) a b) (Bmult md (a (S m)) (b (S m)))) as [d [Hd Ed]].
      rewrite <- W in Ed. replace (S (S m)) with (S m + 1) by lia.
      apply (step_any u2 h2 Pu (B2R (mdot md (S m) a b)) _ _ _ _ d e dd _ _ _ _ Hd Hdd He' Ep Ed); auto.
      + apply rsum_abs.
      + apply Rle_refl.
      + apply pos_INR.
      + lia. }
  split; apply ONE; assumption.
Qed.

(** whatever the mode: if rounding down and rounding up both give a number, the error is at
    most this; the width of the enclosure at most twice this *)
Theorem c85_error md n m p f g : exists lo c hi,
  mult (K DN) n m p (mk n m f) (mk m p g) = Ok (mk n p lo) /\
  mult (K md) n m p (mk n m f) (mk m p g) = Ok (mk n p c) /\
  mult (K UP) n m p (mk n m f) (mk m p g) = Ok (mk n p hi) /\
  forall i j, i < n -> j < p -> is_finite (lo i j) = true -> is_finite (hi i j) = true -> is_finite (c i j) = true ->
  (Rabs (B2R (c i j) - rsum m (fun k => B2R (f i k) * B2R (g k j))) <=
   ((1 + u2) ^ m - 1) * rsum m (fun k => Rabs (B2R (f i k) * B2R (g k j))) + INR m * h2 * (1 + u2) ^ m)%R.
Proof.
  do 3 eexists. do 3 (split; [apply mult_round|]). intros i j _ _ F1 F2 Fc. cbv beta in *.
  destruct (dot_both m _ _ F1 F2) as [B1 B2].
  assert (L1 := dot_le DN md m _ _ (or_introl eq_refl) F1 Fc).
  assert (L2 := dot_le md UP m _ _ (or_intror (or_introl eq_refl)) Fc F2).
  unfold dot_bound in *. apply Rabs_le. apply Rabs_le_inv in B1, B2. lra.
Qed.

(** ** Powers of a matrix without negative elements are enclosed as well *)
Section Pow.
Variables (n : nat) (f : nat -> nat -> fl).
Hypothesis Hf : forall i j, i < n -> j < n -> is_finite (f i j) = true -> (0 <= B2R (f i j))%R.
Hypothesis Ff : forall i j, i < n -> j < n -> is_finite (f i j) = true.
Notation A := (fun i j => B2R (f i j)).

(** [x] is a number, in mode md on the right side of r, not negative *)
Definition side md (r : R) (x : fl) : Prop := (0 <= r)%R /\ (is_finite x = true ->
  (0 <= B2R x)%R /\ match md with mode_DN => (B2R x <= r)%R | mode_UP => (r <= B2R x)%R | _ => True end).

Lemma res_side md z (x : fl) : res prec emax md z x -> is_finite x = true -> (0 <= z)%R -> (0 <= B2R x)%R.
Proof.
  intros R F Hz. assert (Z0 : res prec emax md 0 (zero : fl)).
  { left. rewrite round_0 by typeclasses eauto. rewrite Rabs_R0. split; [apply bpow_gt_0|]. split; reflexivity. }
  apply (res_le prec emax md md 0 z zero x); auto. right. right. reflexivity.
Qed.

Lemma side_plus md r x r' y : (md = DN \/ md = UP) -> side md r x -> side md r' y -> side md (r + r') (Bplus md x y).
Proof.
  intros Hm [R1 H1] [R2 H2]. split; [lra|]. intros F. destruct (plus_args _ _ _ _ _ F) as [F1 F2].
  specialize (H1 F1). specialize (H2 F2). pose proof (res_plus _ _ md _ _ F1 F2) as Q. split.
  - apply (res_side md _ _ Q F). lra.
  - destruct Hm as [-> | ->].
    + pose proof (res_dn _ _ _ _ Q F). lra.
    + pose proof (res_up _ _ _ _ Q F). lra.
Qed.

Lemma side_mult md r x r' y : (md = DN \/ md = UP) -> side md r x -> side md r' y -> side md (r * r') (Bmult md x y).
Proof.
  intros Hm [R1 H1] [R2 H2]. split; [apply Rmult_le_pos; assumption|]. intros F. destruct (mult_args _ _ _ _ _ F) as [F1 F2].
  specialize (H1 F1). specialize (H2 F2). pose proof (res_mult _ _ md _ _ F1 F2) as Q. split.
  - apply (res_side md _ _ Q F). apply Rmult_le_pos; tauto.
  - destruct Hm as [-> | ->].
    + pose proof (res_dn _ _ _ _ Q F). eapply Rle_trans; [exact H|]. apply Rmult_le_compat; tauto.
    + pose proof (res_up _ _ _ _ Q F). eapply Rle_trans; [|exact H]. apply Rmult_le_compat; tauto.
Qed.

Lemma side_dot md m (a b : nat -> fl) ra rb : (md = DN \/ md = UP) ->
  (forall k, k < m -> side md (ra k) (a k)) -> (forall k, k < m -> side md (rb k) (b k)) ->
  side md (rsum m (fun k => ra k * rb k)%R) (mdot md m a b).
Proof.
  intros Hm Ha Hb. induction m as [|m IH].
  - rewrite rsum_0. split; [lra|]. intros _. simpl. destruct md; lra.
  - rewrite rsum_S. apply side_plus; [exact Hm|apply IH; auto|]. apply side_mult; auto.
Qed.

Definition pow_side md (q : nat) (C : matrix fl) : Prop := exists c, C = mk n n c /\
  forall i j, i < n -> j < n -> side md (rpow n A q i j) (c i j).

Lemma pow_side_mult md q q' C D X : (md = DN \/ md = UP) ->
  pow_side md q C -> pow_side md q' D -> mult (K md) n n n C D = Ok X -> pow_side md (q + q') X.
Proof.
  intros Hm [c [-> Hc]] [d [-> Hd]] E. rewrite mult_round in E. injection E as <-.
  eexists. split; [reflexivity|]. intros i j Hi Hj. cbv beta. rewrite rpow_add by exact Hi. unfold rmul.
  apply (side_dot md n _ _ (fun k => rpow n A q i k) (fun k => rpow n A q' k j)); auto.
Qed.

Lemma pow_side_1 md : (md = DN \/ md = UP) -> pow_side md 1 (mk n n f).
Proof.
  intros Hm. exists f. split; [reflexivity|]. intros i j Hi Hj. rewrite rpow_1 by exact Hj.
  split; [apply Hf; auto|]. intros F. split; [apply Hf; auto|]. destruct md; lra.
Qed.

Lemma pow_fuel_side md fuel : (md = DN \/ md = UP) -> forall w p C, (1 <= p)%Z ->
  pow_fuel (K md) fuel n w (mk n n f) p = Ok C -> pow_side md (Z.to_nat p) C.
Proof.
  intros Hm. induction fuel as [|fuel IH]; intros w p C Hp1 E; [discriminate|]. cbn [pow_fuel] in E.
  destruct (Z.eqb_spec p 0) as [|_]; [lia|]. destruct (Z.eqb_spec p 1) as [->|N].
  - injection E as <-. apply pow_side_1, Hm.
  - destruct (Z.ltb_spec p 0) as [|_]; [lia|]. cbn [bind] in E.
    assert (Q : Z.quot p 2 = (p / 2)%Z) by (apply Z.quot_div_nonneg; lia).
    assert (M : Z.rem p 2 = (p mod 2)%Z) by (apply Z.rem_mod_nonneg; lia).
    rewrite Q, M in E. pose proof (Z.div_mod p 2 ltac:(lia)) as D. pose proof (Z.mod_pos_bound p 2 ltac:(lia)) as B.
    assert (H1 : (1 <= p / 2)%Z) by lia.
    destruct (pow_fuel (K md) fuel n (Z.max w 32) (mk n n f) (p / 2)) as [P| | | |] eqn:EP; try discriminate.
    apply IH in EP; [|exact H1]. cbn [bind] in E. unfold op_mult in E.
    destruct (Z.eqb_spec (p mod 2) 0) as [E0|E0].
    + replace (Z.to_nat p) with (Z.to_nat (p / 2) + Z.to_nat (p / 2)) by lia.
      eapply pow_side_mult; [exact Hm|exact EP|exact EP|exact E].
    + destruct (mult (K md) n n n P P) as [P2| | | |] eqn:E2; try discriminate. cbn [bind] in E.
      replace (Z.to_nat p) with (Z.to_nat (p / 2) + Z.to_nat (p / 2) + 1) by lia.
      eapply pow_side_mult; [exact Hm| |apply pow_side_1, Hm|exact E].
      eapply pow_side_mult; [exact Hm|exact EP|exact EP|exact E2].
Qed.

Theorem c85_pow w p C C' : (1 <= p)%Z ->
  pow (K DN) n w (mk n n f) p = Ok C -> pow (K UP) n w (mk n n f) p = Ok C' -> exists lo hi,
  C = mk n n lo /\ C' = mk n n hi /\ forall i j, i < n -> j < n ->
    encl (rpow n (fun i j => B2R (f i j)) (Z.to_nat p) i j) (lo i j) (hi i j).
Proof.
  intros Hp1 E E'. unfold pow in E, E'.
  apply (pow_fuel_side DN) in E; [|auto|exact Hp1]. apply (pow_fuel_side UP) in E'; [|auto|exact Hp1].
  destruct E as [lo [-> L]], E' as [hi [-> U]]. exists lo, hi. split; [reflexivity|]. split; [reflexivity|].
  intros i j Hi Hj. destruct (L i j Hi Hj) as [_ L']. destruct (U i j Hi Hj) as [_ U']. split; intros F; [apply L', F|apply U', F].
Qed.
End Pow.

(** ** One mode is enough: rounding up is rounding down on the negated operand *)
Lemma round_mirror z : rnd UP (- z) = (- rnd DN z)%R.
Proof. apply round_UP_opp. Qed.

Lemma res_mirror z x x' : res prec emax DN z x -> res prec emax UP (- z) x' -> is_finite x = true ->
  is_finite x' = true /\ B2R x' = (- B2R x)%R.
Proof.
  intros R R' F. assert (E := round_mirror z).
  destruct R as [[L [_ V]]|[L [s [S V]]]], R' as [[L' [F' V']]|[L' [s' [S' V']]]]; rewrite E, Rabs_Ropp in L'; try lra.
  - split; [exact F'|]. rewrite V', V. exact E.
  - destruct (overflow_finite _ _ _ _ _ V F) as [O VV]. destruct s; [discriminate|].
    assert (S'' : s' = true).
    { destruct s'; [reflexivity|]. simpl in S, S'. assert (z = 0)%R by lra. subst z. exfalso.
      rewrite round_0, Rabs_R0 in L by typeclasses eauto. pose proof (bpow_gt_0 radix2 emax). lra. }
    subst s'. assert (F' : is_finite x' = true) by (destruct x'; simpl in V'; try discriminate; reflexivity).
    split; [exact F'|]. destruct (overflow_finite _ _ _ _ _ V' F') as [_ VV']. rewrite VV, VV'. reflexivity.
Qed.

Lemma dot_mirror m (a b : nat -> fl) : is_finite (mdot DN m a b) = true ->
  is_finite (mdot UP m (fun k => Bopp (a k)) b) = true /\
  B2R (mdot UP m (fun k => Bopp (a k)) b) = (- B2R (mdot DN m a b))%R.
Proof.
  induction m as [|m IH]; intros F; [split; [reflexivity|simpl; ring]|]. cbn [mdot] in *.
  destruct (plus_args _ _ _ _ _ F) as [G P]. destruct (mult_args _ _ _ _ _ P) as [Fa Fb].
  destruct (IH G) as [G' V]. assert (Fa' : is_finite (Bopp (a m)) = true) by (rewrite is_finite_Bopp; exact Fa).
  destruct (res_mirror (B2R (a m) * B2R (b m)) (Bmult DN (a m) (b m)) (Bmult UP (Bopp (a m)) (b m))) as [P' V'].
  - apply res_mult; assumption.
  - replace (- (B2R (a m) * B2R (b m)))%R with (B2R (Bopp (a m)) * B2R (b m))%R by (rewrite B2R_Bopp; ring). apply res_mult; assumption.
  - exact P.
  - apply (res_mirror (B2R (mdot DN m a b) + B2R (Bmult DN (a m) (b m)))); [apply res_plus; assumption| |exact F].
    replace (- (B2R (mdot DN m a b) + B2R (Bmult DN (a m) (b m))))%R with
      (B2R (mdot UP m (fun k => Bopp (a k)) b) + B2R (Bmult UP (Bopp (a m)) (b m)))%R by (rewrite V, V'; ring).
    apply res_plus; assumption.
Qed.

Theorem c85_mirror n m p f g : exists lo hi,
  mult (K DN) n m p (mk n m f) (mk m p g) = Ok (mk n p lo) /\
  mult (K UP) n m p (mk n m (fun i j => Bopp (f i j))) (mk m p g) = Ok (mk n p hi) /\
  forall i j, i < n -> j < p -> is_finite (lo i j) = true -> is_finite (hi i j) = true /\ B2R (hi i j) = (- B2R (lo i j))%R.
Proof.
  do 2 eexists. split; [apply mult_round|]. split; [apply mult_round|]. intros i j _ _ F. cbv beta in *.
  apply (dot_mirror m (fun k => f i k) (fun k => g k j) F).
Qed.

(** ** Laws that hold in every mode *)
Section AnyMode.
Variable md : mode.

Lemma plus_zero_r (x y : fl) : is_finite x = true -> is_finite y = true -> B2R y = 0%R ->
  is_finite (Bplus md x y) = true /\ B2R (Bplus md x y) = B2R x.
Proof.
  intros Fx Fy Zy. rewrite <- (Rplus_0_r (B2R x)), <- Zy. apply (res_exact prec emax md); [apply res_plus; auto| |];
    rewrite Zy, Rplus_0_r; [apply generic_format_B2R|apply abs_B2R_lt_emax].
Qed.
Lemma plus_zero_l (x y : fl) : is_finite x = true -> is_finite y = true -> B2R x = 0%R ->
  is_finite (Bplus md x y) = true /\ B2R (Bplus md x y) = B2R y.
Proof.
  intros Fx Fy Zx. rewrite <- (Rplus_0_l (B2R y)), <- Zx. apply (res_exact prec emax md); [apply res_plus; auto| |];
    rewrite Zx, Rplus_0_l; [apply generic_format_B2R|apply abs_B2R_lt_emax].
Qed.

Lemma mdot_unit m (a : nat -> fl) j : (forall k, k < m -> is_finite (a k) = true) ->
  is_finite (mdot md m a (fun k => if k =? j then m_of_Z prec emax md 1 else zero)) = true /\
  B2R (mdot md m a (fun k => if k =? j then m_of_Z prec emax md 1 else zero)) = (if j <? m then B2R (a j) else 0%R).
Proof.
  destruct (m_of_Z_small prec emax md 1) as [V1 F1]; [pose proof (pow_prec_ge2 prec); lia|].
  induction m as [|m IH]; intros H; [split; reflexivity|].
  destruct (IH ltac:(auto)) as [F V]. cbn [mdot]. clear IH. pose proof (H m ltac:(lia)) as Fm.
  destruct (Nat.eqb_spec m j) as [->|N].
  - assert (P : is_finite (Bmult md (a j) (m_of_Z prec emax md 1)) = true /\ B2R (Bmult md (a j) (m_of_Z prec emax md 1)) = B2R (a j)).
    { rewrite <- (Rmult_1_r (B2R (a j))), <- V1. apply (res_exact prec emax md); [apply res_mult; auto| |];
        rewrite V1, Rmult_1_r; [apply generic_format_B2R|apply abs_B2R_lt_emax]. }
    destruct P as [P W]. rewrite Nat.ltb_irrefl in V. destruct (plus_zero_l _ _ F P V) as [G1 G2].
    split; [exact G1|]. rewrite G2, W. destruct (Nat.ltb_spec j (S j)); [reflexivity|lia].
  - assert (P : is_finite (Bmult md (a m) zero) = true /\ B2R (Bmult md (a m) zero) = 0%R).
    { apply (res_exact prec emax md); [rewrite <- (Rmult_0_r (B2R (a m))); change 0%R with (B2R zero) at 1; apply res_mult; auto| |].
      - apply generic_format_0.
      - rewrite Rabs_R0. apply bpow_gt_0. }
    destruct P as [P W]. destruct (plus_zero_r _ _ F P W) as [G1 G2].
    split; [exact G1|]. rewrite G2, V. destruct (Nat.ltb_spec j m), (Nat.ltb_spec j (S m)); try reflexivity; lia.
Qed.

(** A * eye == A *)
Theorem c85_eye n m f : (forall i j, i < n -> j < m -> is_finite (f i j) = true) ->
  exists C, (let* E := eye1 (K md) m in mult (K md) n m m (mk n m f) E) = Ok C /\ mat_eqb (K md) C (mk n m f) = true.
Proof.
  intros H. rewrite (eye1_mk (K md)). cbn [bind]. rewrite mult_round. eexists. split; [reflexivity|].
  apply mat_eqb_mk. intros i j Hi Hj. cbn [ld roundS xeq].
  destruct (mdot_unit m (fun k => f i k) j) as [F V]; [auto|].
  destruct (Nat.ltb_spec j m); [|lia]. apply (Beqb_finite prec emax); auto.
Qed.

Lemma mult_comm_md (x y : fl) : Bmult md x y = Bmult md y x.
Proof.
  destruct x as [sx|sx| |sx mx ex Bx], y as [sy|sy| |sy my ey By]; simpl; try reflexivity;
    try (rewrite (xorb_comm sx sy); reflexivity).
  apply B2SF_inj. simpl. rewrite !B2SF_SF2B. rewrite (xorb_comm sx sy), (Pos.mul_comm mx my), (Z.add_comm ex ey). reflexivity.
Qed.

Lemma mdot_comm m a b : mdot md m a b = mdot md m b a.
Proof. induction m as [|m IH]; [reflexivity|]. simpl. rewrite IH, mult_comm_md. reflexivity. Qed.

(** trans(A*B) = trans(B) * trans(A), to the last bit *)
Theorem c85_trans n m p f g :
  (let* C := mult (K md) n m p (mk n m f) (mk m p g) in trans (K md) n p C) =
  (let* B' := trans (K md) m p (mk m p g) in let* A' := trans (K md) n m (mk n m f) in mult (K md) p m n B' A').
Proof.
  rewrite mult_round, !trans_mk. cbn [bind]. rewrite trans_mk, mult_round. f_equal. apply mk_ext. intros i j _ _.
  apply mdot_comm.
Qed.

(** *** integers: with int arithmetic that does not overflow, the results are the integers, in
    every mode ([same], [agree]: C61) *)
Section IntFloat.
Variable t : ityp.
Hypothesis Hs : sgn t = true.
Hypothesis Hw : (32 <= width t <= prec + 1)%Z.
Notation I := (intS t).
Notation same := (same prec emax t).
Notation sameM := (mrel same).
Notation RI := (relI prec emax t).
Notation rep := (rep prec emax).

Lemma rep_res z r x : res prec emax md r x -> r = IZR z -> (Z.abs z <= 2 ^ prec)%Z -> rep z x.
Proof.
  intros R -> H. destruct (res_exact prec emax md _ _ R) as [F V]; [apply (small_format prec emax), H|apply (small_lt_emax prec emax), H|].
  split; assumption.
Qed.

Let ld_ a (x : fl) : RI a x -> RI (@ld I a) (@ld (K md) x). Proof. exact (fun H => H). Qed.
Let st_ a (x : fl) : RI a x -> RI (@st I a) (@st (K md) x).
Proof. apply (I_stR prec emax t Hs Hw). Qed.
Let lit_ z : (Z.abs z <= 1)%Z -> RI (@lit I z) (@lit (K md) z).
Proof.
  intros H. cbn [lit intS roundS]. rewrite (promote_t prec t Hw), (I_st prec t Hs Hw) by (apply (I_in prec t Hs Hw), H).
  split; [|apply (I_in prec t Hs Hw), H]. destruct (m_of_Z_small prec emax md z) as [V F].
  - apply (range_small prec t Hs Hw), (I_in prec t Hs Hw), H.
  - split; assumption.
Qed.
Let lit0 : RI (@lit I 0) (@lit (K md) 0). Proof. apply lit_. lia. Qed.
Let lit1 : RI (@lit I 1) (@lit (K md) 1). Proof. apply lit_. lia. Qed.
Let add_ a x b y : RI a x -> RI b y -> refines RI (@xadd I a b) (@xadd (K md) x y).
Proof.
  intros [[Fx Ex] _] [[Fy Ey] _]. cbn [xadd intS roundS]. rewrite (promote_t prec t Hw). apply relI_arith; [exact Hs|].
  intros H. eapply rep_res; [apply res_plus; auto|rewrite Ex, Ey, plus_IZR; reflexivity|apply (range_small prec t Hs Hw), H].
Qed.
Let sub_ a x b y : RI a x -> RI b y -> refines RI (@xsub I a b) (@xsub (K md) x y).
Proof.
  intros [[Fx Ex] _] [[Fy Ey] _]. cbn [xsub intS roundS]. rewrite (promote_t prec t Hw). apply relI_arith; [exact Hs|].
  intros H. eapply rep_res; [apply res_minus; auto|rewrite Ex, Ey, minus_IZR; reflexivity|apply (range_small prec t Hs Hw), H].
Qed.
Let mul_ a x b y : RI a x -> RI b y -> refines RI (@xmul I a b) (@xmul (K md) x y).
Proof.
  intros [[Fx Ex] _] [[Fy Ey] _]. cbn [xmul intS roundS]. rewrite (promote_t prec t Hw). apply relI_arith; [exact Hs|].
  intros H. eapply rep_res; [apply res_mult; auto|rewrite Ex, Ey, mult_IZR; reflexivity|apply (range_small prec t Hs Hw), H].
Qed.

Lemma in_rel (A : matrix Z) (A' : matrix fl) : sameM A A' -> mrel RI A A'.
Proof. apply sameM_relI; assumption. Qed.
Lemma out_rel o (o' : outcome (matrix fl)) : refines (mrel RI) o o' -> agree sameM o o'.
Proof. apply agree_same; assumption. Qed.

Theorem c85_int_algebra n m p (A B : matrix Z) (A' B' : matrix fl) w q : sameM A A' -> sameM B B' -> (0 <= q)%Z ->
  agree sameM (sum I n m A B) (sum (K md) n m A' B') /\
  agree sameM (sub I n m A B) (sub (K md) n m A' B') /\
  agree sameM (mult I n m p A B) (mult (K md) n m p A' B') /\
  agree sameM (strassen I A B) (strassen (K md) A' B') /\
  agree sameM (pow I n w A q) (pow (K md) n w A' q) /\
  agree sameM (conv2 I n m A B) (conv2 (K md) n m A' B') /\
  agree sameM (conv2_full I n m A B) (conv2_full (K md) n m A' B') /\
  agree sameM (conv2_valid I n A B) (conv2_valid (K md) n A' B').
Proof.
  intros HA HB Hq. apply in_rel in HA, HB. conjs; apply out_rel.
  - eapply (sum_ref I (K md) RI RI); eauto.
  - eapply (sub_ref I (K md) RI RI); eauto.
  - eapply (mult_ref I (K md) RI RI); eauto.
  - eapply (strassen_ref I (K md) RI RI); eauto.
  - eapply (pow_ref I (K md) RI RI); eauto.
  - eapply (conv2_ref I (K md) RI RI); eauto.
  - eapply (conv2_full_ref I (K md) RI RI); eauto.
  - eapply (conv2_valid_ref I (K md) RI RI); eauto.
Qed.

Theorem c85_int_det n (A : matrix Z) (A' : matrix fl) : 0 < n <= 3 -> sameM A A' ->
  agree same (det I n A) (det (K md) n A').
Proof.
  intros Hn HA a E. apply in_rel in HA.
  assert (R : refines RI (det I n A) (det (K md) n A')) by (eapply (det_small_ref I (K md) RI RI); eauto).
  rewrite E in R. destruct R as [b [E' R]]. exists b. split; [exact E'|]. apply same_relI; [exact Hw|exact R].
Qed.
End IntFloat.
End AnyMode.
End Format.

(** ** What is not enclosed: a subtraction or a negative factor turns the bound around *)
Definition D32 := roundS 24 128 mode_DN.
Definition D64 := roundS 53 1024 mode_DN.
Definition U64 := roundS 53 1024 mode_UP.
Definition d (z : Z) : fl 53 1024 := f_of_Z 53 1024 z.
Definition s (z : Z) : fl 24 128 := f_of_Z 24 128 z.

Lemma det_check : det D64 2 [[d (2 ^ 53); d (2 ^ 53 - 1)]; [d (2 ^ 53 - 1); d (2 ^ 53 - 2)]] = Ok (B754_zero true).
Proof. vm_compute. reflexivity. Qed.

(** the determinant is -1, computed rounding down it is 0 *)
Theorem c85_det_not_enclosed : exists a b c e r : fl 53 1024,
  det D64 2 [[a; b]; [c; e]] = Ok r /\ is_finite r = true /\ (B2R a * B2R e - B2R b * B2R c < B2R r)%R.
Proof.
  exists (d (2 ^ 53)), (d (2 ^ 53 - 1)), (d (2 ^ 53 - 1)), (d (2 ^ 53 - 2)), (B754_zero true).
  split; [exact det_check|]. split; [reflexivity|].
  assert (E1 : B2R (d (2 ^ 53)) = IZR (2 ^ 53)) by (apply (f_of_Z_small 53 1024); vm_compute; discriminate).
  assert (E2 : B2R (d (2 ^ 53 - 1)) = IZR (2 ^ 53 - 1)) by (apply (f_of_Z_small 53 1024); vm_compute; discriminate).
  assert (E3 : B2R (d (2 ^ 53 - 2)) = IZR (2 ^ 53 - 2)) by (apply (f_of_Z_small 53 1024); vm_compute; discriminate).
  rewrite E1, E2, E3, <- !mult_IZR, <- minus_IZR. simpl B2R. apply IZR_lt. reflexivity.
Qed.

Lemma pow_check : match pow D32 1 32 [[s (-4097)]] 3 with
  | Ok [[B754_finite true m e _]] => (m =? 8394753)%positive && (e =? 13)%Z | _ => false end = true.
Proof. vm_compute. reflexivity. Qed.

(** the cube of -4097, computed rounding down, is too large *)
Theorem c85_pow_not_enclosed : exists x r : fl 24 128,
  pow D32 1 32 [[x]] 3 = Ok [[r]] /\ is_finite r = true /\ (B2R x * B2R x * B2R x < B2R r)%R.
Proof.
  pose proof pow_check as H.
  destruct (pow D32 1 32 [[s (-4097)]] 3) as [[|[|[|b| |[] m e B] []] []]| | | |] eqn:E; try discriminate.
  apply andb_prop in H. destruct H as [Hm Hx]. apply Pos.eqb_eq in Hm. apply Z.eqb_eq in Hx. subst m e.
  eexists _, _. split; [exact E|]. split; [reflexivity|].
  assert (E1 : B2R (s (-4097)) = IZR (-4097)) by (apply (f_of_Z_small 24 128); vm_compute; discriminate).
  rewrite E1, <- !mult_IZR. unfold B2R, F2R. simpl. lra.
Qed.

(** *** a concrete enclosure: 1/3 * 3, double *)
Definition third : fl 53 1024 := Bdiv mode_NE (d 1) (d 3).
Lemma example_check : match mult D64 1 2 1 [[third; third]] [[d 3]; [d 3]], mult U64 1 2 1 [[third; third]] [[d 3]; [d 3]] with
  | Ok [[lo]], Ok [[hi]] => Bltb lo hi && Beqb hi (d 2) | _, _ => false end = true.
Proof. vm_compute. reflexivity. Qed.
Theorem c85_example : exists lo hi,
  mult D64 1 2 1 [[third; third]] [[d 3]; [d 3]] = Ok [[lo]] /\ mult U64 1 2 1 [[third; third]] [[d 3]; [d 3]] = Ok [[hi]] /\
  Bltb lo hi = true /\ Beqb hi (d 2) = true.
Proof.
  generalize example_check.
  generalize (mult U64 1 2 1 [[third; third]] [[d 3]; [d 3]]), (mult D64 1 2 1 [[third; third]] [[d 3]; [d 3]]).
  intros o1 o2 H. destruct o2 as [[|[|lo []] []]| | | |]; try discriminate H.
  destruct o1 as [[|[|hi []] []]| | | |]; try discriminate H. apply andb_prop in H. exists lo, hi. tauto.
Qed.

Print Assumptions c85_mult.
Print Assumptions c85_div.
Print Assumptions c85_sqrt.
Print Assumptions c85_error.
Print Assumptions c85_pow.
Print Assumptions c85_int_algebra.
