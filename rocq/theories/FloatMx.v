(** * Floating-point dot products and the matrix functions built on them *)

From Coq Require Import ZArith Reals Lra Lia Bool List Arith.
Import ListNotations.
From Flocq Require Import IEEE754.BinarySingleNaN Core.Core Relative Plus_error.
From Verif Require Import Base Scalar CFloat Model Spec Loops Struct LURec Float.

(** the real sum f 0 + ... + f (m-1) *)
Definition rsum (m : nat) (f : nat -> R) : R := fold_right Rplus 0%R (map f (seq 0 m)).

Lemma rsum_S m f : rsum (S m) f = (rsum m f + f m)%R.
Proof.
  unfold rsum. rewrite seq_S, map_app, fold_right_app. simpl. rewrite Rplus_0_r.
  generalize (map f (seq 0 m)). intros l. induction l as [|x l IH]; simpl; [ring|]. rewrite IH. ring.
Qed.

Lemma rsum_0 f : rsum 0 f = 0%R. Proof. reflexivity. Qed.

Lemma rsum_ext m f g : (forall k, k < m -> f k = g k) -> rsum m f = rsum m g.
Proof.
  induction m as [|m IH]; intros H; [reflexivity|]. rewrite !rsum_S, IH, H by auto. reflexivity.
Qed.

Lemma rsum_nonneg m f : (forall k, k < m -> (0 <= f k)%R) -> (0 <= rsum m f)%R.
Proof.
  induction m as [|m IH]; intros H; [apply Rle_refl|]. rewrite rsum_S.
  pose proof (IH ltac:(auto)). pose proof (H m ltac:(lia)). lra.
Qed.

Lemma rsum_abs m f : (Rabs (rsum m f) <= rsum m (fun k => Rabs (f k)))%R.
Proof.
  induction m as [|m IH]; [unfold rsum; simpl; rewrite Rabs_R0; lra|]. rewrite !rsum_S.
  eapply Rle_trans; [apply Rabs_triang|]. lra.
Qed.

Lemma rsum_le m f g : (forall k, k < m -> (f k <= g k)%R) -> (rsum m f <= rsum m g)%R.
Proof.
  induction m as [|m IH]; intros H; [apply Rle_refl|]. rewrite !rsum_S.
  pose proof (IH ltac:(auto)). pose proof (H m ltac:(lia)). lra.
Qed.

Lemma rsum_zero_tail m m' f : m <= m' -> (forall k, m <= k < m' -> f k = 0%R) -> rsum m' f = rsum m f.
Proof.
  induction m' as [|m' IH]; intros Hm H.
  - replace m with 0 by lia. reflexivity.
  - destruct (Nat.eq_dec m (S m')) as [->|]; [reflexivity|].
    rewrite rsum_S, H, IH by (try lia; intros; apply H; lia). ring.
Qed.

Section FloatMx.
Variables prec emax : Z.
Context {Hp : Prec_gt_0 prec} {He : Prec_lt_emax prec emax}.
Notation fl := (binary_float prec emax).
Notation K := (floatS prec emax).
Notation fexp := (SpecFloat.fexp prec emax).
Notation rnd := (round radix2 fexp ZnearestE).
Notation u := (uro prec).
Notation h := (eta prec emax).
Notation "x ⊕ y" := (Bplus mode_NE x y) (at level 50, left associativity).
Notation "x ⊖ y" := (Bminus mode_NE x y) (at level 50, left associativity).
Notation "x ⊗ y" := (Bmult mode_NE x y) (at level 40, left associativity).
Notation "x ⊘ y" := (Bdiv mode_NE x y) (at level 40, left associativity).

Fixpoint fdot (m : nat) (a b : nat -> fl) : fl :=
  match m with
  | O => B754_zero false
  | S m => fdot m a b ⊕ (a m ⊗ b m)
  end.

Lemma dot_fdot m a b : dot K m a b = Ok (fdot m a b).
Proof.
  induction m as [|m IH]; [reflexivity|]. unfold dot. rewrite for_snoc by lia.
  unfold dot in IH. rewrite IH. reflexivity.
Qed.

Lemma mult_float n m p (f g : nat -> nat -> fl) :
  mult K n m p (mk n m f) (mk m p g) =
  Ok (mk n p (fun i j => fdot m (fun k => f i k) (fun k => g k j))).
Proof. rewrite mult_tab. apply tabM_ok. intros i j _ _. apply dot_fdot. Qed.

Lemma fdot_finite m a b : is_finite (fdot m a b) = true ->
  forall k, k < m -> is_finite (a k) = true /\ is_finite (b k) = true /\
    is_finite (a k ⊗ b k) = true /\ is_finite (fdot k a b) = true.
Proof.
  induction m as [|m IH]; intros H k Hk; [lia|]. simpl in H.
  apply Bplus_finite in H. destruct H as [H1 [H2 _]].
  destruct (Nat.eq_dec k m) as [->|]; [|apply IH; [exact H1|lia]].
  destruct (Bmult_finite prec emax _ _ H2) as [F1 [F2 _]]. auto.
Qed.

(** ** multiplying by the identity *)

(** the accumulated dot product of a row with a column of eye *)
Lemma fdot_unit m (a : nat -> fl) j : (forall k, k < m -> is_finite (a k) = true) ->
  is_finite (fdot m a (fun k => if k =? j then f_of_Z prec emax 1 else B754_zero false)) = true /\
  B2R (fdot m a (fun k => if k =? j then f_of_Z prec emax 1 else B754_zero false)) =
  (if j <? m then B2R (a j) else 0%R).
Proof.
  induction m as [|m IH]; intros H; [split; reflexivity|].
  destruct (IH ltac:(auto)) as [F V]. cbn [fdot]. clear IH.
  pose proof (H m ltac:(lia)) as Fm.
  destruct (Nat.eqb_spec m j) as [->|N].
  - rewrite (Bmult_1_r prec emax).
    rewrite Nat.ltb_irrefl in V. destruct (Bplus_zero_l prec emax _ _ F Fm V) as [G1 G2].
    split; [exact G1|]. rewrite G2. destruct (Nat.ltb_spec j (S j)); [reflexivity|lia].
  - destruct (Bmult_zero_r prec emax (a m) (B754_zero false) Fm eq_refl eq_refl) as [Z1 Z2].
    destruct (Bplus_zero_r prec emax _ _ F Z1 Z2) as [G1 G2].
    split; [exact G1|]. rewrite G2, V. destruct (Nat.ltb_spec j m), (Nat.ltb_spec j (S m)); try reflexivity; lia.
Qed.

Lemma fdot_nan m a b k : k < m -> a k ⊗ b k = B754_nan -> fdot m a b = B754_nan.
Proof.
  induction m as [|m IH]; intros Hk E; [lia|]. simpl.
  destruct (Nat.eq_dec k m) as [->|].
  - rewrite E. apply Bplus_nan_r.
  - rewrite IH by (auto; lia). apply Bplus_nan_l.
Qed.

Lemma fdot_comm m a b : fdot m a b = fdot m b a.
Proof.
  induction m as [|m IH]; [reflexivity|]. simpl. rewrite IH, (Bmult_comm prec emax). reflexivity.
Qed.

Lemma fdot_ext m a b a' b' : (forall k, k < m -> a k = a' k /\ b k = b' k) ->
  fdot m a b = fdot m a' b'.
Proof.
  induction m as [|m IH]; intros H; [reflexivity|]. simpl. rewrite IH by auto.
  destruct (H m) as [-> ->]; [lia|reflexivity].
Qed.

(** ** a priori error bound *)

Lemma pow1u_ge1 k : (1 <= (1 + u) ^ k)%R.
Proof. apply pow_R1_Rle. pose proof (uro_pos prec). lra. Qed.

Lemma pow1u_mono k k' : k <= k' -> ((1 + u) ^ k <= (1 + u) ^ k')%R.
Proof. intros H. apply Rle_pow; [|exact H]. pose proof (uro_pos prec). lra. Qed.

Lemma prod_error (x y : fl) : is_finite (x ⊗ y) = true ->
  exists d e, (Rabs d <= u)%R /\ (Rabs e <= h)%R /\ B2R (x ⊗ y) = (B2R x * B2R y * (1 + d) + e)%R.
Proof.
  intros H. destruct (Bmult_finite prec emax x y H) as [_ [_ E]]. rewrite E. exact (rnd_any prec emax _).
Qed.

Lemma sum_error (x y : fl) : is_finite (x ⊕ y) = true ->
  exists d, (Rabs d <= u)%R /\ B2R (x ⊕ y) = ((B2R x + B2R y) * (1 + d))%R.
Proof.
  intros H. destruct (Bplus_finite prec emax x y H) as [_ [_ E]]. rewrite E. exact (rnd_plus prec emax x y).
Qed.

(** one step of the accumulation, as real arithmetic *)
Lemma step_bound c s S p ab d e dd g k A N :
  (Rabs d <= u)%R -> (Rabs dd <= u)%R -> (Rabs e <= h)%R ->
  p = (ab * (1 + dd) + e)%R -> g = ((c + p) * (1 + d))%R ->
  (Rabs s <= S)%R -> (Rabs ab <= A)%R -> (1 <= k) ->
  (Rabs (c - s) <= ((1 + u) ^ k - 1) * S + N * h * (1 + u) ^ (k - 1))%R -> (0 <= N)%R ->
  (Rabs (g - (s + ab)) <= ((1 + u) ^ (k + 1) - 1) * (S + A) + (N + 1) * h * (1 + u) ^ k)%R.
Proof.
  intros Hd Hdd He' -> -> Hs Ha Hk Hc HN.
  pose proof (uro_pos prec) as Hu. pose proof (eta_pos prec emax) as Hh.
  replace ((c + (ab * (1 + dd) + e)) * (1 + d) - (s + ab))%R with
    ((c - s) * (1 + d) + (s * d + (ab * (dd + d + dd * d) + e * (1 + d))))%R by ring.
  assert (B1 : (Rabs (1 + d) <= 1 + u)%R).
  { eapply Rle_trans; [apply Rabs_triang|]. rewrite Rabs_R1. lra. }
  assert (B2 : (Rabs (dd + d + dd * d) <= (1 + u) ^ 2 - 1)%R).
  { eapply Rle_trans; [apply Rabs_triang|]. rewrite Rabs_mult.
    assert (Rabs (dd + d) <= 2 * u)%R by (eapply Rle_trans; [apply Rabs_triang|]; lra).
    assert (Rabs dd * Rabs d <= u * u)%R by (apply Rmult_le_compat; auto using Rabs_pos).
    simpl. lra. }
  assert (P2 : ((1 + u) ^ 2 <= (1 + u) ^ (k + 1))%R) by (apply pow1u_mono; lia).
  assert (P1 : (1 + u <= (1 + u) ^ k)%R).
  { rewrite <- (pow_1 (1 + u)) at 1. apply pow1u_mono. exact Hk. }
  assert (T1 : (Rabs ((c - s) * (1 + d)) <= (((1 + u) ^ k - 1) * S + N * h * (1 + u) ^ (k - 1)) * (1 + u))%R).
  { rewrite Rabs_mult. apply Rmult_le_compat; auto using Rabs_pos. }
  assert (T2 : (Rabs (s * d) <= S * u)%R).
  { rewrite Rabs_mult. apply Rmult_le_compat; auto using Rabs_pos. }
  assert (T3 : (Rabs (ab * (dd + d + dd * d)) <= A * ((1 + u) ^ (k + 1) - 1))%R).
  { rewrite Rabs_mult. apply Rmult_le_compat; auto using Rabs_pos. lra. }
  assert (T4 : (Rabs (e * (1 + d)) <= h * (1 + u) ^ k)%R).
  { rewrite Rabs_mult. apply Rmult_le_compat; auto using Rabs_pos. lra. }
  eapply Rle_trans; [apply Rabs_triang|].
  assert (Rabs (s * d + (ab * (dd + d + dd * d) + e * (1 + d))) <=
          S * u + (A * ((1 + u) ^ (k + 1) - 1) + h * (1 + u) ^ k))%R.
  { eapply Rle_trans; [apply Rabs_triang|]. apply Rplus_le_compat; [exact T2|].
    eapply Rle_trans; [apply Rabs_triang|]. apply Rplus_le_compat; assumption. }
  replace ((1 + u) ^ (k + 1))%R with ((1 + u) ^ k * (1 + u))%R in * by (rewrite pow_add, pow_1; ring).
  assert (E : ((1 + u) ^ (k - 1) * (1 + u) = (1 + u) ^ k)%R).
  { replace k with (k - 1 + 1) at 2 by lia. rewrite pow_add, pow_1. ring. }
  replace ((((1 + u) ^ k - 1) * S + N * h * (1 + u) ^ (k - 1)) * (1 + u))%R with
    (((1 + u) ^ k - 1) * (1 + u) * S + N * h * ((1 + u) ^ (k - 1) * (1 + u)))%R in T1 by ring.
  rewrite E in T1.
  eapply Rle_trans; [apply Rplus_le_compat; [exact T1|exact H]|].
  right. ring.
Qed.

Theorem fdot_error m a b : is_finite (fdot m a b) = true ->
  (Rabs (B2R (fdot m a b) - rsum m (fun k => B2R (a k) * B2R (b k))) <=
   ((1 + u) ^ m - 1) * rsum m (fun k => Rabs (B2R (a k) * B2R (b k))) +
   INR m * h * (1 + u) ^ (m - 1))%R.
Proof.
  induction m as [|m IH]; intros H.
  - unfold rsum. simpl. rewrite Rminus_0_r, Rabs_R0. lra.
  - simpl fdot in H. destruct (Bplus_finite prec emax _ _ H) as [F1 [F2 E]].
    destruct (prod_error _ _ F2) as [dd [e [Hdd [He' Ep]]]].
    destruct m as [|m].
    + (* first term: 0 + p is exact *)
      change (fdot 1 a b) with (B754_zero false ⊕ (a 0 ⊗ b 0)).
      destruct (Bplus_zero_l prec emax (B754_zero false) (a 0 ⊗ b 0) eq_refl F2 eq_refl) as [_ V].
      rewrite V, Ep. unfold rsum. simpl.
      replace (B2R (a 0%nat) * B2R (b 0%nat) * (1 + dd) + e - (B2R (a 0%nat) * B2R (b 0%nat) + 0))%R with
        (B2R (a 0%nat) * B2R (b 0%nat) * dd + e)%R by ring.
      eapply Rle_trans; [apply Rabs_triang|]. rewrite Rabs_mult.
      assert (Rabs (B2R (a 0%nat) * B2R (b 0%nat)) * Rabs dd <= Rabs (B2R (a 0%nat) * B2R (b 0%nat)) * u)%R.
      { apply Rmult_le_compat_l; [apply Rabs_pos|exact Hdd]. }
      lra.
    + destruct (sum_error _ _ H) as [d [Hd Es]].
      rewrite !(rsum_S (S m)). rewrite S_INR.
      change (fdot (S (S m)) a b) with (fdot (S m) a b ⊕ (a (S m) ⊗ b (S m))).
      replace (S (S m) - 1) with (S m) by lia. replace (S (S m)) with (S m + 1) by lia.
      apply (step_bound (B2R (fdot (S m) a b)) _ _ (B2R (a (S m) ⊗ b (S m))) _ d e dd _ (S m)); auto.
      * apply rsum_abs.
      * apply Rle_refl.
      * lia.
      * apply pos_INR.
Qed.

(** a sufficient condition for the result to be finite *)
Lemma rnd_small x : (Rabs x * (1 + u) + h < bpow radix2 emax)%R -> (Rabs (rnd x) < bpow radix2 emax)%R.
Proof.
  intros H. destruct (rnd_any prec emax x) as [d [e [Hd [He' ->]]]].
  eapply Rle_lt_trans; [|exact H]. eapply Rle_trans; [apply Rabs_triang|]. rewrite Rabs_mult.
  apply Rplus_le_compat; [|exact He']. apply Rmult_le_compat_l; [apply Rabs_pos|].
  eapply Rle_trans; [apply Rabs_triang|]. rewrite Rabs_R1. lra.
Qed.

Lemma rnd_plus_small (x y : fl) : (Rabs (B2R x + B2R y) * (1 + u) < bpow radix2 emax)%R ->
  (Rabs (rnd (B2R x + B2R y)) < bpow radix2 emax)%R.
Proof.
  intros H. destruct (rnd_plus prec emax x y) as [d [Hd ->]].
  eapply Rle_lt_trans; [|exact H]. rewrite Rabs_mult. apply Rmult_le_compat_l; [apply Rabs_pos|].
  eapply Rle_trans; [apply Rabs_triang|]. rewrite Rabs_R1. lra.
Qed.

Theorem fdot_no_overflow m a b :
  (forall k, k < m -> is_finite (a k) = true /\ is_finite (b k) = true) ->
  ((1 + u) ^ m * (rsum m (fun k => Rabs (B2R (a k) * B2R (b k))) + INR m * h) < bpow radix2 emax)%R ->
  is_finite (fdot m a b) = true /\
  (Rabs (B2R (fdot m a b)) <= (1 + u) ^ m * (rsum m (fun k => Rabs (B2R (a k) * B2R (b k))) + INR m * h))%R.
Proof.
  pose proof (uro_pos prec) as Hu. pose proof (eta_pos prec emax) as Hh.
  induction m as [|m IH]; intros Hf Hb.
  - simpl. split; [reflexivity|]. rewrite Rabs_R0. unfold rsum. simpl. lra.
  - set (P := Rabs (B2R (a m) * B2R (b m))) in *.
    set (S := rsum m (fun k => Rabs (B2R (a k) * B2R (b k)))) in *.
    assert (HS : (0 <= S)%R) by (apply rsum_nonneg; intros; apply Rabs_pos).
    assert (HP : (0 <= P)%R) by apply Rabs_pos.
    pose proof (pos_INR m) as Hm. pose proof (pow1u_ge1 m) as Hpm.
    rewrite rsum_S, S_INR in *. fold S P in Hb |- *.
    assert (Hmh : (0 <= INR m * h)%R) by (apply Rmult_le_pos; assumption).
    assert (EM : ((1 + u) ^ Datatypes.S m = (1 + u) * (1 + u) ^ m)%R) by reflexivity.
    assert (LM : (0 <= (1 + u) ^ m * (S + INR m * h))%R) by (apply Rmult_le_pos; lra).
    assert (LP : (0 <= (1 + u) ^ m * (P + h))%R) by (apply Rmult_le_pos; lra).
    assert (Split : ((1 + u) ^ Datatypes.S m * (S + P + (INR m + 1) * h) =
      (1 + u) * ((1 + u) ^ m * (S + INR m * h) + (1 + u) ^ m * (P + h)))%R) by (rewrite EM; ring).
    rewrite Split in *.
    assert (Fm : is_finite (fdot m a b) = true /\
      (Rabs (B2R (fdot m a b)) <= (1 + u) ^ m * (S + INR m * h))%R).
    { apply IH; [auto|]. eapply Rle_lt_trans; [|exact Hb].
      assert (0 <= u * ((1 + u) ^ m * (S + INR m * h) + (1 + u) ^ m * (P + h)))%R by (apply Rmult_le_pos; lra).
      lra. }
    destruct Fm as [Fm Bm]. destruct (Hf m ltac:(lia)) as [Fa Fb].
    assert (EP : Rabs (B2R (a m) * B2R (b m)) = P) by reflexivity.
    assert (SmallP : (P * (1 + u) + h <= (1 + u) * ((1 + u) ^ m * (P + h)))%R).
    { assert (1 * (P + h) <= (1 + u) ^ m * (P + h))%R by (apply Rmult_le_compat_r; lra).
      assert ((1 + u) * (1 * (P + h)) <= (1 + u) * ((1 + u) ^ m * (P + h)))%R by (apply Rmult_le_compat_l; lra).
      assert (0 <= u * h)%R by (apply Rmult_le_pos; lra). lra. }
    assert (Fprod : is_finite (a m ⊗ b m) = true /\ B2R (a m ⊗ b m) = rnd (B2R (a m) * B2R (b m))).
    { generalize (Bmult_correct _ _ Hp He mode_NE (a m) (b m)). simpl round_mode. rewrite Rlt_bool_true.
      - intros [E1 [E2 _]]. rewrite Fa, Fb in E2. auto.
      - apply rnd_small. rewrite EP. eapply Rle_lt_trans; [exact SmallP|].
        eapply Rle_lt_trans; [|exact Hb]. apply Rmult_le_compat_l; lra. }
    destruct Fprod as [Fprod Eprod].
    destruct (prod_error _ _ Fprod) as [dd [e [Hdd [He' Ep]]]].
    assert (Babs : (Rabs (B2R (a m ⊗ b m)) <= P * (1 + u) + h)%R).
    { rewrite Ep. eapply Rle_trans; [apply Rabs_triang|]. apply Rplus_le_compat; [|exact He'].
      rewrite Rabs_mult. rewrite EP. apply Rmult_le_compat_l; [exact HP|].
      eapply Rle_trans; [apply Rabs_triang|]. rewrite Rabs_R1. lra. }
    destruct m as [|m].
    + (* 0 + p is exact *)
      change (fdot 1 a b) with (B754_zero false ⊕ (a 0 ⊗ b 0)).
      destruct (Bplus_zero_l prec emax (B754_zero false) (a 0 ⊗ b 0) eq_refl Fprod eq_refl) as [G V].
      split; [exact G|]. rewrite V. eapply Rle_trans; [exact Babs|].
      eapply Rle_trans; [exact SmallP|]. apply Rmult_le_compat_l; lra.
    + assert (P1 : (1 + u <= (1 + u) ^ Datatypes.S m)%R).
      { rewrite <- (pow_1 (1 + u)) at 1. apply pow1u_mono. lia. }
      assert (BP : (P * (1 + u) + h <= (1 + u) ^ Datatypes.S m * (P + h))%R).
      { assert (P * (1 + u) <= P * (1 + u) ^ Datatypes.S m)%R by (apply Rmult_le_compat_l; lra).
        assert (h * 1 <= h * (1 + u) ^ Datatypes.S m)%R by (apply Rmult_le_compat_l; lra). lra. }
      assert (Bsum : (Rabs (B2R (fdot (Datatypes.S m) a b) + B2R (a (Datatypes.S m) ⊗ b (Datatypes.S m))) <=
        (1 + u) ^ Datatypes.S m * (S + INR (Datatypes.S m) * h) + (1 + u) ^ Datatypes.S m * (P + h))%R).
      { eapply Rle_trans; [apply Rabs_triang|]. lra. }
      assert (Bsum' : (Rabs (B2R (fdot (Datatypes.S m) a b) + B2R (a (Datatypes.S m) ⊗ b (Datatypes.S m))) * (1 + u) <=
        (1 + u) * ((1 + u) ^ Datatypes.S m * (S + INR (Datatypes.S m) * h) + (1 + u) ^ Datatypes.S m * (P + h)))%R).
      { rewrite Rmult_comm. apply Rmult_le_compat_l; lra. }
      change (fdot (Datatypes.S (Datatypes.S m)) a b) with
        (fdot (Datatypes.S m) a b ⊕ (a (Datatypes.S m) ⊗ b (Datatypes.S m))).
      generalize (Bplus_correct _ _ Hp He mode_NE _ _ Fm Fprod). simpl round_mode.
      rewrite Rlt_bool_true.
      * intros [E1 [E2 _]]. split; [exact E2|].
        destruct (sum_error _ _ E2) as [d [Hd Es]]. rewrite Es, Rabs_mult.
        eapply Rle_trans; [|exact Bsum']. apply Rmult_le_compat_l; [apply Rabs_pos|].
        eapply Rle_trans; [apply Rabs_triang|]. rewrite Rabs_R1. lra.
      * apply rnd_plus_small. eapply Rle_lt_trans; [exact Bsum'|exact Hb].
Qed.

End FloatMx.
