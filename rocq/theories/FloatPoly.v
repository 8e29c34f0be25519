(** * Rounding errors of polynomial programs: products, powers, strassen, convolution

    [approx k g r b x]: the float x, if finite, is a multiple of 2^g and differs
    from the real r by at most ((1+u)^k - 1) * b, where |r| <= b. *)

From Coq Require Import ZArith Reals Lra Lia Bool List Arith.
Import ListNotations.
From Flocq Require Import IEEE754.BinarySingleNaN Core.Core Relative Plus_error.
From Verif Require Import Base Scalar CFloat Model Spec Loops Struct Conv LURec Float FloatMx.

Local Open Scope nat_scope.

(** ** real matrices as functions *)
Definition rmul (n : nat) (f g : nat -> nat -> R) (i j : nat) : R := rsum n (fun k => f i k * g k j)%R.
Fixpoint rpow (n : nat) (f : nat -> nat -> R) (q : nat) : nat -> nat -> R :=
  match q with
  | O => fun i j => if i =? j then 1%R else 0%R
  | S q => rmul n f (rpow n f q)
  end.

(** a matrix extended by zeros outside, and its correlation with a 3x3 kernel centred at (p, q) *)
Definition rext (n m : nat) (f : nat -> nat -> R) (p q : Z) : R :=
  if inside n m p q then f (Z.to_nat p) (Z.to_nat q) else 0%R.
Definition rcorr (n m : nat) (f k : nat -> nat -> R) (p q : Z) : R :=
  rsum 3 (fun a => rsum 3 (fun b => k a b * rext n m f (p + Z.of_nat a - 1) (q + Z.of_nat b - 1))%R).

Lemma rsum_scal m c f : rsum m (fun k => c * f k)%R = (c * rsum m f)%R.
Proof. induction m; [rewrite !rsum_0; ring|]. rewrite !rsum_S, IHm. ring. Qed.
Lemma rsum_scal_r m c f : rsum m (fun k => f k * c)%R = (rsum m f * c)%R.
Proof. induction m; [rewrite !rsum_0; ring|]. rewrite !rsum_S, IHm. ring. Qed.
Lemma rsum_add m f g : rsum m (fun k => f k + g k)%R = (rsum m f + rsum m g)%R.
Proof. induction m; [rewrite !rsum_0; ring|]. rewrite !rsum_S, IHm. ring. Qed.
Lemma rsum_const0 m : rsum m (fun _ => 0)%R = 0%R.
Proof. induction m; [apply rsum_0|]. rewrite rsum_S, IHm. ring. Qed.
Lemma rsum_swap m n (f : nat -> nat -> R) : rsum m (fun k => rsum n (f k)) = rsum n (fun l => rsum m (fun k => f k l)).
Proof.
  induction m.
  - rewrite rsum_0. symmetry. erewrite rsum_ext; [apply rsum_const0|]. intros. apply rsum_0.
  - rewrite rsum_S, IHm, <- rsum_add. apply rsum_ext. intros. rewrite rsum_S. reflexivity.
Qed.

Lemma rmul_assoc n f g h i j : rmul n f (rmul n g h) i j = rmul n (rmul n f g) h i j.
Proof.
  unfold rmul.
  rewrite (rsum_ext n (fun k => f i k * rsum n (fun l => g k l * h l j))%R (fun k => rsum n (fun l => f i k * (g k l * h l j)))%R)
    by (intros; symmetry; apply rsum_scal).
  rewrite rsum_swap. apply rsum_ext. intros l _. rewrite <- rsum_scal_r. apply rsum_ext. intros. ring.
Qed.

Lemma rmul_ext n f g f' g' i j : (forall k, k < n -> f i k = f' i k) -> (forall k, k < n -> g k j = g' k j) ->
  rmul n f g i j = rmul n f' g' i j.
Proof. intros H H'. apply rsum_ext. intros k Hk. rewrite H, H' by assumption. reflexivity. Qed.

Lemma rsum_unit n (f : nat -> R) i : i < n -> rsum n (fun k => (if i =? k then 1 else 0) * f k)%R = f i.
Proof.
  intros Hi. induction n; [lia|]. rewrite rsum_S. destruct (Nat.eq_dec i n) as [->|N].
  - rewrite Nat.eqb_refl. rewrite (rsum_ext n _ (fun _ => 0%R)), rsum_const0; [ring|].
    intros k Hk. destruct (Nat.eqb_spec n k); [lia|ring].
  - rewrite IHn by lia. destruct (Nat.eqb_spec i n); [contradiction|ring].
Qed.

Lemma rpow_add n f a b i j : i < n -> rpow n f (a + b) i j = rmul n (rpow n f a) (rpow n f b) i j.
Proof.
  revert i. induction a; intros i Hi.
  - simpl. unfold rmul. symmetry. exact (rsum_unit n (fun k => rpow n f b k j) i Hi).
  - cbn [rpow Nat.add]. rewrite <- rmul_assoc. apply rmul_ext; [reflexivity|]. intros. apply IHa. assumption.
Qed.

Lemma rpow_ext n f g q i j : (forall a b, a < n -> b < n -> f a b = g a b) -> i < n -> rpow n f q i j = rpow n g q i j.
Proof.
  intros H. revert i. induction q; intros i Hi; [reflexivity|]. cbn [rpow]. apply rmul_ext; intros k Hk.
  - apply H; assumption.
  - apply IHq. exact Hk.
Qed.

Lemma rpow_1 n f i j : j < n -> rpow n f 1 i j = f i j.
Proof.
  intros Hj. cbn [rpow]. unfold rmul. rewrite (rsum_ext n _ (fun k => (if j =? k then 1 else 0) * f i k)%R).
  - exact (rsum_unit n (f i) j Hj).
  - intros k _. rewrite Nat.eqb_sym. destruct (j =? k); ring.
Qed.

Section Float.
Variables prec emax : Z.
Context {Hp : Prec_gt_0 prec} {He : Prec_lt_emax prec emax}.
Notation fl := (binary_float prec emax).
Notation K := (floatS prec emax).
Notation emin := (SpecFloat.emin prec emax).
Notation fexp := (SpecFloat.fexp prec emax).
Notation rnd := (round radix2 fexp ZnearestE).
Notation u := (uro prec).
Notation "x ⊕ y" := (Bplus mode_NE x y) (at level 50, left associativity).
Notation "x ⊖ y" := (Bminus mode_NE x y) (at level 50, left associativity).
Notation "x ⊗ y" := (Bmult mode_NE x y) (at level 40, left associativity).

Local Instance fexp_valid2 : Valid_exp fexp.
Proof. apply FLT_exp_valid. exact Hp. Qed.

(** x is a multiple of 2^g *)
Definition multiple (g : Z) (x : R) : Prop := exists m : Z, x = (IZR m * bpow radix2 g)%R.

Lemma multiple_le g g' x : (g' <= g)%Z -> multiple g x -> multiple g' x.
Proof.
  intros H [m ->]. exists (m * 2 ^ (g - g'))%Z. rewrite mult_IZR. change (2 ^ (g - g'))%Z with (Zpower radix2 (g - g')).
  rewrite IZR_Zpower by lia. rewrite Rmult_assoc, <- bpow_plus. do 2 f_equal. lia.
Qed.
Lemma multiple_add g x y : multiple g x -> multiple g y -> multiple g (x + y).
Proof. intros [m ->] [m' ->]. exists (m + m')%Z. rewrite plus_IZR. ring. Qed.
Lemma multiple_sub g x y : multiple g x -> multiple g y -> multiple g (x - y).
Proof. intros [m ->] [m' ->]. exists (m - m')%Z. rewrite minus_IZR. ring. Qed.
Lemma multiple_mul g g' x y : multiple g x -> multiple g' y -> multiple (g + g') (x * y).
Proof. intros [m ->] [m' ->]. exists (m * m')%Z. rewrite mult_IZR, bpow_plus. ring. Qed.
Lemma multiple_0 g : multiple g 0.
Proof. exists 0%Z. ring. Qed.

Lemma multiple_rnd g x : multiple g x -> multiple g (rnd x).
Proof.
  intros [m E]. destruct (Z_le_gt_dec (cexp radix2 fexp x) g) as [H|H].
  - assert (F : generic_format radix2 fexp x).
    { rewrite E in *. change (IZR m * bpow radix2 g)%R with (F2R (Float radix2 m g)) in *.
      apply generic_format_F2R. intros _. exact H. }
    rewrite round_generic; [exists m; exact E|apply valid_rnd_N|exact F].
  - apply (multiple_le (cexp radix2 fexp x)); [lia|]. unfold round. eexists. reflexivity.
Qed.

(** no underflow error on multiples of the smallest positive number *)
Lemma rnd_multiple g x : (emin <= g)%Z -> multiple g x -> (Rabs (rnd x - x) <= u * Rabs x)%R.
Proof.
  intros Hg H. apply (multiple_le g emin) in H; [|exact Hg]. destruct H as [m ->].
  pose proof (relative_error_N_FLT_F2R_emin radix2 emin prec Hp (fun x => negb (Z.even x)) m) as E.
  cbv zeta in E. unfold F2R in E. simpl Fnum in E. simpl Fexp in E.
  replace u with (/ 2 * bpow radix2 (- prec + 1))%R; [exact E|].
  unfold uro. rewrite bpow_plus. simpl (bpow radix2 1). lra.
Qed.

Lemma multiple_B2R (x : fl) : multiple emin (B2R x).
Proof.
  destruct x as [s|s| |s m e B]; try apply multiple_0.
  apply (multiple_le e).
  - unfold SpecFloat.bounded in B. apply andb_prop in B. destruct B as [B _]. unfold SpecFloat.canonical_mantissa in B.
    apply Zeq_bool_eq in B. unfold SpecFloat.fexp in B. lia.
  - eexists. reflexivity.
Qed.

Definition approx (k : nat) (g : Z) (r b : R) (x : fl) : Prop :=
  is_finite x = true -> (Rabs r <= b)%R /\ (Rabs (B2R x - r) <= ((1 + u) ^ k - 1) * b)%R /\ multiple g (B2R x).

Lemma approx_exact g x : multiple g (B2R x) -> approx 0 g (B2R x) (Rabs (B2R x)) x.
Proof.
  intros H _. split; [apply Rle_refl|]. split; [|exact H].
  replace (B2R x - B2R x)%R with 0%R by ring. rewrite Rabs_R0. simpl. lra.
Qed.

Lemma approx_mono k k' g g' r b x : k <= k' -> (g' <= g)%Z -> approx k g r b x -> approx k' g' r b x.
Proof.
  intros Hk Hg H F. destruct (H F) as [H1 [H2 H3]]. split; [exact H1|]. split; [|exact (multiple_le g g' _ Hg H3)].
  eapply Rle_trans; [exact H2|]. apply Rmult_le_compat_r; [pose proof (Rabs_pos r); lra|].
  pose proof (pow1u_mono prec k k' Hk). lra.
Qed.

Lemma approx_grow k g r b b' x : (b <= b')%R -> approx k g r b x -> approx k g r b' x.
Proof.
  intros Hb H F. destruct (H F) as [H1 [H2 H3]]. split; [lra|]. split; [|exact H3].
  eapply Rle_trans; [exact H2|]. apply Rmult_le_compat_l; [|exact Hb]. pose proof (pow1u_ge1 prec k). lra.
Qed.

Lemma approx_size k r b x : (Rabs r <= b)%R -> (Rabs (x - r) <= ((1 + u) ^ k - 1) * b)%R -> (Rabs x <= (1 + u) ^ k * b)%R.
Proof.
  intros H1 H2. replace x with ((x - r) + r)%R by ring. eapply Rle_trans; [apply Rabs_triang|]. lra.
Qed.

Lemma approx_round k g r b z : (emin <= g)%Z -> multiple g z ->
  (Rabs r <= b)%R -> (Rabs (z - r) <= ((1 + u) ^ k - 1) * b)%R ->
  (Rabs (rnd z - r) <= ((1 + u) ^ (k + 1) - 1) * b)%R.
Proof.
  intros Hg Hz H1 H2. pose proof (rnd_multiple g z Hg Hz) as E. pose proof (approx_size k r b z H1 H2) as S.
  replace (rnd z - r)%R with ((rnd z - z) + (z - r))%R by ring. eapply Rle_trans; [apply Rabs_triang|].
  assert (u * Rabs z <= u * ((1 + u) ^ k * b))%R by (apply Rmult_le_compat_l; [pose proof (uro_pos prec); lra|exact S]).
  rewrite Nat.add_1_r. rewrite <- tech_pow_Rmult. lra.
Qed.

Lemma approx_add k g r b r' b' x y : (emin <= g)%Z ->
  approx k g r b x -> approx k g r' b' y -> approx (k + 1) g (r + r') (b + b') (x ⊕ y).
Proof.
  intros Hg Hx Hy F. destruct (Bplus_finite prec emax x y F) as [Fx [Fy E]].
  destruct (Hx Fx) as [X1 [X2 X3]], (Hy Fy) as [Y1 [Y2 Y3]]. rewrite E.
  assert (A : (Rabs (r + r') <= b + b')%R) by (eapply Rle_trans; [apply Rabs_triang|lra]).
  pose proof (multiple_add g _ _ X3 Y3) as M.
  split; [exact A|]. split; [|apply multiple_rnd, M].
  apply (approx_round k g); [exact Hg|exact M|exact A|].
  replace (B2R x + B2R y - (r + r'))%R with ((B2R x - r) + (B2R y - r'))%R by ring.
  eapply Rle_trans; [apply Rabs_triang|lra].
Qed.

Lemma approx_sub k g r b r' b' x y : (emin <= g)%Z ->
  approx k g r b x -> approx k g r' b' y -> approx (k + 1) g (r - r') (b + b') (x ⊖ y).
Proof.
  intros Hg Hx Hy F. destruct (Bminus_finite prec emax x y F) as [Fx [Fy E]].
  destruct (Hx Fx) as [X1 [X2 X3]], (Hy Fy) as [Y1 [Y2 Y3]]. rewrite E.
  assert (T : forall p q, (Rabs (p - q) <= Rabs p + Rabs q)%R).
  { intros p q. unfold Rminus. rewrite <- (Rabs_Ropp q). apply Rabs_triang. }
  assert (A : (Rabs (r - r') <= b + b')%R) by (eapply Rle_trans; [apply T|lra]).
  pose proof (multiple_sub g _ _ X3 Y3) as M.
  split; [exact A|]. split; [|apply multiple_rnd, M].
  apply (approx_round k g); [exact Hg|exact M|exact A|].
  replace (B2R x - B2R y - (r - r'))%R with ((B2R x - r) - (B2R y - r'))%R by ring.
  eapply Rle_trans; [apply T|lra].
Qed.

Lemma approx_mul k k' g g' r b r' b' x y : (emin <= g + g')%Z ->
  approx k g r b x -> approx k' g' r' b' y -> approx (k + k' + 1) (g + g') (r * r') (b * b') (x ⊗ y).
Proof.
  intros Hg Hx Hy F. destruct (Bmult_finite prec emax x y F) as [Fx [Fy E]].
  destruct (Hx Fx) as [X1 [X2 X3]], (Hy Fy) as [Y1 [Y2 Y3]]. rewrite E.
  assert (A : (Rabs (r * r') <= b * b')%R) by (rewrite Rabs_mult; apply Rmult_le_compat; auto using Rabs_pos).
  pose proof (multiple_mul g g' _ _ X3 Y3) as M.
  split; [exact A|]. split; [|apply multiple_rnd, M].
  apply (approx_round (k + k') (g + g')); [exact Hg|exact M|exact A|].
  replace (B2R x * B2R y - r * r')%R with ((B2R x - r) * B2R y + r * (B2R y - r'))%R by ring.
  eapply Rle_trans; [apply Rabs_triang|]. rewrite !Rabs_mult.
  pose proof (approx_size k' r' b' (B2R y) Y1 Y2) as S.
  assert (P1 : (Rabs (B2R x - r) * Rabs (B2R y) <= (((1 + u) ^ k - 1) * b) * ((1 + u) ^ k' * b'))%R)
    by (apply Rmult_le_compat; auto using Rabs_pos).
  assert (P2 : (Rabs r * Rabs (B2R y - r') <= b * (((1 + u) ^ k' - 1) * b'))%R)
    by (apply Rmult_le_compat; auto using Rabs_pos).
  rewrite pow_add. lra.
Qed.

Lemma approx_ext k g r b r' b' x : r = r' -> b = b' -> approx k g r b x -> approx k g r' b' x.
Proof. intros -> ->. exact (fun H => H). Qed.

Lemma approx_0 k g x : B2R x = 0%R -> approx k g 0 0 x.
Proof.
  intros E _. rewrite E. split; [rewrite Rabs_R0; apply Rle_refl|]. split; [|apply multiple_0].
  replace (0 - 0)%R with 0%R by ring. rewrite Rabs_R0. lra.
Qed.

(** ** dot products of approximate vectors *)
Lemma approx_fdot m k k' g g' (a b : nat -> fl) ra ba rb bb : (emin <= g + g')%Z ->
  (forall i, i < m -> approx k g (ra i) (ba i) (a i)) ->
  (forall i, i < m -> approx k' g' (rb i) (bb i) (b i)) ->
  approx (k + k' + m) (g + g') (rsum m (fun i => ra i * rb i)%R) (rsum m (fun i => ba i * bb i)%R) (fdot prec emax m a b).
Proof.
  intros Hg Ha Hb. induction m as [|m IH].
  - rewrite !rsum_0. apply approx_0. reflexivity.
  - rewrite !rsum_S. cbn [fdot].
    assert (P : approx (k + k' + 1) (g + g') (ra m * rb m) (ba m * bb m) (a m ⊗ b m)).
    { apply approx_mul; [exact Hg|apply Ha; lia|apply Hb; lia]. }
    destruct m as [|m].
    + cbn [fdot]. rewrite !rsum_0. intros F. destruct (Bplus_finite prec emax _ _ F) as [_ [Fy _]].
      destruct (Bplus_zero_l prec emax (B754_zero false) _ eq_refl Fy eq_refl) as [_ E]. rewrite E.
      rewrite !Rplus_0_l. exact (P Fy).
    + replace (k + k' + S (S m)) with (k + k' + S m + 1) by lia. apply approx_add; [exact Hg| |].
      * apply IH; intros; [apply Ha|apply Hb]; lia.
      * eapply approx_mono; [| |exact P]; lia.
Qed.

(** ** powers *)
Section Pow.
Variables (n : nat) (f : nat -> nat -> fl) (t : Z).
Hypothesis Ht : (0 <= t)%Z.
Hypothesis Hf : forall i j, i < n -> j < n -> is_finite (f i j) = true -> multiple (- t) (B2R (f i j)).
Notation A i j := (B2R (f i j)).
Notation Aabs i j := (Rabs (B2R (f i j))).

Definition pow_ok (q : nat) (C : matrix fl) : Prop := exists c, C = mk n n c /\
  forall i j, i < n -> j < n ->
    approx ((q - 1) * n) (- t * Z.of_nat q) (rpow n (fun i j => A i j) q i j) (rpow n (fun i j => Aabs i j) q i j) (c i j).

Lemma pow_ok_mult q q' C D X : 0 < q -> 0 < q' -> (t * Z.of_nat (q + q') <= - emin)%Z ->
  pow_ok q C -> pow_ok q' D -> mult K n n n C D = Ok X -> pow_ok (q + q') X.
Proof.
  intros Hq Hq' Hu [c [-> Hc]] [d [-> Hd]] E. rewrite mult_float in E. injection E as <-.
  eexists. split; [reflexivity|]. intros i j Hi Hj. cbv beta.
  eapply approx_mono; [| |eapply approx_ext; [| |apply (approx_fdot n ((q - 1) * n) ((q' - 1) * n) (- t * Z.of_nat q) (- t * Z.of_nat q')
    _ _ (fun k => rpow n (fun i j => A i j) q i k) (fun k => rpow n (fun i j => Aabs i j) q i k)
    (fun k => rpow n (fun i j => A i j) q' k j) (fun k => rpow n (fun i j => Aabs i j) q' k j))]].
  - nia.
  - lia.
  - symmetry. apply (rpow_add n (fun i j => A i j)). exact Hi.
  - symmetry. apply (rpow_add n (fun i j => Aabs i j)). exact Hi.
  - lia.
  - intros k Hk. apply Hc; assumption.
  - intros k Hk. apply Hd; assumption.
Qed.

Lemma pow_fuel_approx fuel : forall w p C, (1 <= p)%Z -> (t * p <= - emin)%Z ->
  pow_fuel K fuel n w (mk n n f) p = Ok C -> pow_ok (Z.to_nat p) C.
Proof.
  induction fuel as [|fuel IH]; intros w p C Hp1 Hu E; [discriminate|]. cbn [pow_fuel] in E.
  destruct (Z.eqb_spec p 0) as [|_]; [lia|]. destruct (Z.eqb_spec p 1) as [->|N].
  - injection E as <-. exists f. split; [reflexivity|]. intros i j Hi Hj.
    rewrite !rpow_1 by assumption. change (Z.to_nat 1) with 1. rewrite Nat.sub_diag, Nat.mul_0_l. intros Fin.
    apply approx_exact; [|exact Fin]. replace (- t * Z.of_nat 1)%Z with (- t)%Z by lia. apply Hf; assumption.
  - destruct (Z.ltb_spec p 0) as [|_]; [lia|]. cbn [bind] in E.
    assert (Q : Z.quot p 2 = (p / 2)%Z) by (apply Z.quot_div_nonneg; lia).
    assert (M : Z.rem p 2 = (p mod 2)%Z) by (apply Z.rem_mod_nonneg; lia).
    rewrite Q, M in E. pose proof (Z.div_mod p 2 ltac:(lia)) as D. pose proof (Z.mod_pos_bound p 2 ltac:(lia)) as B.
    assert (H1 : (1 <= p / 2)%Z) by lia.
    destruct (pow_fuel K fuel n (Z.max w 32) (mk n n f) (p / 2)) as [P| | | |] eqn:EP; try discriminate.
    apply IH in EP; [|exact H1|nia]. cbn [bind] in E. unfold op_mult in E.
    destruct (Z.eqb_spec (p mod 2) 0) as [E0|E0].
    + replace (Z.to_nat p) with (Z.to_nat (p / 2) + Z.to_nat (p / 2)) by lia.
      eapply pow_ok_mult; [| | |exact EP|exact EP|exact E]; lia.
    + destruct (mult K n n n P P) as [P2| | | |] eqn:E2; try discriminate. cbn [bind] in E.
      assert (HP2 : pow_ok (Z.to_nat (p / 2) + Z.to_nat (p / 2)) P2).
      { eapply pow_ok_mult; [| | |exact EP|exact EP|exact E2]; nia. }
      replace (Z.to_nat p) with (Z.to_nat (p / 2) + Z.to_nat (p / 2) + 1) by lia.
      eapply pow_ok_mult; [| | |exact HP2| |exact E]; [lia|lia|nia|].
      exists f. split; [reflexivity|]. intros i j Hi Hj.
      rewrite !rpow_1 by assumption. rewrite Nat.sub_diag, Nat.mul_0_l. intros Fin.
      apply approx_exact; [|exact Fin]. replace (- t * Z.of_nat 1)%Z with (- t)%Z by lia. apply Hf; assumption.
Qed.
End Pow.

(** ** convolution *)
Lemma approx_corr n m (f k : nat -> nat -> fl) p q t t' c :
  (0 <= t)%Z -> (0 <= t')%Z -> (t + t' <= - emin)%Z ->
  (forall i j, i < n -> j < m -> is_finite (f i j) = true -> multiple (- t) (B2R (f i j))) ->
  (forall i j, i < 3 -> j < 3 -> is_finite (k i j) = true -> multiple (- t') (B2R (k i j))) ->
  corr K n m f k p q = Ok c ->
  approx 9 (- (t + t')) (rcorr n m (fun i j => B2R (f i j)) (fun i j => B2R (k i j)) p q)
    (rcorr n m (fun i j => Rabs (B2R (f i j))) (fun i j => Rabs (B2R (k i j))) p q) c.
Proof.
  intros Ht Ht' Hu Hf Hk E. rewrite corr_unfold in E. cbv zeta in E.
  pose (T1 := fun ab : nat * nat => (B2R (k (fst ab) (snd ab)) *
    rext n m (fun i j => B2R (f i j)) (p + Z.of_nat (fst ab) - 1) (q + Z.of_nat (snd ab) - 1))%R).
  pose (T2 := fun ab : nat * nat => (Rabs (B2R (k (fst ab) (snd ab))) *
    rext n m (fun i j => Rabs (B2R (f i j))) (p + Z.of_nat (fst ab) - 1) (q + Z.of_nat (snd ab) - 1))%R).
  assert (ST : forall c ab c', fst ab < 3 -> snd ab < 3 -> corr_step K n m f k p q c ab = Ok c' ->
    exists y, c' = c ⊕ y /\ approx 1 (- (t + t')) (T1 ab) (T2 ab) y).
  { intros c0 [a1 b1] c' Ha Hb Es. simpl fst in *. simpl snd in *. unfold corr_step in Es. cbv zeta in Es.
    unfold T1, T2. simpl fst. simpl snd. unfold rext. simpl fst in Es. simpl snd in Es.
    set (pa := (p + Z.of_nat a1 - 1)%Z) in *. set (qb := (q + Z.of_nat b1 - 1)%Z) in *.
    destruct (inside n m pa qb) eqn:Ei.
    - assert (I : Z.to_nat pa < n /\ Z.to_nat qb < m).
      { unfold inside in Ei. rewrite !andb_true_iff in Ei. destruct Ei as [[[E1 E2] E3] E4].
        apply Z.leb_le in E1, E3. apply Z.ltb_lt in E2, E4. lia. }
      cbn [bind xmul xadd ld st floatS] in Es. injection Es as <-. eexists. split; [reflexivity|].
      replace (- (t + t'))%Z with (- t' + - t)%Z by lia. apply (approx_mul 0 0); [lia| |].
      + intros F. apply approx_exact; [|exact F]. apply Hk; assumption.
      + intros F. apply approx_exact; [|exact F]. apply Hf; tauto.
    - cbn [bind xmul xadd ld st lit floatS] in Es. injection Es as <-. eexists. split; [reflexivity|].
      rewrite !Rmult_0_r. apply approx_0. reflexivity. }
  assert (SN : forall kk r b c ab c', fst ab < 3 -> snd ab < 3 -> 1 <= kk -> approx kk (- (t + t')) r b c ->
    corr_step K n m f k p q c ab = Ok c' -> approx (kk + 1) (- (t + t')) (r + T1 ab) (b + T2 ab) c').
  { intros kk r b c0 ab c' Ha Hb Hkk Hc Es. destruct (ST c0 ab c' Ha Hb Es) as [y [-> Hy]].
    apply approx_add; [lia|exact Hc|]. eapply approx_mono; [| |exact Hy]; lia. }
  assert (S0 : forall ab c', fst ab < 3 -> snd ab < 3 ->
    corr_step K n m f k p q (lite K 0) ab = Ok c' -> approx 1 (- (t + t')) (T1 ab) (T2 ab) c').
  { intros ab c' Ha Hb Es. destruct (ST _ ab c' Ha Hb Es) as [y [-> Hy]]. intros F.
    destruct (Bplus_finite prec emax _ _ F) as [_ [Fy _]].
    destruct (Bplus_zero_l prec emax (B754_zero false) _ eq_refl Fy eq_refl) as [_ Ey].
    change (lite K 0) with (B754_zero false : fl). rewrite Ey. exact (Hy Fy). }
  do 8 (match type of E with bind ?o _ = Ok _ => destruct o as [?c| | | |] eqn:?E; try discriminate; cbn [bind] in E end).
  assert (A0 : approx 1 (- (t + t')) (T1 (0, 0)) (T2 (0, 0)) c0) by (apply S0; [cbn; lia|cbn; lia|assumption]).
  assert (A1 := SN 1 _ _ c0 (0, 1) c1 ltac:(cbn; lia) ltac:(cbn; lia) ltac:(lia) A0 ltac:(assumption)).
  assert (A2 := SN 2 _ _ c1 (0, 2) c2 ltac:(cbn; lia) ltac:(cbn; lia) ltac:(lia) A1 ltac:(assumption)).
  assert (A3 := SN 3 _ _ c2 (1, 0) c3 ltac:(cbn; lia) ltac:(cbn; lia) ltac:(lia) A2 ltac:(assumption)).
  assert (A4 := SN 4 _ _ c3 (1, 1) c4 ltac:(cbn; lia) ltac:(cbn; lia) ltac:(lia) A3 ltac:(assumption)).
  assert (A5 := SN 5 _ _ c4 (1, 2) c5 ltac:(cbn; lia) ltac:(cbn; lia) ltac:(lia) A4 ltac:(assumption)).
  assert (A6 := SN 6 _ _ c5 (2, 0) c6 ltac:(cbn; lia) ltac:(cbn; lia) ltac:(lia) A5 ltac:(assumption)).
  assert (A7 := SN 7 _ _ c6 (2, 1) c7 ltac:(cbn; lia) ltac:(cbn; lia) ltac:(lia) A6 ltac:(assumption)).
  assert (A8 := SN 8 _ _ c7 (2, 2) c ltac:(cbn; lia) ltac:(cbn; lia) ltac:(lia) A7 ltac:(assumption)).
  eapply approx_ext; [| |exact A8]; unfold rcorr; rewrite !rsum_S, !rsum_0; unfold T1, T2; simpl fst; simpl snd; ring.
Qed.

(** ** strassen *)
Lemma approx_strassen (f g : nat -> nat -> fl) t t' a b : (0 <= t)%Z -> (0 <= t')%Z -> (t + t' <= - emin)%Z ->
  (forall i j, i < 2 -> j < 2 -> (Rabs (B2R (f i j)) <= a)%R /\ (is_finite (f i j) = true -> multiple (- t) (B2R (f i j)))) ->
  (forall i j, i < 2 -> j < 2 -> (Rabs (B2R (g i j)) <= b)%R /\ (is_finite (g i j) = true -> multiple (- t') (B2R (g i j)))) ->
  exists c, strassen K (mk 2 2 f) (mk 2 2 g) = Ok (mk 2 2 c) /\
    forall i j, i < 2 -> j < 2 ->
      approx 6 (- (t + t')) (rmul 2 (fun i j => B2R (f i j)) (fun i j => B2R (g i j)) i j) (12 * (a * b)) (c i j).
Proof.
  intros Ht Ht' Hu Hf Hg.
  assert (AF : forall i j, i < 2 -> j < 2 -> approx 0 (- t) (B2R (f i j)) a (f i j)).
  { intros i j Hi Hj. destruct (Hf i j Hi Hj) as [L M]. eapply approx_grow; [exact L|]. intros F. apply approx_exact; [exact (M F)|exact F]. }
  assert (AG : forall i j, i < 2 -> j < 2 -> approx 0 (- t') (B2R (g i j)) b (g i j)).
  { intros i j Hi Hj. destruct (Hg i j Hi Hj) as [L M]. eapply approx_grow; [exact L|]. intros F. apply approx_exact; [exact (M F)|exact F]. }
  assert (a0 : (0 <= a)%R) by (destruct (Hf 0 0) as [L _]; [lia|lia|]; pose proof (Rabs_pos (B2R (f 0 0))); lra).
  assert (b0 : (0 <= b)%R) by (destruct (Hg 0 0) as [L _]; [lia|lia|]; pose proof (Rabs_pos (B2R (g 0 0))); lra).
  assert (ab : (0 <= a * b)%R) by (apply Rmult_le_pos; assumption).
  pose (M1 := f 0 0 ⊗ (g 0 1 ⊖ g 1 1)). pose (M2 := (f 0 0 ⊕ f 0 1) ⊗ g 1 1). pose (M3 := (f 1 0 ⊕ f 1 1) ⊗ g 0 0).
  pose (M4 := f 1 1 ⊗ (g 1 0 ⊖ g 0 0)). pose (M5 := (f 0 0 ⊕ f 1 1) ⊗ (g 0 0 ⊕ g 1 1)).
  pose (M6 := (f 0 1 ⊖ f 1 1) ⊗ (g 1 0 ⊕ g 1 1)). pose (M7 := (f 0 0 ⊖ f 1 0) ⊗ (g 0 0 ⊕ g 0 1)).
  exists (fun i j => match i, j with
    | 0, 0 => M5 ⊕ M4 ⊖ M2 ⊕ M6 | 0, _ => M1 ⊕ M2 | _, 0 => M3 ⊕ M4 | _, _ => M1 ⊕ M5 ⊖ (M3 ⊕ M7) end).
  split; [reflexivity|].
  assert (addf : forall i j i' j', i < 2 -> j < 2 -> i' < 2 -> j' < 2 ->
    approx 1 (- t) (B2R (f i j) + B2R (f i' j')) (a + a) (f i j ⊕ f i' j')).
  { intros. apply (approx_add 0); [lia|apply AF; assumption|apply AF; assumption]. }
  assert (subf : forall i j i' j', i < 2 -> j < 2 -> i' < 2 -> j' < 2 ->
    approx 1 (- t) (B2R (f i j) - B2R (f i' j')) (a + a) (f i j ⊖ f i' j')).
  { intros. apply (approx_sub 0); [lia|apply AF; assumption|apply AF; assumption]. }
  assert (addg : forall i j i' j', i < 2 -> j < 2 -> i' < 2 -> j' < 2 ->
    approx 1 (- t') (B2R (g i j) + B2R (g i' j')) (b + b) (g i j ⊕ g i' j')).
  { intros. apply (approx_add 0); [lia|apply AG; assumption|apply AG; assumption]. }
  assert (subg : forall i j i' j', i < 2 -> j < 2 -> i' < 2 -> j' < 2 ->
    approx 1 (- t') (B2R (g i j) - B2R (g i' j')) (b + b) (g i j ⊖ g i' j')).
  { intros. apply (approx_sub 0); [lia|apply AG; assumption|apply AG; assumption]. }
  assert (G : (- t + - t' = - (t + t'))%Z) by lia.
  assert (P1 : approx 3 (- (t + t')) (B2R (f 0 0) * (B2R (g 0 1) - B2R (g 1 1))) (a * (b + b)) M1).
  { rewrite <- G. apply (approx_mono 2 3 (- t + - t')); [lia|lia|]. apply (approx_mul 0 1); [lia|apply AF; lia|apply subg; lia]. }
  assert (P2 : approx 3 (- (t + t')) ((B2R (f 0 0) + B2R (f 0 1)) * B2R (g 1 1)) ((a + a) * b) M2).
  { rewrite <- G. apply (approx_mono 2 3 (- t + - t')); [lia|lia|]. apply (approx_mul 1 0); [lia|apply addf; lia|apply AG; lia]. }
  assert (P3 : approx 3 (- (t + t')) ((B2R (f 1 0) + B2R (f 1 1)) * B2R (g 0 0)) ((a + a) * b) M3).
  { rewrite <- G. apply (approx_mono 2 3 (- t + - t')); [lia|lia|]. apply (approx_mul 1 0); [lia|apply addf; lia|apply AG; lia]. }
  assert (P4 : approx 3 (- (t + t')) (B2R (f 1 1) * (B2R (g 1 0) - B2R (g 0 0))) (a * (b + b)) M4).
  { rewrite <- G. apply (approx_mono 2 3 (- t + - t')); [lia|lia|]. apply (approx_mul 0 1); [lia|apply AF; lia|apply subg; lia]. }
  assert (P5 : approx 3 (- (t + t')) ((B2R (f 0 0) + B2R (f 1 1)) * (B2R (g 0 0) + B2R (g 1 1))) ((a + a) * (b + b)) M5).
  { rewrite <- G. apply (approx_mul 1 1); [lia|apply addf; lia|apply addg; lia]. }
  assert (P6 : approx 3 (- (t + t')) ((B2R (f 0 1) - B2R (f 1 1)) * (B2R (g 1 0) + B2R (g 1 1))) ((a + a) * (b + b)) M6).
  { rewrite <- G. apply (approx_mul 1 1); [lia|apply subf; lia|apply addg; lia]. }
  assert (P7 : approx 3 (- (t + t')) ((B2R (f 0 0) - B2R (f 1 0)) * (B2R (g 0 0) + B2R (g 0 1))) ((a + a) * (b + b)) M7).
  { rewrite <- G. apply (approx_mul 1 1); [lia|apply subf; lia|apply addg; lia]. }
  assert (Hu' : (emin <= - (t + t'))%Z) by lia.
  assert (up : forall k r s x, k <= 6 -> approx k (- (t + t')) r s x -> approx 6 (- (t + t')) r s x).
  { intros k r s x Hk. apply approx_mono; lia. }
  intros i j Hi Hj. unfold rmul. rewrite !rsum_S, rsum_0.
  destruct i as [|[|i]]; [| |lia]; (destruct j as [|[|j]]; [| |lia]).
  - eapply approx_grow; [|eapply approx_ext; [|reflexivity|eapply (approx_add 5); [exact Hu'|eapply (approx_sub 4); [exact Hu'|eapply (approx_add 3); [exact Hu'|exact P5|exact P4]|]|]]].
    3: { apply (approx_mono 3 4 (- (t + t'))); [lia|lia|exact P2]. }
    3: { apply (approx_mono 3 5 (- (t + t'))); [lia|lia|exact P6]. }
    + lra.
    + ring.
  - apply (up 4); [lia|]. eapply approx_grow; [|eapply approx_ext; [|reflexivity|apply (approx_add 3); [exact Hu'|exact P1|exact P2]]]; [lra|ring].
  - apply (up 4); [lia|]. eapply approx_grow; [|eapply approx_ext; [|reflexivity|apply (approx_add 3); [exact Hu'|exact P3|exact P4]]]; [lra|ring].
  - apply (up 5); [lia|]. eapply approx_grow; [|eapply approx_ext; [|reflexivity|apply (approx_sub 4); [exact Hu'|apply (approx_add 3); [exact Hu'|exact P1|exact P5]|apply (approx_add 3); [exact Hu'|exact P3|exact P7]]]]; [lra|ring].
Qed.
End Float.
