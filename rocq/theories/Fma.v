(** * Facts about the fused multiply-add *)

From Coq Require Import ZArith Reals Lra Lia Bool List Arith.
Import ListNotations.
From Flocq Require Import IEEE754.BinarySingleNaN Core.Core Relative Plus_error Operations.
From Verif Require Import Base Scalar CFloat CFma Model Spec Loops Struct LURec Float FloatMx FloatStat ParamInst.

Local Open Scope nat_scope.

Section Fma.
Variables prec emax : Z.
Context {Hp : Prec_gt_0 prec} {He : Prec_lt_emax prec emax}.
Notation fl := (binary_float prec emax).
Notation fexp := (SpecFloat.fexp prec emax).
Notation rnd := (round radix2 fexp ZnearestE).
Notation u := (uro prec).
Notation h := (eta prec emax).
Notation "x ⊕ y" := (Bplus mode_NE x y) (at level 50, left associativity).
Notation "x ⊖ y" := (Bminus mode_NE x y) (at level 50, left associativity).
Notation "x ⊗ y" := (Bmult mode_NE x y) (at level 40, left associativity).
Notation fma x y z := (Bfma mode_NE x y z).
Notation fval := (fval prec emax).
Implicit Types (x y z : fl) (v w : fval).

Lemma Bfma_finite x y z : is_finite (fma x y z) = true ->
  is_finite x = true /\ is_finite y = true /\ is_finite z = true /\ B2R (fma x y z) = rnd (B2R x * B2R y + B2R z).
Proof.
  intros H.
  assert (F : is_finite x = true /\ is_finite y = true /\ is_finite z = true).
  { destruct x as [sx|sx| |sx mx ex Bx], y as [sy|sy| |sy my ey By], z as [sz|sz| |sz mz ez Bz];
      simpl in H; try discriminate; try (destruct (eqb _ _); discriminate); auto. }
  destruct F as [Fx [Fy Fz]]. split; [exact Fx|]. split; [exact Fy|]. split; [exact Fz|].
  generalize (Bfma_correct prec emax Hp He mode_NE x y z Fx Fy Fz). cbv zeta. simpl round_mode.
  destruct (Rlt_bool _ _).
  - intros [E _]. exact E.
  - intros E. apply overflow_not_finite in E. congruence.
Qed.

Lemma Bfma_exact x y z : is_finite x = true -> is_finite y = true -> is_finite z = true ->
  generic_format radix2 fexp (B2R x * B2R y + B2R z) -> (Rabs (B2R x * B2R y + B2R z) < bpow radix2 emax)%R ->
  is_finite (fma x y z) = true /\ B2R (fma x y z) = (B2R x * B2R y + B2R z)%R.
Proof.
  intros Fx Fy Fz G L. generalize (Bfma_correct prec emax Hp He mode_NE x y z Fx Fy Fz). cbv zeta. simpl round_mode.
  rewrite (round_generic radix2 fexp ZnearestE _ G). rewrite Rlt_bool_true by exact L. tauto.
Qed.

Lemma Bfma_comm x y z : fma x y z = fma y x z.
Proof.
  assert (S : Bfma_szero prec emax mode_NE x y z = Bfma_szero prec emax mode_NE y x z).
  { unfold Bfma_szero. rewrite (xorb_comm (Bsign x)). reflexivity. }
  destruct x as [sx|sx| |sx mx ex Bx], y as [sy|sy| |sy my ey By]; try reflexivity;
    try (unfold Bfma; rewrite ?S, ?(xorb_comm sx sy); reflexivity).
  unfold Bfma. rewrite S.
  assert (M : Fmult (Float radix2 (cond_Zopp sx (Z.pos mx)) ex) (Float radix2 (cond_Zopp sy (Z.pos my)) ey) =
              Fmult (Float radix2 (cond_Zopp sy (Z.pos my)) ey) (Float radix2 (cond_Zopp sx (Z.pos mx)) ex)).
  { unfold Fmult. rewrite Z.mul_comm, Z.add_comm. reflexivity. }
  rewrite M. reflexivity.
Qed.

(** one rounding: relative error and, when the result is tiny, absolute error *)
Lemma rnd_any' (r : R) : exists d e, (Rabs d <= u)%R /\ (Rabs e <= h)%R /\ rnd r = ((r + e) * (1 + d))%R.
Proof.
  destruct (error_N_FLT radix2 (SpecFloat.emin prec emax) prec Hp (fun t => negb (Z.even t)) r) as [d [e [H1 [H2 [H3 H4]]]]].
  assert (Hd : (Rabs d <= u)%R).
  { replace u with (/ 2 * bpow radix2 (- prec + 1))%R; [exact H1|]. exact (uro_u_ro prec). }
  change (round radix2 (FLT_exp (SpecFloat.emin prec emax) prec) ZnearestE r) with (rnd r) in H4.
  exists d, e. split; [exact Hd|]. split; [exact H2|]. rewrite H4.
  apply Rmult_integral in H3. destruct H3 as [-> | ->]; ring.
Qed.

Lemma fma_error x y z : is_finite (fma x y z) = true ->
  exists d e, (Rabs d <= u)%R /\ (Rabs e <= h)%R /\ B2R (fma x y z) = ((B2R z + (B2R x * B2R y + e)) * (1 + d))%R.
Proof.
  intros H. destruct (Bfma_finite x y z H) as [_ [_ [_ E]]]. rewrite E.
  destruct (rnd_any' (B2R x * B2R y + B2R z)) as [d [e [H1 [H2 ->]]]]. exists d, e.
  split; [exact H1|]. split; [exact H2|]. ring.
Qed.

Lemma nn_fma x y : nn prec emax y -> nn prec emax (fma x x y).
Proof.
  intros Hy. destruct (is_finite x) eqn:Fx; [destruct (is_finite y) eqn:Fy|].
  - pose proof (nn_value _ _ y Hy) as Vy.
    assert (Sy : Bsign y = false) by (destruct Hy as [H|H]; [destruct y; discriminate|exact H]).
    pose proof (Bfma_correct prec emax Hp He mode_NE x x y Fx Fx Fy) as C. cbv zeta in C.
    assert (P : (0 <= B2R x * B2R x + B2R y)%R) by (pose proof (Rle_0_sqr (B2R x)) as Q; unfold Rsqr in Q; lra).
    destruct (Rlt_bool _ _) eqn:L in C.
    + destruct C as [_ [_ C]]. right. rewrite C. destruct (Rcompare_spec (B2R x * B2R x + B2R y) 0); [lra| |reflexivity].
      unfold Bfma_szero. rewrite xorb_nilpotent, Sy. reflexivity.
    + apply Bsign_overflow. rewrite C. f_equal. apply Rlt_bool_false. exact P.
  - destruct Hy as [H|H]; destruct y as [[]|[]| |[]]; try discriminate; destruct x as [[]|[]| |[]]; try discriminate;
      try (left; reflexivity); right; reflexivity.
  - destruct Hy as [H|H]; destruct y as [[]|[]| |[]]; try discriminate; destruct x as [[]|[]| |[]]; try discriminate;
      try (left; reflexivity); try (right; reflexivity).
Qed.

(** ** the accumulation [c + a*b] *)
Section Policy.
Variable pol : policy.
Notation K := (fmaS prec emax pol).

Definition acc (c a b : fl) : fl := fadd prec emax pol (Val c) (Prd a b).

Definition fuses : bool := match pol false false true with FuseRight => true | _ => false end.

Lemma acc_cases c a b : acc c a b = if fuses then fma a b c else c ⊕ (a ⊗ b).
Proof. unfold acc, fadd, fuses. simpl. destruct (pol false false true); reflexivity. Qed.

Lemma acc_comm c a b : acc c a b = acc c b a.
Proof. rewrite !acc_cases. destruct fuses; [apply Bfma_comm|]. rewrite (Bmult_comm prec emax a b). reflexivity. Qed.

Lemma acc_finite c a b : is_finite (acc c a b) = true ->
  is_finite c = true /\ is_finite a = true /\ is_finite b = true.
Proof.
  rewrite acc_cases. destruct fuses; intros H.
  - destruct (Bfma_finite _ _ _ H) as [? [? [? _]]]. auto.
  - destruct (Bplus_finite prec emax _ _ H) as [? [H2 _]]. destruct (Bmult_finite prec emax _ _ H2) as [? [? _]]. auto.
Qed.

Lemma acc_error c a b : is_finite (acc c a b) = true ->
  exists d dd e, (Rabs d <= u)%R /\ (Rabs dd <= u)%R /\ (Rabs e <= h)%R /\
    B2R (acc c a b) = ((B2R c + (B2R a * B2R b * (1 + dd) + e)) * (1 + d))%R.
Proof.
  rewrite acc_cases. destruct fuses; intros H.
  - destruct (fma_error _ _ _ H) as [d [e [H1 [H2 ->]]]]. exists d, 0%R, e. rewrite Rabs_R0.
    pose proof (uro_pos prec). repeat split; auto; [lra|]. ring.
  - destruct (Bplus_finite prec emax _ _ H) as [_ [H2 _]].
    destruct (sum_error prec emax _ _ H) as [d [Hd ->]]. destruct (prod_error prec emax _ _ H2) as [dd [e [Hdd [He' ->]]]].
    exists d, dd, e. auto.
Qed.

(** with c = 0 nothing is added: one rounding in both cases *)
Lemma acc_0 a b : is_finite (acc (B754_zero false) a b) = true ->
  B2R (acc (B754_zero false) a b) = rnd (B2R a * B2R b).
Proof.
  rewrite acc_cases. destruct fuses; intros H.
  - destruct (Bfma_finite _ _ _ H) as [_ [_ [_ ->]]]. simpl. rewrite Rplus_0_r. reflexivity.
  - destruct (Bplus_finite prec emax _ _ H) as [_ [H2 _]].
    destruct (Bplus_zero_l prec emax (B754_zero false) (a ⊗ b) eq_refl H2 eq_refl) as [_ ->].
    destruct (Bmult_finite prec emax _ _ H2) as [_ [_ ->]]. reflexivity.
Qed.

Lemma acc_rep c a b zc za zb : rep prec emax zc c -> rep prec emax za a -> rep prec emax zb b ->
  (Z.abs (za * zb) <= 2 ^ prec)%Z -> (Z.abs (zc + za * zb) <= 2 ^ prec)%Z ->
  rep prec emax (zc + za * zb) (acc c a b).
Proof.
  intros Hc Ha Hb H1 H2. rewrite acc_cases. destruct fuses.
  - destruct Hc as [Fc Ec], Ha as [Fa Ea], Hb as [Fb Eb].
    destruct (Bfma_exact a b c Fa Fb Fc) as [F E].
    + rewrite Ea, Eb, Ec, <- mult_IZR, <- plus_IZR, Z.add_comm. apply (small_format prec emax), H2.
    + rewrite Ea, Eb, Ec, <- mult_IZR, <- plus_IZR, Z.add_comm. apply (small_lt_emax prec emax), H2.
    + split; [exact F|]. rewrite E, Ea, Eb, Ec, plus_IZR, mult_IZR. ring.
  - apply rep_add; auto. apply rep_mul; auto.
Qed.

Fixpoint adot (m : nat) (a b : nat -> fl) : fl :=
  match m with
  | O => B754_zero false
  | S m => acc (adot m a b) (a m) (b m)
  end.

Lemma dot_adot m a b : dot K m a b = Ok (adot m a b).
Proof.
  unfold dot. induction m as [|m IH]; [reflexivity|].
  rewrite for_snoc by lia. rewrite IH. reflexivity.
Qed.

Lemma mult_fma n m p (f g : nat -> nat -> fl) :
  mult K n m p (mk n m f) (mk m p g) =
  Ok (mk n p (fun i j => adot m (fun k => f i k) (fun k => g k j))).
Proof. rewrite (mult_tab K). apply tabM_ok. intros i j _ _. apply dot_adot. Qed.

Lemma adot_comm m a b : adot m a b = adot m b a.
Proof. induction m as [|m IH]; [reflexivity|]. simpl. rewrite IH. apply acc_comm. Qed.

Lemma adot_ext m a b a' b' : (forall k, k < m -> a k = a' k /\ b k = b' k) -> adot m a b = adot m a' b'.
Proof.
  induction m as [|m IH]; intros H; [reflexivity|]. simpl. destruct (H m) as [-> ->]; [lia|].
  rewrite IH; [reflexivity|]. intros k Hk. apply H. lia.
Qed.

Theorem adot_error m a b : is_finite (adot m a b) = true ->
  (Rabs (B2R (adot m a b) - rsum m (fun k => B2R (a k) * B2R (b k))) <=
   ((1 + u) ^ m - 1) * rsum m (fun k => Rabs (B2R (a k) * B2R (b k))) +
   INR m * h * (1 + u) ^ (m - 1))%R.
Proof.
  induction m as [|m IH]; intros H.
  - unfold rsum. simpl. rewrite Rminus_0_r, Rabs_R0. lra.
  - simpl adot in H. destruct (acc_finite _ _ _ H) as [F1 _].
    destruct m as [|m].
    + change (adot 1 a b) with (acc (B754_zero false) (a 0) (b 0)) in *. rewrite (acc_0 _ _ H).
      destruct (rnd_any prec emax (B2R (a 0) * B2R (b 0))) as [dd [e [Hdd [He' ->]]]].
      unfold rsum. simpl.
      replace (B2R (a 0%nat) * B2R (b 0%nat) * (1 + dd) + e - (B2R (a 0%nat) * B2R (b 0%nat) + 0))%R with
        (B2R (a 0%nat) * B2R (b 0%nat) * dd + e)%R by ring.
      eapply Rle_trans; [apply Rabs_triang|]. rewrite Rabs_mult.
      assert (Rabs (B2R (a 0%nat) * B2R (b 0%nat)) * Rabs dd <= Rabs (B2R (a 0%nat) * B2R (b 0%nat)) * u)%R.
      { apply Rmult_le_compat_l; [apply Rabs_pos|exact Hdd]. }
      lra.
    + destruct (acc_error _ _ _ H) as [d [dd [e [Hd [Hdd [He' Es]]]]]].
      rewrite !(rsum_S (S m)). rewrite S_INR.
      change (adot (S (S m)) a b) with (acc (adot (S m) a b) (a (S m)) (b (S m))).
      replace (S (S m) - 1) with (S m) by lia. replace (S (S m)) with (S m + 1) by lia.
      apply (step_bound prec emax (B2R (adot (S m) a b)) _ _ (B2R (a (S m)) * B2R (b (S m)) * (1 + dd) + e)%R _ d e dd _ (S m)); auto.
      * apply rsum_abs.
      * apply Rle_refl.
      * lia.
      * apply pos_INR.
Qed.

(** multiplying by the identity *)
Lemma adot_unit m (a : nat -> fl) j : (forall k, k < m -> is_finite (a k) = true) ->
  is_finite (adot m a (fun k => if k =? j then f_of_Z prec emax 1 else B754_zero false)) = true /\
  B2R (adot m a (fun k => if k =? j then f_of_Z prec emax 1 else B754_zero false)) =
  (if j <? m then B2R (a j) else 0%R).
Proof.
  induction m as [|m IH]; intros H; [split; reflexivity|].
  destruct IH as [F E]; [intros; apply H; lia|]. cbn [adot]. rewrite acc_cases.
  destruct (f_of_Z_1 prec emax) as [V1 [F1 _]].
  set (b := if m =? j then _ else _).
  assert (Hb : is_finite b = true /\ B2R b = if m =? j then 1%R else 0%R).
  { unfold b. destruct (m =? j); auto. }
  destruct Hb as [Fb Eb].
  assert (X : (B2R (a m) * B2R b + B2R (adot m a (fun k => if k =? j then f_of_Z prec emax 1 else B754_zero false)))%R =
              (if j <? S m then B2R (a j) else 0%R)).
  { rewrite E, Eb. destruct (Nat.eqb_spec m j) as [->|N].
    - rewrite Nat.ltb_irrefl. destruct (Nat.ltb_spec j (S j)); [ring|lia].
    - destruct (Nat.ltb_spec j m), (Nat.ltb_spec j (S m)); try lia; ring. }
  pose proof (H m ltac:(lia)) as Fm.
  destruct fuses.
  - rewrite <- X. apply Bfma_exact; auto; rewrite X; destruct (j <? S m) eqn:J;
      try apply generic_format_B2R; try apply generic_format_0; try apply abs_lt_emax; rewrite Rabs_R0; apply bpow_gt_0.
  - assert (P : is_finite (a m ⊗ b) = true /\ B2R (a m ⊗ b) = (B2R (a m) * B2R b)%R).
    { destruct (Bmult_exact prec emax (a m) b) as [P1 [P2 _]]; auto; try (rewrite Eb; destruct (m =? j)).
      - rewrite Rmult_1_r. apply generic_format_B2R.
      - rewrite Rmult_0_r. apply generic_format_0.
      - rewrite Rmult_1_r. apply abs_lt_emax.
      - rewrite Rmult_0_r, Rabs_R0. apply bpow_gt_0. }
    destruct P as [P1 P2]. rewrite <- X, Rplus_comm, <- P2. apply Bplus_exact; auto; rewrite P2, Rplus_comm, X;
      destruct (j <? S m); try apply generic_format_B2R; try apply generic_format_0; try apply abs_lt_emax; rewrite Rabs_R0; apply bpow_gt_0.
Qed.

End Policy.
End Fma.
