(** * Rounding errors relative to the computed result *)

From Coq Require Import ZArith Reals Lra Lia Bool List.
From Flocq Require Import IEEE754.BinarySingleNaN Core.Core Relative Plus_error Div_sqrt_error.
From Verif Require Import Base Scalar CFloat Float.

Section FloatErr.
Variables prec emax : Z.
Context {Hp : Prec_gt_0 prec} {He : Prec_lt_emax prec emax}.
Notation fl := (binary_float prec emax).
Notation emin := (SpecFloat.emin prec emax).
Notation fexp := (SpecFloat.fexp prec emax).
Notation rnd := (round radix2 fexp ZnearestE).
Notation u := (uro prec).
Notation h := (eta prec emax).
Notation "x ⊕ y" := (Bplus mode_NE x y) (at level 50, left associativity).
Notation "x ⊖ y" := (Bminus mode_NE x y) (at level 50, left associativity).
Notation "x ⊗ y" := (Bmult mode_NE x y) (at level 40, left associativity).
Notation "x ⊘ y" := (Bdiv mode_NE x y) (at level 40, left associativity).

Local Instance fexp_valid' : Valid_exp fexp.
Proof. apply FLT_exp_valid. exact Hp. Qed.

Lemma sum_back (x y : fl) : is_finite (x ⊕ y) = true ->
  exists d, (Rabs d <= u)%R /\ (B2R x + B2R y = B2R (x ⊕ y) * (1 + d))%R.
Proof.
  intros H. destruct (Bplus_finite prec emax x y H) as [_ [_ E]]. rewrite E.
  destruct (FLT_plus_error_N_round_ex radix2 emin prec (fun t => negb (Z.even t)) (B2R x) (B2R y)) as [d [H1 H2]];
    [apply generic_format_B2R|apply generic_format_B2R|].
  exists d. split; [rewrite <- (uro_u_ro prec); exact H1|exact H2].
Qed.

Lemma sub_back (x y : fl) : is_finite (x ⊖ y) = true ->
  exists d, (Rabs d <= u)%R /\ (B2R x - B2R y = B2R (x ⊖ y) * (1 + d))%R.
Proof.
  intros H. destruct (Bminus_finite prec emax x y H) as [_ [_ E]]. rewrite E.
  destruct (FLT_plus_error_N_round_ex radix2 emin prec (fun t => negb (Z.even t)) (B2R x) (B2R (Bopp y))) as [d [H1 H2]];
    [apply generic_format_B2R|apply generic_format_B2R|].
  rewrite B2R_Bopp in H2. exists d. split; [rewrite <- (uro_u_ro prec); exact H1|exact H2].
Qed.

Lemma rnd_back (x : R) : (Rabs (rnd x - x) <= u * Rabs (rnd x) + h)%R.
Proof.
  assert (M : Monotone_exp fexp) by (apply FLT_exp_monotone).
  eapply Rle_trans; [apply (error_le_half_ulp_round radix2 fexp)|].
  pose proof (uro_pos prec). pose proof (eta_pos prec emax).
  destruct (Rlt_or_le (Rabs (rnd x)) (bpow radix2 (emin + prec))) as [L|L].
  - change fexp with (FLT_exp emin prec) in L |- *. rewrite (ulp_FLT_small radix2 emin prec _ L).
    pose proof (Rmult_le_pos u (Rabs (round radix2 (FLT_exp emin prec) ZnearestE x)) ltac:(lra) (Rabs_pos _)).
    unfold eta. change (3 - emax - prec)%Z with emin. lra.
  - assert (B : (ulp radix2 fexp (rnd x) <= Rabs (rnd x) * bpow radix2 (1 - prec))%R).
    { apply (ulp_FLT_le radix2 emin prec). eapply Rle_trans; [|exact L]. apply bpow_le. lia. }
    replace (bpow radix2 (1 - prec)) with (2 * u)%R in B.
    + lra.
    + unfold uro. replace (1 - prec)%Z with (1 + - prec)%Z by lia. rewrite bpow_plus. reflexivity.
Qed.

Lemma div_back (x y : fl) : is_finite (x ⊘ y) = true -> is_finite y = true ->
  exists e, (Rabs e <= u * Rabs (B2R (x ⊘ y) * B2R y) + h * Rabs (B2R y))%R /\
    (B2R x = B2R (x ⊘ y) * B2R y + e)%R.
Proof.
  intros H Fy. destruct (Bdiv_finite prec emax x y H Fy) as [Fx [Ny E]]. rewrite E.
  pose proof (rnd_back (B2R x / B2R y)) as B. set (r := rnd (B2R x / B2R y)) in *.
  exists (B2R x - r * B2R y)%R. split; [|ring].
  replace (B2R x - r * B2R y)%R with ((- (r - B2R x / B2R y)) * B2R y)%R by (field; exact Ny).
  rewrite Rabs_mult, Rabs_Ropp, Rabs_mult.
  replace (u * (Rabs r * Rabs (B2R y)) + h * Rabs (B2R y))%R with ((u * Rabs r + h) * Rabs (B2R y))%R by ring.
  apply Rmult_le_compat_r; [apply Rabs_pos|exact B].
Qed.

Lemma sqrt_back (x : fl) (P1 : (1 < prec)%Z) : is_finite (Bsqrt mode_NE x) = true ->
  is_finite x = true /\ (0 <= B2R x)%R /\ (0 <= B2R (Bsqrt mode_NE x))%R /\
  exists d, (Rabs d <= u)%R /\ (sqrt (B2R x) = B2R (Bsqrt mode_NE x) * (1 + d))%R.
Proof.
  intros H. destruct (Bsqrt_correct _ _ Hp He mode_NE x) as [E [F _]]. rewrite F in H.
  assert (Fx : is_finite x = true) by (destruct x as [| | |[]]; try discriminate; reflexivity).
  assert (Px : (0 <= B2R x)%R).
  { destruct x as [| | |[]]; try discriminate; simpl; [lra|]. apply F2R_ge_0. simpl. lia. }
  split; [exact Fx|]. split; [exact Px|]. rewrite E. simpl round_mode. split.
  - rewrite <- (rnd0 prec emax). apply round_le; [exact fexp_valid'|apply valid_rnd_N|apply sqrt_ge_0].
  - destruct (sqrt_error_N_FLT_round_ex radix2 prec (fun t => negb (Z.even t)) P1 emin) with (x := B2R x) as [d [H1 H2]].
    + pose proof (prec_emax prec emax). unfold SpecFloat.emin. lia.
    + apply generic_format_B2R.
    + exists d. split; [|exact H2]. apply Rle_trans with (1 := H1).
      rewrite (uro_u_ro prec). pose proof (uro_pos prec).
      assert (sqrt (1 + 2 * u) <= 1 + u)%R; [|lra].
      rewrite <- (sqrt_square (1 + u)) by lra. apply sqrt_le_1_alt.
      pose proof (Rmult_le_pos u u ltac:(lra) ltac:(lra)). lra.
Qed.

End FloatErr.
