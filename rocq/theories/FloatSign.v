(** * Rounding and signs: operations on negated floating-point numbers *)

From Coq Require Import ZArith Reals Lra Lia Bool List Arith.
Import ListNotations.
From Flocq Require Import IEEE754.BinarySingleNaN Core.Core.
From Verif Require Import Base Scalar CFloat Model Spec Loops Struct Float FloatMx.

Section Sign.
Variables prec emax : Z.
Context {Hp : Prec_gt_0 prec} {He : Prec_lt_emax prec emax}.
Notation fl := (binary_float prec emax).
Notation K := (floatS prec emax).
Notation rnd := (round radix2 (SpecFloat.fexp prec emax) ZnearestE).
Notation "x ⊕ y" := (Bplus mode_NE x y) (at level 50, left associativity).
Notation "x ⊖ y" := (Bminus mode_NE x y) (at level 50, left associativity).
Notation "x ⊗ y" := (Bmult mode_NE x y) (at level 40, left associativity).
Notation "x ⊘ y" := (Bdiv mode_NE x y) (at level 40, left associativity).

(** equal, or both zero (whatever the sign of the zero) *)
Definition eqz (x y : fl) : Prop :=
  x = y \/ exists s s', x = B754_zero s /\ y = B754_zero s'.

Lemma eqz_refl x : eqz x x. Proof. left. reflexivity. Qed.
Lemma eqz_sym x y : eqz x y -> eqz y x.
Proof. intros [->|[s [s' [-> ->]]]]; [left; reflexivity|right; eauto]. Qed.
Lemma eqz_trans x y z : eqz x y -> eqz y z -> eqz x z.
Proof.
  intros [->|[s [s' [-> ->]]]]; [auto|]. intros [<-|[t [t' [E ->]]]]; right; eauto.
Qed.
Lemma eqz_opp x y : eqz x y -> eqz (Bopp x) (Bopp y).
Proof. intros [->|[s [s' [-> ->]]]]; [left; reflexivity|right; simpl; eauto]. Qed.
Lemma eqz_add x x' y y' : eqz x x' -> eqz y y' -> eqz (x ⊕ y) (x' ⊕ y').
Proof.
  intros [->|[s [s' [-> ->]]]] [->|[t [t' [-> ->]]]].
  - left. reflexivity.
  - destruct x' as [s|s| |s m e B]; try (left; reflexivity). right. destruct s, t, t'; simpl; eauto.
  - destruct y' as [t|t| |t m e B]; try (left; reflexivity). right. destruct s, s', t; simpl; eauto.
  - right. destruct s, s', t, t'; simpl; eauto.
Qed.
Lemma eqz_sub x x' y y' : eqz x x' -> eqz y y' -> eqz (x ⊖ y) (x' ⊖ y').
Proof.
  intros [->|[s [s' [-> ->]]]] [->|[t [t' [-> ->]]]].
  - left. reflexivity.
  - destruct x' as [s|s| |s m e B]; try (left; reflexivity). right. destruct s, t, t'; simpl; eauto.
  - destruct y' as [t|t| |t m e B]; try (left; reflexivity). right. destruct s, s', t; simpl; eauto.
  - right. destruct s, s', t, t'; simpl; eauto.
Qed.
Lemma eqz_mul x x' y y' : eqz x x' -> eqz y y' -> eqz (x ⊗ y) (x' ⊗ y').
Proof.
  intros [->|[s [s' [-> ->]]]] [->|[t [t' [-> ->]]]].
  - left. reflexivity.
  - destruct x' as [s|s| |s m e B]; try (left; reflexivity); right; simpl; eauto.
  - destruct y' as [t|t| |t m e B]; try (left; reflexivity); right; simpl; eauto.
  - right. simpl; eauto.
Qed.
(** in a quotient the divisor must be the same *)
Lemma eqz_div x x' y : eqz x x' -> eqz (x ⊘ y) (x' ⊘ y).
Proof.
  intros [->|[s [s' [-> ->]]]]; [left; reflexivity|].
  destruct y as [t|t| |t m e B]; try (left; reflexivity); right; simpl; eauto.
Qed.
Lemma eqz_finite x y : eqz x y -> is_finite x = is_finite y /\ B2R x = B2R y.
Proof. intros [->|[s [s' [-> ->]]]]; split; reflexivity. Qed.

(** ** negated operands *)
Lemma rnd_opp r : rnd (- r) = (- rnd r)%R. Proof. apply round_NE_opp. Qed.

Lemma inf_inj (x y : fl) s : B2SF x = SpecFloat.S754_infinity s -> B2SF y = SpecFloat.S754_infinity s -> x = y.
Proof. intros H1 H2. apply B2SF_inj. congruence. Qed.

Lemma B2SF_Bopp_inf (x : fl) s : B2SF x = SpecFloat.S754_infinity s -> B2SF (Bopp x) = SpecFloat.S754_infinity (negb s).
Proof. destruct x; simpl; intros H; try discriminate. injection H as <-. reflexivity. Qed.

Lemma mul_opp_l x y : Bopp x ⊗ y = Bopp (x ⊗ y).
Proof.
  destruct x as [s|s| |s m e B], y as [t|t| |t m' e' B'];
    try (simpl; try reflexivity; rewrite ?negb_xorb_l; reflexivity).
  set (x := B754_finite s m e B). set (y := B754_finite t m' e' B').
  pose proof (Bmult_correct prec emax _ _ mode_NE x y) as H1.
  pose proof (Bmult_correct prec emax _ _ mode_NE (Bopp x) y) as H2.
  rewrite B2R_Bopp, Ropp_mult_distr_l_reverse in H2. simpl round_mode in *. rewrite rnd_opp, Rabs_Ropp in H2.
  destruct (Rlt_bool _ _).
  - destruct H1 as [R1 [F1 S1]], H2 as [R2 [F2 S2]].
    change (is_finite (x ⊗ y) = true) in F1. change (is_finite (Bopp x ⊗ y) = true) in F2.
    assert (N1 : is_nan (x ⊗ y) = false) by (destruct (x ⊗ y); try discriminate; reflexivity).
    assert (N2 : is_nan (Bopp x ⊗ y) = false) by (destruct (Bopp x ⊗ y); try discriminate; reflexivity).
    apply B2R_Bsign_inj.
    + exact F2.
    + rewrite is_finite_Bopp. exact F1.
    + rewrite B2R_Bopp, R1, R2. reflexivity.
    + rewrite (Bsign_Bopp prec emax (x ⊗ y)) by exact N1. rewrite S1, S2 by assumption.
      rewrite (Bsign_Bopp prec emax x) by reflexivity. apply eq_sym, negb_xorb_l.
  - rewrite (Bsign_Bopp prec emax x) in H2 by reflexivity. unfold binary_overflow in H1, H2. simpl overflow_to_inf in *. cbv iota in *.
    apply (inf_inj _ _ (xorb (negb (Bsign x)) (Bsign y))); [exact H2|].
    rewrite <- negb_xorb_l. apply B2SF_Bopp_inf. exact H1.
Qed.
Lemma mul_opp_r x y : x ⊗ Bopp y = Bopp (x ⊗ y).
Proof. rewrite (Bmult_comm prec emax), mul_opp_l, (Bmult_comm prec emax). reflexivity. Qed.
Lemma mul_opp_opp x y : Bopp x ⊗ Bopp y = x ⊗ y.
Proof. rewrite mul_opp_l, mul_opp_r. apply Bopp_involutive. Qed.

Lemma div_opp_l x y : Bopp x ⊘ y = Bopp (x ⊘ y).
Proof.
  destruct x as [s|s| |s m e B], y as [t|t| |t m' e' B'];
    try (simpl; try reflexivity; rewrite ?negb_xorb_l; reflexivity).
  set (x := B754_finite s m e B). set (y := B754_finite t m' e' B').
  assert (Ny : B2R y <> 0%R).
  { intros H. apply eq_0_F2R in H. destruct t; discriminate. }
  pose proof (Bdiv_correct prec emax _ _ mode_NE x y Ny) as H1.
  pose proof (Bdiv_correct prec emax _ _ mode_NE (Bopp x) y Ny) as H2.
  rewrite B2R_Bopp in H2. unfold Rdiv in H1, H2. rewrite Ropp_mult_distr_l_reverse in H2. simpl round_mode in *.
  rewrite rnd_opp, Rabs_Ropp in H2.
  destruct (Rlt_bool _ _).
  - destruct H1 as [R1 [F1 S1]], H2 as [R2 [F2 S2]].
    change (is_finite x) with true in F1. change (is_finite (Bopp x)) with true in F2.
    assert (N1 : is_nan (x ⊘ y) = false) by (destruct (x ⊘ y); try discriminate; reflexivity).
    assert (N2 : is_nan (Bopp x ⊘ y) = false) by (destruct (Bopp x ⊘ y); try discriminate; reflexivity).
    apply B2R_Bsign_inj.
    + exact F2.
    + rewrite is_finite_Bopp. exact F1.
    + rewrite B2R_Bopp, R1, R2. reflexivity.
    + rewrite (Bsign_Bopp prec emax (x ⊘ y)) by exact N1. rewrite S1, S2 by assumption.
      rewrite (Bsign_Bopp prec emax x) by reflexivity. apply eq_sym, negb_xorb_l.
  - rewrite (Bsign_Bopp prec emax x) in H2 by reflexivity. unfold binary_overflow in H1, H2. simpl overflow_to_inf in *. cbv iota in *.
    apply (inf_inj _ _ (xorb (negb (Bsign x)) (Bsign y))); [exact H2|].
    rewrite <- negb_xorb_l. apply B2SF_Bopp_inf. exact H1.
Qed.
Lemma div_opp_r x y : x ⊘ Bopp y = Bopp (x ⊘ y).
Proof.
  destruct x as [s|s| |s m e B], y as [t|t| |t m' e' B'];
    try (simpl; try reflexivity; rewrite ?negb_xorb_r; reflexivity).
  set (x := B754_finite s m e B). set (y := B754_finite t m' e' B').
  assert (Ny : B2R y <> 0%R).
  { intros H. apply eq_0_F2R in H. destruct t; discriminate. }
  assert (Ny' : B2R (Bopp y) <> 0%R) by (rewrite B2R_Bopp; lra).
  pose proof (Bdiv_correct prec emax _ _ mode_NE x y Ny) as H1.
  pose proof (Bdiv_correct prec emax _ _ mode_NE x (Bopp y) Ny') as H2.
  rewrite B2R_Bopp in H2. replace (B2R x / - B2R y)%R with (- (B2R x / B2R y))%R in H2 by (field; exact Ny).
  simpl round_mode in *. rewrite rnd_opp, Rabs_Ropp in H2.
  destruct (Rlt_bool _ _).
  - destruct H1 as [R1 [F1 S1]], H2 as [R2 [F2 S2]].
    change (is_finite x) with true in F1, F2.
    assert (N1 : is_nan (x ⊘ y) = false) by (destruct (x ⊘ y); try discriminate; reflexivity).
    assert (N2 : is_nan (x ⊘ Bopp y) = false) by (destruct (x ⊘ Bopp y); try discriminate; reflexivity).
    apply B2R_Bsign_inj.
    + exact F2.
    + rewrite is_finite_Bopp. exact F1.
    + rewrite B2R_Bopp, R1, R2. reflexivity.
    + rewrite (Bsign_Bopp prec emax (x ⊘ y)) by exact N1. rewrite S1, S2 by assumption.
      rewrite (Bsign_Bopp prec emax y) by reflexivity. apply eq_sym, negb_xorb_r.
  - rewrite (Bsign_Bopp prec emax y) in H2 by reflexivity. unfold binary_overflow in H1, H2. simpl overflow_to_inf in *. cbv iota in *.
    apply (inf_inj _ _ (xorb (Bsign x) (negb (Bsign y)))); [exact H2|].
    rewrite <- negb_xorb_r. apply B2SF_Bopp_inf. exact H1.
Qed.
Lemma div_opp_opp x y : Bopp x ⊘ Bopp y = x ⊘ y.
Proof. rewrite div_opp_l, div_opp_r. apply Bopp_involutive. Qed.

(** finite with the same value *)
Lemma eqz_value x y : is_finite x = true -> is_finite y = true -> B2R x = B2R y -> eqz x y.
Proof.
  intros Fx Fy E. destruct x as [s|s| |s m e B]; try discriminate; destruct y as [t|t| |t m' e' B']; try discriminate.
  - right. eauto.
  - exfalso. symmetry in E. apply eq_0_F2R in E. destruct t; discriminate.
  - exfalso. apply eq_0_F2R in E. destruct s; discriminate.
  - left. apply B2R_inj; [reflexivity|reflexivity|exact E].
Qed.

Lemma add_opp_opp x y : eqz (Bopp x ⊕ Bopp y) (Bopp (x ⊕ y)).
Proof.
  destruct (is_finite x) eqn:Fx.
  - destruct (is_finite y) eqn:Fy.
    + pose proof (Bplus_correct prec emax _ _ mode_NE x y Fx Fy) as H1.
      pose proof (Bplus_correct prec emax _ _ mode_NE (Bopp x) (Bopp y)) as H2.
      rewrite !is_finite_Bopp, !B2R_Bopp in H2. specialize (H2 Fx Fy).
      replace (- B2R x + - B2R y)%R with (- (B2R x + B2R y))%R in H2 by ring.
      simpl round_mode in *. rewrite rnd_opp, Rabs_Ropp in H2. destruct (Rlt_bool _ _).
      * destruct H1 as [R1 [F1 _]], H2 as [R2 [F2 _]]. apply eqz_value; [exact F2|rewrite is_finite_Bopp; exact F1|].
        rewrite B2R_Bopp, R1, R2. reflexivity.
      * left. destruct H1 as [H1 _], H2 as [H2 _]. unfold binary_overflow in H1, H2. simpl overflow_to_inf in *. cbv iota in *.
        rewrite (Bsign_Bopp prec emax x) in H2 by (destruct x; try discriminate; reflexivity).
        apply (inf_inj _ _ (negb (Bsign x))); [exact H2|apply B2SF_Bopp_inf; exact H1].
    + destruct y as [t|t| |t m' e' B']; try discriminate; destruct x as [s|s| |s m e B]; try discriminate; left; reflexivity.
  - destruct x as [s|s| |s m e B]; try discriminate; destruct y as [t|t| |t m' e' B']; try (left; reflexivity).
    left. destruct s, t; reflexivity.
Qed.

(** x - y is x + (-y) *)
Lemma sub_add_opp x y : x ⊖ y = x ⊕ Bopp y.
Proof. destruct x as [s|s| |s m e B], y as [t|t| |t m' e' B']; reflexivity. Qed.
Lemma sub_opp_opp x y : eqz (Bopp x ⊖ Bopp y) (Bopp (x ⊖ y)).
Proof. rewrite !sub_add_opp. apply add_opp_opp. Qed.
Lemma sub_swap x y : eqz (x ⊖ y) (Bopp (y ⊖ x)).
Proof.
  rewrite !sub_add_opp. eapply eqz_trans; [|apply add_opp_opp]. rewrite Bopp_involutive.
  rewrite (Bplus_comm prec emax (Bopp y) x). apply eqz_refl.
Qed.

(** an operand that is equal up to the sign of zero, squared *)
Lemma eqz_square x y : eqz x y -> x ⊗ x = y ⊗ y.
Proof. intros [->|[s [s' [-> ->]]]]; [reflexivity|]. destruct s, s'; reflexivity. Qed.
Lemma eqz_square_opp x y : eqz x (Bopp y) -> x ⊗ x = y ⊗ y.
Proof. intros H. rewrite (eqz_square _ _ H). apply mul_opp_opp. Qed.

Lemma eqz_Beqb x y z : eqz x y -> Beqb x z = Beqb y z.
Proof. intros [->|[s [s' [-> ->]]]]; [reflexivity|]. destruct z as [t|[]| |[]], s, s'; reflexivity. Qed.
Lemma Beqb_opp_zero x : Beqb (Bopp x) (f_of_Z prec emax 0) = Beqb x (f_of_Z prec emax 0).
Proof. rewrite (f_of_Z_0 prec emax). destruct x as [[]|[]| |[]]; reflexivity. Qed.
(** a quotient does not see the sign of a zero unless it is the divisor *)
Lemma eqz_nonzero x y : eqz x y -> Beqb x (f_of_Z prec emax 0) = false -> x = y.
Proof. intros [->|[s [s' [-> ->]]]]; [reflexivity|]. rewrite (f_of_Z_0 prec emax). destruct s; discriminate. Qed.
End Sign.
