(** * Facts about conversions between formats and wide evaluation *)

From Coq Require Import ZArith Reals Lra Lia Bool List Arith.
Import ListNotations.
From Flocq Require Import IEEE754.BinarySingleNaN Core.Core Relative Plus_error Double_rounding.
From Verif Require Import Base Scalar CFloat CExt Model Spec Loops Struct LURec Float FloatMx FloatPoly.
Local Open Scope nat_scope.

(** ** The datum that a real number rounds to *)
Section Rounds.
Variables prec emax : Z.
Context {Hp : Prec_gt_0 prec} {He : Prec_lt_emax prec emax}.
Notation fl := (binary_float prec emax).
Notation rnd := (round radix2 (SpecFloat.fexp prec emax) ZnearestE).

(** the sign of r; s if r is 0 *)
Definition rsign (r : R) (s : bool) : bool :=
  match Rcompare r 0 with Eq => s | Lt => true | Gt => false end.

Definition rounds (r : R) (s : bool) (x : fl) : Prop :=
  if Rlt_bool (Rabs (rnd r)) (bpow radix2 emax)
  then B2R x = rnd r /\ is_finite x = true /\ Bsign x = rsign r s
  else x = B754_infinity (rsign r s).

Lemma rounds_unique r s x y : rounds r s x -> rounds r s y -> x = y.
Proof.
  unfold rounds. destruct (Rlt_bool _ _); [|congruence].
  intros (V & F & S) (V' & F' & S'). apply B2R_Bsign_inj; congruence.
Qed.

Lemma overflow_inf (x : fl) s : B2SF x = binary_overflow prec emax mode_NE s -> x = B754_infinity s.
Proof. destruct x as [|s'| |]; cbn; congruence. Qed.

Lemma rsign_sign (x : fl) : is_finite x = true -> rsign (B2R x) (Bsign x) = Bsign x.
Proof.
  destruct x as [s| | |s m e H]; try discriminate; intros _; unfold rsign.
  - simpl. rewrite Rcompare_Eq; reflexivity.
  - change (B2R (B754_finite s m e H)) with (F2R (Float radix2 (SpecFloat.cond_Zopp s (Zpos m)) e)).
    rewrite <- (F2R_0 radix2 e), Rcompare_F2R. destruct s; reflexivity.
Qed.

Lemma rsign_le (x : fl) : is_finite x = true -> if Bsign x then (B2R x <= 0)%R else (0 <= B2R x)%R.
Proof.
  intros F. pose proof (rsign_sign x F) as H. unfold rsign in H.
  destruct (Rcompare_spec (B2R x) 0), (Bsign x); try discriminate; lra.
Qed.

Lemma rnd_neq0 r : (bpow radix2 emax <= Rabs (rnd r))%R -> r <> 0%R.
Proof.
  intros H E. rewrite E, round_0, Rabs_R0 in H by auto with typeclass_instances.
  pose proof (bpow_gt_0 radix2 emax). lra.
Qed.

Lemma Bplus_rounds (x y : fl) : is_finite x = true -> is_finite y = true ->
  rounds (B2R x + B2R y) (Bsign x && Bsign y) (Bplus mode_NE x y).
Proof.
  intros Fx Fy. generalize (Bplus_correct prec emax _ _ mode_NE x y Fx Fy). unfold rounds. cbn [round_mode].
  destruct (Rlt_bool_spec (Rabs (rnd (B2R x + B2R y))) (bpow radix2 emax)) as [L|L]; [tauto|].
  intros [E S]. apply overflow_inf in E. rewrite E. f_equal.
  pose proof (rsign_le x Fx) as Lx. pose proof (rsign_le y Fy) as Ly. rewrite <- S in Ly.
  pose proof (rnd_neq0 _ L). unfold rsign.
  destruct (Bsign x), (Rcompare_spec (B2R x + B2R y) 0); try reflexivity; lra.
Qed.

Lemma Bminus_rounds (x y : fl) : is_finite x = true -> is_finite y = true ->
  rounds (B2R x - B2R y) (Bsign x && negb (Bsign y)) (Bminus mode_NE x y).
Proof.
  intros Fx Fy. generalize (Bminus_correct prec emax _ _ mode_NE x y Fx Fy). unfold rounds. cbn [round_mode].
  destruct (Rlt_bool_spec (Rabs (rnd (B2R x - B2R y))) (bpow radix2 emax)) as [L|L]; [tauto|].
  intros [E S]. apply overflow_inf in E. rewrite E. f_equal.
  pose proof (rsign_le x Fx) as Lx. pose proof (rsign_le y Fy) as Ly. rewrite S in Lx |- *.
  pose proof (rnd_neq0 _ L). unfold rsign.
  destruct (Bsign y), (Rcompare_spec (B2R x - B2R y) 0); try reflexivity; cbn [negb] in *; lra.
Qed.

Lemma xsign_prod (x y : fl) : is_finite x = true -> is_finite y = true -> forall r : R,
  ((B2R x * B2R y = 0 <-> r = 0) -> (0 < B2R x * B2R y <-> 0 < r) -> rsign r (xorb (Bsign x) (Bsign y)) = xorb (Bsign x) (Bsign y))%R.
Proof.
  intros Fx Fy r Z P. pose proof (rsign_le x Fx) as Lx. pose proof (rsign_le y Fy) as Ly. unfold rsign.
  destruct (Rcompare_spec r 0) as [L|E|L]; [|reflexivity|]; destruct (Bsign x), (Bsign y); cbn [xorb]; try reflexivity; exfalso.
  - pose proof (Rmult_le_pos (- B2R x) (- B2R y)). destruct (Req_dec (B2R x * B2R y) 0); [apply Z in H0; lra|].
    assert (0 < B2R x * B2R y)%R by lra. apply P in H1. lra.
  - pose proof (Rmult_le_pos (B2R x) (B2R y)). destruct (Req_dec (B2R x * B2R y) 0); [apply Z in H0; lra|].
    assert (0 < B2R x * B2R y)%R by lra. apply P in H1. lra.
  - pose proof (Rmult_le_pos (- B2R x) (B2R y)). apply P in L. lra.
  - pose proof (Rmult_le_pos (B2R x) (- B2R y)). apply P in L. lra.
Qed.

Lemma Bmult_rounds (x y : fl) : is_finite x = true -> is_finite y = true ->
  rounds (B2R x * B2R y) (xorb (Bsign x) (Bsign y)) (Bmult mode_NE x y).
Proof.
  intros Fx Fy. generalize (Bmult_correct prec emax _ _ mode_NE x y). unfold rounds. cbn [round_mode].
  rewrite (xsign_prod x y Fx Fy) by reflexivity.
  destruct (Rlt_bool_spec (Rabs (rnd (B2R x * B2R y))) (bpow radix2 emax)) as [L|L].
  - rewrite Fx, Fy. intros (V & F & S). cbn [andb] in F. repeat split; auto. apply S.
    destruct (Bmult mode_NE x y); try reflexivity; discriminate F.
  - apply overflow_inf.
Qed.

Lemma Bdiv_rounds (x y : fl) : is_finite x = true -> is_finite y = true -> B2R y <> 0%R ->
  rounds (B2R x / B2R y) (xorb (Bsign x) (Bsign y)) (Bdiv mode_NE x y).
Proof.
  intros Fx Fy N. generalize (Bdiv_correct prec emax _ _ mode_NE x y N). unfold rounds. cbn [round_mode].
  rewrite (xsign_prod x y Fx Fy).
  - destruct (Rlt_bool_spec (Rabs (rnd (B2R x / B2R y))) (bpow radix2 emax)) as [L|L].
    + rewrite Fx. intros (V & F & S). repeat split; auto. apply S.
      destruct (Bdiv mode_NE x y); try reflexivity; discriminate F.
    + apply overflow_inf.
  - split; intros H.
    + apply Rmult_integral in H. destruct H as [H|H]; [|contradiction]. rewrite H. unfold Rdiv. ring.
    + replace (B2R x) with (B2R x / B2R y * B2R y)%R by (field; exact N). rewrite H. ring.
  - assert (Q : (0 < / B2R y * / B2R y)%R) by (apply Rsqr_pos_lt, Rinv_neq_0_compat, N).
    assert (Q' : (0 < B2R y * B2R y)%R) by (apply Rsqr_pos_lt, N).
    split; intros H.
    + replace (B2R x / B2R y)%R with (B2R x * B2R y * (/ B2R y * / B2R y))%R by (field; exact N).
      apply Rmult_lt_0_compat; assumption.
    + replace (B2R x * B2R y)%R with (B2R x / B2R y * (B2R y * B2R y))%R by (field; exact N).
      apply Rmult_lt_0_compat; assumption.
Qed.
End Rounds.

(** ** Conversions *)
Section Conv.
Variables p e p' e' : Z.
Context {Hp : Prec_gt_0 p} {He : Prec_lt_emax p e}.
Context {Hp' : Prec_gt_0 p'} {He' : Prec_lt_emax p' e'}.
Notation conv := (fconv p e p' e').
Notation rnd := (round radix2 (SpecFloat.fexp p' e') ZnearestE).

Lemma fconv_rounds (x : binary_float p e) : is_finite x = true -> rounds p' e' (B2R x) (Bsign x) (conv x).
Proof.
  intros F. unfold rounds. rewrite (rsign_sign p e x F). destruct x as [s| | |s m ex H]; try discriminate.
  - cbn [B2R fconv Bsign is_finite]. rewrite round_0, Rabs_R0, Rlt_bool_true; auto with typeclass_instances.
    apply bpow_gt_0.
  - generalize (binary_normalize_correct p' e' _ _ mode_NE (SpecFloat.cond_Zopp s (Zpos m)) ex s). cbv zeta.
    change (F2R _) with (B2R (B754_finite s m ex H)). cbn [round_mode].
    pose proof (rsign_sign p e (B754_finite s m ex H) eq_refl) as S. unfold rsign in S.
    cbn [Bsign] in *. unfold fconv.
    destruct (Rlt_bool _ _).
    + rewrite S. tauto.
    + intros E. apply overflow_inf in E. rewrite E. f_equal. refine (eq_trans _ S).
      destruct (Rcompare_spec (B2R (B754_finite s m ex H)) 0) as [L|E'|L];
        [apply Rlt_bool_true; exact L| |apply Rlt_bool_false; apply Rlt_le; exact L].
      clear S E; destruct s; [|apply Rlt_bool_false; apply Req_le; exact (eq_sym E')].
      exfalso. assert (B2R (B754_finite true m ex H) < 0)%R; [|lra]. apply F2R_lt_0. reflexivity.
Qed.

Lemma fconv_sign (x : binary_float p e) : Bsign (conv x) = Bsign x.
Proof.
  destruct (is_finite x) eqn:F; [|destruct x; try discriminate; reflexivity].
  pose proof (fconv_rounds x F) as H. unfold rounds in H. rewrite (rsign_sign p e x F) in H.
  destruct (Rlt_bool _ _); [tauto|rewrite H; reflexivity].
Qed.

Lemma fconv_nan (x : binary_float p e) : is_nan (conv x) = is_nan x.
Proof.
  destruct (is_finite x) eqn:F; [|destruct x; try discriminate; reflexivity].
  pose proof (fconv_rounds x F) as H. unfold rounds in H.
  destruct (Rlt_bool _ _).
  - destruct H as (_ & H & _). destruct x; try discriminate; destruct (conv _); try discriminate; reflexivity.
  - rewrite H. destruct x; try discriminate; reflexivity.
Qed.

Lemma fconv_finite (x : binary_float p e) : is_finite (conv x) = true -> is_finite x = true /\ B2R (conv x) = rnd (B2R x).
Proof.
  intros Fc. destruct (is_finite x) eqn:F; [|destruct x; discriminate].
  split; [reflexivity|]. pose proof (fconv_rounds x F) as H. unfold rounds in H. destruct (Rlt_bool _ _); [tauto|].
  rewrite H in Fc. discriminate.
Qed.

(** a representable value is converted exactly *)
Lemma fconv_exact (x : binary_float p e) : is_finite x = true ->
  generic_format radix2 (SpecFloat.fexp p' e') (B2R x) -> (Rabs (B2R x) < bpow radix2 e')%R ->
  is_finite (conv x) = true /\ B2R (conv x) = B2R x.
Proof.
  intros F G L. pose proof (fconv_rounds x F) as H. unfold rounds in H.
  rewrite round_generic in H by auto with typeclass_instances. rewrite Rlt_bool_true in H by exact L. tauto.
Qed.
End Conv.

(** ** Wide evaluation *)

(** the evaluation format holds every product and quotient of two elements
    without overflow or underflow *)
Definition wider (prec emax xprec xemax : Z) : Prop :=
  (prec <= xprec /\ 2 * emax + prec + 2 <= xemax /\
   SpecFloat.emin xprec xemax <= 2 * SpecFloat.emin prec emax /\
   SpecFloat.emin xprec xemax <= SpecFloat.emin prec emax - prec - 2)%Z.

Section Wide.
Variables prec emax xprec xemax : Z.
Context {Hp : Prec_gt_0 prec} {He : Prec_lt_emax prec emax}.
Context {Hxp : Prec_gt_0 xprec} {Hxe : Prec_lt_emax xprec xemax}.
Hypothesis W : wider prec emax xprec xemax.
Notation fl := (binary_float prec emax).
Notation xfl := (binary_float xprec xemax).
Notation widen := (widen prec emax xprec xemax).
Notation narrow := (narrow prec emax xprec xemax).
Notation K := (extS prec emax xprec xemax).
Notation K0 := (floatS prec emax).
Notation emin := (SpecFloat.emin prec emax).
Notation xemin := (SpecFloat.emin xprec xemax).
Notation fexp := (SpecFloat.fexp prec emax).
Notation xfexp := (SpecFloat.fexp xprec xemax).
Notation rnd := (round radix2 fexp ZnearestE).
Notation xrnd := (round radix2 xfexp ZnearestE).
Notation u := (uro prec).
Notation v := (uro xprec).
Notation h := (eta prec emax).
Notation "x ⊕ y" := (Bplus mode_NE x y) (at level 50, left associativity).
Notation "x ⊖ y" := (Bminus mode_NE x y) (at level 50, left associativity).
Notation "x ⊗ y" := (Bmult mode_NE x y) (at level 40, left associativity).
Notation "x ⊘ y" := (Bdiv mode_NE x y) (at level 40, left associativity).
Implicit Types (x y a b c : fl) (X Y : xfl).

Local Instance fexp_valid : Valid_exp fexp.
Proof. apply FLT_exp_valid. exact Hp. Qed.
Local Instance xfexp_valid : Valid_exp xfexp.
Proof. apply FLT_exp_valid. exact Hxp. Qed.

Lemma wide_format (r : R) : generic_format radix2 fexp r -> generic_format radix2 xfexp r.
Proof.
  intros G. destruct W as (W1 & _ & _ & W4). pose proof (prec_pos prec).
  apply generic_inclusion_mag with (fexp1 := fexp); [|exact G].
  intros _. unfold SpecFloat.fexp. lia.
Qed.

Lemma emax_le : (emax + 1 <= xemax - 1)%Z.
Proof. destruct W as (_ & W2 & _). pose proof (prec_pos prec). pose proof (prec_emax prec emax). lia. Qed.

Lemma wide_range x : (Rabs (B2R x) < bpow radix2 xemax)%R.
Proof.
  eapply Rlt_le_trans; [apply abs_lt_emax|]. apply bpow_le. pose proof emax_le. lia.
Qed.

Lemma widen_fin x : is_finite x = true -> is_finite (widen x) = true /\ B2R (widen x) = B2R x.
Proof.
  intros F. apply fconv_exact; auto; [apply wide_format, generic_format_B2R|apply wide_range].
Qed.

Lemma widen_finite x : is_finite (widen x) = is_finite x.
Proof.
  destruct (is_finite x) eqn:F; [apply widen_fin, F|]. destruct x; try discriminate; reflexivity.
Qed.

Lemma widen_R x : B2R (widen x) = B2R x.
Proof.
  destruct (is_finite x) eqn:F; [apply widen_fin, F|]. destruct x; try discriminate; reflexivity.
Qed.

Lemma widen_sign x : Bsign (widen x) = Bsign x.
Proof. apply fconv_sign. Qed.

Lemma narrow_widen x : narrow (widen x) = x.
Proof.
  destruct (is_finite x) eqn:F; [|destruct x; try discriminate; reflexivity].
  destruct (widen_fin x F) as [F1 E1].
  destruct (fconv_exact xprec xemax prec emax (widen x) F1) as [F2 E2]; [rewrite E1; apply generic_format_B2R|rewrite E1; apply abs_lt_emax|].
  apply B2R_Bsign_inj; auto.
  - exact (eq_trans E2 E1).
  - unfold CExt.narrow. rewrite fconv_sign. apply fconv_sign.
Qed.

(** a finite non-zero element stays one *)
Lemma widen_shape s m e H : exists m' e' H', widen (B754_finite s m e H) = B754_finite s m' e' H'.
Proof.
  destruct (widen_fin (B754_finite s m e H) eq_refl) as [F E].
  pose proof (widen_sign (B754_finite s m e H)) as S. cbn [Bsign] in S.
  assert (N : B2R (B754_finite s m e H) <> 0%R).
  { destruct s; [apply Rlt_not_eq, F2R_lt_0; reflexivity|apply Rgt_not_eq, F2R_gt_0; reflexivity]. }
  destruct (widen (B754_finite s m e H)) as [s'| | |s' m' e' H']; try discriminate.
  - exfalso. apply N. rewrite <- E. reflexivity.
  - cbn [Bsign] in S. subst s'. eauto.
Qed.

(** ** rounding once or twice *)
Lemma narrow_rounds (r : R) s X : rounds xprec xemax r s X -> (Rabs r <= bpow radix2 (xemax - 1))%R ->
  rnd (xrnd r) = rnd r -> rounds prec emax r s (narrow X).
Proof.
  intros H L E. unfold rounds in H. rewrite Rlt_bool_true in H.
  - destruct H as (V & F & S). pose proof (fconv_rounds xprec xemax prec emax X F) as Q. unfold rounds in Q |- *.
    rewrite (rsign_sign xprec xemax X F), V, E, S in Q. exact Q.
  - apply Rle_lt_trans with (bpow radix2 (xemax - 1)); [|apply bpow_lt; lia].
    apply abs_round_le_generic; auto with typeclass_instances.
    apply generic_format_bpow. unfold SpecFloat.fexp. pose proof (prec_pos xprec). pose proof (prec_emax xprec xemax).
    unfold SpecFloat.emin. lia.
Qed.

Lemma sum_range x y : (Rabs (B2R x + B2R y) <= bpow radix2 (xemax - 1))%R.
Proof.
  eapply Rle_trans; [apply Rabs_triang|]. pose proof (abs_lt_emax prec emax x). pose proof (abs_lt_emax prec emax y).
  apply Rle_trans with (bpow radix2 (emax + 1)); [rewrite bpow_plus; simpl (bpow radix2 1); lra|].
  apply bpow_le. apply emax_le.
Qed.

Lemma prod_range x y : (Rabs (B2R x * B2R y) <= bpow radix2 (2 * emax))%R.
Proof.
  rewrite Rabs_mult. replace (2 * emax)%Z with (emax + emax)%Z by lia. rewrite bpow_plus.
  apply Rmult_le_compat; try apply Rabs_pos; apply Rlt_le, abs_lt_emax.
Qed.

Lemma quot_range x y : is_finite y = true -> B2R y <> 0%R -> (Rabs (B2R x / B2R y) <= bpow radix2 (xemax - 1))%R.
Proof.
  intros F N. assert (L : (bpow radix2 emin <= Rabs (B2R y))%R).
  { destruct y as [s| | |s m e H]; try discriminate; [contradiction N; reflexivity|].
    unfold B2R. rewrite <- F2R_Zabs, abs_cond_Zopp. simpl Z.abs. unfold F2R. simpl.
    assert (Le : (emin <= e)%Z).
    { pose proof H as G. unfold SpecFloat.bounded in G. apply andb_prop in G. destruct G as [G _]. apply Zeq_bool_eq in G.
      rewrite <- G. unfold SpecFloat.fexp. lia. }
    apply Rle_trans with (1 * bpow radix2 e)%R; [rewrite Rmult_1_l; apply bpow_le, Le|].
    apply Rmult_le_compat_r; [apply bpow_ge_0|]. apply IZR_le. lia. }
  unfold Rdiv. rewrite Rabs_mult, Rabs_inv.
  apply Rle_trans with (bpow radix2 emax * bpow radix2 (- emin))%R.
  - apply Rmult_le_compat; try apply Rabs_pos; [|apply Rlt_le, abs_lt_emax|].
    + apply Rlt_le, Rinv_0_lt_compat, Rabs_pos_lt, N.
    + rewrite bpow_opp. apply Rinv_le; [apply bpow_gt_0|exact L].
  - rewrite <- bpow_plus. apply bpow_le. destruct W as (_ & W2 & _). unfold SpecFloat.emin. lia.
Qed.

Section Twice.
Hypothesis D : (2 * prec + 2 <= xprec)%Z.

Lemma add_once x y : narrow (widen x ⊕ widen y) = x ⊕ y.
Proof.
  destruct (is_finite x && is_finite y) eqn:F.
  - apply andb_prop in F. destruct F as [Fx Fy].
    eapply rounds_unique; [|apply (Bplus_rounds prec emax); assumption].
    pose proof (Bplus_rounds xprec xemax (widen x) (widen y)) as H.
    rewrite !widen_finite, !widen_R, !widen_sign in H.
    apply narrow_rounds; [apply H; assumption|apply sum_range|].
    destruct W as (W1 & W2 & W3 & W4). pose proof (prec_pos prec).
    apply (round_round_plus_FLT radix2 emin prec xemin xprec); try lia; apply FLT_format_generic; auto; apply generic_format_B2R.
  - destruct x as [s|s| |s m e H], y as [s'|s'| |s' m' e' H']; try discriminate; try reflexivity;
      try (destruct (widen_shape s m e H) as (? & ? & ? & ->)); try (destruct (widen_shape s' m' e' H') as (? & ? & ? & ->));
      cbn; try reflexivity; destruct (Bool.eqb s s'); reflexivity.
Qed.

Lemma sub_once x y : narrow (widen x ⊖ widen y) = x ⊖ y.
Proof.
  destruct (is_finite x && is_finite y) eqn:F.
  - apply andb_prop in F. destruct F as [Fx Fy].
    eapply rounds_unique; [|apply (Bminus_rounds prec emax); assumption].
    pose proof (Bminus_rounds xprec xemax (widen x) (widen y)) as H.
    rewrite !widen_finite, !widen_R, !widen_sign in H.
    apply narrow_rounds; [apply H; assumption| |].
    { pose proof (sum_range x (Bopp y)) as R. rewrite B2R_Bopp in R. exact R. }
    destruct W as (W1 & W2 & W3 & W4). pose proof (prec_pos prec).
    apply (round_round_minus_FLT radix2 emin prec xemin xprec); try lia; apply FLT_format_generic; auto; apply generic_format_B2R.
  - destruct x as [s|s| |s m e H], y as [s'|s'| |s' m' e' H']; try discriminate; try reflexivity;
      try (destruct (widen_shape s m e H) as (? & ? & ? & ->)); try (destruct (widen_shape s' m' e' H') as (? & ? & ? & ->));
      cbn; try reflexivity; destruct (Bool.eqb s (negb s')); reflexivity.
Qed.

Lemma mul_once x y : narrow (widen x ⊗ widen y) = x ⊗ y.
Proof.
  destruct (is_finite x && is_finite y) eqn:F.
  - apply andb_prop in F. destruct F as [Fx Fy].
    eapply rounds_unique; [|apply (Bmult_rounds prec emax); assumption].
    pose proof (Bmult_rounds xprec xemax (widen x) (widen y)) as H.
    rewrite !widen_finite, !widen_R, !widen_sign in H.
    destruct W as (W1 & W2 & W3 & W4). pose proof (prec_pos prec).
    apply narrow_rounds; [apply H; assumption| |].
    { eapply Rle_trans; [apply prod_range|]. apply bpow_le. lia. }
    apply (round_round_mult_FLT radix2 ZnearestE emin prec xemin xprec); try lia; apply FLT_format_generic; auto; apply generic_format_B2R.
  - destruct x as [s|s| |s m e H], y as [s'|s'| |s' m' e' H']; try discriminate; try reflexivity;
      try (destruct (widen_shape s m e H) as (? & ? & ? & ->)); try (destruct (widen_shape s' m' e' H') as (? & ? & ? & ->));
      cbn; reflexivity.
Qed.

Lemma div_once x y : narrow (widen x ⊘ widen y) = x ⊘ y.
Proof.
  destruct (is_finite x && is_finite y && negb (Req_bool (B2R y) 0)) eqn:F.
  - apply andb_prop in F. destruct F as [F N]. apply andb_prop in F. destruct F as [Fx Fy].
    assert (N' : B2R y <> 0%R) by (destruct (Req_bool_spec (B2R y) 0); [discriminate|assumption]).
    eapply rounds_unique; [|apply (Bdiv_rounds prec emax); assumption].
    pose proof (Bdiv_rounds xprec xemax (widen x) (widen y)) as H.
    rewrite !widen_finite, !widen_R, !widen_sign in H.
    destruct W as (W1 & W2 & W3 & W4). pose proof (prec_pos prec).
    apply narrow_rounds; [apply H; assumption|apply quot_range; assumption|].
    apply (round_round_div_FLT radix2 emin prec xemin xprec); try lia; auto; try (apply FLT_format_generic; auto; apply generic_format_B2R).
    exists 1%Z. reflexivity.
  - destruct x as [s|s| |s m e H], y as [s'|s'| |s' m' e' H']; try reflexivity;
      try (destruct (widen_shape s m e H) as (? & ? & ? & ->)); try (destruct (widen_shape s' m' e' H') as (? & ? & ? & ->));
      try (cbn; reflexivity).
    + exfalso. cbn [is_finite andb] in F. destruct (Req_bool_spec (B2R (B754_finite s' m' e' H')) 0) as [E|E]; [|discriminate].
      revert E. destruct s'; [apply Rlt_not_eq, F2R_lt_0; reflexivity|apply Rgt_not_eq, F2R_gt_0; reflexivity].
Qed.

End Twice.

(** ** errors of wide evaluation: relative only *)
Lemma emin_neg : (emin <= 0)%Z.
Proof. unfold SpecFloat.emin. pose proof (prec_pos prec). pose proof (prec_emax prec emax). lia. Qed.

Lemma xrnd_rel (r : R) : multiple (2 * emin) r -> exists d, (Rabs d <= v)%R /\ xrnd r = (r * (1 + d))%R.
Proof.
  intros M. assert (E : (Rabs (xrnd r - r) <= v * Rabs r)%R).
  { apply (rnd_multiple xprec xemax (2 * emin)); [apply W|exact M]. }
  destruct (Req_dec r 0) as [-> | N].
  - exists 0%R. rewrite Rabs_R0, round_0 by auto with typeclass_instances. split; [apply Rlt_le, (uro_pos xprec)|ring].
  - exists ((xrnd r - r) / r)%R. split; [|field; exact N].
    unfold Rdiv. rewrite Rabs_mult, Rabs_inv. apply Rmult_le_reg_r with (Rabs r); [apply Rabs_pos_lt, N|].
    rewrite Rmult_assoc, Rinv_l, Rmult_1_r; [exact E|]. apply Rabs_no_R0, N.
Qed.

Lemma narrow_finite X : is_finite (narrow X) = true -> is_finite X = true /\ B2R (narrow X) = rnd (B2R X).
Proof. apply fconv_finite. Qed.

Lemma narrow_0 X : is_finite X = true -> B2R X = 0%R -> is_finite (narrow X) = true /\ B2R (narrow X) = 0%R.
Proof.
  intros F E. destruct (fconv_exact xprec xemax prec emax X F) as [F' E']; rewrite E in *;
    [apply generic_format_0|rewrite Rabs_R0; apply bpow_gt_0|]. split; assumption.
Qed.

(** the product of two finite elements is finite in the evaluation format *)
Lemma xprod_finite a b : is_finite a = true -> is_finite b = true ->
  is_finite (widen a ⊗ widen b) = true /\ B2R (widen a ⊗ widen b) = xrnd (B2R a * B2R b).
Proof.
  intros Fa Fb. pose proof (Bmult_rounds xprec xemax (widen a) (widen b)) as H.
  rewrite !widen_finite, !widen_R in H. specialize (H Fa Fb). unfold rounds in H. rewrite Rlt_bool_true in H; [tauto|].
  apply Rle_lt_trans with (bpow radix2 (2 * emax)).
  - destruct W as (_ & W2 & _). pose proof (prec_pos prec). pose proof (prec_emax prec emax).
    apply abs_round_le_generic; auto with typeclass_instances; [|apply prod_range].
    apply generic_format_bpow. unfold SpecFloat.fexp, SpecFloat.emin. pose proof (prec_pos xprec). pose proof (prec_emax xprec xemax). lia.
  - apply bpow_lt. destruct W as (_ & W2 & _). pose proof (prec_pos prec). lia.
Qed.

Lemma xprod_multiple a b : multiple (2 * emin) (B2R a * B2R b).
Proof. replace (2 * emin)%Z with (emin + emin)%Z by lia. apply multiple_mul; apply multiple_B2R. Qed.

Definition acc c a b : fl := narrow (widen c ⊕ (widen a ⊗ widen b)).

Lemma acc_comm c a b : acc c a b = acc c b a.
Proof. unfold acc. rewrite (Bmult_comm xprec xemax (widen a)). reflexivity. Qed.

Lemma acc_finite c a b : is_finite (acc c a b) = true ->
  is_finite c = true /\ is_finite a = true /\ is_finite b = true.
Proof.
  intros F. destruct (narrow_finite _ F) as [F1 _]. destruct (Bplus_finite xprec xemax _ _ F1) as [F2 [F3 _]].
  destruct (Bmult_finite xprec xemax _ _ F3) as [F4 [F5 _]]. rewrite widen_finite in *. auto.
Qed.

Lemma acc_error c a b : is_finite (acc c a b) = true ->
  exists d dv dd e, (Rabs d <= u)%R /\ (Rabs dv <= v)%R /\ (Rabs dd <= v)%R /\ (Rabs e <= h)%R /\
    (B2R c = 0%R -> dv = 0%R) /\
    B2R (acc c a b) = ((B2R c + B2R a * B2R b * (1 + dd)) * (1 + dv) * (1 + d) + e)%R.
Proof.
  intros F. destruct (acc_finite _ _ _ F) as [Fc [Fa Fb]].
  destruct (narrow_finite _ F) as [F1 E1]. destruct (Bplus_finite xprec xemax _ _ F1) as [_ [F3 E2]].
  destruct (xprod_finite a b Fa Fb) as [_ E3]. fold (acc c a b) in E1. rewrite E1, E2.
  destruct (xrnd_rel _ (xprod_multiple a b)) as [dd [Hdd Ed]].
  assert (M : multiple (2 * emin) (B2R c + xrnd (B2R a * B2R b))).
  { apply multiple_add.
    - apply (multiple_le emin); [pose proof emin_neg; lia|apply multiple_B2R].
    - apply (multiple_rnd xprec xemax). apply xprod_multiple. }
  destruct (rnd_any prec emax (xrnd (B2R (widen c) + B2R (widen a ⊗ widen b)))) as [d [e [Hd [He' ->]]]].
  rewrite widen_R, E3.
  destruct (Req_dec (B2R c) 0) as [Z|Z].
  - exists d, 0%R, dd, e. rewrite Rabs_R0. pose proof (uro_pos xprec). repeat split; auto; [lra|].
    rewrite Z, !Rplus_0_l, round_generic; auto with typeclass_instances; [|apply generic_format_round; auto with typeclass_instances].
    rewrite Ed. ring.
  - destruct (xrnd_rel _ M) as [dv [Hdv ->]]. exists d, dv, dd, e. repeat split; auto; [contradiction|]. rewrite Ed. ring.
Qed.

Fixpoint edot (m : nat) (a b : nat -> fl) : fl :=
  match m with
  | O => B754_zero false
  | S m => acc (edot m a b) (a m) (b m)
  end.

Lemma dot_edot m (a b : nat -> fl) : dot K m a b = Ok (edot m a b).
Proof.
  unfold dot. induction m as [|m IH]; [reflexivity|].
  rewrite for_snoc by lia. rewrite IH. reflexivity.
Qed.

Lemma mult_ext n m p (f g : nat -> nat -> fl) :
  mult K n m p (mk n m f) (mk m p g) =
  Ok (mk n p (fun i j => edot m (fun k => f i k) (fun k => g k j))).
Proof. rewrite (mult_tab K). apply tabM_ok. intros i j _ _. apply dot_edot. Qed.

Lemma edot_comm m (a b : nat -> fl) : edot m a b = edot m b a.
Proof. induction m as [|m IH]; [reflexivity|]. simpl. rewrite IH. apply acc_comm. Qed.

Lemma edot_ext m (a b a' b' : nat -> fl) : (forall k, k < m -> a k = a' k /\ b k = b' k) -> edot m a b = edot m a' b'.
Proof.
  induction m as [|m IH]; intros H; [reflexivity|]. simpl. destruct (H m) as [-> ->]; [lia|].
  rewrite IH; [reflexivity|]. intros k Hk. apply H. lia.
Qed.

Notation V := ((1 + u) * (1 + v))%R.

Lemma V_ge1 : (1 <= 1 + v <= V)%R.
Proof. pose proof (uro_pos prec). pose proof (uro_pos xprec). split; [lra|]. nra. Qed.

Lemma abs_1d d w : (Rabs d <= w)%R -> (Rabs (1 + d) <= 1 + w)%R.
Proof. intros H. eapply Rle_trans; [apply Rabs_triang|]. rewrite Rabs_R1. lra. Qed.

Lemma acc_step (c s S0 ab d dv dd e N T A : R) : (Rabs d <= u)%R -> (Rabs dv <= v)%R -> (Rabs dd <= v)%R -> (Rabs e <= h)%R ->
  (Rabs s <= S0)%R -> (Rabs ab <= A)%R -> (V <= T)%R -> (0 <= N)%R ->
  (Rabs (c - s) <= (T - 1) * S0 + N)%R ->
  (Rabs ((c + ab * (1 + dd)) * (1 + dv) * (1 + d) + e - (s + ab)) <= (T * V - 1) * (S0 + A) + (N * V + h))%R.
Proof.
  intros Hd Hdv Hdd He' Hs Ha HT HN Hc. pose proof V_ge1 as [V1 V2].
  replace ((c + ab * (1 + dd)) * (1 + dv) * (1 + d) + e - (s + ab))%R with
    ((c - s) * ((1 + dv) * (1 + d)) + s * ((1 + dv) * (1 + d) - 1) + ab * ((1 + dd) * ((1 + dv) * (1 + d)) - 1) + e)%R by ring.
  pose proof (abs_1d _ _ Hd) as Bd. pose proof (abs_1d _ _ Hdv) as Bv. pose proof (abs_1d _ _ Hdd) as Bdd.
  assert (B1 : (Rabs ((1 + dv) * (1 + d)) <= V)%R).
  { rewrite Rabs_mult, (Rmult_comm (1 + u)). apply Rmult_le_compat; auto using Rabs_pos. }
  assert (Q : (Rabs (dv + d + dv * d) <= V - 1)%R).
  { eapply Rle_trans; [apply Rabs_triang|]. rewrite Rabs_mult. assert (Rabs (dv + d) <= v + u)%R by (eapply Rle_trans; [apply Rabs_triang|]; lra).
    assert (Rabs dv * Rabs d <= v * u)%R by (apply Rmult_le_compat; auto using Rabs_pos). lra. }
  assert (B2 : (Rabs ((1 + dv) * (1 + d) - 1) <= V - 1)%R) by (replace ((1 + dv) * (1 + d) - 1)%R with (dv + d + dv * d)%R by ring; exact Q).
  assert (B3 : (Rabs ((1 + dd) * ((1 + dv) * (1 + d)) - 1) <= T * V - 1)%R).
  { replace ((1 + dd) * ((1 + dv) * (1 + d)) - 1)%R with (dd * ((1 + dv) * (1 + d)) + ((1 + dv) * (1 + d) - 1))%R by ring.
    eapply Rle_trans; [apply Rabs_triang|]. rewrite Rabs_mult.
    assert (Rabs dd * Rabs ((1 + dv) * (1 + d)) <= v * V)%R by (apply Rmult_le_compat; auto using Rabs_pos).
    assert ((1 + v) * V <= T * V)%R by (apply Rmult_le_compat_r; lra). lra. }
  assert (T1 : (Rabs ((c - s) * ((1 + dv) * (1 + d))) <= ((T - 1) * S0 + N) * V)%R).
  { rewrite Rabs_mult. apply Rmult_le_compat; auto using Rabs_pos. }
  assert (T2 : (Rabs (s * ((1 + dv) * (1 + d) - 1)) <= S0 * (V - 1))%R).
  { rewrite Rabs_mult. apply Rmult_le_compat; auto using Rabs_pos. }
  assert (T3 : (Rabs (ab * ((1 + dd) * ((1 + dv) * (1 + d)) - 1)) <= A * (T * V - 1))%R).
  { rewrite Rabs_mult. apply Rmult_le_compat; auto using Rabs_pos. }
  eapply Rle_trans; [apply Rabs_triang|]. eapply Rle_trans; [apply Rplus_le_compat_r, Rabs_triang|].
  eapply Rle_trans; [apply Rplus_le_compat_r, Rplus_le_compat_r, Rabs_triang|].
  apply Rle_trans with (((T - 1) * S0 + N) * V + S0 * (V - 1) + A * (T * V - 1) + h)%R; [lra|]. right. ring.
Qed.

Theorem edot_error m (a b : nat -> fl) : is_finite (edot m a b) = true ->
  (Rabs (B2R (edot m a b) - rsum m (fun k => B2R (a k) * B2R (b k))) <=
   (V ^ m - 1) * rsum m (fun k => Rabs (B2R (a k) * B2R (b k))) + INR m * h * V ^ (m - 1))%R.
Proof.
  pose proof V_ge1 as [V1 V2]. pose proof (eta_pos prec emax) as Hh.
  induction m as [|m IH]; intros F.
  - unfold rsum. simpl. rewrite Rminus_0_r, Rabs_R0. lra.
  - change (edot (S m) a b) with (acc (edot m a b) (a m) (b m)) in *.
    destruct (acc_finite _ _ _ F) as [Fc _]. destruct (acc_error _ _ _ F) as (d & dv & dd & e & Hd & Hdv & Hdd & He' & Z & E).
    destruct m as [|m].
    + simpl edot in E. rewrite (Z eq_refl) in E. simpl B2R in E at 2.
      unfold rsum. simpl. rewrite E, Rplus_0_l.
      set (x := (B2R (a 0%nat) * B2R (b 0%nat))%R).
      replace (x * (1 + dd) * (1 + 0) * (1 + d) + e - (x + 0))%R with (x * ((1 + dd) * (1 + d) - 1) + e)%R by ring.
      eapply Rle_trans; [apply Rabs_triang|]. rewrite Rabs_mult.
      assert (Q : (Rabs ((1 + dd) * (1 + d) - 1) <= V - 1)%R).
      { replace ((1 + dd) * (1 + d) - 1)%R with (dd + d + dd * d)%R by ring.
        eapply Rle_trans; [apply Rabs_triang|]. rewrite Rabs_mult. assert (Rabs (dd + d) <= v + u)%R by (eapply Rle_trans; [apply Rabs_triang|]; lra).
        assert (Rabs dd * Rabs d <= v * u)%R by (apply Rmult_le_compat; auto using Rabs_pos). lra. }
      assert (Rabs x * Rabs ((1 + dd) * (1 + d) - 1) <= Rabs x * (V - 1))%R by (apply Rmult_le_compat_l; [apply Rabs_pos|exact Q]).
      lra.
    + specialize (IH Fc). rewrite !(rsum_S (S m)), E.
      replace (S (S m) - 1) with (S m) by lia. replace (S m - 1) with m in IH by lia.
      assert (P : (V <= V ^ S m)%R). { rewrite <- (pow_1 V) at 1. apply Rle_pow; [lra|lia]. }
      eapply Rle_trans.
      * eapply (acc_step _ _ _ _ _ _ _ _ (INR (S m) * h * V ^ m) (V ^ S m)); try eassumption.
        -- apply rsum_abs.
        -- apply Rle_refl.
        -- apply Rmult_le_pos; [apply Rmult_le_pos; [apply pos_INR|exact Hh]|]. apply pow_le. lra.
      * assert (E1 : (V ^ S m * V = V ^ S (S m))%R) by (simpl; ring). rewrite E1.
        apply Rplus_le_compat_l. rewrite (S_INR (S m)).
        replace (INR (S m) * h * V ^ m * V)%R with (INR (S m) * h * V ^ S m)%R by (simpl; ring).
        assert (h <= h * V ^ S m)%R by (rewrite <- (Rmult_1_r h) at 1; apply Rmult_le_compat_l; lra). lra.
Qed.

(** multiplying by the identity *)
Lemma widen_1 : widen (f_of_Z prec emax 1) = f_of_Z xprec xemax 1.
Proof.
  destruct (f_of_Z_1 prec emax) as [V1 [F1 S1]]. destruct (f_of_Z_1 xprec xemax) as [V2 [F2 S2]].
  apply B2R_Bsign_inj; rewrite ?widen_finite, ?widen_R, ?widen_sign; congruence.
Qed.

Lemma narrow_lit z : (Z.abs z <= 1)%Z -> narrow (f_of_Z xprec xemax z) = f_of_Z prec emax z.
Proof.
  intros H. pose proof (pow_prec_ge2 prec). pose proof (pow_prec_ge2 xprec).
  destruct (f_of_Z_small prec emax z) as [V1 [F1 S1]]; [lia|]. destruct (f_of_Z_small xprec xemax z) as [V2 [F2 S2]]; [lia|].
  destruct (fconv_exact xprec xemax prec emax _ F2) as [F3 V3].
  - rewrite V2, <- V1. apply generic_format_B2R.
  - rewrite V2, <- V1. apply abs_lt_emax.
  - apply B2R_Bsign_inj; auto; [exact (eq_trans V3 (eq_trans V2 (eq_sym V1)))|].
    unfold CExt.narrow. rewrite fconv_sign. congruence.
Qed.

Lemma edot_unit m (a : nat -> fl) j : (forall k, k < m -> is_finite (a k) = true) ->
  is_finite (edot m a (fun k => if k =? j then f_of_Z prec emax 1 else B754_zero false)) = true /\
  B2R (edot m a (fun k => if k =? j then f_of_Z prec emax 1 else B754_zero false)) =
  (if j <? m then B2R (a j) else 0%R).
Proof.
  induction m as [|m IH]; intros H; [split; reflexivity|].
  destruct IH as [F E]; [intros; apply H; lia|]. cbn [edot].
  destruct (f_of_Z_1 prec emax) as [V1 [F1 _]].
  set (b := if m =? j then _ else _). set (c := edot m a _) in *.
  assert (Hb : is_finite b = true /\ B2R b = if m =? j then 1%R else 0%R).
  { unfold b. destruct (m =? j); auto. }
  destruct Hb as [Fb Eb].
  assert (X : (B2R c + B2R (a m) * B2R b)%R = (if j <? S m then B2R (a j) else 0%R)).
  { rewrite E, Eb. destruct (Nat.eqb_spec m j) as [-> | N].
    - rewrite Nat.ltb_irrefl. destruct (Nat.ltb_spec j (S j)); [ring|lia].
    - destruct (Nat.ltb_spec j m), (Nat.ltb_spec j (S m)); try lia; ring. }
  pose proof (H m ltac:(lia)) as Fm.
  assert (G : generic_format radix2 fexp (if j <? S m then B2R (a j) else 0%R)).
  { destruct (j <? S m); [apply generic_format_B2R|apply generic_format_0]. }
  assert (L : (Rabs (if j <? S m then B2R (a j) else 0) < bpow radix2 emax)%R).
  { destruct (j <? S m); [apply abs_lt_emax|rewrite Rabs_R0; apply bpow_gt_0]. }
  destruct (xprod_finite (a m) b Fm Fb) as [F3 E3].
  assert (E3' : B2R (widen (a m) ⊗ widen b) = (B2R (a m) * B2R b)%R).
  { rewrite E3. apply round_generic; auto with typeclass_instances. apply wide_format. rewrite Eb.
    destruct (m =? j); rewrite ?Rmult_1_r, ?Rmult_0_r; [apply generic_format_B2R|apply generic_format_0]. }
  destruct (Bplus_exact xprec xemax (widen c) (widen (a m) ⊗ widen b)) as [F4 E4]; auto;
    try (rewrite widen_R, E3', X); [rewrite widen_finite; exact F|apply wide_format, G| |].
  { eapply Rlt_trans; [exact L|]. apply bpow_lt. pose proof emax_le. lia. }
  rewrite widen_R, E3', X in E4.
  destruct (fconv_exact xprec xemax prec emax _ F4) as [F5 E5]; rewrite ?E4; auto.
  rewrite E4 in E5. split; [exact F5|exact E5].
Qed.
End Wide.
