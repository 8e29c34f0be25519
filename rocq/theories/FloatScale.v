(** * Floating point and powers of two

    [rangeS] is floating point that refuses (undefined) every operation whose
    result is too large for the format or so small that digits are lost: infinite,
    NaN, or not exactly zero but not above the smallest normal number.  On it a
    number may be multiplied by a power of two before or after any operation. *)

From Coq Require Import ZArith Reals Lra Lia Bool List Arith.
From Flocq Require Import IEEE754.BinarySingleNaN Core.Core Relative Plus_error.
From Verif Require Import Base Scalar CFloat Model Float FloatSign Param Graded.

Section Scale.
Variables prec emax : Z.
Context {Hp : Prec_gt_0 prec} {He : Prec_lt_emax prec emax}.
Notation fl := (binary_float prec emax).
Notation fexp := (SpecFloat.fexp prec emax).
Notation rnd := (round radix2 fexp ZnearestE).
Notation F := (floatS prec emax).
Notation "x ⊕ y" := (Bplus mode_NE x y) (at level 50, left associativity).
Notation "x ⊖ y" := (Bminus mode_NE x y) (at level 50, left associativity).
Notation "x ⊗ y" := (Bmult mode_NE x y) (at level 40, left associativity).
Notation "x ⊘ y" := (Bdiv mode_NE x y) (at level 40, left associativity).

(** the smallest normal number 2^(2-emax) *)
Definition min_normal : fl := binary_normalize prec emax Hp He mode_NE 1 (2 - emax) false.
Definition is_zero (x : fl) : bool := match x with B754_zero _ => true | _ => false end.
(** [z] is the result of an operation whose exact result is zero iff [exact0] *)
Definition in_normal (exact0 : bool) (z : fl) : outcome fl :=
  if is_finite z && (exact0 || Bltb min_normal (Babs z)) then Ok z else UB BadConversion.

(** a sum that rounds to zero is zero *)
Definition rangeS : scalar :=
  {| elt := fl; xpr := fl; epsT := fl;
     ld := fun a => a; st := fun a => a; lit := f_of_Z prec emax;
     xadd := fun a b => in_normal (is_zero (a ⊕ b)) (a ⊕ b);
     xsub := fun a b => in_normal (is_zero (a ⊖ b)) (a ⊖ b);
     xmul := fun a b => in_normal (is_zero a || is_zero b) (a ⊗ b);
     xdiv := fun a b => in_normal (is_zero a) (a ⊘ b);
     xneg := fun a => Ok (Bopp a);
     xeq := Beqb; xlt := Bltb;
     xabs := fun a => Ok (Babs a);
     gteps := fun a e => Bltb e a;
     xsqrt := fun a => in_normal (is_zero a) (Bsqrt mode_NE a);
     divsz := fun a n => in_normal (is_zero a) (a ⊘ f_of_Z prec emax n) |}.

Lemma in_normal_inv b z r : in_normal b z = Ok r -> r = z /\ is_finite z = true /\ (b = true \/ Bltb min_normal (Babs z) = true).
Proof.
  unfold in_normal. destruct (is_finite z) eqn:Fz; [|discriminate]. cbn [andb].
  destruct b; cbn [orb]; [|destruct (Bltb min_normal (Babs z)); [|discriminate]]; intros E; injection E as <-; auto.
Qed.

(** what is computed in [rangeS] is what floating point computes *)
Lemma ref_range b z : refines (@eq fl) (in_normal b z) (Ok z).
Proof. unfold in_normal. destruct (is_finite z && _); [|exact I]. exists z. auto. Qed.

Lemma fexp_FLT : fexp = FLT_exp (3 - emax - prec) prec. Proof. reflexivity. Qed.

Lemma bpow_small_lt : (bpow radix2 (2 - emax) < bpow radix2 emax)%R.
Proof. apply bpow_lt. pose proof (prec_pos prec). pose proof (prec_emax prec emax). lia. Qed.

Lemma min_normal_format : generic_format radix2 fexp (bpow radix2 (2 - emax)).
Proof.
  apply generic_format_bpow. rewrite fexp_FLT. unfold FLT_exp. pose proof (prec_pos prec). lia.
Qed.

Lemma min_normal_val : B2R min_normal = bpow radix2 (2 - emax) /\ is_finite min_normal = true.
Proof.
  pose proof (binary_normalize_correct prec emax _ _ mode_NE 1 (2 - emax) false) as H.
  assert (E : F2R (Float radix2 1 (2 - emax)) = bpow radix2 (2 - emax)) by (rewrite F2R_bpow; reflexivity).
  rewrite E in H. cbn [round_mode] in H. rewrite round_generic in H by (auto using min_normal_format with typeclass_instances).
  rewrite Rabs_pos_eq in H by apply bpow_ge_0. rewrite Rlt_bool_true in H by apply bpow_small_lt.
  destruct H as [H1 [H2 _]]. split; assumption.
Qed.

Lemma above_normal z : is_finite z = true -> Bltb min_normal (Babs z) = true -> (bpow radix2 (2 - emax) < Rabs (B2R z))%R.
Proof.
  intros Fz H. destruct min_normal_val as [V Fm]. unfold Bltb, SpecFloat.SFltb in H.
  change (SpecFloat.SFcompare (B2SF min_normal) (B2SF (Babs z))) with (Bcompare min_normal (Babs z)) in H.
  rewrite Bcompare_correct in H by (rewrite ?is_finite_Babs; assumption).
  rewrite V, B2R_Babs in H. destruct (Rcompare_spec (bpow radix2 (2 - emax)) (Rabs (B2R z))); [assumption|discriminate|discriminate].
Qed.

(** a result above the smallest normal number comes from an exact one not below it *)
Lemma exact_normal r : (bpow radix2 (2 - emax) < Rabs (rnd r))%R -> (bpow radix2 (2 - emax) <= Rabs r)%R.
Proof.
  intros H. destruct (Rle_or_lt (bpow radix2 (2 - emax)) (Rabs r)) as [|L]; [assumption|exfalso].
  apply (Rlt_not_le _ _ H). rewrite <- (round_NE_abs radix2 fexp).
  rewrite <- (round_generic radix2 fexp ZnearestE _ min_normal_format) .
  apply round_le; [apply (fexp_valid prec emax)|typeclasses eauto|lra].
Qed.

(** rounding to [prec] digits commutes with powers of two *)
Lemma rnd_FLX_scale r j : round radix2 (FLX_exp prec) ZnearestE (r * bpow radix2 j) =
  (round radix2 (FLX_exp prec) ZnearestE r * bpow radix2 j)%R.
Proof.
  destruct (Req_dec r 0) as [->|Nr]; [rewrite Rmult_0_l, !round_0, Rmult_0_l; auto with typeclass_instances|].
  unfold round, scaled_mantissa, cexp, F2R. cbn [Fnum Fexp]. rewrite mag_mult_bpow by exact Nr.
  unfold FLX_exp. replace (mag radix2 r + j - prec)%Z with (mag radix2 r - prec + j)%Z by lia.
  set (m := (mag radix2 r - prec)%Z). rewrite (bpow_plus radix2 m j), Z.opp_add_distr, (bpow_plus radix2 (- m) (- j)).
  replace (r * bpow radix2 j * (bpow radix2 (- m) * bpow radix2 (- j)))%R with (r * bpow radix2 (- m))%R.
  - ring.
  - rewrite (bpow_opp radix2 j). field. apply Rgt_not_eq, bpow_gt_0.
Qed.

Lemma rnd_scale r j : (bpow radix2 (2 - emax) <= Rabs r)%R -> (bpow radix2 (2 - emax) <= Rabs (r * bpow radix2 j))%R ->
  rnd (r * bpow radix2 j) = (rnd r * bpow radix2 j)%R.
Proof.
  intros H1 H2. rewrite fexp_FLT. rewrite !round_FLT_FLX; [apply rnd_FLX_scale| |];
  replace (3 - emax - prec + prec - 1)%Z with (2 - emax)%Z by lia; assumption.
Qed.

(** *** related numbers: the second is 2^d times the first *)
Definition scaled (d : Z) (x x' : fl) : Prop :=
  is_finite x = true /\ is_finite x' = true /\ B2R x' = (B2R x * bpow radix2 d)%R.
Notation sim := (simg true).

Lemma is_zero_B2R (x : fl) : is_finite x = true -> (is_zero x = true <-> B2R x = 0%R).
Proof.
  destruct x as [s|s| |s m e B]; try discriminate; intros _; cbn [is_zero]; [split; reflexivity|].
  split; [discriminate|]. intros E. exfalso. apply eq_0_F2R in E. destruct s; discriminate.
Qed.

(** the two results round exact results that differ by the power of two *)
Lemma in_normal_scaled d (z z' : fl) b b' r :
  (is_finite z = true -> B2R z = rnd r) ->
  (is_finite z' = true -> B2R z' = rnd (r * bpow radix2 d)) ->
  (is_finite z = true -> b = true -> r = 0%R) -> (is_finite z' = true -> b' = true -> r = 0%R) ->
  sim (scaled d) (in_normal b z) (in_normal b' z').
Proof.
  intros E E' Z1 Z2. destruct (in_normal b z) as [y| | | |] eqn:N; try exact I.
  2,3: unfold in_normal in N; destruct (is_finite z && _); discriminate.
  destruct (in_normal b' z') as [y'| | | |] eqn:N'; cbn; try reflexivity.
  2,3: unfold in_normal in N'; destruct (is_finite z' && _); discriminate.
  apply in_normal_inv in N. destruct N as [-> [Fz G]]. apply in_normal_inv in N'. destruct N' as [-> [Fz' G']].
  specialize (E Fz). specialize (E' Fz'). split; [exact Fz|]. split; [exact Fz'|].
  destruct G as [Gb|G]; [|destruct G' as [Gb|G']].
  - rewrite E, E', (Z1 Fz Gb), Rmult_0_l, (rnd0 prec emax). ring.
  - rewrite E, E', (Z2 Fz' Gb), Rmult_0_l, (rnd0 prec emax). ring.
  - apply above_normal in G; [|exact Fz]. apply above_normal in G'; [|exact Fz'].
    rewrite E in G. rewrite E' in G'. rewrite E, E'. apply rnd_scale; apply exact_normal; assumption.
Qed.

Lemma sc_lit0 d : scaled d (f_of_Z prec emax 0) (f_of_Z prec emax 0).
Proof. rewrite (f_of_Z_0 prec emax). split; [reflexivity|]. split; [reflexivity|]. cbn [B2R]. ring. Qed.
Lemma sc_lit z : (Z.abs z <= 1)%Z -> scaled 0 (f_of_Z prec emax z) (f_of_Z prec emax z).
Proof.
  intros Hz. destruct (f_of_Z_small prec emax z) as [V [Fz _]]; [pose proof (pow_prec_ge2 prec); lia|].
  split; [exact Fz|]. split; [exact Fz|]. cbn [bpow]. ring.
Qed.

Lemma round_plus_0 x y : generic_format radix2 fexp x -> generic_format radix2 fexp y -> rnd (x + y) = 0%R -> (x + y = 0)%R.
Proof.
  intros Fx Fy E. destruct (Req_dec (x + y) 0) as [|N]; [assumption|]. exfalso.
  apply (round_plus_neq_0 radix2 fexp ZnearestE x y Fx Fy N). exact E.
Qed.

Lemma sc_add d a a' b b' : scaled d a a' -> scaled d b b' -> sim (scaled d) (@xadd rangeS a b) (@xadd rangeS a' b').
Proof.
  intros [Fa [Fa' Ea]] [Fb [Fb' Eb]]. cbn [xadd rangeS]. apply (in_normal_scaled d _ _ _ _ (B2R a + B2R b)%R).
  - intros Fz. apply (Bplus_finite prec emax _ _ Fz).
  - intros Fz. destruct (Bplus_finite prec emax _ _ Fz) as [_ [_ ->]]. rewrite Ea, Eb. f_equal. ring.
  - intros Fz Z. apply (is_zero_B2R _ Fz) in Z. destruct (Bplus_finite prec emax _ _ Fz) as [_ [_ E]].
    rewrite E in Z. apply round_plus_0; [apply generic_format_B2R|apply generic_format_B2R|exact Z].
  - intros Fz Z. apply (is_zero_B2R _ Fz) in Z. destruct (Bplus_finite prec emax _ _ Fz) as [_ [_ E]].
    rewrite E in Z. apply round_plus_0 in Z; [|apply generic_format_B2R|apply generic_format_B2R].
    rewrite Ea, Eb, <- Rmult_plus_distr_r in Z. apply Rmult_integral in Z. destruct Z as [Z|Z]; [exact Z|].
    exfalso. exact (Rgt_not_eq _ _ (bpow_gt_0 radix2 d) Z).
Qed.

Lemma sc_opp d a a' : scaled d a a' -> scaled d (Bopp a) (Bopp a').
Proof.
  intros [Fa [Fa' Ea]]. unfold scaled. rewrite !is_finite_Bopp, !B2R_Bopp. split; [exact Fa|]. split; [exact Fa'|].
  rewrite Ea. ring.
Qed.

Lemma sub_add (x y : fl) : x ⊖ y = x ⊕ Bopp y.
Proof. destruct x as [s|s| |s m e B], y as [t|t| |t m' e' B']; reflexivity. Qed.

Lemma sc_sub d a a' b b' : scaled d a a' -> scaled d b b' -> sim (scaled d) (@xsub rangeS a b) (@xsub rangeS a' b').
Proof.
  intros Ha Hb. cbn [xsub rangeS]. rewrite !sub_add. apply (sc_add d a a' (Bopp b) (Bopp b') Ha (sc_opp _ _ _ Hb)).
Qed.

Lemma scaled_zero d x x' : scaled d x x' -> (B2R x = 0%R <-> B2R x' = 0%R).
Proof.
  intros [_ [_ E]]. rewrite E. split; [intros ->; ring|]. intros H. apply Rmult_integral in H. destruct H as [H|H]; [exact H|].
  exfalso. exact (Rgt_not_eq _ _ (bpow_gt_0 radix2 d) H).
Qed.

Lemma sc_mul d e a a' b b' : scaled d a a' -> scaled e b b' -> sim (scaled (d + e)) (@xmul rangeS a b) (@xmul rangeS a' b').
Proof.
  intros Ha Hb. pose proof Ha as [Fa [Fa' Ea]]. pose proof Hb as [Fb [Fb' Eb]]. cbn [xmul rangeS].
  apply (in_normal_scaled (d + e) _ _ _ _ (B2R a * B2R b)%R).
  - intros Fz. apply (Bmult_finite prec emax _ _ Fz).
  - intros Fz. destruct (Bmult_finite prec emax _ _ Fz) as [_ [_ ->]]. rewrite Ea, Eb, bpow_plus. f_equal. ring.
  - intros _ Z. apply orb_true_iff in Z. destruct Z as [Z|Z].
    + apply (is_zero_B2R _ Fa) in Z. rewrite Z. ring.
    + apply (is_zero_B2R _ Fb) in Z. rewrite Z. ring.
  - intros _ Z. apply orb_true_iff in Z. destruct Z as [Z|Z].
    + apply (is_zero_B2R _ Fa') in Z. apply (scaled_zero _ _ _ Ha) in Z. rewrite Z. ring.
    + apply (is_zero_B2R _ Fb') in Z. apply (scaled_zero _ _ _ Hb) in Z. rewrite Z. ring.
Qed.

Lemma sc_div d e a a' b b' : scaled d a a' -> scaled e b b' -> sim (scaled (d - e)) (@xdiv rangeS a b) (@xdiv rangeS a' b').
Proof.
  intros Ha Hb. pose proof Ha as [Fa [Fa' Ea]]. pose proof Hb as [Fb [Fb' Eb]]. cbn [xdiv rangeS].
  apply (in_normal_scaled (d - e) _ _ _ _ (B2R a / B2R b)%R).
  - intros Fz. apply (Bdiv_finite prec emax _ _ Fz Fb).
  - intros Fz. destruct (Bdiv_finite prec emax _ _ Fz Fb') as [_ [Nb ->]]. f_equal. rewrite Ea, Eb in *.
    unfold Z.sub. rewrite bpow_plus, bpow_opp. field.
    split; [apply Rgt_not_eq, bpow_gt_0|]. intros Z. apply Nb. rewrite Z. ring.
  - intros _ Z. apply (is_zero_B2R _ Fa) in Z. rewrite Z. unfold Rdiv. ring.
  - intros _ Z. apply (is_zero_B2R _ Fa') in Z. apply (scaled_zero _ _ _ Ha) in Z. rewrite Z. unfold Rdiv. ring.
Qed.

Lemma sc_divsz d a a' n : scaled d a a' -> sim (scaled d) (@divsz rangeS a n) (@divsz rangeS a' n).
Proof.
  intros Ha. pose proof Ha as [Fa [Fa' Ea]]. cbn [divsz rangeS]. set (y := f_of_Z prec emax n).
  assert (D : is_finite y = true -> forall x, is_finite (x ⊘ y) = true -> B2R y <> 0%R /\ B2R (x ⊘ y) = rnd (B2R x / B2R y)).
  { intros Fy x Fz. destruct (Bdiv_finite prec emax _ _ Fz Fy) as [_ H]. exact H. }
  destruct (is_finite y) eqn:Fy.
  - apply (in_normal_scaled d _ _ _ _ (B2R a / B2R y)%R).
    + intros Fz. apply (D eq_refl _ Fz).
    + intros Fz. destruct (D eq_refl _ Fz) as [Ny ->]. f_equal. rewrite Ea. field. exact Ny.
    + intros _ Z. apply (is_zero_B2R _ Fa) in Z. rewrite Z. unfold Rdiv. ring.
    + intros _ Z. apply (is_zero_B2R _ Fa') in Z. apply (scaled_zero _ _ _ Ha) in Z. rewrite Z. unfold Rdiv. ring.
  - assert (Z0 : forall x : fl, is_finite x = true -> is_finite (x ⊘ y) = true -> is_zero (x ⊘ y) = true).
    { intros x Fx. destruct x as [s|s| |s m e B], y as [t|t| |t m' e' B']; try discriminate; reflexivity. }
    assert (Q : forall x b : fl, is_finite x = true -> forall r, in_normal (is_zero x) (x ⊘ y) = Ok r ->
      is_finite r = true /\ B2R r = 0%R /\ is_zero x = true).
    { intros x _ Fx r E. apply in_normal_inv in E. destruct E as [-> [Fz G]]. pose proof (Z0 x Fx Fz) as Zz.
      split; [exact Fz|]. split; [apply (is_zero_B2R _ Fz), Zz|]. destruct G as [G|G]; [exact G|].
      apply above_normal in G; [|exact Fz]. apply (is_zero_B2R _ Fz) in Zz. rewrite Zz, Rabs_R0 in G.
      exfalso. exact (Rlt_not_le _ _ G (bpow_ge_0 radix2 (2 - emax))). }
    destruct (in_normal (is_zero a) (a ⊘ y)) as [r| | | |] eqn:N; try exact I.
    2,3: unfold in_normal in N; destruct (is_finite (a ⊘ y) && _); discriminate.
    destruct (in_normal (is_zero a') (a' ⊘ y)) as [r'| | | |] eqn:N'; cbn; try reflexivity.
    2,3: unfold in_normal in N'; destruct (is_finite (a' ⊘ y) && _); discriminate.
    apply (Q a a Fa) in N. apply (Q a' a' Fa') in N'. destruct N as [F1 [V1 _]], N' as [F2 [V2 _]].
    split; [exact F1|]. split; [exact F2|]. rewrite V1, V2. ring.
Qed.

Lemma sc_sqrt d a a' : scaled (2 * d) a a' -> sim (scaled d) (@xsqrt rangeS a) (@xsqrt rangeS a').
Proof.
  intros Ha. pose proof Ha as [Fa [Fa' Ea]]. cbn [xsqrt rangeS].
  assert (Q : forall x : fl, B2R (Bsqrt mode_NE x) = rnd (sqrt (B2R x))).
  { intros x. apply (Bsqrt_correct prec emax _ _ mode_NE x). }
  apply (in_normal_scaled d _ _ _ _ (sqrt (B2R a))).
  - intros _. apply Q.
  - intros _. rewrite Q, Ea. f_equal. replace (2 * d)%Z with (d + d)%Z by ring. rewrite bpow_plus.
    rewrite Rmult_comm, sqrt_mult_alt by (apply Rmult_le_pos; apply bpow_ge_0).
    rewrite sqrt_square by apply bpow_ge_0. ring.
  - intros _ Z. apply (is_zero_B2R _ Fa) in Z. rewrite Z. apply sqrt_0.
  - intros _ Z. apply (is_zero_B2R _ Fa') in Z. apply (scaled_zero _ _ _ Ha) in Z. rewrite Z. apply sqrt_0.
Qed.

Lemma sc_neg d a a' : scaled d a a' -> sim (scaled d) (@xneg rangeS a) (@xneg rangeS a').
Proof. apply sc_opp. Qed.

Lemma sc_eq0 d a a' : scaled d a a' -> Beqb a (f_of_Z prec emax 0) = Beqb a' (f_of_Z prec emax 0).
Proof.
  intros Ha. pose proof Ha as [Fa [Fa' Ea]]. rewrite (f_of_Z_0 prec emax). apply eq_true_iff_eq.
  rewrite (Beqb_finite prec emax a (B754_zero false) Fa eq_refl), (Beqb_finite prec emax a' (B754_zero false) Fa' eq_refl).
  apply (scaled_zero _ _ _ Ha).
Qed.

Lemma sc_one : Beqb (f_of_Z prec emax 1) (f_of_Z prec emax 0) = false.
Proof.
  destruct (f_of_Z_1 prec emax) as [V [Fo _]]. rewrite (f_of_Z_0 prec emax).
  destruct (Beqb (f_of_Z prec emax 1) (B754_zero false)) eqn:E; [|reflexivity].
  apply (Beqb_finite prec emax _ (B754_zero false) Fo eq_refl) in E. rewrite V in E. cbn [B2R] in E. lra.
Qed.

Lemma f_of_Z_m1 : f_of_Z prec emax (-1) = Bopp (f_of_Z prec emax 1).
Proof.
  destruct (f_of_Z_small prec emax (-1)) as [V [Fm _]]; [pose proof (pow_prec_ge2 prec); lia|].
  destruct (f_of_Z_1 prec emax) as [V1 [F1 _]].
  destruct (eqz_value prec emax (f_of_Z prec emax (-1)) (Bopp (f_of_Z prec emax 1))) as [E|[s [s' [E _]]]].
  - exact Fm.
  - rewrite is_finite_Bopp. exact F1.
  - rewrite B2R_Bopp, V, V1. ring.
  - exact E.
  - exfalso. rewrite E in V. cbn [B2R] in V. lra.
Qed.
Lemma mul_m1 (f : fl) : f ⊗ f_of_Z prec emax (-1) = Bopp f.
Proof. rewrite f_of_Z_m1, (mul_opp_r prec emax), (Bmult_1_r prec emax). reflexivity. Qed.
Lemma flip_nonzero (f : fl) : Beqb f (f_of_Z prec emax 0) = false ->
  Beqb (f ⊗ f_of_Z prec emax (-1)) (f_of_Z prec emax 0) = false.
Proof. rewrite mul_m1, (Beqb_opp_zero prec emax). exact (fun H => H). Qed.
End Scale.
