(** * Facts about IEEE-754 operations *)

From Coq Require Import ZArith Reals Lra Lia Bool List.
From Flocq Require Import IEEE754.BinarySingleNaN Core.Core Relative Plus_error.
From Verif Require Import Base Scalar CFloat.

Section Float.
Variables prec emax : Z.
Context {Hp : Prec_gt_0 prec} {He : Prec_lt_emax prec emax}.
Notation fl := (binary_float prec emax).
Notation emin := (SpecFloat.emin prec emax).
Notation fexp := (SpecFloat.fexp prec emax).
Notation rnd := (round radix2 fexp ZnearestE).
Notation "x ⊕ y" := (Bplus mode_NE x y) (at level 50, left associativity).
Notation "x ⊖ y" := (Bminus mode_NE x y) (at level 50, left associativity).
Notation "x ⊗ y" := (Bmult mode_NE x y) (at level 40, left associativity).
Notation "x ⊘ y" := (Bdiv mode_NE x y) (at level 40, left associativity).

(** unit roundoff 2^-prec and half the smallest positive number *)
Definition uro : R := bpow radix2 (- prec).
Definition eta : R := (/ 2 * bpow radix2 (3 - emax - prec))%R.

Lemma uro_u_ro : u_ro radix2 prec = uro.
Proof.
  unfold u_ro, uro. rewrite bpow_plus. change (bpow radix2 1) with 2%R.
  field.
Qed.

Lemma uro_pos : (0 < uro)%R. Proof. apply bpow_gt_0. Qed.
Lemma eta_pos : (0 <= eta)%R.
Proof. unfold eta. apply Rmult_le_pos; [lra|apply bpow_ge_0]. Qed.

Lemma prec_pos : (0 < prec)%Z. Proof. exact Hp. Qed.
Lemma prec_emax : (prec < emax)%Z. Proof. exact He. Qed.

Local Instance fexp_valid : Valid_exp fexp.
Proof. apply FLT_exp_valid. exact Hp. Qed.

Lemma rnd0 : rnd 0 = 0%R. Proof. apply round_0. apply valid_rnd_N. Qed.

Lemma rnd_B2R (x : fl) : rnd (B2R x) = B2R x.
Proof. apply round_generic; [apply valid_rnd_N|apply generic_format_B2R]. Qed.

Lemma abs_lt_emax (x : fl) : (Rabs (B2R x) < bpow radix2 emax)%R.
Proof. apply abs_B2R_lt_emax. Qed.

(** ** literals *)

Lemma f_of_Z_0 : f_of_Z prec emax 0 = B754_zero false.
Proof. reflexivity. Qed.

Lemma small_format (z : Z) : (Z.abs z <= 2 ^ prec)%Z ->
  generic_format radix2 fexp (IZR z).
Proof.
  intros Hz. pose proof prec_pos as Pp. pose proof prec_emax as Pe.
  replace (IZR z) with (F2R (Float radix2 z 0)) by (unfold F2R; simpl; ring).
  destruct (Z.eq_dec (Z.abs z) (2 ^ prec)) as [E|N].
  - assert (F2R (Float radix2 z 0) = bpow radix2 prec \/ F2R (Float radix2 z 0) = - bpow radix2 prec)%R as D.
    { unfold F2R; simpl. rewrite Rmult_1_r. rewrite <- IZR_Zpower by lia. change (Zpower radix2 prec) with (2 ^ prec)%Z.
      destruct (Z.abs_spec z) as [[_ A]|[_ A]]; [left|right]; [congruence|].
      rewrite <- opp_IZR. f_equal. lia. }
    assert (G : generic_format radix2 fexp (bpow radix2 prec)).
    { apply generic_format_bpow. unfold SpecFloat.fexp, SpecFloat.emin. lia. }
    destruct D as [-> | ->]; [exact G|apply generic_format_opp; exact G].
  - apply generic_format_F2R. intros Nz. unfold cexp, SpecFloat.fexp, SpecFloat.emin.
    assert (mag radix2 (F2R (Float radix2 z 0)) <= prec)%Z.
    { apply mag_le_bpow; [exact (F2R_neq_0 radix2 (Float radix2 z 0) Nz)|].
      unfold F2R; simpl. rewrite Rmult_1_r, <- abs_IZR, <- IZR_Zpower by lia.
      apply IZR_lt. change (Zpower radix2 prec) with (2 ^ prec)%Z. lia. }
    lia.
Qed.

(** integers up to 2^prec are represented exactly *)
Lemma f_of_Z_small (z : Z) : (Z.abs z <= 2 ^ prec)%Z ->
  B2R (f_of_Z prec emax z) = IZR z /\ is_finite (f_of_Z prec emax z) = true /\
  Bsign (f_of_Z prec emax z) = (z <? 0)%Z.
Proof.
  intros Hz. pose proof prec_pos as Pp. pose proof prec_emax as Pe.
  generalize (binary_normalize_correct prec emax Hp He mode_NE z 0 false).
  replace (F2R (Float radix2 z 0)) with (IZR z) by (unfold F2R; simpl; ring).
  cbv zeta. simpl round_mode. rewrite (round_generic radix2 fexp ZnearestE (IZR z)) by (apply small_format; exact Hz).
  rewrite Rlt_bool_true.
  - intros [E1 [E2 E3]]. split; [exact E1|]. split; [exact E2|]. unfold f_of_Z. rewrite E3.
    destruct (Rcompare_spec (IZR z) 0) as [L|L|L]; symmetry.
    + apply Z.ltb_lt. apply lt_IZR. exact L.
    + apply Z.ltb_ge. apply eq_IZR in L. lia.
    + apply Z.ltb_ge. apply lt_IZR in L. lia.
  - rewrite <- abs_IZR. apply Rle_lt_trans with (IZR (2 ^ prec)); [apply IZR_le; exact Hz|].
    change (2 ^ prec)%Z with (Zpower radix2 prec). rewrite IZR_Zpower by lia. apply bpow_lt. lia.
Qed.

Lemma pow_prec_ge2 : (2 <= 2 ^ prec)%Z.
Proof. pose proof prec_pos. change 2%Z with (2 ^ 1)%Z at 1. apply Z.pow_le_mono_r; lia. Qed.

Lemma f_of_Z_1 : B2R (f_of_Z prec emax 1) = 1%R /\ is_finite (f_of_Z prec emax 1) = true /\
  Bsign (f_of_Z prec emax 1) = false.
Proof. apply (f_of_Z_small 1). pose proof pow_prec_ge2. simpl; lia. Qed.

(** ** finite results *)

Lemma overflow_not_finite (x : fl) s : B2SF x = binary_overflow prec emax mode_NE s -> is_finite x = false.
Proof. destruct x; simpl; try reflexivity; discriminate. Qed.

Lemma Bplus_finite (x y : fl) : is_finite (x ⊕ y) = true ->
  is_finite x = true /\ is_finite y = true /\ B2R (x ⊕ y) = rnd (B2R x + B2R y).
Proof.
  intros H.
  assert (Fx : is_finite x = true).
  { destruct x as [s|s| |s m e B]; try reflexivity; exfalso.
    - destruct y as [s'|s'| |s' m' e' B']; simpl in H; try discriminate.
      destruct (eqb s s'); discriminate.
    - destruct y; discriminate. }
  assert (Fy : is_finite y = true).
  { destruct y as [s|s| |s m e B]; try reflexivity; exfalso; destruct x; simpl in *; discriminate. }
  split; [exact Fx|]. split; [exact Fy|].
  generalize (Bplus_correct _ _ Hp He mode_NE x y Fx Fy). simpl round_mode.
  destruct (Rlt_bool _ _).
  - intros [E _]. exact E.
  - intros [E _]. apply overflow_not_finite in E. congruence.
Qed.

Lemma Bminus_finite (x y : fl) : is_finite (x ⊖ y) = true ->
  is_finite x = true /\ is_finite y = true /\ B2R (x ⊖ y) = rnd (B2R x - B2R y).
Proof.
  intros H.
  assert (Fx : is_finite x = true).
  { destruct x as [s|s| |s m e B]; try reflexivity; exfalso.
    - destruct y as [s'|s'| |s' m' e' B']; simpl in H; try discriminate.
      unfold Bminus in H. simpl in H. destruct (eqb s (negb s')); discriminate.
    - destruct y; discriminate. }
  assert (Fy : is_finite y = true).
  { destruct y as [s|s| |s m e B]; try reflexivity; exfalso; destruct x; simpl in *; discriminate. }
  split; [exact Fx|]. split; [exact Fy|].
  generalize (Bminus_correct _ _ Hp He mode_NE x y Fx Fy). simpl round_mode.
  destruct (Rlt_bool _ _).
  - intros [E _]. exact E.
  - intros [E _]. apply overflow_not_finite in E. congruence.
Qed.

Lemma Bmult_finite (x y : fl) : is_finite (x ⊗ y) = true ->
  is_finite x = true /\ is_finite y = true /\ B2R (x ⊗ y) = rnd (B2R x * B2R y).
Proof.
  intros H. generalize (Bmult_correct _ _ Hp He mode_NE x y). simpl round_mode.
  destruct (Rlt_bool _ _).
  - intros [E [E2 _]]. rewrite H in E2. symmetry in E2. apply andb_prop in E2. tauto.
  - intros E. apply overflow_not_finite in E. congruence.
Qed.

Lemma Bdiv_finite (x y : fl) : is_finite (x ⊘ y) = true -> is_finite y = true ->
  is_finite x = true /\ B2R y <> 0%R /\ B2R (x ⊘ y) = rnd (B2R x / B2R y).
Proof.
  intros H Fy.
  assert (Ny : B2R y <> 0%R).
  { destruct y as [s|s| |s m e B]; try discriminate.
    - destruct x; simpl in H; discriminate.
    - simpl. destruct s; [apply Rlt_not_eq, F2R_lt_0|apply Rgt_not_eq, F2R_gt_0]; simpl; lia. }
  generalize (Bdiv_correct _ _ Hp He mode_NE x y Ny). simpl round_mode.
  destruct (Rlt_bool _ _).
  - intros [E [E2 _]]. rewrite H in E2. auto.
  - intros E. apply overflow_not_finite in E. congruence.
Qed.

(** operations with a representable exact result *)
Lemma Bplus_exact (x y : fl) : is_finite x = true -> is_finite y = true ->
  generic_format radix2 fexp (B2R x + B2R y) -> (Rabs (B2R x + B2R y) < bpow radix2 emax)%R ->
  is_finite (x ⊕ y) = true /\ B2R (x ⊕ y) = (B2R x + B2R y)%R.
Proof.
  intros Fx Fy G L. generalize (Bplus_correct _ _ Hp He mode_NE x y Fx Fy). simpl round_mode.
  rewrite (round_generic radix2 fexp ZnearestE _ G). rewrite Rlt_bool_true by exact L. tauto.
Qed.

Lemma Bplus_zero_r (x y : fl) : is_finite x = true -> is_finite y = true -> B2R y = 0%R ->
  is_finite (x ⊕ y) = true /\ B2R (x ⊕ y) = B2R x.
Proof.
  intros Fx Fy Zy. rewrite <- (Rplus_0_r (B2R x)), <- Zy.
  apply Bplus_exact; auto; rewrite Zy, Rplus_0_r; [apply generic_format_B2R|apply abs_lt_emax].
Qed.

Lemma Bplus_zero_l (x y : fl) : is_finite x = true -> is_finite y = true -> B2R x = 0%R ->
  is_finite (x ⊕ y) = true /\ B2R (x ⊕ y) = B2R y.
Proof.
  intros Fx Fy Zx. rewrite <- (Rplus_0_l (B2R y)), <- Zx.
  apply Bplus_exact; auto; rewrite Zx, Rplus_0_l; [apply generic_format_B2R|apply abs_lt_emax].
Qed.

Lemma Bmult_exact (x y : fl) : is_finite x = true -> is_finite y = true ->
  generic_format radix2 fexp (B2R x * B2R y) -> (Rabs (B2R x * B2R y) < bpow radix2 emax)%R ->
  is_finite (x ⊗ y) = true /\ B2R (x ⊗ y) = (B2R x * B2R y)%R /\
  Bsign (x ⊗ y) = xorb (Bsign x) (Bsign y).
Proof.
  intros Fx Fy G L. generalize (Bmult_correct _ _ Hp He mode_NE x y). simpl round_mode.
  rewrite (round_generic radix2 fexp ZnearestE _ G). rewrite Rlt_bool_true by exact L.
  rewrite Fx, Fy. intros [E1 [E2 E3]]. split; [exact E2|]. split; [exact E1|]. apply E3.
  destruct (x ⊗ y); try reflexivity; discriminate.
Qed.

Lemma Bmult_zero_r (x y : fl) : is_finite x = true -> is_finite y = true -> B2R y = 0%R ->
  is_finite (x ⊗ y) = true /\ B2R (x ⊗ y) = 0%R.
Proof.
  intros Fx Fy Zy.
  destruct (Bmult_exact x y Fx Fy) as [H1 [H2 _]]; try (rewrite Zy, Rmult_0_r).
  - apply generic_format_0.
  - rewrite Rabs_R0. apply bpow_gt_0.
  - split; [exact H1|]. rewrite H2, Zy. ring.
Qed.

Lemma Bmult_zero_l (x y : fl) : is_finite x = true -> is_finite y = true -> B2R x = 0%R ->
  is_finite (x ⊗ y) = true /\ B2R (x ⊗ y) = 0%R.
Proof.
  intros Fx Fy Zx.
  destruct (Bmult_exact x y Fx Fy) as [H1 [H2 _]]; try (rewrite Zx, Rmult_0_l).
  - apply generic_format_0.
  - rewrite Rabs_R0. apply bpow_gt_0.
  - split; [exact H1|]. rewrite H2, Zx. ring.
Qed.

(** multiplication by 1 is exactly the identity, for every datum *)
Lemma Bmult_1_r (x : fl) : x ⊗ f_of_Z prec emax 1 = x.
Proof.
  destruct f_of_Z_1 as [E1 [E2 E3]].
  destruct (is_finite x) eqn:Fx.
  - destruct (Bmult_exact x (f_of_Z prec emax 1) Fx E2) as [H1 [H2 H3]]; try (rewrite E1, Rmult_1_r).
    + apply generic_format_B2R.
    + apply abs_lt_emax.
    + apply B2R_Bsign_inj; auto.
      * rewrite H2, E1. ring.
      * rewrite H3, E3. apply xorb_false_r.
  - assert (N : B2R (f_of_Z prec emax 1) <> 0%R) by (rewrite E1; lra).
    destruct x as [s|s| |s m e B]; try discriminate; destruct (f_of_Z prec emax 1) as [t|t| |t m' e' B']; try discriminate;
      simpl in *; try lra; rewrite ?E3; try reflexivity. rewrite xorb_false_r. reflexivity.
Qed.

Lemma Bmult_comm (x y : fl) : x ⊗ y = y ⊗ x.
Proof.
  destruct x as [sx|sx| |sx mx ex Bx], y as [sy|sy| |sy my ey By]; simpl; try reflexivity;
    try (rewrite (xorb_comm sx sy); reflexivity).
  (* the two finite non-zero cases agree on their SF image *)
  apply B2SF_inj. simpl. rewrite !B2SF_SF2B. rewrite (xorb_comm sx sy), (Pos.mul_comm mx my), (Z.add_comm ex ey). reflexivity.
Qed.

Lemma Bplus_comm (x y : fl) : x ⊕ y = y ⊕ x.
Proof.
  destruct (is_finite x && is_finite y)%bool eqn:F.
  - apply andb_prop in F. destruct F as [Fx Fy].
    generalize (Bplus_correct _ _ Hp He mode_NE x y Fx Fy), (Bplus_correct _ _ Hp He mode_NE y x Fy Fx).
    rewrite (Rplus_comm (B2R y)). destruct (Rlt_bool _ _).
    + intros [E1 [E2 E3]] [G1 [G2 G3]]. apply B2R_Bsign_inj; auto; [congruence|].
      rewrite E3, G3. destruct (Rcompare _ _); auto. apply andb_comm.
    + intros [E1 E2] [G1 G2]. apply B2SF_inj. rewrite E1, G1, E2. reflexivity.
  - destruct x as [sx|[]| |sx mx ex Bx], y as [sy|[]| |sy my ey By]; try discriminate; reflexivity.
Qed.

(** x - x is +0 for finite x *)
Lemma Bminus_diag (x : fl) : is_finite x = true -> x ⊖ x = B754_zero false.
Proof.
  intros Fx. generalize (Bminus_correct _ _ Hp He mode_NE x x Fx Fx).
  rewrite Rminus_diag_eq by reflexivity. simpl round_mode. rewrite rnd0, Rabs_R0, Rlt_bool_true by apply bpow_gt_0.
  intros [E1 [E2 E3]]. apply B2R_Bsign_inj; auto. rewrite E3. rewrite Rcompare_Eq by reflexivity.
  simpl. apply andb_negb_r.
Qed.

(** x / x is 1 for finite non-zero x *)
Lemma Bdiv_diag (x : fl) : is_finite x = true -> B2R x <> 0%R -> x ⊘ x = f_of_Z prec emax 1.
Proof.
  intros Fx Nx. destruct f_of_Z_1 as [E1 [E2 E3]].
  generalize (Bdiv_correct _ _ Hp He mode_NE x x Nx). simpl round_mode.
  replace (B2R x / B2R x)%R with (B2R (f_of_Z prec emax 1)) by (rewrite E1; field; exact Nx).
  rewrite rnd_B2R. rewrite Rlt_bool_true by apply abs_lt_emax.
  intros [G1 [G2 G3]]. apply B2R_Bsign_inj; auto; [congruence|].
  rewrite G3, E3; [apply xorb_nilpotent|]. rewrite Fx in G2. destruct (x ⊘ x); try reflexivity; discriminate.
Qed.

(** ** NaN *)
Lemma Bplus_nan_l (y : fl) : B754_nan ⊕ y = B754_nan. Proof. destruct y; reflexivity. Qed.
Lemma Bplus_nan_r (x : fl) : x ⊕ B754_nan = B754_nan. Proof. destruct x as [| [] | |]; reflexivity. Qed.
Lemma Bmult_nan_l (y : fl) : B754_nan ⊗ y = B754_nan. Proof. destruct y; reflexivity. Qed.
Lemma Bmult_nan_r (x : fl) : x ⊗ B754_nan = B754_nan. Proof. destruct x; reflexivity. Qed.
Lemma Bmult_notfin_zero (x : fl) s : is_finite x = false -> x ⊗ B754_zero s = B754_nan.
Proof. destruct x; try discriminate; reflexivity. Qed.
Lemma Bmult_zero_notfin (x : fl) s : is_finite x = false -> B754_zero s ⊗ x = B754_nan.
Proof. destruct x; try discriminate; reflexivity. Qed.

(** ** comparisons *)
Lemma Beqb_nan_l (y : fl) : Beqb B754_nan y = false. Proof. destruct y; reflexivity. Qed.

Lemma Beqb_finite (x y : fl) : is_finite x = true -> is_finite y = true ->
  (Beqb x y = true <-> B2R x = B2R y).
Proof.
  intros Fx Fy. rewrite Beqb_correct by assumption. split.
  - case Req_bool_spec; [auto|discriminate].
  - intros E. apply Req_bool_true. exact E.
Qed.

(** the extended reals as pairs, to order all data except NaN *)
Definition key (x : fl) : Z * R :=
  match x with
  | B754_infinity true => (-1, 0%R)%Z
  | B754_infinity false => (1, 0%R)%Z
  | _ => (0, B2R x)%Z
  end.

Definition klt (a b : Z * R) : Prop := (fst a < fst b)%Z \/ (fst a = fst b /\ (snd a < snd b)%R).

Lemma Bltb_key (x y : fl) : is_nan x = false -> is_nan y = false ->
  (Bltb x y = true <-> klt (key x) (key y)).
Proof.
  intros Nx Ny. destruct (is_finite x && is_finite y)%bool eqn:F.
  - apply andb_prop in F. destruct F as [Fx Fy]. rewrite Bltb_correct by assumption.
    assert (K : forall z : fl, is_finite z = true -> key z = (0, B2R z)%Z) by (intros [| [] | |]; simpl; try discriminate; reflexivity).
    rewrite !K by assumption. unfold klt. simpl. split.
    + case Rlt_bool_spec; [auto|discriminate].
    + intros [H|[_ H]]; [lia|]. apply Rlt_bool_true. exact H.
  - unfold klt.
    destruct x as [sx|[]| |sx mx ex Bx], y as [sy|[]| |sy my ey By]; try discriminate;
      unfold Bltb, SpecFloat.SFltb, SpecFloat.SFcompare; simpl;
      (split; [intros H; try discriminate; left; lia|intros [H|[H H']]; try lia; try lra; reflexivity]).
Qed.

Lemma klt_irrefl a : ~ klt a a. Proof. unfold klt. intros [H|[_ H]]; [lia|lra]. Qed.
Lemma klt_trans a b c : klt a b -> klt b c -> klt a c.
Proof. unfold klt. intros [H|[H H']] [G|[G G']]; try (left; lia). right. split; [lia|lra]. Qed.
Lemma klt_total a b : klt a b \/ a = b \/ klt b a.
Proof.
  unfold klt. destruct a as [a1 a2], b as [b1 b2]. simpl.
  destruct (Z.lt_total a1 b1) as [H|[->|H]]; auto.
  destruct (Rtotal_order a2 b2) as [H|[->|H]]; auto.
Qed.

(** ** rounding errors *)

Lemma rnd_plus (x y : fl) : exists d, (Rabs d <= uro)%R /\ rnd (B2R x + B2R y) = ((B2R x + B2R y) * (1 + d))%R.
Proof.
  destruct (FLT_plus_error_N_ex radix2 emin prec (fun t => negb (Z.even t)) (B2R x) (B2R y)) as [d [H1 H2]];
    [apply generic_format_B2R|apply generic_format_B2R|].
  exists d. split; [|exact H2].
  apply Rle_trans with (1 := H1). rewrite uro_u_ro. pose proof uro_pos.
  apply Rle_trans with (uro / 1)%R; [|lra]. unfold Rdiv. apply Rmult_le_compat_l; [lra|].
  apply Rinv_le; lra.
Qed.

Lemma rnd_any (x : R) : exists d h, (Rabs d <= uro)%R /\ (Rabs h <= eta)%R /\ rnd x = (x * (1 + d) + h)%R.
Proof.
  destruct (error_N_FLT radix2 emin prec prec_pos (fun t => negb (Z.even t)) x) as [d [h [H1 [H2 [_ H3]]]]].
  exists d, h. split; [|split; [|exact H3]].
  - replace uro with (/ 2 * bpow radix2 (- prec + 1))%R; [exact H1|]. exact uro_u_ro.
  - exact H2.
Qed.

End Float.
