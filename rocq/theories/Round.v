(** * Floating-point operations in any rounding mode: the order between modes *)

From Coq Require Import ZArith Reals Lra Lia Bool List Arith.
Import ListNotations.
From Flocq Require Import IEEE754.BinarySingleNaN Core.Core Relative Plus_error.
From Verif Require Import Base Scalar CFloat CRound Model Spec Loops Struct Float FloatMx.

Section Round.
Variables prec emax : Z.
Context {Hp : Prec_gt_0 prec} {He : Prec_lt_emax prec emax}.
Notation fl := (binary_float prec emax).
Notation fexp := (SpecFloat.fexp prec emax).
Notation emin := (SpecFloat.emin prec emax).
Notation rnd md := (round radix2 fexp (round_mode md)).
Notation big := (bpow radix2 emax).

Local Instance fexp_ok : Valid_exp fexp.
Proof. apply FLT_exp_valid. exact Hp. Qed.

(** the sign bit agrees with the value *)
Definition sgnd (s : bool) (z : R) : Prop := if s then (z <= 0)%R else (0 <= z)%R.

Lemma sgnd_B (x : fl) : sgnd (Bsign x) (B2R x).
Proof.
  destruct x as [s|s| |s m e B]; try (destruct s); simpl; try lra.
  - apply Rlt_le, F2R_lt_0. simpl. lia.
  - apply Rlt_le, F2R_gt_0. simpl. lia.
Qed.

(** [x] is the outcome, in mode [md], of an operation with exact result [z] *)
Definition res (md : mode) (z : R) (x : fl) : Prop :=
  ((Rabs (rnd md z) < big)%R /\ is_finite x = true /\ B2R x = rnd md z) \/
  ((big <= Rabs (rnd md z))%R /\ exists s, sgnd s z /\ B2SF x = binary_overflow prec emax md s).

Lemma res_plus md (x y : fl) : is_finite x = true -> is_finite y = true -> res md (B2R x + B2R y) (Bplus md x y).
Proof.
  intros Fx Fy. generalize (Bplus_correct _ _ Hp He md x y Fx Fy).
  destruct (Rlt_bool_spec (Rabs (rnd md (B2R x + B2R y))) big) as [L|L].
  - intros [E [F _]]. left. auto.
  - intros [E Es]. right. split; [exact L|]. exists (Bsign x). split; [|exact E].
    pose proof (sgnd_B x) as Sx. pose proof (sgnd_B y) as Sy. rewrite <- Es in Sy. destruct (Bsign x); simpl in *; lra.
Qed.

Lemma res_minus md (x y : fl) : is_finite x = true -> is_finite y = true -> res md (B2R x - B2R y) (Bminus md x y).
Proof.
  intros Fx Fy. generalize (Bminus_correct _ _ Hp He md x y Fx Fy).
  destruct (Rlt_bool_spec (Rabs (rnd md (B2R x - B2R y))) big) as [L|L].
  - intros [E [F _]]. left. auto.
  - intros [E Es]. right. split; [exact L|]. exists (Bsign x). split; [|exact E].
    pose proof (sgnd_B x) as Sx. pose proof (sgnd_B y) as Sy. rewrite Es in *. destruct (Bsign y); simpl in *; lra.
Qed.

Lemma sgnd_mult s t a b : sgnd s a -> sgnd t b -> sgnd (xorb s t) (a * b).
Proof. destruct s, t; simpl; intros; nra. Qed.

Lemma res_mult md (x y : fl) : is_finite x = true -> is_finite y = true -> res md (B2R x * B2R y) (Bmult md x y).
Proof.
  intros Fx Fy. generalize (Bmult_correct _ _ Hp He md x y).
  destruct (Rlt_bool_spec (Rabs (rnd md (B2R x * B2R y))) big) as [L|L].
  - rewrite Fx, Fy. intros [E [F _]]. left. auto.
  - intros E. right. split; [exact L|]. exists (xorb (Bsign x) (Bsign y)). split; [|exact E].
    apply sgnd_mult; apply sgnd_B.
Qed.

Lemma res_div md (x y : fl) : is_finite x = true -> B2R y <> 0%R -> res md (B2R x / B2R y) (Bdiv md x y).
Proof.
  intros Fx Ny. generalize (Bdiv_correct _ _ Hp He md x y Ny).
  destruct (Rlt_bool_spec (Rabs (rnd md (B2R x / B2R y))) big) as [L|L].
  - rewrite Fx. intros [E [F _]]. left. auto.
  - intros E. right. split; [exact L|]. exists (xorb (Bsign x) (Bsign y)). split; [|exact E].
    unfold Rdiv. apply sgnd_mult; [apply sgnd_B|]. pose proof (sgnd_B y) as Sy.
    assert (/ B2R y = (/ B2R y * / B2R y) * B2R y)%R as -> by (field; exact Ny).
    assert (0 < / B2R y * / B2R y)%R by (pose proof (Rinv_neq_0_compat _ Ny); nra).
    destruct (Bsign y); simpl in *; nra.
Qed.

(** a finite result has finite operands *)
Lemma plus_args md (x y : fl) : is_finite (Bplus md x y) = true -> is_finite x = true /\ is_finite y = true.
Proof.
  destruct x as [s|s| |s m e B], y as [s'|s'| |s' m' e' B']; simpl; try discriminate; auto.
  destruct (eqb s s'); discriminate.
Qed.
Lemma minus_args md (x y : fl) : is_finite (Bminus md x y) = true -> is_finite x = true /\ is_finite y = true.
Proof.
  destruct x as [s|s| |s m e B], y as [s'|s'| |s' m' e' B']; simpl; try discriminate; auto.
  destruct (eqb s (negb s')); discriminate.
Qed.
Lemma mult_args md (x y : fl) : is_finite (Bmult md x y) = true -> is_finite x = true /\ is_finite y = true.
Proof.
  destruct x as [s|s| |s m e B], y as [s'|s'| |s' m' e' B']; simpl; try discriminate; auto.
Qed.
Lemma div_args md (x y : fl) : is_finite (Bdiv md x y) = true -> is_finite y = true ->
  is_finite x = true /\ B2R y <> 0%R.
Proof.
  intros H Fy.
  assert (Ny : B2R y <> 0%R).
  { destruct y as [s|s| |s m e B]; try discriminate.
    - destruct x; simpl in H; discriminate.
    - simpl. destruct s; [apply Rlt_not_eq, F2R_lt_0|apply Rgt_not_eq, F2R_gt_0]; simpl; lia. }
  split; [|exact Ny]. destruct x as [s|s| |s m e B], y as [s'|s'| |s' m' e' B']; simpl in *; try discriminate; auto.
Qed.

(** the value of an overflow that does not give an infinity is the largest number *)
Lemma overflow_finite md s (x : fl) : B2SF x = binary_overflow prec emax md s -> is_finite x = true ->
  overflow_to_inf md s = false /\
  B2R x = (if s then - (big - bpow radix2 (emax - prec)) else big - bpow radix2 (emax - prec))%R.
Proof.
  unfold binary_overflow. intros E F. destruct (overflow_to_inf md s).
  - destruct x; simpl in *; discriminate.
  - split; [reflexivity|]. destruct x as [t|t| |t m e B]; try discriminate. simpl in E. injection E as -> -> ->.
    pose proof (prec_pos prec) as P. pose proof (pow_prec_ge2 prec) as P2.
    assert (V : F2R (Float radix2 (2 ^ prec - 1) (emax - prec)) = (big - bpow radix2 (emax - prec))%R).
    { unfold F2R. simpl Fnum. simpl Fexp. rewrite minus_IZR. change (2 ^ prec)%Z with (Zpower radix2 prec).
      rewrite IZR_Zpower by lia. replace emax with (prec + (emax - prec))%Z at 2 by ring. rewrite bpow_plus. ring. }
    simpl B2R. unfold SpecFloat.cond_Zopp. destruct s.
    + rewrite <- V, <- F2R_Zopp. f_equal. f_equal. change (Z.pos (Z.to_pos (2 ^ prec - 1))) with (Z.pos (Z.to_pos (2 ^ prec - 1))).
      simpl. rewrite <- (Z2Pos.id (2 ^ prec - 1)) at 2 by lia. reflexivity.
    + rewrite <- V. f_equal. f_equal. simpl. apply Z2Pos.id. lia.
Qed.

(** which modes are below which *)
Definition below_mode (m1 m2 : mode) : Prop := m1 = mode_DN \/ m2 = mode_UP \/ m1 = m2.

Lemma dn_up z : (round radix2 fexp Zfloor z <= round radix2 fexp Zceil z)%R.
Proof. apply Rle_trans with z; [apply round_DN_pt|apply round_UP_pt]; apply fexp_ok. Qed.

Lemma round_modes m1 m2 z1 z2 : below_mode m1 m2 -> (z1 <= z2)%R -> (rnd m1 z1 <= rnd m2 z2)%R.
Proof.
  intros H L. apply Rle_trans with (rnd m2 z1); [|apply round_le; [apply fexp_ok|typeclasses eauto|exact L]].
  destruct H as [-> |[-> | ->]]; [| |apply Rle_refl]; simpl round_mode.
  - destruct (round_DN_or_UP radix2 fexp (round_mode m2) z1) as [-> | ->]; [apply Rle_refl|apply dn_up].
  - destruct (round_DN_or_UP radix2 fexp (round_mode m1) z1) as [-> | ->]; [apply dn_up|apply Rle_refl].
Qed.

Lemma sgnd_round md s z : sgnd s z -> sgnd s (rnd md z).
Proof.
  assert (E : rnd md 0 = 0%R) by (apply round_0; typeclasses eauto).
  destruct s; simpl; intros H; rewrite <- E; apply round_le; auto using fexp_ok; typeclasses eauto.
Qed.

(** an operation in a lower mode on a smaller exact result gives a smaller value *)
Lemma res_le m1 m2 z1 z2 (x1 x2 : fl) : below_mode m1 m2 -> (z1 <= z2)%R ->
  res m1 z1 x1 -> res m2 z2 x2 -> is_finite x1 = true -> is_finite x2 = true -> (B2R x1 <= B2R x2)%R.
Proof.
  intros Hm Hz R1 R2 F1 F2. pose proof (round_modes _ _ _ _ Hm Hz) as HR.
  pose proof (abs_B2R_le_emax_minus_prec _ _ Hp x1) as B1. pose proof (abs_B2R_le_emax_minus_prec _ _ Hp x2) as B2.
  apply Rabs_le_inv in B1, B2. pose proof (bpow_gt_0 radix2 emax) as Pb.
  destruct R1 as [[L1 [_ E1]]|[L1 [s1 [S1 E1]]]], R2 as [[L2 [_ E2]]|[L2 [s2 [S2 E2]]]].
  - rewrite E1, E2. exact HR.
  - destruct (overflow_finite _ _ _ E2 F2) as [_ V2]. destruct s2; [exfalso|lra].
    apply (sgnd_round m2) in S2. unfold sgnd in S2. rewrite Rabs_left1 in L2 by exact S2.
    apply Rabs_lt_inv in L1. lra.
  - destruct (overflow_finite _ _ _ E1 F1) as [_ V1]. destruct s1; [lra|exfalso].
    apply (sgnd_round m1) in S1. unfold sgnd in S1. rewrite Rabs_pos_eq in L1 by exact S1.
    apply Rabs_lt_inv in L2. lra.
  - destruct (overflow_finite _ _ _ E1 F1) as [_ V1]. destruct (overflow_finite _ _ _ E2 F2) as [_ V2].
    destruct s1, s2; try lra. exfalso. apply (sgnd_round m1) in S1. apply (sgnd_round m2) in S2. unfold sgnd in S1, S2.
    rewrite Rabs_pos_eq in L1 by exact S1. rewrite Rabs_left1 in L2 by exact S2. lra.
Qed.

(** rounding down gives at most the exact result *)
Lemma res_dn z (x : fl) : res mode_DN z x -> is_finite x = true -> (B2R x <= z)%R.
Proof.
  assert (D : (rnd mode_DN z <= z)%R) by (apply round_DN_pt; apply fexp_ok).
  intros [[_ [_ ->]]|[L [s [S E]]]] F; [exact D|].
  destruct (overflow_finite _ _ _ E F) as [O V]. destruct s; [discriminate|].
  apply (sgnd_round mode_DN) in S. rewrite Rabs_pos_eq in L by exact S.
  pose proof (abs_B2R_lt_emax _ _ x) as B. apply Rabs_lt_inv in B. lra.
Qed.
(** rounding up gives at least the exact result *)
Lemma res_up z (x : fl) : res mode_UP z x -> is_finite x = true -> (z <= B2R x)%R.
Proof.
  assert (D : (z <= rnd mode_UP z)%R) by (apply round_UP_pt; apply fexp_ok).
  intros [[_ [_ ->]]|[L [s [S E]]]] F; [exact D|].
  destruct (overflow_finite _ _ _ E F) as [O V]. destruct s; [|discriminate].
  apply (sgnd_round mode_UP) in S. rewrite Rabs_left1 in L by exact S.
  pose proof (abs_B2R_lt_emax _ _ x) as B. apply Rabs_lt_inv in B. lra.
Qed.

(** if rounding down and rounding up both give numbers, neither overflowed *)
Lemma res_both z1 z2 (x1 x2 : fl) : (z1 <= z2)%R -> res mode_DN z1 x1 -> res mode_UP z2 x2 ->
  is_finite x1 = true -> is_finite x2 = true -> B2R x1 = rnd mode_DN z1 /\ B2R x2 = rnd mode_UP z2.
Proof.
  intros Hz R1 R2 F1 F2. pose proof (round_modes mode_DN mode_UP z1 z2 (or_introl eq_refl) Hz) as HR.
  pose proof (bpow_gt_0 radix2 emax) as Pb.
  assert (X1 : B2SF x1 = binary_overflow prec emax mode_DN false -> sgnd false z1 -> (big <= Rabs (rnd mode_DN z1))%R -> False).
  { intros _ S1 L1. apply (sgnd_round mode_DN) in S1. rewrite Rabs_pos_eq in L1 by exact S1.
    destruct R2 as [[L2 _]|[L2 [s2 [S2 E2]]]]; [apply Rabs_lt_inv in L2; lra|].
    destruct (overflow_finite _ _ _ E2 F2) as [O2 _]. destruct s2; [|discriminate].
    apply (sgnd_round mode_UP) in S2. unfold sgnd in S2. lra. }
  assert (X2 : B2SF x2 = binary_overflow prec emax mode_UP true -> sgnd true z2 -> (big <= Rabs (rnd mode_UP z2))%R -> False).
  { intros _ S2 L2. apply (sgnd_round mode_UP) in S2. rewrite Rabs_left1 in L2 by exact S2.
    destruct R1 as [[L1 _]|[L1 [s1 [S1 E1]]]]; [apply Rabs_lt_inv in L1; lra|].
    destruct (overflow_finite _ _ _ E1 F1) as [O1 _]. destruct s1; [discriminate|].
    apply (sgnd_round mode_DN) in S1. unfold sgnd in S1. lra. }
  split.
  - destruct R1 as [[_ [_ E]]|[L [s [S E]]]]; [exact E|]. destruct (overflow_finite _ _ _ E F1) as [O _].
    destruct s; [discriminate|]. destruct (X1 E S L).
  - destruct R2 as [[_ [_ E]]|[L [s [S E]]]]; [exact E|]. destruct (overflow_finite _ _ _ E F2) as [O _].
    destruct s; [|discriminate]. destruct (X2 E S L).
Qed.

(** an operation with a representable result is exact in every mode *)
Lemma res_exact md z (x : fl) : res md z x -> generic_format radix2 fexp z -> (Rabs z < big)%R ->
  is_finite x = true /\ B2R x = z.
Proof.
  intros R G L. rewrite <- (round_generic radix2 fexp (round_mode md) z G) in L at 1.
  destruct R as [[_ [F E]]|[L' _]]; [|lra]. split; [exact F|]. rewrite E. apply round_generic; [typeclasses eauto|exact G].
Qed.

Lemma m_of_Z_small md (z : Z) : (Z.abs z <= 2 ^ prec)%Z ->
  B2R (m_of_Z prec emax md z) = IZR z /\ is_finite (m_of_Z prec emax md z) = true.
Proof.
  intros Hz. pose proof (prec_pos prec) as Pp. pose proof (prec_emax prec emax) as Pe.
  generalize (binary_normalize_correct prec emax Hp He md z 0 false).
  replace (F2R (Float radix2 z 0)) with (IZR z) by (unfold F2R; simpl; ring).
  cbv zeta. rewrite (round_generic radix2 fexp (round_mode md) (IZR z)) by (apply (small_format prec emax); exact Hz).
  rewrite Rlt_bool_true.
  - intros [E1 [E2 _]]. split; assumption.
  - rewrite <- abs_IZR. apply Rle_lt_trans with (IZR (2 ^ prec)); [apply IZR_le; exact Hz|].
    change (2 ^ prec)%Z with (Zpower radix2 prec). rewrite IZR_Zpower by lia. apply bpow_lt. lia.
Qed.

(** ** the rounding error in any mode: twice the error to nearest *)
Notation u2 := (bpow radix2 (1 - prec)).
Notation h2 := (bpow radix2 emin).

Lemma error_any md z : exists d e, (Rabs d <= u2)%R /\ (Rabs e <= h2)%R /\ rnd md z = (z * (1 + d) + e)%R.
Proof.
  pose proof (prec_pos prec) as Pp.
  destruct (Rle_or_lt (bpow radix2 (emin + prec - 1)) (Rabs z)) as [L|L].
  - destruct (relative_error_FLT_ex radix2 emin prec Pp (round_mode md) z L) as [d [Hd Ed]].
    exists d, 0%R. split; [replace (1 - prec)%Z with (- prec + 1)%Z by ring; apply Rlt_le, Hd|].
    split; [rewrite Rabs_R0; apply bpow_ge_0|]. change (SpecFloat.fexp prec emax) with (FLT_exp emin prec). rewrite Ed. ring.
  - exists 0%R, (rnd md z - z)%R. split; [rewrite Rabs_R0; apply bpow_ge_0|]. split; [|ring].
    destruct (Req_dec z 0) as [-> |N].
    + rewrite round_0 by typeclasses eauto. rewrite Rminus_0_r, Rabs_R0. apply bpow_ge_0.
    + apply Rlt_le. eapply Rlt_le_trans; [apply error_lt_ulp; [apply fexp_ok|typeclasses eauto|exact N]|].
      change (SpecFloat.fexp prec emax) with (FLT_exp emin prec). rewrite ulp_FLT_small; [apply Rle_refl|exact Hp|].
      eapply Rlt_le_trans; [exact L|]. apply bpow_le. lia.
Qed.

Lemma error_sum md (x y : fl) : exists d, (Rabs d <= u2)%R /\ rnd md (B2R x + B2R y) = ((B2R x + B2R y) * (1 + d))%R.
Proof.
  pose proof (prec_pos prec) as Pp.
  destruct (Rle_or_lt (bpow radix2 (emin + prec - 1)) (Rabs (B2R x + B2R y))) as [L|L].
  - destruct (relative_error_FLT_ex radix2 emin prec Pp (round_mode md) _ L) as [d [Hd Ed]].
    exists d. split; [replace (1 - prec)%Z with (- prec + 1)%Z by ring; apply Rlt_le, Hd|exact Ed].
  - exists 0%R. split; [rewrite Rabs_R0; apply bpow_ge_0|]. rewrite Rplus_0_r, Rmult_1_r.
    apply round_generic; [typeclasses eauto|].
    change (SpecFloat.fexp prec emax) with (FLT_exp emin prec). apply FLT_format_plus_small; [exact Hp|apply generic_format_B2R|apply generic_format_B2R|].
    apply Rlt_le. eapply Rlt_le_trans; [exact L|]. apply bpow_le. lia.
Qed.
End Round.
