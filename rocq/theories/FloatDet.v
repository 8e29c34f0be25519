(** * det and inv of 2x2 and 3x3 matrices in floating point *)

From Coq Require Import ZArith Reals Lra Lia Bool List Arith.
Import ListNotations.
From Flocq Require Import IEEE754.BinarySingleNaN Core.Core Relative Plus_error.
From Verif Require Import Base Scalar CFloat Model Spec Loops Struct LURec Float FloatMx FloatErr FloatLU.

Section FloatDet.
Variables prec emax : Z.
Context {Hp : Prec_gt_0 prec} {He : Prec_lt_emax prec emax}.
Notation fl := (binary_float prec emax).
Notation K := (floatS prec emax).
Notation rnd := (round radix2 (SpecFloat.fexp prec emax) ZnearestE).
Notation u := (uro prec).
Notation h := (eta prec emax).
Notation "x ⊕ y" := (Bplus mode_NE x y) (at level 50, left associativity).
Notation "x ⊖ y" := (Bminus mode_NE x y) (at level 50, left associativity).
Notation "x ⊗ y" := (Bmult mode_NE x y) (at level 40, left associativity).
Notation "x ⊘ y" := (Bdiv mode_NE x y) (at level 40, left associativity).
Local Open Scope R_scope.

(** x approximates y, computed with k roundings from terms of total size S,
    with absolute error e on top *)
Definition ap (k : nat) (S e x y : R) : Prop :=
  Rabs y <= S /\ Rabs (x - y) <= ((1 + u) ^ k - 1) * S + e /\ 0 <= e.

Lemma ap_exact x : ap 0 (Rabs x) 0 x x.
Proof. split; [lra|]. split; [|lra]. simpl. rewrite Rminus_eq_0, Rabs_R0. lra. Qed.

Lemma ap_S k S e x y : ap k S e x y -> 0 <= S.
Proof. intros [H _]. pose proof (Rabs_pos y). lra. Qed.

Lemma ap_rnd k S e x y d : ap k S e x y -> Rabs d <= u -> ap (k + 1) S (e * (1 + u)) (x * (1 + d)) y.
Proof.
  intros A Hd. pose proof (ap_S _ _ _ _ _ A) as PS. destruct A as [H1 [H2 H3]].
  pose proof (uro_pos prec) as Pu. split; [exact H1|].
  split; [|apply Rmult_le_pos; lra].
  replace (x * (1 + d) - y) with ((x - y) * (1 + d) + y * d) by ring.
  eapply Rle_trans; [apply Rabs_triang|]. rewrite !Rabs_mult.
  assert (B1 : Rabs (1 + d) <= 1 + u).
  { eapply Rle_trans; [apply Rabs_triang|]. rewrite Rabs_R1. lra. }
  assert (T1 : Rabs (x - y) * Rabs (1 + d) <= (((1 + u) ^ k - 1) * S + e) * (1 + u))
    by (apply Rmult_le_compat; auto using Rabs_pos).
  assert (T2 : Rabs y * Rabs d <= S * u) by (apply Rmult_le_compat; auto using Rabs_pos).
  rewrite pow_add, pow_1. lra.
Qed.

Lemma ap_plus k S1 S2 e1 e2 x1 x2 y1 y2 : ap k S1 e1 x1 y1 -> ap k S2 e2 x2 y2 ->
  ap k (S1 + S2) (e1 + e2) (x1 + x2) (y1 + y2).
Proof.
  intros [A1 [A2 A3]] [B1 [B2 B3]]. split; [eapply Rle_trans; [apply Rabs_triang|lra]|]. split; [|lra].
  replace (x1 + x2 - (y1 + y2)) with ((x1 - y1) + (x2 - y2)) by ring.
  eapply Rle_trans; [apply Rabs_triang|]. lra.
Qed.

Lemma ap_opp k S e x y : ap k S e x y -> ap k S e (- x) (- y).
Proof.
  intros [A1 [A2 A3]]. split; [rewrite Rabs_Ropp; exact A1|]. split; [|exact A3].
  replace (- x - - y) with (- (x - y)) by ring. rewrite Rabs_Ropp. exact A2.
Qed.

Lemma ap_mul k S e x y c : ap k S e x y -> ap k (S * Rabs c) (e * Rabs c) (x * c) (y * c).
Proof.
  intros [A1 [A2 A3]]. pose proof (Rabs_pos c). split; [rewrite Rabs_mult; apply Rmult_le_compat_r; assumption|].
  split; [|apply Rmult_le_pos; assumption].
  replace (x * c - y * c) with ((x - y) * c) by ring. rewrite Rabs_mult.
  replace (((1 + u) ^ k - 1) * (S * Rabs c) + e * Rabs c) with ((((1 + u) ^ k - 1) * S + e) * Rabs c) by ring.
  apply Rmult_le_compat_r; assumption.
Qed.

Lemma ap_eta k S e x y e' g : ap k S e x y -> Rabs e' <= g -> ap k S (e + g) (x + e') y.
Proof.
  intros [A1 [A2 A3]] H. pose proof (Rabs_pos e'). split; [exact A1|]. split; [|lra].
  replace (x + e' - y) with ((x - y) + e') by ring. eapply Rle_trans; [apply Rabs_triang|]. lra.
Qed.

Lemma ap_weaken k k' S e e' x y : ap k S e x y -> (k <= k')%nat -> e <= e' -> ap k' S e' x y.
Proof.
  intros A Hk Hle. pose proof (ap_S _ _ _ _ _ A) as PS. destruct A as [A1 [A2 A3]].
  split; [exact A1|]. split; [|lra]. pose proof (gam_le prec k k' S Hk PS). lra.
Qed.

Lemma sub_error (x y : fl) : is_finite (x ⊖ y) = true ->
  exists d, Rabs d <= u /\ B2R (x ⊖ y) = (B2R x - B2R y) * (1 + d).
Proof.
  intros H. destruct (Bminus_finite prec emax x y H) as [_ [_ E]]. rewrite E.
  destruct (rnd_plus prec emax x (Bopp y)) as [d [H1 H2]]. rewrite B2R_Bopp in H2.
  exists d. split; [exact H1|exact H2].
Qed.

Lemma ap_add_fl k S1 S2 e1 e2 (x1 x2 : fl) y1 y2 : is_finite (x1 ⊕ x2) = true ->
  ap k S1 e1 (B2R x1) y1 -> ap k S2 e2 (B2R x2) y2 ->
  ap (k + 1) (S1 + S2) ((e1 + e2) * (1 + u)) (B2R (x1 ⊕ x2)) (y1 + y2).
Proof.
  intros F A B. destruct (sum_error prec emax _ _ F) as [d [Hd ->]].
  apply ap_rnd; [apply ap_plus; assumption|exact Hd].
Qed.

Lemma ap_sub_fl k S1 S2 e1 e2 (x1 x2 : fl) y1 y2 : is_finite (x1 ⊖ x2) = true ->
  ap k S1 e1 (B2R x1) y1 -> ap k S2 e2 (B2R x2) y2 ->
  ap (k + 1) (S1 + S2) ((e1 + e2) * (1 + u)) (B2R (x1 ⊖ x2)) (y1 - y2).
Proof.
  intros F A B. destruct (sub_error _ _ F) as [d [Hd ->]].
  apply ap_rnd; [apply ap_plus; [assumption|apply ap_opp; assumption]|exact Hd].
Qed.

Lemma ap_mul_fl k S e (x c : fl) y : is_finite (x ⊗ c) = true -> ap k S e (B2R x) y ->
  ap (k + 1) (S * Rabs (B2R c)) (e * Rabs (B2R c) * (1 + u) + h) (B2R (x ⊗ c)) (y * B2R c).
Proof.
  intros F A. destruct (prod_error prec emax _ _ F) as [d [e' [Hd [He' ->]]]].
  apply ap_eta; [|exact He']. apply ap_rnd; [apply ap_mul; exact A|exact Hd].
Qed.

(** a product of two elements *)
Lemma ap_prod2 (x y : fl) : is_finite (x ⊗ y) = true ->
  ap 1 (Rabs (B2R x * B2R y)) h (B2R (x ⊗ y)) (B2R x * B2R y).
Proof.
  intros F. pose proof (ap_mul_fl 0 _ _ x y _ F (ap_exact (B2R x))) as A. rewrite Rabs_mult.
  apply (ap_weaken _ 1 _ _ h) in A; [exact A|lia|lra].
Qed.

(** x*y*z, left associated *)
Lemma ap_prod3 (x y z : fl) : is_finite (x ⊗ y ⊗ z) = true ->
  ap 2 (Rabs (B2R x * B2R y * B2R z)) (h * (1 + u) * (Rabs (B2R z) + 1))
     (B2R (x ⊗ y ⊗ z)) (B2R x * B2R y * B2R z).
Proof.
  intros F. destruct (Bmult_finite prec emax _ _ F) as [F1 _].
  pose proof (ap_mul_fl 1 _ _ (x ⊗ y) z _ F (ap_prod2 x y F1)) as A. rewrite (Rabs_mult _ (B2R z)).
  apply (ap_weaken _ 2 _ _ (h * (1 + u) * (Rabs (B2R z) + 1))) in A; [exact A|lia|].
  pose proof (uro_pos prec). pose proof (eta_pos prec emax).
  pose proof (Rmult_le_pos h u ltac:(lra) ltac:(lra)). lra.
Qed.

Lemma det2_fl (a b c d : fl) : det K 2 [[a; b]; [c; d]] = Ok (a ⊗ d ⊖ b ⊗ c).
Proof. reflexivity. Qed.

Lemma det3_fl (a b c d e f g p i : fl) : det K 3 [[a; b; c]; [d; e; f]; [g; p; i]] =
  Ok (a ⊗ e ⊗ i ⊕ b ⊗ f ⊗ g ⊕ c ⊗ d ⊗ p ⊖ c ⊗ e ⊗ g ⊖ b ⊗ d ⊗ i ⊖ a ⊗ f ⊗ p).
Proof. reflexivity. Qed.

Lemma det2_error (a b c d r : fl) : det K 2 [[a; b]; [c; d]] = Ok r -> is_finite r = true ->
  Rabs (B2R r - (B2R a * B2R d - B2R b * B2R c)) <=
  ((1 + u) ^ 2 - 1) * (Rabs (B2R a * B2R d) + Rabs (B2R b * B2R c)) + 2 * h * (1 + u).
Proof.
  rewrite det2_fl. intros E F. injection E as <-.
  destruct (Bminus_finite prec emax _ _ F) as [F1 [F2 _]].
  pose proof (ap_sub_fl _ _ _ _ _ _ _ _ _ F (ap_prod2 _ _ F1) (ap_prod2 _ _ F2)) as [_ [A _]].
  change (1 + 1)%nat with 2%nat in A. lra.
Qed.

Lemma det3_error (a b c d e f g p i r : fl) :
  det K 3 [[a; b; c]; [d; e; f]; [g; p; i]] = Ok r -> is_finite r = true ->
  let A := B2R a in let B := B2R b in let C := B2R c in
  let D := B2R d in let E := B2R e in let F := B2R f in
  let G := B2R g in let P := B2R p in let I := B2R i in
  Rabs (B2R r - (A * E * I + B * F * G + C * D * P - C * E * G - B * D * I - A * F * P)) <=
  ((1 + u) ^ 7 - 1) * (Rabs (A * E * I) + Rabs (B * F * G) + Rabs (C * D * P)
                      + Rabs (C * E * G) + Rabs (B * D * I) + Rabs (A * F * P)) +
  h * (1 + u) ^ 6 * (2 * (Rabs G + Rabs P + Rabs I) + 6).
Proof.
  rewrite det3_fl. intros Er F5. injection Er as <-. cbv zeta.
  destruct (Bminus_finite prec emax _ _ F5) as [F4 [G6 _]].
  destruct (Bminus_finite prec emax _ _ F4) as [F3 [G5 _]].
  destruct (Bminus_finite prec emax _ _ F3) as [F2 [G4 _]].
  destruct (Bplus_finite prec emax _ _ F2) as [F1 [G3 _]].
  destruct (Bplus_finite prec emax _ _ F1) as [G1 [G2 _]].
  pose proof (uro_pos prec) as Pu. pose proof (eta_pos prec emax) as Ph.
  assert (W : forall k (x y z : fl), is_finite (x ⊗ y ⊗ z) = true -> (2 <= k)%nat ->
    ap k (Rabs (B2R x * B2R y * B2R z)) (h * (1 + u) * (Rabs (B2R z) + 1))
     (B2R (x ⊗ y ⊗ z)) (B2R x * B2R y * B2R z)).
  { intros k x y z Fz Hk. eapply ap_weaken; [apply ap_prod3; exact Fz|exact Hk|lra]. }
  pose proof (ap_add_fl 2 _ _ _ _ _ _ _ _ F1 (W 2%nat _ _ _ G1 ltac:(lia)) (W 2%nat _ _ _ G2 ltac:(lia))) as A1.
  pose proof (ap_add_fl (2 + 1)%nat _ _ _ _ _ _ _ _ F2 A1 (W (2 + 1)%nat _ _ _ G3 ltac:(lia))) as A2.
  pose proof (ap_sub_fl (2 + 1 + 1)%nat _ _ _ _ _ _ _ _ F3 A2 (W (2 + 1 + 1)%nat _ _ _ G4 ltac:(lia))) as A3.
  pose proof (ap_sub_fl (2 + 1 + 1 + 1)%nat _ _ _ _ _ _ _ _ F4 A3 (W (2 + 1 + 1 + 1)%nat _ _ _ G5 ltac:(lia))) as A4.
  pose proof (ap_sub_fl (2 + 1 + 1 + 1 + 1)%nat _ _ _ _ _ _ _ _ F5 A4 (W (2 + 1 + 1 + 1 + 1)%nat _ _ _ G6 ltac:(lia))) as A5.
  change (2 + 1 + 1 + 1 + 1 + 1)%nat with 7%nat in A5. destruct A5 as [_ [A5 _]].
  eapply Rle_trans; [exact A5|]. apply Rplus_le_compat_l.
  pose proof (Rabs_pos (B2R g)) as Pg. pose proof (Rabs_pos (B2R p)) as Pp. pose proof (Rabs_pos (B2R i)) as Pi.
  set (rg := Rabs (B2R g)) in *. set (rp := Rabs (B2R p)) in *. set (ri := Rabs (B2R i)) in *.
  clearbody rg rp ri. clear - Pg Pp Pi Pu Ph.
  set (q := 1 + u) in *. assert (Q : 1 <= q) by (unfold q; lra). clearbody q.
  assert (M : forall k x, (k <= 6)%nat -> 0 <= x -> h * x * q ^ k <= h * x * q ^ 6).
  { intros k x Hk Hx. apply Rmult_le_compat_l; [apply Rmult_le_pos; assumption|]. apply Rle_pow; assumption. }
  pose proof (M 5%nat (rp + 1) ltac:(lia) ltac:(lra)).
  pose proof (M 4%nat (rg + 1) ltac:(lia) ltac:(lra)).
  pose proof (M 3%nat (ri + 1) ltac:(lia) ltac:(lra)).
  pose proof (M 2%nat (rp + 1) ltac:(lia) ltac:(lra)).
  replace ((((((h * q * (ri + 1) + h * q * (rg + 1)) * q + h * q * (rp + 1)) * q
     + h * q * (rg + 1)) * q + h * q * (ri + 1)) * q + h * q * (rp + 1)) * q)
  with (h * (ri + 1) * q ^ 6 + h * (rg + 1) * q ^ 6 + h * (rp + 1) * q ^ 5 + h * (rg + 1) * q ^ 4
     + h * (ri + 1) * q ^ 3 + h * (rp + 1) * q ^ 2) by ring.
  lra.
Qed.

(** ** inv *)

(** the 2x2 and 3x3 inverses: adjugate, then a division by the determinant,
    each operation rounded; throws exactly when the computed determinant
    compares equal to 0 *)
Notation zero := (f_of_Z prec emax 0).

Lemma inv2_fl (a b c d : fl) : let r := a ⊗ d ⊖ b ⊗ c in
  inv K 2 [[a; b]; [c; d]] =
  if Beqb r zero then Throw OverflowError
  else Ok [[d ⊘ r; Bopp b ⊘ r]; [Bopp c ⊘ r; a ⊘ r]].
Proof.
  cbv zeta. change (inv K 2 [[a; b]; [c; d]]) with (inv2 K [[a; b]; [c; d]]). unfold inv2.
  rewrite det2_fl. cbn [bind]. change (@xeq K) with (@Beqb prec emax). change (@ld K) with (fun x : fl => x).
  change (@lit K) with (f_of_Z prec emax). cbv beta.
  destruct (Beqb (a ⊗ d ⊖ b ⊗ c) zero) eqn:E; [reflexivity|].
  unfold op_div, div. cbn [aget vget nth_error bind]. change (@xeq K) with (@Beqb prec emax).
  change (@ld K) with (fun x : fl => x). change (@lit K) with (f_of_Z prec emax). cbv beta. rewrite E. reflexivity.
Qed.

Notation minor2 x y z w := (x ⊗ y ⊖ z ⊗ w).

Lemma inv3_fl (a b c d e f g p i r : fl) : det K 3 [[a; b; c]; [d; e; f]; [g; p; i]] = Ok r ->
  inv K 3 [[a; b; c]; [d; e; f]; [g; p; i]] =
  if Beqb r zero then Throw OverflowError
  else Ok [[minor2 e i f p ⊘ r; minor2 c p b i ⊘ r; minor2 b f c e ⊘ r];
           [minor2 f g d i ⊘ r; minor2 a i c g ⊘ r; minor2 c d a f ⊘ r];
           [minor2 d p e g ⊘ r; minor2 b g a p ⊘ r; minor2 a e b d ⊘ r]].
Proof.
  intros D. change (inv K 3 [[a; b; c]; [d; e; f]; [g; p; i]]) with (inv3 K [[a; b; c]; [d; e; f]; [g; p; i]]).
  unfold inv3. rewrite D. cbn [bind]. change (@xeq K) with (@Beqb prec emax). change (@ld K) with (fun x : fl => x).
  change (@lit K) with (f_of_Z prec emax). cbv beta. clear D.
  destruct (Beqb r zero) eqn:E; [reflexivity|].
  unfold op_div, div, mul_sub. cbn [aget vget nth_error bind xmul xsub floatS]. change (@xeq K) with (@Beqb prec emax).
  change (@ld K) with (fun x : fl => x). change (@lit K) with (f_of_Z prec emax). cbv beta. rewrite E. reflexivity.
Qed.

(** an exactly singular 2x2 matrix has computed determinant 0, unless it overflows *)
Lemma det2_singular (a b c d r : fl) : det K 2 [[a; b]; [c; d]] = Ok r -> is_finite r = true ->
  B2R a * B2R d = B2R b * B2R c -> B2R r = 0.
Proof.
  rewrite det2_fl. intros E F H. injection E as <-.
  destruct (Bminus_finite prec emax _ _ F) as [F1 [F2 ->]].
  destruct (Bmult_finite prec emax _ _ F1) as [_ [_ E1]]. destruct (Bmult_finite prec emax _ _ F2) as [_ [_ E2]].
  rewrite E1, E2, H, Rminus_eq_0. apply rnd0.
Qed.

Lemma div_by_approx (x r : fl) X Dl beta gamma : is_finite r = true -> is_finite (x ⊘ r) = true -> Dl <> 0 ->
  Rabs (B2R r - Dl) <= beta -> Rabs (B2R x - X) <= gamma ->
  Rabs (B2R (x ⊘ r) - X / Dl) <= (gamma + Rabs X * beta / Rabs Dl + u * Rabs (B2R x)) / Rabs (B2R r) + h.
Proof.
  intros Fr F ND HB HG. destruct (Bdiv_finite prec emax _ _ F Fr) as [Fx [NR E]]. rewrite E.
  destruct (rnd_any prec emax (B2R x / B2R r)) as [d [e [Hd [Hh ->]]]].
  set (x0 := B2R x) in *. set (r0 := B2R r) in *.
  pose proof (Rabs_pos_lt r0 NR) as PR. pose proof (Rabs_pos_lt Dl ND) as PD.
  replace (x0 / r0 * (1 + d) + e - X / Dl) with
    (((x0 - X) + X * (Dl - r0) / Dl + x0 * d) / r0 + e) by (field; split; assumption).
  eapply Rle_trans; [apply Rabs_triang|]. apply Rplus_le_compat; [|exact Hh].
  unfold Rdiv. rewrite (Rabs_mult _ (/ r0)), (Rabs_inv r0).
  apply Rmult_le_compat_r; [left; apply Rinv_0_lt_compat; exact PR|].
  eapply Rle_trans; [apply Rabs3|]. rewrite !Rabs_mult, Rabs_inv.
  apply Rplus_le_compat; [apply Rplus_le_compat; [exact HG|]|].
  - apply Rmult_le_compat_r; [left; apply Rinv_0_lt_compat; exact PD|].
    apply Rmult_le_compat_l; [apply Rabs_pos|]. rewrite <- Rabs_Ropp. replace (- (Dl - r0)) with (r0 - Dl) by ring.
    exact HB.
  - rewrite Rmult_comm. apply Rmult_le_compat_r; [apply Rabs_pos|exact Hd].
Qed.

End FloatDet.
