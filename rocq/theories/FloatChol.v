(** * Backward error of chol in floating point *)

From Coq Require Import ZArith Reals Lra Lia Bool List Arith.
Import ListNotations.
From Flocq Require Import IEEE754.BinarySingleNaN Core.Core.
From Verif Require Import Base Scalar CFloat Model Spec Loops Struct LURec CholRec Float FloatMx FloatErr FloatLU.

Section FloatChol.
Variables prec emax : Z.
Context {Hp : Prec_gt_0 prec} {He : Prec_lt_emax prec emax}.
Notation fl := (binary_float prec emax).
Notation K := (floatS prec emax).
Notation u := (uro prec).
Notation h := (eta prec emax).
Notation "x ⊖ y" := (Bminus mode_NE x y) (at level 50, left associativity).
Notation "x ⊘ y" := (Bdiv mode_NE x y) (at level 40, left associativity).
Local Open Scope R_scope.

Section Entry.
Variables (n : nat) (f l : nat -> nat -> fl).
Hypothesis P1 : (1 < prec)%Z.
Hypothesis Zr : forall i j, (i < j < n)%nat -> l i j = lite K 0.
Hypothesis Hd : forall i, (i < n)%nat -> drec K f l i.
Hypothesis Ho : forall i j, (j < i < n)%nat -> orec K f l i j.
Hypothesis Fl : forall i j, (i < n)%nat -> (j < n)%nat -> is_finite (l i j) = true.

Notation ll_ i j k := (B2R (l i k) * B2R (l j k)).

Lemma diag_nonneg i : (i < n)%nat -> 0 <= B2R (l i i).
Proof.
  intros Hi. destruct (Hd i Hi) as [s [w [E1 [E2 E3]]]].
  cbn [floatS xsub xsqrt ld st] in E2, E3. injection E2 as <-. injection E3 as E3.
  rewrite <- E3. apply (sqrt_back prec emax _ P1). rewrite E3. apply Fl; exact Hi.
Qed.

Lemma chol_diag i : (i < n)%nat ->
  Rabs (B2R (f i i) - (rsum i (fun k => ll_ i i k) + ll_ i i i)) <=
  ((1 + u) ^ (n + 2) - 1) * (rsum i (fun k => Rabs (ll_ i i k)) + Rabs (ll_ i i i)) +
  INR (n + 2) * h * (1 + u) ^ (n + 2).
Proof.
  intros Hi. destruct (Hd i Hi) as [s [w [E1 [E2 E3]]]].
  rewrite dot_fdot in E1. injection E1 as <-.
  cbn [floatS xsub xsqrt ld st] in E2, E3. injection E2 as <-. injection E3 as E3.
  set (sf := fdot prec emax i (fun k => l i k) (fun k => l i k)) in *.
  change (Bsqrt mode_NE (f i i ⊖ sf) = l i i) in E3.
  assert (Fr : is_finite (Bsqrt mode_NE (f i i ⊖ sf)) = true) by (rewrite E3; apply Fl; exact Hi).
  destruct (sqrt_back prec emax _ P1 Fr) as [Fw [Pw [_ [d [Bd Ed]]]]]. rewrite E3 in Ed.
  destruct (Bminus_finite prec emax _ _ Fw) as [_ [Fs _]].
  destruct (sub_back prec emax _ _ Fw) as [d1 [Bd1 Ed1]].
  pose proof (fdot_error_le prec emax i (n + 2) (fun k => l i k) (fun k => l i k) ltac:(lia) Fs) as B. cbv beta in B.
  fold sf in B. set (s := B2R sf) in *.
  set (S1 := rsum i (fun k => ll_ i i k)) in *. set (S2 := rsum i (fun k => Rabs (ll_ i i k))) in *.
  set (W := B2R (f i i ⊖ sf)) in *. set (r := B2R (l i i)) in *.
  assert (EW : W = r * r * ((1 + d) * (1 + d))).
  { rewrite <- (sqrt_sqrt W Pw). rewrite Ed. ring. }
  rewrite EW in Ed1.
  set (D := (1 + d) * (1 + d) * (1 + d1) - 1).
  assert (X : B2R (f i i) - (S1 + r * r) = (s - S1) + (r * r) * D) by (unfold D; lra).
  assert (BD : Rabs D <= (1 + u) ^ 3 - 1).
  { pose proof (uro_pos prec) as Pu. unfold D. apply Rabs_le_inv in Bd. apply Rabs_le_inv in Bd1.
    replace ((1 + d) * (1 + d) * (1 + d1) - 1) with
      ((d * (2 + d)) + (d1 * ((1 + d) * (1 + d)))) by ring.
    eapply Rle_trans; [apply Rabs_triang|]. rewrite !Rabs_mult.
    replace ((1 + u) ^ 3 - 1) with (u * (2 + u) + u * ((1 + u) * (1 + u))) by ring.
    assert (A0 : Rabs d <= u) by (apply Rabs_le; lra). assert (A1 : Rabs d1 <= u) by (apply Rabs_le; lra).
    assert (A2 : Rabs (1 + d) <= 1 + u).
    { eapply Rle_trans; [apply Rabs_triang|]. rewrite Rabs_R1. lra. }
    assert (A3 : Rabs (2 + d) <= 2 + u).
    { eapply Rle_trans; [apply Rabs_triang|]. rewrite (Rabs_right 2) by lra. lra. }
    apply Rplus_le_compat; apply Rmult_le_compat; try apply Rabs_pos; try assumption.
    - apply Rmult_le_pos; apply Rabs_pos.
    - apply Rmult_le_compat; try apply Rabs_pos; assumption. }
  rewrite X. eapply Rle_trans; [apply Rabs_triang|]. rewrite (Rabs_mult _ D).
  pose proof (gam_le prec 3 (n + 2) (Rabs (r * r)) ltac:(lia) (Rabs_pos _)).
  pose proof (Rmult_le_compat_l (Rabs (r * r)) _ _ (Rabs_pos _) BD).
  lra.
Qed.

Lemma chol_off i j : (j < i < n)%nat ->
  Rabs (B2R (f i j) - (rsum j (fun k => ll_ i j k) + ll_ i j j)) <=
  ((1 + u) ^ (n + 2) - 1) * (rsum j (fun k => Rabs (ll_ i j k)) + Rabs (ll_ i j j)) +
  h * (1 + u) ^ (n + 2) * (INR (n + 2) + B2R (l j j)).
Proof.
  intros Hij. destruct (Ho i j Hij) as [s [w [q [G1 [G2 [G3 G4]]]]]].
  rewrite dot_fdot in G1. injection G1 as <-. cbn [floatS xsub xdiv ld st] in G2, G3, G4.
  injection G2 as <-. injection G3 as <-.
  set (a := fun k => if (k <? j)%nat then l i k else lite K 0) in *.
  set (sf := fdot prec emax i a (fun k => l j k)) in *.
  change (l i j = (f i j ⊖ sf) ⊘ l j j) in G4.
  assert (Fq : is_finite ((f i j ⊖ sf) ⊘ l j j) = true) by (rewrite <- G4; apply Fl; lia).
  assert (Fj : is_finite (l j j) = true) by (apply Fl; lia).
  destruct (Bdiv_finite prec emax _ _ Fq Fj) as [Fw [Nz _]].
  destruct (Bminus_finite prec emax _ _ Fw) as [_ [Fs _]].
  destruct (sub_back prec emax _ _ Fw) as [d [Bd Ed]].
  destruct (div_back prec emax _ _ Fq Fj) as [e [Hb Eb]]. rewrite <- G4 in Eb, Hb.
  pose proof (fdot_error_le prec emax i (n + 2) a (fun k => l j k) ltac:(lia) Fs) as B. cbv beta in B.
  rewrite (rsum_zero_tail j i) in B; [| lia |].
  2:{ intros k Hk. unfold a. destruct (Nat.ltb_spec k j); [lia|].
      change (B2R (lite K 0)) with 0. ring. }
  rewrite (rsum_zero_tail j i (fun p => Rabs (B2R (a p) * B2R (l j p)))) in B; [| lia |].
  2:{ intros k Hk. unfold a. destruct (Nat.ltb_spec k j); [lia|].
      change (B2R (lite K 0)) with 0. rewrite Rmult_0_l. apply Rabs_R0. }
  fold sf in B. set (s := B2R sf) in *.
  rewrite (rsum_ext j (fun p => B2R (a p) * B2R (l j p)) (fun k => ll_ i j k)) in B.
  2:{ intros k Hk. unfold a. destruct (Nat.ltb_spec k j); [ring|lia]. }
  rewrite (rsum_ext j (fun p => Rabs (B2R (a p) * B2R (l j p))) (fun k => Rabs (ll_ i j k))) in B.
  2:{ intros k Hk. unfold a. destruct (Nat.ltb_spec k j); [reflexivity|lia]. }
  set (S1 := rsum j (fun k => ll_ i j k)) in *. set (S2 := rsum j (fun k => Rabs (ll_ i j k))) in *.
  set (P := ll_ i j j) in *. set (W := B2R (f i j ⊖ sf)) in *.
  assert (X : B2R (f i j) - (S1 + P) = (s - S1) + (P * d) + e * (1 + d)) by (rewrite Eb in Ed; lra).
  rewrite X. eapply Rle_trans; [apply Rabs3|]. rewrite !Rabs_mult.
  pose proof (uro_pos prec) as Pu. pose proof (eta_pos prec emax) as Ph.
  assert (D1 : Rabs (1 + d) <= 1 + u).
  { eapply Rle_trans; [apply Rabs_triang|]. rewrite Rabs_R1. lra. }
  pose proof (Rmult_le_compat_l (Rabs P) (Rabs d) u (Rabs_pos _) Bd) as T1.
  pose proof (diag_nonneg j ltac:(lia)) as Pj. rewrite (Rabs_right (B2R (l j j))) in Hb by lra.
  assert (T2 : Rabs e * Rabs (1 + d) <= (u * Rabs P + h * B2R (l j j)) * (1 + u)).
  { apply Rmult_le_compat; [apply Rabs_pos|apply Rabs_pos|exact Hb|exact D1]. }
  pose proof (gam_le prec 2 (n + 2) (Rabs P) ltac:(lia) (Rabs_pos _)) as T3.
  replace (((1 + u) ^ 2 - 1) * Rabs P) with (Rabs P * u + u * Rabs P * (1 + u)) in T3 by ring.
  assert (T4 : h * B2R (l j j) * (1 + u) <= h * B2R (l j j) * (1 + u) ^ (n + 2)).
  { apply Rmult_le_compat_l; [apply Rmult_le_pos; assumption|].
    pose proof (pow1u_mono prec 1 (n + 2) ltac:(lia)). lra. }
  lra.
Qed.

(** the lower triangle of A - L Lᵀ *)
Lemma chol_backward i j : (j <= i < n)%nat ->
  Rabs (B2R (f i j) - rsum n (fun k => ll_ i j k)) <=
  ((1 + u) ^ (n + 2) - 1) * rsum n (fun k => Rabs (ll_ i j k)) +
  h * (1 + u) ^ (n + 2) * (INR (n + 2) + B2R (l j j)).
Proof.
  intros Hij. pose proof (eta_pos prec emax) as Ph. pose proof (pow1u_ge1 prec (n + 2)) as Pg.
  assert (Z : forall k, (j < k < n)%nat -> ll_ i j k = 0).
  { intros k Hk. rewrite (Zr j k Hk). change (B2R (lite K 0)) with 0. ring. }
  rewrite (rsum_zero_tail (S j) n (fun k => ll_ i j k)) by (try lia; intros; apply Z; lia).
  rewrite (rsum_zero_tail (S j) n (fun k => Rabs (ll_ i j k)))
    by (try lia; intros; rewrite Z by lia; apply Rabs_R0).
  rewrite !rsum_S. destruct (Nat.eq_dec i j) as [->|Nij].
  - eapply Rle_trans; [apply chol_diag; lia|]. apply Rplus_le_compat_l.
    pose proof (diag_nonneg j ltac:(lia)).
    assert (0 <= h * (1 + u) ^ (n + 2) * B2R (l j j)); [|lra].
    apply Rmult_le_pos; [apply Rmult_le_pos; lra|assumption].
  - apply chol_off. lia.
Qed.

End Entry.
End FloatChol.
