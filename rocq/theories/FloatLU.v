(** * Backward error of lu in floating point *)

From Coq Require Import ZArith Reals Lra Lia Bool List Arith.
Import ListNotations.
From Flocq Require Import IEEE754.BinarySingleNaN Core.Core.
From Verif Require Import Base Scalar CFloat Model Spec Loops Struct LURec Float FloatMx FloatErr.

Section FloatLU.
Variables prec emax : Z.
Context {Hp : Prec_gt_0 prec} {He : Prec_lt_emax prec emax}.
Notation fl := (binary_float prec emax).
Notation K := (floatS prec emax).
Notation u := (uro prec).
Notation h := (eta prec emax).
Notation one := (f_of_Z prec emax 1).
Notation "x ⊕ y" := (Bplus mode_NE x y) (at level 50, left associativity).
Notation "x ⊖ y" := (Bminus mode_NE x y) (at level 50, left associativity).
Notation "x ⊗ y" := (Bmult mode_NE x y) (at level 40, left associativity).
Notation "x ⊘ y" := (Bdiv mode_NE x y) (at level 40, left associativity).
Local Open Scope R_scope.

Lemma gam_nonneg k : 0 <= (1 + u) ^ k - 1.
Proof. pose proof (pow1u_ge1 prec k). lra. Qed.

Lemma gam_le k k' x : (k <= k')%nat -> 0 <= x -> ((1 + u) ^ k - 1) * x <= ((1 + u) ^ k' - 1) * x.
Proof. intros H Hx. apply Rmult_le_compat_r; [exact Hx|]. pose proof (pow1u_mono prec k k' H). lra. Qed.

Lemma gam1 x : 0 <= x -> forall k, (1 <= k)%nat -> u * x <= ((1 + u) ^ k - 1) * x.
Proof.
  intros Hx k Hk. eapply Rle_trans; [|apply (gam_le 1 k x Hk Hx)]. simpl. apply Req_le. ring.
Qed.

(** the error of a dot product, with larger constants *)
Lemma fdot_error_le m k a b : (m <= k)%nat -> is_finite (fdot prec emax m a b) = true ->
  Rabs (B2R (fdot prec emax m a b) - rsum m (fun p => B2R (a p) * B2R (b p))) <=
  ((1 + u) ^ k - 1) * rsum m (fun p => Rabs (B2R (a p) * B2R (b p))) + INR k * h * (1 + u) ^ k.
Proof.
  intros Hk F. eapply Rle_trans; [apply (fdot_error prec emax); exact F|].
  apply Rplus_le_compat.
  - apply gam_le; [exact Hk|]. apply rsum_nonneg. intros. apply Rabs_pos.
  - pose proof (eta_pos prec emax). pose proof (pow1u_mono prec (m - 1) k ltac:(lia)).
    pose proof (pow1u_ge1 prec (m - 1)). pose proof (le_INR m k Hk). pose proof (pos_INR m).
    apply Rmult_le_compat; try lra; [apply Rmult_le_pos; lra|]. apply Rmult_le_compat_r; lra.
Qed.

Lemma Rabs3 a b c : Rabs (a + b + c) <= Rabs a + Rabs b + Rabs c.
Proof.
  eapply Rle_trans; [apply Rabs_triang|]. pose proof (Rabs_triang a b). lra.
Qed.

Section Entry.
Variables (n : nat) (f l v : nat -> nat -> fl).
Hypothesis Done : lu_done K n f l v n.
Hypothesis Fl : forall i j, (i < n)%nat -> (j < n)%nat -> is_finite (l i j) = true.
Hypothesis Fv : forall i j, (i < n)%nat -> (j < n)%nat -> is_finite (v i j) = true.

Lemma unit_diag j : (j < n)%nat -> l j j = one.
Proof.
  destruct Done as [_ [H1 [H2 [H3 H4]]]]. intros Hj.
  destruct (H3 j j Hj (le_n j)) as [s [w [E1 [E2 E3]]]].
  destruct (H4 j j Hj ltac:(lia)) as [Nz [s' [w' [q [G1 [G2 [G3 G4]]]]]]].
  assert (s' = s).
  { rewrite (dot_ext K j _ _ (fun p => v p j) (fun p => l j p)) in G1; [congruence|].
    intros k Hk. split; [reflexivity|]. destruct (Nat.ltb_spec k j); [reflexivity|lia]. }
  subst s'. assert (w' = w) by congruence. subst w'.
  cbn [floatS st ld xdiv] in *. injection G3 as <-. rewrite G4, <- E3.
  apply (Bdiv_diag prec emax); [apply Fv; exact Hj|].
  intros Z. cbn [floatS xeq lit] in Nz.
  assert (B : Beqb (v j j) (f_of_Z prec emax 0) = true); [|congruence].
  apply Beqb_finite; [apply Fv; exact Hj|reflexivity|]. exact Z.
Qed.

Notation lu_ i j k := (B2R (l i k) * B2R (v k j)).

Lemma entry_upper i j : (i <= j)%nat -> (j < n)%nat ->
  Rabs (B2R (f i j) - (rsum i (fun k => lu_ i j k) + B2R (v i j))) <=
  ((1 + u) ^ n - 1) * (rsum i (fun k => Rabs (lu_ i j k)) + Rabs (B2R (v i j))) + INR n * h * (1 + u) ^ n.
Proof.
  intros Hij Hj. destruct Done as [_ [_ [_ [H3 _]]]].
  destruct (H3 i j Hj Hij) as [s [w [E1 [E2 E3]]]]. rewrite dot_fdot in E1. injection E1 as <-.
  cbn [floatS xsub ld st] in E2, E3. injection E2 as <-.
  assert (Fw : is_finite (f i j ⊖ fdot prec emax i (fun p => v p j) (fun p => l i p)) = true)
    by (rewrite <- E3; apply Fv; lia).
  destruct (Bminus_finite prec emax _ _ Fw) as [_ [Fs _]].
  destruct (sub_back prec emax _ _ Fw) as [d [Hd Ed]]. rewrite <- E3 in Ed.
  pose proof (fdot_error_le i n (fun p => v p j) (fun p => l i p) ltac:(lia) Fs) as B. cbv beta in B.
  set (s := B2R (fdot prec emax i (fun p => v p j) (fun p => l i p))) in *.
  rewrite (rsum_ext i (fun p => B2R (v p j) * B2R (l i p)) (fun k => lu_ i j k)) in B by (intros; ring).
  rewrite (rsum_ext i (fun p => Rabs (B2R (v p j) * B2R (l i p))) (fun k => Rabs (lu_ i j k))) in B
    by (intros; rewrite Rmult_comm; reflexivity).
  set (S1 := rsum i (fun k => lu_ i j k)) in *. set (S2 := rsum i (fun k => Rabs (lu_ i j k))) in *.
  replace (B2R (f i j) - (S1 + B2R (v i j))) with ((s - S1) + (B2R (v i j) * d)) by lra.
  eapply Rle_trans; [apply Rabs_triang|]. rewrite (Rabs_mult _ d).
  pose proof (gam1 (Rabs (B2R (v i j))) (Rabs_pos _) n ltac:(lia)).
  pose proof (Rmult_le_compat_l (Rabs (B2R (v i j))) (Rabs d) u (Rabs_pos _) Hd).
  lra.
Qed.

Lemma entry_lower i j : (j < i < n)%nat ->
  Rabs (B2R (f i j) - (rsum j (fun k => lu_ i j k) + lu_ i j j)) <=
  ((1 + u) ^ n - 1) * (rsum j (fun k => Rabs (lu_ i j k)) + Rabs (lu_ i j j)) +
  h * (1 + u) ^ n * (INR n + Rabs (B2R (v j j))).
Proof.
  intros Hij. destruct Done as [_ [_ [_ [_ H4]]]].
  destruct (H4 i j ltac:(lia) ltac:(lia)) as [_ [s [w [q [G1 [G2 [G3 G4]]]]]]].
  rewrite dot_fdot in G1. injection G1 as <-. cbn [floatS xsub xdiv ld st] in G2, G3, G4.
  injection G2 as <-. injection G3 as <-.
  set (b := fun p => if (p <? j)%nat then l i p else lite K 0) in *.
  set (sf := fdot prec emax i (fun p => v p j) b) in *.
  change (l i j = (f i j ⊖ sf) ⊘ v j j) in G4.
  assert (Fq : is_finite ((f i j ⊖ sf) ⊘ v j j) = true) by (rewrite <- G4; apply Fl; lia).
  assert (Fj : is_finite (v j j) = true) by (apply Fv; lia).
  destruct (Bdiv_finite prec emax _ _ Fq Fj) as [Fw [Nz _]].
  destruct (Bminus_finite prec emax _ _ Fw) as [_ [Fs _]].
  destruct (sub_back prec emax _ _ Fw) as [d [Hd Ed]].
  destruct (div_back prec emax _ _ Fq Fj) as [e [Hb Eb]]. rewrite <- G4 in Eb, Hb.
  pose proof (fdot_error_le i n (fun p => v p j) b ltac:(lia) Fs) as B. cbv beta in B.
  rewrite (rsum_zero_tail j i) in B; [| lia |].
  2:{ intros k Hk. unfold b. destruct (Nat.ltb_spec k j); [lia|].
      change (B2R (lite K 0)) with 0. ring. }
  rewrite (rsum_zero_tail j i (fun p => Rabs (B2R (v p j) * B2R (b p)))) in B; [| lia |].
  2:{ intros k Hk. unfold b. destruct (Nat.ltb_spec k j); [lia|].
      change (B2R (lite K 0)) with 0. rewrite Rmult_0_r. apply Rabs_R0. }
  fold sf in B. set (s := B2R sf) in *.
  rewrite (rsum_ext j (fun p => B2R (v p j) * B2R (b p)) (fun k => lu_ i j k)) in B.
  2:{ intros k Hk. unfold b. destruct (Nat.ltb_spec k j); [ring|lia]. }
  rewrite (rsum_ext j (fun p => Rabs (B2R (v p j) * B2R (b p))) (fun k => Rabs (lu_ i j k))) in B.
  2:{ intros k Hk. unfold b. destruct (Nat.ltb_spec k j); [rewrite Rmult_comm; reflexivity|lia]. }
  set (S1 := rsum j (fun k => lu_ i j k)) in *. set (S2 := rsum j (fun k => Rabs (lu_ i j k))) in *.
  set (P := lu_ i j j) in *. set (W := B2R (f i j ⊖ sf)) in *.
  (* f - s = W (1 + d), W = P + e *)
  assert (X : B2R (f i j) - (S1 + P) = (s - S1) + (P * d) + e * (1 + d)).
  { rewrite Eb in Ed. lra. }
  rewrite X. eapply Rle_trans; [apply Rabs3|]. rewrite !Rabs_mult.
  pose proof (uro_pos prec) as Pu. pose proof (eta_pos prec emax) as Ph.
  assert (D1 : Rabs (1 + d) <= 1 + u).
  { eapply Rle_trans; [apply Rabs_triang|]. rewrite Rabs_R1. lra. }
  pose proof (Rmult_le_compat_l (Rabs P) (Rabs d) u (Rabs_pos _) Hd) as T1.
  assert (T2 : Rabs e * Rabs (1 + d) <= (u * Rabs P + h * Rabs (B2R (v j j))) * (1 + u)).
  { apply Rmult_le_compat; [apply Rabs_pos|apply Rabs_pos|exact Hb|exact D1]. }
  pose proof (gam_le 2 n (Rabs P) ltac:(lia) (Rabs_pos _)) as T3.
  replace (((1 + u) ^ 2 - 1) * Rabs P) with (Rabs P * u + u * Rabs P * (1 + u)) in T3 by ring.
  assert (T4 : h * Rabs (B2R (v j j)) * (1 + u) <= h * Rabs (B2R (v j j)) * (1 + u) ^ n).
  { apply Rmult_le_compat_l; [apply Rmult_le_pos; [exact Ph|apply Rabs_pos]|].
    pose proof (pow1u_mono prec 1 n ltac:(lia)). lra. }
  lra.
Qed.

Lemma lu_backward i j : (i < n)%nat -> (j < n)%nat ->
  Rabs (B2R (f i j) - rsum n (fun k => lu_ i j k)) <=
  ((1 + u) ^ n - 1) * rsum n (fun k => Rabs (lu_ i j k)) +
  h * (1 + u) ^ n * (INR n + Rabs (B2R (v j j))).
Proof.
  intros Hi Hj. pose proof (eta_pos prec emax) as Ph. pose proof (pow1u_ge1 prec n) as Pg.
  assert (Z : forall k, (Nat.min i j < k < n)%nat -> lu_ i j k = 0).
  { intros k Hk. destruct Done as [_ [H1 [H2 _]]]. destruct (Nat.le_gt_cases i j).
    - rewrite H1 by lia. change (B2R (lite K 0)) with 0. ring.
    - rewrite H2 by lia. change (B2R (lite K 0)) with 0. ring. }
  rewrite (rsum_zero_tail (S (Nat.min i j)) n (fun k => lu_ i j k)) by (try lia; intros; apply Z; lia).
  rewrite (rsum_zero_tail (S (Nat.min i j)) n (fun k => Rabs (lu_ i j k)))
    by (try lia; intros; rewrite Z by lia; apply Rabs_R0).
  rewrite !rsum_S. destruct (Nat.le_gt_cases i j) as [H|H].
  - rewrite Nat.min_l by lia. rewrite (unit_diag i Hi).
    rewrite (proj1 (f_of_Z_1 prec emax)), Rmult_1_l.
    eapply Rle_trans; [apply entry_upper; lia|]. apply Rplus_le_compat_l.
    assert (0 <= h * (1 + u) ^ n * Rabs (B2R (v j j))); [|lra].
    apply Rmult_le_pos; [apply Rmult_le_pos; lra|apply Rabs_pos].
  - rewrite Nat.min_r by lia. apply entry_lower. lia.
Qed.

End Entry.
End FloatLU.
