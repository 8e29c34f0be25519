(** * Properties C54-C59: rounding errors of the decompositions, statistics,
    determinants and inverses

    As in PropFloat.v: every binary format, [u] = [uro prec] = 2^-prec,
    [h] = [eta prec emax] half the smallest positive number, [B2R x] the value of
    a finite x, [rsum m f] = f 0 + ... + f (m-1). *)

From Coq Require Import ZArith Reals Lra Lia Bool List Arith.
Import ListNotations.
From Flocq Require Import IEEE754.BinarySingleNaN Core.Core Relative Plus_error Double_rounding.
From Verif Require Import Base Scalar CInt CFloat Model Spec Loops Struct Preds Order Stat LURec CholRec
  Float FloatMx FloatErr FloatLU FloatChol FloatStat FloatDet PropFloat.

Local Open Scope nat_scope.

Section Format.
Variables prec emax : Z.
Context {Hp : Prec_gt_0 prec} {He : Prec_lt_emax prec emax}.
Notation fl := (binary_float prec emax).
Notation K := (floatS prec emax).
Notation u := (uro prec).
Notation h := (eta prec emax).
Notation "x ⊕ y" := (Bplus mode_NE x y) (at level 50, left associativity).
Notation "x ⊖ y" := (Bminus mode_NE x y) (at level 50, left associativity).
Notation "x ⊗ y" := (Bmult mode_NE x y) (at level 40, left associativity).
Notation "x ⊘ y" := (Bdiv mode_NE x y) (at level 40, left associativity).
Implicit Types (f g l : nat -> nat -> fl).

(** ** C54 lu: L*U is close to A *)

Theorem c54_lu n f L U : lu K n (mk n n f) = Ok (L, U) -> exists l v,
  L = mk n n l /\ U = mk n n v /\
  ((forall i j, i < n -> j < n -> is_finite (l i j) = true /\ is_finite (v i j) = true) ->
   forall i j, i < n -> j < n ->
   (Rabs (B2R (f i j) - rsum n (fun k => B2R (l i k) * B2R (v k j))) <=
    ((1 + u) ^ n - 1) * rsum n (fun k => Rabs (B2R (l i k) * B2R (v k j))) +
    h * (1 + u) ^ n * (INR n + Rabs (B2R (v j j))))%R).
Proof.
  intros H. destruct (lu_recurrence K n f L U H) as [l [v [-> [-> D]]]].
  exists l, v. split; [reflexivity|]. split; [reflexivity|]. intros F i j Hi Hj.
  apply (lu_backward prec emax n f l v D); auto; intros a b Ha Hb; apply (F a b Ha Hb).
Qed.

(** ** C55 chol: L*trans(L) is close to A *)

Theorem c55_chol n f L : (1 < prec)%Z -> chol K n (mk n n f) = Ok L -> exists l,
  L = mk n n l /\ (forall i j, i < j < n -> l i j = B754_zero false) /\
  ((forall i j, i < n -> j < n -> is_finite (l i j) = true) ->
   (forall i, i < n -> (0 <= B2R (l i i))%R) /\
   forall i j, j <= i < n ->
   (Rabs (B2R (f i j) - rsum n (fun k => B2R (l i k) * B2R (l j k))) <=
    ((1 + u) ^ (n + 2) - 1) * rsum n (fun k => Rabs (B2R (l i k) * B2R (l j k))) +
    h * (1 + u) ^ (n + 2) * (INR (n + 2) + B2R (l j j)))%R).
Proof.
  intros P1 H. destruct (chol_recurrence K n f L H) as [l [-> [Z [D O]]]].
  exists l. split; [reflexivity|]. split; [exact Z|]. intros F. split.
  - intros i Hi. exact (diag_nonneg prec emax n f l P1 D F i Hi).
  - intros i j Hij. exact (chol_backward prec emax n f l P1 Z D O F i j Hij).
Qed.

(** chol on floats always returns: a non-positive pivot shows as NaN or infinity
    in the result, never as an error *)
Theorem c55_total n f : exists L, chol K n (mk n n f) = Ok L.
Proof.
  unfold chol. rewrite init_mk.
  assert (X : forall (I : matrix fl -> Prop) lo hi body s, lo <= hi -> I s ->
    (forall i X, lo <= i < hi -> I X -> exists Y, body i X = Ok Y /\ I Y) ->
    exists Y, for_ lo hi body s = Ok Y /\ I Y).
  { intros I lo hi body s Hl Hs Hb. apply (for_inv (fun _ => I)); auto. }
  assert (M : forall X : matrix fl, shape n n X <-> exists l, X = mk n n l) by (apply (shape_mk (B754_zero false : fl))).
  edestruct (X (shape n n) 0 n) as [Y [E _]]; [lia|apply M; eexists; reflexivity| |exists Y; exact E].
  intros i A Hi HA. apply X; [lia|exact HA|]. intros j B Hj HB. apply M in HB. destruct HB as [l ->].
  destruct (Nat.eqb_spec j i) as [->|Nj].
  - rewrite (for_ext 0 i _ (fun k sum => let* t := xmul (@ld K (l i k)) (@ld K (l i k)) in
      let* v := xadd (@ld K sum) t in Ok (@st K v))).
    2:{ intros k s Hk. rewrite aget_mk by lia. reflexivity. }
    change (for_ 0 i _ (lite K 0)) with (dot K i (fun k => l i k) (fun k => l i k)).
    rewrite dot_fdot. cbn [bind]. rewrite aget_mk by lia. cbn [bind xsub xsqrt floatS].
    rewrite aset_mk by lia. eexists. split; [reflexivity|]. apply M. eexists. reflexivity.
  - rewrite (for_ext 0 i _ (fun k sum => let* t := xmul (@ld K (l i k)) (@ld K (l j k)) in
      let* v := xadd (@ld K sum) t in Ok (@st K v))).
    2:{ intros k s Hk. rewrite !aget_mk by lia. reflexivity. }
    change (for_ 0 i _ (lite K 0)) with (dot K i (fun k => l i k) (fun k => l j k)).
    rewrite dot_fdot. cbn [bind]. rewrite aget_mk by lia. cbn [bind xsub xdiv floatS].
    rewrite aget_mk by lia. cbn [bind xsub xdiv floatS].
    rewrite aset_mk by lia. eexists. split; [reflexivity|]. apply M. eexists. reflexivity.
Qed.

(** ** C56 mean *)

Theorem c56_mean n m f r : 0 < n * m -> (Z.of_nat (n * m) <= 2 ^ prec)%Z -> (Z.of_nat (n * m) < 2 ^ 64)%Z ->
  mean K n m (mk n m f) = Ok r -> is_finite r = true ->
  let N := INR (n * m) in
  (Rabs (B2R r - rsum n (fun i => rsum m (fun j => B2R (f i j))) / N) <=
   ((1 + u) ^ (n * m) - 1) * (rsum n (fun i => rsum m (fun j => Rabs (B2R (f i j)))) / N) + h)%R.
Proof.
  intros H0 H1 H2 E F N. rewrite mean_fsum in E. injection E as <-. rewrite size_mul_small in F |- * by exact H2.
  assert (Fs : is_finite (fsum prec emax (elements (mk n m f))) = true).
  { destruct (f_of_Z_small prec emax (Z.of_nat (n * m)) ltac:(lia)) as [_ [FN _]].
    apply (Bdiv_finite prec emax _ _ F FN). }
  pose proof (fsum_error prec emax _ Fs) as B. pose proof (lsum_abs (@B2R prec emax) (elements (mk n m f))) as SA.
  destruct (div_error prec emax _ (Z.of_nat (n * m)) _ _ _ ltac:(lia) H1 F B SA) as [_ D].
  rewrite (lsum_elements prec emax) in D. rewrite (lsum_elements prec emax) in D.
  rewrite (elements_length K n m f), <- INR_IZR_INZ in D. fold N in D.
  eapply Rle_trans; [exact D|]. right. f_equal. unfold Rdiv. rewrite <- Rmult_assoc. f_equal.
  replace ((1 + u) ^ (n * m))%R with ((1 + u) * (1 + u) ^ (n * m - 1))%R; [ring|].
  replace (n * m) with (S (n * m - 1)) at 2 by lia. reflexivity.
Qed.

(** ** C57 var and stddev *)

(** the variance is never negative (and never -0): NaN or sign bit clear *)
Theorem c57_nonneg n m f r : var K n m (mk n m f) = Ok r ->
  is_nan r = true \/ (Bsign r = false /\ Bltb r (B754_zero false) = false).
Proof.
  intros H. apply (var_nn prec emax) in H. destruct H as [N|S]; [left; exact N|right].
  split; [exact S|]. apply (nn_not_lt prec emax). right. exact S.
Qed.

(** so stddev is NaN only if the variance is *)
Theorem c57_stddev n m f r : var K n m (mk n m f) = Ok r -> exists s,
  stddev K n m (mk n m f) = Ok s /\ (is_nan s = is_nan r) /\
  (is_finite r = true -> is_finite s = true /\
   B2R s = round radix2 (SpecFloat.fexp prec emax) ZnearestE (sqrt (B2R r))).
Proof.
  intros H. unfold stddev. rewrite H. cbn [bind]. pose proof (var_nn prec emax _ _ _ _ H) as N.
  exists (Bsqrt mode_NE r). split; [reflexivity|].
  destruct (Bsqrt_correct _ _ Hp He mode_NE r) as [E [F _]].
  assert (G : is_finite r = true -> is_finite (Bsqrt mode_NE r) = true).
  { intros Fr. rewrite F. destruct N as [N|N]; destruct r as [[]|[]| |[]]; try discriminate; reflexivity. }
  split; [|intros Fr; split; [exact (G Fr)|exact E]].
  destruct (is_finite r) eqn:Fr.
  - specialize (G eq_refl).
    assert (Q : forall x : fl, is_finite x = true -> is_nan x = false) by (intros []; try discriminate; reflexivity).
    rewrite (Q _ G), (Q _ Fr). reflexivity.
  - destruct N as [N|N]; destruct r as [[]|[]| |[]]; try discriminate; reflexivity.
Qed.

(** distance to the exact mean square deviation from the computed mean *)
Lemma fsq_error mu a : is_finite (fsq prec emax mu a) = true ->
  (Rabs (B2R (fsq prec emax mu a) - (B2R a - B2R mu)²) <= ((1 + u) ^ 3 - 1) * (B2R a - B2R mu)² + h)%R.
Proof.
  intros F. unfold fsq in *. destruct (Bmult_finite prec emax _ _ F) as [F1 _].
  destruct (prod_error prec emax _ _ F) as [d [e [Hd [Hh ->]]]].
  destruct (sub_error prec emax _ _ F1) as [d' [Hd' ->]].
  set (x := (B2R a - B2R mu)%R). unfold Rsqr.
  replace (x * (1 + d') * (x * (1 + d')) * (1 + d) + e - x * x)%R with
    (x * x * ((1 + d') * (1 + d') * (1 + d) - 1) + e)%R by ring.
  eapply Rle_trans; [apply Rabs_triang|]. apply Rplus_le_compat; [|exact Hh].
  rewrite Rabs_mult, (Rabs_right (x * x)) by (apply Rle_ge, Rle_0_sqr).
  rewrite Rmult_comm. apply Rmult_le_compat_r; [apply Rle_0_sqr|].
  pose proof (uro_pos prec). pose proof (ap_exact prec 1) as A.
  apply (fun A => ap_rnd prec _ _ _ _ _ _ A Hd') in A. apply (fun A => ap_rnd prec _ _ _ _ _ _ A Hd') in A.
  apply (fun A => ap_rnd prec _ _ _ _ _ _ A Hd) in A. destruct A as [_ [A _]].
  change (0 + 1 + 1 + 1) with 3 in A. rewrite Rabs_R1 in A.
  replace (1 * (1 + d') * (1 + d') * (1 + d))%R with ((1 + d') * (1 + d') * (1 + d))%R in A by ring. lra.
Qed.

Theorem c57_error n m f mu r : 0 < n * m -> (Z.of_nat (n * m) <= 2 ^ prec)%Z -> (Z.of_nat (n * m) < 2 ^ 64)%Z ->
  mean K n m (mk n m f) = Ok mu -> var K n m (mk n m f) = Ok r -> is_finite r = true ->
  let V := (rsum n (fun i => rsum m (fun j => (B2R (f i j) - B2R mu)²)) / INR (n * m))%R in
  (Rabs (B2R r - V) <= ((1 + u) ^ (n * m + 3) - 1) * V + h * ((1 + u) ^ (n * m) + 1))%R.
Proof.
  intros H0 H1 H2 Em E F V. rewrite (var_fsum prec emax n m f mu Em) in E. injection E as <-.
  rewrite size_mul_small in F |- * by exact H2.
  set (w := elements (mk n m f)) in *. set (z := map (fsq prec emax mu) w) in *.
  assert (Fs : is_finite (fsum prec emax z) = true).
  { destruct (f_of_Z_small prec emax (Z.of_nat (n * m)) ltac:(lia)) as [_ [FN _]].
    apply (Bdiv_finite prec emax _ _ F FN). }
  assert (Lw : length w = n * m) by apply (elements_length K n m f).
  assert (Lz : length z = n * m) by (unfold z; rewrite map_length; exact Lw).
  pose proof (fsum_error prec emax _ Fs) as B. rewrite Lz in B.
  pose proof (fsum_finite prec emax _ Fs) as Fz.
  set (g := fun a : fl => (B2R a - B2R mu)²) in *.
  pose proof (uro_pos prec) as Pu. pose proof (eta_pos prec emax) as Ph.
  assert (W0 : (0 <= lsum g w)%R) by (apply lsum_nonneg; intros; apply Rle_0_sqr).
  assert (Pz : forall y : list fl, (forall x, In x y -> is_finite (fsq prec emax mu x) = true) ->
    (Rabs (lsum B2R (map (fsq prec emax mu) y) - lsum g y) <= ((1 + u) ^ 3 - 1) * lsum g y + INR (length y) * h)%R /\
    (lsum (fun x => Rabs (B2R x)) (map (fsq prec emax mu) y) <= (1 + u) ^ 3 * lsum g y + INR (length y) * h)%R).
  { unfold lsum. induction y as [|x y IH]; intros Hf.
    - simpl. rewrite Rminus_0_r, Rabs_R0. lra.
    - destruct IH as [I1 I2]; [intros; apply Hf; right; assumption|].
      pose proof (fsq_error mu x (Hf x ltac:(left; reflexivity))) as Q. fold (g x) in Q.
      change (length (x :: y)) with (S (length y)). rewrite S_INR. cbn [map fold_right].
      assert (G : (0 <= g x)%R) by apply Rle_0_sqr.
      split.
      + match goal with |- (Rabs ?e <= _)%R =>
          replace e with ((B2R (fsq prec emax mu x) - g x) +
            (fold_right Rplus 0 (map B2R (map (fsq prec emax mu) y)) - fold_right Rplus 0 (map g y)))%R by ring end.
        eapply Rle_trans; [apply Rabs_triang|]. lra.
      + assert (Rabs (B2R (fsq prec emax mu x)) <= (1 + u) ^ 3 * g x + h)%R; [|lra].
        replace (B2R (fsq prec emax mu x)) with ((B2R (fsq prec emax mu x) - g x) + g x)%R by ring.
        eapply Rle_trans; [apply Rabs_triang|]. rewrite (Rabs_right (g x)) by lra. lra. }
  destruct (Pz w) as [P1 P2].
  { intros x I. apply Fz. unfold z. apply in_map. exact I. }
  fold z in P1, P2. rewrite Lw in P1, P2.
  assert (B' : (Rabs (B2R (fsum prec emax z) - lsum g w) <=
     ((1 + u) ^ (n * m + 2) - 1) * lsum g w + INR (n * m) * h * (1 + u) ^ (n * m - 1))%R).
  { replace (B2R (fsum prec emax z) - lsum g w)%R with
      ((B2R (fsum prec emax z) - lsum B2R z) + (lsum B2R z - lsum g w))%R by ring.
    eapply Rle_trans; [apply Rabs_triang|].
    assert (T : (((1 + u) ^ (n * m - 1) - 1) * lsum (fun x => Rabs (B2R x)) z <=
      ((1 + u) ^ (n * m - 1) - 1) * ((1 + u) ^ 3 * lsum g w + INR (n * m) * h))%R).
    { apply Rmult_le_compat_l; [apply gam_nonneg|exact P2]. }
    replace (n * m + 2) with (n * m - 1 + 3) by lia. rewrite pow_add. lra. }
  assert (SA : (Rabs (lsum g w) <= lsum g w)%R) by (rewrite Rabs_right by lra; lra).
  destruct (div_error prec emax _ (Z.of_nat (n * m)) _ _ _ ltac:(lia) H1 F B' SA) as [_ D].
  rewrite <- INR_IZR_INZ in D. unfold w in D. rewrite (lsum_elements prec emax) in D.
  unfold g in D. unfold V. eapply Rle_trans; [exact D|]. right.
  set (Q := rsum n _).
  assert (N0 : (INR (n * m) <> 0)%R) by (apply not_0_INR; lia).
  replace (n * m + 3) with (S (n * m + 2)) by lia. rewrite <- tech_pow_Rmult.
  replace ((1 + u) ^ (n * m))%R with ((1 + u) * (1 + u) ^ (n * m - 1))%R.
  2:{ replace (n * m) with (S (n * m - 1)) at 2 by lia. reflexivity. }
  generalize ((1 + u) ^ (n * m - 1))%R, ((1 + u) ^ (n * m + 2))%R. intros q1 q2. field. exact N0.
Qed.

(** ** C59 determinants and inverses *)

Theorem c59_det2 (a b c d r : fl) : det K 2 [[a; b]; [c; d]] = Ok r -> is_finite r = true ->
  (Rabs (B2R r - (B2R a * B2R d - B2R b * B2R c)) <=
   ((1 + u) ^ 2 - 1) * (Rabs (B2R a * B2R d) + Rabs (B2R b * B2R c)) + 2 * h * (1 + u))%R.
Proof. apply det2_error. Qed.

Theorem c59_det3 (a b c d e f g p i r : fl) :
  det K 3 [[a; b; c]; [d; e; f]; [g; p; i]] = Ok r -> is_finite r = true ->
  let A := B2R a in let B := B2R b in let C := B2R c in
  let D := B2R d in let E := B2R e in let F := B2R f in
  let G := B2R g in let P := B2R p in let I := B2R i in
  (Rabs (B2R r - (A * E * I + B * F * G + C * D * P - C * E * G - B * D * I - A * F * P)) <=
   ((1 + u) ^ 7 - 1) * (Rabs (A * E * I) + Rabs (B * F * G) + Rabs (C * D * P)
                       + Rabs (C * E * G) + Rabs (B * D * I) + Rabs (A * F * P)) +
   h * (1 + u) ^ 6 * (2 * (Rabs G + Rabs P + Rabs I) + 6))%R.
Proof. apply det3_error. Qed.

(** an exactly singular 2x2 matrix is rejected, unless the products overflow *)
Theorem c59_singular (a b c d r : fl) : (B2R a * B2R d = B2R b * B2R c)%R ->
  det K 2 [[a; b]; [c; d]] = Ok r -> is_finite r = true ->
  inv K 2 [[a; b]; [c; d]] = Throw OverflowError.
Proof.
  intros H D F. pose proof (det2_singular prec emax a b c d r D F H) as Z. rewrite inv2_fl.
  rewrite det2_fl in D. injection D as D. rewrite D.
  rewrite (proj2 (Beqb_finite prec emax r (f_of_Z prec emax 0) F eq_refl) Z). reflexivity.
Qed.

(** a 2x2 matrix whose determinant is larger than the rounding error is accepted,
    and each element of the result is near the exact inverse *)
Theorem c59_inv2 (a b c d r : fl) : let Delta := (B2R a * B2R d - B2R b * B2R c)%R in
  let beta := (((1 + u) ^ 2 - 1) * (Rabs (B2R a * B2R d) + Rabs (B2R b * B2R c)) + 2 * h * (1 + u))%R in
  det K 2 [[a; b]; [c; d]] = Ok r -> is_finite r = true -> (beta < Rabs Delta)%R ->
  exists x y z w, inv K 2 [[a; b]; [c; d]] = Ok [[x; y]; [z; w]] /\
  let near (q : fl) X := is_finite q = true ->
    (Rabs (B2R q - X / Delta) <= (Rabs X * beta / Rabs Delta + u * Rabs X) / Rabs (B2R r) + h)%R in
  near x (B2R d) /\ near y (- B2R b)%R /\ near z (- B2R c)%R /\ near w (B2R a).
Proof.
  intros Delta beta D F L. pose proof (det2_error prec emax a b c d r D F) as B. fold Delta beta in B.
  assert (ND : Delta <> 0%R).
  { intros Z. rewrite Z, Rabs_R0 in L. pose proof (Rabs_pos (B2R r - Delta)). lra. }
  assert (NR : Beqb r (f_of_Z prec emax 0) = false).
  { destruct (Beqb r (f_of_Z prec emax 0)) eqn:E; [|reflexivity].
    apply (Beqb_finite prec emax r (f_of_Z prec emax 0) F eq_refl) in E. change (B2R r = 0%R) in E. rewrite E in B.
    replace (0 - Delta)%R with (- Delta)%R in B by ring. rewrite Rabs_Ropp in B. lra. }
  rewrite inv2_fl. rewrite det2_fl in D. injection D as ->. rewrite NR.
  do 4 eexists. split; [reflexivity|]. cbv zeta.
  assert (N : forall x : fl, is_finite (x ⊘ r) = true ->
    (Rabs (B2R (x ⊘ r) - B2R x / Delta) <=
     (Rabs (B2R x) * beta / Rabs Delta + u * Rabs (B2R x)) / Rabs (B2R r) + h)%R).
  { intros x Fx.
    pose proof (div_by_approx prec emax x r (B2R x) Delta beta 0 F Fx ND B) as Q.
    rewrite Rminus_eq_0, Rabs_R0 in Q. specialize (Q (Rle_refl _)). rewrite Rplus_0_l in Q. exact Q. }
  rewrite <- !B2R_Bopp. repeat split; apply N.
Qed.

(** the error of one element of the 3x3 inverse: the minor x*y - z*w over the determinant *)
Definition near3 (r : fl) (Delta beta : R) (q x y z w : fl) : Prop :=
  let X := (B2R x * B2R y - B2R z * B2R w)%R in
  let gamma := (((1 + u) ^ 2 - 1) * (Rabs (B2R x * B2R y) + Rabs (B2R z * B2R w)) + 2 * h * (1 + u))%R in
  is_finite q = true ->
  (Rabs (B2R q - X / Delta) <=
   (gamma + Rabs X * beta / Rabs Delta + u * (Rabs X + gamma)) / Rabs (B2R r) + h)%R.

(** a 3x3 matrix whose determinant is larger than the rounding error is accepted,
    and each element of the result is near the exact inverse, adjugate over determinant *)
Theorem c59_inv3 (a b c d e f g p i r : fl) :
  let A := B2R a in let B := B2R b in let C := B2R c in
  let D := B2R d in let E := B2R e in let F := B2R f in
  let G := B2R g in let P := B2R p in let I := B2R i in
  let Delta := (A * E * I + B * F * G + C * D * P - C * E * G - B * D * I - A * F * P)%R in
  let beta := (((1 + u) ^ 7 - 1) * (Rabs (A * E * I) + Rabs (B * F * G) + Rabs (C * D * P)
                       + Rabs (C * E * G) + Rabs (B * D * I) + Rabs (A * F * P)) +
   h * (1 + u) ^ 6 * (2 * (Rabs G + Rabs P + Rabs I) + 6))%R in
  det K 3 [[a; b; c]; [d; e; f]; [g; p; i]] = Ok r -> is_finite r = true -> (beta < Rabs Delta)%R ->
  exists x11 x12 x13 x21 x22 x23 x31 x32 x33,
  inv K 3 [[a; b; c]; [d; e; f]; [g; p; i]] = Ok [[x11; x12; x13]; [x21; x22; x23]; [x31; x32; x33]] /\
  let near := near3 r Delta beta in
  (near x11 e i f p /\ near x12 c p b i /\ near x13 b f c e) /\
  (near x21 f g d i /\ near x22 a i c g /\ near x23 c d a f) /\
  (near x31 d p e g /\ near x32 b g a p /\ near x33 a e b d).
Proof.
  intros A B C D E F G P I Delta beta Dr Fr L.
  pose proof (det3_error prec emax a b c d e f g p i r Dr Fr) as Bd. cbv zeta in Bd. fold A B C D E F G P I in Bd.
  fold Delta beta in Bd. rewrite (inv3_fl prec emax a b c d e f g p i r Dr).
  destruct (Beqb r (f_of_Z prec emax 0)) eqn:Q.
  { exfalso.
    apply (Beqb_finite prec emax r (f_of_Z prec emax 0) Fr eq_refl) in Q. change (B2R r = 0%R) in Q. rewrite Q in Bd.
    replace (0 - Delta)%R with (- Delta)%R in Bd by ring. rewrite Rabs_Ropp in Bd. lra. }
  assert (ND : Delta <> 0%R).
  { intros Z. rewrite Z, Rabs_R0 in L. pose proof (Rabs_pos (B2R r - Delta)). lra. }
  do 9 eexists. split; [reflexivity|]. cbv zeta.
  assert (N : forall x y z w : fl, near3 r Delta beta ((x ⊗ y ⊖ z ⊗ w) ⊘ r) x y z w).
  { intros x y z w. unfold near3. cbv zeta. intros Fq.
    assert (Fm : is_finite (x ⊗ y ⊖ z ⊗ w) = true)
      by (destruct (Bdiv_finite prec emax _ r Fq Fr) as [? _]; assumption).
    pose proof (det2_error prec emax x z w y _ (det2_fl prec emax x z w y) Fm) as G1.
    set (gamma := (((1 + u) ^ 2 - 1) * _ + _)%R) in *.
    set (X := (B2R x * B2R y - B2R z * B2R w)%R) in *.
    pose proof (div_by_approx prec emax _ r X Delta beta gamma Fr Fq ND Bd G1) as Q1.
    eapply Rle_trans; [exact Q1|]. apply Rplus_le_compat_r. unfold Rdiv at 1 3. apply Rmult_le_compat_r.
    - destruct (Bdiv_finite prec emax _ r Fq Fr) as (_ & NZ & _).
      apply Rlt_le, Rinv_0_lt_compat, Rabs_pos_lt, NZ.
    - apply Rplus_le_compat_l, Rmult_le_compat_l; [apply Rlt_le, uro_pos|].
      pose proof (Rabs_triang X (B2R (x ⊗ y ⊖ z ⊗ w) - X)) as T.
      replace (X + (B2R (x ⊗ y ⊖ z ⊗ w) - X))%R with (B2R (x ⊗ y ⊖ z ⊗ w)) in T by ring. lra. }
  repeat split; apply N.
Qed.

End Format.

(** C55: taking the square root of a float in double and rounding the result back
    to float gives the same number as the float square root *)
Theorem c55_sqrt_double (x : elt float32S) (y : elt float64S) :
  is_finite x = true -> (0 <= B2R x)%R -> B2R y = B2R x ->
  round radix2 (SpecFloat.fexp 24 128) ZnearestE (B2R (Bsqrt mode_NE y)) = B2R (Bsqrt mode_NE x).
Proof.
  intros F P E. rewrite (proj1 (Bsqrt_correct 53 1024 _ _ mode_NE y)), (proj1 (Bsqrt_correct 24 128 _ _ mode_NE x)).
  rewrite E. cbn [round_mode].
  apply (round_round_sqrt_FLT radix2 (-149) 24 (-1074) 53); try (exact eq_refl || lia).
  apply FLT_format_generic; [exact eq_refl|]. apply (generic_format_B2R 24 128).
Qed.

(** ** C58: the mean of equal elements need not be that element *)

Definition tenth32 : elt float32S := Bdiv mode_NE (fz32 1) (fz32 10).
Definition tenth64 : elt float64S := Bdiv mode_NE (fz64 1) (fz64 10).

Definition lt_out {K : scalar} (x : elt K) (r : outcome (elt K)) : bool :=
  match r with Ok y => less K x y | _ => false end.

Lemma c58_check :
  lt_out (K := float32S) tenth32 (mean float32S 1 7 (mk 1 7 (fun _ _ => tenth32))) &&
  lt_out (K := float64S) tenth64 (mean float64S 1 3 (mk 1 3 (fun _ _ => tenth64))) &&
  lt_out (K := float32S) (fz32 0) (var float32S 1 7 (mk 1 7 (fun _ _ => tenth32))) &&
  lt_out (K := float64S) (fz64 0) (var float64S 1 3 (mk 1 3 (fun _ _ => tenth64))) = true.
Proof. vm_compute. reflexivity. Qed.

Lemma lt_out_inv {K : scalar} (x : elt K) r : lt_out x r = true -> exists y, r = Ok y /\ less K x y = true.
Proof. destruct r; try discriminate. intros H. eexists. split; [reflexivity|exact H]. Qed.

Theorem c58_mean :
  (exists m x r, mean float32S 1 m (mk 1 m (fun _ _ => x)) = Ok r /\ less float32S x r = true) /\
  (exists m x r, mean float64S 1 m (mk 1 m (fun _ _ => x)) = Ok r /\ less float64S x r = true).
Proof.
  pose proof c58_check as H. apply andb_prop in H. destruct H as [H H4]. apply andb_prop in H.
  destruct H as [H H3]. apply andb_prop in H. destruct H as [H1 H2].
  split; [exists 7, tenth32|exists 3, tenth64]; apply lt_out_inv; assumption.
Qed.

(** ... and the variance of equal elements need not be 0 *)
Theorem c58_var :
  (exists m x r, var float32S 1 m (mk 1 m (fun _ _ => x)) = Ok r /\ less float32S (fz32 0) r = true) /\
  (exists m x r, var float64S 1 m (mk 1 m (fun _ _ => x)) = Ok r /\ less float64S (fz64 0) r = true).
Proof.
  pose proof c58_check as H. apply andb_prop in H. destruct H as [H H4]. apply andb_prop in H.
  destruct H as [H H3]. split; [exists 7, tenth32|exists 3, tenth64]; apply lt_out_inv; assumption.
Qed.

(** ** C59 witnesses *)

Definition mz32 (A : list (list Z)) : matrix (elt float32S) := map (map fz32) A.
Definition returnsb {X} (o : outcome X) : bool := match o with Ok _ => true | _ => false end.
Definition throwsb {X} (o : outcome X) : bool := match o with Throw OverflowError => true | _ => false end.

Lemma returnsb_inv {X} (o : outcome X) : returnsb o = true -> exists x, o = Ok x.
Proof. destruct o; try discriminate. eexists. reflexivity. Qed.
Lemma throwsb_inv {X} (o : outcome X) : throwsb o = true -> o = Throw OverflowError.
Proof. destruct o as [|[]| | |]; try discriminate. reflexivity. Qed.

(** third row = first + second, yet inv returns a matrix *)
Definition sing3 : list (list Z) := [[71; 162; 153]; [184; 189; 186]; [255; 351; 339]]%Z.
(** all products overflow to infinity and their difference is NaN *)
Definition sing2 : list (list Z) := [[2 ^ 100; 2 ^ 100]; [2 ^ 100; 2 ^ 100]]%Z.
(** determinant (2^23 + 1)^2 - (2^23 + 2) 2^23 = 1, computed 0 *)
Definition nons2 : list (list Z) := [[8388609; 8388610]; [8388608; 8388609]]%Z.

Lemma c59_check : returnsb (inv float32S 3 (mz32 sing3)) && returnsb (inv float32S 2 (mz32 sing2)) &&
  throwsb (inv float32S 2 (mz32 nons2)) = true.
Proof. vm_compute. reflexivity. Qed.

Definition zdet2 (A : list (list Z)) : Z :=
  match A with [[a; b]; [c; d]] => a * d - b * c | _ => 0 end%Z.
Definition zdet3 (A : list (list Z)) : Z :=
  match A with [[a; b; c]; [d; e; f]; [g; h; i]] => a * (e * i - f * h) - b * (d * i - f * g) + c * (d * h - e * g) | _ => 0 end%Z.

Theorem c59_accepts_singular : exists A X, zdet3 A = 0%Z /\
  Forall (Forall (fun z => 0 <= z < 2 ^ 24)%Z) A /\ inv float32S 3 (mz32 A) = Ok X.
Proof.
  pose proof c59_check as H. apply andb_prop in H. destruct H as [H _]. apply andb_prop in H. destruct H as [H _].
  apply returnsb_inv in H. destruct H as [X E].
  exists sing3, X. split; [reflexivity|]. split; [|exact E]. repeat constructor; lia.
Qed.

Theorem c59_overflow : exists A X, zdet2 A = 0%Z /\
  Forall (Forall (fun x => is_finite x = true)) (mz32 A) /\ inv float32S 2 (mz32 A) = Ok X.
Proof.
  pose proof c59_check as H. apply andb_prop in H. destruct H as [H _]. apply andb_prop in H. destruct H as [_ H].
  apply returnsb_inv in H. destruct H as [X E].
  exists sing2, X. split; [reflexivity|]. split; [|exact E].
  apply Forall_forall. intros row I. apply Forall_forall. intros x J.
  assert (C : forallb (forallb (fun x => is_finite x)) (mz32 sing2) = true) by (vm_compute; reflexivity).
  exact (proj1 (forallb_forall _ _) (proj1 (forallb_forall _ _) C row I) x J).
Qed.

Theorem c59_rejects_nonsingular : exists A, zdet2 A = 1%Z /\
  Forall (Forall (fun z => 0 <= z < 2 ^ 24)%Z) A /\ inv float32S 2 (mz32 A) = Throw OverflowError.
Proof.
  pose proof c59_check as H. apply andb_prop in H. destruct H as [_ H].
  exists nons2. split; [reflexivity|]. split; [repeat constructor; lia|].
  exact (throwsb_inv _ H).
Qed.

(** the hypotheses above on concrete matrices: everything returned is finite *)
Example c54_ex : match lu float32S 3 (mz32 [[3; 1; 2]; [1; 4; 1]; [2; 1; 5]]%Z) with
  | Ok (L, U) => forallb (forallb (fun x => is_finite x)) L && forallb (forallb (fun x => is_finite x)) U
  | _ => false end = true.
Proof. vm_compute. reflexivity. Qed.

Example c55_ex : match chol float32S 3 (mz32 [[3; 1; 2]; [1; 4; 1]; [2; 1; 5]]%Z) with
  | Ok L => forallb (forallb (fun x => is_finite x)) L | _ => false end = true.
Proof. vm_compute. reflexivity. Qed.

Example c56_ex : match mean float32S 2 2 (mz32 [[3; 1]; [1; 5]]%Z), var float32S 2 2 (mz32 [[3; 1]; [1; 5]]%Z) with
  | Ok r, Ok s => is_finite r && is_finite s | _, _ => false end = true.
Proof. vm_compute. reflexivity. Qed.

Example c59_ex : match det float32S 2 (mz32 [[3; 1]; [1; 5]]%Z), det float32S 3 (mz32 sing3) with
  | Ok r, Ok s => is_finite r && is_finite s | _, _ => false end = true.
Proof. vm_compute. reflexivity. Qed.

(** a 3x3 matrix whose determinant, 40, exceeds the rounding error *)
Example c59_ex3_check :
  match det float32S 3 (mz32 [[3; 1; 2]; [1; 4; 1]; [2; 1; 5]]%Z) with
  | Ok r => is_finite r && Beqb r (f_of_Z 24 128 40) | _ => false end = true.
Proof. vm_compute. reflexivity. Qed.

Example c59_ex3 : exists r, det float32S 3 (mz32 [[3; 1; 2]; [1; 4; 1]; [2; 1; 5]]%Z) = Ok r /\
  is_finite r = true /\ B2R r = 40%R /\
  (((1 + uro 24) ^ 7 - 1) * (60 + 2 + 2 + 16 + 5 + 3) + eta 24 128 * (1 + uro 24) ^ 6 * (2 * (2 + 1 + 5) + 6) < 40)%R.
Proof.
  pose proof c59_ex3_check as H. destruct (det float32S 3 _) as [r| | | |]; try discriminate H.
  exists r. apply andb_prop in H. destruct H as [F H].
  destruct (f_of_Z_small 24 128 40) as (E & F' & _); [vm_compute; discriminate|].
  split; [reflexivity|]. split; [exact F|]. split; [rewrite <- E; apply (Beqb_finite 24 128); assumption|].
  unfold uro, eta. cbn -[pow]. lra.
Qed.

Print Assumptions c54_lu.
Print Assumptions c55_chol.
Print Assumptions c55_total.
Print Assumptions c55_sqrt_double.
Print Assumptions c56_mean.
Print Assumptions c57_nonneg.
Print Assumptions c57_stddev.
Print Assumptions c57_error.
Print Assumptions c58_mean.
Print Assumptions c58_var.
Print Assumptions c59_det2.
Print Assumptions c59_det3.
Print Assumptions c59_singular.
Print Assumptions c59_inv2.
Print Assumptions c59_inv3.
Print Assumptions c59_accepts_singular.
Print Assumptions c59_overflow.
Print Assumptions c59_rejects_nonsingular.
