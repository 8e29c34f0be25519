(** * mean, var and stddev in floating point *)

From Coq Require Import ZArith Reals Lra Lia Bool List Arith.
Import ListNotations.
From Flocq Require Import IEEE754.BinarySingleNaN Core.Core Relative Plus_error.
From Verif Require Import Base Scalar CFloat Model Spec Loops Struct LURec Stat Float FloatMx FloatErr FloatLU.

Section FloatStat.
Variables prec emax : Z.
Context {Hp : Prec_gt_0 prec} {He : Prec_lt_emax prec emax}.
Notation fl := (binary_float prec emax).
Notation K := (floatS prec emax).
Notation rnd := (round radix2 (SpecFloat.fexp prec emax) ZnearestE).
Notation u := (uro prec).
Notation h := (eta prec emax).
Notation "x ⊕ y" := (Bplus mode_NE x y) (at level 50, left associativity).
Notation "x ⊖ y" := (Bminus mode_NE x y) (at level 50, left associativity).
Notation "x ⊗ y" := (Bmult mode_NE x y) (at level 40, left associativity).
Notation "x ⊘ y" := (Bdiv mode_NE x y) (at level 40, left associativity).
Notation zero := (B754_zero false : fl).
Implicit Types (f : nat -> nat -> fl) (v : list fl).

Definition fsum v : fl := fold_left (fun s a => s ⊕ a) v zero.
Definition lsum {X} (g : X -> R) (v : list X) : R := fold_right Rplus 0%R (map g v).

Lemma lsum_app {X} (g : X -> R) a b : lsum g (a ++ b) = (lsum g a + lsum g b)%R.
Proof. unfold lsum. induction a as [|x a IH]; simpl; [ring|]. rewrite IH. ring. Qed.

Lemma lsum_nonneg {X} (g : X -> R) a : (forall x, 0 <= g x)%R -> (0 <= lsum g a)%R.
Proof. intros H. unfold lsum. induction a as [|x a IH]; simpl; [lra|]. pose proof (H x). lra. Qed.

Lemma lsum_abs {X} (g : X -> R) a : (Rabs (lsum g a) <= lsum (fun x => Rabs (g x)) a)%R.
Proof.
  unfold lsum. induction a as [|x a IH]; simpl; [rewrite Rabs_R0; lra|].
  eapply Rle_trans; [apply Rabs_triang|]. lra.
Qed.

Lemma lsum_elements (g : fl -> R) n m f :
  lsum g (elements (mk n m f)) = rsum n (fun i => rsum m (fun j => g (f i j))).
Proof.
  rewrite (elements_mk K n m f). unfold rsum at 1. generalize 0 at 2 3. induction n as [|n IH]; intros lo; [reflexivity|].
  simpl. rewrite lsum_app, IH. f_equal. unfold lsum, rsum. rewrite map_map. reflexivity.
Qed.

Lemma fsum_snoc v a : fsum (v ++ [a]) = fsum v ⊕ a.
Proof. unfold fsum. rewrite fold_left_app. reflexivity. Qed.

Lemma fsum_finite v : is_finite (fsum v) = true -> forall x, In x v -> is_finite x = true.
Proof.
  induction v as [|a v IH] using rev_ind; [intros _ x []|]. rewrite fsum_snoc. intros H x I.
  destruct (Bplus_finite prec emax _ _ H) as [F1 [F2 _]]. apply in_app_or in I.
  destruct I as [I|[<-|[]]]; auto.
Qed.

(** additions do not underflow: the bound is purely relative *)
Lemma fsum_error v : is_finite (fsum v) = true ->
  (Rabs (B2R (fsum v) - lsum B2R v) <=
   ((1 + u) ^ (length v - 1) - 1) * lsum (fun x => Rabs (B2R x)) v)%R.
Proof.
  induction v as [|a v IH] using rev_ind.
  { intros _. unfold lsum. simpl. rewrite Rminus_0_r, Rabs_R0. lra. }
  rewrite fsum_snoc. intros H. destruct (Bplus_finite prec emax _ _ H) as [F1 [F2 _]].
  rewrite !lsum_app, app_length. replace (length v + length [a] - 1) with (length v) by (simpl; lia).
  destruct v as [|b v].
  { change (fsum []) with zero. destruct (Bplus_zero_l prec emax zero a eq_refl F2 eq_refl) as [_ V].
    rewrite V. unfold lsum. simpl. replace (B2R a - (0 + (B2R a + 0)))%R with 0%R by ring. rewrite Rabs_R0. lra. }
  set (w := b :: v) in *. destruct (sum_error prec emax _ _ H) as [d [Hd Ed]]. rewrite Ed.
  specialize (IH F1). set (c := B2R (fsum w)) in *. set (S1 := lsum B2R w) in *.
  pose proof (lsum_abs (@B2R prec emax) w) as SA. fold S1 in SA.
  set (S2 := lsum (fun x => Rabs (B2R x)) w) in *.
  replace (lsum B2R [a]) with (B2R a) by (unfold lsum; simpl; ring).
  replace (lsum (fun x => Rabs (B2R x)) [a]) with (Rabs (B2R a)) by (unfold lsum; simpl; ring).
  replace ((c + B2R a) * (1 + d) - (S1 + B2R a))%R with ((c - S1) * (1 + d) + S1 * d + B2R a * d)%R by ring.
  assert (E : length w = S (length w - 1)) by (unfold w; simpl; lia).
  pose proof (uro_pos prec) as Pu. pose proof (pow1u_ge1 prec (length w - 1)) as Pg.
  eapply Rle_trans; [apply Rabs3|]. rewrite !Rabs_mult.
  assert (B1 : (Rabs (1 + d) <= 1 + u)%R).
  { eapply Rle_trans; [apply Rabs_triang|]. rewrite Rabs_R1. lra. }
  assert (T1 : (Rabs (c - S1) * Rabs (1 + d) <= ((1 + u) ^ (length w - 1) - 1) * S2 * (1 + u))%R)
    by (apply Rmult_le_compat; auto using Rabs_pos).
  assert (T2 : (Rabs S1 * Rabs d <= S2 * u)%R) by (apply Rmult_le_compat; auto using Rabs_pos).
  assert (T3 : (Rabs (B2R a) * Rabs d <= Rabs (B2R a) * u)%R) by (apply Rmult_le_compat_l; auto using Rabs_pos).
  pose proof (gam1 prec (Rabs (B2R a)) (Rabs_pos _) (length w) ltac:(lia)) as T4.
  assert (T5 : (((1 + u) ^ (length w - 1) - 1) * S2 * (1 + u) + S2 * u = ((1 + u) ^ length w - 1) * S2)%R).
  { replace ((1 + u) ^ length w)%R with ((1 + u) * (1 + u) ^ (length w - 1))%R by (rewrite E at 2; reflexivity). ring. }
  lra.
Qed.

Lemma mean_fsum n m f : mean K n m (mk n m f) = Ok (fsum (elements (mk n m f)) ⊘ f_of_Z prec emax (size_mul n m)).
Proof.
  unfold mean. change (lite K 0) with zero.
  rewrite (for_ext 0 n _ (fun it r => for_ 0 m (fun jt r =>
    let* a := aget (mk n m f) it jt in Ok ((fun a r => r ⊕ a) a r)) r)).
  - rewrite (row_fold K n m f (fun a r => r ⊕ a)). reflexivity.
  - intros i r Hi. reflexivity.
Qed.

Definition fsq (mu a : fl) : fl := (a ⊖ mu) ⊗ (a ⊖ mu).

Lemma var_fsum n m f mu : mean K n m (mk n m f) = Ok mu ->
  var K n m (mk n m f) = Ok (fsum (map (fsq mu) (elements (mk n m f))) ⊘ f_of_Z prec emax (size_mul n m)).
Proof.
  intros Hm. unfold var. rewrite Hm. cbn [bind]. change (lite K 0) with zero.
  rewrite (for_ext 0 n _ (fun it r => for_ 0 m (fun jt r =>
    let* a := aget (mk n m f) it jt in Ok ((fun a r => r ⊕ fsq mu a) a r)) r)).
  - rewrite (row_fold K n m f (fun a r => r ⊕ fsq mu a)). unfold fsum.
    assert (X : forall v s, fold_left (fun s a => s ⊕ fsq mu a) v s = fold_left (fun s a => s ⊕ a) (map (fsq mu) v) s).
    { induction v as [|x v IH]; intros s; [reflexivity|]. simpl. apply IH. }
    rewrite X. reflexivity.
  - intros i r Hi. reflexivity.
Qed.

Lemma size_mul_small n m : (Z.of_nat (n * m) < 2 ^ 64)%Z -> size_mul n m = Z.of_nat (n * m).
Proof. intros H. unfold size_mul. rewrite <- Nat2Z.inj_mul. apply Z.mod_small. lia. Qed.

(** dividing an error bound for the sum by the number of elements *)
Lemma div_error (s : fl) N S1 S2 B : (0 < N)%Z -> (N <= 2 ^ prec)%Z ->
  is_finite (s ⊘ f_of_Z prec emax N) = true ->
  (Rabs (B2R s - S1) <= B)%R -> (Rabs S1 <= S2)%R ->
  is_finite s = true /\
  (Rabs (B2R (s ⊘ f_of_Z prec emax N) - S1 / IZR N) <= (B * (1 + u) + u * S2) / IZR N + h)%R.
Proof.
  intros HN H2 F HB HS.
  destruct (f_of_Z_small prec emax N ltac:(lia)) as [EN [FN _]].
  destruct (Bdiv_finite prec emax _ _ F FN) as [Fs [Nz E]]. split; [exact Fs|].
  rewrite E, EN. destruct (rnd_any prec emax (B2R s / IZR N)) as [d [e [Hd [Hh ->]]]].
  assert (PN : (0 < IZR N)%R) by (apply IZR_lt; lia).
  replace (B2R s / IZR N * (1 + d) + e - S1 / IZR N)%R with
    (((B2R s - S1) * (1 + d) + S1 * d) / IZR N + e)%R by (field; lra).
  eapply Rle_trans; [apply Rabs_triang|]. apply Rplus_le_compat; [|exact Hh].
  unfold Rdiv. rewrite Rabs_mult. rewrite (Rabs_right (/ IZR N)) by (left; apply Rinv_0_lt_compat; exact PN).
  apply Rmult_le_compat_r; [left; apply Rinv_0_lt_compat; exact PN|].
  eapply Rle_trans; [apply Rabs_triang|]. rewrite !Rabs_mult.
  assert (B1 : (Rabs (1 + d) <= 1 + u)%R).
  { eapply Rle_trans; [apply Rabs_triang|]. rewrite Rabs_R1. lra. }
  apply Rplus_le_compat.
  - apply Rmult_le_compat; auto using Rabs_pos.
  - rewrite Rmult_comm. apply Rmult_le_compat; auto using Rabs_pos.
Qed.

(** ** never negative *)

(** NaN or sign bit clear *)
Definition nn (x : fl) : Prop := is_nan x = true \/ Bsign x = false.

Lemma nn_not_lt (x : fl) : nn x <-> (Bltb x zero = false /\ x <> B754_zero true).
Proof.
  split.
  - intros [H|H]; destruct x as [[]|[]| |[]]; try discriminate; split; try reflexivity; discriminate.
  - intros [H N]. destruct x as [[]|[]| |[]]; try discriminate; try (right; reflexivity);
      try (left; reflexivity); try congruence.
Qed.

Lemma Bsign_overflow (x : fl) : B2SF x = binary_overflow prec emax mode_NE false -> nn x.
Proof. destruct x as [[]|[]| |[]]; intros H; try discriminate; right; reflexivity. Qed.

Lemma nn_sq (d : fl) : nn (d ⊗ d).
Proof.
  destruct d as [s|s| |s m e B] eqn:Ed; try (right; destruct s; reflexivity); [left; reflexivity|].
  rewrite <- Ed. assert (F : is_finite d = true) by (rewrite Ed; reflexivity).
  pose proof (Bmult_correct _ _ Hp He mode_NE d d) as C.
  rewrite xorb_nilpotent in C. destruct (Rlt_bool _ _) eqn:L in C.
  - destruct C as [_ [_ C]]. destruct (is_nan (d ⊗ d)) eqn:N; [left; exact N|right; auto].
  - apply Bsign_overflow. exact C.
Qed.

Lemma nn_value (x : fl) : nn x -> (0 <= B2R x)%R.
Proof. intros [H|H]; destruct x as [[]|[]| |[]]; try discriminate; simpl; try lra. apply F2R_ge_0. simpl. lia. Qed.

Lemma nn_plus (x y : fl) : nn x -> nn y -> nn (x ⊕ y).
Proof.
  intros Hx Hy. destruct (is_finite x) eqn:Fx; [destruct (is_finite y) eqn:Fy|].
  - pose proof (nn_value x Hx) as Vx. pose proof (nn_value y Hy) as Vy.
    assert (Sx : Bsign x = false) by (destruct Hx as [H|H]; [destruct x; discriminate|exact H]).
    assert (Sy : Bsign y = false) by (destruct Hy as [H|H]; [destruct y; discriminate|exact H]).
    pose proof (Bplus_correct _ _ Hp He mode_NE x y Fx Fy) as C.
    destruct (Rlt_bool _ _) eqn:L in C.
    + destruct C as [_ [_ C]]. right. rewrite C. destruct (Rcompare_spec (B2R x + B2R y) 0); [lra| |reflexivity].
      rewrite Sx, Sy. reflexivity.
    + destruct C as [C _]. apply Bsign_overflow. rewrite C, Sx. reflexivity.
  - destruct Hy as [H|H]; destruct y as [[]|[]| |[]]; try discriminate; destruct x as [[]|[]| |[]]; try discriminate;
      try (left; reflexivity); right; reflexivity.
  - destruct Hx as [H|H]; destruct x as [[]|[]| |[]]; try discriminate; destruct y as [[]|[]| |[]]; try discriminate;
      try (left; reflexivity); try (right; reflexivity).
Qed.

Lemma nn_div (x y : fl) : nn x -> nn y -> nn (x ⊘ y).
Proof.
  intros Hx Hy. destruct (is_nan x) eqn:Nx; [left; destruct x; try discriminate; reflexivity|].
  destruct (is_nan y) eqn:Ny; [left; destruct y; try discriminate; destruct x; reflexivity|].
  assert (Sx : Bsign x = false) by (destruct Hx; congruence).
  assert (Sy : Bsign y = false) by (destruct Hy; congruence).
  destruct y as [s|s| |s m e B] eqn:Ey; try discriminate.
  - cbn in Sy. subst s. destruct x as [[]|[]| |[]]; try discriminate; try (left; reflexivity); right; reflexivity.
  - cbn in Sy. subst s. destruct x as [[]|[]| |[]]; try discriminate; try (left; reflexivity); right; reflexivity.
  - rewrite <- Ey in *. assert (V : B2R y <> 0%R).
    { rewrite Ey. simpl. apply F2R_neq_0. simpl. destruct s; discriminate. }
    pose proof (Bdiv_correct _ _ Hp He mode_NE x y V) as C. rewrite Sx, Sy in C.
    destruct (Rlt_bool _ _) eqn:L in C.
    + destruct C as [_ [_ C]]. destruct (is_nan (x ⊘ y)) eqn:N; [left; exact N|right; exact (C eq_refl)].
    + destruct x as [sx|sx| |sx mx ex Bx] eqn:Ex; try discriminate.
      * cbn in Sx. subst sx. subst y. right. cbn in Sy. subst s. reflexivity.
      * cbn in Sx. subst sx. subst y. right. cbn in Sy. subst s. reflexivity.
      * apply Bsign_overflow. exact C.
Qed.

Lemma nn_fsum v : (forall x, In x v -> nn x) -> nn (fsum v).
Proof.
  induction v as [|a v IH] using rev_ind; intros H; [right; reflexivity|]. rewrite fsum_snoc.
  apply nn_plus; [apply IH; intros; apply H; apply in_or_app; auto|apply H; apply in_or_app; right; left; reflexivity].
Qed.

Lemma nn_of_nat N : (0 <= N)%Z -> nn (f_of_Z prec emax N).
Proof.
  intros HN. unfold f_of_Z. pose proof (binary_normalize_correct prec emax Hp He mode_NE N 0 false) as C.
  assert (P : (0 <= F2R (Float radix2 N 0))%R) by (apply F2R_ge_0; exact HN).
  cbv zeta in C. destruct (Rlt_bool _ _) eqn:L in C.
  - destruct C as [_ [_ C]]. right. rewrite C. destruct (Rcompare_spec (F2R (Float radix2 N 0)) 0); [lra|reflexivity|reflexivity].
  - apply Bsign_overflow. rewrite C. f_equal. apply Rlt_bool_false. exact P.
Qed.

Lemma var_nn n m f r : var K n m (mk n m f) = Ok r -> nn r.
Proof.
  rewrite (var_fsum n m f _ (mean_fsum n m f)). intros E. injection E as <-.
  apply nn_div.
  - apply nn_fsum. intros x I. apply in_map_iff in I. destruct I as [a [<- _]]. apply nn_sq.
  - apply nn_of_nat. unfold size_mul. apply Z.mod_pos_bound. lia.
Qed.

End FloatStat.
