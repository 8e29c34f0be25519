(** * Property C91: expressions evaluated in a wider format

    [extS prec emax xprec xemax] (CExt.v) is the floating-point element type when the
    compiler evaluates expressions in the format (xprec, xemax) and rounds to the
    element type where a value is stored.  [wider] (Ext.v) says that the evaluation
    format has room for the products and quotients of elements; it holds of
    [float] in [double], and of [float] and [double] in the x87 format. *)

From Coq Require Import ZArith Reals Lra Lia Bool List Arith.
Import ListNotations.
From Flocq Require Import IEEE754.BinarySingleNaN Core.Core Relative Plus_error.
From Verif Require Import Base Scalar CInt CFloat CExt Model Spec Loops Struct Preds Order Stat LURec Float FloatMx FloatStat
  FloatPoly FloatErr FloatDet Median Param ParamInst Ext PropFloat PropParam PropFma.

Local Open Scope nat_scope.

(** ** Evaluating in the element's own format: the two models agree on every function *)
Section Equal.
Variables prec emax : Z.
Context {Hp : Prec_gt_0 prec} {He : Prec_lt_emax prec emax}.
Notation fl := (binary_float prec emax).
Notation K0 := (floatS prec emax).
Notation K1 := (extS prec emax prec emax).

Lemma conv_id (x : fl) : fconv prec emax prec emax x = x.
Proof.
  destruct (is_finite x) eqn:F; [|destruct x; try discriminate; reflexivity].
  destruct (fconv_exact prec emax prec emax x F) as [F' E']; [apply generic_format_B2R|apply abs_lt_emax|].
  apply B2R_Bsign_inj; auto. apply fconv_sign.
Qed.

Let ld1 (a a' : fl) : a = a' -> @ld K0 a = @ld K1 a'.
Proof. intros ->. symmetry. apply conv_id. Qed.
Let st1 (a a' : fl) : a = a' -> @st K0 a = @st K1 a'.
Proof. intros ->. symmetry. apply conv_id. Qed.
Let lit1 z : @lit K0 z = @lit K1 z := eq_refl.
Let add1 (a a' b b' : fl) : a = a' -> b = b' -> refines eq (@xadd K0 a b) (@xadd K1 a' b').
Proof. intros -> ->. eexists. split; reflexivity. Qed.
Let sub1 (a a' b b' : fl) : a = a' -> b = b' -> refines eq (@xsub K0 a b) (@xsub K1 a' b').
Proof. intros -> ->. eexists. split; reflexivity. Qed.
Let mul1 (a a' b b' : fl) : a = a' -> b = b' -> refines eq (@xmul K0 a b) (@xmul K1 a' b').
Proof. intros -> ->. eexists. split; reflexivity. Qed.
Let div1 (a a' b b' : fl) : a = a' -> b = b' -> refines eq (@xdiv K0 a b) (@xdiv K1 a' b').
Proof. intros -> ->. eexists. split; reflexivity. Qed.
Let neg1 (a a' : fl) : a = a' -> refines eq (@xneg K0 a) (@xneg K1 a').
Proof. intros ->. eexists. split; reflexivity. Qed.
Let eq1 (a a' b b' : fl) : a = a' -> b = b' -> @xeq K0 a b = @xeq K1 a' b'.
Proof. intros -> ->. reflexivity. Qed.
Let lt1 (a a' b b' : fl) : a = a' -> b = b' -> @xlt K0 a b = @xlt K1 a' b'.
Proof. intros -> ->. reflexivity. Qed.
Let sqrt1 (a a' : fl) : a = a' -> refines eq (@xsqrt K0 a) (@xsqrt K1 a').
Proof. intros ->. eexists. split; [reflexivity|]. cbn. unfold narrow, widen. rewrite !conv_id. reflexivity. Qed.
Let divsz1 (a a' : fl) n : a = a' -> refines eq (@divsz K0 a n) (@divsz K1 a' n).
Proof. intros ->. eexists. split; [reflexivity|]. cbn. unfold narrow. rewrite conv_id. reflexivity. Qed.

Let ld2 (a a' : fl) : a = a' -> @ld K1 a = @ld K0 a'.
Proof. intros ->. apply conv_id. Qed.
Let st2 (a a' : fl) : a = a' -> @st K1 a = @st K0 a'.
Proof. intros ->. apply conv_id. Qed.
Let lit2 z : @lit K1 z = @lit K0 z := eq_refl.
Let add2 (a a' b b' : fl) : a = a' -> b = b' -> refines eq (@xadd K1 a b) (@xadd K0 a' b').
Proof. intros -> ->. eexists. split; reflexivity. Qed.
Let sub2 (a a' b b' : fl) : a = a' -> b = b' -> refines eq (@xsub K1 a b) (@xsub K0 a' b').
Proof. intros -> ->. eexists. split; reflexivity. Qed.
Let mul2 (a a' b b' : fl) : a = a' -> b = b' -> refines eq (@xmul K1 a b) (@xmul K0 a' b').
Proof. intros -> ->. eexists. split; reflexivity. Qed.
Let div2 (a a' b b' : fl) : a = a' -> b = b' -> refines eq (@xdiv K1 a b) (@xdiv K0 a' b').
Proof. intros -> ->. eexists. split; reflexivity. Qed.
Let neg2 (a a' : fl) : a = a' -> refines eq (@xneg K1 a) (@xneg K0 a').
Proof. intros ->. eexists. split; reflexivity. Qed.
Let eq2 (a a' b b' : fl) : a = a' -> b = b' -> @xeq K1 a b = @xeq K0 a' b'.
Proof. intros -> ->. reflexivity. Qed.
Let lt2 (a a' b b' : fl) : a = a' -> b = b' -> @xlt K1 a b = @xlt K0 a' b'.
Proof. intros -> ->. reflexivity. Qed.
Let sqrt2 (a a' : fl) : a = a' -> refines eq (@xsqrt K1 a) (@xsqrt K0 a').
Proof. intros ->. eexists. split; [reflexivity|]. cbn. unfold narrow, widen. rewrite !conv_id. reflexivity. Qed.
Let divsz2 (a a' : fl) n : a = a' -> refines eq (@divsz K1 a n) (@divsz K0 a' n).
Proof. intros ->. eexists. split; [reflexivity|]. cbn. unfold narrow. rewrite conv_id. reflexivity. Qed.

Theorem c91_equal_algebra n m p w q (A B k : matrix fl) :
  same_run (mult K0 n m p A B) (mult K1 n m p A B) /\
  same_run (strassen K0 A B) (strassen K1 A B) /\
  same_run (pow K0 n w A q) (pow K1 n w A q) /\
  same_run (conv2 K0 n m A k) (conv2 K1 n m A k) /\
  same_run (conv2_full K0 n m A k) (conv2_full K1 n m A k) /\
  same_run (conv2_valid K0 n A k) (conv2_valid K1 n A k).
Proof.
  repeat match goal with |- _ /\ _ => split end; apply (run_eq (mrel eq)); try apply mrel_eq1.
  - apply (mult_ref K0 K1 eq eq); auto using mrel_refl.
  - apply (mult_ref K1 K0 eq eq); auto using mrel_refl.
  - apply (strassen_ref K0 K1 eq eq); auto using mrel_refl.
  - apply (strassen_ref K1 K0 eq eq); auto using mrel_refl.
  - apply (pow_ref_all K0 K1 eq eq); auto using mrel_refl.
  - apply (pow_ref_all K1 K0 eq eq); auto using mrel_refl.
  - apply (conv2_ref K0 K1 eq eq); auto using mrel_refl.
  - apply (conv2_ref K1 K0 eq eq); auto using mrel_refl.
  - apply (conv2_full_ref K0 K1 eq eq); auto using mrel_refl.
  - apply (conv2_full_ref K1 K0 eq eq); auto using mrel_refl.
  - apply (conv2_valid_ref K0 K1 eq eq); auto using mrel_refl.
  - apply (conv2_valid_ref K1 K0 eq eq); auto using mrel_refl.
Qed.

Theorem c91_equal_solve n (A : matrix fl) :
  same_run (det K0 n A) (det K1 n A) /\ same_run (inv K0 n A) (inv K1 n A) /\
  same_run (lu K0 n A) (lu K1 n A) /\ same_run (chol K0 n A) (chol K1 n A).
Proof.
  repeat match goal with |- _ /\ _ => split end.
  - apply (run_eq eq); [auto| |].
    + apply (det_ref K0 K1 eq eq); auto using mrel_refl.
    + apply (det_ref K1 K0 eq eq); auto using mrel_refl.
  - apply (run_eq (mrel eq)); [apply mrel_eq1| |].
    + apply (inv_ref K0 K1 eq eq); auto using mrel_refl.
    + apply (inv_ref K1 K0 eq eq); auto using mrel_refl.
  - apply (run_eq (relP (mrel eq) (mrel eq))); [apply relP_eq| |].
    + apply (lu_ref K0 K1 eq eq); auto using mrel_refl.
    + apply (lu_ref K1 K0 eq eq); auto using mrel_refl.
  - apply (run_eq (mrel eq)); [apply mrel_eq1| |].
    + apply (chol_ref K0 K1 eq eq); auto using mrel_refl.
    + apply (chol_ref K1 K0 eq eq); auto using mrel_refl.
Qed.

Theorem c91_equal_stat sort n m (A : matrix fl) :
  same_run (mean K0 n m A) (mean K1 n m A) /\ same_run (var K0 n m A) (var K1 n m A) /\
  same_run (stddev K0 n m A) (stddev K1 n m A) /\ same_run (median K0 sort n m A) (median K1 sort n m A) /\
  same_run (histogram K0 n m A) (histogram K1 n m A).
Proof.
  repeat match goal with |- _ /\ _ => split end.
  - apply (run_eq eq); [auto| |].
    + apply (mean_ref K0 K1 eq eq); auto using mrel_refl.
    + apply (mean_ref K1 K0 eq eq); auto using mrel_refl.
  - apply (run_eq eq); [auto| |].
    + apply (var_ref K0 K1 eq eq); auto using mrel_refl.
    + apply (var_ref K1 K0 eq eq); auto using mrel_refl.
  - apply (run_eq eq); [auto| |].
    + apply (stddev_ref K0 K1 eq eq); auto using mrel_refl.
    + apply (stddev_ref K1 K0 eq eq); auto using mrel_refl.
  - apply (run_eq eq); [auto| |].
    + apply (median_ref K0 K1 eq eq); auto using mrel_refl.
      intros v v' H. apply F2_eq in H. apply F2_eq. congruence.
    + apply (median_ref K1 K0 eq eq); auto using mrel_refl.
      intros v v' H. apply F2_eq in H. apply F2_eq. congruence.
  - apply (run_eq (Forall2 (relP eq (@eq Z)))); [apply relH_eq| |].
    + apply (histogram_ref K0 K1 eq eq); auto using mrel_refl.
    + apply (histogram_ref K1 K0 eq eq); auto using mrel_refl.
Qed.
End Equal.

(** ** Any wider format *)
Section Format.
Variables prec emax xprec xemax : Z.
Context {Hp : Prec_gt_0 prec} {He : Prec_lt_emax prec emax}.
Context {Hxp : Prec_gt_0 xprec} {Hxe : Prec_lt_emax xprec xemax}.
Hypothesis W : wider prec emax xprec xemax.
Notation fl := (binary_float prec emax).
Notation xfl := (binary_float xprec xemax).
Notation widen := (widen prec emax xprec xemax).
Notation narrow := (narrow prec emax xprec xemax).
Notation K := (extS prec emax xprec xemax).
Notation K0 := (floatS prec emax).
Notation X := (floatS xprec xemax).
Notation emin := (SpecFloat.emin prec emax).
Notation xemin := (SpecFloat.emin xprec xemax).
Notation fexp := (SpecFloat.fexp prec emax).
Notation xfexp := (SpecFloat.fexp xprec xemax).
Notation rnd := (round radix2 fexp ZnearestE).
Notation xrnd := (round radix2 xfexp ZnearestE).
Notation u := (uro prec).
Notation v := (uro xprec).
Notation h := (eta prec emax).
Notation "x ⊕ y" := (Bplus mode_NE x y) (at level 50, left associativity).
Notation "x ⊖ y" := (Bminus mode_NE x y) (at level 50, left associativity).
Notation "x ⊗ y" := (Bmult mode_NE x y) (at level 40, left associativity).
Notation "x ⊘ y" := (Bdiv mode_NE x y) (at level 40, left associativity).
Implicit Types (f g : nat -> nat -> fl) (A B : matrix fl).

Local Instance fexp_valid : Valid_exp fexp.
Proof. apply FLT_exp_valid. exact Hp. Qed.
Local Instance xfexp_valid : Valid_exp xfexp.
Proof. apply FLT_exp_valid. exact Hxp. Qed.

(** *** comparisons are not affected *)
Lemma widen_lt (x y : fl) : Bltb (widen x) (widen y) = Bltb x y.
Proof.
  destruct (is_finite x && is_finite y) eqn:F.
  - apply andb_prop in F. destruct F as [Fx Fy].
    rewrite !Bltb_correct by (rewrite ?(widen_finite _ _ _ _ W); assumption). rewrite !(widen_R _ _ _ _ W). reflexivity.
  - destruct x as [s|s| |s m e H], y as [s'|s'| |s' m' e' H']; try discriminate; try reflexivity;
      try (destruct (widen_shape _ _ _ _ W s m e H) as (? & ? & ? & ->)); try (destruct (widen_shape _ _ _ _ W s' m' e' H') as (? & ? & ? & ->));
      reflexivity.
Qed.

Lemma widen_eq (x y : fl) : Beqb (widen x) (widen y) = Beqb x y.
Proof.
  destruct (is_finite x && is_finite y) eqn:F.
  - apply andb_prop in F. destruct F as [Fx Fy].
    rewrite !Beqb_correct by (rewrite ?(widen_finite _ _ _ _ W); assumption). rewrite !(widen_R _ _ _ _ W). reflexivity.
  - destruct x as [s|s| |s m e H], y as [s'|s'| |s' m' e' H']; try discriminate; try reflexivity;
      try (destruct (widen_shape _ _ _ _ W s m e H) as (? & ? & ? & ->)); try (destruct (widen_shape _ _ _ _ W s' m' e' H') as (? & ? & ? & ->));
      reflexivity.
Qed.

Definition isw (x : fl) (y : xfl) : Prop := y = widen x.
Definition isw' (y : xfl) (x : fl) : Prop := y = widen x.
Let ldw (a a' : fl) : a = a' -> isw (@ld K0 a) (@ld K a'). Proof. intros ->. reflexivity. Qed.
Let ldw' (a a' : fl) : a = a' -> isw' (@ld K a) (@ld K0 a'). Proof. intros ->. reflexivity. Qed.
Let stw a a' : isw a a' -> @st K0 a = @st K a'. Proof. intros ->. symmetry. apply (narrow_widen _ _ _ _ W). Qed.
Let stw' a a' : isw' a a' -> @st K a = @st K0 a'. Proof. intros ->. apply (narrow_widen _ _ _ _ W). Qed.
Lemma widen_lit z : (Z.abs z <= 2 ^ prec)%Z -> widen (f_of_Z prec emax z) = f_of_Z xprec xemax z.
Proof.
  intros H. assert (L : (2 ^ prec <= 2 ^ xprec)%Z) by (apply Z.pow_le_mono_r; [lia|apply W]).
  destruct (f_of_Z_small prec emax z H) as [V1 [F1 S1]]. destruct (f_of_Z_small xprec xemax z) as [V2 [F2 S2]]; [lia|].
  apply B2R_Bsign_inj; rewrite ?(widen_finite _ _ _ _ W), ?(widen_R _ _ _ _ W), ?(widen_sign prec emax xprec xemax); congruence.
Qed.
Let lit0 : isw (@lit K0 0) (@lit K 0). Proof. symmetry. apply widen_lit. pose proof (pow_prec_ge2 prec). lia. Qed.
Let lit0' : isw' (@lit K 0) (@lit K0 0). Proof. symmetry. apply widen_lit. pose proof (pow_prec_ge2 prec). lia. Qed.
Let lit1 : isw (@lit K0 1) (@lit K 1). Proof. symmetry. apply widen_lit. pose proof (pow_prec_ge2 prec). lia. Qed.
Let lit1' : isw' (@lit K 1) (@lit K0 1). Proof. symmetry. apply widen_lit. pose proof (pow_prec_ge2 prec). lia. Qed.
Let ltw a a' b b' : isw a a' -> isw b b' -> @xlt K0 a b = @xlt K a' b'. Proof. intros -> ->. symmetry. apply widen_lt. Qed.
Let ltw' a a' b b' : isw' a a' -> isw' b b' -> @xlt K a b = @xlt K0 a' b'. Proof. intros -> ->. apply widen_lt. Qed.
Let eqw a a' b b' : isw a a' -> isw b b' -> @xeq K0 a b = @xeq K a' b'. Proof. intros -> ->. symmetry. apply widen_eq. Qed.
Let eqw' a a' b b' : isw' a a' -> isw' b b' -> @xeq K a b = @xeq K0 a' b'. Proof. intros -> ->. apply widen_eq. Qed.

Theorem c91_same_compare n m A B :
  mat_eqb K A B = mat_eqb K0 A B /\
  same_run (histogram K0 n m A) (histogram K n m A) /\
  same_run (cumulative_histogram K0 n m A) (cumulative_histogram K n m A) /\
  same_run (isSymetric K0 n A) (isSymetric K n A) /\
  same_run (isIdentity K0 n A) (isIdentity K n A).
Proof.
  repeat match goal with |- _ /\ _ => split end.
  - apply (mat_eqb_rel K K0 eq isw'); auto using mrel_refl.
  - apply (run_eq (Forall2 (relP eq (@eq Z)))); [apply relH_eq| |].
    + apply (histogram_ref K0 K eq isw); auto using mrel_refl.
    + apply (histogram_ref K K0 eq isw'); auto using mrel_refl.
  - apply (run_eq (Forall2 (relP eq (@eq Z)))); [apply relH_eq| |].
    + apply (cumulative_ref K0 K eq isw); auto using mrel_refl.
    + apply (cumulative_ref K K0 eq isw'); auto using mrel_refl.
  - apply (run_eq eq); [auto| |].
    + apply (isSymetric_ref K0 K eq isw); auto using mrel_refl.
    + apply (isSymetric_ref K K0 eq isw'); auto using mrel_refl.
  - apply (run_eq eq); [auto| |].
    + apply (isIdentity_ref K0 K eq isw); auto using mrel_refl.
    + apply (isIdentity_ref K K0 eq isw'); auto using mrel_refl.
Qed.

(** *** with twice the precision and two bits more, one operation per store: not affected *)
Section Twice.
Hypothesis D : (2 * prec + 2 <= xprec)%Z.

Theorem c91_same_elementwise n m f g (s : fl) :
  sum K n m (mk n m f) (mk n m g) = sum K0 n m (mk n m f) (mk n m g) /\
  sub K n m (mk n m f) (mk n m g) = sub K0 n m (mk n m f) (mk n m g) /\
  mult_scalar K n m (mk n m f) s = mult_scalar K0 n m (mk n m f) s /\
  div K n m (mk n m f) s = div K0 n m (mk n m f) s.
Proof.
  rewrite !sum_tab, !sub_tab, !mult_scalar_tab, !div_tab.
  repeat match goal with |- _ /\ _ => split end.
  - apply tabM_ext. intros i j _ _. cbn. rewrite (add_once _ _ _ _ W D). reflexivity.
  - apply tabM_ext. intros i j _ _. cbn. rewrite (sub_once _ _ _ _ W D). reflexivity.
  - apply tabM_ext. intros i j _ _. cbn. rewrite (mul_once _ _ _ _ W D). reflexivity.
  - replace (xeq (@ld K s) (@lit K 0)) with (xeq (@ld K0 s) (@lit K0 0)).
    2:{ cbn. rewrite <- (widen_eq s (f_of_Z prec emax 0)). rewrite widen_lit; [reflexivity|]. pose proof (pow_prec_ge2 prec). lia. }
    destruct (xeq (@ld K0 s) (@lit K0 0)); [reflexivity|]. apply tabM_ext. intros i j _ _. cbn. rewrite (div_once _ _ _ _ W D). reflexivity.
Qed.

Theorem c91_same_mean n m A : (size_mul n m <= 2 ^ prec)%Z -> mean K n m A = mean K0 n m A.
Proof.
  intros HN. unfold mean.
  match goal with |- bind ?a ?k = bind ?b ?k' => cut (a = b); [intros ->; apply bind_ext|] end.
  - intros r _. cbn [divsz extS floatS ld]. rewrite <- (widen_lit (size_mul n m)), (div_once _ _ _ _ W D); [reflexivity|].
    rewrite Z.abs_eq; [exact HN|]. unfold size_mul. apply Z.mod_pos_bound. lia.
  - replace (lite K 0) with (lite K0 0); [apply for_ext|].
    + intros i Y _. apply for_ext. intros j Z _. apply bind_ext. intros a _.
      cbn [xadd bind ld st extS floatS]. rewrite (add_once _ _ _ _ W D). reflexivity.
    + reflexivity.
Qed.
End Twice.

(** *** laws that survive *)
Theorem c91_eye n m f : (forall i j, i < n -> j < m -> is_finite (f i j) = true) ->
  exists C, (let* E := eye1 K m in mult K n m m (mk n m f) E) = Ok C /\ mat_eqb K0 C (mk n m f) = true.
Proof.
  intros H. rewrite (eye1_mk K). cbn [bind]. rewrite mult_ext. eexists. split; [reflexivity|].
  apply mat_eqb_mk. intros i j Hi Hj. cbn [ld floatS xeq].
  destruct (edot_unit prec emax xprec xemax W m (fun k => f i k) j) as [F E]; [auto|].
  destruct (Nat.ltb_spec j m); [|lia].
  erewrite edot_ext; [apply (proj2 (Beqb_finite _ _ _ _ F (H i j Hi Hj))); exact E|].
  intros k _. split; [reflexivity|]. cbv beta. destruct (k =? j); [|reflexivity].
  exact (narrow_lit prec emax xprec xemax 1 ltac:(lia)).
Qed.

(** trans(A*B) = trans(B) * trans(A), to the last bit *)
Theorem c91_trans n m p f g :
  (let* C := mult K n m p (mk n m f) (mk m p g) in trans K n p C) =
  (let* B' := trans K m p (mk m p g) in let* A' := trans K n m (mk n m f) in mult K p m n B' A').
Proof.
  rewrite mult_ext, !trans_mk. cbn [bind]. rewrite trans_mk, mult_ext. f_equal. apply mk_ext. intros i j _ _.
  apply edot_comm.
Qed.

(** A * trans(A) is symmetric *)
Theorem c91_symmetric n m f : exists c,
  (let* B := trans K n m (mk n m f) in mult K n m n (mk n m f) B) = Ok (mk n n c) /\
  forall i j, i < n -> j < n -> c i j = c j i.
Proof.
  rewrite trans_mk. cbn [bind]. rewrite mult_ext. eexists. split; [reflexivity|]. intros i j _ _. apply edot_comm.
Qed.

(** the error of the product: one rounding error of each format per step *)
Theorem c91_mult_error n m p f g : exists c,
  mult K n m p (mk n m f) (mk m p g) = Ok (mk n p c) /\
  forall i j, i < n -> j < p -> is_finite (c i j) = true ->
  (Rabs (B2R (c i j) - rsum m (fun k => B2R (f i k) * B2R (g k j))) <=
   (((1 + u) * (1 + v)) ^ m - 1) * rsum m (fun k => Rabs (B2R (f i k) * B2R (g k j))) +
   INR m * h * ((1 + u) * (1 + v)) ^ (m - 1))%R.
Proof.
  rewrite mult_ext. eexists. split; [reflexivity|]. intros i j _ _ F. apply (edot_error _ _ _ _ W). exact F.
Qed.

(** variances are never negative *)
Lemma nn_narrow (x : xfl) : nn xprec xemax x -> nn prec emax (narrow x).
Proof.
  intros [H|H]; [left|right].
  - destruct x; try discriminate. reflexivity.
  - unfold CExt.narrow. rewrite fconv_sign. exact H.
Qed.
Lemma nn_widen (x : fl) : nn prec emax x -> nn xprec xemax (widen x).
Proof.
  intros [H|H]; [left|right].
  - destruct x; try discriminate. reflexivity.
  - rewrite widen_sign. exact H.
Qed.

Theorem c91_var n m f r : var K n m (mk n m f) = Ok r -> is_nan r = true \/ Bsign r = false.
Proof.
  unfold var. intros H. apply bind_inv in H. destruct H as [mu [_ H]]. apply bind_inv in H. destruct H as [s [H E]].
  cbn [divsz extS ld] in E. injection E as <-. apply nn_narrow, nn_div; [apply nn_widen|].
  - revert H. apply (for_partial (fun _ (r : fl) => nn prec emax r)); [lia|right; reflexivity|].
    intros i r0 r1 _ H0. apply (for_partial (fun _ (r : fl) => nn prec emax r)); [lia|exact H0|].
    intros j r2 r3 _ H2 H. apply bind_inv in H. destruct H as [a [_ H]].
    cbn [xsub xmul xadd bind ld st extS] in H. injection H as <-.
    apply nn_narrow, nn_plus; [apply nn_widen, H2|apply nn_sq].
  - apply nn_of_nat. unfold size_mul. apply Z.mod_pos_bound. lia.
Qed.

(** *** medians: the sum of the two middle elements cannot overflow, so the median of
    finite elements is finite and halves them (without the wider format: C75, only for
    elements up to a quarter of 2^emax) *)
Lemma order_wide w : (forall x, In x w -> is_nan x = false) -> strict_weak_on (less K) w.
Proof.
  intros H. assert (Q : strict_weak_on (less K0) w) by (apply c53_order; left; exact H).
  assert (E : forall x y, less K x y = less K0 x y) by (intros x y; apply widen_lt).
  unfold strict_weak_on in *. unfold equivalent in *. destruct Q as (Q1 & Q2 & Q3 & Q4).
  split; [intros x Hx; rewrite E; apply Q1, Hx|]. split; [|split].
  - intros x y. rewrite !E. apply Q2.
  - intros x y z. rewrite !E. apply Q3.
  - intros x y z. rewrite !E. apply Q4.
Qed.

Lemma narrow_between (q : xfl) (x y : fl) : is_finite q = true -> is_finite x = true -> is_finite y = true ->
  (B2R y <= B2R q <= B2R x)%R -> is_finite (narrow q) = true /\ (B2R y <= B2R (narrow q) <= B2R x)%R.
Proof.
  intros Fq Fx Fy [L1 L2]. pose proof (fconv_rounds xprec xemax prec emax q Fq) as H.
  assert (B : (B2R y <= rnd (B2R q) <= B2R x)%R).
  { rewrite <- (rnd_B2R prec emax y), <- (rnd_B2R prec emax x). split; apply round_le; auto with typeclass_instances. }
  unfold rounds in H. rewrite Rlt_bool_true in H.
  - destruct H as (V & F & _). split; [exact F|]. change (B2R (narrow q) = rnd (B2R q)) in V. rewrite V. exact B.
  - pose proof (abs_lt_emax prec emax x) as Ax. pose proof (abs_lt_emax prec emax y) as Ay.
    apply Rabs_lt_inv in Ax, Ay. apply Rabs_lt. lra.
Qed.

Theorem c91_median sort n m A : shape n m A -> 0 < n * m -> (forall x, In x (elements A) -> is_finite x = true) ->
  sorts (less K) sort (elements A) ->
  exists r, median K sort n m A = Ok r /\ is_finite r = true /\ halves (less K) (n * m / 2) (elements A) r.
Proof.
  intros HA Hpos HF So. apply (shape_mk (lite K 0)) in HA. destruct HA as [f ->].
  assert (HN : forall x : fl, is_finite x = true -> is_nan x = false) by (intros []; auto; discriminate).
  assert (Wk : strict_weak_on (less K) (elements (mk n m f))) by (apply order_wide; intros x Hx; apply HN, HF, Hx).
  pose proof (Nat.mod_upper_bound (n * m) 2 ltac:(lia)) as M2.
  destruct ((n * m) mod 2) as [|[|]] eqn:Hev; [| |lia].
  - destruct (median_even K sort n m f Wk So Hev Hpos) as [x [y [Ex [Ey E]]]].
    pose proof (middle_order K sort n m f x y So Hev Hpos Ex Ey) as L.
    pose proof (HF x (sorts_in (less K) _ sort _ x So Ex)) as Fx. pose proof (HF y (sorts_in (less K) _ sort _ y So Ey)) as Fy.
    assert (Lxy : (B2R y <= B2R x)%R).
    { apply Rnot_lt_le. intros C. apply (Bltb_finite prec emax x y Fx Fy) in C.
      change (Bltb (widen x) (widen y) = false) in L. rewrite widen_lt in L. congruence. }
    set (q := (widen x ⊕ widen y) ⊘ f_of_Z xprec xemax 2).
    assert (Fq : is_finite q = true).
    { apply half_sum_finite; rewrite ?(widen_finite _ _ _ _ W), ?(widen_R _ _ _ _ W); auto.
      - apply Rlt_le. eapply Rlt_le_trans; [apply abs_lt_emax|]. apply bpow_le. pose proof (emax_le _ _ _ _ W). lia.
      - apply Rlt_le. eapply Rlt_le_trans; [apply abs_lt_emax|]. apply bpow_le. pose proof (emax_le _ _ _ _ W). lia. }
    destruct (half_sum_between xprec xemax (widen x) (widen y) Fq) as [B _]; [rewrite !(widen_R _ _ _ _ W); exact Lxy|].
    fold q in B. rewrite !(widen_R _ _ _ _ W) in B.
    destruct (narrow_between q x y Fq Fx Fy B) as [Fr [B1 B2]].
    exists (narrow q). split; [exact E|]. split; [exact Fr|].
    apply (between_halves K sort n m f (narrow q) x y); auto.
    + apply order_wide. intros z [<-|Hz]; [apply HN, Fr|apply HN, HF, Hz].
    + change (Bltb (widen (narrow q)) (widen y) = false). rewrite widen_lt. apply Bool.not_true_is_false. intros C.
      apply (Bltb_finite prec emax _ _ Fr Fy) in C. lra.
    + change (Bltb (widen x) (widen (narrow q)) = false). rewrite widen_lt. apply Bool.not_true_is_false. intros C.
      apply (Bltb_finite prec emax _ _ Fx Fr) in C. lra.
  - destruct (median_odd K sort n m f Wk So Hev) as [x [E [_ [I _]]]]. exists x. split; [exact E|]. split; [apply HF, I|].
    exact (odd_halves K sort n m f x Wk So Hev E).
Qed.

(** *** 2x2 determinants *)
Section Det2.
Variables a b c d : fl.
Hypothesis Fin : is_finite a = true /\ is_finite b = true /\ is_finite c = true /\ is_finite d = true.
Notation mat := [[a; b]; [c; d]].

Lemma det2_form : det K 2 mat = Ok (narrow ((widen a ⊗ widen d) ⊖ (widen b ⊗ widen c))).
Proof. reflexivity. Qed.

Lemma xprods : is_finite (widen a ⊗ widen d) = true /\ B2R (widen a ⊗ widen d) = xrnd (B2R a * B2R d) /\
  is_finite (widen b ⊗ widen c) = true /\ B2R (widen b ⊗ widen c) = xrnd (B2R b * B2R c).
Proof.
  destruct Fin as (Fa & Fb & Fc & Fd). destruct (xprod_finite _ _ _ _ W a d Fa Fd). destruct (xprod_finite _ _ _ _ W b c Fb Fc). auto.
Qed.

Lemma xdiff : is_finite ((widen a ⊗ widen d) ⊖ (widen b ⊗ widen c)) = true /\
  B2R ((widen a ⊗ widen d) ⊖ (widen b ⊗ widen c)) = xrnd (xrnd (B2R a * B2R d) - xrnd (B2R b * B2R c)).
Proof.
  destruct xprods as (F1 & E1 & F2 & E2). pose proof (Bminus_rounds xprec xemax _ _ F1 F2) as H.
  unfold rounds in H. rewrite E1, E2 in H. rewrite Rlt_bool_true in H; [tauto|].
  destruct W as (_ & W2 & _). pose proof (prec_pos prec). pose proof (prec_emax prec emax).
  pose proof (prec_pos xprec). pose proof (prec_emax xprec xemax).
  assert (G : forall k, (emax <= k <= xemax - 1)%Z -> generic_format radix2 xfexp (bpow radix2 k)).
  { intros k Hk. apply generic_format_bpow. unfold SpecFloat.fexp, SpecFloat.emin. lia. }
  apply Rle_lt_trans with (bpow radix2 (2 * emax + 1)); [|apply bpow_lt; lia].
  apply abs_round_le_generic; auto with typeclass_instances; [apply G; lia|].
  assert (Q : forall x y : fl, (Rabs (xrnd (B2R x * B2R y)) <= bpow radix2 (2 * emax))%R).
  { intros x y. apply abs_round_le_generic; auto with typeclass_instances; [apply G; lia|apply prod_range]. }
  unfold Rminus. eapply Rle_trans; [apply Rabs_triang|]. rewrite Rabs_Ropp, bpow_plus. simpl (bpow radix2 1).
  pose proof (Q a d). pose proof (Q b c). lra.
Qed.

(** the determinant of finite elements is never NaN *)
Theorem c91_det2_number : exists r, det K 2 mat = Ok r /\ is_nan r = false.
Proof.
  rewrite det2_form. eexists. split; [reflexivity|]. destruct xdiff as [F _].
  pose proof (fconv_rounds xprec xemax prec emax _ F) as H. unfold rounds in H.
  destruct (Rlt_bool _ _); [destruct H as (_ & H & _)|].
  - unfold CExt.narrow. destruct (fconv _ _ _ _ _); try reflexivity; discriminate.
  - unfold CExt.narrow. rewrite H. reflexivity.
Qed.

(** exactly singular: the determinant is 0 and inv throws, whatever the size of the products *)
Theorem c91_singular : (B2R a * B2R d = B2R b * B2R c)%R ->
  (exists r, det K 2 mat = Ok r /\ is_finite r = true /\ B2R r = 0%R) /\ inv K 2 mat = Throw OverflowError.
Proof.
  intros Sing.
  assert (Q : is_finite (narrow ((widen a ⊗ widen d) ⊖ (widen b ⊗ widen c))) = true /\
              B2R (narrow ((widen a ⊗ widen d) ⊖ (widen b ⊗ widen c))) = 0%R).
  { destruct xdiff as [F E]. apply narrow_0; [exact F|]. rewrite E, Sing, Rminus_diag_eq by reflexivity.
    apply round_0. auto with typeclass_instances. }
  destruct Q as [F E]. split; [eexists; rewrite det2_form; eauto|].
  unfold inv, inv2. rewrite det2_form. cbn [bind].
  replace (xeq (@ld K (narrow ((widen a ⊗ widen d) ⊖ (widen b ⊗ widen c)))) (@lit K 0)) with true; [reflexivity|].
  cbn [xeq ld lit extS]. rewrite <- (widen_lit 0), widen_eq by (pose proof (pow_prec_ge2 prec); lia).
  symmetry. apply Beqb_finite; auto.
Qed.

(** with twice the precision the products are exact: one rounding to each format *)
Hypothesis D : (2 * prec <= xprec)%Z.

Lemma prod_exact (x y : fl) : xrnd (B2R x * B2R y) = (B2R x * B2R y)%R.
Proof.
  apply round_generic; auto with typeclass_instances.
  destruct W as (_ & _ & W3 & _). pose proof (prec_pos prec).
  assert (HZ : forall z : fl, exists mz ez, B2R z = F2R (Float radix2 mz ez) /\ (Z.abs mz < 2 ^ prec)%Z /\ (emin <= ez)%Z).
  { intros z. assert (G : FLT_format radix2 emin prec (B2R z)) by (apply FLT_format_generic; auto; apply generic_format_B2R).
    destruct G as [[mz ez] E L1 L2]. exists mz, ez. auto. }
  destruct (HZ x) as (mx & ex & Ex & Lx & Lx'), (HZ y) as (my & ey & Ey & Ly & Ly').
  apply generic_format_FLT. exists (Float radix2 (mx * my) (ex + ey)).
  - rewrite Ex, Ey. unfold F2R. cbn [Fnum Fexp]. rewrite mult_IZR, bpow_plus. ring.
  - simpl. rewrite Z.abs_mul. apply Z.lt_le_trans with (2 ^ (2 * prec))%Z; [|apply Z.pow_le_mono_r; lia].
    replace (2 * prec)%Z with (prec + prec)%Z by lia. rewrite Z.pow_add_r by lia. nia.
  - simpl. lia.
Qed.

Theorem c91_det2_error r : det K 2 mat = Ok r -> is_finite r = true ->
  let t := (B2R a * B2R d - B2R b * B2R c)%R in
  (Rabs (B2R r - t) <= ((1 + u) * (1 + v) - 1) * Rabs t + h)%R /\
  (B2R r = 0%R -> Rabs t <= bpow radix2 emin)%R.
Proof.
  rewrite det2_form. intros E F. injection E as <-. cbv zeta. set (t := (B2R a * B2R d - B2R b * B2R c)%R).
  destruct xdiff as [FX EX]. destruct (narrow_finite _ _ _ _ _ F) as [_ EN]. rewrite EN, EX, !prod_exact. fold t.
  assert (M : multiple (2 * emin) t) by (apply multiple_sub; apply (xprod_multiple prec emax)).
  destruct (xrnd_rel _ _ _ _ W t M) as [dv [Hdv ->]].
  split.
  - destruct (rnd_any prec emax (t * (1 + dv))) as [dd [e [Hd [He' ->]]]].
    replace (t * (1 + dv) * (1 + dd) + e - t)%R with (t * (dv + dd + dv * dd) + e)%R by ring.
    assert (Q : (Rabs (dv + dd + dv * dd) <= (1 + u) * (1 + v) - 1)%R).
    { eapply Rle_trans; [apply Rabs_triang|]. rewrite Rabs_mult. assert (Rabs (dv + dd) <= v + u)%R by (eapply Rle_trans; [apply Rabs_triang|]; lra).
      assert (Rabs dv * Rabs dd <= v * u)%R by (apply Rmult_le_compat; auto using Rabs_pos). lra. }
    eapply Rle_trans; [apply Rabs_triang|]. rewrite Rabs_mult.
    assert (Rabs t * Rabs (dv + dd + dv * dd) <= Rabs t * ((1 + u) * (1 + v) - 1))%R by (apply Rmult_le_compat_l; [apply Rabs_pos|exact Q]). lra.
  - intros Z. pose proof (rnd_back prec emax (t * (1 + dv))) as B. rewrite Z, Rabs_R0 in B.
    replace (0 - t * (1 + dv))%R with (- (t * (1 + dv)))%R in B by ring. rewrite Rabs_Ropp, Rabs_mult in B.
    assert (L : (/ 2 <= Rabs (1 + dv))%R).
    { assert (v <= / 2)%R.
      { unfold uro. replace (/ 2)%R with (bpow radix2 (- 1)) by (simpl; lra). apply bpow_le. pose proof (prec_pos xprec). lia. }
      apply Rabs_le_inv in Hdv. rewrite Rabs_pos_eq; lra. }
    unfold eta in B. replace (3 - emax - prec)%Z with emin in B by reflexivity.
    pose proof (Rabs_pos t). nra.
Qed.

(** inv rejects nothing but singular matrices, up to the smallest positive number *)
Theorem c91_inv_rejects : inv K 2 mat = Throw OverflowError -> (Rabs (B2R a * B2R d - B2R b * B2R c) <= bpow radix2 emin)%R.
Proof.
  intros H. pose proof c91_det2_number as [r [Hr N]].
  unfold inv, inv2 in H. rewrite Hr in H. cbn [bind] in H.
  destruct (xeq (@ld K r) (@lit K 0)) eqn:E.
  - cbn [xeq ld lit extS] in E. rewrite <- (widen_lit 0), widen_eq in E by (pose proof (pow_prec_ge2 prec); lia).
    assert (F : is_finite r = true) by (destruct r as [|[]| |]; try reflexivity; discriminate).
    apply (proj2 (c91_det2_error r Hr F)). rewrite Beqb_correct in E by (try exact F; reflexivity).
    destruct (Req_bool_spec (B2R r) (B2R (f_of_Z prec emax 0))) as [Q|Q]; [exact Q|discriminate].
  - exfalso. revert H. cbn [aget vget nth_error bind xneg ld extS st]. unfold op_div, div. cbn [xeq ld lit extS] in E |- *.
    rewrite E. match goal with |- ?o = _ -> _ => assert (R : exists C, o = Ok C) by (eexists; reflexivity) end.
    destruct R as [C ->]. discriminate.
Qed.
End Det2.

(** *** 3x3 determinants: computed in the evaluation format and rounded once *)
Theorem c91_det3 (a b c d e f g p i : fl) : exists r',
  det X 3 [[widen a; widen b; widen c]; [widen d; widen e; widen f]; [widen g; widen p; widen i]] = Ok r' /\
  det K 3 [[a; b; c]; [d; e; f]; [g; p; i]] = Ok (narrow r').
Proof. eexists. split; reflexivity. Qed.

Theorem c91_det3_error (a b c d e f g p i r : fl) :
  det K 3 [[a; b; c]; [d; e; f]; [g; p; i]] = Ok r -> is_finite r = true ->
  let A := B2R a in let B := B2R b in let C := B2R c in
  let D := B2R d in let E := B2R e in let F := B2R f in
  let G := B2R g in let P := B2R p in let I := B2R i in
  let t := (A * E * I + B * F * G + C * D * P - C * E * G - B * D * I - A * F * P)%R in
  let s := (Rabs (A * E * I) + Rabs (B * F * G) + Rabs (C * D * P)
            + Rabs (C * E * G) + Rabs (B * D * I) + Rabs (A * F * P))%R in
  (Rabs (B2R r - t) <= u * Rabs t +
    (1 + u) * (((1 + v) ^ 7 - 1) * s + eta xprec xemax * (1 + v) ^ 6 * (2 * (Rabs G + Rabs P + Rabs I) + 6)) + h)%R.
Proof.
  intros H FR. cbv zeta. destruct (c91_det3 a b c d e f g p i) as [r' [H1 H2]]. rewrite H2 in H. injection H as <-.
  destruct (narrow_finite _ _ _ _ _ FR) as [F' EN].
  pose proof (det3_error xprec xemax _ _ _ _ _ _ _ _ _ r' H1 F') as Q. cbv zeta in Q. rewrite !(widen_R _ _ _ _ W) in Q.
  rewrite EN. match type of Q with (Rabs (_ - ?t0) <= ?q0)%R => set (t := t0) in *; set (q := q0) in * end.
  destruct (rnd_any prec emax (B2R r')) as [dd [ee [Hd [He' ->]]]].
  replace (B2R r' * (1 + dd) + ee - t)%R with ((B2R r' - t) * (1 + dd) + t * dd + ee)%R by ring.
  eapply Rle_trans; [apply Rabs_triang|]. eapply Rle_trans; [apply Rplus_le_compat_r, Rabs_triang|]. rewrite !Rabs_mult.
  assert (Rabs (B2R r' - t) * Rabs (1 + dd) <= q * (1 + u))%R.
  { apply Rmult_le_compat; auto using Rabs_pos. apply (abs_1d _ _ Hd). }
  assert (Rabs t * Rabs dd <= Rabs t * u)%R by (apply Rmult_le_compat_l; auto using Rabs_pos). lra.
Qed.

(** *** integers: with int arithmetic that does not overflow the results are the integers *)
Section IntFloat.
Variable t : ityp.
Hypothesis Hs : sgn t = true.
Hypothesis Hw : (32 <= width t <= prec + 1)%Z.
Notation I := (intS t).
Notation sameM := (mrel (same prec emax t)).
Notation RI := (relI prec emax t).
Notation RX := (relI xprec xemax t).

Let Hwx : (32 <= width t <= xprec + 1)%Z. Proof. destruct W as [W1 _]. lia. Qed.

Let ld_ a (x : fl) : RI a x -> RX (@ld I a) (@ld K x).
Proof.
  intros [[F E] R]. split; [split|exact R]; cbn [ld extS intS]; [rewrite (widen_finite _ _ _ _ W)|rewrite (widen_R _ _ _ _ W)]; assumption.
Qed.
Let st_ a y : RX a y -> RI (@st I a) (@st K y).
Proof.
  intros [[F E] R]. cbn [st extS intS]. rewrite (I_st prec t Hs Hw a R). split; [|exact R].
  destruct (fconv_exact xprec xemax prec emax y F) as [F' E'].
  - rewrite E. apply (small_format prec emax), (range_small prec t Hs Hw _ R).
  - rewrite E. apply (small_lt_emax prec emax), (range_small prec t Hs Hw _ R).
  - split; [exact F'|]. exact (eq_trans E' E).
Qed.
Let lit_ z : (Z.abs z <= 1)%Z -> RX (@lit I z) (@lit K z).
Proof. exact (I_lit xprec xemax t Hs Hwx z). Qed.
Let lit0i : RX (@lit I 0) (@lit K 0). Proof. apply lit_. lia. Qed.
Let lit1i : RX (@lit I 1) (@lit K 1). Proof. apply lit_. lia. Qed.
Let addi a x b y : RX a x -> RX b y -> refines RX (@xadd I a b) (@xadd K x y).
Proof. exact (I_add xprec xemax t Hs Hwx a x b y). Qed.
Let subi a x b y : RX a x -> RX b y -> refines RX (@xsub I a b) (@xsub K x y).
Proof. exact (I_sub xprec xemax t Hs Hwx a x b y). Qed.
Let muli a x b y : RX a x -> RX b y -> refines RX (@xmul I a b) (@xmul K x y).
Proof. exact (I_mul xprec xemax t Hs Hwx a x b y). Qed.

Lemma in_relx (A : matrix Z) (A' : matrix fl) : sameM A A' -> mrel RI A A'.
Proof. apply sameM_relI; assumption. Qed.
Lemma out_relx o (o' : outcome (matrix fl)) : refines (mrel RI) o o' -> agree sameM o o'.
Proof. apply agree_same; assumption. Qed.

Theorem c91_int_mult n m p (A B : matrix Z) (A' B' : matrix fl) : sameM A A' -> sameM B B' ->
  agree sameM (mult I n m p A B) (mult K n m p A' B').
Proof.
  intros HA HB. apply in_relx in HA, HB. apply out_relx. apply (mult_ref I K RI RX); auto.
Qed.

Theorem c91_int_pow n w (A : matrix Z) (A' : matrix fl) p : sameM A A' -> (0 <= p)%Z ->
  agree sameM (pow I n w A p) (pow K n w A' p).
Proof.
  intros HA Hp0. apply in_relx in HA. apply out_relx. apply (pow_ref I K RI RX); auto.
Qed.

Theorem c91_int_det n (A : matrix Z) (A' : matrix fl) : 0 < n <= 3 -> sameM A A' -> agree (same prec emax t) (det I n A) (det K n A').
Proof.
  intros Hn HA a E. apply in_relx in HA.
  assert (R : refines RI (det I n A) (det K n A')) by (apply (det_small_ref I K RI RX); auto).
  rewrite E in R. destruct R as [b [E' R]]. exists b. split; [exact E'|]. apply same_relI; assumption.
Qed.

Theorem c91_int_conv2 n m (A k : matrix Z) (A' k' : matrix fl) : sameM A A' -> sameM k k' ->
  agree sameM (conv2 I n m A k) (conv2 K n m A' k') /\
  agree sameM (conv2_full I n m A k) (conv2_full K n m A' k') /\
  agree sameM (conv2_valid I n A k) (conv2_valid K n A' k').
Proof.
  intros HA Hk. apply in_relx in HA, Hk. split; [|split]; apply out_relx.
  - apply (conv2_ref I K RI RX); auto.
  - apply (conv2_full_ref I K RI RX); auto.
  - apply (conv2_valid_ref I K RI RX); auto.
Qed.
End IntFloat.
End Format.

(** ** The formats of C++ *)
Theorem c91_formats : wider 24 128 53 1024 /\ wider 24 128 64 16384 /\ wider 53 1024 64 16384 /\
  (2 * 24 + 2 <= 53)%Z /\ (2 * 24 + 2 <= 64)%Z.
Proof. unfold wider, SpecFloat.emin. repeat split; lia. Qed.

(** ** What does not survive *)
Definition fzq (p e : Z) {H1 : Prec_gt_0 p} {H2 : Prec_lt_emax p e} (m ex : Z) : binary_float p e :=
  binary_normalize p e H1 H2 mode_NE m ex false.
Arguments fzq p e {H1 H2} m ex.

(** double in the x87 format: rounding twice, 1 + (2^-53 + 2^-78) is 1 and not 1 + 2^-52 *)
Definition one64 : matrix (elt float64S) := [[fzq 53 1024 1 0]].
Definition tiny64 : matrix (elt float64S) := [[fzq 53 1024 (2 ^ 25 + 1) (-78)]].

Lemma c91_double_check :
  match sum float64S 1 1 one64 tiny64, sum double_in_x87 1 1 one64 tiny64 with
  | Ok A, Ok B => mat_eqb float64S A [[fzq 53 1024 (2 ^ 52 + 1) (-52)]] && mat_eqb float64S B one64
  | _, _ => false
  end = true.
Proof. vm_compute. reflexivity. Qed.

Theorem c91_double_rounding : exists A B : matrix (elt float64S),
  differ (K := float64S) (sum float64S 1 1 A B) (sum double_in_x87 1 1 A B) = true.
Proof. exists one64, tiny64. vm_compute. reflexivity. Qed.

(** products of float matrices in double: [-2^24, 2^12+1] * [1, 2^12+1] is 2^13 in float, 2^13 + 1 in double *)
Definition row32 : matrix (elt float32S) := [[fz32 (-16777216); fz32 4097]].
Definition col32 : matrix (elt float32S) := [[fz32 1]; [fz32 4097]].

Lemma c91_product_check :
  match mult float32S 1 2 1 row32 col32, mult float_in_double 1 2 1 row32 col32, mult float_in_x87 1 2 1 row32 col32 with
  | Ok A, Ok B, Ok C => mat_eqb float32S A [[fz32 8192]] && mat_eqb float32S B [[fz32 8193]] && mat_eqb float32S C [[fz32 8193]]
  | _, _, _ => false
  end = true.
Proof. vm_compute. reflexivity. Qed.

Theorem c91_product_differs : exists A B : matrix (elt float32S),
  differ (K := float32S) (mult float32S 1 2 1 A B) (mult float_in_double 1 2 1 A B) = true /\
  differ (K := float32S) (mult float32S 1 2 1 A B) (mult float_in_x87 1 2 1 A B) = true.
Proof. exists row32, col32. split; vm_compute; reflexivity. Qed.

(** two float matrices with determinant 1 that inv rejects in float and accepts in double: entries above 2^12 *)
Definition near32 : matrix (elt float32S) := [[fz32 4097; fz32 4096]; [fz32 4098; fz32 4097]].
Lemma c91_inv_check :
  match inv float32S 2 near32, inv float_in_double 2 near32 with
  | Throw OverflowError, Ok A => mat_eqb float32S A [[fz32 4097; fz32 (-4096)]; [fz32 (-4098); fz32 4097]]
  | _, _ => false
  end = true.
Proof. vm_compute. reflexivity. Qed.

Theorem c91_inv_differs : inv float32S 2 near32 = Throw OverflowError /\
  exists C, inv float_in_double 2 near32 = Ok C /\
    mat_eqb float32S C [[fz32 4097; fz32 (-4096)]; [fz32 (-4098); fz32 4097]] = true.
Proof.
  pose proof c91_inv_check as H. revert H. generalize (inv float32S 2 near32) (inv float_in_double 2 near32). intros o o' H.
  destruct o as [|[]| | |]; try discriminate. destruct o' as [C|[]| | |]; try discriminate. split; [reflexivity|]. exists C. auto.
Qed.

(** the hypotheses of c91_singular and c91_inv_rejects: a matrix whose products overflow [float] *)
Example c91_ex : let x := fz32 (2 ^ 100) in
  wider 24 128 53 1024 /\ is_finite x = true /\ (B2R x * B2R x = B2R x * B2R x)%R /\
  is_finite (Bmult mode_NE x x : elt float32S) = false /\
  inv float_in_double 2 [[x; x]; [x; x]] = Throw OverflowError.
Proof. split; [apply c91_formats|]. repeat split; vm_compute; reflexivity. Qed.

Print Assumptions c91_equal_algebra.
Print Assumptions c91_equal_solve.
Print Assumptions c91_equal_stat.
Print Assumptions c91_same_compare.
Print Assumptions c91_same_elementwise.
Print Assumptions c91_same_mean.
Print Assumptions c91_eye.
Print Assumptions c91_trans.
Print Assumptions c91_symmetric.
Print Assumptions c91_mult_error.
Print Assumptions c91_var.
Print Assumptions c91_median.
Print Assumptions c91_det2_number.
Print Assumptions c91_singular.
Print Assumptions c91_det2_error.
Print Assumptions c91_inv_rejects.
Print Assumptions c91_det3.
Print Assumptions c91_det3_error.
Print Assumptions c91_int_mult.
Print Assumptions c91_int_pow.
Print Assumptions c91_int_det.
Print Assumptions c91_int_conv2.
Print Assumptions c91_formats.
Print Assumptions c91_double_rounding.
Print Assumptions c91_product_differs.
Print Assumptions c91_inv_differs.
