(** * Property C81: what contraction to fused multiply-add changes

    [fmaS prec emax pol] (CFma.v) is the floating-point element type when the
    compiler may evaluate a*b + c with one rounding, by the policy [pol];
    [floatS prec emax] is the element type without contraction.  Every binary
    format and, unless a policy is named, every policy. *)

From Coq Require Import ZArith Reals Lra Lia Bool List Arith.
Import ListNotations.
From Flocq Require Import IEEE754.BinarySingleNaN Core.Core Relative Plus_error Mult_error.
From Verif Require Import Base Scalar CInt CFloat CFma Model Spec Loops Struct Preds Order Stat LURec Float FloatMx FloatStat
  Param ParamInst Fma FloatErr PropFloat PropParam.

Local Open Scope nat_scope.

(** both runs return the same value, throw the same exception, or terminate *)
Definition same_run {A : Type} (o o' : outcome A) : Prop :=
  (forall r, o = Ok r <-> o' = Ok r) /\ (forall e, o = Throw e <-> o' = Throw e) /\ (o = Terminate <-> o' = Terminate).

Section Format.
Variables prec emax : Z.
Context {Hp : Prec_gt_0 prec} {He : Prec_lt_emax prec emax}.
Notation fl := (binary_float prec emax).
Notation K0 := (floatS prec emax).
Notation fexp := (SpecFloat.fexp prec emax).
Notation emin := (SpecFloat.emin prec emax).
Notation rnd := (round radix2 fexp ZnearestE).
Notation u := (uro prec).
Notation h := (eta prec emax).
Notation one := (f_of_Z prec emax 1).
Notation "x ⊕ y" := (Bplus mode_NE x y) (at level 50, left associativity).
Notation "x ⊖ y" := (Bminus mode_NE x y) (at level 50, left associativity).
Notation "x ⊗ y" := (Bmult mode_NE x y) (at level 40, left associativity).
Notation fma x y z := (Bfma mode_NE x y z).
Implicit Types (f g : nat -> nat -> fl) (A B : matrix fl).

(** ** Without contraction: the two models agree on every function *)
Section Off.
Notation K1 := (fmaS prec emax never).

Definition relx (x : fl) (v : fval prec emax) : Prop := x = ev v.

Lemma F2_eq {T} (a b : list T) : Forall2 eq a b <-> a = b.
Proof.
  split; [intros H; induction H; congruence|intros ->]. induction b; constructor; auto.
Qed.
Lemma mrel_eq {T} (a b : matrix T) : mrel eq a b <-> a = b.
Proof.
  split.
  - intros H. unfold mrel in H. induction H as [|x y a b E _ IH]; [reflexivity|]. apply F2_eq in E. congruence.
  - intros ->. unfold mrel. induction b; constructor; [apply F2_eq; reflexivity|assumption].
Qed.

Lemma run_eq {X : Type} (R : X -> X -> Prop) (o o' : outcome X) : (forall a b, R a b -> a = b) ->
  refines R o o' -> refines R o' o -> same_run o o'.
Proof.
  intros HR H1 H2. unfold same_run.
  split; [intros r|split; [intros e|]]; split; intros E; rewrite E in H1, H2; cbn [refines] in H1, H2; auto;
    [destruct H1 as [x [-> Q]]|destruct H2 as [x [-> Q]]]; apply HR in Q; congruence.
Qed.

Lemma mrel_eq1 {T} (a b : matrix T) : mrel eq a b -> a = b. Proof. apply mrel_eq. Qed.
Lemma mrel_refl {T} (a : matrix T) : mrel eq a a. Proof. apply mrel_eq. reflexivity. Qed.
Lemma relP_eq {T} (a b : matrix T * matrix T) : relP (mrel eq) (mrel eq) a b -> a = b.
Proof. destruct a, b. intros [H1 H2]. simpl in *. apply mrel_eq in H1, H2. congruence. Qed.
Lemma relH_eq {T} (a b : list (T * Z)) : Forall2 (relP eq (@eq Z)) a b -> a = b.
Proof. intros H. induction H as [|[] [] ? ? [H1 H2] _ IH]; simpl in *; congruence. Qed.

Let ld1 : forall a a' : fl, a = a' -> relx (@ld K0 a) (@ld K1 a') := fun a a' e => e.
Let st1 : forall v v', relx v v' -> @st K0 v = @st K1 v' := fun v v' e => e.
Let lit1 z : relx (@lit K0 z) (@lit K1 z) := eq_refl.
Let add1 a a' b b' : relx a a' -> relx b b' -> refines relx (@xadd K0 a b) (@xadd K1 a' b').
Proof. intros -> ->. eexists. split; reflexivity. Qed.
Let sub1 a a' b b' : relx a a' -> relx b b' -> refines relx (@xsub K0 a b) (@xsub K1 a' b').
Proof. intros -> ->. eexists. split; reflexivity. Qed.
Let mul1 a a' b b' : relx a a' -> relx b b' -> refines relx (@xmul K0 a b) (@xmul K1 a' b').
Proof. intros -> ->. eexists. split; reflexivity. Qed.
Let div1 a a' b b' : relx a a' -> relx b b' -> refines relx (@xdiv K0 a b) (@xdiv K1 a' b').
Proof. intros -> ->. eexists. split; reflexivity. Qed.
Let neg1 a a' : relx a a' -> refines relx (@xneg K0 a) (@xneg K1 a').
Proof. intros ->. eexists. split; reflexivity. Qed.
Let abs1 a a' : relx a a' -> refines relx (@xabs K0 a) (@xabs K1 a').
Proof. intros ->. eexists. split; reflexivity. Qed.
Let eq1 a a' b b' : relx a a' -> relx b b' -> @xeq K0 a b = @xeq K1 a' b'.
Proof. intros -> ->. reflexivity. Qed.
Let lt1 a a' b b' : relx a a' -> relx b b' -> @xlt K0 a b = @xlt K1 a' b'.
Proof. intros -> ->. reflexivity. Qed.
Let sqrt1 a a' : relx a a' -> refines eq (@xsqrt K0 a) (@xsqrt K1 a').
Proof. intros ->. eexists. split; reflexivity. Qed.
Let divsz1 a a' n : relx a a' -> refines eq (@divsz K0 a n) (@divsz K1 a' n).
Proof. intros ->. eexists. split; reflexivity. Qed.

Definition relx' (v : fval prec emax) (x : fl) : Prop := x = ev v.
Let ld2 : forall a a' : fl, a = a' -> relx' (@ld K1 a) (@ld K0 a') := fun a a' e => eq_sym e.
Let st2 : forall v v', relx' v v' -> @st K1 v = @st K0 v' := fun v v' e => eq_sym e.
Let lit2 z : relx' (@lit K1 z) (@lit K0 z) := eq_refl.
Let add2 a a' b b' : relx' a a' -> relx' b b' -> refines relx' (@xadd K1 a b) (@xadd K0 a' b').
Proof. intros -> ->. eexists. split; reflexivity. Qed.
Let sub2 a a' b b' : relx' a a' -> relx' b b' -> refines relx' (@xsub K1 a b) (@xsub K0 a' b').
Proof. intros -> ->. eexists. split; reflexivity. Qed.
Let mul2 a a' b b' : relx' a a' -> relx' b b' -> refines relx' (@xmul K1 a b) (@xmul K0 a' b').
Proof. intros -> ->. eexists. split; reflexivity. Qed.
Let div2 a a' b b' : relx' a a' -> relx' b b' -> refines relx' (@xdiv K1 a b) (@xdiv K0 a' b').
Proof. intros -> ->. eexists. split; reflexivity. Qed.
Let neg2 a a' : relx' a a' -> refines relx' (@xneg K1 a) (@xneg K0 a').
Proof. intros ->. eexists. split; reflexivity. Qed.
Let eq2 a a' b b' : relx' a a' -> relx' b b' -> @xeq K1 a b = @xeq K0 a' b'.
Proof. intros -> ->. reflexivity. Qed.
Let lt2 a a' b b' : relx' a a' -> relx' b b' -> @xlt K1 a b = @xlt K0 a' b'.
Proof. intros -> ->. reflexivity. Qed.
Let sqrt2 a a' : relx' a a' -> refines eq (@xsqrt K1 a) (@xsqrt K0 a').
Proof. intros ->. eexists. split; reflexivity. Qed.
Let divsz2 a a' n : relx' a a' -> refines eq (@divsz K1 a n) (@divsz K0 a' n).
Proof. intros ->. eexists. split; reflexivity. Qed.

Theorem c81_off_algebra n m p w q A B (k : matrix fl) :
  same_run (mult K0 n m p A B) (mult K1 n m p A B) /\
  same_run (strassen K0 A B) (strassen K1 A B) /\
  same_run (pow K0 n w A q) (pow K1 n w A q) /\
  same_run (conv2 K0 n m A k) (conv2 K1 n m A k) /\
  same_run (conv2_full K0 n m A k) (conv2_full K1 n m A k) /\
  same_run (conv2_valid K0 n A k) (conv2_valid K1 n A k).
Proof.
  repeat match goal with |- _ /\ _ => split end; apply (run_eq (mrel eq)); try apply mrel_eq1.
  - apply (mult_ref K0 K1 eq relx); auto using mrel_refl.
  - apply (mult_ref K1 K0 eq relx'); auto using mrel_refl.
  - apply (strassen_ref K0 K1 eq relx); auto using mrel_refl.
  - apply (strassen_ref K1 K0 eq relx'); auto using mrel_refl.
  - apply (pow_ref_all K0 K1 eq relx); auto using mrel_refl.
  - apply (pow_ref_all K1 K0 eq relx'); auto using mrel_refl.
  - apply (conv2_ref K0 K1 eq relx); auto using mrel_refl.
  - apply (conv2_ref K1 K0 eq relx'); auto using mrel_refl.
  - apply (conv2_full_ref K0 K1 eq relx); auto using mrel_refl.
  - apply (conv2_full_ref K1 K0 eq relx'); auto using mrel_refl.
  - apply (conv2_valid_ref K0 K1 eq relx); auto using mrel_refl.
  - apply (conv2_valid_ref K1 K0 eq relx'); auto using mrel_refl.
Qed.

Theorem c81_off_solve n A :
  same_run (det K0 n A) (det K1 n A) /\ same_run (inv K0 n A) (inv K1 n A) /\
  same_run (lu K0 n A) (lu K1 n A) /\ same_run (chol K0 n A) (chol K1 n A).
Proof.
  repeat match goal with |- _ /\ _ => split end.
  - apply (run_eq eq); [auto| |].
    + apply (det_ref K0 K1 eq relx); auto using mrel_refl.
    + apply (det_ref K1 K0 eq relx'); auto using mrel_refl.
  - apply (run_eq (mrel eq)); [apply mrel_eq1| |].
    + apply (inv_ref K0 K1 eq relx); auto using mrel_refl.
    + apply (inv_ref K1 K0 eq relx'); auto using mrel_refl.
  - apply (run_eq (relP (mrel eq) (mrel eq))); [apply relP_eq| |].
    + apply (lu_ref K0 K1 eq relx); auto using mrel_refl.
    + apply (lu_ref K1 K0 eq relx'); auto using mrel_refl.
  - apply (run_eq (mrel eq)); [apply mrel_eq1| |].
    + apply (chol_ref K0 K1 eq relx); auto using mrel_refl.
    + apply (chol_ref K1 K0 eq relx'); auto using mrel_refl.
Qed.

Theorem c81_off_stat sort n m A :
  same_run (mean K0 n m A) (mean K1 n m A) /\ same_run (var K0 n m A) (var K1 n m A) /\
  same_run (stddev K0 n m A) (stddev K1 n m A) /\ same_run (median K0 sort n m A) (median K1 sort n m A) /\
  same_run (histogram K0 n m A) (histogram K1 n m A).
Proof.
  repeat match goal with |- _ /\ _ => split end.
  - apply (run_eq eq); [auto| |].
    + apply (mean_ref K0 K1 eq relx); auto using mrel_refl.
    + apply (mean_ref K1 K0 eq relx'); auto using mrel_refl.
  - apply (run_eq eq); [auto| |].
    + apply (var_ref K0 K1 eq relx); auto using mrel_refl.
    + apply (var_ref K1 K0 eq relx'); auto using mrel_refl.
  - apply (run_eq eq); [auto| |].
    + apply (stddev_ref K0 K1 eq relx); auto using mrel_refl.
    + apply (stddev_ref K1 K0 eq relx'); auto using mrel_refl.
  - apply (run_eq eq); [auto| |].
    + apply (median_ref K0 K1 eq relx); auto using mrel_refl.
      intros v v' H. apply F2_eq in H. apply F2_eq. congruence.
    + apply (median_ref K1 K0 eq relx'); auto using mrel_refl.
      intros v v' H. apply F2_eq in H. apply F2_eq. congruence.
  - apply (run_eq (Forall2 (relP eq (@eq Z)))); [apply relH_eq| |].
    + apply (histogram_ref K0 K1 eq relx); auto using mrel_refl.
    + apply (histogram_ref K1 K0 eq relx'); auto using mrel_refl.
Qed.
End Off.

(** ** Whatever the policy *)
Section Policy.
Variable pol : policy.
Notation K := (fmaS prec emax pol).

Lemma fadd_val (x y : fl) : fadd prec emax pol (Val x) (Val y) = x ⊕ y.
Proof. unfold fadd. destruct (pol _ _ _); reflexivity. Qed.
Lemma fsub_val (x y : fl) : fsub prec emax pol (Val x) (Val y) = x ⊖ y.
Proof. unfold fsub. destruct (pol _ _ _); reflexivity. Qed.

(** *** functions without an expression to contract: not affected at all *)
Theorem c81_same_elementwise n m f g s :
  sum K n m (mk n m f) (mk n m g) = sum K0 n m (mk n m f) (mk n m g) /\
  sub K n m (mk n m f) (mk n m g) = sub K0 n m (mk n m f) (mk n m g) /\
  mult_scalar K n m (mk n m f) s = mult_scalar K0 n m (mk n m f) s /\
  div K n m (mk n m f) s = div K0 n m (mk n m f) s.
Proof.
  rewrite !sum_tab, !sub_tab, !mult_scalar_tab, !div_tab.
  repeat match goal with |- _ /\ _ => split end; try reflexivity.
  - apply tabM_ext. intros i j _ _. cbn. rewrite fadd_val. reflexivity.
  - apply tabM_ext. intros i j _ _. cbn. rewrite fsub_val. reflexivity.
Qed.

Theorem c81_same_strassen f g : strassen K (mk 2 2 f) (mk 2 2 g) = strassen K0 (mk 2 2 f) (mk 2 2 g).
Proof.
  unfold strassen. cbn -[fadd fsub Bplus Bminus Bmult]. rewrite ?fsub_val, ?fadd_val. cbn -[Bplus Bminus Bmult fadd fsub].
  rewrite ?fsub_val, ?fadd_val. reflexivity.
Qed.

Lemma det_eliminate_same n A r p : det_eliminate K n A r p = det_eliminate K0 n A r p.
Proof.
  unfold det_eliminate. apply for_ext. intros i X _. destruct (i =? r); [reflexivity|].
  apply bind_ext. intros v _. apply for_ext. intros j Y _.
  apply bind_ext. intros aij _. apply bind_ext. intros arj _. apply bind_ext. intros arp _.
  cbn [bind xmul xdiv xsub ld fmaS floatS ev st]. rewrite fsub_val. reflexivity.
Qed.

Lemma for_ret_ext {S R : Type} lo hi (b b' : nat -> S -> outcome (ctrl S R)) s :
  (forall i s, b i s = b' i s) -> for_ret lo hi b s = for_ret lo hi b' s.
Proof.
  intros H. unfold for_ret. generalize (hi - lo). intros c. revert lo s.
  induction c as [|c IH]; intros lo s; [reflexivity|]. cbn [iter_ret]. rewrite H. apply bind_ext. intros [s'|v] _; auto.
Qed.

Lemma det_general_same n A : det_general K n A = det_general K0 n A.
Proof.
  unfold det_general.
  match goal with |- bind ?a ?k = bind ?b ?k' => change k with k'; cut (a = b); [intros ->; reflexivity|] end.
  apply for_ret_ext. intros r [[X f] p]. destruct (n <=? p); [reflexivity|].
  apply bind_ext. intros [[i q]|t] _; [|reflexivity].
  apply bind_ext. intros [Y f'] _. rewrite det_eliminate_same. reflexivity.
Qed.

(** a determinant of 4x4 or more, an inverse of 5x5 or more *)
Theorem c81_same_det n A : 4 <= n -> det K n A = det K0 n A.
Proof.
  intros Hn. destruct n as [|[|[|[|n]]]]; try lia. apply det_general_same.
Qed.

Theorem c81_same_inv n A : 5 <= n -> inv K n A = inv K0 n A.
Proof.
  intros Hn. destruct n as [|[|[|[|n]]]]; try lia. unfold inv, inv_general.
  rewrite c81_same_det by lia. apply bind_ext. intros d _.
  match goal with |- bind ?a ?k = bind ?b ?k' => change k with k'; cut (a = b); [intros ->; reflexivity|] end.
  apply for_ext. intros i X _. apply for_ext. intros j Y _. apply bind_ext. intros mn _.
  rewrite c81_same_det by lia. reflexivity.
Qed.

Theorem c81_same_mean n m A : mean K n m A = mean K0 n m A.
Proof.
  unfold mean.
  match goal with |- bind ?a ?k = bind ?b ?k' => change k with k'; cut (a = b); [intros ->; reflexivity|] end.
  apply for_ext. intros i X _. apply for_ext. intros j Y _. apply bind_ext. intros a _.
  cbn [xadd bind ld st fmaS floatS ev]. rewrite fadd_val. reflexivity.
Qed.

(** *** laws that survive *)
Theorem c81_eye n m f : (forall i j, i < n -> j < m -> is_finite (f i j) = true) ->
  exists C, (let* E := eye1 K m in mult K n m m (mk n m f) E) = Ok C /\ mat_eqb K0 C (mk n m f) = true.
Proof.
  intros H. rewrite (eye1_mk K). cbn [bind]. rewrite mult_fma. eexists. split; [reflexivity|].
  apply mat_eqb_mk. intros i j Hi Hj. cbn [ld floatS xeq].
  destruct (adot_unit prec emax pol m (fun k => f i k) j) as [F V]; [auto|].
  destruct (Nat.ltb_spec j m); [|lia].
  apply Beqb_finite; auto.
Qed.

(** trans(A*B) = trans(B) * trans(A), to the last bit *)
Theorem c81_trans n m p f g :
  (let* C := mult K n m p (mk n m f) (mk m p g) in trans K n p C) =
  (let* B' := trans K m p (mk m p g) in let* A' := trans K n m (mk n m f) in mult K p m n B' A').
Proof.
  rewrite mult_fma, !trans_mk. cbn [bind]. rewrite trans_mk, mult_fma. f_equal. apply mk_ext. intros i j _ _.
  apply adot_comm.
Qed.

(** A * trans(A) is symmetric *)
Theorem c81_symmetric n m f : exists c,
  (let* B := trans K n m (mk n m f) in mult K n m n (mk n m f) B) = Ok (mk n n c) /\
  forall i j, i < n -> j < n -> c i j = c j i.
Proof.
  rewrite trans_mk. cbn [bind]. rewrite mult_fma. eexists. split; [reflexivity|]. intros i j _ _. apply adot_comm.
Qed.

(** the bound on the error of the product is the one proved without contraction (C51) *)
Theorem c81_mult_error n m p f g : exists c,
  mult K n m p (mk n m f) (mk m p g) = Ok (mk n p c) /\
  forall i j, i < n -> j < p -> is_finite (c i j) = true ->
  (Rabs (B2R (c i j) - rsum m (fun k => B2R (f i k) * B2R (g k j))) <=
   ((1 + u) ^ m - 1) * rsum m (fun k => Rabs (B2R (f i k) * B2R (g k j))) +
   INR m * h * (1 + u) ^ (m - 1))%R.
Proof.
  rewrite mult_fma. eexists. split; [reflexivity|]. intros i j _ _ F. apply (adot_error prec emax pol). exact F.
Qed.

(** variances are never negative *)
Theorem c81_var n m f r : var K n m (mk n m f) = Ok r -> is_nan r = true \/ Bsign r = false.
Proof.
  unfold var. intros H. apply bind_inv in H. destruct H as [mu [_ H]]. apply bind_inv in H. destruct H as [s [H E]].
  cbn [divsz fmaS ld ev] in E. injection E as <-. apply nn_div.
  - revert H. apply (for_partial (fun _ (r : fl) => nn prec emax r)); [lia|right; reflexivity|].
    intros i r0 r1 _ H0. apply (for_partial (fun _ (r : fl) => nn prec emax r)); [lia|exact H0|].
    intros j r2 r3 _ H2 H. apply bind_inv in H. destruct H as [a [_ H]].
    cbn [xsub xmul xadd bind ld st fmaS ev] in H. rewrite fsub_val in H. injection H as <-.
    fold (acc prec emax pol r2 (a ⊖ mu) (a ⊖ mu)). rewrite acc_cases. destruct (fuses pol).
    + apply nn_fma, H2.
    + apply nn_plus; [exact H2|apply nn_sq].
  - apply nn_of_nat. unfold size_mul. apply Z.mod_pos_bound. lia.
Qed.

(** *** integers: with int arithmetic that does not overflow, contraction or not, the
    results are the integers ([same], [agree]: C61) *)
Section IntFloat.
Variable t : ityp.
Hypothesis Hs : sgn t = true.
Hypothesis Hw : (32 <= width t <= prec + 1)%Z.
Notation I := (intS t).
Notation sameM := (mrel (same prec emax t)).
Notation RI := (relI prec emax t).

(** an expression with the integer value z; a product has integer factors *)
Definition vrep (z : Z) (v : fval prec emax) : Prop :=
  RI z (ev v) /\
  match v with
  | Val _ => True
  | Prd x y => exists a b, rep prec emax a x /\ rep prec emax b y /\ z = (a * b)%Z
  end.

Lemma rep_fma a b c x y z : rep prec emax a x -> rep prec emax b y -> rep prec emax c z ->
  (Z.abs (a * b + c) <= 2 ^ prec)%Z -> rep prec emax (a * b + c) (fma x y z).
Proof.
  intros [Fx Ex] [Fy Ey] [Fz Ez] H. unfold rep. rewrite plus_IZR, mult_IZR, <- Ex, <- Ey, <- Ez.
  apply Bfma_exact; auto; rewrite Ex, Ey, Ez, <- mult_IZR, <- plus_IZR; [apply (small_format prec emax), H|apply (small_lt_emax prec emax), H].
Qed.

Lemma vrep_add a v b w : vrep a v -> vrep b w -> refines vrep (@xadd I a b) (@xadd K v w).
Proof.
  intros [[Ra _] Hv] [[Rb _] Hw']. cbn [xadd intS fmaS]. rewrite (promote_t prec t Hw).
  apply ref_mono with (R := fun z v => exists x, v = Val x /\ RI z x);
    [|intros z ? [x [-> R]]; split; [exact R|exact Logic.I]].
  unfold iarith. rewrite Hs. destruct (in_range t (a + b)) eqn:E; [|exact Logic.I].
  pose proof (range_small prec t Hs Hw _ E) as L. eexists. split; [reflexivity|]. eexists. split; [reflexivity|].
  split; [|exact E]. unfold fadd. destruct (pol false (is_prd v) (is_prd w)).
  - apply rep_add; auto.
  - destruct v as [x|x y]; [apply rep_add; auto|]. destruct Hv as [p [q [Hx [Hy ->]]]]. apply rep_fma; auto.
  - destruct w as [x|x y]; [destruct v; apply rep_add; auto|]. destruct Hw' as [p [q [Hx [Hy ->]]]].
    assert (Q : rep prec emax (a + p * q) (fma x y (ev v))) by (rewrite Z.add_comm; apply rep_fma; auto; rewrite Z.add_comm; exact L).
    destruct v; exact Q.
Qed.

Lemma vrep_sub a v b w : vrep a v -> vrep b w -> refines vrep (@xsub I a b) (@xsub K v w).
Proof.
  intros [[Ra _] Hv] [[Rb _] Hw']. cbn [xsub intS fmaS]. rewrite (promote_t prec t Hw).
  apply ref_mono with (R := fun z v => exists x, v = Val x /\ RI z x);
    [|intros z ? [x [-> R]]; split; [exact R|exact Logic.I]].
  unfold iarith. rewrite Hs. destruct (in_range t (a - b)) eqn:E; [|exact Logic.I].
  pose proof (range_small prec t Hs Hw _ E) as L. eexists. split; [reflexivity|]. eexists. split; [reflexivity|].
  split; [|exact E]. unfold fsub. destruct (pol true (is_prd v) (is_prd w)).
  - apply rep_sub; auto.
  - destruct v as [x|x y]; [apply rep_sub; auto|]. destruct Hv as [p [q [Hx [Hy ->]]]].
    replace (p * q - b)%Z with (p * q + - b)%Z in * by ring. apply rep_fma; auto. apply rep_neg, Rb.
  - destruct w as [x|x y]; [destruct v; apply rep_sub; auto|]. destruct Hw' as [p [q [Hx [Hy ->]]]].
    assert (Q : rep prec emax (a - p * q) (fma (Bopp x) y (ev v))).
    { replace (a - p * q)%Z with (- p * q + a)%Z in * by ring. apply rep_fma; auto. apply rep_neg, Hx. }
    destruct v; exact Q.
Qed.

Lemma vrep_mul a v b w : vrep a v -> vrep b w -> refines vrep (@xmul I a b) (@xmul K v w).
Proof.
  intros [[Ra _] _] [[Rb _] _]. cbn [xmul intS fmaS]. rewrite (promote_t prec t Hw).
  unfold iarith. rewrite Hs. destruct (in_range t (a * b)) eqn:E; [|exact Logic.I].
  eexists. split; [reflexivity|]. split.
  - split; [|exact E]. apply rep_mul; auto. apply (range_small prec t Hs Hw _ E).
  - exists a, b. auto.
Qed.

Let ld_ a (x : fl) : RI a x -> vrep (@ld I a) (@ld K x).
Proof. intros H. split; [exact H|exact Logic.I]. Qed.
Let st_ a v : vrep a v -> RI (@st I a) (@st K v).
Proof. intros [H _]. apply (I_stR prec emax t Hs Hw), H. Qed.
Let lit_ z : (Z.abs z <= 1)%Z -> vrep (@lit I z) (@lit K z).
Proof. intros H. split; [|exact Logic.I]. apply (I_lit prec emax t Hs Hw z H). Qed.
Let lit0 : vrep (@lit I 0) (@lit K 0). Proof. apply lit_. lia. Qed.
Let lit1 : vrep (@lit I 1) (@lit K 1). Proof. apply lit_. lia. Qed.

Lemma in_rel (A : matrix Z) (A' : matrix fl) : sameM A A' -> mrel RI A A'.
Proof. apply sameM_relI; assumption. Qed.
Lemma out_rel o (o' : outcome (matrix fl)) : refines (mrel RI) o o' -> agree sameM o o'.
Proof. apply agree_same; assumption. Qed.

Theorem c81_int_mult n m p (A B : matrix Z) (A' B' : matrix fl) : sameM A A' -> sameM B B' ->
  agree sameM (mult I n m p A B) (mult K n m p A' B').
Proof.
  intros HA HB. apply in_rel in HA, HB. apply out_rel.
  apply (mult_ref I K RI vrep); auto using vrep_add, vrep_mul.
Qed.

Theorem c81_int_pow n w (A : matrix Z) (A' : matrix fl) p : sameM A A' -> (0 <= p)%Z ->
  agree sameM (pow I n w A p) (pow K n w A' p).
Proof.
  intros HA Hp0. apply in_rel in HA. apply out_rel.
  apply (pow_ref I K RI vrep); auto using vrep_add, vrep_mul.
Qed.

Theorem c81_int_det n (A : matrix Z) (A' : matrix fl) : 0 < n <= 3 -> sameM A A' -> agree (same prec emax t) (det I n A) (det K n A').
Proof.
  intros Hn HA a E. apply in_rel in HA.
  assert (R : refines RI (det I n A) (det K n A')) by (apply (det_small_ref I K RI vrep); auto using vrep_add, vrep_sub, vrep_mul).
  rewrite E in R. destruct R as [b [E' R]]. exists b. split; [exact E'|]. apply same_relI; assumption.
Qed.

Theorem c81_int_conv2 n m (A k : matrix Z) (A' k' : matrix fl) : sameM A A' -> sameM k k' ->
  agree sameM (conv2 I n m A k) (conv2 K n m A' k') /\
  agree sameM (conv2_full I n m A k) (conv2_full K n m A' k') /\
  agree sameM (conv2_valid I n A k) (conv2_valid K n A' k').
Proof.
  intros HA Hk. apply in_rel in HA, Hk. split; [|split]; apply out_rel.
  - apply (conv2_ref I K RI vrep); auto using vrep_add, vrep_mul.
  - apply (conv2_full_ref I K RI vrep); auto using vrep_add, vrep_mul.
  - apply (conv2_valid_ref I K RI vrep); auto using vrep_add, vrep_mul.
Qed.
End IntFloat.
End Policy.

(** ** What does not survive: singular 2x2 matrices *)
Section Singular.
Variables a b c d : fl.
Hypothesis Fin : is_finite (a ⊗ d) = true /\ is_finite (b ⊗ c) = true.
Hypothesis Sing : (B2R a * B2R d = B2R b * B2R c)%R.

Notation mat := [[a; b]; [c; d]].

Lemma prods : is_finite a = true /\ is_finite b = true /\ is_finite c = true /\ is_finite d = true /\
  B2R (a ⊗ d) = rnd (B2R a * B2R d) /\ B2R (b ⊗ c) = rnd (B2R a * B2R d).
Proof.
  destruct Fin as [F1 F2]. destruct (Bmult_finite prec emax _ _ F1) as [? [? ?]].
  destruct (Bmult_finite prec emax _ _ F2) as [? [? ?]]. rewrite Sing. repeat split; auto. congruence.
Qed.

Lemma eq0 (r : fl) : is_finite r = true -> xeq (s := K0) r (f_of_Z prec emax 0) = true <-> B2R r = 0%R.
Proof.
  intros F. cbn [xeq floatS]. rewrite Beqb_correct by auto.
  change (B2R (f_of_Z prec emax 0)) with 0%R.
  destruct (Req_bool_spec (B2R r) 0) as [E|E]; split; intros H; congruence.
Qed.

(** without contraction both products round to the same number: the determinant is
    exactly zero and inv throws *)
Theorem c81_singular_off :
  (exists r, det K0 2 mat = Ok r /\ is_finite r = true /\ B2R r = 0%R) /\ inv K0 2 mat = Throw OverflowError.
Proof.
  assert (D : exists r, det K0 2 mat = Ok r /\ is_finite r = true /\ B2R r = 0%R).
  { exists ((a ⊗ d) ⊖ (b ⊗ c)). split; [reflexivity|]. destruct prods as [_ [_ [_ [_ [E1 E2]]]]]. destruct Fin as [F1 F2].
    generalize (Bminus_correct prec emax Hp He mode_NE _ _ F1 F2). rewrite E1, E2.
    rewrite Rminus_diag_eq by reflexivity. simpl round_mode. rewrite (rnd0 prec emax), Rabs_R0, Rlt_bool_true by apply bpow_gt_0.
    tauto. }
  split; [exact D|]. destruct D as [r [D [F V]]]. unfold inv, inv2. rewrite D. cbn [bind].
  replace (xeq (ld r) (lit 0)) with true; [reflexivity|]. symmetry. apply eq0; auto.
Qed.

(** contracted, the determinant is the rounding error of the product a*d: it is zero,
    and inv throws, only if a*d is representable *)
Variable pol : policy.
Notation K := (fmaS prec emax pol).
Hypothesis Fuse : pol true true true <> Separate.
Hypothesis NoUnderflow : (B2R a * B2R d <> 0 -> bpow radix2 (emin + 2 * prec - 1) <= Rabs (B2R a * B2R d))%R.

Theorem c81_singular_det : exists r, det K 2 mat = Ok r /\ is_finite r = true /\
  Rabs (B2R r) = Rabs (B2R (a ⊗ d) - B2R a * B2R d).
Proof.
  destruct prods as [Fa [Fb [Fc [Fd [E1 E2]]]]]. destruct Fin as [F1 F2].
  set (x := (B2R a * B2R d)%R) in *.
  assert (G : generic_format radix2 fexp (rnd x - x)).
  { apply (mult_error_FLT radix2 emin prec ZnearestE (B2R a) (B2R d)); [apply generic_format_B2R|apply generic_format_B2R|exact NoUnderflow]. }
  assert (L : (Rabs (rnd x - x) < bpow radix2 emax)%R).
  { eapply Rle_lt_trans; [apply (rnd_back prec emax)|].
    assert (Rabs (rnd x) < bpow radix2 emax)%R by (rewrite <- E1; apply abs_lt_emax).
    assert (u <= / 2)%R.
    { unfold uro. replace (/ 2)%R with (bpow radix2 (- 1)) by (simpl; lra). apply bpow_le. pose proof (prec_pos prec). lia. }
    assert (h < / 2 * bpow radix2 emax)%R.
    { unfold eta. apply Rmult_lt_compat_l; [lra|]. apply bpow_lt. pose proof (prec_pos prec). pose proof (prec_emax prec emax). lia. }
    pose proof (Rabs_pos (rnd x)). pose proof (uro_pos prec). nra. }
  cbn -[Bmult Bplus Bminus Bfma fsub]. unfold fsub. cbn [is_prd].
  destruct (pol true true true); [congruence| |].
  - destruct (Bfma_exact prec emax a d (Bopp (ev (Prd b c)))) as [F V]; auto; try (rewrite B2R_Bopp; cbn [ev]; rewrite E2; fold x;
      replace (x + - rnd x)%R with (- (rnd x - x))%R by ring).
    + rewrite is_finite_Bopp. exact F2.
    + apply generic_format_opp, G.
    + rewrite Rabs_Ropp. exact L.
    + eexists. split; [reflexivity|]. split; [exact F|]. rewrite V, B2R_Bopp. cbn [ev]. rewrite E1, E2. fold x.
      rewrite <- Rabs_Ropp. f_equal. ring.
  - destruct (Bfma_exact prec emax (Bopp b) c (ev (Prd a d))) as [F V]; auto; try (rewrite B2R_Bopp; cbn [ev]; rewrite E1;
      replace (- B2R b * B2R c + rnd x)%R with (rnd x - x)%R by (rewrite Sing; ring)).
    + rewrite is_finite_Bopp. exact Fb.
    + exact G.
    + exact L.
    + eexists. split; [reflexivity|]. split; [exact F|]. rewrite V, B2R_Bopp. cbn [ev]. rewrite E1. f_equal.
      rewrite Sing. ring.
Qed.

Theorem c81_singular_inv :
  (inv K 2 mat = Throw OverflowError <-> B2R (a ⊗ d) = (B2R a * B2R d)%R) /\
  (B2R (a ⊗ d) <> (B2R a * B2R d)%R -> exists C, inv K 2 mat = Ok C).
Proof.
  destruct c81_singular_det as [r [D [F V]]].
  assert (Z : B2R r = 0%R <-> B2R (a ⊗ d) = (B2R a * B2R d)%R).
  { split; intros E.
    - rewrite E, Rabs_R0 in V. symmetry in V. apply Rabs_eq_R0 in V. lra.
    - rewrite E, Rminus_diag_eq, Rabs_R0 in V by reflexivity. apply Rabs_eq_R0, V. }
  assert (Q : Beqb r (f_of_Z prec emax 0) = true <-> B2R r = 0%R) by (apply eq0, F).
  unfold inv, inv2. rewrite D. cbn [bind ld lit fmaS xeq ev].
  destruct (Beqb r (f_of_Z prec emax 0)) eqn:E.
  - split; [|intros N; exfalso; apply N, Z, Q; reflexivity]. split; [intros _; apply Z, Q; reflexivity|reflexivity].
  - assert (N : B2R (a ⊗ d) <> (B2R a * B2R d)%R) by (intros H; apply Z, Q in H; discriminate).
    cbn [aget vget nth_error bind xneg ld fmaS ev st]. unfold op_div, div. cbn [xeq ld lit fmaS ev]. rewrite E.
    match goal with |- (?o = _ <-> _) /\ _ => assert (R : exists C, o = Ok C) by (eexists; reflexivity) end.
    destruct R as [C ->]. split; [|intros _; exists C; reflexivity]. split; [discriminate|contradiction].
Qed.
End Singular.
End Format.

(** ** Witnesses *)

(** the product [-(2^2p-2 + 2^p), x] * [1, x] with x = 2^(p-1) + 1: 0 with two roundings, 1 with one *)
Definition row {K : scalar} (z : Z -> elt K) (p : Z) : matrix (elt K) :=
  [[z (- (2 ^ (2 * p - 2) + 2 ^ p))%Z; z (2 ^ (p - 1) + 1)%Z]].
Definition col {K : scalar} (z : Z -> elt K) (p : Z) : matrix (elt K) := [[z 1%Z]; [z (2 ^ (p - 1) + 1)%Z]].

Lemma c81_matters_check :
  match mult float32S 1 2 1 (row (K := float32S) fz32 24) (col (K := float32S) fz32 24),
        mult (fmaS 24 128 always_r) 1 2 1 (row (K := float32S) fz32 24) (col (K := float32S) fz32 24),
        mult float64S 1 2 1 (row (K := float64S) fz64 53) (col (K := float64S) fz64 53),
        mult (fmaS 53 1024 always_r) 1 2 1 (row (K := float64S) fz64 53) (col (K := float64S) fz64 53) with
  | Ok A, Ok B, Ok C, Ok D =>
      mat_eqb float32S A [[fz32 0]] && mat_eqb float32S B [[fz32 1]] &&
      mat_eqb float64S C [[fz64 0]] && mat_eqb float64S D [[fz64 1]]
  | _, _, _, _ => false
  end = true.
Proof. vm_compute. reflexivity. Qed.

(** contraction changes products *)
Theorem c81_matters :
  (exists A B : matrix (elt float32S),
    differ (K := float32S) (mult float32S 1 2 1 A B) (mult (fmaS 24 128 always_r) 1 2 1 A B) = true) /\
  (exists A B : matrix (elt float64S),
    differ (K := float64S) (mult float64S 1 2 1 A B) (mult (fmaS 53 1024 always_r) 1 2 1 A B) = true).
Proof.
  split.
  - exists (row (K := float32S) fz32 24), (col (K := float32S) fz32 24). vm_compute. reflexivity.
  - exists (row (K := float64S) fz64 53), (col (K := float64S) fz64 53). vm_compute. reflexivity.
Qed.

Definition bad32 : matrix (elt float32S) := [[fz32 8388609; fz32 8388609]; [fz32 8388609; fz32 8388609]].
Definition bad64 : matrix (elt float64S) :=
  [[fz64 (2 ^ 52 + 1); fz64 (2 ^ 52 + 1)]; [fz64 (2 ^ 52 + 1); fz64 (2 ^ 52 + 1)]].

Lemma c81_singular_check :
  match inv float32S 2 bad32, inv (fmaS 24 128 always_l) 2 bad32, inv (fmaS 24 128 always_r) 2 bad32,
        inv float64S 2 bad64, inv (fmaS 53 1024 always_l) 2 bad64, inv (fmaS 53 1024 always_r) 2 bad64 with
  | Throw OverflowError, Ok A, Ok B, Throw OverflowError, Ok C, Ok D => true
  | _, _, _, _, _, _ => false
  end = true.
Proof. vm_compute. reflexivity. Qed.

(** a matrix with four equal entries is "inverted", in float and in double *)
Theorem c81_singular_inverted :
  (inv float32S 2 bad32 = Throw OverflowError /\ exists C, inv (fmaS 24 128 always_l) 2 bad32 = Ok C) /\
  (inv float64S 2 bad64 = Throw OverflowError /\ exists C, inv (fmaS 53 1024 always_l) 2 bad64 = Ok C).
Proof.
  pose proof c81_singular_check as H.
  destruct (inv float32S 2 bad32) as [|[]| | |]; try discriminate.
  destruct (inv (fmaS 24 128 always_l) 2 bad32); try discriminate.
  destruct (inv (fmaS 24 128 always_r) 2 bad32); try discriminate.
  destruct (inv float64S 2 bad64) as [|[]| | |]; try discriminate.
  destruct (inv (fmaS 53 1024 always_l) 2 bad64); try discriminate.
  destruct (inv (fmaS 53 1024 always_r) 2 bad64); try discriminate.
  repeat split; eexists; reflexivity.
Qed.

(** the hypotheses of c81_singular_det and c81_singular_inv on that matrix *)
Example c81_ex : let x := fz32 8388609 in
  is_finite (Bmult mode_NE x x) = true /\ (B2R x * B2R x = B2R x * B2R x)%R /\
  always_l true true true <> Separate /\
  (bpow radix2 (SpecFloat.emin 24 128 + 2 * 24 - 1) <= Rabs (B2R x * B2R x))%R /\
  (B2R (Bmult mode_NE x x) <> B2R x * B2R x)%R.
Proof.
  intros x. destruct (f_of_Z_small 24 128 8388609) as [E [F _]]; [vm_compute; discriminate|].
  assert (Fp : is_finite (Bmult mode_NE x x) = true) by (vm_compute; reflexivity).
  split; [exact Fp|]. split; [reflexivity|]. split; [discriminate|]. unfold x, fz32 in *. split.
  - rewrite E, <- mult_IZR, Rabs_pos_eq by (apply IZR_le; vm_compute; discriminate).
    apply Rle_trans with 1%R; [|apply IZR_le; vm_compute; discriminate].
    change 1%R with (bpow radix2 0). apply bpow_le. vm_compute. discriminate.
  - rewrite E, <- mult_IZR.
    assert (V : B2R (Bmult mode_NE (f_of_Z 24 128 8388609) (f_of_Z 24 128 8388609) : binary_float 24 128) =
                F2R (Float radix2 8388610 23)) by (vm_compute; reflexivity).
    rewrite V. unfold F2R. simpl Fnum. simpl Fexp. rewrite <- (IZR_Zpower radix2 23) by lia. rewrite <- mult_IZR.
    intros H. apply eq_IZR in H. vm_compute in H. discriminate.
Qed.

Print Assumptions c81_off_algebra.
Print Assumptions c81_off_solve.
Print Assumptions c81_off_stat.
Print Assumptions c81_same_inv.
Print Assumptions c81_mult_error.
Print Assumptions c81_var.
Print Assumptions c81_int_mult.
Print Assumptions c81_singular_inv.
Print Assumptions c81_singular_inverted.
