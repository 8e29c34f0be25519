(** * Properties C61, C63, C64 and part of C62: integers against floating point, order, absolute values

    All three compare two runs of the same function on different element types
    or different arguments; [mrel R A B] says that A and B have the same shape
    and that their elements are related by R, position by position. *)

From Coq Require Import ZArith Reals Lra Lia Bool List Arith.
Import ListNotations.
From Flocq Require Import IEEE754.BinarySingleNaN Core.Core Relative Plus_error Double_rounding.
From Verif Require Import Base Scalar CInt CFloat Model Spec Float Param ParamInst.

Local Open Scope nat_scope.

(** if the first run returns, so does the second, and the results are related *)
Definition agree {A B : Type} (R : A -> B -> Prop) (o : outcome A) (o' : outcome B) : Prop :=
  forall a, o = Ok a -> exists b, o' = Ok b /\ R a b.

Lemma refines_agree {A B} (R : A -> B -> Prop) o o' : refines R o o' -> agree R o o'.
Proof. intros H a E. rewrite E in H. exact H. Qed.

Ltac conjs := repeat match goal with |- _ /\ _ => split end.

Section Format.
Variables prec emax : Z.
Context {Hp : Prec_gt_0 prec} {He : Prec_lt_emax prec emax}.
Notation fl := (binary_float prec emax).
Notation K := (floatS prec emax).

(** ** C61 Integer code and floating-point code compute the same numbers

    [t] is a signed C++ integer type of at least 32 bits that fits in the
    significand: [int] with [double].  [same z x]: x is finite, its value is z. *)
Section IntFloat.
Variable t : ityp.
Hypothesis Hs : sgn t = true.
Hypothesis Hw : (32 <= width t <= prec + 1)%Z.
Notation I := (intS t).

Definition same (z : Z) (x : fl) : Prop := is_finite x = true /\ B2R x = IZR z /\ in_range t z = true.
Notation sameM := (mrel same).

Lemma same_relI z x : same z x <-> relI prec emax t z x.
Proof. unfold same, relI, rep. tauto. Qed.

Lemma F2_iff {A B} (R Q : A -> B -> Prop) : (forall a b, R a b <-> Q a b) -> forall u v, Forall2 R u v <-> Forall2 Q u v.
Proof.
  intros H u v. split; intros F; induction F; constructor; auto; apply H; assumption.
Qed.
Lemma sameM_relI A A' : sameM A A' <-> mrel (relI prec emax t) A A'.
Proof. apply F2_iff. intros. apply F2_iff. intros. apply same_relI. Qed.

Lemma agree_same o o' : refines (mrel (relI prec emax t)) o o' -> agree sameM o o'.
Proof. intros H a E. rewrite E in H. destruct H as [b [E' R]]. exists b. split; [exact E'|]. apply sameM_relI, R. Qed.

Notation RI := (relI prec emax t).
Let ld_ := I_ld prec emax t.
Let st_ := I_stR prec emax t Hs Hw.
Let lit_ := I_lit prec emax t Hs Hw.
Let add_ := fun a a' b b' => I_add prec emax t Hs Hw a a' b b'.
Let sub_ := fun a a' b b' => I_sub prec emax t Hs Hw a a' b b'.
Let mul_ := fun a a' b b' => I_mul prec emax t Hs Hw a a' b b'.
Let abs_ := fun a a' => I_abs prec emax t Hs Hw a a'.
Let lit0 : relI prec emax t (@lit I 0) (@lit K 0). Proof. apply lit_; lia. Qed.
Let lit1 : relI prec emax t (@lit I 1) (@lit K 1). Proof. apply lit_; lia. Qed.

Theorem c61_elementwise n m A B A' B' s s' : sameM A A' -> sameM B B' -> same s s' ->
  agree sameM (sum I n m A B) (sum K n m A' B') /\
  agree sameM (sub I n m A B) (sub K n m A' B') /\
  agree sameM (sum_scalar I n m A s) (sum_scalar K n m A' s') /\
  agree sameM (sub_scalar I n m A s) (sub_scalar K n m A' s') /\
  agree sameM (mult_scalar I n m A s) (mult_scalar K n m A' s') /\
  agree sameM (abs I n m A B) (abs K n m A' B').
Proof.
  intros HA HB Hs'. apply sameM_relI in HA, HB. apply same_relI in Hs'.
  conjs; apply agree_same.
  - eapply (sum_ref I K RI RI); eauto.
  - eapply (sub_ref I K RI RI); eauto.
  - eapply (sum_scalar_ref I K RI RI); eauto.
  - eapply (sub_scalar_ref I K RI RI); eauto.
  - eapply (mult_scalar_ref I K RI RI); eauto.
  - eapply (abs_ref I K RI RI); eauto.
Qed.

Theorem c61_mult n m p A B A' B' : sameM A A' -> sameM B B' ->
  agree sameM (mult I n m p A B) (mult K n m p A' B').
Proof. intros HA HB. apply sameM_relI in HA, HB. apply agree_same. eapply (mult_ref I K RI RI); eauto. Qed.

Theorem c61_strassen A B A' B' : sameM A A' -> sameM B B' ->
  agree sameM (strassen I A B) (strassen K A' B').
Proof. intros HA HB. apply sameM_relI in HA, HB. apply agree_same. eapply (strassen_ref I K RI RI); eauto. Qed.

Theorem c61_pow n w A A' p : sameM A A' -> (0 <= p)%Z ->
  agree sameM (pow I n w A p) (pow K n w A' p).
Proof. intros HA Hp0. apply sameM_relI in HA. apply agree_same. eapply (pow_ref I K RI RI); eauto. Qed.

Theorem c61_det n A A' : 0 < n <= 3 -> sameM A A' -> agree same (det I n A) (det K n A').
Proof.
  intros Hn HA a E. apply sameM_relI in HA.
  assert (R : refines (relI prec emax t) (det I n A) (det K n A')) by (eapply (det_small_ref I K RI RI); eauto).
  rewrite E in R. destruct R as [b [E' R]]. exists b. split; [exact E'|]. apply same_relI, R.
Qed.

Theorem c61_conv2 n m A k A' k' : sameM A A' -> sameM k k' ->
  agree sameM (conv2 I n m A k) (conv2 K n m A' k') /\
  agree sameM (conv2_full I n m A k) (conv2_full K n m A' k') /\
  agree sameM (conv2_valid I n A k) (conv2_valid K n A' k').
Proof.
  intros HA Hk. apply sameM_relI in HA, Hk. conjs; apply agree_same.
  - eapply (conv2_ref I K RI RI); eauto.
  - eapply (conv2_full_ref I K RI RI); eauto.
  - eapply (conv2_valid_ref I K RI RI); eauto.
Qed.

(** the predicates answer the same, in both directions: [refines] also says what
    happens to exceptions *)
Theorem c61_predicates n A A' : sameM A A' ->
  agree eq (isSymetric I n A) (isSymetric K n A') /\
  agree eq (isIdentity I n A) (isIdentity K n A').
Proof.
  intros HA. apply sameM_relI in HA. split; apply refines_agree.
  - eapply (isSymetric_ref I K RI RI); eauto. intros. apply I_eq; assumption.
  - eapply (isIdentity_ref I K RI RI); eauto. intros. apply I_eq; assumption.
Qed.

(** same keys, same counts *)
Theorem c61_histogram n m A A' : sameM A A' ->
  agree (Forall2 (relP same eq)) (histogram I n m A) (histogram K n m A') /\
  agree (Forall2 (relP same eq)) (cumulative_histogram I n m A) (cumulative_histogram K n m A').
Proof.
  intros HA. apply sameM_relI in HA.
  assert (X : forall o o', refines (Forall2 (relP (relI prec emax t) (@eq Z))) o o' -> agree (Forall2 (relP same (@eq Z))) o o').
  { intros o o' H a E. rewrite E in H. destruct H as [b [E' R]]. exists b. split; [exact E'|].
    revert R. apply F2_iff. intros [z c] [x c']. unfold relP. simpl. rewrite same_relI. tauto. }
  assert (L : forall a a' b b', relI prec emax t a a' -> relI prec emax t b b' -> @xlt I a b = @xlt K a' b').
  { intros. apply (I_lt prec emax t); assumption. }
  split; apply X.
  - eapply (histogram_ref I K RI RI); eauto.
  - eapply (cumulative_ref I K RI RI); eauto.
Qed.

(** every matrix of values of type [t] has its copy in floating point *)
Theorem c61_exists A : Forall (Forall (fun z => in_range t z = true)) A ->
  sameM A (map (map (f_of_Z prec emax)) A).
Proof.
  intros H. induction H as [|row A Hrow _ IH]; [constructor|]. cbn [map]. constructor; [|exact IH].
  induction Hrow as [|z row Hz _ IHr]; [constructor|]. cbn [map]. constructor; [|exact IHr].
  destruct (rep_lit prec emax z) as [F E]; [exact (range_small prec t Hs Hw z Hz)|].
  split; [exact F|]. split; [exact E|exact Hz].
Qed.
End IntFloat.

(** ** C63 Larger non-negative arguments give larger results

    [upto x y]: unless y is infinite or NaN, x is finite and 0 <= x <= y.  With
    y infinite nothing is claimed: the larger computation has overflowed. *)
Definition upto (x y : fl) : Prop := is_finite y = true -> is_finite x = true /\ (0 <= B2R x <= B2R y)%R.
Notation uptoM := (mrel upto).

Notation RB := (below prec emax).
Let ldb : forall a a', below prec emax a a' -> below prec emax (@ld K a) (@ld K a') := fun _ _ H => H.
Let stb : forall a a', below prec emax a a' -> below prec emax (@st K a) (@st K a') := fun _ _ H => H.
Let litb0 : below prec emax (@lit K 0) (@lit K 0). Proof. apply below_lit. lia. Qed.
Let litb1 : below prec emax (@lit K 1) (@lit K 1). Proof. apply below_lit. lia. Qed.
Let addb := fun a a' b b' => below_add prec emax a b a' b'.
Let mulb := fun a a' b b' => below_mul prec emax a b a' b'.

(** the floating-point functions below always return on arguments of the right
    shape (C45), so [agree] is not vacuous *)
Theorem c63_sum n m A B A' B' : uptoM A A' -> uptoM B B' ->
  agree uptoM (sum K n m A B) (sum K n m A' B').
Proof. intros. apply refines_agree. eapply (sum_ref K K RB RB); eauto. Qed.

Theorem c63_sum_scalar n m A A' s s' : uptoM A A' -> upto s s' ->
  agree uptoM (sum_scalar K n m A s) (sum_scalar K n m A' s').
Proof. intros. apply refines_agree. eapply (sum_scalar_ref K K RB RB); eauto. Qed.

Theorem c63_mult_scalar n m A A' s s' : uptoM A A' -> upto s s' ->
  agree uptoM (mult_scalar K n m A s) (mult_scalar K n m A' s').
Proof. intros. apply refines_agree. eapply (mult_scalar_ref K K RB RB); eauto. Qed.

Theorem c63_mult n m p A B A' B' : uptoM A A' -> uptoM B B' ->
  agree uptoM (mult K n m p A B) (mult K n m p A' B').
Proof. intros. apply refines_agree. eapply (mult_ref K K RB RB); eauto. Qed.

Theorem c63_pow n w A A' p : uptoM A A' -> (0 <= p)%Z ->
  agree uptoM (pow K n w A p) (pow K n w A' p).
Proof. intros. apply refines_agree. eapply (pow_ref K K RB RB); eauto. Qed.

Theorem c63_conv2 n m A k A' k' : uptoM A A' -> uptoM k k' ->
  agree uptoM (conv2 K n m A k) (conv2 K n m A' k') /\
  agree uptoM (conv2_full K n m A k) (conv2_full K n m A' k') /\
  agree uptoM (conv2_valid K n A k) (conv2_valid K n A' k').
Proof.
  intros. conjs; apply refines_agree;
    [eapply (conv2_ref K K RB RB)|eapply (conv2_full_ref K K RB RB)|eapply (conv2_valid_ref K K RB RB)]; eauto.
Qed.

(** for the mean, and for sums, the sign does not matter *)
Definition le_fin (x y : fl) : Prop := is_finite x = true -> is_finite y = true -> (B2R x <= B2R y)%R.

Theorem c63_sum_any n m A B A' B' : mrel le_fin A A' -> mrel le_fin B B' ->
  agree (mrel le_fin) (sum K n m A B) (sum K n m A' B').
Proof.
  intros. apply refines_agree. eapply (sum_ref K K le_fin le_fin (fun _ _ h => h) (fun _ _ h => h)); eauto.
  - intros ? ?. lra.
  - intros. apply (leq_add prec emax); assumption.
Qed.

Theorem c63_mean n m A A' : (Z.of_nat n * Z.of_nat m <= 2 ^ prec)%Z -> mrel le_fin A A' ->
  agree le_fin (mean K n m A) (mean K n m A').
Proof.
  intros Hn H. apply refines_agree. unfold mean. eapply (ref_bind le_fin).
  - apply ref_for; [intros _ _; apply Rle_refl|]. intros i s s' _ Hsum. apply ref_for; [exact Hsum|].
    intros j a a' _ Ha. eapply ref_bind; [apply ref_aget, H|]. intros x x' Hx.
    eapply ref_bind; [apply (leq_add prec emax a x a' x'); assumption|]. intros v v' Hv. apply ref_ok, Hv.
  - intros v v' Hv. apply (leq_divsz prec emax); [|exact Hv]. unfold size_mul.
    pose proof (Z.mod_pos_bound (Z.of_nat n * Z.of_nat m) (2 ^ 64)).
    pose proof (Z.mod_le (Z.of_nat n * Z.of_nat m) (2 ^ 64)). lia.
Qed.

(** ** C64 Absolute values: |A*B| <= |A|*|B| also holds for the computed products

    [dom x y]: unless y is infinite or NaN, x is finite and |x| <= y. *)
Definition absM (A : matrix fl) : matrix fl := map (map Babs) A.
Definition within (x y : fl) : Prop := is_finite y = true -> is_finite x = true /\ (Rabs (B2R x) <= B2R y)%R.
Notation withinM := (mrel within).

Lemma within_abs x : within x (Babs x).
Proof. intros F. rewrite is_finite_Babs in F. split; [exact F|]. rewrite B2R_Babs. apply Rle_refl. Qed.
Lemma withinM_abs A : withinM A (absM A).
Proof.
  induction A as [|row A IH]; constructor; [|exact IH]. clear IH.
  induction row as [|x row IH]; constructor; [apply within_abs|exact IH].
Qed.

Notation RD := (dom prec emax).
Let ldd : forall a a', dom prec emax a a' -> dom prec emax (@ld K a) (@ld K a') := fun _ _ H => H.
Let std : forall a a', dom prec emax a a' -> dom prec emax (@st K a) (@st K a') := fun _ _ H => H.
Let litd0 : dom prec emax (@lit K 0) (@lit K 0). Proof. apply dom_lit. lia. Qed.
Let litd1 : dom prec emax (@lit K 1) (@lit K 1). Proof. apply dom_lit. lia. Qed.
Let addd := fun a a' b b' => dom_add prec emax a b a' b'.
Let muld := fun a a' b b' => dom_mul prec emax a b a' b'.

Theorem c64_sum n m A B : agree withinM (sum K n m A B) (sum K n m (absM A) (absM B)).
Proof. apply refines_agree. eapply (sum_ref K K RD RD); eauto using withinM_abs. Qed.

Theorem c64_mult n m p A B : agree withinM (mult K n m p A B) (mult K n m p (absM A) (absM B)).
Proof. apply refines_agree. eapply (mult_ref K K RD RD); eauto using withinM_abs. Qed.

Theorem c64_mult_scalar n m A s : agree withinM (mult_scalar K n m A s) (mult_scalar K n m (absM A) (Babs s)).
Proof. apply refines_agree. eapply (mult_scalar_ref K K RD RD ldd std litd0 muld); [apply withinM_abs|apply within_abs]. Qed.

Theorem c64_pow n w A p : (0 <= p)%Z -> agree withinM (pow K n w A p) (pow K n w (absM A) p).
Proof. intros. apply refines_agree. eapply (pow_ref K K RD RD); eauto using withinM_abs. Qed.

Theorem c64_conv2 n m A k :
  agree withinM (conv2 K n m A k) (conv2 K n m (absM A) (absM k)) /\
  agree withinM (conv2_full K n m A k) (conv2_full K n m (absM A) (absM k)).
Proof.
  split; apply refines_agree; [eapply (conv2_ref K K RD RD)|eapply (conv2_full_ref K K RD RD)]; eauto using withinM_abs.
Qed.
End Format.

(** ** C61: where the two differ

    A division, and the determinant from order 4 on, which divides. *)
Definition f64 : Z -> elt float64S := f_of_Z 53 1024.
Definition m64 (A : list (list Z)) : matrix (elt float64S) := map (map f64) A.
Definition four : list (list Z) := [[2; 1; 0; 0]; [1; 1; 0; 0]; [0; 0; 1; 0]; [0; 0; 0; 1]]%Z.

Lemma c61_check :
  match div float64S 1 1 (m64 [[7%Z]]) (f64 2) with Ok [[y]] => less float64S (f64 3) y | _ => false end &&
  match det float64S 4 (m64 four) with Ok y => less float64S y (f64 2) | _ => false end = true.
Proof. vm_compute. reflexivity. Qed.

Theorem c61_not_div :
  div (intS int32) 1 1 [[7%Z]] 2%Z = Ok [[3%Z]] /\
  exists y, div float64S 1 1 (m64 [[7%Z]]) (f64 2) = Ok [[y]] /\ less float64S (f64 3) y = true.
Proof.
  split; [reflexivity|]. pose proof c61_check as H. apply andb_prop in H. destruct H as [H _].
  destruct (div float64S 1 1 (m64 [[7%Z]]) (f64 2)) as [[|[|y [|]] [|]]| | | |]; try discriminate.
  exists y. split; [reflexivity|exact H].
Qed.

Theorem c61_not_det4 :
  det (intS int32) 4 four = Ok 2%Z /\
  exists y, det float64S 4 (m64 four) = Ok y /\ less float64S y (f64 2) = true.
Proof.
  split; [reflexivity|]. pose proof c61_check as H. apply andb_prop in H. destruct H as [_ H].
  destruct (det float64S 4 (m64 four)) as [y| | | |]; try discriminate.
  exists y. split; [reflexivity|exact H].
Qed.

(** [int] and [double] meet the hypotheses of C61 *)
Example c61_int_double : sgn int32 = true /\ (32 <= width int32 <= 53 + 1)%Z.
Proof. cbn. lia. Qed.

Example c61_ex : exists C, mult float64S 2 2 2 (m64 [[1; -2]; [3; 4]]%Z) (m64 [[0; 1]; [5; 7]]%Z) = Ok C /\
  mrel (same 53 1024 int32) [[-10; -13]; [20; 31]]%Z C.
Proof.
  destruct c61_int_double as [Hs Hw].
  apply (c61_mult 53 1024 int32 Hs Hw 2 2 2 [[1; -2]; [3; 4]]%Z [[0; 1]; [5; 7]]%Z).
  - apply c61_exists; auto; repeat constructor.
  - apply c61_exists; auto; repeat constructor.
  - reflexivity.
Qed.

(** hypotheses of C63 and C64 *)
Example c63_ex : mrel (upto 53 1024) (m64 [[1; 0]; [2; 3]]%Z) (m64 [[1; 5]; [2; 4]]%Z).
Proof.
  assert (E : forall a b, (0 <= a <= b)%Z -> (b <= 2 ^ 53)%Z -> upto 53 1024 (f64 a) (f64 b)).
  { intros a b Hab Hb _. destruct (rep_lit 53 1024 a) as [F Ea]; [lia|].
    destruct (rep_lit 53 1024 b) as [_ Eb]; [lia|]. split; [exact F|]. unfold f64. rewrite Ea, Eb.
    split; apply IZR_le; lia. }
  unfold mrel, m64. cbn [map].
  repeat (apply Forall2_cons || apply Forall2_nil); apply E; lia.
Qed.

(** ** C62 (PropSmall.v): the bound 2^prec is sharp

    In [double], 2^53 + 1 is computed as 2^53. *)
Lemma c62_check :
  match sum float64S 1 1 (m64 [[2 ^ 53]]%Z) (m64 [[1]]%Z) with
  | Ok [[y]] => is_finite y && Beqb y (f64 (2 ^ 53)) | _ => false end = true.
Proof. vm_compute. reflexivity. Qed.

Theorem c62_sharp : exists y, sum float64S 1 1 (m64 [[2 ^ 53]]%Z) (m64 [[1]]%Z) = Ok [[y]] /\
  is_finite y = true /\ B2R y = IZR (2 ^ 53).
Proof.
  pose proof c62_check as H.
  destruct (sum float64S 1 1 (m64 [[2 ^ 53]]%Z) (m64 [[1]]%Z)) as [[|[|y [|]] [|]]| | | |]; try discriminate.
  apply andb_prop in H. destruct H as [F H]. exists y. split; [reflexivity|]. split; [exact F|].
  destruct (rep_lit 53 1024 (2 ^ 53)) as [F' E']; [lia|].
  unfold f64 in H. rewrite Beqb_correct in H by assumption. rewrite E' in H.
  revert H. apply Req_bool_true_inv || (intros H; destruct (Req_bool_spec (B2R y) (IZR (2 ^ 53))); [assumption|discriminate]).
Qed.

Print Assumptions c61_elementwise.
Print Assumptions c61_mult.
Print Assumptions c61_pow.
Print Assumptions c61_det.
Print Assumptions c61_conv2.
Print Assumptions c61_histogram.
Print Assumptions c61_not_det4.
Print Assumptions c63_mult.
Print Assumptions c63_mean.
Print Assumptions c64_mult.
