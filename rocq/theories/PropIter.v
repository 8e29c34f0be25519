(** * Property C105: iterations X = A*X + b in floating point
    Proved for every binary format.  [B2R x] is the real number denoted by a finite x,
    [uro prec] the unit roundoff, [eta prec emax] half the smallest positive number. *)

From Coq Require Import ZArith Reals Lra Lia Bool List Arith.
Import ListNotations.
From Flocq Require Import IEEE754.BinarySingleNaN Core.Core Relative Plus_error.
From Verif Require Import Base Scalar CInt CFloat Model Spec Loops Struct Float FloatMx FloatPoly FloatLU PropFloat.

Section Format.
Variables prec emax : Z.
Context {Hp : Prec_gt_0 prec} {He : Prec_lt_emax prec emax}.
Notation fl := (binary_float prec emax).
Notation K := (floatS prec emax).
Notation u := (uro prec).
Notation h := (eta prec emax).
Notation "x ⊕ y" := (Bplus mode_NE x y) (at level 50, left associativity).
Local Open Scope R_scope.

(** The user's loop: k times X = A*X + b *)
Definition iterate (n m : nat) (A b : matrix fl) (k : nat) (X : matrix fl) : outcome (matrix fl) :=
  for_ 0 k (fun _ X => let* P := mult K n n m A X in sum K n m P b) X.

(** X after k steps, element by element *)
Fixpoint iterates (n : nat) (f g : nat -> nat -> fl) (k : nat) (x : nat -> nat -> fl) : nat -> nat -> fl :=
  match k with
  | O => x
  | Datatypes.S k => fun i j => fdot prec emax n (fun l => f i l) (fun l => iterates n f g k x l j) ⊕ g i j
  end.

Lemma iterate_mk n m f g k x :
  iterate n m (mk n n f) (mk n m g) k (mk n m x) = Ok (mk n m (iterates n f g k x)).
Proof.
  unfold iterate. induction k as [|k IH]; [reflexivity|].
  rewrite for_snoc by lia. rewrite IH. cbn [bind]. rewrite mult_float. cbn [bind].
  rewrite sum_tab. apply tabM_ok. intros. reflexivity.
Qed.

Lemma max_abs (n m : nat) (z : nat -> nat -> R) : exists M, 0 <= M /\
  (forall i j, (i < n)%nat -> (j < m)%nat -> Rabs (z i j) <= M) /\
  (M = 0 \/ exists i j, (i < n)%nat /\ (j < m)%nat /\ M = Rabs (z i j)).
Proof.
  assert (L : forall (t : nat -> R) k, exists M, 0 <= M /\ (forall i, (i < k)%nat -> Rabs (t i) <= M) /\
    (M = 0 \/ exists i, (i < k)%nat /\ M = Rabs (t i))).
  { intros t k. induction k as [|k [M [M0 [HM E]]]].
    - exists 0. split; [lra|]. split; [intros; lia|auto].
    - destruct (Rle_or_lt (Rabs (t k)) M) as [H|H].
      + exists M. split; [exact M0|]. split.
        * intros i Hi. destruct (Nat.eq_dec i k) as [->|]; [exact H|apply HM; lia].
        * destruct E as [E|[i [Hi E]]]; [auto|right; exists i; split; [lia|exact E]].
      + exists (Rabs (t k)). split; [apply Rabs_pos|]. split.
        * intros i Hi. destruct (Nat.eq_dec i k) as [->|]; [lra|]. apply Rle_trans with M; [apply HM; lia|lra].
        * right. exists k. split; [lia|reflexivity]. }
  destruct (Nat.eq_dec m 0) as [->|Hm].
  { exists 0. split; [lra|]. split; [intros; lia|auto]. }
  destruct (L (fun k => z (k / m)%nat (k mod m)%nat) (n * m)%nat) as [M [M0 [HM E]]].
  exists M. split; [exact M0|]. split.
  - intros i j Hi Hj. specialize (HM (i * m + j)%nat). cbv beta in HM.
    rewrite Nat.div_add_l, Nat.div_small, Nat.add_0_r in HM by lia.
    rewrite Nat.add_comm, Nat.mod_add, Nat.mod_small in HM by lia. apply HM. nia.
  - destruct E as [E|[k [Hk E]]]; [auto|right]. exists (k / m)%nat, (k mod m)%nat.
    split; [apply Nat.div_lt_upper_bound; lia|]. split; [apply Nat.mod_upper_bound; lia|exact E].
Qed.

(** ** The exact solution exists and is unique *)
Section Solution.
Variables (n m : nat) (a b : nat -> nat -> R) (q beta : R).
Hypothesis Ha : forall i, (i < n)%nat -> rsum n (fun k => Rabs (a i k)) <= q.
Hypothesis Hb : forall i j, (i < n)%nat -> (j < m)%nat -> Rabs (b i j) <= beta.
Hypotheses (q0 : 0 <= q) (q1 : q < 1) (b0 : 0 <= beta).

Lemma row_le_r (y : nat -> R) i c : (i < n)%nat -> 0 <= c -> (forall k, (k < n)%nat -> Rabs (y k) <= c) ->
  Rabs (rsum n (fun k => a i k * y k)) <= q * c.
Proof.
  intros Hi c0 Hy. eapply Rle_trans; [apply rsum_abs|].
  apply Rle_trans with (rsum n (fun k => Rabs (a i k) * c)).
  - apply rsum_le. intros k Hk. rewrite Rabs_mult. apply Rmult_le_compat_l; [apply Rabs_pos|auto].
  - rewrite rsum_scal_r. apply Rmult_le_compat_r; auto.
Qed.

(** the terms b, A*b, A*A*b, ... *)
Fixpoint term (k : nat) : nat -> nat -> R :=
  match k with
  | O => b
  | S k => fun i j => rsum n (fun l => a i l * term k l j)
  end.

Lemma term_le k i j : (i < n)%nat -> (j < m)%nat -> Rabs (term k i j) <= beta * q ^ k.
Proof.
  revert i j. induction k as [|k IH]; intros i j Hi Hj; simpl.
  - rewrite Rmult_1_r. auto.
  - replace (beta * (q * q ^ k)) with (q * (beta * q ^ k)) by ring. apply row_le_r; auto.
    apply Rmult_le_pos; [exact b0|apply pow_le, q0].
Qed.

Lemma geometric : Un_cv (sum_f_R0 (fun k => q ^ k)) (/ (1 - q)).
Proof.
  pose proof (GP_infinite q) as G. unfold Pser, infinite_sum in G.
  intros e E. destruct (G ltac:(rewrite Rabs_pos_eq; assumption) e E) as [N HN].
  exists N. intros k Hk. specialize (HN k Hk).
  rewrite (sum_eq _ (fun k => 1 * q ^ k)) by (intros; ring). exact HN.
Qed.

Lemma term_cv i j : (i < n)%nat -> (j < m)%nat -> { l | Un_cv (sum_f_R0 (fun k => term k i j)) l }.
Proof.
  intros Hi Hj. apply cv_cauchy_2, cauchy_abs, cv_cauchy_1.
  apply (Rseries_CV_comp _ (fun k => beta * q ^ k)).
  - intros k. split; [apply Rabs_pos|apply term_le; assumption].
  - exists (beta * / (1 - q)). intros e E.
    destruct (CV_mult (fun _ => beta) _ beta _ (fun e E => ex_intro _ 0%nat (fun k _ => eq_ind_r (fun r => r < e) E (eq_trans (f_equal Rabs (Rminus_diag_eq beta beta eq_refl)) Rabs_R0))) geometric e E) as [N HN].
    exists N. intros k Hk. specialize (HN k Hk).
    rewrite (sum_eq _ (fun k => q ^ k * beta)) by (intros; ring). rewrite <- scal_sum. exact HN.
Qed.

Lemma cv_const c : Un_cv (fun _ => c) c.
Proof. intros e E. exists 0%nat. intros. unfold R_dist. rewrite Rminus_diag_eq, Rabs_R0 by reflexivity. exact E. Qed.

Lemma cv_rsum k (s : nat -> nat -> R) (l c : nat -> R) : (forall p, (p < k)%nat -> Un_cv (s p) (l p)) ->
  Un_cv (fun K => rsum k (fun p => c p * s p K)) (rsum k (fun p => c p * l p)).
Proof.
  induction k as [|k IH]; intros H.
  - unfold rsum. simpl. apply cv_const.
  - rewrite rsum_S. intros e E.
    destruct (CV_plus (fun K => rsum k (fun p => c p * s p K)) (fun K => c k * s k K) _ _
      (IH (fun p Hp => H p ltac:(lia))) (CV_mult (fun _ => c k) (s k) _ _ (cv_const (c k)) (H k ltac:(lia))) e E) as [N HN].
    exists N. intros K HK. rewrite rsum_S. exact (HN K HK).
Qed.

Theorem c105_solution : exists Y : nat -> nat -> R,
  (forall i j, (i < n)%nat -> (j < m)%nat ->
     Y i j = rsum n (fun k => a i k * Y k j) + b i j /\ Rabs (Y i j) <= beta / (1 - q)) /\
  (forall Z, (forall i j, (i < n)%nat -> (j < m)%nat -> Z i j = rsum n (fun k => a i k * Z k j) + b i j) ->
     forall i j, (i < n)%nat -> (j < m)%nat -> Z i j = Y i j).
Proof.
  pose (Y := fun i j => match lt_dec i n, lt_dec j m with
    | left Hi, left Hj => proj1_sig (term_cv i j Hi Hj) | _, _ => 0 end).
  assert (HY : forall i j, (i < n)%nat -> (j < m)%nat -> Un_cv (sum_f_R0 (fun k => term k i j)) (Y i j)).
  { intros i j Hi Hj. unfold Y. destruct (lt_dec i n) as [H1|]; [|contradiction].
    destruct (lt_dec j m) as [H2|]; [|contradiction]. exact (proj2_sig (term_cv i j H1 H2)). }
  assert (EY : forall i j, (i < n)%nat -> (j < m)%nat -> Y i j = rsum n (fun k => a i k * Y k j) + b i j).
  { intros i j Hi Hj. apply (UL_sequence (fun K => sum_f_R0 (fun k => term k i j) (S K))).
    - intros e E. destruct (HY i j Hi Hj e E) as [N HN]. exists N. intros K HK. apply HN. lia.
    - intros e E.
      destruct (CV_plus _ _ _ _ (cv_rsum n (fun p => sum_f_R0 (fun k => term k p j)) (fun p => Y p j) (a i)
        (fun p Hp => HY p j Hp Hj)) (cv_const (b i j)) e E) as [N HN].
      exists N. intros K HK. specialize (HN K HK).
      replace (sum_f_R0 (fun k => term k i j) (S K)) with
        (rsum n (fun p => a i p * sum_f_R0 (fun k => term k p j) K) + b i j); [exact HN|].
      clear. induction K as [|K IH].
      + simpl. rewrite Rplus_comm. f_equal.
      + rewrite tech5, <- IH. simpl (term (S (S K)) i j).
        rewrite (rsum_ext n _ (fun p => a i p * sum_f_R0 (fun k => term k p j) K + a i p * term (S K) p j))
          by (intros; rewrite tech5; ring).
        rewrite rsum_add. simpl. ring. }
  assert (Un : forall Z c, 0 <= c -> (forall i j, (i < n)%nat -> (j < m)%nat ->
      exists r, Rabs r <= c /\ Z i j = rsum n (fun k => a i k * Z k j) + r) ->
      forall i j, (i < n)%nat -> (j < m)%nat -> Rabs (Z i j) <= c / (1 - q)).
  { intros Z c c0 HZ. destruct (max_abs n m Z) as [M [M0 [HM Ex]]].
    assert (H : M <= q * M + c).
    { destruct Ex as [E0|[i [j [Hi [Hj E1]]]]].
      - rewrite E0. lra.
      - rewrite E1 at 1. destruct (HZ i j Hi Hj) as [r [Hr ->]].
        eapply Rle_trans; [apply Rabs_triang|]. apply Rplus_le_compat; [|exact Hr].
        apply row_le_r; auto. }
    intros i j Hi Hj. eapply Rle_trans; [apply HM; auto|].
    apply Rmult_le_reg_r with (1 - q); [lra|]. unfold Rdiv. rewrite Rmult_assoc, Rinv_l by lra. lra. }
  exists Y. split.
  - intros i j Hi Hj. split; [apply EY; assumption|]. apply Un; auto.
    intros i' j' Hi' Hj'. exists (b i' j'). split; [auto|apply EY; assumption].
  - intros Z HZ i j Hi Hj. apply Rminus_diag_uniq.
    pose proof (Un (fun i j => Z i j - Y i j) 0 (Rle_refl 0)) as U.
    assert (Rabs (Z i j - Y i j) <= 0 / (1 - q)).
    { apply U; auto. intros i' j' Hi' Hj'. exists 0. rewrite Rabs_R0. split; [lra|].
      rewrite (HZ i' j' Hi' Hj'), (EY i' j' Hi' Hj').
      rewrite (rsum_ext n (fun k => a i' k * (Z k j' - Y k j')) (fun k => a i' k * Z k j' + (-1) * (a i' k * Y k j')))
        by (intros; ring). rewrite rsum_add, rsum_scal. ring. }
    unfold Rdiv in H. rewrite Rmult_0_l in H. apply Rabs_le_inv in H. lra.
Qed.
End Solution.

Section Contraction.
Variables (n m : nat) (f g : nat -> nat -> fl) (q beta B : R).
(** the elements of A and b are finite; the rows of |A| add up to at most q < 1; |b| <= beta *)
Hypothesis Ff : forall i j, (i < n)%nat -> (j < n)%nat -> is_finite (f i j) = true.
Hypothesis Fg : forall i j, (i < n)%nat -> (j < m)%nat -> is_finite (g i j) = true.
Hypothesis Hq : forall i, (i < n)%nat -> rsum n (fun k => Rabs (B2R (f i k))) <= q.
Hypothesis Hg : forall i j, (i < n)%nat -> (j < m)%nat -> Rabs (B2R (g i j)) <= beta.
Hypothesis q0 : 0 <= q.
Hypothesis q1 : q < 1.
Hypothesis b0 : 0 <= beta.
Hypothesis B0 : 0 <= B.

(** what one step can add by rounding, on arguments up to [B] *)
Definition size_sum : R := (1 + u) ^ n * (q * B + INR n * h).
Definition slack : R := u * (size_sum + beta) + (((1 + u) ^ n - 1) * (q * B) + INR n * h * (1 + u) ^ n).

(** [B] bounds the start, is not left in one step, and is representable *)
Hypothesis HB : (1 + u) * (size_sum + beta) <= B.
Hypothesis HM : B < bpow radix2 emax.

Lemma row_le (y : nat -> R) i c : (i < n)%nat -> 0 <= c -> (forall k, (k < n)%nat -> Rabs (y k) <= c) ->
  rsum n (fun k => Rabs (B2R (f i k) * y k)) <= q * c.
Proof.
  intros Hi c0 Hy. apply Rle_trans with (rsum n (fun k => Rabs (B2R (f i k)) * c)).
  - apply rsum_le. intros k Hk. rewrite Rabs_mult. apply Rmult_le_compat_l; [apply Rabs_pos|auto].
  - rewrite rsum_scal_r. apply Rmult_le_compat_r; auto.
Qed.


Lemma step x : (forall i j, (i < n)%nat -> (j < m)%nat -> is_finite (x i j) = true /\ Rabs (B2R (x i j)) <= B) ->
  forall i j, (i < n)%nat -> (j < m)%nat ->
  let x' := fdot prec emax n (fun l => f i l) (fun l => x l j) ⊕ g i j in
  is_finite x' = true /\ Rabs (B2R x') <= B /\
  Rabs (B2R x' - (rsum n (fun l => B2R (f i l) * B2R (x l j)) + B2R (g i j))) <= slack.
Proof.
  intros Hx i j Hi Hj x'. subst x'.
  pose proof (uro_pos prec) as Hu. pose proof (eta_pos prec emax) as Hh.
  pose proof (pow1u_ge1 prec n) as H1. pose proof (pos_INR n) as Hn.
  set (y := fdot prec emax n (fun l => f i l) (fun l => x l j)).
  set (T := rsum n (fun k => Rabs (B2R (f i k) * B2R (x k j)))).
  assert (HT : T <= q * B) by (apply row_le; auto; intros k Hk; apply Hx; auto).
  assert (T0 : 0 <= T) by (apply rsum_nonneg; intros; apply Rabs_pos).
  assert (HS : (1 + u) ^ n * (T + INR n * h) <= size_sum) by (apply Rmult_le_compat_l; lra).
  assert (S0 : 0 <= size_sum).
  { eapply Rle_trans; [|exact HS]. apply Rmult_le_pos; [lra|]. apply Rplus_le_le_0_compat; [lra|]. apply Rmult_le_pos; lra. }
  assert (SB : size_sum <= B).
  { apply Rle_trans with (2 := HB). assert (0 <= u * (size_sum + beta)) by (apply Rmult_le_pos; lra). lra. }
  destruct (fdot_no_overflow prec emax n (fun l => f i l) (fun l => x l j)) as [Fy By].
  { intros k Hk. split; [apply Ff; auto|apply Hx; auto]. }
  { fold T. lra. }
  fold y T in Fy, By.
  assert (Ey : Rabs (B2R y - rsum n (fun l => B2R (f i l) * B2R (x l j))) <=
    ((1 + u) ^ n - 1) * (q * B) + INR n * h * (1 + u) ^ n).
  { eapply Rle_trans; [apply (fdot_error_le prec emax n n); [lia|exact Fy]|]. cbv beta. fold T.
    apply Rplus_le_compat_r. apply Rmult_le_compat_l; lra. }
  destruct (rnd_plus prec emax y (g i j)) as [d [Hd Ed]].
  assert (HW : Rabs (B2R y + B2R (g i j)) <= size_sum + beta).
  { eapply Rle_trans; [apply Rabs_triang|]. apply Rplus_le_compat; [lra|auto]. }
  assert (HR : Rabs (round radix2 (SpecFloat.fexp prec emax) ZnearestE (B2R y + B2R (g i j))) <= B).
  { rewrite Ed, Rabs_mult. apply Rle_trans with (2 := HB). rewrite Rmult_comm.
    apply Rmult_le_compat; try apply Rabs_pos; [|exact HW].
    eapply Rle_trans; [apply Rabs_triang|]. rewrite Rabs_R1. lra. }
  generalize (Bplus_correct _ _ Hp He mode_NE y (g i j) Fy (Fg i j Hi Hj)). simpl round_mode.
  rewrite Rlt_bool_true by (eapply Rle_lt_trans; [exact HR|exact HM]).
  intros [E1 [E2 _]]. split; [exact E2|]. rewrite E1. split; [exact HR|].
  rewrite Ed.
  replace ((B2R y + B2R (g i j)) * (1 + d) - (rsum n (fun l => B2R (f i l) * B2R (x l j)) + B2R (g i j)))
    with ((B2R y + B2R (g i j)) * d + (B2R y - rsum n (fun l => B2R (f i l) * B2R (x l j)))) by ring.
  eapply Rle_trans; [apply Rabs_triang|]. unfold slack. apply Rplus_le_compat; [|exact Ey].
  rewrite Rabs_mult, Rmult_comm. apply Rmult_le_compat; try apply Rabs_pos; auto.
Qed.

Section Run.
Variable x : nat -> nat -> fl.
Hypothesis Hx : forall i j, (i < n)%nat -> (j < m)%nat -> is_finite (x i j) = true /\ Rabs (B2R (x i j)) <= B.

Lemma bounded k i j : (i < n)%nat -> (j < m)%nat ->
  is_finite (iterates n f g k x i j) = true /\ Rabs (B2R (iterates n f g k x i j)) <= B.
Proof.
  revert i j. induction k as [|k IH]; [exact Hx|].
  intros i j Hi Hj. destruct (step _ IH i j Hi Hj) as [H1 [H2 _]]. split; assumption.
Qed.

(** However long it runs, nothing overflows and no element ever exceeds [B]. *)
Theorem c105_bounded k : exists y,
  iterate n m (mk n n f) (mk n m g) k (mk n m x) = Ok (mk n m y) /\
  forall i j, (i < n)%nat -> (j < m)%nat -> is_finite (y i j) = true /\ Rabs (B2R (y i j)) <= B.
Proof. eexists. split; [apply iterate_mk|]. intros. apply bounded; assumption. Qed.

Variable Y : nat -> nat -> R.
(** [Y] is the exact solution of Y = A*Y + b *)
Hypothesis HY : forall i j, (i < n)%nat -> (j < m)%nat -> Y i j = rsum n (fun k => B2R (f i k) * Y k j) + B2R (g i j).

Lemma contract z e : 0 <= e ->
  (forall i j, (i < n)%nat -> (j < m)%nat -> is_finite (z i j) = true /\ Rabs (B2R (z i j)) <= B) ->
  (forall i j, (i < n)%nat -> (j < m)%nat -> Rabs (B2R (z i j) - Y i j) <= e) ->
  forall i j, (i < n)%nat -> (j < m)%nat ->
  Rabs (B2R (fdot prec emax n (fun l => f i l) (fun l => z l j) ⊕ g i j) - Y i j) <= q * e + slack.
Proof.
  intros e0 Hz Hd i j Hi Hj. destruct (step z Hz i j Hi Hj) as [_ [_ H]].
  set (w := B2R (_ ⊕ _)) in *.
  replace (w - Y i j) with
    ((w - (rsum n (fun l => B2R (f i l) * B2R (z l j)) + B2R (g i j))) +
     (rsum n (fun l => B2R (f i l) * B2R (z l j)) + B2R (g i j) - Y i j)) by ring.
  eapply Rle_trans; [apply Rabs_triang|]. rewrite Rplus_comm. apply Rplus_le_compat; [|exact H].
  rewrite (HY i j Hi Hj).
  replace (rsum n (fun l => B2R (f i l) * B2R (z l j)) + B2R (g i j) -
    (rsum n (fun k => B2R (f i k) * Y k j) + B2R (g i j)))
    with (rsum n (fun l => B2R (f i l) * B2R (z l j)) + (-1) * rsum n (fun k => B2R (f i k) * Y k j)) by ring.
  rewrite <- rsum_scal, <- rsum_add.
  rewrite (rsum_ext n _ (fun k => B2R (f i k) * (B2R (z k j) - Y k j))) by (intros; ring).
  eapply Rle_trans; [apply rsum_abs|]. apply row_le; auto.
Qed.

Lemma slack_ge0 : 0 <= slack.
Proof.
  pose proof (uro_pos prec) as Hu. pose proof (eta_pos prec emax) as Hh.
  pose proof (pow1u_ge1 prec n) as H1. pose proof (pos_INR n) as Hn. pose proof (Rmult_le_pos _ _ q0 B0).
  pose proof (Rmult_le_pos _ _ Hn Hh).
  unfold slack, size_sum. repeat apply Rplus_le_le_0_compat.
  - apply Rmult_le_pos; [lra|]. apply Rplus_le_le_0_compat; [|lra]. apply Rmult_le_pos; lra.
  - apply Rmult_le_pos; lra.
  - apply Rmult_le_pos; lra.
Qed.

(** The distance to the solution shrinks by the factor [q] per step down to a level set by
    the rounding errors of one step. *)
Theorem c105_error k e : 0 <= e ->
  (forall i j, (i < n)%nat -> (j < m)%nat -> Rabs (B2R (x i j) - Y i j) <= e) ->
  exists y, iterate n m (mk n n f) (mk n m g) k (mk n m x) = Ok (mk n m y) /\
  forall i j, (i < n)%nat -> (j < m)%nat -> Rabs (B2R (y i j) - Y i j) <= q ^ k * e + slack / (1 - q).
Proof.
  intros e0 H0. eexists. split; [apply iterate_mk|].
  pose proof slack_ge0 as S0.
  assert (Hr : 0 <= slack / (1 - q)) by (apply Rmult_le_pos; [exact S0|apply Rlt_le, Rinv_0_lt_compat; lra]).
  induction k as [|k IH]; intros i j Hi Hj.
  - simpl. rewrite Rmult_1_l. pose proof (H0 i j Hi Hj). lra.
  - eapply Rle_trans; [apply (contract _ (q ^ k * e + slack / (1 - q))); auto; [|apply bounded]|].
    + apply Rplus_le_le_0_compat; [|exact Hr]. apply Rmult_le_pos; [apply pow_le|]; assumption.
    + simpl. apply Req_le. field. lra.
Qed.

Lemma stop_raw k d : 0 <= d ->
  (forall i j, (i < n)%nat -> (j < m)%nat ->
    Rabs (B2R (iterates n f g k x i j) - B2R (iterates n f g (S k) x i j)) <= d) ->
  forall i j, (i < n)%nat -> (j < m)%nat ->
    Rabs (B2R (iterates n f g (S k) x i j) - Y i j) <= (q * d + slack) / (1 - q).
Proof.
  intros d0. set (y := iterates n f g k x). set (y' := iterates n f g (S k) x). intros Hd.
  destruct (max_abs n m (fun i j => B2R (y' i j) - Y i j)) as [M [M0 [HMx Ex]]].
  assert (H : M <= q * (d + M) + slack).
  { destruct Ex as [E0|[i [j [Hi [Hj E1]]]]].
    - rewrite E0. pose proof slack_ge0. pose proof (Rmult_le_pos _ _ q0 d0). lra.
    - rewrite E1 at 1. refine (contract y (d + M) _ (bounded k) _ i j Hi Hj); [lra|].
      intros a c Ha Hc. unfold y at 1. replace (B2R (iterates n f g k x a c) - Y a c) with
        ((B2R (y a c) - B2R (y' a c)) + (B2R (y' a c) - Y a c)) by (unfold y; ring).
      eapply Rle_trans; [apply Rabs_triang|]. apply Rplus_le_compat; auto. }
  intros i j Hi Hj. eapply Rle_trans; [apply HMx; auto|].
  apply Rmult_le_reg_r with (1 - q); [lra|]. unfold Rdiv. rewrite Rmult_assoc, Rinv_l by lra. lra.
Qed.

(** When to stop: if the last step changed nothing by more than [d], the result is this close. *)
Theorem c105_stop k d : 0 <= d -> exists y y',
  iterate n m (mk n n f) (mk n m g) k (mk n m x) = Ok (mk n m y) /\
  iterate n m (mk n n f) (mk n m g) (S k) (mk n m x) = Ok (mk n m y') /\
  ((forall i j, (i < n)%nat -> (j < m)%nat -> Rabs (B2R (y i j) - B2R (y' i j)) <= d) ->
   forall i j, (i < n)%nat -> (j < m)%nat -> Rabs (B2R (y' i j) - Y i j) <= (q * d + slack) / (1 - q)).
Proof.
  intros d0. eexists. eexists. split; [apply iterate_mk|]. split; [apply iterate_mk|].
  intros Hd. apply stop_raw; assumption.
Qed.

(** The same with the library's own comparison as the stopping test: compare(X, X', eps). *)
Theorem c105_compare k (eps : fl) : is_finite eps = true -> exists y y',
  iterate n m (mk n n f) (mk n m g) k (mk n m x) = Ok (mk n m y) /\
  iterate n m (mk n n f) (mk n m g) (S k) (mk n m x) = Ok (mk n m y') /\
  (compare K n m (mk n m y) (mk n m y') eps = Ok true ->
   forall i j, (i < n)%nat -> (j < m)%nat ->
     Rabs (B2R (y' i j) - Y i j) <= (q * (B2R eps / (1 - u)) + slack) / (1 - q)).
Proof.
  intros Fe. eexists. eexists. split; [apply iterate_mk|]. split; [apply iterate_mk|].
  intros Hc i j Hi Hj.
  assert (u1 : u < 1).
  { unfold uro. change 1 with (bpow radix2 0). apply bpow_lt. pose proof Hp as P. red in P. lia. }
  assert (HD : forall a c, (a < n)%nat -> (c < m)%nat ->
    Rabs (B2R (iterates n f g k x a c) - B2R (iterates n f g (S k) x a c)) <= B2R eps / (1 - u)).
  { intros a c Ha' Hc'. apply Rmult_le_reg_r with (1 - u); [lra|].
    unfold Rdiv. rewrite Rmult_assoc, Rinv_l, Rmult_1_r by lra.
    refine (c35_accepted prec emax n m _ _ eps _ Fe Hc a c Ha' Hc').
    intros a' c' H1 H2. split; [apply (bounded k)|apply (bounded (S k))]; assumption. }
  assert (d0 : 0 <= B2R eps / (1 - u)) by (eapply Rle_trans; [apply Rabs_pos|apply (HD i j Hi Hj)]).
  apply (stop_raw k _ d0); auto.
Qed.

(** In particular, once the matrix no longer changes it is as close as the rounding errors of
    one step allow. *)
Theorem c105_settled k : exists y,
  iterate n m (mk n n f) (mk n m g) k (mk n m x) = Ok (mk n m y) /\
  (iterate n m (mk n n f) (mk n m g) (S k) (mk n m x) = Ok (mk n m y) ->
   forall i j, (i < n)%nat -> (j < m)%nat -> Rabs (B2R (y i j) - Y i j) <= slack / (1 - q)).
Proof.
  destruct (c105_stop k 0 (Rle_refl 0)) as [y [y' [E1 [E2 H]]]]. exists y. split; [exact E1|].
  rewrite E2. intros E3 i j Hi Hj. injection E3 as E3.
  assert (Eq : forall a c, (a < n)%nat -> (c < m)%nat -> y' a c = y a c) by (apply (mk_inj n m y' y); exact E3).
  replace slack with (q * 0 + slack) by ring. rewrite <- Eq by assumption. apply H; auto.
  intros a c Ha Hc. rewrite Eq by assumption. rewrite Rminus_diag_eq, Rabs_R0 by reflexivity. lra.
Qed.
End Run.
End Contraction.

(** Such a [B] exists as soon as [(1+u)^(n+1) q < 1]: the larger of the start and
    [((1+u)^(n+1) n h + (1+u) beta) / (1 - (1+u)^(n+1) q)]. *)
Theorem c105_size n q beta x0 : 0 <= q -> 0 <= beta -> 0 <= x0 -> (1 + u) ^ (n + 1) * q < 1 ->
  let B := Rmax x0 (((1 + u) ^ (n + 1) * (INR n * h) + (1 + u) * beta) / (1 - (1 + u) ^ (n + 1) * q)) in
  0 <= B /\ x0 <= B /\ (1 + u) * (size_sum n q B + beta) <= B.
Proof.
  intros q0 b0 H0 H1 B. set (D := (1 + u) ^ (n + 1) * (INR n * h) + (1 + u) * beta) in *.
  assert (HB : D / (1 - (1 + u) ^ (n + 1) * q) <= B) by apply Rmax_r.
  assert (HX : x0 <= B) by apply Rmax_l.
  split; [lra|]. split; [exact HX|].
  assert (HD : D <= B * (1 - (1 + u) ^ (n + 1) * q)).
  { apply Rmult_le_reg_r with (/ (1 - (1 + u) ^ (n + 1) * q)); [apply Rinv_0_lt_compat; lra|].
    rewrite Rmult_assoc, Rinv_r by lra. unfold Rdiv in HB. lra. }
  unfold size_sum. unfold D in HD. replace ((1 + u) ^ (n + 1)) with ((1 + u) ^ n * (1 + u)) in HD by (rewrite pow_add; ring).
  lra.
Qed.
End Format.

(** ** It need not settle
    In double, X = -0.5*X + 18.25 started at the number nearest to its solution 12.1666...
    alternates between two neighbouring numbers for ever. *)
Definition cyc_a : elt float64S := Bdiv mode_NE (f_of_Z 53 1024 (-1)) (f_of_Z 53 1024 2).
Definition cyc_b : elt float64S := Bdiv mode_NE (f_of_Z 53 1024 73) (f_of_Z 53 1024 4).
Definition cyc_x : elt float64S := Bdiv mode_NE (f_of_Z 53 1024 73) (f_of_Z 53 1024 6).
Definition cyc_y : elt float64S := Bplus mode_NE (Bmult mode_NE cyc_a cyc_x) cyc_b.

Lemma cyc_step_check : let D x := fdot 53 1024 1 (fun _ => cyc_a) (fun _ => x) in
  B2SF (Bplus mode_NE (D cyc_x) cyc_b) = B2SF cyc_y /\ B2SF (Bplus mode_NE (D cyc_y) cyc_b) = B2SF cyc_x.
Proof. vm_compute. split; reflexivity. Qed.
Lemma cyc_neq_check : Beqb cyc_x cyc_y = false.
Proof. vm_compute. reflexivity. Qed.

Theorem c105_cycle k :
  iterate 53 1024 1 1 [[cyc_a]] [[cyc_b]] k [[cyc_x]] = Ok [[if Nat.even k then cyc_x else cyc_y]] /\
  B2R cyc_x <> B2R cyc_y.
Proof.
  split.
  - change [[cyc_a]] with (mk 1 1 (fun _ _ => cyc_a)). change [[cyc_b]] with (mk 1 1 (fun _ _ => cyc_b)).
    change [[cyc_x]] with (mk 1 1 (fun _ _ => cyc_x)). rewrite iterate_mk. f_equal.
    change (mk 1 1 (iterates 53 1024 1 (fun _ _ => cyc_a) (fun _ _ => cyc_b) k (fun _ _ => cyc_x)) =
            mk 1 1 (fun _ _ => if Nat.even k then cyc_x else cyc_y)).
    apply mk_ext. intros i j _ _.
    assert (E : forall i j, iterates 53 1024 1 (fun _ _ => cyc_a) (fun _ _ => cyc_b) k (fun _ _ => cyc_x) i j =
      if Nat.even k then cyc_x else cyc_y); [|apply E].
    clear i j. induction k as [|k IH]; intros i j; [reflexivity|].
    cbn [iterates]. rewrite (fdot_ext 53 1024 1 _ _ (fun _ => cyc_a) (fun _ => if Nat.even k then cyc_x else cyc_y))
      by (intros; split; [reflexivity|apply IH]).
    rewrite Nat.even_succ, <- Nat.negb_even. apply B2SF_inj.
    destruct (Nat.even k); [exact (proj1 cyc_step_check)|exact (proj2 cyc_step_check)].
  - intros E. assert (F : is_finite cyc_x = true /\ is_finite cyc_y = true) by (vm_compute; split; reflexivity).
    destruct F as [F1 F2]. pose proof (Beqb_correct 53 1024 _ _ F1 F2) as H. rewrite cyc_neq_check in H.
    rewrite Req_bool_true in H by exact E. discriminate.
Qed.

Print Assumptions c105_solution.
Print Assumptions c105_bounded.
Print Assumptions c105_error.
Print Assumptions c105_stop.
Print Assumptions c105_compare.
Print Assumptions c105_settled.
Print Assumptions c105_size.
Print Assumptions c105_cycle.

(** The hypotheses are met by this very iteration, with q = 1/2, beta = 73/4 and B = 64. *)
Local Open Scope R_scope.
Example c105_ex : is_finite cyc_a = true /\ is_finite cyc_b = true /\ is_finite cyc_x = true /\
  Rabs (B2R cyc_a) = 1 / 2 /\ Rabs (B2R cyc_b) = 73 / 4 /\ Rabs (B2R cyc_x) <= 64 /\
  (1 + uro 53) * (size_sum 53 1024 1 (1 / 2) 64 + 73 / 4) <= 64 /\ 64 < bpow radix2 1024.
Proof.
  repeat split; try (vm_compute; reflexivity).
  - assert (E : B2SF cyc_a = SpecFloat.S754_finite true 4503599627370496 (-53)) by (vm_compute; reflexivity).
    rewrite <- SF2R_B2SF, E. unfold SF2R, F2R. simpl. rewrite Rabs_left; lra.
  - assert (E : B2SF cyc_b = SpecFloat.S754_finite false 5136918324969472 (-48)) by (vm_compute; reflexivity).
    rewrite <- SF2R_B2SF, E. unfold SF2R, F2R. simpl. rewrite Rabs_pos_eq; lra.
  - assert (E : B2SF cyc_x = SpecFloat.S754_finite false 6849224433292629 (-49)) by (vm_compute; reflexivity).
    rewrite <- SF2R_B2SF, E. unfold SF2R, F2R. simpl. rewrite Rabs_pos_eq; lra.
  - pose proof (uro_pos 53) as U0. pose proof (eta_pos 53 1024) as E0.
    assert (U1 : uro 53 <= 1 / 8). { unfold uro. simpl. lra. }
    assert (E1 : eta 53 1024 <= 1).
    { unfold eta. pose proof (bpow_le radix2 (3 - 1024 - 53) 0 ltac:(lia)) as P. change (bpow radix2 0) with 1 in P. lra. }
    unfold size_sum. simpl INR. rewrite pow_1.
    assert (H1 : (1 + uro 53) * (1 / 2 * 64 + 1 * eta 53 1024) <= 9 / 8 * 33) by (apply Rmult_le_compat; lra).
    apply Rle_trans with (9 / 8 * (9 / 8 * 33 + 73 / 4)); [|lra].
    apply Rmult_le_compat; try lra. apply Rplus_le_le_0_compat; [apply Rmult_le_pos; lra|lra].
  - change 64 with (bpow radix2 6). apply bpow_lt. lia.
Qed.
