(** * C78, floating point: changing the sign *)

From Coq Require Import ZArith Reals Lra Lia Bool List Arith.
Import ListNotations.
From Flocq Require Import IEEE754.BinarySingleNaN Core.Core.
From Verif Require Import Base Scalar CFloat Model Spec Loops Struct Float FloatSign Param Graded FloatScale PropFloat PropScale.
Local Open Scope nat_scope.

Section Props.
Variables prec emax : Z.
Context {Hp : Prec_gt_0 prec} {He : Prec_lt_emax prec emax}.
Notation fl := (binary_float prec emax).
Notation F := (floatS prec emax).

(** ** the sign *)
Notation eqz := (eqz prec emax).
(** the same numbers, a zero counting as equal to a zero of the other sign *)
Definition same0 : matrix fl -> matrix fl -> Prop := Forall2 (Forall2 eqz).
(** every element negated *)
Definition mneg (A : matrix fl) : matrix fl := map (map Bopp) A.
(** (-1)^d x *)
Definition sgn_pow (d : Z) (x : fl) : fl := if Z.even d then x else Bopp x.
Definition msgn_pow (d : Z) (A : matrix fl) : matrix fl := map (map (sgn_pow d)) A.

Definition signed (d : Z) (x x' : fl) : Prop := eqz x' (sgn_pow d x).

Lemma sgn_pow_eqz d x y : eqz x y -> eqz (sgn_pow d x) (sgn_pow d y).
Proof. unfold sgn_pow. destruct (Z.even d); [exact (fun H => H)|apply (eqz_opp prec emax)]. Qed.

Lemma n_ld d a a' : signed d a a' -> signed d (@ld F a) (@ld F a'). Proof. exact (fun H => H). Qed.
Lemma n_st d a a' : signed d a a' -> signed d (@st F a) (@st F a'). Proof. exact (fun H => H). Qed.
Lemma n_H0 d : signed d (@lit F 0) (@lit F 0).
Proof.
  unfold signed, sgn_pow. cbn [lit floatS]. rewrite (f_of_Z_0 prec emax). destruct (Z.even d); [apply eqz_refl|].
  right. exists false, true. auto.
Qed.
Lemma n_H1 : signed 0 (@lit F 1) (@lit F 1). Proof. apply (eqz_refl prec emax). Qed.
Lemma n_Hm1 : signed 0 (@lit F (-1)) (@lit F (-1)). Proof. apply (eqz_refl prec emax). Qed.
Lemma n_add d a a' b b' : signed d a a' -> signed d b b' -> simg false (signed d) (@xadd F a b) (@xadd F a' b').
Proof.
  intros Ha Hb. cbn. unfold signed, sgn_pow in *. destruct (Z.even d); [apply (eqz_add prec emax); assumption|].
  eapply (eqz_trans prec emax); [apply (eqz_add prec emax); eassumption|apply (add_opp_opp prec emax)].
Qed.
Lemma n_sub d a a' b b' : signed d a a' -> signed d b b' -> simg false (signed d) (@xsub F a b) (@xsub F a' b').
Proof.
  intros Ha Hb. cbn. unfold signed, sgn_pow in *. destruct (Z.even d); [apply (eqz_sub prec emax); assumption|].
  eapply (eqz_trans prec emax); [apply (eqz_sub prec emax); eassumption|apply (sub_opp_opp prec emax)].
Qed.
Lemma n_mul d e a a' b b' : signed d a a' -> signed e b b' -> simg false (signed (d + e)) (@xmul F a b) (@xmul F a' b').
Proof.
  intros Ha Hb. cbn. unfold signed, sgn_pow in *. rewrite Z.even_add.
  eapply (eqz_trans prec emax); [apply (eqz_mul prec emax); eassumption|].
  destruct (Z.even d), (Z.even e); cbn [eqb]; rewrite ?(mul_opp_opp prec emax), ?(mul_opp_l prec emax), ?(mul_opp_r prec emax);
  apply (eqz_refl prec emax).
Qed.
(** a quotient sees the sign of a zero divisor, so the divisor must not be zero *)
Lemma n_div d e a a' b b' : signed d a a' -> signed e b b' -> @xeq F b (lit 0) = false ->
  simg false (signed (d - e)) (@xdiv F a b) (@xdiv F a' b').
Proof.
  intros Ha Hb Nb. cbn. cbn [xeq lit floatS] in Nb. unfold signed, sgn_pow in *. rewrite Z.even_sub.
  assert (Eb : b' = if Z.even e then b else Bopp b).
  { apply eqz_sym in Hb. symmetry. apply (eqz_nonzero prec emax _ _ Hb). destruct (Z.even e); [exact Nb|].
    rewrite (Beqb_opp_zero prec emax). exact Nb. }
  subst b'. eapply (eqz_trans prec emax); [apply (eqz_div prec emax); exact Ha|].
  destruct (Z.even d), (Z.even e); cbn [eqb]; rewrite ?(div_opp_opp prec emax), ?(div_opp_l prec emax), ?(div_opp_r prec emax);
  apply (eqz_refl prec emax).
Qed.
Lemma n_neg d a a' : signed d a a' -> simg false (signed d) (@xneg F a) (@xneg F a').
Proof.
  intros Ha. cbn. unfold signed, sgn_pow in *. apply eqz_opp in Ha. destruct (Z.even d); exact Ha.
Qed.
Lemma n_eq0 d a a' : signed d a a' -> @xeq F a (lit 0) = @xeq F a' (lit 0).
Proof.
  intros Ha. cbn. unfold signed, sgn_pow in Ha. rewrite (eqz_Beqb prec emax _ _ _ Ha).
  destruct (Z.even d); [reflexivity|]. symmetry. apply (Beqb_opp_zero prec emax).
Qed.
Lemma n_divsz d a a' n : signed d a a' -> simg false (signed d) (@divsz F a n) (@divsz F a' n).
Proof.
  intros Ha. cbn. unfold signed, sgn_pow in *. eapply (eqz_trans prec emax); [apply (eqz_div prec emax); exact Ha|].
  destruct (Z.even d); [apply eqz_refl|]. rewrite (div_opp_l prec emax). apply (eqz_refl prec emax).
Qed.
Lemma n_one : @xeq F (ld (lite F 1)) (lit 0) = false. Proof. apply sc_one. Qed.
Lemma n_flip f v : @xeq F (ld f) (lit 0) = false -> @xmul F (ld f) (lit (-1)) = Ok v -> @xeq F (ld (st v)) (lit 0) = false.
Proof. intros N E0. cbn [xmul floatS ld] in E0. injection E0 as <-. apply flip_nonzero, N. Qed.

Ltac ng L := eapply (L false F F signed signed);
  first [exact n_ld|exact n_st|exact n_H0|exact n_H1|exact n_Hm1|exact n_add|exact n_sub|exact n_mul|exact n_div
    |exact n_neg|exact n_eq0|exact n_divsz|exact n_one|exact n_flip|idtac].

Lemma sim_ref {A B} (R Q : A -> B -> Prop) o o' : simg false R o o' -> (forall a b, R a b -> Q a b) -> refines Q o o'.
Proof.
  destruct o, o'; cbn; try tauto; try discriminate; intros H HQ; try (exists a0; auto); try congruence.
Qed.

Lemma mneg_rel A : mrel (signed 1) A (mneg A).
Proof.
  induction A as [|r A IH]; constructor; [|exact IH]. induction r; constructor; [apply eqz_refl|assumption].
Qed.
Lemma msame_rel A : mrel (signed 0) A A.
Proof.
  induction A as [|r A IH]; constructor; [|exact IH]. induction r; constructor; [apply eqz_refl|assumption].
Qed.
Lemma rel_same d A A' : mrel (signed d) A A' -> same0 A' (msgn_pow d A).
Proof.
  intros H. induction H as [|r r' A A' Hr H IH]; constructor; [|exact IH]. clear - Hr.
  induction Hr; constructor; assumption.
Qed.
Lemma msgn_1 A : msgn_pow 1 A = mneg A. Proof. reflexivity. Qed.
Lemma msgn_even d A : Z.even d = true -> msgn_pow d A = A.
Proof.
  intros H. unfold msgn_pow, sgn_pow. rewrite H. induction A as [|r A IH]; [reflexivity|]. cbn [map]. rewrite IH. f_equal.
  clear. induction r; cbn; congruence.
Qed.
Lemma msgn_odd d A : Z.even d = false -> msgn_pow d A = mneg A.
Proof. intros H. unfold msgn_pow, sgn_pow. rewrite H. reflexivity. Qed.

(** whatever [f (A)] does - return, throw, terminate - [f (-A)] does, with the
    result that algebra says, bit for bit but for the sign of zeros *)
Notation "o ~~> o' 'by' g" := (refines (fun X X' => same0 X' (g X)) o o') (at level 70, o' at next level).
Notation "o ~~> o' 'by_num' g" := (refines (fun r r' => eqz r' (g r)) o o') (at level 70, o' at next level).

Ltac ngo L := eapply sim_ref; [ng L; first [apply mneg_rel|apply msame_rel|idtac]|].


Lemma same0_sgn d A A' : Z.even d = true -> mrel (signed d) A A' -> same0 A' A.
Proof. intros Hd H. apply rel_same in H. rewrite msgn_even in H by exact Hd. exact H. Qed.
Lemma same0_neg d A A' : Z.even d = false -> mrel (signed d) A A' -> same0 A' (mneg A).
Proof. intros Hd H. apply rel_same in H. rewrite msgn_odd in H by exact Hd. exact H. Qed.

Ltac fin := intros ? ? HR; first [solve [refine (same0_sgn _ _ _ _ HR); reflexivity] | solve [refine (same0_neg _ _ _ _ HR); reflexivity]].

Lemma s_same s : signed 0 s s. Proof. apply (eqz_refl prec emax). Qed.
Lemma s_neg s : signed 1 s (Bopp s). Proof. apply (eqz_refl prec emax). Qed.

Ltac bysim L := eapply sim_ref; [ng L; eassumption|fin].

Theorem c78_neg_linear n m p (A B : matrix fl) (s : fl) :
  sum F n m A B ~~> sum F n m (mneg A) (mneg B) by mneg /\
  sub F n m A B ~~> sub F n m (mneg A) (mneg B) by mneg /\
  sum_scalar F n m A s ~~> sum_scalar F n m (mneg A) (Bopp s) by mneg /\
  sub_scalar F n m A s ~~> sub_scalar F n m (mneg A) (Bopp s) by mneg /\
  mult_scalar F n m A s ~~> mult_scalar F n m (mneg A) s by mneg /\
  mult_scalar F n m A s ~~> mult_scalar F n m A (Bopp s) by mneg /\
  div F n m A s ~~> div F n m (mneg A) s by mneg /\
  div F n m A s ~~> div F n m A (Bopp s) by mneg /\
  mult F n m p A B ~~> mult F n m p (mneg A) B by mneg /\
  mult F n m p A B ~~> mult F n m p A (mneg B) by mneg /\
  mult F n m p A B ~~> mult F n m p (mneg A) (mneg B) by (fun r => r) /\
  strassen F A B ~~> strassen F (mneg A) B by mneg /\
  strassen F A B ~~> strassen F A (mneg B) by mneg /\
  strassen F A B ~~> strassen F (mneg A) (mneg B) by (fun r => r).
Proof.
  pose proof (mneg_rel A) as NA. pose proof (mneg_rel B) as NB. pose proof (msame_rel A) as SA. pose proof (msame_rel B) as SB.
  pose proof (s_same s) as Ss. pose proof (s_neg s) as Ns.
  repeat match goal with |- _ /\ _ => split end.
  - bysim G_sum.
  - bysim G_sub.
  - bysim G_sum_scalar.
  - bysim G_sub_scalar.
  - bysim G_mult_scalar.
  - bysim G_mult_scalar.
  - bysim G_div.
  - bysim G_div.
  - bysim G_mult.
  - bysim G_mult.
  - bysim G_mult.
  - bysim G_strassen.
  - bysim G_strassen.
  - bysim G_strassen.
Qed.

(** the image negated, the kernel negated, both *)
Theorem c78_neg_conv n m (A k : matrix fl) :
  conv2 F n m A k ~~> conv2 F n m (mneg A) k by mneg /\
  conv2 F n m A k ~~> conv2 F n m A (mneg k) by mneg /\
  conv2_full F n m A k ~~> conv2_full F n m (mneg A) k by mneg /\
  conv2_full F n m A k ~~> conv2_full F n m A (mneg k) by mneg /\
  conv2_valid F n A k ~~> conv2_valid F n (mneg A) k by mneg /\
  conv2_valid F n A k ~~> conv2_valid F n A (mneg k) by mneg.
Proof.
  pose proof (mneg_rel A) as NA. pose proof (mneg_rel k) as NB. pose proof (msame_rel A) as SA. pose proof (msame_rel k) as SB.
  repeat match goal with |- _ /\ _ => split end.
  1,2: bysim G_conv2. 1,2: bysim G_conv2_full. all: bysim G_conv2_valid.
Qed.

(** det(-A) = (-1)^n det(A) *)
Theorem c78_neg_det n (A : matrix fl) : shape n n A ->
  det F n A ~~> det F n (mneg A) by_num (if Nat.even n then (fun r => r) else Bopp).
Proof.
  intros SA. eapply sim_ref; [ng G_det; [exact SA|apply mneg_rel]|]. intros x x' H.
  unfold signed, sgn_pow in H. rewrite Z.mul_1_r in H.
  replace (Z.even (Z.of_nat n)) with (Nat.even n) in H; [destruct (Nat.even n); exact H|].
  clear. rewrite <- (Nat2Z.id n) at 1. generalize (Zle_0_nat n). generalize (Z.of_nat n). intros z Hz.
  rewrite <- (Z2Nat.id z Hz) at 2. generalize (Z.to_nat z). clear. intros n.
  induction n as [n IH] using lt_wf_ind. destruct n as [|[|n]]; [reflexivity|reflexivity|]. cbn [Nat.even]. rewrite IH by lia.
  rewrite !Nat2Z.inj_succ, Z.even_succ, Z.odd_succ. reflexivity.
Qed.

Lemma inv_neg n (A : matrix fl) : 0 < n -> shape n n A ->
  simg false (mrel (signed (Z.opp 1))) (inv F n A) (inv F n (mneg A)).
Proof.
  intros Hn SA. destruct (Nat.eq_dec n 1) as [->|Nn1].
  - destruct SA as [LA WA]. destruct A as [|r [|? ?]]; try discriminate. pose proof (WA r (or_introl eq_refl)) as Hr.
    destruct r as [|x [|? ?]]; try discriminate. cbn. constructor; [|constructor]. constructor; [|constructor].
    unfold signed. cbn. rewrite (div_opp_r prec emax). apply (eqz_refl prec emax).
  - ng G_inv; [lia|exact SA|apply mneg_rel].
Qed.

(** (-A)^-1 = -(A^-1): it throws or terminates exactly when A's inverse does *)
Theorem c78_neg_inv n (A : matrix fl) : 0 < n -> shape n n A -> inv F n A ~~> inv F n (mneg A) by mneg.
Proof. intros Hn SA. eapply sim_ref; [apply inv_neg; assumption|fin]. Qed.

(** (-A)^p = (-1)^p A^p *)
Theorem c78_neg_pow n w (A : matrix fl) p : 0 < n -> shape n n A -> (1 <= w)%Z -> (- 2 ^ (w - 1) < p)%Z ->
  pow F n w A p ~~> pow F n w (mneg A) p by (if Z.even p then (fun r => r) else mneg).
Proof.
  intros Hn SA Hw Hpp. eapply sim_ref; [ng G_pow; [apply inv_neg; assumption|apply mneg_rel|exact Hw|exact Hpp]|].
  intros X X' H. rewrite Z.mul_1_r in H. destruct (Z.even p) eqn:Ep; [exact (same0_sgn _ _ _ Ep H)|exact (same0_neg _ _ _ Ep H)].
Qed.

(** -A = L (-U) *)
Theorem c78_neg_lu n (A : matrix fl) :
  refines (fun LU LU' => same0 (fst LU') (fst LU) /\ same0 (snd LU') (mneg (snd LU))) (lu F n A) (lu F n (mneg A)).
Proof.
  eapply sim_ref; [ng G_lu; apply mneg_rel|]. intros [L U] [L' U'] [HL HU]. cbn [fst snd] in *. split.
  - exact (same0_sgn 0 _ _ eq_refl HL).
  - exact (same0_neg 1 _ _ eq_refl HU).
Qed.

Lemma eqz_sqrt x y : eqz x y -> eqz (Bsqrt mode_NE x) (Bsqrt mode_NE y).
Proof.
  intros [->|[s [s' [-> ->]]]]; [apply (eqz_refl prec emax)|]. right. exists s, s'. split; reflexivity.
Qed.

(** the mean changes sign, the variance and the standard deviation do not *)
Theorem c78_neg_stat n m (A : matrix fl) :
  mean F n m A ~~> mean F n m (mneg A) by_num Bopp /\
  var F n m A ~~> var F n m (mneg A) by_num (fun r => r) /\
  stddev F n m A ~~> stddev F n m (mneg A) by_num (fun r => r).
Proof.
  repeat match goal with |- _ /\ _ => split end.
  - eapply sim_ref; [ng G_mean; apply mneg_rel|]. exact (fun _ _ H => H).
  - eapply sim_ref; [ng G_var; apply mneg_rel|]. exact (fun _ _ H => H).
  - unfold stddev. eapply ref_bind.
    + eapply sim_ref; [ng G_var; apply mneg_rel|]. intros x y H. exact H.
    + intros x y H. apply ref_ok. apply eqz_sqrt, H.
Qed.
End Props.

(** ** Examples *)
Lemma c78_neg_check : let A := mz64 c78_A in
  okb (inv float64S 4 A) && okb (pow float64S 4 32 A (-3)) && okb (lu float64S 4 A) && okb (stddev float64S 4 4 A) &&
  c78_overflow (inv float64S 2 (mz64 [[1; 2]; [2; 4]]%Z)) = true.
Proof. vm_compute. reflexivity. Qed.

(** a regular and a singular matrix *)
Example c78_neg_ex :
  (exists X, inv float64S 4 (mneg 53 1024 (mz64 c78_A)) = Ok X) /\
  (exists X, pow float64S 4 32 (mneg 53 1024 (mz64 c78_A)) (-3) = Ok X) /\
  inv float64S 2 (mneg 53 1024 (mz64 [[1; 2]; [2; 4]]%Z)) = Throw OverflowError.
Proof.
  pose proof c78_neg_check as H. cbv zeta in H. rewrite !andb_true_iff in H. destruct H as [[[[H4 H5] _] _] H1].
  assert (S4 : shape 4 4 (mz64 c78_A)) by (split; [reflexivity|]; intros r [<-|[<-|[<-|[<-|[]]]]]; reflexivity).
  assert (S2 : shape 2 2 (mz64 [[1; 2]; [2; 4]]%Z)) by (split; [reflexivity|]; intros r [<-|[<-|[]]]; reflexivity).
  split; [|split].
  - destruct (okb_inv _ H4) as [X EX]. pose proof (c78_neg_inv 53 1024 4 (mz64 c78_A) ltac:(lia) S4) as N.
    change (floatS 53 1024) with float64S in N. rewrite EX in N. destruct N as [X' [E' _]]. exists X'. exact E'.
  - destruct (okb_inv _ H5) as [X EX].
    pose proof (c78_neg_pow 53 1024 4 32 (mz64 c78_A) (-3) ltac:(lia) S4 ltac:(lia) ltac:(lia)) as N.
    change (floatS 53 1024) with float64S in N. rewrite EX in N. destruct N as [X' [E' _]]. exists X'. exact E'.
  - pose proof (c78_neg_inv 53 1024 2 (mz64 [[1; 2]; [2; 4]]%Z) ltac:(lia) S2) as N.
    change (floatS 53 1024) with float64S in N. rewrite (overflow_inv _ H1) in N. exact N.
Qed.

(** the sign of a zero does depend on it: 1 + (-1) and (-1) + 1 are both +0 *)
Theorem c78_zero_sign : exists A B S, sum float64S 1 1 A B = Ok S /\
  sum float64S 1 1 (mneg 53 1024 A) (mneg 53 1024 B) = Ok S /\ S <> mneg 53 1024 S.
Proof.
  exists [[fz64 1]], [[fz64 (-1)]], [[B754_zero false]]. split; [|split].
  - vm_compute. reflexivity.
  - vm_compute. reflexivity.
  - discriminate.
Qed.
Print Assumptions c78_neg_linear.
Print Assumptions c78_neg_conv.
Print Assumptions c78_neg_det.
Print Assumptions c78_neg_inv.
Print Assumptions c78_neg_pow.
Print Assumptions c78_neg_lu.
Print Assumptions c78_neg_stat.
Print Assumptions c78_zero_sign.
