(** * C78, exact arithmetic: changing the unit of measurement *)

From Coq Require Import ZArith List Lia.
From mathcomp Require Import all_ssreflect all_algebra.
From mathcomp Require Import zify ssrZ.
From Verif Require Import Base Scalar Model Spec Loops Struct Exact ExactLemmas Param Graded.

Set Implicit Arguments.
Unset Strict Implicit.
Unset Printing Implicit Defensive.

Import Order.TTheory GRing.Theory Num.Theory.
Local Notation ltP := ssrnat.ltP (only parsing).
Local Notation leP := ssrnat.leP (only parsing).
Local Open Scope ring_scope.
Delimit Scope Z_scope with Z.

(** c^d for an integer d *)
Definition zpow (F : fieldType) (c : F) (d : Z) : F := c ^ (int_of_Z d).

(** every element times [c] *)
Definition times (F : fieldType) (c : F) (A : matrix F) : matrix F := List.map (List.map (fun x => c * x)) A.

Lemma sim_refines_inv {A B} (R Q : A -> B -> Prop) o o' :
  simg false R o o' -> (forall a b, R a b -> Q a b) -> refines Q o o'.
Proof. by case: o o' => [a|e||u|] [a'|e'||u'|] //=; intros; subst; eauto. Qed.

Section Field.
Variables (F : fieldType) (lt : F -> F -> bool) (ab : F -> F) (sq : F -> outcome F).
Notation K := (@exactS F lt ab sq).
Variable c : F.
Hypothesis c0 : c != 0.
Notation "c ^^ d" := (zpow c d) (at level 30).

Lemma zpow0 : c ^^ 0 = 1. Proof. by rewrite /zpow. Qed.
Lemma zpow1 : c ^^ 1 = c. Proof. by rewrite /zpow. Qed.
Lemma zpowD d e : c ^^ (d + e) = c ^^ d * c ^^ e.
Proof. by rewrite /zpow rmorphD /= expfzDr. Qed.
Lemma zpowN d : c ^^ (- d) = (c ^^ d)^-1.
Proof. by rewrite /zpow rmorphN /= -invr_expz. Qed.
Lemma zpow_neq0 d : c ^^ d != 0. Proof. by rewrite /zpow expfz_neq0. Qed.

Definition grade (d : Z) (x x' : F) : Prop := x' = c ^^ d * x.
Definition gmat (d : Z) : matrix F -> matrix F -> Prop := mrel (grade d).

Lemma grade_times A : mrel (grade 1) A (times c A).
Proof.
  elim: A => [|r A IH]; constructor=> //. elim: r => [|x r IHr]; constructor; rewrite ?/grade ?zpow1 ?IHr //.
Qed.
Lemma grade_same A : mrel (grade 0) A A.
Proof.
  elim: A => [|r A IH]; constructor=> //. elim: r => [|x r IHr]; constructor; rewrite ?/grade ?zpow0 ?mul1r //.
Qed.
Lemma grade_eq d A A' : mrel (grade d) A A' -> A' = times (c ^^ d) A.
Proof.
  elim=> [|r r' B B' Hr _ ->] //=. congr (_ :: _). elim: Hr => [|x x' v v' -> _ ->] //.
Qed.

Lemma u_ld d a a' : grade d a a' -> grade d (@ld K a) (@ld K a'). Proof. by []. Qed.
Lemma u_st d a a' : grade d a a' -> grade d (@st K a) (@st K a'). Proof. by []. Qed.
Lemma u_H0 d : grade d (@lit K 0) (@lit K 0). Proof. by rewrite /grade /= mulr0. Qed.
Lemma u_H1 : grade 0 (@lit K 1) (@lit K 1). Proof. by rewrite /grade zpow0 mul1r. Qed.
Lemma u_Hm1 : grade 0 (@lit K (-1)) (@lit K (-1)). Proof. by rewrite /grade zpow0 mul1r. Qed.
Lemma u_add d a a' b b' : grade d a a' -> grade d b b' -> simg false (grade d) (@xadd K a b) (@xadd K a' b').
Proof. by rewrite /grade => -> ->; rewrite /= mulrDr. Qed.
Lemma u_sub d a a' b b' : grade d a a' -> grade d b b' -> simg false (grade d) (@xsub K a b) (@xsub K a' b').
Proof. by rewrite /grade => -> ->; rewrite /= mulrBr. Qed.
Lemma u_mul d e a a' b b' : grade d a a' -> grade e b b' -> simg false (grade (d + e)) (@xmul K a b) (@xmul K a' b').
Proof. by rewrite /grade => -> ->; rewrite /= zpowD mulrACA. Qed.
Lemma u_divU d e a a' b b' : grade d a a' -> grade e b b' -> simg false (grade (d - e)) (@xdiv K a b) (@xdiv K a' b').
Proof.
  rewrite /grade => -> ->. rewrite /= /exact_div !unitfE mulf_eq0 negb_or zpow_neq0 /=. case: ifP => //= Hb.
  by rewrite zpowD zpowN invfM mulrACA.
Qed.
Lemma u_div d e a a' b b' : grade d a a' -> grade e b b' -> @xeq K b (@lit K 0) = false ->
  simg false (grade (d - e)) (@xdiv K a b) (@xdiv K a' b').
Proof. by move=> Ha Hb _; apply: u_divU. Qed.
Lemma u_neg d a a' : grade d a a' -> simg false (grade d) (@xneg K a) (@xneg K a').
Proof. by rewrite /grade => ->; rewrite /= mulrN. Qed.
Lemma u_eq0 d a a' : grade d a a' -> @xeq K a (@lit K 0) = @xeq K a' (@lit K 0).
Proof. by rewrite /grade => ->; rewrite /= mulf_eq0 (negbTE (zpow_neq0 d)). Qed.
Lemma u_divsz d a a' n : grade d a a' -> simg false (grade d) (@divsz K a n) (@divsz K a' n).
Proof. by rewrite /grade => ->; rewrite /= /exact_div; case: ifP => //= _; rewrite mulrA. Qed.
Lemma u_one : @xeq K (@ld K (lite K 1)) (@lit K 0) = false.
Proof. by rewrite /= oner_eq0. Qed.
Lemma u_flip f v : @xeq K (@ld K f) (@lit K 0) = false -> @xmul K (@ld K f) (@lit K (-1)) = Ok v ->
  @xeq K (@ld K (@st K v)) (@lit K 0) = false.
Proof. by move=> /= Hf [<-]; rewrite mulf_eq0 Hf /= oppr_eq0 oner_eq0. Qed.

Ltac ug L := eapply (L false K K grade grade);
  first [exact u_ld|exact u_st|exact u_H0|exact u_H1|exact u_Hm1|exact u_add|exact u_sub|exact u_mul|exact u_div
    |exact u_neg|exact u_eq0|exact u_divsz|exact u_one|exact u_flip|exact u_divU|idtac].
Ltac sides := first [exact: grade_times | exact: grade_same | done | idtac].
Ltac fin := let H := fresh in intros ? ? H; apply grade_eq in H; rewrite ?zpowD ?zpowN ?zpow0 ?zpow1 ?mulr1 ?mul1r in H; exact H.

(** whatever the call does on [A] - return, throw, terminate, undefined division - it
    does on [c A], and a returned result is that for [A] times the power of [c] *)
Notation "o ~~> o' 'by' g" := (refines (fun X X' => X' = g X) o o') (at level 70, o' at next level).

Theorem c78_units_arith n m p (A B k : matrix F) :
  sum K n m A B ~~> sum K n m (times c A) (times c B) by times c /\
  sub K n m A B ~~> sub K n m (times c A) (times c B) by times c /\
  mult K n m p A B ~~> mult K n m p (times c A) B by times c /\
  mult K n m p A B ~~> mult K n m p (times c A) (times c B) by times (c * c) /\
  strassen K A B ~~> strassen K (times c A) (times c B) by times (c * c) /\
  conv2 K n m A k ~~> conv2 K n m (times c A) k by times c /\
  conv2_full K n m A k ~~> conv2_full K n m (times c A) k by times c /\
  conv2_valid K n A k ~~> conv2_valid K n (times c A) k by times c.
Proof.
  have cA := grade_times A. have cB := grade_times B. have sB := grade_same B. have sk := grade_same k.
  repeat match goal with |- _ /\ _ => split end.
  - eapply sim_refines_inv; [ug G_sum; eassumption|fin].
  - eapply sim_refines_inv; [ug G_sub; eassumption|fin].
  - eapply sim_refines_inv; [ug G_mult; eassumption|fin].
  - eapply sim_refines_inv; [ug G_mult; eassumption|fin].
  - eapply sim_refines_inv; [ug G_strassen; eassumption|fin].
  - eapply sim_refines_inv; [ug G_conv2; eassumption|fin].
  - eapply sim_refines_inv; [ug G_conv2_full; eassumption|fin].
  - eapply sim_refines_inv; [ug G_conv2_valid; eassumption|fin].
Qed.

Theorem c78_units_algebra n (A : matrix F) : shape n n A ->
  det K n A ~~> det K n (times c A) by (fun x => c ^+ n * x) /\
  ((0 < n)%N -> inv K n A ~~> inv K n (times c A) by times c^-1) /\
  (forall w p, (0 < n)%N -> (1 <= w)%Z -> (- 2 ^ (w - 1) < p)%Z ->
    pow K n w A p ~~> pow K n w (times c A) p by times (c ^^ p)) /\
  lu K n A ~~> lu K n (times c A) by (fun LU => (LU.1, times c LU.2)).
Proof.
  move=> SA. have cA := grade_times A.
  have I : (0 < n)%N -> simg false (mrel (grade (Z.opp 1))) (inv K n A) (inv K n (times c A)).
  { move=> Hn. ug G_inv_all => //. exact/ssrnat.ltP. }
  split; [|split; [|split]].
  - eapply sim_refines_inv; [ug G_det; eassumption|]. rewrite /grade => x x' ->. congr (_ * _).
    rewrite /zpow Z.mul_1_r. suff ->: int_of_Z (Z.of_nat n) = n%:Z by []. lia.
  - move=> Hn. eapply sim_refines_inv; [exact: I|fin].
  - move=> w p Hn Hw Hp. eapply sim_refines_inv; [ug G_pow; [exact: I|exact: cA|exact: Hw|exact: Hp]|].
    move=> X X' /grade_eq. by rewrite Z.mul_1_r.
  - eapply sim_refines_inv; [ug G_lu; eassumption|]. move=> [L U] [L' U'] [/= HL HU].
    apply grade_eq in HL. apply grade_eq in HU. rewrite zpow1 in HU. rewrite zpow0 in HL. rewrite HU HL. congr (_, _).
    rewrite /times -[RHS]List.map_id. apply: List.map_ext => r. rewrite -[RHS]List.map_id. apply: List.map_ext => x. exact: mul1r.
Qed.

Theorem c78_units_stat n m (A : matrix F) :
  mean K n m A ~~> mean K n m (times c A) by (fun x => c * x) /\
  var K n m A ~~> var K n m (times c A) by (fun x => c ^+ 2 * x).
Proof.
  have cA := grade_times A. split.
  - eapply sim_refines_inv; [ug G_mean; eassumption|]. by rewrite /grade zpow1.
  - eapply sim_refines_inv; [ug G_var; eassumption|]. by rewrite /grade.
Qed.

Section Root.
Hypothesis Hsq : forall d a a', grade (2 * d) a a' -> simg false (grade d) (sq a) (sq a').
Lemma u_chol d n A A' : mrel (grade (2 * d)) A A' -> simg false (mrel (grade d)) (chol K n A) (chol K n A').
Proof. move=> HA. ug G_chol => //. Qed.
Lemma u_stddev d n m A A' : mrel (grade d) A A' -> simg false (grade d) (stddev K n m A) (stddev K n m A').
Proof. move=> HA. ug G_stddev => //. Qed.
End Root.
End Field.

(** with square roots: chol(c^2 A) = c chol(A), stddev(c A) = c stddev(A), c > 0 *)
Theorem c78_units_root (R : rcfType) (c : R) n m (A : matrix R) : 0 < c ->
  refines (fun X X' => X' = times c X) (chol (realS R) n A) (chol (realS R) n (times (c ^+ 2) A)) /\
  refines (fun x x' => x' = c * x) (stddev (realS R) n m A) (stddev (realS R) n m (times c A)).
Proof.
  move=> cp. have c0 : c != 0 by rewrite gt_eqF.
  have Hp d : 0 < zpow c d by rewrite /zpow exprz_gt0.
  have Hsq d a a' : grade c (2 * d) a a' -> simg false (grade c d)
    (if a < 0 then UB BadConversion else Ok (Num.sqrt a)) (if a' < 0 then UB BadConversion else Ok (Num.sqrt a')).
  { have ->: (2 * d)%Z = (d + d)%Z by lia.
    rewrite /grade => ->. rewrite pmulr_rlt0 //. case: ifP => //= _. by rewrite zpowD // -expr2 sqrtrM ?sqr_ge0 // sqrtr_sqr gtr0_norm. }
  split.
  - eapply sim_refines_inv; [apply (@u_chol R _ _ _ c c0 Hsq 1)|].
    + rewrite -[Z.mul 2 1]/2%Z. elim: A => [|r A IH]; constructor=> //. elim: r => [|x r IHr]; constructor=> //.
    + move=> X X' /grade_eq. by rewrite zpow1.
  - eapply sim_refines_inv; [apply (@u_stddev R _ _ _ c c0 Hsq 1), grade_times|]. by rewrite /grade zpow1.
Qed.

(** metres to millimetres *)
Example c78_units_ex : (1000%:R : rat) != 0 /\ shape 2 2 [:: [:: 2%:R; 1]; [:: 1; 1 : rat]].
Proof. split=> //. by split=> // r [<-|[<-|[]]]. Qed.

Print Assumptions c78_units_arith.
Print Assumptions c78_units_algebra.
Print Assumptions c78_units_stat.
Print Assumptions c78_units_root.
