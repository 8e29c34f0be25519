(** * Properties C37, C39-C42: mean, variance, median, histograms

    [mxmean A] is the sum of the elements over their number, [mxvar A] the mean
    squared deviation from it (Exact.v). *)

From Coq Require Import ZArith List Lia Permutation.
From mathcomp Require Import all_ssreflect all_algebra.
From mathcomp Require Import zify.
From Verif Require Import Base Scalar Model CInt Spec Loops Struct Exact ExactLemmas Alg Det Order Stat StatExact PropAlg.

Set Implicit Arguments.
Unset Strict Implicit.
Unset Printing Implicit Defensive.

Import mathcomp.ssreflect.order.Order.TTheory GRing.Theory Num.Theory.
Local Notation ltP := ssrnat.ltP (only parsing).
Local Notation leP := ssrnat.leP (only parsing).
Local Open Scope ring_scope.
Delimit Scope Z_scope with Z.

Section C37.
Variables (R : realFieldType) (sq : R -> outcome R).
Notation K := (ordS sq).
Variables (n m : nat).
Hypothesis Hpos : (0 < n * m)%N.
Hypothesis Hsz : (Z.of_nat (n * m) < 2 ^ 64)%Z.

(** ** C37 *)

Theorem c37_mean (A : 'M[R]_(n, m)) :
  mean K n m (mxrows A) = Ok ((\sum_i \sum_j A i j) / (n * m)%:R).
Proof. exact: mean_mx. Qed.

Theorem c37_between (A : 'M[R]_(n, m)) r lo hi : mean K n m (mxrows A) = Ok r ->
  (forall i j, lo <= A i j <= hi) -> lo <= r <= hi.
Proof.
  rewrite mean_mx // => -[<-] H. apply/andP; split.
  - apply: mxmean_ge => // i j. by case/andP: (H i j).
  - apply: mxmean_ub => // i j. by case/andP: (H i j).
Qed.

Theorem c37_shift (A : matrix R) (s : R) : shape n m A ->
  (let* X := sum_scalar K n m A s in mean K n m X) = (let* r := mean K n m A in Ok (r + s)).
Proof. move=> H; tomx H. by rewrite sum_scalar_mx /= !mean_mx //= mxmean_shift. Qed.

Theorem c37_scale (A : matrix R) (s : R) : shape n m A ->
  (let* X := mult_scalar K n m A s in mean K n m X) = (let* r := mean K n m A in Ok (s * r)).
Proof.
  move=> H; tomx H. rewrite mult_scalar_mx /= !mean_mx //= -mxmean_scale //.
  congr (Ok (mxmean _)); apply/matrixP=> i j; by rewrite !mxE mulrC.
Qed.

(** ** C39 *)

Theorem c39_var (A : 'M[R]_(n, m)) : let mu := (\sum_i \sum_j A i j) / (n * m)%:R in
  var K n m (mxrows A) = Ok ((\sum_i \sum_j (A i j - mu) ^+ 2) / (n * m)%:R).
Proof. exact: var_mx. Qed.

Theorem c39_nonneg (A : matrix R) r : shape n m A -> var K n m A = Ok r -> 0 <= r.
Proof. move=> H; tomx H. rewrite var_mx // => -[<-]. exact: mxvar_ge0. Qed.

Theorem c39_zero_iff (A : 'M[R]_(n, m)) :
  var K n m (mxrows A) = Ok 0 <-> forall i j k l, A i j = A k l.
Proof.
  rewrite var_mx //. split.
  - move=> -[/(mxvar_eq0 Hpos) [c ->]] i j k l. by rewrite !mxE.
  - move=> H. congr Ok. apply/(mxvar_eq0 Hpos).
    have Hn : (0 < n)%N by move: Hpos; rewrite muln_gt0 => /andP [].
    have Hm : (0 < m)%N by move: Hpos; rewrite muln_gt0 => /andP [].
    exists (A (Ordinal Hn) (Ordinal Hm)). apply/matrixP=> i j; rewrite mxE. exact: H.
Qed.

(** var = mean of squares - square of the mean; the squares of the elements are
    given as a matrix, the library has no elementwise product *)
Theorem c39_koenig (A : 'M[R]_(n, m)) :
  var K n m (mxrows A) =
  (let* q := mean K n m (mxrows (\matrix_(i, j) A i j ^+ 2)) in
   let* r := mean K n m (mxrows A) in Ok (q - r ^+ 2)).
Proof.
  rewrite var_mx // !mean_mx //= mxvar_koenig //. congr (Ok (mxmean _ - _)).
  apply/matrixP=> i j; by rewrite !mxE.
Qed.

Theorem c39_shift (A : matrix R) (s : R) : shape n m A ->
  (let* X := sum_scalar K n m A s in var K n m X) = var K n m A.
Proof. move=> H; tomx H. by rewrite sum_scalar_mx /= !var_mx // mxvar_shift. Qed.

Theorem c39_scale (A : matrix R) (s : R) : shape n m A ->
  (let* X := mult_scalar K n m A s in var K n m X) = (let* r := var K n m A in Ok (s ^+ 2 * r)).
Proof.
  move=> H; tomx H. rewrite mult_scalar_mx /= !var_mx //= -mxvar_scale //.
  congr (Ok (mxvar _)); apply/matrixP=> i j; by rewrite !mxE mulrC.
Qed.
End C37.
Print Assumptions c37_mean.
Print Assumptions c37_between.
Print Assumptions c37_shift.
Print Assumptions c37_scale.
Print Assumptions c39_var.
Print Assumptions c39_nonneg.
Print Assumptions c39_zero_iff.
Print Assumptions c39_koenig.
Print Assumptions c39_shift.
Print Assumptions c39_scale.

Theorem c37_empty (R : realFieldType) (sq : R -> outcome R) n m (A : 'M[R]_(n, m)) :
  (n * m = 0)%N -> mean (ordS sq) n m (mxrows A) = UB DivByZero.
Proof. by move=> /(mean_empty sq A) []. Qed.
Print Assumptions c37_empty.

Theorem c39_stddev (R : rcfType) n m (A : matrix R) : (0 < n * m)%N ->
  (Z.of_nat (n * m) < 2 ^ 64)%Z -> shape n m A ->
  exists r, [/\ stddev (realS R) n m A = Ok r, 0 <= r & var (realS R) n m A = Ok (r ^+ 2)].
Proof.
  move=> Hpos Hsz H; tomx H. exists (Num.sqrt (mxvar X)). rewrite stddev_mx // var_mx //.
  by rewrite sqr_sqrtr ?mxvar_ge0 // sqrtr_ge0.
Qed.
Print Assumptions c39_stddev.

Example c37_ex (sq : rat -> outcome rat) : (0 < 1 * 2)%N /\ (Z.of_nat (1 * 2) < 2 ^ 64)%Z /\
  mean (ordS sq) 1 2 [:: [:: 1; 4%:R]] = Ok (5%:R / 2%:R) /\
  var (ordS sq) 1 2 [:: [:: 1; 4%:R]] = Ok (9%:R / 4%:R).
Proof.
  by [].
Qed.

(** ** C40 median; [sort] stands for std::sort *)

Section C40.
Variables (K : scalar) (sort : list (elt K) -> list (elt K)) (n m : nat) (A : matrix (elt K)).
Notation lt := (less K).
Hypothesis HA : shape n m A.
Hypothesis W : strict_weak_on lt (elements A).
Hypothesis So : sorts lt sort (elements A).

Theorem c40_odd : Nat.modulo (n * m) 2 = 1%N ->
  exists x, [/\ median K sort n m A = Ok x, In x (elements A),
    (count (fun y => lt y x) (elements A) <= n * m / 2)%coq_nat &
    (count (fun y => lt x y) (elements A) <= n * m / 2)%coq_nat].
Proof.
  move: HA W So => /(shape_mk (lite K 0)) [f ->] W' So' Hodd.
  have [x [E [_ [I [C1 C2]]]]] := median_odd K sort n m f W' So' Hodd. by exists x.
Qed.

Theorem c40_even : Nat.modulo (n * m) 2 = 0%N -> (0 < n * m)%N ->
  exists x y, [/\ nth_error (sort (elements A)) (n * m / 2) = Some x,
    nth_error (sort (elements A)) (n * m / 2 - 1) = Some y &
    median K sort n m A = (let* t := xadd (ld x) (ld y) in let* q := xdiv t (@lit K 2) in Ok (st q))].
Proof.
  move: HA W So => /(shape_mk (lite K 0)) [f ->] W' So' He /ltP Hp.
  have [x [y [E1 [E2 E3]]]] := median_even K sort n m f W' So' He Hp. by exists x, y.
Qed.

Theorem c40_empty : (n * m = 0)%N -> median K sort n m A = UB OutOfBounds.
Proof.
  move: HA W So => /(shape_mk (lite K 0)) [f ->] W' So'. exact: median_empty.
Qed.

(** other arrangement B of the same elements, other sorting algorithm *)
Theorem c40_independent sort' n' m' B : shape n' m' B -> Permutation (elements A) (elements B) ->
  sorts lt sort' (elements B) ->
  (forall x y, In x (elements A) -> In y (elements A) -> equivalent lt x y = true -> x = y) ->
  median K sort n m A = median K sort' n' m' B.
Proof.
  move: HA W So => /(shape_mk (lite K 0)) [f ->] W' So' /(shape_mk (lite K 0)) [g ->] P S' He.
  exact: median_independent.
Qed.

(** without the hypothesis that equivalent elements are equal (-0. and +0.) *)
Theorem c40_odd_independent sort' n' m' B : shape n' m' B -> Permutation (elements A) (elements B) ->
  sorts lt sort' (elements B) -> Nat.modulo (n * m) 2 = 1%N ->
  exists x y, [/\ median K sort n m A = Ok x, median K sort' n' m' B = Ok y &
    equivalent lt x y = true].
Proof.
  move: HA W So => /(shape_mk (lite K 0)) [f ->] W' So' /(shape_mk (lite K 0)) [g ->] P S' Ho.
  have [x [y [E1 [E2 E3]]]] := median_odd_independent K sort sort' n m n' m' f g W' P So' S' Ho.
  by exists x, y.
Qed.
End C40.
Print Assumptions c40_odd.
Print Assumptions c40_even.
Print Assumptions c40_empty.
Print Assumptions c40_independent.
Print Assumptions c40_odd_independent.

(** exact arithmetic: < is a strict weak order and equivalent elements are equal *)
Theorem c40_exact_order (R : realFieldType) sq (v : list R) :
  strict_weak_on (less (ordS sq)) v /\
  (forall x y, equivalent (less (ordS sq)) x y = true -> x = y).
Proof.
  rewrite /less /equivalent /=. split.
  - split; first by move=> a _; rewrite ltxx.
    split; first by move=> a b _ _ H; rewrite lt_gtF.
    split; first by move=> a b c _ _ _; apply: lt_trans.
    move=> a b c _ _ _ /negbT; rewrite -leNgt => H1 /negbT; rewrite -leNgt => H2.
    move=> /negbT; rewrite -leNgt => H3 /negbT; rewrite -leNgt => H4.
    have -> : a = b by apply: le_anti; rewrite H1 H2.
    have -> : b = c by apply: le_anti; rewrite H3 H4. by rewrite ltxx.
  - move=> x y; rewrite -!leNgt => /andP [H1 H2]. by apply: le_anti; rewrite H1 H2.
Qed.
Print Assumptions c40_exact_order.

(** integers, the same *)
Theorem c40_int_order t (v : list Z) :
  strict_weak_on (less (intS t)) v /\
  (forall x y, equivalent (less (intS t)) x y = true -> x = y).
Proof.
  rewrite /less /equivalent /strict_weak_on /=. split; last by move=> x y; lia.
  repeat split; intros; lia.
Qed.
Print Assumptions c40_int_order.

(** insertion sort is a [sort], so the hypotheses can be met for every matrix whose
    elements are ordered *)
Theorem c40_sort_exists (T : Type) (lt : T -> T -> bool) v :
  strict_weak_on lt v -> sorts lt (isort lt) v.
Proof. exact: isort_sorts. Qed.
Print Assumptions c40_sort_exists.

Example c40_ex : median (intS int32) (isort Z.ltb) 1 5 [:: [:: 5; 1; 4; 2; 3]]%Z = Ok (3 : Z)%Z /\
  median (intS int32) (isort Z.ltb) 2 2 [:: [:: 5; 1]; [:: 4; 2]]%Z = Ok (3 : Z)%Z.
Proof. by []. Qed.

(** ** C41, C42 histograms *)

Theorem c41_histogram (K : scalar) n m (A : matrix (elt K)) : shape n m A ->
  strict_weak_on (less K) (elements A) -> (Z.of_nat (n * m) < 2 ^ 64)%Z ->
  exists h, [/\ histogram K n m A = Ok h, is_histogram (less K) (elements A) h &
    total (List.map snd h) = Z.of_nat (n * m)].
Proof.
  move=> /(shape_mk (lite K 0)) [f ->] W Hs.
  have [h [E H]] := histogram_mk K n m f W Hs. exists h; split=> //.
  by rewrite (hist_grand_total K _ h W H) elements_length.
Qed.
Print Assumptions c41_histogram.

Theorem c42_cumulative (K : scalar) n m (A : matrix (elt K)) : shape n m A ->
  strict_weak_on (less K) (elements A) -> (Z.of_nat (n * m) < 2 ^ 64)%Z ->
  exists h r, [/\ histogram K n m A = Ok h, cumulative_histogram K n m A = Ok r,
    List.map fst r = List.map fst h &
    forall k x, In (k, x) r -> x = Z.of_nat (count (fun y => negb (less K k y)) (elements A))].
Proof.
  move=> /(shape_mk (lite K 0)) [f ->] W Hs.
  have [h [r [E1 [E2 [E3 E4]]]]] := cumulative_mk K n m f W Hs. by exists h, r.
Qed.
Print Assumptions c42_cumulative.

(** non-decreasing, and the last value is the number of elements *)
Theorem c42_monotone (K : scalar) n m (A : matrix (elt K)) : shape n m A ->
  strict_weak_on (less K) (elements A) -> (Z.of_nat (n * m) < 2 ^ 64)%Z ->
  exists r, cumulative_histogram K n m A = Ok r /\
  (forall i j p q, (i <= j)%N -> nth_error (List.map snd r) i = Some p ->
     nth_error (List.map snd r) j = Some q -> (p <= q)%Z) /\
  (forall r' k x, r = r' ++ [:: (k, x)] -> x = Z.of_nat (n * m)).
Proof.
  move=> HA W Hs. have [r [E1 [E2 E3]]] := cumulative_monotone K n m A HA W Hs.
  exists r; split=> //; split=> // i j p q /leP. exact: E2.
Qed.
Print Assumptions c42_monotone.

Example c41_ex : strict_weak_on (less (intS int32)) (elements [:: [:: 3; 1]; [:: 3; 2]]%Z) /\
  histogram (intS int32) 2 2 [:: [:: 3; 1]; [:: 3; 2]]%Z = Ok [:: (1, 1); (2, 1); (3, 2)]%Z /\
  cumulative_histogram (intS int32) 2 2 [:: [:: 3; 1]; [:: 3; 2]]%Z = Ok [:: (1, 1); (2, 2); (3, 4)]%Z.
Proof. split=> //. by have [] := c40_int_order int32 (elements [:: [:: 3; 1]; [:: 3; 2]]%Z). Qed.
