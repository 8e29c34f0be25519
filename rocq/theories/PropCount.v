(** * Property C97: powers count walks and run recurrences

    [wprod A i s] is the product of the weights along the walk that starts at i
    and visits the vertices of the list s; [count e p i j] the number of walks of
    p steps from i to j in the graph e.  [mxpow A p] is A*...*A (Exact.v). *)

From Coq Require Import ZArith List Lia.
From mathcomp Require Import all_ssreflect all_algebra.
From mathcomp Require Import zify ssrZ.
From Flocq Require Import IEEE754.BinarySingleNaN Core.Core.
From Verif Require Import Base Scalar Model CInt CFloat Spec Loops Struct Exact ExactLemmas Alg Det Pow Sim IntMx Int
  Param ParamInst Strict PropParam PropStrict PropAlg PropInt.
Set Implicit Arguments.
Unset Strict Implicit.
Unset Printing Implicit Defensive.
Import GRing.Theory.
Local Open Scope ring_scope.
Delimit Scope Z_scope with Z.

(** ** specification *)
Fixpoint wprod (R : ringType) n (A : 'M[R]_n) (i : 'I_n) (s : seq 'I_n) : R :=
  if s is k :: s' then A i k * wprod A k s' else 1.
(** the total weight of the walks of p steps from i to j *)
Definition weight (R : ringType) n (A : 'M[R]_n) (p : nat) (i j : 'I_n) : R :=
  \sum_(s : p.-tuple 'I_n | last i s == j) wprod A i s.
Definition walks n (e : rel 'I_n) (p : nat) (i j : 'I_n) : nat :=
  #|[set s : p.-tuple 'I_n | path e i s && (last i s == j)]|.
(** the adjacency matrix *)
Definition adj n (e : rel 'I_n) : 'M[Z]_n := \matrix_(i, j) (if e i j then 1 else 0)%Z.

Section Weights.
Variables (R : ringType) (n : nat).
Implicit Types (A : 'M[R]_n) (i j : 'I_n).

Lemma weight0 A i j : weight A 0 i j = (i == j)%:R.
Proof.
rewrite /weight; case E: (i == j).
  by rewrite (big_pred1 [tuple]) // => s; rewrite (tuple0 s) /= E eqxx.
by rewrite big_pred0 // => s; rewrite (tuple0 s).
Qed.

Lemma weightS A p i j : weight A p.+1 i j = \sum_k A i k * weight A p k j.
Proof.
rewrite /weight.
under [in RHS]eq_bigr do rewrite mulr_sumr.
rewrite pair_big_dep /=.
rewrite (reindex (fun x : 'I_n * p.-tuple 'I_n => [tuple of x.1 :: x.2])) /=.
  by apply: eq_bigr => -[k s].
exists (fun s : p.+1.-tuple 'I_n => (thead s, [tuple of behead s])) => [[k s] _|s _] /=.
  by rewrite theadE; congr pair; apply: val_inj.
by rewrite -tuple_eta.
Qed.

Lemma mxpow_weight A p i j : mxpow A p i j = weight A p i j.
Proof.
elim: p i j => [|p IH] i j; first by rewrite weight0 /= !mxE.
by rewrite weightS /= !mxE; apply: eq_bigr => k _; rewrite IH.
Qed.
End Weights.

Lemma wprod_adj n (e : rel 'I_n) i s : wprod (adj e) i s = (if path e i s then 1 else 0)%Z.
Proof.
elim: s i => [//|k s IH] i /=. by rewrite IH mxE; case: (e i k) => //=; rewrite ?mul1r ?mul0r.
Qed.

Lemma weight_adj n (e : rel 'I_n) p i j : weight (adj e) p i j = Z.of_nat (walks e p i j).
Proof.
rewrite /weight /walks -sum1dep_card (big_morph Z.of_nat (id1 := 0) (op1 := +%R)) //; last by move=> x y; rewrite Nat2Z.inj_add.
rewrite [RHS]big_mkcond [LHS]big_mkcond /=; apply: eq_bigr => s _.
by rewrite wprod_adj; case: (path e i s); case: (last i s == j).
Qed.

Lemma mxpow_adj n (e : rel 'I_n) p : mxpow (adj e) p = \matrix_(i, j) Z.of_nat (walks e p i j).
Proof. by apply/matrixP => i j; rewrite mxpow_weight weight_adj mxE. Qed.

(** ** non-negative matrices: what returns on [strictS B] *)
Section Strict.
Variable B : Z.
Hypothesis HB : (1 <= B)%Z.
Notation S := (strictS B).

(** all elements are between 0 and B *)
Definition counts n m (A : 'M[Z]_(n, m)) : Prop := forall i j, (0 <= A i j <= B)%Z.

Lemma chk_ok z : (0 <= z <= B)%Z -> chk B z = Ok z.
Proof. by move=> H; rewrite /chk; have -> : (Z.abs z <=? B)%Z by lia. Qed.

Lemma psum_mono (t : nat -> Z) k m : (forall l, (l < m)%N -> (0 <= t l)%Z) -> (k <= m)%N ->
  (0 <= \sum_(l < k) t l <= \sum_(l < m) t l)%Z.
Proof.
move=> Ht Hk. have P0 q : (q <= m)%N -> (0 <= \sum_(l < q) t l)%Z.
  elim: q => [|q IH] Hq; first by rewrite big_ord0.
  rewrite big_ord_recr /=. have := Ht q Hq. have := IH (ltnW Hq). set x := bigop _ _ _. rewrite /GRing.add /=. lia.
split; first exact: P0.
elim: m Ht Hk {P0} => [|m IH] Ht Hk; first by (have -> : k = 0%N by lia); exact: Z.le_refl.
case: (ltnP m k) => [L|L]; first by (have -> : k = m.+1 by lia); exact: Z.le_refl.
rewrite [X in (_ <= X)%Z]big_ord_recr /=.
have H1 : (\sum_(l < k) t l <= \sum_(l < m) t l)%Z by apply: IH => // l Hl; apply: Ht; lia.
have := Ht m (ltnSn m). move: H1. set x := bigop _ _ _; set y := bigop _ _ _. rewrite /GRing.add /=. lia.
Qed.

Lemma dot_strict m (a b : nat -> Z) : (forall k, (k < m)%N -> (0 <= a k)%Z) -> (forall k, (k < m)%N -> (0 <= b k)%Z) ->
  (\sum_(k < m) a k * b k <= B)%Z -> dot S m a b = Ok (\sum_(k < m) a k * b k).
Proof.
move=> Ha Hb Hs; rewrite /dot.
have Hp l : (l < m)%N -> (0 <= a l * b l)%Z by move=> Hl; apply: Z.mul_nonneg_nonneg; [exact: Ha|exact: Hb].
rewrite (@for_states _ 0 m _ (fun k => \sum_(l < k) a l * b l)) //; first by lia.
  by rewrite big_ord0.
move=> k Hk /=. rewrite big_ord_recr /=.
have [X1 X2] : (0 <= \sum_(l < k) a l * b l <= \sum_(l < m) a l * b l)%Z by apply: (psum_mono (t := fun l => a l * b l)) => //; lia.
have [Y1 Y2] : (0 <= \sum_(l < k.+1) a l * b l <= \sum_(l < m) a l * b l)%Z by apply: (psum_mono (t := fun l => a l * b l)) => //; lia.
move: Y1 Y2; rewrite big_ord_recr /= => Y1 Y2.
have Hk' : (0 <= a k * b k)%Z by apply: Hp; lia.
rewrite chk_ok /=; last by move: X1 X2 Y1 Y2 Hs Hk'; rewrite /GRing.add /GRing.mul /=; lia.
by rewrite chk_ok //; move: X1 X2 Y1 Y2 Hs Hk'; rewrite /GRing.add /GRing.mul /=; lia.
Qed.

Lemma mult_strict n m p (X : 'M[Z]_(n, m)) (Y : 'M[Z]_(m, p)) : counts X -> counts Y -> counts (X *m Y) ->
  mult S n m p (mxrows X) (mxrows Y) = Ok (mxrows (X *m Y)).
Proof.
move=> HX HY HP. rewrite (mxrowsE Z0 X) (mxrowsE Z0 Y) (mxrowsE Z0 (X *m Y)) mult_tab.
apply: tabM_ok => i j /ssrnat.ltP Hi /ssrnat.ltP Hj.
rewrite -[i]/(val (Ordinal Hi)) -[j]/(val (Ordinal Hj)) mxf_ord.
have E : \sum_(k < m) mxf Z0 X (Ordinal Hi) k * mxf Z0 Y k (Ordinal Hj) = (X *m Y) (Ordinal Hi) (Ordinal Hj).
  by rewrite mxE; apply: eq_bigr => k _; rewrite !mxf_ord.
rewrite dot_strict ?E //.
- by move=> k Hk; rewrite -[k]/(val (Ordinal Hk)) mxf_ord; case: (HX (Ordinal Hi) (Ordinal Hk)).
- by move=> k Hk; rewrite -[k]/(val (Ordinal Hk)) mxf_ord; case: (HY (Ordinal Hk) (Ordinal Hj)).
- by case: (HP (Ordinal Hi) (Ordinal Hj)).
Qed.

Lemma eye_strict n : eye1 S n = Ok (mxrows (1%:M : 'M[Z]_n)).
Proof.
rewrite eye1_mk. congr Ok. symmetry. apply: mxrows_mk => i j. rewrite mxE eqbE.
by rewrite -val_eqE /=; case: (_ == _).
Qed.

Lemma pow_fuel_strict fuel n w (A : 'M[Z]_n) q : (Z.of_nat q < 2 ^ Z.of_nat fuel)%Z ->
  (forall k, (k <= q)%N -> counts (mxpow A k)) ->
  pow_fuel S fuel.+1 n w (mxrows A) (Z.of_nat q) = Ok (mxrows (mxpow A q)).
Proof.
elim: fuel w q => [|fuel IH] w q Hq HA.
  have -> : q = 0%N by move: Hq => /=; lia.
  by rewrite [pow_fuel _ _ _ _ _ _]/= eye_strict.
rewrite [pow_fuel _ _ _ _ _ _]/=.
case: q Hq HA => [|[|q]] Hq HA.
- by rewrite /= eye_strict.
- by rewrite /= mulmx1.
move: (q.+2) (isT : (1 < q.+2)%N) Hq HA => {}q Hq1 Hq HA.
have -> : (Z.of_nat q =? 0)%Z = false by lia.
have -> : (Z.of_nat q =? 1)%Z = false by lia.
have -> : (Z.of_nat q <? 0)%Z = false by lia.
rewrite [bind (Ok _) _]/= quot2 rem2.
have Hh : (Z.of_nat q./2 < 2 ^ Z.of_nat fuel)%Z by move: Hq; rewrite Nat2Z.inj_succ Z.pow_succ_r; lia.
have := IH (Z.max w 32) q./2 Hh; rewrite [pow_fuel _ fuel.+1 _ _ _ _]/= => -> /=; last by move=> k Hk; apply: HA; lia.
have A1 : counts A by have := HA 1%N (ltnW Hq1); rewrite mxpow1.
have M2 : mult S n n n (mxrows (mxpow A q./2)) (mxrows (mxpow A q./2)) = Ok (mxrows (mxpow A (q./2 + q./2))).
  by rewrite mxpowD mult_strict // -?mxpowD; apply: HA; lia.
rewrite /op_mult M2 /=. case O: (odd q) => /=; last by congr (Ok (mxrows (mxpow _ _))); lia.
rewrite mult_strict //.
- by rewrite -mxpowSr; congr (Ok (mxrows (mxpow _ _))); lia.
- by apply: HA; lia.
- by rewrite -mxpowSr; apply: HA; lia.
Qed.

Lemma pow_strict n w (A : 'M[Z]_n) q : (Z.of_nat q < 2 ^ (Z.max w 32))%Z -> (forall k, (k <= q)%N -> counts (mxpow A k)) ->
  pow S n w (mxrows A) (Z.of_nat q) = Ok (mxrows (mxpow A q)).
Proof.
move=> Hq HA; rewrite /pow.
have -> : (Z.to_nat (Z.max w 32) + 3 = (Z.to_nat (Z.max w 32) + 2).+1)%coq_nat by lia.
apply: pow_fuel_strict => //. apply: Z.lt_le_trans Hq _; apply: Z.pow_le_mono_r; lia.
Qed.

Lemma counts_within n m (A : 'M[Z]_(n, m)) : counts A -> within B (mxrows A).
Proof.
move=> HA. apply/List.Forall_forall => r. rewrite (mxrowsE Z0 A) /mk => /List.in_map_iff [i [<- /List.in_seq Hi]].
apply/List.Forall_forall => x /List.in_map_iff [j [<- /List.in_seq Hj]].
have Hi' : (i < n)%N by lia. have Hj' : (j < m)%N by lia.
rewrite -[i]/(val (Ordinal Hi')) -[j]/(val (Ordinal Hj')) mxf_ord. have := HA (Ordinal Hi') (Ordinal Hj'). lia.
Qed.
End Strict.

(** ** counting walks *)
Definition counted n (e : rel 'I_n) p : 'M[Z]_n := \matrix_(i, j) Z.of_nat (walks e p i j).

Lemma adj_in t n (e : rel 'I_n) : (1 < width t)%Z -> mx_in t (adj e).
Proof.
move=> Hw i j. have P : (2 <= 2 ^ (width t - 1))%Z by rewrite -{1}(Z.pow_1_r 2); apply: Z.pow_le_mono_r; lia.
have P2 : (2 ^ (width t - 1) <= 2 ^ width t)%Z by apply: Z.pow_le_mono_r; lia.
by rewrite mxE; apply/in_rangeP; rewrite /imin /imax; case: (sgn t); case: (e i j); lia.
Qed.

(** exact arithmetic: pow(A, p)[i][j] is the total weight of the walks of p steps from i to j *)
Theorem c97_weight (F : fieldType) (lt : F -> F -> bool) ab sq n w (A : 'M[F]_n) p : (1 <= w)%Z -> (Z.of_nat p < 2 ^ (w - 1))%Z ->
  pow (exactS lt ab sq) n w (mxrows A) (Z.of_nat p) = Ok (mxrows (\matrix_(i, j) weight A p i j)).
Proof.
move=> Hw Hp; rewrite (c25_pow lt ab sq A Hw Hp). congr (Ok (mxrows _)). by apply/matrixP => i j; rewrite mxE mxpow_weight.
Qed.

(** unsigned types: the number of walks modulo 2^w *)
Theorem c97_unsigned t n (e : rel 'I_n) w p : sgn t = false -> (32 <= width t)%Z -> (Z.of_nat p < 2 ^ (Z.max w 32))%Z ->
  pow (intS t) n w (mxrows (adj e)) (Z.of_nat p) = Ok (mxrows (\matrix_(i, j) (Z.of_nat (walks e p i j) mod 2 ^ width t)%Z)).
Proof.
move=> Hs Hw Hp; rewrite c15_pow //; last by apply: adj_in; lia.
congr (Ok (mxrows _)). by apply/matrixP => i j; rewrite mxpow_adj !mxE.
Qed.

(** signed types: exact as long as the numbers for p steps and for fewer fit *)
Theorem c97_signed t n (e : rel 'I_n) w p : sgn t = true -> (1 < width t <= 64)%Z -> (Z.of_nat p < 2 ^ (Z.max w 32))%Z ->
  (forall k i j, (k <= p)%N -> (Z.of_nat (walks e k i j) <= imax t)%Z) ->
  pow (intS t) n w (mxrows (adj e)) (Z.of_nat p) = Ok (mxrows (counted e p)).
Proof.
move=> Hs Hw Hp Hk.
have HB : (1 <= imax t <= imax t)%Z.
  have P : (2 <= 2 ^ (width t - 1))%Z by rewrite -{1}(Z.pow_1_r 2); apply: Z.pow_le_mono_r; lia.
  by rewrite /imax Hs; lia.
have HC k : (k <= p)%N -> counts (imax t) (mxpow (adj e) k) by move=> Hkp i j; rewrite mxpow_adj mxE; have := Hk k i j Hkp; lia.
have HA : within (imax t) (mxrows (adj e)).
  by apply: counts_within => i j; rewrite mxE; case: (e i j); lia.
have Hw' : (0 < width t <= 64)%Z by lia.
have Z0le : (Z.abs 0 <= imax t)%Z by lia.
have [_ [_ [_ [X _]]]] := @c70_int t (imax t) Hs Hw' HB n n w (mxrows (adj e)) 0%Z (Z.of_nat p) HA Z0le.
have [C [-> <-]] := X _ (pow_strict Hp HC). by rewrite mxpow_adj.
Qed.

(** and if there is a result at all it is the number of walks *)
Theorem c97_signed_only t n (e : rel 'I_n) w p C : sgn t = true -> (32 <= width t)%Z ->
  pow (intS t) n w (mxrows (adj e)) (Z.of_nat p) = Ok C ->
  C = mxrows (counted e p) /\ forall i j, (Z.of_nat (walks e p i j) <= imax t)%Z.
Proof.
move=> Hs Hw E. have HA : mx_in t (adj e) by apply: adj_in; lia.
have [-> H] := c16_pow Hs Hw HA E. rewrite mxpow_adj. split=> // i j.
by have := H i j; rewrite mxpow_adj mxE => /in_rangeP [].
Qed.

(** floating point: exact up to 2^prec walks *)
Theorem c97_float (prec emax : Z) (Hp : Prec_gt_0 prec) (He : Prec_lt_emax prec emax) n (e : rel 'I_n) w p A :
  (Z.of_nat p < 2 ^ (Z.max w 32))%Z -> (forall k i j, (k <= p)%N -> (Z.of_nat (walks e k i j) <= 2 ^ prec)%Z) ->
  mrel (@valued prec emax) (mxrows (adj e)) A ->
  exists C, pow (floatS prec emax) n w A (Z.of_nat p) = Ok C /\ mrel (@valued prec emax) (mxrows (counted e p)) C.
Proof.
move=> Hq Hk HA.
have HB : (1 <= 2 ^ prec <= 2 ^ prec)%Z by split; [apply: (Z.pow_le_mono_r 2 0); [|apply: Z.lt_le_incl; exact: Hp]|exact: Z.le_refl].
have HC k : (k <= p)%N -> counts (2 ^ prec) (mxpow (adj e) k) by move=> Hkp i j; rewrite mxpow_adj mxE; have := Hk k i j Hkp; lia.
have HW : within (2 ^ prec) (mxrows (adj e)).
  by apply: counts_within => i j; rewrite mxE; case: (e i j); lia.
have Z0le : (Z.abs 0 <= 2 ^ prec)%Z by lia.
have V0 : valued 0%Z (B754_zero false : binary_float prec emax) by [].
have [_ [_ [_ [X _]]]] := c70_float HB n n w (Z.of_nat p) HW Z0le HA V0.
have [C [E R]] := X _ (pow_strict Hq HC). exists C. split; first exact: E. by move: R; rewrite mxpow_adj.
Qed.

(** at most D^p walks of p steps if no vertex has more than D successors *)
Theorem c97_degree n (e : rel 'I_n) D p i j : (forall i, (#|[set k | e i k]| <= D)%N) -> (walks e p i j <= D ^ p)%N.
Proof.
move=> HD. elim: p i => [|p IH] i.
  rewrite /walks expn0. apply: leq_trans (max_card _) _. by rewrite card_tuple expn0.
have -> : walks e p.+1 i j = (\sum_(k | e i k) walks e p k j)%N.
  apply: Nat2Z.inj. rewrite -weight_adj weightS.
  rewrite (big_morph Z.of_nat (id1 := 0) (op1 := +%R)) //; last by move=> x y; rewrite Nat2Z.inj_add.
  rewrite [RHS]big_mkcond /=; apply: eq_bigr => k _. rewrite weight_adj mxE.
  by case: (e i k); rewrite ?mul1r ?mul0r.
apply: leq_trans (_ : \sum_(k | e i k) D ^ p <= _)%N; first by apply: leq_sum => k _; exact: IH.
rewrite sum_nat_const expnS leq_mul2r. apply/orP; right. by apply: leq_trans (HD i); rewrite cardsE.
Qed.

(** so a signed type never overflows while D^p fits *)
Corollary c97_degree_signed t n (e : rel 'I_n) D w p : sgn t = true -> (1 < width t <= 64)%Z -> (Z.of_nat p < 2 ^ (Z.max w 32))%Z ->
  (forall i, (#|[set k | e i k]| <= D)%N) -> (0 < D)%N -> (Z.of_nat (D ^ p) <= imax t)%Z ->
  pow (intS t) n w (mxrows (adj e)) (Z.of_nat p) = Ok (mxrows (counted e p)).
Proof.
move=> Hs Hw Hp HD D0 H. apply: c97_signed => // k i j Hk. apply: Z.le_trans H.
have := c97_degree k i j HD. have : (D ^ k <= D ^ p)%N by exact: leq_pexp2l. lia.
Qed.

(** ** linear recurrences *)
(** a (k+n) = c 0 * a k + ... + c (n-1) * a (k+n-1) *)
Definition recurrence (R : ringType) n (c : 'I_n -> R) (a : nat -> R) : Prop :=
  forall k, a (k + n)%N = \sum_(j < n) c j * a (k + j)%N.
(** ones above the diagonal, the coefficients in the last row *)
Definition companion (R : ringType) n (c : 'I_n -> R) : 'M[R]_n :=
  \matrix_(i, j) (if (i.+1 < n)%N then (j == i.+1 :> nat)%:R else c j).
(** a k, ..., a (k+n-1) as a column *)
Definition window (R : ringType) n (a : nat -> R) k : 'M[R]_(n, 1) := \matrix_(i, j) a (k + i)%N.

Lemma companion_step (R : ringType) n (c : 'I_n -> R) a k : recurrence c a ->
  companion c *m window n a k = window n a k.+1.
Proof.
move=> Ha. apply/matrixP => i j. rewrite !mxE.
case: (ltnP i.+1 n) => Hi.
  rewrite (bigD1 (Ordinal Hi)) //= !mxE Hi eqxx mul1r big1 ?addr0; first by rewrite addSnnS.
  move=> l Nl. rewrite !mxE Hi. have -> : (l == i.+1 :> nat) = false; last by rewrite mul0r.
  by apply: contraNF Nl => /eqP E; apply/eqP/val_inj.
have -> : (k.+1 + i = k + n)%N by have := ltn_ord i; lia.
rewrite Ha. apply: eq_bigr => l _. rewrite !mxE. by have -> : (i.+1 < n)%N = false by apply/negbTE; rewrite -leqNgt.
Qed.

Lemma companion_pow (R : ringType) n (c : 'I_n -> R) a p : recurrence c a ->
  mxpow (companion c) p *m window n a 0 = window n a p.
Proof.
move=> Ha. elim: p => [|p IH]; first by rewrite mul1mx.
by rewrite /= -mulmxA IH companion_step.
Qed.

Theorem c97_recurrence (F : fieldType) (lt : F -> F -> bool) ab sq n w (c : 'I_n -> F) a p : recurrence c a ->
  (1 <= w)%Z -> (Z.of_nat p < 2 ^ (w - 1))%Z ->
  (let* X := pow (exactS lt ab sq) n w (mxrows (companion c)) (Z.of_nat p) in
   mult (exactS lt ab sq) n n 1 X (mxrows (window n a 0))) = Ok (mxrows (window n a p)).
Proof.
move=> Ha Hw Hp. rewrite (c25_pow lt ab sq _ Hw Hp) /=. by rewrite mult_mx companion_pow.
Qed.

(** unsigned types: the terms modulo 2^w *)
Theorem c97_recurrence_unsigned t n w (c : 'I_n -> Z) a p : sgn t = false -> (32 <= width t)%Z ->
  recurrence c a -> mx_in t (companion c) -> mx_in t (window n a 0) -> (Z.of_nat p < 2 ^ (Z.max w 32))%Z ->
  (let* X := pow (intS t) n w (mxrows (companion c)) (Z.of_nat p) in
   mult (intS t) n n 1 X (mxrows (window n a 0))) = Ok (mxrows (window n (fun k => (a k mod 2 ^ width t)%Z) p)).
Proof.
move=> Hs Hw Ha HC H0 Hp. have Hw0 : (0 < width t)%Z by lia.
rewrite c15_pow // [bind _ _]/=.
have HX : mx_in t (map_mx (fun z => (z mod 2 ^ width t)%Z) (mxpow (companion c) p)).
  move=> i j; rewrite mxE; apply/in_rangeP; rewrite /imin /imax Hs.
  have [P1 P2] := Z.mod_pos_bound (mxpow (companion c) p i j) (2 ^ width t) (pow2_gt0 (Z.lt_le_incl _ _ Hw0)).
  split; first exact: P1. move: P2; set u := (_ mod _)%Z => P2; have : (u < 2 ^ width t)%Z by exact: P2. lia.
have E1 := c15_pow Hs Hw Hp HC.
have R1 := pow_sim (sim_cong Hw0) (relM_in Hw0 HC) E1.
have E2 := c15_mult Hs Hw HX H0. rewrite E2. congr Ok.
have R2 := mult_sim (sim_cong Hw0) R1 (relM_in Hw0 H0) E2.
rewrite (relM_out R2) (iconv_unsigned Hs) companion_pow //. congr mxrows. by apply/matrixP => i j; rewrite !mxE.
Qed.

(** ** the Fibonacci numbers *)
Fixpoint fib (k : nat) : Z :=
  if k is k1.+1 then (if k1 is k2.+1 then (fib k1 + fib k2)%Z else 1%Z) else 0%Z.

Definition fibm : matrix Z := [:: [:: 1; 1]; [:: 1; 0]]%Z.
Definition fibs (p : nat) : matrix Z := [:: [:: fib p.+2; fib p.+1]; [:: fib p.+1; fib p]].
Definition fibM : 'M[Z]_2 := \matrix_(i, j) (if (i == 1%N :> nat) && (j == 1%N :> nat) then 0 else 1)%Z.
Definition fibsM (p : nat) : 'M[Z]_2 :=
  \matrix_(i, j) (if (i == 0%N :> nat) && (j == 0%N :> nat) then fib p.+2
                  else if (i == 1%N :> nat) && (j == 1%N :> nat) then fib p else fib p.+1).

Lemma fibS k : fib k.+2 = (fib k.+1 + fib k)%Z. Proof. by []. Qed.

Lemma rows2 (f : nat -> nat -> Z) (A : 'M[Z]_2) : (forall i j, A i j = f i j) ->
  mxrows A = [:: [:: f 0%N 0%N; f 0%N 1%N]; [:: f 1%N 0%N; f 1%N 1%N]].
Proof. by move=> H; rewrite (mxrows_mk (f := f)). Qed.

Lemma fibM_rows : mxrows fibM = fibm.
Proof. by rewrite (rows2 (f := fun i j => if (i == 1%N) && (j == 1%N) then 0 else 1)%Z) // => i j; rewrite mxE. Qed.

Lemma fibsM_rows p : mxrows (fibsM p) = fibs p.
Proof.
by rewrite (rows2 (f := fun i j => if (i == 0%N) && (j == 0%N) then fib p.+2 else
  if (i == 1%N) && (j == 1%N) then fib p else fib p.+1)) // => i j; rewrite mxE.
Qed.

Lemma fib_pow p : mxpow fibM p.+1 = fibsM p.
Proof.
elim: p => [|p IH].
  rewrite mxpow1. by apply/matrixP => i j; rewrite !mxE; case: i => [[|[|i]] Hi] //; case: j => [[|[|j]] Hj].
rewrite [mxpow _ _]/= -[_ *m mxpow _ _]/(mxpow fibM p.+1) IH. apply/matrixP => i j. rewrite !mxE !big_ord_recl big_ord0 !mxE.
by case: i => [[|[|i]] Hi] //; case: j => [[|[|j]] Hj] //; rewrite /= ?mul1r ?mul0r ?add0r ?addr0 ?fibS.
Qed.

Lemma fib_nonneg k : (0 <= fib k)%Z /\ (0 <= fib k.+1)%Z.
Proof. by elim: k => [//|k [I1 I2]]; split=> //; rewrite fibS; lia. Qed.

Lemma fib_mono k l : (k <= l)%N -> (0 < k)%N -> (fib k <= fib l)%Z.
Proof.
move=> H K0. elim: l H => [|l IH] H; first by lia.
case: (ltnP l k) => [L|L]; first by (have -> : k = l.+1 by lia); exact: Z.le_refl.
apply: Z.le_trans (IH L) _. case: l L H {IH} => [|l] L H; first by lia.
rewrite fibS. have := fib_nonneg l. lia.
Qed.

Fixpoint fib2 (k : nat) : Z * Z := if k is k'.+1 then let: (a, b) := fib2 k' in (b, (a + b)%Z) else (0, 1)%Z.
Lemma fib2E k : fib2 k = (fib k, fib k.+1).
Proof. by elim: k => [//|k IH]; rewrite [fib2 _]/= IH fibS; congr pair; lia. Qed.

Lemma fib_counts B p : (1 <= B)%Z -> (fib p.+1 <= B)%Z -> forall k, (k <= p)%N -> counts B (mxpow fibM k).
Proof.
move=> HB H [|k] Hk i j.
  by rewrite /= mxE; case: (i == j); rewrite /=; lia.
rewrite fib_pow mxE.
have M l : (0 < l)%N -> (l <= p.+1)%N -> (0 <= fib l <= B)%Z.
  move=> L0 L1. have := fib_mono L1 L0. have := fib_nonneg l. lia.
have X : (0 <= fib k <= B)%Z by case: k Hk => [|k] Hk; [rewrite /=; lia | apply: M; lia].
by case: ifP => _; [apply: M; lia|]; case: ifP => _ //; apply: M; lia.
Qed.

(** unsigned types: modulo 2^w, for every exponent *)
Theorem c97_fib_unsigned t w p : sgn t = false -> (32 <= width t)%Z -> (Z.of_nat p.+1 < 2 ^ (Z.max w 32))%Z ->
  pow (intS t) 2 w fibm (Z.of_nat p.+1) = Ok (map (map (fun z => z mod 2 ^ width t)%Z) (fibs p)).
Proof.
move=> Hs Hw Hp. rewrite -fibM_rows c15_pow //.
  rewrite fib_pow. congr Ok. rewrite (rows2 (f := fun i j => (if (i == 0%N) && (j == 0%N) then fib p.+2 else
  if (i == 1%N) && (j == 1%N) then fib p else fib p.+1) mod 2 ^ width t)%Z) //. by move=> i j; rewrite !mxE.
move=> i j; rewrite mxE; apply/in_rangeP; rewrite /imin /imax Hs.
have P2 : (2 ^ 1 <= 2 ^ width t)%Z by apply: Z.pow_le_mono_r; lia.
by case: ifP; lia.
Qed.

(** signed types: exact while the largest number fits, and never afterwards *)
Theorem c97_fib_signed t w p : sgn t = true -> (32 <= width t <= 64)%Z -> (Z.of_nat p.+1 < 2 ^ (Z.max w 32))%Z ->
  ((fib p.+2 <= imax t)%Z -> pow (intS t) 2 w fibm (Z.of_nat p.+1) = Ok (fibs p)) /\
  ((imax t < fib p.+2)%Z -> forall C, pow (intS t) 2 w fibm (Z.of_nat p.+1) <> Ok C).
Proof.
move=> Hs Hw Hp.
have HI : (1 <= imax t)%Z.
  have P : (2 ^ 1 <= 2 ^ (width t - 1))%Z by apply: Z.pow_le_mono_r; lia.
  by rewrite /imax Hs; lia.
rewrite -fibM_rows; split=> [H|H C E].
- have HB : (1 <= imax t <= imax t)%Z by lia.
  have HC := fib_counts HI H.
  have HA : within (imax t) (mxrows fibM) by apply: counts_within; have := HC 1%N isT; rewrite mxpow1.
  have Hw' : (0 < width t <= 64)%Z by lia.
  have Z0le : (Z.abs 0 <= imax t)%Z by lia.
  have [_ [_ [_ [X _]]]] := @c70_int t (imax t) Hs Hw' HB 2 2 w (mxrows fibM) 0%Z (Z.of_nat p.+1) HA Z0le.
  have [C [-> <-]] := X _ (pow_strict Hp HC). by rewrite fib_pow fibsM_rows.
have Hw' : (32 <= width t)%Z by lia.
have HA : mx_in t fibM.
  move=> i j; rewrite mxE; apply/in_rangeP; have : (imin t = - imax t - 1)%Z by rewrite /imin /imax Hs; lia.
  by case: ifP; lia.
have [_ HM] := c16_pow Hs Hw' HA E.
have := HM ord0 ord0. rewrite fib_pow mxE => /in_rangeP [_] /=. rewrite -/(fib p.+2). lia.
Qed.

Lemma fib_le k B l : ((fib2 k).1 <=? B)%Z = true -> (0 < l)%N -> (l <= k)%N -> (fib l <= B)%Z.
Proof. by rewrite fib2E => /Z.leb_le H L0 L; apply: Z.le_trans H; apply: fib_mono. Qed.
Lemma fib_gt k B l : (B <? (fib2 k).1)%Z = true -> (0 < k)%N -> (k <= l)%N -> (B < fib l)%Z.
Proof. by rewrite fib2E => /Z.ltb_lt H L0 L; apply: Z.lt_le_trans H _; apply: fib_mono. Qed.

(** int: up to the exponent 45 and no further; long long: up to 91 *)
Theorem c97_fib_int w p : (Z.of_nat p.+1 < 2 ^ (Z.max w 32))%Z ->
  ((p.+1 <= 45)%N -> pow (intS int32) 2 w fibm (Z.of_nat p.+1) = Ok (fibs p)) /\
  ((45 < p.+1)%N -> forall C, pow (intS int32) 2 w fibm (Z.of_nat p.+1) <> Ok C) /\
  ((p.+1 <= 91)%N -> pow (intS int64) 2 w fibm (Z.of_nat p.+1) = Ok (fibs p)) /\
  ((91 < p.+1)%N -> forall C, pow (intS int64) 2 w fibm (Z.of_nat p.+1) <> Ok C).
Proof.
move=> Hp.
have Hp2 : (32 <= 32 <= 64)%Z by []. have Hp3 : (32 <= 64 <= 64)%Z by [].
have [X1 X2] := @c97_fib_signed int32 w p erefl Hp2 Hp.
have [Y1 Y2] := @c97_fib_signed int64 w p erefl Hp3 Hp.
split; [|split; [|split]] => H.
- by apply: X1; apply: (@fib_le 46) => //; vm_compute.
- by apply: X2; apply: (@fib_gt 47) => //; vm_compute.
- by apply: Y1; apply: (@fib_le 92) => //; vm_compute.
by apply: Y2; apply: (@fib_gt 93) => //; vm_compute.
Qed.

(** floating point: exact while the largest number is at most 2^prec *)
Theorem c97_fib_float (prec emax : Z) (Hp : Prec_gt_0 prec) (He : Prec_lt_emax prec emax) w p A :
  (Z.of_nat p.+1 < 2 ^ (Z.max w 32))%Z -> (fib p.+2 <= 2 ^ prec)%Z -> mrel (@valued prec emax) fibm A ->
  exists C, pow (floatS prec emax) 2 w A (Z.of_nat p.+1) = Ok C /\ mrel (@valued prec emax) (fibs p) C.
Proof.
move=> Hq H; rewrite -fibM_rows => HA.
have HB : (1 <= 2 ^ prec <= 2 ^ prec)%Z by split; [apply: (Z.pow_le_mono_r 2 0); [|apply: Z.lt_le_incl; exact: Hp]|exact: Z.le_refl].
have HC := fib_counts (proj1 HB) H.
have HW : within (2 ^ prec) (mxrows fibM) by apply: counts_within; have := HC 1%N isT; rewrite mxpow1.
have Z0le : (Z.abs 0 <= 2 ^ prec)%Z by lia.
have V0 : valued 0%Z (B754_zero false : binary_float prec emax) by [].
have [_ [_ [_ [X _]]]] := c70_float HB 2 2 w (Z.of_nat p.+1) HW Z0le HA V0.
have [C [E R]] := X _ (pow_strict Hq HC). exists C. split; first exact: E. by move: R; rewrite fib_pow fibsM_rows.
Qed.

(** double: up to the exponent 77; float: up to 35 *)
Corollary c97_fib_double w p A : (Z.of_nat p.+1 < 2 ^ (Z.max w 32))%Z -> (p.+1 <= 77)%N -> mrel (@valued 53 1024) fibm A ->
  exists C, pow (floatS 53 1024) 2 w A (Z.of_nat p.+1) = Ok C /\ mrel (@valued 53 1024) (fibs p) C.
Proof.
move=> Hp Hq; apply: c97_fib_float => //. by apply: (@fib_le 78) => //; vm_compute.
Qed.

Corollary c97_fib_single w p A : (Z.of_nat p.+1 < 2 ^ (Z.max w 32))%Z -> (p.+1 <= 35)%N -> mrel (@valued 24 128) fibm A ->
  exists C, pow (floatS 24 128) 2 w A (Z.of_nat p.+1) = Ok C /\ mrel (@valued 24 128) (fibs p) C.
Proof.
move=> Hp Hq; apply: c97_fib_float => //. by apply: (@fib_le 36) => //; vm_compute.
Qed.

(** ** examples *)
(** the directed cycle of three vertices with a loop at 0 *)
Definition cyc : rel 'I_3 := fun i j => (j == (i.+1 %% 3)%N :> nat) || ((i == 0%N :> nat) && (j == 0%N :> nat)).

Example c97_cyc : mxrows (adj cyc) = [:: [:: 1; 1; 0]; [:: 0; 0; 1]; [:: 1; 0; 0]]%Z.
Proof.
by rewrite (mxrows_mk (f := fun i j => if (j == (i.+1 %% 3)%N) || ((i == 0%N) && (j == 0%N)) then 1%Z else 0%Z)) // => i j; rewrite mxE.
Qed.

Example c97_cyc_pow : pow (intS int32) 3 32 [:: [:: 1; 1; 0]; [:: 0; 0; 1]; [:: 1; 0; 0]]%Z 7 =
  Ok [:: [:: 9; 6; 4]; [:: 4; 3; 2]; [:: 6; 4; 3]]%Z.
Proof. by vm_compute. Qed.

(** so there are nine closed walks of seven steps at 0 *)
Example c97_cyc_walks : walks cyc 7 ord0 ord0 = 9%N.
Proof.
have P : pow (intS int32) 3 32 (mxrows (adj cyc)) (Z.of_nat 7) = Ok [:: [:: 9; 6; 4]; [:: 4; 3; 2]; [:: 6; 4; 3]]%Z.
  by rewrite c97_cyc; exact: c97_cyc_pow.
have Hs : sgn int32 = true by [].
have [] := c97_signed_only Hs (Z.le_refl 32) P. rewrite (mxrowsE 0%Z) => E _.
have : mxf 0%Z (counted cyc 7) 0%N 0%N = 9%Z by exact: (esym (f_equal (fun M : matrix Z => nth 0%Z (nth [::] M 0) 0) E)).
rewrite (mxf_ord 0%Z (counted cyc 7) ord0 ord0) mxE. lia.
Qed.

(** a recurrence of order three, a (k+3) = a k + 2 * a (k+2), for unsigned int *)
Example c97_rec_ex :
  (let* X := pow (intS uint32) 3 32 [:: [:: 0; 1; 0]; [:: 0; 0; 1]; [:: 1; 0; 2]]%Z 10 in
   mult (intS uint32) 3 3 1 X [:: [:: 1]; [:: 1]; [:: 1]]%Z) = Ok [:: [:: 783]; [:: 1727]; [:: 3809]]%Z.
Proof. by vm_compute. Qed.

Example c97_fib_ex : pow (intS int32) 2 32 fibm 45 = Ok [:: [:: 1836311903; 1134903170]; [:: 1134903170; 701408733]]%Z.
Proof. by vm_compute. Qed.
Example c97_fib_over : forall C, pow (intS int32) 2 32 fibm 46 <> Ok C.
Proof. by move=> C; vm_compute. Qed.

Print Assumptions c97_weight.
Print Assumptions c97_signed.
Print Assumptions c97_float.
Print Assumptions c97_recurrence_unsigned.
Print Assumptions c97_fib_int.
Print Assumptions c97_fib_double.
