(** * The convolutions in exact arithmetic *)

From Coq Require Import ZArith List Lia.
From mathcomp Require Import all_ssreflect all_algebra.
From mathcomp Require Import zify.
From Verif Require Import Base Scalar Model Spec Loops Struct Conv Exact ExactLemmas Alg Det.

Set Implicit Arguments.
Unset Strict Implicit.
Unset Printing Implicit Defensive.

Import GRing.Theory.
Local Open Scope ring_scope.
Delimit Scope Z_scope with Z.

Section At.
Variables (R : ringType) (n m : nat).
Implicit Types A B : 'M[R]_(n, m).

Lemma at0E A p q : at0 A p q =
  if inside n m p q then mxf 0 A (Z.to_nat p) (Z.to_nat q) else 0.
Proof.
rewrite /at0 /inside /mxf.
case: Z.leb_spec => Hp //=; case: Z.leb_spec => Hq //=; rewrite ?andbF //=.
case: Z.ltb_spec => Hn /=; [case: Z.ltb_spec => Hm //=|].
- have -> : insub (Z.to_nat q) = None :> option 'I_m by apply: insubF; lia.
  by case: insub.
- have -> // : insub (Z.to_nat p) = None :> option 'I_n by apply: insubF; lia.
Qed.

Lemma at0_in A (i : 'I_n) (j : 'I_m) : at0 A (pos i) (pos j) = A i j.
Proof.
rewrite at0E /pos !Nat2Z.id mxf_ord; have -> // : inside n m (Z.of_nat i) (Z.of_nat j) = true.
have := ltn_ord i; have := ltn_ord j; rewrite /inside; lia.
Qed.

Lemma at0_out A p q : ~~ inside n m p q -> at0 A p q = 0.
Proof. by rewrite at0E => /negbTE ->. Qed.

Lemma at0_add A B p q : at0 (A + B) p q = at0 A p q + at0 B p q.
Proof.
rewrite /at0; case: ifP => _; last by rewrite addr0.
by case: insub => [i|]; rewrite ?addr0 //; case: insub => [j|]; rewrite ?addr0 // mxE.
Qed.

Lemma at0_scale s A p q : at0 (s *: A) p q = s * at0 A p q.
Proof.
rewrite /at0; case: ifP => _; last by rewrite mulr0.
by case: insub => [i|]; rewrite ?mulr0 //; case: insub => [j|]; rewrite ?mulr0 // mxE.
Qed.

(** a matrix with a single 1 *)
Lemma at0_delta (i : 'I_n) (j : 'I_m) p q :
  at0 (delta_mx i j : 'M[R]_(n, m)) p q = ((p =? pos i)%Z && (q =? pos j)%Z)%:R.
Proof.
rewrite at0E; case: ifP => H.
  have [Hp Hq] : (Z.to_nat p < n)%N /\ (Z.to_nat q < m)%N by move: H; rewrite /inside; lia.
  have -> : Z.to_nat p = Ordinal Hp by []. have -> : Z.to_nat q = Ordinal Hq by [].
  rewrite mxf_ord mxE -!val_eqE /=; congr (_ _); rewrite /pos; move: H; rewrite /inside => H.
  by congr (_ && _); (apply/idP/idP => [/eqP E|/Z.eqb_spec E]; [apply/Z.eqb_spec|apply/eqP]); lia.
have -> // : (p =? pos i)%Z && (q =? pos j)%Z = false.
apply/negP => /andP[/Z.eqb_spec E1 /Z.eqb_spec E2]; move: H; rewrite /inside E1 E2 /pos.
have := ltn_ord i; have := ltn_ord j; lia.
Qed.

Lemma octave_correlation A (k : 'M[R]_3) r c :
  correlation A k r c = octave A (rot180 k) (r + 1)%Z (c + 1)%Z.
Proof.
rewrite /correlation /octave (reindex_inj rev_ord_inj); apply: eq_bigr => a _.
rewrite (reindex_inj rev_ord_inj); apply: eq_bigr => b _; rewrite mxE.
by congr (_ * at0 _ _ _); rewrite /pos /=; have := ltn_ord a; have := ltn_ord b; lia.
Qed.

Lemma rot180K : involutive (@rot180 R).
Proof. by move=> k; apply/matrixP => a b; rewrite !mxE !rev_ordK. Qed.
End At.

Section Conv.
Variables (R : unitRingType) (lt : R -> R -> bool) (ab : R -> R) (sq : R -> outcome R).
Notation K := (exactS lt ab sq).
Variables (n m : nat).
Implicit Types (A B : 'M[R]_(n, m)) (k : 'M[R]_3).

Lemma corr_mx A k p q :
  corr K n m (mxf 0 A) (mxf 0 k) p q = Ok (correlation A k p q).
Proof.
have step c (a b : 'I_3) : corr_step K n m (mxf 0 A) (mxf 0 k) p q c (val a, val b) =
    Ok (c + k a b * at0 A (p + pos a - 1)%Z (q + pos b - 1)%Z).
  rewrite /corr_step /= at0E /pos mxf_ord; case: ifP => _ //=; by rewrite mulr0 addr0.
pose o0 : 'I_3 := ord0; pose o1 : 'I_3 := lift ord0 ord0; pose o2 : 'I_3 := lift ord0 (lift ord0 ord0).
rewrite corr_unfold /=.
rewrite (step _ o0 o0) /= (step _ o0 o1) /= (step _ o0 o2) /= (step _ o1 o0) /= (step _ o1 o1) /=
  (step _ o1 o2) /= (step _ o2 o0) /= (step _ o2 o1) /= (step _ o2 o2).
by congr Ok; rewrite /correlation !big_ord_recl !big_ord0 !addr0 !add0r !addrA.
Qed.

Hypothesis Hn : (Z.of_nat n <= 2 ^ 31)%Z.
Hypothesis Hm : (Z.of_nat m <= 2 ^ 31)%Z.

Lemma conv2_correlation A k : conv2 K n m (mxrows A) (mxrows k) =
  Ok (mxrows (\matrix_(r < n, c < m) correlation A k (pos r) (pos c))).
Proof.
rewrite (mxrowsE 0 A) (mxrowsE 0 k) conv2_tab //.
by apply: tabM_mx => i j; rewrite corr_mx mxE.
Qed.

Lemma conv2_full_correlation A k : conv2_full K n m (mxrows A) (mxrows k) =
  Ok (mxrows (\matrix_(r < n + 2, c < m + 2) correlation A k (pos r - 1)%Z (pos c - 1)%Z)).
Proof.
rewrite (mxrowsE 0 A) (mxrowsE 0 k) conv2_full_tab //.
by apply: tabM_mx => i j; rewrite corr_mx mxE.
Qed.

Lemma conv2_mx A k :
  conv2 K n m (mxrows A) (mxrows k) = Ok (mxrows (octave_same A (rot180 k))).
Proof.
rewrite conv2_correlation; congr (Ok (mxrows _)); apply/matrixP => i j.
by rewrite !mxE octave_correlation.
Qed.

Lemma conv2_full_mx A k :
  conv2_full K n m (mxrows A) (mxrows k) = Ok (mxrows (octave_full A (rot180 k))).
Proof.
rewrite conv2_full_correlation; congr (Ok (mxrows _)); apply/matrixP => i j.
by rewrite !mxE octave_correlation; congr octave; lia.
Qed.

(** equality with Octave's conv2 on all inputs forces an invariant kernel *)
Lemma octave_same_inj k k' : (1 < n)%N -> (1 < m)%N ->
  (forall A, octave_same A k = octave_same A k') -> k = k'.
Proof.
move=> Hn1 Hm1 H; apply/matrixP => a b.
have [p [r [Hp [Hr E]]]] : exists p r : nat, (p < n)%N /\ (r < n)%N /\ (r + 1 = p + a)%N.
  case: a => [[|[|[|a]]] Ha] //=.
  - by exists 1%N, 0%N; split; [lia|split; lia].
  - by exists 0%N, 0%N; split; [lia|split; lia].
  - by exists 0%N, 1%N; split; [lia|split; lia].
have [q [c [Hq [Hc E']]]] : exists q c : nat, (q < m)%N /\ (c < m)%N /\ (c + 1 = q + b)%N.
  case: b => [[|[|[|b]]] Hb] //=.
  - by exists 1%N, 0%N; split; [lia|split; lia].
  - by exists 0%N, 0%N; split; [lia|split; lia].
  - by exists 0%N, 1%N; split; [lia|split; lia].
have key k0 : octave_same (delta_mx (Ordinal Hp) (Ordinal Hq) : 'M[R]_(n,m)) k0 (Ordinal Hr) (Ordinal Hc) = k0 a b.
  rewrite mxE /octave (bigD1 a) //= (bigD1 b) //= at0_delta /pos /=.
  have -> : (Z.of_nat r + 1 - Z.of_nat a =? Z.of_nat p)%Z && (Z.of_nat c + 1 - Z.of_nat b =? Z.of_nat q)%Z.
    by apply/andP; split; apply/Z.eqb_spec; lia.
  rewrite mulr1 !big1 ?addr0 //.
    move=> a' Ha'; rewrite big1 // => b' _; rewrite at0_delta /pos /=.
    have -> : (Z.of_nat r + 1 - Z.of_nat a' =? Z.of_nat p)%Z = false.
      by apply/negP => /Z.eqb_spec E2; case/eqP: Ha'; apply: val_inj => /=; lia.
    by rewrite mulr0.
  move=> b' Hb'; rewrite at0_delta /pos /=.
  have -> : (Z.of_nat c + 1 - Z.of_nat b' =? Z.of_nat q)%Z = false.
    by apply/negP => /Z.eqb_spec E2; case/eqP: Hb'; apply: val_inj => /=; lia.
  by rewrite andbF mulr0.
by rewrite -(key k) -(key k') H.
Qed.

Lemma conv2_octave_iff k : (1 < n)%N -> (1 < m)%N ->
  (forall A, conv2 K n m (mxrows A) (mxrows k) = Ok (mxrows (octave_same A k))) <-> rot180 k = k.
Proof.
move=> Hn1 Hm1; split=> [H|E A]; last by rewrite conv2_mx E.
apply: octave_same_inj => // A; have := H A; rewrite conv2_mx => [[E]]; apply: (@mxrows_inj _ n m 0); exact: E.
Qed.
End Conv.

Section Valid.
Variables (R : unitRingType) (lt : R -> R -> bool) (ab : R -> R) (sq : R -> outcome R).
Notation K := (exactS lt ab sq).
Variable (n : nat).
Hypothesis Hn : (Z.of_nat n <= 2 ^ 31)%Z.

Lemma conv2_valid_mx (A : 'M[R]_n) (k : 'M[R]_3) : (1 < n)%N ->
  conv2_valid K n (mxrows A) (mxrows k) = Ok (mxrows (octave_valid A (rot180 k))).
Proof.
move=> H2.
have E : conv2 K n n (mk n n (mxf 0 A)) (mk 3 3 (mxf 0 k)) =
    Ok (mk n n (fun r c => octave A (rot180 k) (Z.of_nat r + 1) (Z.of_nat c + 1))).
  rewrite -!mxrowsE conv2_mx //; congr Ok; apply: mxrows_mk => i j; by rewrite mxE.
rewrite (mxrowsE 0 A) (mxrowsE 0 k) (conv2_valid_tab _ _ _ _ _ Hn _ E); last exact/leP.
congr Ok; symmetry; apply: mxrows_mk => i j; rewrite mxE /pos.
by congr octave; lia.
Qed.

(** where the valid part reads, the kernel lies inside the matrix *)
Lemma valid_inside (r c : nat) (a b : 'I_3) : (r < n - 2)%N -> (c < n - 2)%N ->
  inside n n (Z.of_nat r + 2 - pos a)%Z (Z.of_nat c + 2 - pos b)%Z.
Proof. by move=> Hr Hc; rewrite /inside /pos; have := ltn_ord a; have := ltn_ord b; lia. Qed.

Lemma conv2_valid_inside (A : 'M[R]_n) (k : 'M[R]_3) : (1 < n)%N ->
  conv2_valid K n (mxrows A) (mxrows k) =
  Ok (mxrows (\matrix_(r < n - 2, c < n - 2) \sum_(a < 3) \sum_(b < 3)
    k a b * mxf 0 A (r + a) (c + b))).
Proof.
move=> H2; rewrite conv2_valid_mx //; congr (Ok (mxrows _)); apply/matrixP => r c; rewrite !mxE.
rewrite /octave (reindex_inj rev_ord_inj); apply: eq_bigr => a _.
rewrite (reindex_inj rev_ord_inj); apply: eq_bigr => b _; rewrite mxE !rev_ordK at0E.
have := ltn_ord r; have := ltn_ord c; have := ltn_ord a; have := ltn_ord b => Hb Ha Hc Hr.
rewrite ifT; last by rewrite /inside /pos /=; lia.
by congr (_ * mxf 0 A _ _); rewrite /pos /=; lia.
Qed.
End Valid.

(** ** linearity *)
Section Linear.
Variables (R : comRingType) (n m : nat).
Implicit Types (A B : 'M[R]_(n, m)) (k : 'M[R]_3).

Lemma correlation_add A B k r c : correlation (A + B) k r c = correlation A k r c + correlation B k r c.
Proof.
rewrite /correlation -big_split; apply: eq_bigr => a _; rewrite -big_split; apply: eq_bigr => b _.
by rewrite at0_add mulrDr.
Qed.
Lemma correlation_scale s A k r c : correlation (s *: A) k r c = s * correlation A k r c.
Proof.
rewrite /correlation mulr_sumr; apply: eq_bigr => a _; rewrite mulr_sumr; apply: eq_bigr => b _.
by rewrite at0_scale mulrCA.
Qed.
Lemma correlation_kadd A k k' r c : correlation A (k + k') r c = correlation A k r c + correlation A k' r c.
Proof.
rewrite /correlation -big_split; apply: eq_bigr => a _; rewrite -big_split; apply: eq_bigr => b _.
by rewrite mxE mulrDl.
Qed.
Lemma correlation_kscale s A k r c : correlation A (s *: k) r c = s * correlation A k r c.
Proof.
rewrite /correlation mulr_sumr; apply: eq_bigr => a _; rewrite mulr_sumr; apply: eq_bigr => b _.
by rewrite mxE mulrA.
Qed.

(** the kernel with a single 1 in the centre *)
Definition centre : 'M[R]_3 := delta_mx (lift ord0 ord0) (lift ord0 ord0).

Lemma correlation_centre A (r : 'I_n) (c : 'I_m) : correlation A centre (pos r) (pos c) = A r c.
Proof.
rewrite /correlation (bigD1 (lift ord0 ord0)) //= (bigD1 (lift ord0 ord0)) //= !big1.
- rewrite !addr0 mxE !eqxx mul1r -at0_in; congr at0; rewrite /pos /=; lia.
- by move=> a Ha; rewrite big1 // => b _; rewrite mxE (negbTE Ha) mul0r.
- by move=> b Hb; rewrite mxE (negbTE Hb) andbF mul0r.
Qed.
End Linear.
