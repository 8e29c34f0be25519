(** * Property C90: laws of the convolutions

    Exact arithmetic over any commutative ring: totals, order of two kernels,
    separable kernels, padding by zeros; over an ordered field: smoothing kernels. *)

From Coq Require Import ZArith List Lia.
From mathcomp Require Import all_ssreflect all_algebra.
From mathcomp Require Import zify ssrZ.
From Verif Require Import Base Scalar Model CInt Spec Loops Struct Conv Exact ExactLemmas Alg Det ConvExact PropAlg PropRearr PropBlockExact.

Set Implicit Arguments.
Unset Strict Implicit.
Unset Printing Implicit Defensive.

Import GRing.Theory Num.Theory.
Local Open Scope ring_scope.
Delimit Scope Z_scope with Z.

(** ** Elements at integer positions *)
Section At.
Variables (R : ringType).

Lemma inside_ord n m (r : 'I_n) (c : 'I_m) : inside n m (pos r) (pos c).
Proof. rewrite /inside /pos; have := ltn_ord r; have := ltn_ord c; lia. Qed.

Lemma at0_tab n m (g : Z -> Z -> R) p q :
  at0 (\matrix_(r < n, c < m) g (pos r) (pos c)) p q = if inside n m p q then g p q else 0.
Proof.
  rewrite at0E; case: ifP => // H.
  have [Hp Hq] : (Z.to_nat p < n)%N /\ (Z.to_nat q < m)%N by move: H; rewrite /inside; lia.
  rewrite -[Z.to_nat p]/(nat_of_ord (Ordinal Hp)) -[Z.to_nat q]/(nat_of_ord (Ordinal Hq)) mxf_ord mxE /pos /=.
  by congr g; move: H; rewrite /inside; lia.
Qed.

Lemma at0_eq n m (A B : 'M[R]_(n, m)) : (forall p q, at0 A p q = at0 B p q) -> A = B.
Proof. by move=> H; apply/matrixP => i j; rewrite -!at0_in. Qed.

Definition full n m (A : 'M[R]_(n, m)) (k : 'M[R]_3) : 'M[R]_(n + 2, m + 2) :=
  \matrix_(r, c) correlation A k (pos r - 1)%Z (pos c - 1)%Z.
Definition same n m (A : 'M[R]_(n, m)) (k : 'M[R]_3) : 'M[R]_(n, m) :=
  \matrix_(r, c) correlation A k (pos r) (pos c).

Lemma at0_full n m (A : 'M[R]_(n, m)) k p q : at0 (full A k) p q = correlation A k (p - 1) (q - 1).
Proof.
  rewrite /full (at0_tab _ _ (fun p q => correlation A k (p - 1)%Z (q - 1)%Z)); case: ifP => // H.
  rewrite /correlation big1 // => a _; rewrite big1 // => b _; rewrite at0_out ?mulr0 //.
  move: H; rewrite /inside /pos; have := ltn_ord a; have := ltn_ord b; lia.
Qed.

Lemma at0_same n m (A : 'M[R]_(n, m)) k p q :
  at0 (same A k) p q = if inside n m p q then correlation A k p q else 0.
Proof. exact: at0_tab. Qed.

Lemma at0_over n1 n2 m (A : 'M[R]_(n1, m)) (B : 'M[R]_(n2, m)) p q :
  at0 (col_mx A B) p q = at0 A p q + at0 B (p - Z.of_nat n1) q.
Proof.
  have [H|H] := boolP (inside (n1 + n2) m p q); last first.
    rewrite !at0_out ?addr0 //; move: H; rewrite /inside; lia.
  have [Hp Hq] : (Z.to_nat p < n1 + n2)%N /\ (Z.to_nat q < m)%N by move: H; rewrite /inside; lia.
  have Ep : p = pos (Ordinal Hp) by move: H; rewrite /inside /pos /=; lia.
  have Eq : q = pos (Ordinal Hq) by move: H; rewrite /inside /pos /=; lia.
  rewrite Eq {1}Ep at0_in mxE; case: splitP => i /= Ei.
  - rewrite {1}(_ : p = pos i); last by move: H; rewrite /inside /pos /=; lia.
    rewrite at0_in [at0 B _ _]at0_out ?addr0 //; move: H; rewrite /inside /pos /=; have := ltn_ord i; lia.
  - rewrite [at0 A _ _]at0_out ?add0r; last by move: H; rewrite /inside /pos /=; lia.
    by rewrite (_ : (p - _)%Z = pos i) ?at0_in //; move: H; rewrite /inside /pos /=; lia.
Qed.

Lemma at0_zero n m p q : at0 (0 : 'M[R]_(n, m)) p q = 0.
Proof. by rewrite -[0 in LHS](scale0r (0 : 'M[R]_(n, m))) at0_scale mul0r. Qed.

Lemma at0_tr n m (A : 'M[R]_(n, m)) p q : at0 A^T p q = at0 A q p.
Proof.
  have [H|H] := boolP (inside n m q p); last first.
    rewrite !at0_out //; move: H; rewrite /inside; lia.
  have [Hp Hq] : (Z.to_nat q < n)%N /\ (Z.to_nat p < m)%N by move: H; rewrite /inside; lia.
  have -> : q = pos (Ordinal Hp) by move: H; rewrite /inside /pos /=; lia.
  have -> : p = pos (Ordinal Hq) by move: H; rewrite /inside /pos /=; lia.
  by rewrite !at0_in mxE.
Qed.

Lemma at0_beside n m1 m2 (A : 'M[R]_(n, m1)) (B : 'M[R]_(n, m2)) p q :
  at0 (row_mx A B) p q = at0 A p q + at0 B p (q - Z.of_nat m1).
Proof. by rewrite -[row_mx A B]trmxK tr_row_mx at0_tr at0_over !at0_tr. Qed.

(** a function that is 0 outside 0..n-1, summed over a wider window *)
Lemma window n (d : nat) (g : Z -> R) : (d <= 2)%N ->
  (forall z, ~ (0 <= z < Z.of_nat n)%Z -> g z = 0) ->
  \sum_(r < n + 2) g (Z.of_nat r - Z.of_nat d)%Z = \sum_(i < n) g (Z.of_nat i).
Proof.
  move=> Hd Hg.
  rewrite -(big_mkord xpredT (fun r => g (Z.of_nat r - Z.of_nat d)%Z)).
  rewrite -(big_mkord xpredT (fun r => g (Z.of_nat r))).
  rewrite (@big_cat_nat _ _ _ d) //=; last by lia.
  rewrite (@big_cat_nat _ _ _ (n + d) d) //=; try lia.
  rewrite big_nat_cond big1 ?add0r; last by move=> i Hi; apply: Hg; lia.
  rewrite [X in _ + X]big_nat_cond [X in _ + X]big1 ?addr0; last by move=> i Hi; apply: Hg; lia.
  rewrite -[X in \sum_(X <= _ < _) _]add0n big_addn addnK; apply: eq_bigr => i _.
  by congr g; lia.
Qed.
End At.

(** ** The laws *)
Section Laws.
Variables (R : comUnitRingType) (lt : R -> R -> bool) (ab : R -> R) (sq : R -> outcome R).
Notation K := (exactS lt ab sq).
Implicit Types (A k : matrix R).
Local Notation total A := (\sum_(x <- elements A) x).

Lemma correlation_twice n m (X : 'M[R]_(n, m)) (h h' : 'M[R]_3) :
  full (full X h) h' = full (full X h') h.
Proof.
  apply: at0_eq => p q; rewrite !at0_full /correlation.
  under eq_bigr => a _ do under eq_bigr => b _ do rewrite at0_full /correlation.
  under [RHS]eq_bigr => a _ do under eq_bigr => b _ do rewrite at0_full /correlation.
  pose T a b a' b' := h' a b * (h a' b' * at0 X (p - 1 + pos a - 1 - 1 + pos a' - 1)%Z (q - 1 + pos b - 1 - 1 + pos b' - 1)%Z).
  transitivity (\sum_(a < 3) \sum_(b < 3) \sum_(a' < 3) \sum_(b' < 3) T a b a' b').
    apply: eq_bigr => a _; apply: eq_bigr => b _; rewrite mulr_sumr; apply: eq_bigr => a' _.
    by rewrite mulr_sumr; apply: eq_bigr.
  transitivity (\sum_(a' < 3) \sum_(b' < 3) \sum_(a < 3) \sum_(b < 3) T a b a' b').
    rewrite pair_big /=.
    under eq_bigr => x _ do rewrite pair_big /=.
    rewrite exchange_big /= -(pair_big xpredT xpredT (fun a' b' => \sum_(x : 'I_3 * 'I_3) T x.1 x.2 a' b')) /=.
    apply: eq_bigr => a' _; apply: eq_bigr => b' _.
    by rewrite -(pair_big xpredT xpredT (fun a b => T a b a' b')).
  apply: eq_bigr => a _; apply: eq_bigr => b _; rewrite mulr_sumr; apply: eq_bigr => a' _.
  rewrite mulr_sumr; apply: eq_bigr => b' _; rewrite /T mulrCA; congr (_ * (_ * at0 _ _ _)); lia.
Qed.

(** the order of two kernels does not matter *)
Theorem c90_commute n m A k k' : (Z.of_nat n + 2 <= 2 ^ 31)%Z -> (Z.of_nat m + 2 <= 2 ^ 31)%Z ->
  shape n m A -> shape 3 3 k -> shape 3 3 k' ->
  exists X, (let* B := conv2_full K n m A k in conv2_full K (n + 2) (m + 2) B k') = Ok X /\
            (let* B := conv2_full K n m A k' in conv2_full K (n + 2) (m + 2) B k) = Ok X.
Proof.
  move=> Hn Hm H1 H2 H3; tomx H1; tomx H2; tomx H3.
  rewrite !conv2_full_correlation; try lia; cbn [bind].
  rewrite !conv2_full_correlation; try lia.
  eexists; split; first by []. congr (Ok (mxrows _)). exact/esym/correlation_twice.
Qed.

Theorem c90_commute_valid n A k k' : (3 < n)%N -> (Z.of_nat n <= 2 ^ 31)%Z ->
  shape n n A -> shape 3 3 k -> shape 3 3 k' ->
  exists X, (let* B := conv2_valid K n A k in conv2_valid K (n - 2) B k') = Ok X /\
            (let* B := conv2_valid K n A k' in conv2_valid K (n - 2) B k) = Ok X.
Proof.
  move=> Hn3 Hn H1 H2 H3; tomx H1; tomx H2; tomx H3.
  rewrite !conv2_valid_inside; try lia; cbn [bind].
  rewrite !conv2_valid_inside; try lia.
  eexists; split; first by []. congr (Ok (mxrows _)). apply/matrixP => r c; rewrite !mxE.
  have E (h : 'M[R]_3) (a b : 'I_3) :
      mxf 0 (\matrix_(r < n - 2, c < n - 2) \sum_(a < 3) \sum_(b < 3) h a b * mxf 0 X (r + a) (c + b)) (r + a) (c + b)
      = \sum_(a' < 3) \sum_(b' < 3) h a' b' * mxf 0 X (r + a + a') (c + b + b').
    have Hr : (r + a < n - 2)%N by have := ltn_ord r; have := ltn_ord a; lia.
    have Hc : (c + b < n - 2)%N by have := ltn_ord c; have := ltn_ord b; lia.
    by rewrite -[(r + a)%N]/(nat_of_ord (Ordinal Hr)) -[(c + b)%N]/(nat_of_ord (Ordinal Hc)) mxf_ord mxE.
  under eq_bigr => a _ do under eq_bigr => b _ do rewrite E.
  under [RHS]eq_bigr => a _ do under eq_bigr => b _ do rewrite E.
  pose T (a b a' b' : 'I_3) := X1 a b * (X0 a' b' * mxf 0 X (r + a + a') (c + b + b')).
  apply/esym; transitivity (\sum_(a < 3) \sum_(b < 3) \sum_(a' < 3) \sum_(b' < 3) T a b a' b').
    apply: eq_bigr => a _; apply: eq_bigr => b _; rewrite mulr_sumr; apply: eq_bigr => a' _.
    by rewrite mulr_sumr; apply: eq_bigr.
  transitivity (\sum_(a' < 3) \sum_(b' < 3) \sum_(a < 3) \sum_(b < 3) T a b a' b').
    rewrite pair_big /=.
    under eq_bigr => x _ do rewrite pair_big /=.
    rewrite exchange_big /= -(pair_big xpredT xpredT (fun a' b' => \sum_(x : 'I_3 * 'I_3) T x.1 x.2 a' b')) /=.
    apply: eq_bigr => a' _; apply: eq_bigr => b' _.
    by rewrite -(pair_big xpredT xpredT (fun a b => T a b a' b')).
  apply: eq_bigr => a _; apply: eq_bigr => b _; rewrite mulr_sumr; apply: eq_bigr => a' _.
  rewrite mulr_sumr; apply: eq_bigr => b' _; rewrite /T mulrCA; congr (_ * (_ * mxf _ _ _ _)); lia.
Qed.

(** the total of the full convolution *)
Theorem c90_total n m A k : (Z.of_nat n <= 2 ^ 31)%Z -> (Z.of_nat m <= 2 ^ 31)%Z ->
  shape n m A -> shape 3 3 k ->
  exists X, conv2_full K n m A k = Ok X /\ total X = total A * total k.
Proof.
  move=> Hn Hm H1 H2; tomx H1; tomx H2.
  rewrite conv2_full_correlation //; eexists; split; first by [].
  rewrite -!(big_elements _ id).
  under eq_bigr => r _ do (under eq_bigr => c _ do rewrite mxE /correlation pair_big /=; rewrite exchange_big /=).
  rewrite exchange_big /= mulrC (pair_big xpredT xpredT (fun a b => X0 a b)) /= mulr_suml.
  apply: eq_bigr => -[a b] _ /=.
  under eq_bigr => r _ do rewrite -mulr_sumr.
  rewrite -mulr_sumr; congr (_ * _).
  have Ha := ltn_ord a; have Hb := ltn_ord b.
  transitivity (\sum_(r < n + 2) \sum_(c < m) at0 X (Z.of_nat r - Z.of_nat (2 - a))%Z (Z.of_nat c)).
    apply: eq_bigr => r _.
    rewrite -(@window _ m (2 - b) (fun q => at0 X (Z.of_nat r - Z.of_nat (2 - a))%Z q)); first last.
    - by move=> z Hz; apply: at0_out; rewrite /inside; lia.
    - lia.
    by apply: eq_bigr => c _; congr at0; rewrite /pos; lia.
  rewrite (@window _ n (2 - a) (fun p => \sum_(c < m) at0 X p (Z.of_nat c))); first last.
  - by move=> z Hz; rewrite big1 // => c _; apply: at0_out; rewrite /inside; lia.
  - lia.
  by apply: eq_bigr => i _; apply: eq_bigr => j _; rewrite at0_in.
Qed.

(** a border of zeros *)
Lemma zeros_mx n m : zeros K n m = mxrows (0 : 'M[R]_(n, m)).
Proof. rewrite zeros_mk; symmetry; apply: mxrows_mk => i j; by rewrite mxE. Qed.

Lemma mxrows_at0 n n' m m' (X : 'M[R]_(n, m)) (Y : 'M[R]_(n', m')) : n = n' -> m = m' ->
  (forall p q, at0 X p q = at0 Y p q) -> mxrows X = mxrows Y.
Proof. by move=> En Em; subst => H; rewrite (at0_eq H). Qed.

Lemma full_mx n m (X : 'M[R]_(n, m)) (h : 'M[R]_3) :
  (Z.of_nat n <= 2 ^ 31)%Z -> (Z.of_nat m <= 2 ^ 31)%Z ->
  conv2_full K n m (mxrows X) (mxrows h) = Ok (mxrows (full X h)).
Proof. by move=> Hn Hm; rewrite conv2_full_correlation. Qed.

Lemma correlation_at n m n' m' (X : 'M[R]_(n, m)) (Y : 'M[R]_(n', m')) (h : 'M[R]_3) p q p' q' :
  (forall a b, at0 X (p + a) (q + b) = at0 Y (p' + a) (q' + b)) ->
  correlation X h p q = correlation Y h p' q'.
Proof.
  move=> H; apply: eq_bigr => a _; apply: eq_bigr => b _; congr (_ * _).
  by have := H (pos a - 1)%Z (pos b - 1)%Z; rewrite !Z.add_sub_assoc.
Qed.

Theorem c90_pad_above u n m A k : (Z.of_nat (u + n) <= 2 ^ 31)%Z -> (Z.of_nat m <= 2 ^ 31)%Z ->
  shape n m A -> shape 3 3 k ->
  exists X Y, conv2_full K n m A k = Ok X /\
    (let* B := concatenate_v K u n m (zeros K u m) A in conv2_full K (u + n) m B k) = Ok Y /\
    concatenate_v K u (n + 2) (m + 2) (zeros K u (m + 2)) X = Ok Y.
Proof.
  move=> Hn Hm H1 H2; tomx H1; tomx H2; rewrite !zeros_mx over_mx; cbn [bind].
  rewrite !full_mx; try lia.
  do 2 eexists; split; [by []|split; first by []]. rewrite over_mx; congr Ok.
  apply: mxrows_at0; [lia|lia|] => p q.
  rewrite at0_over at0_zero add0r !at0_full; apply: correlation_at => a b.
  by rewrite at0_over at0_zero add0r; congr at0; lia.
Qed.

Theorem c90_pad_below u n m A k : (Z.of_nat (n + u) <= 2 ^ 31)%Z -> (Z.of_nat m <= 2 ^ 31)%Z ->
  shape n m A -> shape 3 3 k ->
  exists X Y, conv2_full K n m A k = Ok X /\
    (let* B := concatenate_v K n u m A (zeros K u m) in conv2_full K (n + u) m B k) = Ok Y /\
    concatenate_v K (n + 2) u (m + 2) X (zeros K u (m + 2)) = Ok Y.
Proof.
  move=> Hn Hm H1 H2; tomx H1; tomx H2; rewrite !zeros_mx over_mx; cbn [bind].
  rewrite !full_mx; try lia.
  do 2 eexists; split; [by []|split; first by []]. rewrite over_mx; congr Ok.
  apply: mxrows_at0; [lia|lia|] => p q.
  rewrite at0_over at0_zero addr0 !at0_full; apply: correlation_at => a b.
  by rewrite at0_over at0_zero addr0.
Qed.

Theorem c90_pad_left u n m A k : (Z.of_nat n <= 2 ^ 31)%Z -> (Z.of_nat (u + m) <= 2 ^ 31)%Z ->
  shape n m A -> shape 3 3 k ->
  exists X Y, conv2_full K n m A k = Ok X /\
    (let* B := concatenate_h K n u m (zeros K n u) A in conv2_full K n (u + m) B k) = Ok Y /\
    concatenate_h K (n + 2) u (m + 2) (zeros K (n + 2) u) X = Ok Y.
Proof.
  move=> Hn Hm H1 H2; tomx H1; tomx H2; rewrite !zeros_mx beside_mx; cbn [bind].
  rewrite !full_mx; try lia.
  do 2 eexists; split; [by []|split; first by []]. rewrite beside_mx; congr Ok.
  apply: mxrows_at0; [lia|lia|] => p q.
  rewrite at0_beside at0_zero add0r !at0_full; apply: correlation_at => a b.
  by rewrite at0_beside at0_zero add0r; congr at0; lia.
Qed.

Theorem c90_pad_right u n m A k : (Z.of_nat n <= 2 ^ 31)%Z -> (Z.of_nat (m + u) <= 2 ^ 31)%Z ->
  shape n m A -> shape 3 3 k ->
  exists X Y, conv2_full K n m A k = Ok X /\
    (let* B := concatenate_h K n m u A (zeros K n u) in conv2_full K n (m + u) B k) = Ok Y /\
    concatenate_h K (n + 2) (m + 2) u X (zeros K (n + 2) u) = Ok Y.
Proof.
  move=> Hn Hm H1 H2; tomx H1; tomx H2; rewrite !zeros_mx beside_mx; cbn [bind].
  rewrite !full_mx; try lia.
  do 2 eexists; split; [by []|split; first by []]. rewrite beside_mx; congr Ok.
  apply: mxrows_at0; [lia|lia|] => p q.
  rewrite at0_beside at0_zero addr0 !at0_full; apply: correlation_at => a b.
  by rewrite at0_beside at0_zero addr0.
Qed.

(** full convolution is [same] convolution of the matrix with a border of zeros, and
    [same] convolution of a matrix is the centre of it: see C45 *)

(** kernels that are a column times a row: two passes with the column and the row *)
Theorem c90_separable n m A (u0 u1 u2 v0 v1 v2 : R) :
  (Z.of_nat n <= 2 ^ 31)%Z -> (Z.of_nat m <= 2 ^ 31)%Z -> shape n m A ->
  exists k X, mult K 3 1 3 [:: [:: u0]; [:: u1]; [:: u2]] [:: [:: v0; v1; v2]] = Ok k /\
    conv2 K n m A k = Ok X /\
    (let* B := conv2 K n m A [:: [:: 0; u0; 0]; [:: 0; u1; 0]; [:: 0; u2; 0]] in
     conv2 K n m B [:: [:: 0; 0; 0]; [:: v0; v1; v2]; [:: 0; 0; 0]]) = Ok X /\
    (let* B := conv2 K n m A [:: [:: 0; 0; 0]; [:: v0; v1; v2]; [:: 0; 0; 0]] in
     conv2 K n m B [:: [:: 0; u0; 0]; [:: 0; u1; 0]; [:: 0; u2; 0]]) = Ok X.
Proof.
  move=> Hn Hm H1; tomx H1.
  pose u (a : 'I_3) := nth 0 [:: u0; u1; u2] a. pose v (b : 'I_3) := nth 0 [:: v0; v1; v2] b.
  pose U : 'M[R]_(3, 1) := \matrix_(a, b) u a. pose V : 'M[R]_(1, 3) := \matrix_(a, b) v b.
  pose o1 : 'I_3 := lift ord0 ord0.
  pose CU : 'M[R]_3 := \matrix_(a, b) (if b == o1 then u a else 0).
  pose RV : 'M[R]_3 := \matrix_(a, b) (if a == o1 then v b else 0).
  have EU : [:: [:: u0]; [:: u1]; [:: u2]] = mxrows U.
    by rewrite (@mxrows_mk _ _ _ _ (fun i j => nth 0 [:: u0; u1; u2] i)) // => i j; rewrite mxE.
  have EV : [:: [:: v0; v1; v2]] = mxrows V.
    by rewrite (@mxrows_mk _ _ _ _ (fun i j => nth 0 [:: v0; v1; v2] j)) // => i j; rewrite mxE.
  have EC : [:: [:: 0; u0; 0]; [:: 0; u1; 0]; [:: 0; u2; 0]] = mxrows CU.
    by rewrite (@mxrows_mk _ _ _ _ (fun i j => if j == 1%N then nth 0 [:: u0; u1; u2] i else 0)) // => i j; rewrite mxE.
  have ER : [:: [:: 0; 0; 0]; [:: v0; v1; v2]; [:: 0; 0; 0]] = mxrows RV.
    by rewrite (@mxrows_mk _ _ _ _ (fun i j => if i == 1%N then nth 0 [:: v0; v1; v2] j else 0)) // => i j; rewrite mxE.
  rewrite EU EV EC ER mult_mx !conv2_correlation //; cbn [bind]; rewrite !conv2_correlation //.
  have corrC n' m' (Y : 'M[R]_(n', m')) p q : correlation Y CU p q = \sum_(a < 3) u a * at0 Y (p + pos a - 1) q.
    apply: eq_bigr => a _; rewrite (bigD1 o1) //= mxE eqxx big1 ?addr0.
      by congr (_ * at0 _ _ _); rewrite /pos /=; lia.
    by move=> b /negbTE Hb; rewrite mxE Hb mul0r.
  have corrR n' m' (Y : 'M[R]_(n', m')) p q : correlation Y RV p q = \sum_(b < 3) v b * at0 Y p (q + pos b - 1).
    rewrite /correlation (bigD1 o1) //= [X in _ + X]big1 ?addr0.
      by apply: eq_bigr => b _; rewrite mxE eqxx; congr (_ * at0 _ _ _); rewrite /pos /=; lia.
    by move=> a /negbTE Ha; rewrite big1 // => b _; rewrite mxE Ha mul0r.
  exists (mxrows (U *m V)), (mxrows (same X (U *m V))); split=> //.
  split; first by rewrite conv2_correlation.
  split; congr (Ok (mxrows _)); apply/matrixP => r c; rewrite !mxE.
  - rewrite corrR /correlation exchange_big; apply: eq_bigr => b _ /=.
    rewrite (at0_tab _ _ (fun p q => correlation X CU p q)).
    have [H|H] := boolP (inside n m (pos r) (pos c + pos b - 1)).
      rewrite corrC mulr_sumr; apply: eq_bigr => a _.
      by rewrite mxE big_ord_recl big_ord0 addr0 !mxE mulrA; congr (_ * _); rewrite mulrC.
    rewrite mulr0 big1 // => a _; rewrite at0_out ?mulr0 //.
    by have := inside_ord r c; move: H; rewrite /inside; lia.
  - rewrite corrC /correlation; apply: eq_bigr => a _ /=.
    rewrite (at0_tab _ _ (fun p q => correlation X RV p q)).
    have [H|H] := boolP (inside n m (pos r + pos a - 1) (pos c)).
      rewrite corrR mulr_sumr; apply: eq_bigr => b _.
      by rewrite mxE big_ord_recl big_ord0 addr0 !mxE mulrA.
    rewrite mulr0 big1 // => b _; rewrite at0_out ?mulr0 //.
    by have := inside_ord r c; move: H; rewrite /inside; lia.
Qed.

(** a constant matrix *)
Theorem c90_constant n (x : R) k : (1 < n)%N -> (Z.of_nat n <= 2 ^ 31)%Z -> shape 3 3 k ->
  conv2_valid K n (fill K n n x) k = Ok (fill K (n - 2) (n - 2) (x * total k)).
Proof.
  move=> H2 Hn H3; tomx H3.
  have Ef N y : fill K N N y = mxrows (const_mx y : 'M[R]_N).
    by rewrite fill_mk; symmetry; apply: mxrows_mk => i j; rewrite mxE.
  rewrite !Ef conv2_valid_inside //; congr (Ok (mxrows _)); apply/matrixP => r c; rewrite !mxE.
  rewrite -(big_elements _ id) mulrC mulr_suml; apply: eq_bigr => a _; rewrite mulr_suml; apply: eq_bigr => b _.
  have Hr : (r + a < n)%N by have := ltn_ord r; have := ltn_ord a; lia.
  have Hc : (c + b < n)%N by have := ltn_ord c; have := ltn_ord b; lia.
  by rewrite -[(r + a)%N]/(nat_of_ord (Ordinal Hr)) -[(c + b)%N]/(nat_of_ord (Ordinal Hc)) mxf_ord mxE.
Qed.
End Laws.

(** ** Smoothing: a kernel of non-negative weights with total 1 *)
Section Smooth.
Variables (R : realFieldType) (sq : R -> outcome R).
Notation K := (exactS (fun x y : R => x < y) (fun x : R => `|x|) sq).
Implicit Types (A k : matrix R).
Local Notation total A := (\sum_(x <- elements A) x).
Local Notation between lo hi A := (forall x, List.In x (elements A) -> lo <= x <= hi).

Lemma in_elements n m (X : 'M[R]_(n, m)) (P : R -> Prop) :
  (forall x, List.In x (elements (mxrows X)) -> P x) <-> (forall i j, P (X i j)).
Proof.
  rewrite (mxrowsE 0 X) /elements /mk; split=> [H i j|H x].
    apply: H. rewrite -(mxf_ord 0) in_concat.
    eexists; split; first by apply/in_map_iff; exists (i : nat); split; [reflexivity|apply/in_seq; move: (ltn_ord i); lia].
    by apply/in_map_iff; exists (j : nat); split; [reflexivity|apply/in_seq; move: (ltn_ord j); lia].
  rewrite in_concat => -[l [/in_map_iff[i [<- /in_seq Hi]] /in_map_iff[j [<- /in_seq Hj]]]].
  have Hi' : (i < n)%N by lia. have Hj' : (j < m)%N by lia.
  rewrite -[i]/(nat_of_ord (Ordinal Hi')) -[j]/(nat_of_ord (Ordinal Hj')) mxf_ord; exact: H.
Qed.

(** a weighted average of numbers between lo and hi *)
Lemma weighted (h : 'M[R]_3) (g : 'I_3 -> 'I_3 -> R) lo hi :
  (forall a b, 0 <= h a b) -> \sum_a \sum_b h a b = 1 -> (forall a b, lo <= g a b <= hi) ->
  lo <= \sum_(a < 3) \sum_(b < 3) h a b * g a b <= hi.
Proof.
  move=> H0 H1 Hg.
  have E y : \sum_(a < 3) \sum_(b < 3) h a b * y = y.
    by under eq_bigr => a _ do rewrite -mulr_suml; rewrite -mulr_suml H1 mul1r.
  apply/andP; split.
  - rewrite -[X in X <= _]E; apply: ler_sum => a _; apply: ler_sum => b _.
    by apply: ler_wpmul2l => //; case/andP: (Hg a b).
  - rewrite -[X in _ <= X]E; apply: ler_sum => a _; apply: ler_sum => b _.
    by apply: ler_wpmul2l => //; case/andP: (Hg a b).
Qed.

Variables (k : matrix R) (lo hi : R).
Hypothesis Hk : shape 3 3 k.
Hypothesis Hk0 : forall x, List.In x (elements k) -> 0 <= x.
Hypothesis Hk1 : total k = 1.

Theorem c90_smooth_valid n (A X : matrix R) : (1 < n)%N -> (Z.of_nat n <= 2 ^ 31)%Z -> shape n n A ->
  (forall x, List.In x (elements A) -> lo <= x <= hi) ->
  conv2_valid K n A k = Ok X -> forall x, List.In x (elements X) -> lo <= x <= hi.
Proof.
  move=> H2 Hn HA HI; move: Hk Hk0 Hk1 => H3 H30 H31; move: HI H30 H31; tomx HA; tomx H3.
  rewrite conv2_valid_inside // => /in_elements HI /in_elements H30; rewrite -(big_elements _ id) => H31 [<-].
  apply/in_elements => r c; rewrite mxE; apply: weighted => // a b.
  have Hr : (r + a < n)%N by have := ltn_ord r; have := ltn_ord a; lia.
  have Hc : (c + b < n)%N by have := ltn_ord c; have := ltn_ord b; lia.
  by rewrite -[(r + a)%N]/(nat_of_ord (Ordinal Hr)) -[(c + b)%N]/(nat_of_ord (Ordinal Hc)) mxf_ord.
Qed.

(** outside the matrix the elements are taken as 0 *)
Lemma weighted_corr n m (X : 'M[R]_(n, m)) (h : 'M[R]_3) p q : lo <= 0 <= hi ->
  (forall i j, lo <= X i j <= hi) -> (forall a b, 0 <= h a b) -> \sum_a \sum_b h a b = 1 ->
  lo <= correlation X h p q <= hi.
Proof.
  move=> L0 HI H0 H1; apply: weighted => // a b; rewrite /at0; case: ifP => // _.
  by case: insub => [i|] //; case: insub.
Qed.

Theorem c90_smooth n m (A X Y : matrix R) : (Z.of_nat n <= 2 ^ 31)%Z -> (Z.of_nat m <= 2 ^ 31)%Z ->
  shape n m A -> lo <= 0 <= hi ->
  (forall x, List.In x (elements A) -> lo <= x <= hi) ->
  conv2 K n m A k = Ok X -> conv2_full K n m A k = Ok Y ->
  (forall x, List.In x (elements X) -> lo <= x <= hi) /\
  (forall x, List.In x (elements Y) -> lo <= x <= hi).
Proof.
  move=> Hn Hm HA L0 HI; move: Hk Hk0 Hk1 => H3 H30 H31; move: HI H30 H31; tomx HA; tomx H3.
  rewrite conv2_correlation // conv2_full_correlation // => /in_elements HI /in_elements H30.
  rewrite -(big_elements _ id) => H31 [<-] [<-].
  by split; apply/in_elements => r c; rewrite mxE; apply: weighted_corr.
Qed.
End Smooth.

(** ** The [same] convolution drops what leaves the matrix: the order of two kernels
    matters and the total is not kept (int, shifts to the left and to the right) *)
Theorem c90_same_differs :
  let A := [:: [:: 1; 0]]%Z in
  let left := [:: [:: 0; 0; 0]; [:: 0; 0; 1]; [:: 0; 0; 0]]%Z in
  let right := [:: [:: 0; 0; 0]; [:: 1; 0; 0]; [:: 0; 0; 0]]%Z in
  (let* B := conv2 (intS int32) 1 2 A left in conv2 (intS int32) 1 2 B right) = Ok [:: [:: 0; 0]]%Z /\
  (let* B := conv2 (intS int32) 1 2 A right in conv2 (intS int32) 1 2 B left) = Ok [:: [:: 1; 0]]%Z /\
  conv2 (intS int32) 1 2 A left = Ok [:: [:: 0; 0]]%Z.
Proof. by []. Qed.

(** a 4x4 matrix of rationals and a smoothing kernel: the hypotheses hold *)
Example c90_ex : let h := 1%:R / 9%:R : rat in let k := [:: [:: h; h; h]; [:: h; h; h]; [:: h; h; h]] in
  (3 < 4)%N /\ shape 3 3 k /\ (forall x, List.In x (elements k) -> 0 <= x) /\ \sum_(x <- elements k) x = 1.
Proof.
  split; first by []. split; first by split=> //= row H; repeat case: H => [<- //|H]. split; last by rewrite /elements /= !big_cons big_nil.
  by rewrite /= => x H; repeat case: H => [<- //|H].
Qed.

Print Assumptions c90_commute.
Print Assumptions c90_commute_valid.
Print Assumptions c90_total.
Print Assumptions c90_pad_above.
Print Assumptions c90_separable.
Print Assumptions c90_constant.
Print Assumptions c90_smooth_valid.
Print Assumptions c90_smooth.
