(** * C93: strictly diagonally dominant matrices

    Exact arithmetic over an ordered field. *)

From Coq Require Import ZArith List Lia.
From mathcomp Require Import all_ssreflect all_algebra.
From mathcomp Require Import zify.
From Verif Require Import Base Scalar Model Spec Loops Struct Exact ExactLemmas Alg Det Inv LU Chol PropAlg.

Set Implicit Arguments.
Unset Strict Implicit.
Unset Printing Implicit Defensive.

Import mathcomp.ssreflect.order.Order.TTheory GRing.Theory Num.Theory.
Local Notation ltP := ssrnat.ltP (only parsing).
Local Notation leP := ssrnat.leP (only parsing).
Local Open Scope ring_scope.
Delimit Scope Z_scope with Z.

Section Dom.
Variable R : realFieldType.

(** the absolute values outside the diagonal, by row; what the diagonal element exceeds
    them by *)
Definition off n (A : 'M[R]_n) (i : 'I_n) : R := \sum_(j | j != i) `|A i j|.
Definition gap n (A : 'M[R]_n) (i : 'I_n) : R := `|A i i| - off A i.
(** strictly dominant by rows, by columns *)
Definition row_dominant n (A : 'M[R]_n) : Prop := forall i, off A i < `|A i i|.
Definition col_dominant n (A : 'M[R]_n) : Prop := forall j, \sum_(i | i != j) `|A i j| < `|A j j|.

Lemma gap_gt0 n (A : 'M[R]_n) : row_dominant A <-> forall i, 0 < gap A i.
Proof. by split=> H i; have := H i; rewrite subr_gt0. Qed.

Lemma gap_pos n (A : 'M[R]_n) i : row_dominant A -> 0 < gap A i.
Proof. by move=> /gap_gt0. Qed.

Lemma dominant_tr n (A : 'M[R]_n) : col_dominant A <-> row_dominant A^T.
Proof.
  by split=> H i; have := H i; rewrite /off mxE; congr (_ < _); apply: eq_bigr => j _; rewrite mxE.
Qed.

Lemma off_ge0 n (A : 'M[R]_n) i : 0 <= off A i.
Proof. by apply: sumr_ge0 => j _. Qed.

(** *** one step of elimination *)
Definition step n (A : 'M[R]_n.+1) : 'M[R]_n :=
  \matrix_(i, j) (A (lift ord0 i) (lift ord0 j) - A (lift ord0 i) ord0 * A ord0 (lift ord0 j) / A ord0 ord0).

Lemma det_step n (A : 'M[R]_n.+1) : A ord0 ord0 != 0 -> \det A = A ord0 ord0 * \det (step A).
Proof.
  move=> Ha.
  pose L : 'M[R]_(1 + n) := block_mx 1%:M 0 (\matrix_(i, j) (A (lift ord0 i) ord0 / A ord0 ord0)) 1%:M.
  pose U : 'M[R]_(1 + n) := block_mx (A ord0 ord0)%:M (\matrix_(i, j) A ord0 (lift ord0 j)) 0 (step A).
  have EA : A = L *m U.
    rewrite mulmx_block mul1mx mul0mx addr0 mul1mx mul0mx addr0 mulmx0 addr0 mul1mx.
    apply/matrixP => i j; rewrite mxE; case: splitP => k Ek; rewrite mxE; case: splitP => l El.
    - rewrite !mxE; have -> : i = ord0 by apply/val_inj; rewrite /= Ek; case: k {Ek} => -[].
      have -> : j = ord0 by apply/val_inj; rewrite /= El; case: l {El} => -[].
      by rewrite !ord1 eqxx mulr1n.
    - rewrite !mxE; have -> : i = ord0 by apply/val_inj; rewrite /= Ek; case: k {Ek} => -[].
      by congr (A _ _); apply/val_inj; rewrite /= El.
    - rewrite mul_mx_scalar !mxE; have -> : j = ord0 by apply/val_inj; rewrite /= El; case: l {El} => -[].
      by rewrite mulrC divfK //; congr (A _ _); apply/val_inj; rewrite /= Ek.
    - rewrite !mxE big_ord_recl big_ord0 addr0 !mxE addrC.
      have -> : i = lift ord0 k by apply/val_inj; rewrite /= Ek.
      have -> : j = lift ord0 l by apply/val_inj; rewrite /= El.
      by rewrite mulrAC subrK.
  transitivity (\det L * \det U); first by rewrite -det_mulmx -EA.
  by rewrite /L /U det_lblock det_ublock !matrix.det1 !mul1r det_mx11 mxE eqxx mulr1n.
Qed.

Lemma off_lift n (A : 'M[R]_n.+1) (i : 'I_n) :
  off A (lift ord0 i) = `|A (lift ord0 i) ord0| + \sum_(j | j != i) `|A (lift ord0 i) (lift ord0 j)|.
Proof.
  rewrite /off big_mkcond big_ord_recl /=; congr (_ + _).
  by rewrite [RHS]big_mkcond; apply: eq_bigr => j _; rewrite (inj_eq (@lift_inj _ _)).
Qed.

Lemma off_0 n (A : 'M[R]_n.+1) (i : 'I_n) :
  off A ord0 = `|A ord0 (lift ord0 i)| + \sum_(j | j != i) `|A ord0 (lift ord0 j)|.
Proof.
  rewrite /off big_mkcond big_ord_recl /= add0r (bigD1 i) //=.
Qed.

(** elimination does not make the gaps smaller *)
Lemma step_gap n (A : 'M[R]_n.+1) (i : 'I_n) : (forall i, 0 < A i i) -> row_dominant A ->
  0 < step A i i /\ gap A (lift ord0 i) <= gap (step A) i.
Proof.
  move=> Hp Hd; set a := A ord0 ord0; have a0 : 0 < a by exact: Hp.
  have a1 : a != 0 by rewrite gt_eqF.
  set c := A (lift ord0 i) ord0.
  have D0 : off A ord0 < a by have := Hd ord0; rewrite (gtr0_norm a0).
  have Di : off A (lift ord0 i) < A (lift ord0 i) (lift ord0 i) by have := Hd (lift ord0 i); rewrite (gtr0_norm (Hp _)).
  rewrite (off_0 A i) in D0; rewrite (off_lift A i) -/c in Di.
  set s0 := \sum_(j | j != i) `|A ord0 (lift ord0 j)| in D0.
  set si := \sum_(j | j != i) `|A (lift ord0 i) (lift ord0 j)| in Di.
  have B j : `|step A i j| <= `|A (lift ord0 i) (lift ord0 j)| + `|c| / a * `|A ord0 (lift ord0 j)|.
    rewrite mxE (le_trans (ler_norm_sub _ _)) // ler_add2l -/c -/a !normrM normfV (gtr0_norm a0).
    by rewrite mulrAC.
  have Boff : off (step A) i <= si + `|c| / a * s0.
    rewrite /off (le_trans (ler_sum _ (fun j _ => B j))) // big_split /= mulr_sumr //.
  have Bii : A (lift ord0 i) (lift ord0 i) - `|c| / a * `|A ord0 (lift ord0 i)| <= step A i i.
    rewrite mxE ler_add2l ler_opp2 -/c -/a mulrAC (le_trans (ler_norm _)) // !normrM normfV (gtr0_norm a0) //.
  have Q : `|c| / a * (`|A ord0 (lift ord0 i)| + s0) <= `|c|.
    rewrite -{2}[`|c|](divfK a1) ler_wpmul2l ?divr_ge0 ?normr_ge0 ?(ltW a0) ?(ltW D0) //.
  have P : 0 < step A i i.
    apply: lt_le_trans Bii; rewrite subr_gt0 (le_lt_trans _ Di) //.
    rewrite (le_trans _ (_ : `|c| <= _)) ?ler_addl ?sumr_ge0 //.
    by apply: le_trans Q; rewrite mulrDr ler_addl mulr_ge0 ?divr_ge0 ?normr_ge0 ?(ltW a0) ?sumr_ge0.
  split=> //; rewrite /gap (gtr0_norm P) (gtr0_norm (Hp _)) (off_lift A i) -/c -/si.
  have Q' : A (lift ord0 i) (lift ord0 i) - (`|c| + si) <=
      (A (lift ord0 i) (lift ord0 i) - `|c| / a * `|A ord0 (lift ord0 i)|) - (si + `|c| / a * s0).
    rewrite -addrA ler_add2l -opprD ler_opp2 [si + _]addrC addrA ler_add2r -mulrDr //.
  by apply: le_trans Q' _; exact: ler_sub.
Qed.

(** the determinant is at least the product of the gaps *)
Lemma det_gap n (A : 'M[R]_n) : (forall i, 0 < A i i) -> row_dominant A -> \prod_i gap A i <= \det A.
Proof.
  elim: n A => [|n IH] A Hp Hd; first by rewrite det_mx00 big_ord0.
  have a0 := Hp ord0; rewrite det_step ?gt_eqF // big_ord_recl.
  have G i := step_gap i Hp Hd.
  have g0 i : 0 <= gap A i by rewrite ltW //; exact: gap_pos.
  apply: ler_pmul => //; first by apply: prodr_ge0.
    by rewrite /gap (gtr0_norm a0) ler_subl_addr ler_addl off_ge0.
  apply: (le_trans (y := \prod_i gap (step A) i)).
    by apply: ler_prod => i _; rewrite g0 (proj2 (G i)).
  apply: IH => [i|]; first by case: (G i).
  by apply/gap_gt0 => i; apply: lt_le_trans (proj2 (G i)); exact: gap_pos.
Qed.

(** any signs on the diagonal *)
Lemma det_gap_sg n (A : 'M[R]_n) : row_dominant A ->
  \prod_i gap A i <= (\prod_i Num.sg (A i i)) * \det A.
Proof.
  move=> Hd; pose B := \matrix_(i, j) (Num.sg (A i i) * A i j).
  have nz i : A i i != 0 by rewrite -normr_gt0; apply: le_lt_trans (Hd i); exact: off_ge0.
  have NB i j : `|B i j| = `|A i j| by rewrite mxE normrM normr_sg nz mul1r.
  have Bii i : B i i = `|A i i| by rewrite mxE normrEsg.
  have E i : gap B i = gap A i by rewrite /gap /off NB; congr (_ - _); apply: eq_bigr => j _; rewrite NB.
  have -> : (\prod_i Num.sg (A i i)) * \det A = \det B.
    have -> : B = diag_mx (\row_i Num.sg (A i i)) *m A.
      by apply/matrixP => i j; rewrite mul_diag_mx !mxE.
    by rewrite det_mulmx det_diag; congr (_ * _); apply: eq_bigr => i _; rewrite mxE.
  rewrite -(eq_bigr _ (fun i _ => E i)); apply: det_gap => i.
    by rewrite Bii normr_gt0.
  by rewrite -subr_gt0 -/(gap B i) E subr_gt0.
Qed.

Lemma dominant_det n (A : 'M[R]_n) : row_dominant A -> \det A != 0.
Proof.
  move=> Hd; apply/eqP => D; have := det_gap_sg Hd; rewrite D mulr0 leNgt prodr_gt0 // => i _.
  exact: gap_pos.
Qed.

Lemma dominant_unit n (A : 'M[R]_n) : row_dominant A -> A \in unitmx.
Proof. by move=> Hd; rewrite unitmxE unitfE dominant_det. Qed.

(** leading blocks are dominant *)
Lemma dominant_lead n (A : 'M[R]_n) k (Hk : (k <= n)%N) : row_dominant A ->
  row_dominant (\matrix_(i < k, j < k) A (widen_ord Hk i) (widen_ord Hk j)).
Proof.
  move=> Hd i; rewrite mxE; apply: le_lt_trans (Hd (widen_ord Hk i)).
  rewrite /off (eq_bigr (fun j => `|A (widen_ord Hk i) (widen_ord Hk j)|)); last by move=> j _; rewrite mxE.
  have inj : injective (widen_ord Hk) by move=> a b /(congr1 val) /= H; exact/val_inj.
  rewrite [X in _ <= X](bigID (fun j => j \in codom (widen_ord Hk))) /= ler_paddr ?sumr_ge0 //.
  rewrite [X in _ <= X](reindex_onto (widen_ord Hk) (fun j => if insub (val j) is Some l then l else i)).
    rewrite le_eqVlt; apply/orP; left; apply/eqP; apply: eq_bigl => j.
    rewrite (inj_eq inj) codom_f /= insubT //= => H; rewrite andbT.
    have -> : Sub (val j) H = j by apply/val_inj.
    by rewrite eqxx andbT.
  move=> j /andP [_ /codomP [l ->]] /=; rewrite insubT //= => H; by apply/val_inj.
Qed.

(** *** bounds on solutions *)
Lemma solve_bound n (A : 'M[R]_n) (x b : 'cV[R]_n) (g e : R) : 0 < g -> (forall i, g <= gap A i) ->
  A *m x = b -> (forall i, `|b i 0| <= e) -> forall i, `|x i 0| <= e / g.
Proof.
  move=> g0 Hg Ax Hb i0.
  case: n A x b Hg Ax Hb i0 => [|n] A x b Hg Ax Hb i0; first by case: i0.
  pose i := [arg max_(i > ord0) `|x i 0|]%O.
  have M j : `|x j 0| <= `|x i 0| by rewrite /i; case: arg_maxP => // k _; apply.
  apply: le_trans (M i0) _; rewrite ler_pdivl_mulr // mulrC.
  apply: le_trans (Hb i); rewrite -Ax mxE (bigD1 i) //=.
  have E : `|A i i * x i 0| - \sum_(j | j != i) `|A i j| * `|x i 0| <=
     `|A i i * x i 0 + \sum_(j | j != i) A i j * x j 0|.
    apply: le_trans (ler_sub_norm_add _ _); rewrite ler_add2l ler_opp2; apply: le_trans (ler_norm_sum _ _ _) _.
    by apply: ler_sum => j _; rewrite normrM ler_wpmul2l.
  apply: le_trans E; rewrite normrM -mulr_suml -mulrBl ler_wpmul2r //; exact: Hg.
Qed.

(** the rows of the inverse *)
Lemma inverse_bound n (A : 'M[R]_n) (g : R) : 0 < g -> (forall i, g <= gap A i) ->
  forall i, \sum_j `|invmx A i j| <= g^-1.
Proof.
  move=> g0 Hg i; have Hd : row_dominant A by apply/gap_gt0 => k; exact: lt_le_trans (Hg k).
  pose b : 'cV[R]_n := \col_j Num.sg (invmx A i j).
  have E : A *m (invmx A *m b) = b by rewrite mulmxA mulmxV ?mul1mx ?dominant_unit.
  have Hb k : `|b k 0| <= 1 by rewrite mxE normr_sg; case: eqP; rewrite ?ler01 ?lexx.
  have := solve_bound g0 Hg E Hb i; rewrite div1r; apply: le_trans.
  apply: le_trans (ler_norm _); rewrite mxE ler_sum // => j _.
  by rewrite mxE mulrC normrEsg.
Qed.

(** *** multipliers of column dominant matrices *)
Lemma upper_solve n (U : 'M[R]_n) (y : 'cV[R]_n) (j : 'I_n) : upper U -> (forall i, U i i != 0) ->
  U *m y = \col_i (i == j)%:R -> forall k : 'I_n, (j < k)%N -> y k 0 = 0.
Proof.
  move=> HU Hd E k; have [l] := ubnP (n - k); elim: l k => // l IH k Hl Hk.
  have := congr1 (fun M : 'cV[R]_n => M k 0) E; rewrite !mxE (bigD1 k) //= big1 ?addr0.
    have -> : (k == j) = false by apply/negP => /eqP Ekj; rewrite Ekj ltnn in Hk.
    by move=> /eqP; rewrite mulf_eq0 (negbTE (Hd k)) => /eqP.
  move=> i Hi; case: (ltngtP i k) => H.
  - by rewrite HU ?mul0r.
  - by rewrite IH ?mulr0 //; [have := ltn_ord i; lia | lia].
  - by move: Hi; rewrite (val_inj H) eqxx.
Qed.

Lemma multipliers n (A L U : 'M[R]_n) : col_dominant A -> unit_lower L -> upper U -> (forall i, U i i != 0) ->
  L *m U = A -> forall j : 'I_n, \sum_(i : 'I_n | (j < i)%N) `|L i j| < 1.
Proof.
  move=> Hc [L1 L0] HU Hd E j.
  have UU : U \in unitmx.
    rewrite unitmxE unitfE -det_tr.
    have -> : \det U^T = \prod_i U i i.
      rewrite det_tr -detf_mx detf_upper => [|a b Hab].
        by apply: eq_bigr => i _; rewrite mxf_ord.
      have Ha : (a < n)%N by lia. have Hb : (b < n)%N by lia.
      rewrite (_ : mxf 0 U a b = U (Ordinal Ha) (Ordinal Hb)); last by rewrite -(mxf_ord 0).
      by apply: HU => /=; lia.
    by apply/prodf_neq0.
  pose e : 'cV[R]_n := \col_i (i == j)%:R.
  pose y : 'cV[R]_n := invmx U *m e.
  have Uy : U *m y = e by rewrite mulmxA mulmxV ?mul1mx.
  have y0 := upper_solve HU Hd Uy.
  have Ay i : \sum_k A i k * y k 0 = L i j.
    have -> : \sum_k A i k * y k 0 = (A *m y) i 0 by rewrite mxE.
    rewrite -E -mulmxA Uy mxE (bigD1 j) //= mxE eqxx mulr1 big1 ?addr0 // => k /negbTE Hk.
    by rewrite mxE Hk mulr0.
  have yj : y j 0 != 0.
    apply/eqP => H0; have := congr1 (fun M : 'cV[R]_n => M j 0) Uy; rewrite !mxE eqxx (bigD1 j) //= H0 mulr0 add0r.
    rewrite big1 => [/esym/eqP | k Hk]; first by rewrite oner_eq0.
    case: (ltngtP k j) => H; [by rewrite HU ?mul0r | by rewrite y0 ?mulr0 | by move: Hk; rewrite (val_inj H) eqxx].
  have row i : `|A i i| * `|y i 0| + (if (j < i)%N then `|L i j| else 0) <=
      (i == j)%:R + \sum_(k | k != i) `|A i k| * `|y k 0|.
    have S : `|\sum_(k | k != i) A i k * y k 0| <= \sum_(k | k != i) `|A i k| * `|y k 0|.
      by apply: le_trans (ler_norm_sum _ _ _) _; apply: ler_sum => k _; rewrite normrM.
    case: ltnP => H.
      rewrite y0 // normr0 mulr0 add0r -Ay (bigD1 i) //= y0 // mulr0 add0r (le_trans S) // ler_addr.
      by case: (_ == _); rewrite ?ler01.
    rewrite addr0 -normrM; have -> : A i i * y i 0 = L i j - \sum_(k | k != i) A i k * y k 0.
      by rewrite -Ay (bigD1 i) //= addrK.
    apply: le_trans (ler_norm_sub _ _) _; apply: ler_add S.
    case: eqP => [-> | N]; first by rewrite L1 normr1.
    by rewrite L0 ?normr0 // ltn_neqAle H andbT; apply/negP => /eqP/val_inj.
  have T : \sum_i (`|A i i| * `|y i 0|) + \sum_(i : 'I_n | (j < i)%N) `|L i j| <=
      1 + \sum_k (\sum_(i | i != k) `|A i k|) * `|y k 0|.
    have -> : \sum_(i : 'I_n | (j < i)%N) `|L i j| = \sum_(i : 'I_n) (if (j < i)%N then `|L i j| else 0) by rewrite big_mkcond.
    rewrite -big_split /=; apply: le_trans (ler_sum _ (fun i _ => row i)) _.
    rewrite big_split /=; apply: ler_add.
      by rewrite (bigD1 j) //= eqxx big1 ?addr0 // => i /negbTE ->.
    rewrite le_eqVlt; apply/orP; left; apply/eqP.
    rewrite (exchange_big_dep xpredT) //=; apply: eq_bigr => k _; rewrite mulr_suml.
    by apply: eq_bigl => i; rewrite eq_sym.
  have C : \sum_k (\sum_(i | i != k) `|A i k|) * `|y k 0| < \sum_i (`|A i i| * `|y i 0|).
    rewrite (bigD1 j) //= [X in _ < X](bigD1 j) //=; apply: ltr_le_add.
      by rewrite ltr_pmul2r ?normr_gt0.
    by apply: ler_sum => k _; rewrite ler_wpmul2r // ltW.
  have := le_lt_trans T (_ : _ < 1 + \sum_i (`|A i i| * `|y i 0|)).
  by rewrite ltr_add2l C [1 + _]addrC ltr_add2l; apply.
Qed.

(** the transposed matrix: pivots of row dominant matrices *)
Lemma pivots n (A L U : 'M[R]_n) : row_dominant A -> unit_lower L -> upper U -> (forall i, U i i != 0) ->
  L *m U = A -> forall i : 'I_n, \sum_(j : 'I_n | (i < j)%N) `|U i j| < `|U i i|.
Proof.
  move=> Hr [L1 L0] HU Hd E i.
  have Hc : col_dominant A^T by apply/dominant_tr; rewrite trmxK.
  pose L' : 'M[R]_n := \matrix_(a, b) (U b a / U b b); pose U' : 'M[R]_n := \matrix_(a, b) (U a a * L b a).
  have H : \sum_(j : 'I_n | (i < j)%N) `|L' j i| < 1.
    apply: (@multipliers _ A^T L' U') => //.
    - by split=> [a | a b Hab]; rewrite mxE ?divff // HU // mul0r.
    - by move=> a b Hab; rewrite mxE L0 // mulr0.
    - by move=> a; rewrite mxE L1 mulr1.
    - rewrite -E trmx_mul; apply/matrixP => a b; rewrite !mxE; apply: eq_bigr => k _.
      by rewrite !mxE mulrA divfK.
  have Ui : 0 < `|U i i| by rewrite normr_gt0.
  move: H; rewrite -(ltr_pmul2r Ui) mul1r mulr_suml; congr (_ < _); apply: eq_bigr => j _.
  by rewrite mxE normrM normfV divfK // gt_eqF.
Qed.

(** a symmetric dominant matrix with positive diagonal *)
Lemma dominant_form n (A : 'M[R]_n) (x : 'rV[R]_n) : symmetric A -> (forall i, 0 < A i i) ->
  \sum_i gap A i * x 0 i ^+ 2 <= (x *m A *m x^T) 0 0.
Proof.
  move=> Hs Hp.
  have As i j : A i j = A j i by have := congr1 (fun M : 'M[R]_n => M j i) Hs; rewrite mxE.
  pose P := \sum_i \sum_(j | j != i) `|A i j| * (`|x 0 i| * `|x 0 j|).
  pose Q := \sum_i off A i * x 0 i ^+ 2.
  have PQ : P <= Q.
    have Q2 : Q = \sum_i \sum_(j | j != i) `|A i j| * x 0 j ^+ 2.
      rewrite (exchange_big_dep xpredT) //=; apply: eq_bigr => i _; rewrite /off mulr_suml.
      by apply: eq_big => [j | j _]; rewrite 1?eq_sym // As.
    have Q1 : Q = \sum_i \sum_(j | j != i) `|A i j| * x 0 i ^+ 2 by apply: eq_bigr => i _; rewrite mulr_suml.
    have : P *+ 2 <= Q *+ 2.
      rewrite [Q *+ 2]mulr2n {1}Q1 Q2 /P -sumrMnl -big_split /=; apply: ler_sum => i _.
      rewrite -sumrMnl -big_split /=; apply: ler_sum => j _.
      rewrite -mulrDr -mulrnAr ler_wpmul2l // -subr_ge0.
      rewrite -[x 0 i ^+ 2]real_normK ?num_real // -[x 0 j ^+ 2]real_normK ?num_real //.
      by rewrite addrAC -sqrrB sqr_ge0.
    by rewrite ler_pmuln2r.
  have -> : (x *m A *m x^T) 0 0 = \sum_i A i i * x 0 i ^+ 2 + \sum_i \sum_(j | j != i) A i j * (x 0 i * x 0 j).
    rewrite -big_split /= -mulmxA mxE; apply: eq_bigr => i _; rewrite mxE mulr_sumr (bigD1 i) //= mxE.
    congr (_ + _); first by rewrite expr2 mulrA [x 0 i * A i i]mulrC -mulrA.
    by apply: eq_bigr => j _; rewrite mxE mulrA [x 0 i * A i j]mulrC -mulrA.
  have -> : \sum_i gap A i * x 0 i ^+ 2 = \sum_i A i i * x 0 i ^+ 2 - Q.
    by rewrite -sumrB; apply: eq_bigr => i _; rewrite /gap mulrBl gtr0_norm.
  rewrite ler_add2l; apply: le_trans (_ : - P <= _); first by rewrite ler_opp2.
  rewrite /P -sumrN; apply: ler_sum => i _; rewrite -sumrN; apply: ler_sum => j _.
  by rewrite -!normrM ler_oppl -normrN ler_norm.
Qed.

Lemma dominant_pos_def n (A : 'M[R]_n) : symmetric A -> row_dominant A -> (forall i, 0 < A i i) -> pos_def A.
Proof.
  move=> Hs Hd Hp x x0; apply: lt_le_trans (dominant_form x Hs Hp).
  have [i xi] : exists i, x 0 i != 0.
    apply/existsP; apply: contraNT x0 => /existsPn H; apply/eqP/rowP => i; rewrite mxE.
    by apply/eqP; have := H i; rewrite negbK.
  rewrite (bigD1 i) //= ltr_spaddl //.
    by rewrite mulr_gt0 ?gap_pos // exprn_even_gt0 //= xi.
  by apply: sumr_ge0 => j _; rewrite mulr_ge0 ?sqr_ge0 // ltW // gap_pos.
Qed.

(** ** C93 *)
Variable sq : R -> outcome R.
Let K := ordS sq.

(** the determinant is away from zero, with the sign of the product of the diagonal *)
Theorem c93_det n (A : 'M[R]_n) : row_dominant A \/ col_dominant A ->
  exists d, det K n (mxrows A) = Ok d /\ Num.sg d = \prod_i Num.sg (A i i) /\ d != 0.
Proof.
  have H (B : 'M[R]_n) : row_dominant B -> Num.sg (\det B) = \prod_i Num.sg (B i i) /\ \det B != 0.
    move=> Hd; split; last exact: dominant_det.
    have nz i : B i i != 0 by rewrite -normr_gt0; apply: le_lt_trans (Hd i); exact: off_ge0.
    have P0 : 0 < \prod_i gap B i by apply: prodr_gt0 => i _; exact: gap_pos.
    have := lt_le_trans P0 (det_gap_sg Hd).
    rewrite -sgr_cp0 sgrM => /eqP E.
    have EP : Num.sg (\prod_i Num.sg (B i i)) = \prod_i Num.sg (B i i).
      by rewrite (big_morph _ (@sgrM R) (@sgr1 R)); apply: eq_bigr => i _; rewrite sgr_id.
    have P2 : (\prod_i Num.sg (B i i)) * (\prod_i Num.sg (B i i)) = 1.
      by rewrite -big_split /= big1 // => i _; rewrite -expr2 sqr_sg nz.
    by transitivity ((\prod_i Num.sg (B i i)) * (Num.sg (\prod_i Num.sg (B i i)) * Num.sg (\det B)));
      [rewrite EP mulrA P2 mul1r | rewrite E mulr1].
  move=> D; exists (\det A); split; first exact: det_mx.
  case: D => [/H // | /dominant_tr/H []]; rewrite det_tr => -> ->; split=> //.
  by apply: eq_bigr => i _; rewrite mxE.
Qed.

Theorem c93_det_bound n (A : 'M[R]_n) : row_dominant A ->
  exists d, det K n (mxrows A) = Ok d /\ \prod_i (`|A i i| - \sum_(j | j != i) `|A i j|) <= `|d|.
Proof.
  move=> Hd; exists (\det A); split; first exact: det_mx.
  apply: le_trans (det_gap_sg Hd) _; apply: le_trans (ler_norm _) _.
  rewrite normrM normr_prod big1 ?mul1r // => i _; rewrite normr_sg.
  by rewrite -normr_gt0 (le_lt_trans (off_ge0 A i) (Hd i)).
Qed.

(** inv returns the inverse; its rows and the solutions computed with it are bounded *)
Theorem c93_inv n (A : 'M[R]_n) : row_dominant A \/ col_dominant A ->
  exists B : 'M[R]_n, inv K n (mxrows A) = Ok (mxrows B) /\ A *m B = 1%:M /\ B *m A = 1%:M.
Proof.
  move=> D; have UA : A \in unitmx by case: D => [|/dominant_tr]/dominant_unit //; rewrite unitmx_tr.
  by exists (invmx A); rewrite inv_mx // mulmxV // mulVmx.
Qed.

Theorem c93_inv_rows n (A : 'M[R]_n) (g : R) : 0 < g ->
  (forall i, g + \sum_(j | j != i) `|A i j| <= `|A i i|) ->
  exists B : 'M[R]_n, inv K n (mxrows A) = Ok (mxrows B) /\ forall i, \sum_j `|B i j| <= g^-1.
Proof.
  move=> g0 Hg; have Hg' i : g <= gap A i by rewrite /gap /off ler_subr_addr; exact: Hg.
  have Hd : row_dominant A by apply/gap_gt0 => k; exact: lt_le_trans (Hg' k).
  by exists (invmx A); rewrite inv_mx ?dominant_unit //; split=> //; exact: inverse_bound.
Qed.

Theorem c93_inv_cols n (A : 'M[R]_n) (g : R) : 0 < g ->
  (forall j, g + \sum_(i | i != j) `|A i j| <= `|A j j|) ->
  exists B : 'M[R]_n, inv K n (mxrows A) = Ok (mxrows B) /\ forall j, \sum_i `|B i j| <= g^-1.
Proof.
  move=> g0 Hg; have Hg' i : g <= gap A^T i.
    rewrite /gap /off mxE ler_subr_addr (eq_bigr (fun j => `|A j i|)) => [|j _]; [exact: Hg | by rewrite mxE].
  have Hd : row_dominant A^T by apply/gap_gt0 => k; exact: lt_le_trans (Hg' k).
  have UA : A \in unitmx by rewrite -unitmx_tr dominant_unit.
  exists (invmx A); rewrite inv_mx //; split=> // j.
  by have := inverse_bound g0 Hg' j; rewrite -trmx_inv; apply: le_trans; apply: ler_sum => i _; rewrite mxE.
Qed.

Theorem c93_solve n (A : 'M[R]_n) (b : 'cV[R]_n) (g e : R) : 0 < g ->
  (forall i, g + \sum_(j | j != i) `|A i j| <= `|A i i|) -> (forall i, `|b i 0| <= e) ->
  exists x : 'cV[R]_n,
    (let* B := inv K n (mxrows A) in mult K n n 1 B (mxrows b)) = Ok (mxrows x) /\
    A *m x = b /\ forall i, `|x i 0| <= e / g.
Proof.
  move=> g0 Hg Hb; have Hg' i : g <= gap A i by rewrite /gap /off ler_subr_addr; exact: Hg.
  have UA : A \in unitmx by apply: dominant_unit; apply/gap_gt0 => k; exact: lt_le_trans (Hg' k).
  have E : A *m (invmx A *m b) = b by rewrite mulmxA mulmxV ?mul1mx.
  by exists (invmx A *m b); rewrite inv_mx //= mult_mx; split=> //; split=> //; exact: solve_bound E Hb.
Qed.

(** lu needs no pivoting *)
Lemma lead_ok n (A : 'M[R]_n) : row_dominant A \/ col_dominant A ->
  forall k (Hk : (k <= n)%N), (0 < k)%N -> lead_minor A Hk != 0.
Proof.
  move=> D k Hk _; rewrite /lead_minor; case: D => [|/dominant_tr] /(dominant_lead Hk)/dominant_det //.
  by rewrite -det_tr; congr (\det _ != 0); apply/matrixP => i j; rewrite !mxE.
Qed.

Theorem c93_lu_rows n (A : 'M[R]_n) : row_dominant A ->
  exists L U : 'M[R]_n, lu K n (mxrows A) = Ok (mxrows L, mxrows U) /\
    [/\ unit_lower L, upper U, L *m U = A &
        forall i : 'I_n, \sum_(j : 'I_n | (i < j)%N) `|U i j| < `|U i i|].
Proof.
  move=> Hd; have Hl := lead_ok (or_introl Hd).
  case: (lu_mx (fun a b : R => a < b) (fun a => `|a|) sq A) => [[L [U [-> [HL HU Hn E]]]] | [_ [k [Hk [k0 Ek]]]]];
    last by have := Hl k Hk k0; rewrite Ek eqxx.
  by exists L, U; split=> //; split=> //; exact: pivots Hd HL HU Hn E.
Qed.

Theorem c93_lu_cols n (A : 'M[R]_n) : col_dominant A ->
  exists L U : 'M[R]_n, lu K n (mxrows A) = Ok (mxrows L, mxrows U) /\
    [/\ unit_lower L, upper U, L *m U = A &
        forall j : 'I_n, \sum_(i : 'I_n | (j < i)%N) `|L i j| < 1].
Proof.
  move=> Hd; have Hl := lead_ok (or_intror Hd).
  case: (lu_mx (fun a b : R => a < b) (fun a => `|a|) sq A) => [[L [U [-> [HL HU Hn E]]]] | [_ [k [Hk [k0 Ek]]]]];
    last by have := Hl k Hk k0; rewrite Ek eqxx.
  by exists L, U; split=> //; split=> //; exact: multipliers Hd HL HU Hn E.
Qed.

(** where the determinant of A - s * eye can vanish *)
Theorem c93_discs n (A : 'M[R]_n) (s : R) :
  (let* E := eye K n s in let* M := sub K n n (mxrows A) E in det K n M) = Ok 0 ->
  exists i, `|A i i - s| <= \sum_(j | j != i) `|A i j|.
Proof.
  rewrite eye_mx /= sub_mx /= det_mx => -[/eqP D].
  apply/existsP; apply: contraLR D => /existsPn H; apply: dominant_det => i.
  have := H i; rewrite -ltNge !mxE eqxx mulr1n; congr (_ < _).
  by apply: eq_bigr => j /negbTE Hj; rewrite !mxE eq_sym Hj mulr0n subr0.
Qed.
End Dom.

Theorem c93_chol (R : rcfType) n (A : 'M[R]_n) : symmetric A -> row_dominant A -> (forall i, 0 < A i i) ->
  exists L : 'M[R]_n, chol (realS R) n (mxrows A) = Ok (mxrows L) /\
  [/\ lower L, forall i, 0 < L i i & L *m L^T = A].
Proof. move=> Hs Hd Hp; apply: c30_chol => //; exact: dominant_pos_def. Qed.

(** *** concrete matrices *)
Lemma dominant22 (R : realFieldType) (a b c d : R) :
  row_dominant (mx22 a b c d) <-> `|b| < `|a| /\ `|c| < `|d|.
Proof.
  have E0 : off (mx22 a b c d) ord0 = `|b|.
    by rewrite /off big_mkcond /= big_ord_recl /= add0r big_ord_recl /= big_ord0 addr0 !mxE.
  have E1 : off (mx22 a b c d) (lift ord0 ord0) = `|c|.
    by rewrite /off big_mkcond /= big_ord_recl /= big_ord_recl /= big_ord0 !addr0 !mxE.
  split=> [H | [H0 H1] i].
    by have := H ord0; have := H (lift ord0 ord0); rewrite E0 E1 !mxE.
  case: (unliftP ord0 i) => [j -> | ->]; last by rewrite E0 !mxE.
  by rewrite (ord1 j) E1 !mxE.
Qed.

Example c93_ex sq : let A := mx22 (4%:R : rat) 1 (-1) 3%:R in
  row_dominant A /\ det (ordS sq) 2 (mxrows A) = Ok 13%:R.
Proof.
  split; first by apply/dominant22.
  by rewrite /ordS det_mx det_mx22; congr Ok; apply/eqP.
Qed.

(** dominance that is not strict is not enough *)
Example c93_ex_weak sq : let A := mx22 (1 : rat) 1 1 1 in
  (forall i, off A i <= `|A i i|) /\ det (ordS sq) 2 (mxrows A) = Ok 0 /\
  (forall B, inv (ordS sq) 2 (mxrows A) <> Ok B).
Proof.
  have D : \det (mx22 (1 : rat) 1 1 1) = 0 by rewrite det_mx22 mulr1 subrr.
  split; last split.
  - move=> i; rewrite /off big_mkcond /= big_ord_recl /= big_ord_recl /= big_ord0 !mxE.
    by case: (unliftP ord0 i) => [j -> | ->] //; rewrite (ord1 j).
  - by rewrite /ordS det_mx D.
  - by move=> B; rewrite /ordS inv_mx_singular.
Qed.

(** symmetric, dominant by rows and by columns with margin one, positive diagonal: over every
    ordered field *)
Example c93_ex_sym (R : realFieldType) : let A := mx22 (2%:R : R) 1 1 2%:R in
  symmetric A /\ row_dominant A /\ col_dominant A /\ (forall i, 0 < A i i) /\
  (forall i, 1 + \sum_(j | j != i) `|A i j| <= `|A i i|).
Proof.
  move=> A.
  have Hs : symmetric A.
    apply/matrixP => i j; rewrite !mxE.
    by case: (unliftP ord0 i) => [? -> | ->]; case: (unliftP ord0 j) => [? -> | ->].
  have Hr : row_dominant A by apply/dominant22; rewrite normr1 ger0_norm ?ler0n // ltr1n.
  have Hd i : A i i = 2%:R by rewrite mxE; case: eqP.
  split=> //; split=> //; split; first by apply/dominant_tr; rewrite Hs.
  split=> [i | i]; first by rewrite Hd ltr0n.
  rewrite Hd ger0_norm ?ler0n // -[X in _ <= X%:R]/(1 + 1)%N natrD ler_add2l.
  rewrite big_mkcond /= big_ord_recl /= big_ord_recl /= big_ord0 addr0 !mxE.
  by case: (unliftP ord0 i) => [j -> | ->]; rewrite ?(ord1 j) /= ?addr0 ?add0r normr1.
Qed.
