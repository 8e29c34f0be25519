(** * Property C101: how errors of the arguments spread
    Exact arithmetic over any ordered field; [compare A B e] is the library's own
    tolerance test.  If the elements of the arguments are off by at most [e], by how
    much are the results off? *)

From Coq Require Import ZArith List Lia Permutation.
From mathcomp Require Import all_ssreflect all_algebra all_fingroup.
From mathcomp Require Import zify ssrZ.
From Verif Require Import Base Scalar Model CInt Spec Loops Struct Exact ExactLemmas Alg Det Inv Pow Order Stat StatExact Conv ConvExact SimExact Preds PropAlg PropPred PropStat PropIneq.
Set Implicit Arguments.
Unset Strict Implicit.
Unset Printing Implicit Defensive.
Import mathcomp.ssreflect.order.Order.TTheory GRing.Theory Num.Theory.
Local Notation ltP := ssrnat.ltP (only parsing).
Local Notation leP := ssrnat.leP (only parsing).
Local Open Scope ring_scope.
Delimit Scope Z_scope with Z.

Section Exact.
Variables (R : realFieldType) (sq : R -> outcome R).
Notation K := (ordS sq).

(** ** Moving elements, sums, absolute values *)

Theorem c101_trans n m (A A' : matrix R) e : shape n m A -> shape n m A' ->
  (let* X := trans K n m A in let* X' := trans K n m A' in compare K m n X X' e) =
  compare K n m A A' e.
Proof.
move=> H H'; tomx H; tomx H'; rewrite !trans_mx /=.
have [b [-> Hb]] := c34_compare sq X X0 e; have [c [-> Hc]] := c34_compare sq X^T X0^T e.
congr Ok; apply/idP/idP => H.
  by apply/Hb => i j; have := (proj1 Hc H) j i; rewrite !mxE.
by apply/Hc => i j; have := (proj1 Hb H) j i; rewrite !mxE.
Qed.

Theorem c101_sum n m (A A' B B' : matrix R) d e :
  shape n m A -> shape n m A' -> shape n m B -> shape n m B' ->
  compare K n m A A' d = Ok true -> compare K n m B B' e = Ok true ->
  (let* X := sum K n m A B in let* X' := sum K n m A' B' in compare K n m X X' (d + e)) = Ok true /\
  (let* X := sub K n m A B in let* X' := sub K n m A' B' in compare K n m X X' (d + e)) = Ok true.
Proof.
move=> H1 H2 H3 H4; tomx H1; tomx H2; tomx H3; tomx H4 => /compareP Hd /compareP He.
rewrite !sum_mx !sub_mx /=; split; apply/compareP => i j; rewrite !mxE.
  rewrite opprD addrACA; apply: le_trans (ler_norm_add _ _) _; exact: ler_add.
rewrite opprB [X2 i j - _]addrC addrACA [- _ + X2 i j]addrC -[X2 i j - _]opprB.
apply: le_trans (ler_norm_add _ _) _; rewrite normrN; exact: ler_add.
Qed.

(** Adding the same number to both changes nothing; a factor scales the distance. *)
Theorem c101_scalar n m (A A' : matrix R) s e : shape n m A -> shape n m A' ->
  (let* X := sum_scalar K n m A s in let* X' := sum_scalar K n m A' s in compare K n m X X' e) =
    compare K n m A A' e /\
  (compare K n m A A' e = Ok true ->
   (let* X := mult_scalar K n m A s in let* X' := mult_scalar K n m A' s in
    compare K n m X X' (e * `|s|)) = Ok true).
Proof.
move=> H1 H2; tomx H1; tomx H2; rewrite !sum_scalar_mx !mult_scalar_mx /=; split.
  have [b [-> Hb]] := c34_compare sq X X0 e.
  have [c [-> Hc]] := c34_compare sq (X + const_mx s) (X0 + const_mx s) e.
  have D i j : (X + const_mx s) i j - (X0 + const_mx s) i j = X i j - X0 i j.
    by rewrite !mxE opprD addrACA subrr addr0.
  congr Ok; apply/idP/idP => H.
    by apply/Hb => i j; have := (proj1 Hc H) i j; rewrite D.
  by apply/Hc => i j; rewrite D; exact: (proj1 Hb H).
move=> /compareP H; apply/compareP => i j; rewrite !mxE -mulrBl normrM.
by apply: ler_wpmul2r.
Qed.

Theorem c101_abs n m (J J' A A' : matrix R) e :
  shape n m J -> shape n m J' -> shape n m A -> shape n m A' ->
  compare K n m A A' e = Ok true ->
  (let* X := Model.abs K n m J A in let* X' := Model.abs K n m J' A' in compare K n m X X' e) = Ok true.
Proof.
move=> /(shape_mk 0) [f ->] /(shape_mk 0) [g ->] H1 H2; tomx H1; tomx H2 => /compareP H.
rewrite !c36_abs /=; apply/compareP => i j; rewrite !mxE.
by apply: le_trans (ler_dist_dist _ _) _.
Qed.

(** ** Products *)

Lemma prod_near n m p (A A' : 'M[R]_(n, m)) (B B' : 'M[R]_(m, p)) a b d e :
  (forall i j, `|A i j| <= a) -> (forall i j, `|B' i j| <= b) ->
  (forall i j, `|A i j - A' i j| <= d) -> (forall i j, `|B i j - B' i j| <= e) ->
  forall i j, `|(A *m B) i j - (A' *m B') i j| <= m%:R * (a * e + d * b).
Proof.
move=> Ha Hb Hd He i j; rewrite !mxE -sumrB.
apply: le_trans (ler_norm_sum _ _ _) _.
have -> : m%:R * (a * e + d * b) = \sum_(k < m) (a * e + d * b).
  by rewrite sumr_const card_ord mulr_natl.
apply: ler_sum => k _.
have -> : A i k * B k j - A' i k * B' k j = A i k * (B k j - B' k j) + (A i k - A' i k) * B' k j.
  by rewrite mulrBr mulrBl addrA subrK.
apply: le_trans (ler_norm_add _ _) _; rewrite !normrM.
by apply: ler_add; apply: ler_pmul.
Qed.

Theorem c101_mult n m p (A A' : 'M[R]_(n, m)) (B B' : 'M[R]_(m, p)) a b d e :
  (forall i j, `|A i j| <= a) -> (forall i j, `|B' i j| <= b) ->
  compare K n m (mxrows A) (mxrows A') d = Ok true ->
  compare K m p (mxrows B) (mxrows B') e = Ok true ->
  (let* X := mult K n m p (mxrows A) (mxrows B) in
   let* X' := mult K n m p (mxrows A') (mxrows B') in
   compare K n p X X' (m%:R * (a * e + d * b))) = Ok true.
Proof.
move=> Ha Hb /compareP Hd /compareP He; rewrite !mult_mx /=; apply/compareP.
exact: prod_near.
Qed.

Theorem c101_strassen (A A' B B' : 'M[R]_2) a b d e :
  (forall i j, `|A i j| <= a) -> (forall i j, `|B' i j| <= b) ->
  compare K 2 2 (mxrows A) (mxrows A') d = Ok true ->
  compare K 2 2 (mxrows B) (mxrows B') e = Ok true ->
  (let* X := strassen K (mxrows A) (mxrows B) in
   let* X' := strassen K (mxrows A') (mxrows B') in
   compare K 2 2 X X' (2%:R * (a * e + d * b))) = Ok true.
Proof.
move=> Ha Hb /compareP Hd /compareP He; rewrite !strassen_mx /=; apply/compareP.
exact: prod_near.
Qed.

Lemma entry_ge0 n m (A : 'M[R]_(n, m)) a : (forall i j, `|A i j| <= a) -> 'I_n -> 'I_m -> 0 <= a.
Proof. by move=> H i j; exact: le_trans (normr_ge0 _) (H i j). Qed.

Lemma pow_bound n (A : 'M[R]_n) a p : (forall i j, `|A i j| <= a) ->
  forall i j, `|mxpow A p.+1 i j| <= (n%:R * a) ^+ p * a.
Proof.
move=> Ha; elim: p => [|p IH] i j; first by rewrite mxpow1 expr0 mul1r.
have a0 := entry_ge0 Ha i j.
rewrite [mxpow _ _]/= mxE; apply: le_trans (ler_norm_sum _ _ _) _.
have -> : (n%:R * a) ^+ p.+1 * a = \sum_(k < n) a * ((n%:R * a) ^+ p * a).
  by rewrite sumr_const card_ord -[RHS]mulr_natl exprS !mulrA.
apply: ler_sum => k _; rewrite normrM; apply: ler_pmul => //; exact: IH.
Qed.

Theorem c101_pow n w (A A' : 'M[R]_n) a e p : (1 <= w)%Z -> (Z.of_nat p < 2 ^ (w - 1))%Z ->
  (forall i j, `|A i j| <= a) -> (forall i j, `|A' i j| <= a) ->
  compare K n n (mxrows A) (mxrows A') e = Ok true ->
  (let* X := pow K n w (mxrows A) (Z.of_nat p) in
   let* X' := pow K n w (mxrows A') (Z.of_nat p) in
   compare K n n X X' (p%:R * (n%:R * a) ^+ p.-1 * e)) = Ok true.
Proof.
move=> Hw Hp Ha Ha' /compareP He; rewrite !pow_mx //=; apply/compareP.
case: p {Hw Hp} => [|p] i j; first by rewrite subrr normr0 !mul0r.
elim: p i j => [|p IH] i j; first by rewrite !mxpow1 mul1r expr0 mul1r; exact: He.
have := prod_near Ha (pow_bound p Ha') He IH i j.
move=> H; apply: (le_trans H).
rewrite -[p.+1.-1]/p -[p.+2.-1]/(p.+1) mulrDr.
rewrite [X in X + _](_ : _ = p.+1%:R * (n%:R * a) ^+ p.+1 * e); last first.
  by rewrite exprS -!mulrA [RHS]mulrCA; congr (_ * _); rewrite [RHS]mulrCA.
rewrite [X in _ + X](_ : _ = (n%:R * a) ^+ p.+1 * e); last first.
  by rewrite exprS [e * _]mulrC [_ ^+ p * a]mulrC -!mulrA.
by rewrite [p.+2%:R]mulrSr mulrDl mul1r mulrDl.
Qed.

(** ** det *)

Lemma bigprod_near n (x y : 'I_n -> R) a e :
  (forall i, `|x i| <= a) -> (forall i, `|y i| <= a) -> (forall i, `|x i - y i| <= e) ->
  `|\prod_i x i - \prod_i y i| <= n%:R * a ^+ n.-1 * e /\ `|\prod_i x i| <= a ^+ n.
Proof.
elim: n x y => [|n IH] x y Hx Hy He; first by rewrite !big_ord0 subrr normr0 normr1 !mul0r expr0.
have a0 : 0 <= a by exact: le_trans (normr_ge0 _) (Hx ord0).
have [H1 H2] := IH (x \o lift ord0) (y \o lift ord0) (fun i => Hx _) (fun i => Hy _) (fun i => He _).
rewrite !big_ord_recl; split; last by rewrite normrM exprS; apply: ler_pmul.
set P := \prod_i _ in H1 H2 *; set Q := \prod_i _ in H1 *.
have -> : x ord0 * P - y ord0 * Q = (x ord0 - y ord0) * P + y ord0 * (P - Q).
  by rewrite mulrBl mulrBr addrA subrK.
apply: le_trans (ler_norm_add _ _) _; rewrite !normrM.
rewrite [n.+1%:R]mulrSr addrC mulrDl mul1r mulrDl.
apply: ler_add; last by rewrite mulrC; apply: ler_pmul.
apply: le_trans (ler_pmul (normr_ge0 _) (normr_ge0 _) (Hy ord0) H1) _.
case: n {IH x y Hx Hy He H1 H2 P Q} => [|n]; first by rewrite !mul0r mulr0.
by rewrite /= exprS !mulrA [a * _]mulrC.
Qed.

Theorem c101_det n (A A' : 'M[R]_n) a e :
  (forall i j, `|A i j| <= a) -> (forall i j, `|A' i j| <= a) ->
  compare K n n (mxrows A) (mxrows A') e = Ok true ->
  exists d d', [/\ det K n (mxrows A) = Ok d, det K n (mxrows A') = Ok d' &
    `|d - d'| <= n`!%:R * (n%:R * a ^+ n.-1 * e)].
Proof.
move=> Ha Ha' /compareP He; exists (\det A), (\det A'); rewrite !det_mx; split=> //.
rewrite /determinant -sumrB; apply: le_trans (ler_norm_sum _ _ _) _.
have -> : n`!%:R * (n%:R * a ^+ n.-1 * e) = \sum_(s : 'S_n) (n%:R * a ^+ n.-1 * e).
  by rewrite sumr_const -[#|_|]/#|'S_n| card_Sn mulr_natl.
apply: ler_sum => s _; rewrite -mulrBr normrM normrX normrN1 expr1n mul1r.
by apply: (proj1 (bigprod_near _ _ _)) => i.
Qed.

(** ** inv *)

(** A bound [b] of the elements of the inverse tells how much A may change: up to
    n^2 b e < 1 the changed matrix is still invertible. *)
Section Inverse.
Variables (n : nat) (A A' : 'M[R]_n) (b e : R).
Hypothesis UA : A \in unitmx.
Hypothesis Hb : forall i j, `|invmx A i j| <= b.
Hypothesis He : forall i j, `|A i j - A' i j| <= e.
Let q := n%:R ^+ 2 * b * e.

Lemma triple_bound m (X : 'M[R]_(n, m)) M : (forall i j, `|X i j| <= M) ->
  forall i j, `|(invmx A *m (A - A') *m X) i j| <= q * M.
Proof.
move=> HX i j; have HD (k l : 'I_n) : `|(A - A') k l| <= e by rewrite !mxE; exact: He.
rewrite mxE; apply: le_trans (ler_norm_sum _ _ _) _.
have -> : q * M = \sum_(k < n) (n%:R * (b * e)) * M.
  by rewrite sumr_const card_ord -[RHS]mulr_natl /q expr2 !mulrA.
apply: ler_sum => k _; rewrite normrM; apply: ler_pmul => //.
rewrite mxE; apply: le_trans (ler_norm_sum _ _ _) _.
have -> : n%:R * (b * e) = \sum_(l < n) b * e by rewrite sumr_const card_ord mulr_natl.
by apply: ler_sum => l _; rewrite normrM; apply: ler_pmul.
Qed.

Lemma max_entry m (X : 'M[R]_(n, m)) : exists2 M, forall i j, `|X i j| <= M &
  M = 0 \/ exists i j, M = `|X i j|.
Proof.
have L (s : seq ('I_n * 'I_m)) : exists2 M, forall x, x \in s -> `|X x.1 x.2| <= M &
    M = 0 \/ exists i j, M = `|X i j|.
  elim: s => [|x s [M H E]]; first by exists 0 => //; left.
  case: (lerP M `|X x.1 x.2|) => C.
    exists `|X x.1 x.2|; last by right; exists x.1, x.2.
    by move=> y; rewrite in_cons => /orP [/eqP -> // | Hy]; exact: le_trans (H y Hy) C.
  exists M => // y; rewrite in_cons => /orP [/eqP -> | Hy]; [exact: ltW|exact: H].
have [M H E] := L (enum [finType of 'I_n * 'I_m]).
by exists M => // i j; apply: (H (i, j)); rewrite mem_enum.
Qed.

Hypothesis Hq : q < 1.

Lemma still_unit : A' \in unitmx.
Proof.
rewrite -unitmx_tr -row_free_unit -kermx_eq0; apply/eqP; apply: trmx_inj; rewrite trmx0.
set X := (kermx _)^T; have X0 : A' *m X = 0.
  by rewrite /X -[A' in A' *m _]trmxK -trmx_mul mulmx_ker trmx0.
have EX : X = invmx A *m (A - A') *m X.
  by rewrite -mulmxA mulmxBl X0 subr0 mulKmx.
have [M HM [M0|[i [j EM]]]] := max_entry X.
  apply/matrixP => i j; rewrite [RHS]mxE; apply/eqP; rewrite -normr_le0; apply: le_trans (HM i j) _.
  by rewrite M0.
have := triple_bound HM i j; rewrite -EX -EM => H.
have M0 : M <= 0.
  rewrite leNgt; apply/negP => Mp; move: H; rewrite leNgt => /negP; apply.
  by rewrite -[X in _ < X]mul1r ltr_pmul2r.
apply/matrixP => k l; rewrite [RHS]mxE; apply/eqP; rewrite -normr_le0; exact: le_trans (HM k l) M0.
Qed.

Lemma inverse_near i j : `|invmx A i j - invmx A' i j| <= q * b / (1 - q).
Proof.
have U := still_unit; have b0 := entry_ge0 Hb i j; have e0 : 0 <= e by exact: le_trans (normr_ge0 _) (He i j).
have q0 : 0 <= q by rewrite /q; do 2?[apply: mulr_ge0 => //]; apply: exprn_ge0; exact: ler0n.
have p0 : 0 < 1 - q by rewrite subr_gt0.
have EX : invmx A' - invmx A = invmx A *m (A - A') *m invmx A'.
  by rewrite mulmxBr mulVmx // mulmxBl mul1mx mulmxK.
have [M HM HE] := max_entry (invmx A').
have HD k l : `|invmx A k l - invmx A' k l| <= q * M.
  rewrite distrC; have := triple_bound HM k l; rewrite -EX !mxE; by [].
have Mb : M <= b / (1 - q).
  rewrite ler_pdivl_mulr // mulrBr mulr1 ler_subl_addr.
  case: HE => [-> | [k [l EM]]]; first by rewrite mul0r addr0.
  rewrite {1}EM -[invmx A' k l](subrK (invmx A k l)) [M * q]mulrC addrC.
  apply: le_trans (ler_norm_add _ _) _; apply: ler_add; first exact: Hb.
  rewrite distrC; exact: HD.
apply: le_trans (HD i j) _; rewrite -mulrA; exact: ler_wpmul2l.
Qed.
End Inverse.

Theorem c101_inv n (A A' : 'M[R]_n) (B : 'M[R]_n) b e :
  inv K n (mxrows A) = Ok (mxrows B) -> (forall i j, `|B i j| <= b) ->
  compare K n n (mxrows A) (mxrows A') e = Ok true ->
  let q := n%:R ^+ 2 * b * e in q < 1 ->
  exists B', inv K n (mxrows A') = Ok B' /\
    compare K n n (mxrows B) B' (q * b / (1 - q)) = Ok true.
Proof.
move=> EB Hb /compareP He q Hq.
have UA : A \in unitmx.
  rewrite unitmxE unitfE; apply/eqP => D; move: EB; rewrite inv_mx_singular //.
  have: n <> 0%N by move=> n0; move: D; subst n; rewrite det_mx00; apply/eqP; exact: oner_neq0.
  by move: (mxrows B); case: (n) => [|[|[|[|k]]]].
have EB' : B = invmx A by move: EB; rewrite inv_mx // => -[] /(@mxrows_inj _ _ _ 0).
rewrite EB' in Hb *; have U := still_unit UA Hb He Hq.
exists (mxrows (invmx A')); rewrite inv_mx //; split=> //; apply/compareP => i j.
exact: inverse_near.
Qed.

(** ** Convolutions *)

Section Conv.
Variables (n m : nat) (A A' : 'M[R]_(n, m)) (k k' : 'M[R]_3).

Lemma at0B p q : at0 A p q - at0 A' p q = at0 (A - A') p q.
Proof.
have -> : A - A' = A + (-1) *: A' by rewrite scaleN1r.
by rewrite at0_add at0_scale mulN1r.
Qed.

Lemma at0_bound (B : 'M[R]_(n, m)) e p q : 0 <= e -> (forall i j, `|B i j| <= e) -> `|at0 B p q| <= e.
Proof.
move=> e0 H; rewrite /at0; case: ifP => _; last by rewrite normr0.
by case: insub => [i|]; rewrite ?normr0 //; case: insub => [j|]; rewrite ?normr0.
Qed.

Lemma corr_near a e d p q : 0 <= e -> 0 <= a ->
  (forall i j, `|A i j - A' i j| <= e) -> (forall i j, `|A' i j| <= a) ->
  (forall i j, `|k i j - k' i j| <= d) ->
  `|correlation A k p q - correlation A' k' p q| <= e * (\sum_i \sum_j `|k i j|) + 9%:R * (a * d).
Proof.
move=> e0 a0 He Ha Hd; rewrite /correlation.
have -> : 9%:R * (a * d) = \sum_(i < 3) \sum_(j < 3) a * d.
  by rewrite !sumr_const !card_ord -mulrnA mulr_natl.
rewrite mulr_sumr -big_split -sumrB; apply: le_trans (ler_norm_sum _ _ _) _; apply: ler_sum => i _ /=.
rewrite mulr_sumr -big_split -sumrB; apply: le_trans (ler_norm_sum _ _ _) _; apply: ler_sum => j _ /=.
set x := at0 A _ _; set y := at0 A' _ _.
have -> : k i j * x - k' i j * y = (x - y) * k i j + y * (k i j - k' i j).
  by rewrite mulrBl mulrBr ![_ * k i j]mulrC [y * k' i j]mulrC addrA subrK.
apply: le_trans (ler_norm_add _ _) _; rewrite !normrM; apply: ler_add.
  apply: ler_wpmul2r => //; rewrite at0B; apply: at0_bound => // r c; rewrite !mxE; exact: He.
by apply: ler_pmul => //; apply: at0_bound.
Qed.
End Conv.

(** The kernel's total of absolute values is the amplification of the matrix's error;
    an error of the kernel counts nine times the largest element. *)
Theorem c101_conv n m (A A' : 'M[R]_(n, m)) (k k' : 'M[R]_3) a d e :
  (0 < n * m)%N -> (Z.of_nat n <= 2 ^ 31)%Z -> (Z.of_nat m <= 2 ^ 31)%Z ->
  (forall i j, `|A' i j| <= a) ->
  compare K n m (mxrows A) (mxrows A') e = Ok true ->
  compare K 3 3 (mxrows k) (mxrows k') d = Ok true ->
  let t := e * (\sum_i \sum_j `|k i j|) + 9%:R * (a * d) in
  (let* X := conv2 K n m (mxrows A) (mxrows k) in let* X' := conv2 K n m (mxrows A') (mxrows k') in
   compare K n m X X' t) = Ok true /\
  (let* X := conv2_full K n m (mxrows A) (mxrows k) in let* X' := conv2_full K n m (mxrows A') (mxrows k') in
   compare K (n + 2) (m + 2) X X' t) = Ok true.
Proof.
move=> Hnm Hn Hm Ha /compareP He /compareP Hd t.
have i : 'I_n by case: (n) Hnm => // l _; exact: ord0.
have j : 'I_m by case: (m) Hnm => [|l] H; [by exfalso; lia|exact: ord0].
have e0 : 0 <= e := le_trans (normr_ge0 _) (He i j).
have a0 := entry_ge0 Ha i j.
rewrite !conv2_correlation // !conv2_full_correlation //=.
by split; apply/compareP => r c; rewrite !mxE; apply: corr_near.
Qed.

Theorem c101_conv_valid n (A A' : 'M[R]_n) (k k' : 'M[R]_3) a d e :
  (1 < n)%N -> (Z.of_nat n <= 2 ^ 31)%Z -> (forall i j, `|A' i j| <= a) ->
  compare K n n (mxrows A) (mxrows A') e = Ok true ->
  compare K 3 3 (mxrows k) (mxrows k') d = Ok true ->
  (let* X := conv2_valid K n (mxrows A) (mxrows k) in let* X' := conv2_valid K n (mxrows A') (mxrows k') in
   compare K (n - 2) (n - 2) X X' (e * (\sum_i \sum_j `|k i j|) + 9%:R * (a * d))) = Ok true.
Proof.
move=> Hn Hs Ha E1 E2; have Hnn : (0 < n * n)%N by lia.
have [H _] := c101_conv Hnn Hs Hs Ha E1 E2; move: H.
rewrite !conv2_correlation //= => /compareP H.
rewrite !conv2_valid_inside //=; apply/compareP => r c.
have Hr : (r + 1 < n)%N by have := ltn_ord r; lia.
have Hc : (c + 1 < n)%N by have := ltn_ord c; lia.
have := H (Ordinal Hr) (Ordinal Hc); rewrite !mxE /correlation.
have E (B : 'M[R]_n) (h : 'M[R]_3) : \sum_(a0 < 3) \sum_(b < 3) h a0 b *
     at0 B (pos (Ordinal Hr) + pos a0 - 1)%Z (pos (Ordinal Hc) + pos b - 1)%Z =
   \sum_(a0 < 3) \sum_(b < 3) h a0 b * mxf 0 B (r + a0) (c + b).
  apply: eq_bigr => x _; apply: eq_bigr => y _; congr (_ * _); rewrite at0E /pos /=.
  have -> : inside n n (Z.of_nat (r + 1) + Z.of_nat x - 1) (Z.of_nat (c + 1) + Z.of_nat y - 1) = true.
    have := ltn_ord r; have := ltn_ord c; have := ltn_ord x; have := ltn_ord y; rewrite /inside; lia.
  by congr (mxf 0 B _ _); lia.
by rewrite !E.
Qed.

(** ** Statistics *)

Section Stats.
Variables (n m : nat).
Hypothesis Hpos : (0 < n * m)%N.
Hypothesis Hsz : (Z.of_nat (n * m) < 2 ^ 64)%Z.

Theorem c101_mean (A A' : matrix R) e : shape n m A -> shape n m A' ->
  compare K n m A A' e = Ok true ->
  exists r r', [/\ mean K n m A = Ok r, mean K n m A' = Ok r' & `|r - r'| <= e].
Proof.
move=> H H'; tomx H; tomx H' => /compareP He.
exists (mxmean X), (mxmean X0); rewrite !mean_mx //; split=> //.
have -> : mxmean X - mxmean X0 = mxmean (X - X0).
  have -> : X - X0 = X + (-1) *: X0 by rewrite scaleN1r.
  by rewrite mxmean_add mxmean_scale mulN1r.
rewrite ler_norml mxmean_ub ?andbT //; last by move=> i j; rewrite !mxE; exact: le_trans (ler_norm _) (He i j).
by apply: mxmean_ge => // i j; rewrite !mxE; have := He i j; rewrite ler_norml => /andP [].
Qed.
End Stats.

(** the k-th smallest elements of two lists *)
Lemma count_mono2 (p q : R -> bool) (v w : seq R) : size v = size w ->
  (forall i, (i < size v)%N -> p (nth 0 v i) -> q (nth 0 w i)) ->
  (Spec.count p v <= Spec.count q w)%N.
Proof.
elim: v w => [|x v IH] [|y w] //= [E] H; rewrite !Order.count_cons.
have H0 := H 0%N isT; have := IH w E (fun i => H i.+1); rewrite /= in H0.
by case: (p x) H0 => [-> // | _]; case: (q y); rewrite /=; lia.
Qed.

Lemma kth_near (v w : seq R) s s' i x y e : size v = size w ->
  (forall j, (j < size v)%N -> `|nth 0 v j - nth 0 w j| <= e) ->
  sorts (less K) s v -> sorts (less K) s' w ->
  nth_error (s v) i = Some x -> nth_error (s' w) i = Some y -> y <= x + e.
Proof.
move=> E H So So' Ex Ey; rewrite leNgt; apply/negP => C.
have [W _] := c40_exact_order sq v; have [W' _] := c40_exact_order sq w.
have B := @sorts_below _ _ _ W' _ _ _ So' Ey.
have Ab := @sorts_above _ _ _ W _ _ _ So Ex.
have L : (i < size v)%N.
  have : (i < length (s v))%coq_nat by apply: (proj1 (nth_error_Some _ _)); rewrite Ex.
  by rewrite (@sorts_length _ _ _ _ So) => /ltP.
have N := @count_negb _ (fun y => less K x y) v.
have M : (Spec.count (fun z => negb (less K x z)) v <= Spec.count (fun z => less K z y) w)%N.
  apply: count_mono2 => // j Hj; rewrite /less /= -leNgt => Hx.
  apply: le_lt_trans C; rewrite addrC -ler_subl_addr.
  have := H j Hj; rewrite distrC => /(le_trans (ler_norm _)); apply: le_trans.
  by rewrite ler_add2l ler_opp2.
have F (c1 c2 c3 l : nat) : (c1 <= i)%coq_nat -> (c2 <= (l - i.+1)%coq_nat)%coq_nat ->
  c3 = (l - c2)%coq_nat -> (c3 <= c1)%N -> (i < l)%N -> False by lia.
exact: F B Ab N M L.
Qed.

Lemma elements_map n m (A : 'M[R]_(n, m)) :
  elements (mxrows A) = [seq A p.1 p.2 | p <- [seq (i, j) | i <- enum 'I_n, j <- enum 'I_m]].
Proof. by rewrite map_allpairs. Qed.

Lemma kth_elements n m (A A' : 'M[R]_(n, m)) s s' i x y e :
  (forall i j, `|A i j - A' i j| <= e) ->
  sorts (less K) s (elements (mxrows A)) -> sorts (less K) s' (elements (mxrows A')) ->
  nth_error (s (elements (mxrows A))) i = Some x -> nth_error (s' (elements (mxrows A'))) i = Some y ->
  y <= x + e.
Proof.
move=> H; rewrite !elements_map; apply: kth_near; rewrite !size_map // => j Hj.
case E: [seq (i, j) | i <- _, j <- _] Hj => [|p0 l] Hj //.
by rewrite !(nth_map p0) //; exact: H.
Qed.

(** The median moves by no more than the elements do, whatever sorts them. *)
Theorem c101_median n m (A A' : matrix R) sort sort' e : (0 < n * m)%N ->
  shape n m A -> shape n m A' ->
  sorts (less K) sort (elements A) -> sorts (less K) sort' (elements A') ->
  compare K n m A A' e = Ok true ->
  exists r r', [/\ median K sort n m A = Ok r, median K sort' n m A' = Ok r' & `|r - r'| <= e].
Proof.
move=> Hpos H H'; tomx H; tomx H' => So So' /compareP He.
have He' i j : `|X0 i j - X i j| <= e by rewrite distrC.
have [W _] := c40_exact_order sq (elements (mxrows X)).
have [W' _] := c40_exact_order sq (elements (mxrows X0)).
have D (x y : R) : y <= x + e -> x <= y + e -> `|x - y| <= e.
  by move=> H1 H2; rewrite ler_distl H2 andbT ler_subl_addr.
have [Ho|He0] : Nat.modulo (n * m) 2 = 1%N \/ Nat.modulo (n * m) 2 = 0%N.
- by have := Nat.mod_upper_bound (n * m) 2; lia.
- rewrite !(mxrowsE 0) in So So' W W' *.
  have [x [E1 [E2 _]]] := @median_odd _ _ _ _ _ W So Ho; have [y [F1 [F2 _]]] := @median_odd _ _ _ _ _ W' So' Ho.
  exists x, y; split=> //; rewrite -!(mxrowsE 0) in So So' E2 F2.
  by apply: D; [exact: kth_elements He So So' E2 F2|exact: kth_elements He' So' So F2 E2].
- rewrite !(mxrowsE 0) in So So' W W' *.
  have Hp' : (0 < n * m)%coq_nat by exact/ltP.
  have [x [x' [E1 [E2 E3]]]] := @median_even _ _ _ _ _ W So He0 Hp'.
  have [y [y' [F1 [F2 F3]]]] := @median_even _ _ _ _ _ W' So' He0 Hp'.
  have U2 : (2%:R : R) \is a GRing.unit by rewrite unitfE pnatr_eq0.
  have D2 (t : R) : exact_div t (ring_of_Z R 2) = Ok (t / 2%:R).
    by rewrite /exact_div -[ring_of_Z R 2]/(2%:R : R) U2.
  have D3 (u u' : R) : (let* t := @xadd K (@ld K u) (@ld K u') in let* q := @xdiv K t (@lit K 2) in
     Ok (@st K q)) = Ok ((u + u') / 2%:R).
    by change (bind (exact_div (u + u') (ring_of_Z R 2)) (fun q => Ok q) = Ok ((u + u') / 2%:R)); rewrite D2.
  exists ((x + x') / 2%:R), ((y + y') / 2%:R); rewrite E3 F3 !D3; split=> //.
  rewrite -!(mxrowsE 0) in So So' E1 E2 F1 F2.
  have H1 := D _ _ (kth_elements He So So' E1 F1) (kth_elements He' So' So F1 E1).
  have H2 := D _ _ (kth_elements He So So' E2 F2) (kth_elements He' So' So F2 E2).
  rewrite -mulrBl opprD addrACA normrM [`|2%:R^-1|]ger0_norm ?invr_ge0 ?ler0n //.
  rewrite ler_pdivr_mulr ?ltr0n // mulr_natr mulr2n.
  apply: le_trans (ler_norm_add _ _) _; exact: ler_add.
Qed.
End Exact.

(** ** stddev *)
Section Stddev.
Variables (R : rcfType) (n m : nat).
Hypothesis Hpos : (0 < n * m)%N.
Hypothesis Hsz : (Z.of_nat (n * m) < 2 ^ 64)%Z.
Notation K := (realS R).
Implicit Types X Y A B : 'M[R]_(n, m).

Definition had X Y : 'M[R]_(n, m) := \matrix_(i, j) (X i j * Y i j).

Lemma mean_sq_line X Y t :
  mxmean (mxsq (X + t *: Y)) = mxmean (mxsq X) + t *+ 2 * mxmean (had X Y) + t ^+ 2 * mxmean (mxsq Y).
Proof.
rewrite -!mxmean_scale -!mxmean_add; congr mxmean; apply/matrixP => i j.
by rewrite !mxE sqrrD exprMn mulrnAl mulrCA mulrA mulrAC -mulrA mulrCA.
Qed.

Lemma mean_sq_ge0 X : 0 <= mxmean (mxsq X).
Proof. by apply: mxmean_ge => // i j; rewrite mxE sqr_ge0. Qed.

Lemma cauchy X Y : mxmean (had X Y) ^+ 2 <= mxmean (mxsq X) * mxmean (mxsq Y).
Proof.
have a0 := mean_sq_ge0 X; have b0 := mean_sq_ge0 Y.
have Q t := mean_sq_ge0 (X + t *: Y).
have {Q} Q t : 0 <= mxmean (mxsq X) + t *+ 2 * mxmean (had X Y) + t ^+ 2 * mxmean (mxsq Y).
  by rewrite -mean_sq_line; exact: Q.
move: (mxmean (mxsq X)) (mxmean (mxsq Y)) (mxmean (had X Y)) a0 b0 Q => a b c a0 b0 Q.
have [b1|b1] := eqVneq b 0.
  rewrite b1 mulr0 exprn_even_le0 //=; apply/eqP; apply/eqP; apply: contraT => c0.
  have := Q (- (a + 1) / (c *+ 2)); rewrite b1 mulr0 addr0.
  have -> : (- (a + 1) / (c *+ 2)) *+ 2 * c = - (a + 1).
    rewrite -mulr_natr -mulrA [2%:R * c]mulrC mulr_natr divfK // mulrn_eq0 /=; exact: c0.
  by rewrite opprD addrA subrr add0r oppr_ge0 ler10.
have bp : 0 < b by rewrite lt_def b1.
have := Q (- (c / b)); set t := - (c / b).
have tb : t * b = - c by rewrite /t mulNr divfK.
have -> : t *+ 2 * c = t * c + t * c by rewrite mulr2n mulrDl.
rewrite expr2 -mulrA tb mulrN addrA addrK /t mulNr subr_ge0 mulrAC -expr2.
by rewrite ler_pdivr_mulr.
Qed.

Lemma sd_add A B : Num.sqrt (mxvar (A + B)) <= Num.sqrt (mxvar A) + Num.sqrt (mxvar B).
Proof.
rewrite -[X in _ <= X]ger0_norm ?addr_ge0 ?sqrtr_ge0 // -sqrtr_sqr; apply: ler_wsqrtr.
rewrite sqrrD !sqr_sqrtr ?mxvar_ge0 //.
set U := A - const_mx (mxmean A); set V := B - const_mx (mxmean B).
have E : mxvar (A + B) = mxmean (mxsq (U + 1 *: V)).
  rewrite mxvarE // scale1r; congr mxmean; congr mxsq; rewrite mxmean_add // /U /V addrACA -opprD.
  by congr (_ + - _); apply/matrixP => i j; rewrite !mxE.
rewrite E mean_sq_line expr1n mul1r -/U -/V -!mxvarE // ler_add2r ler_add2l mulr_natl ler_muln2r.
rewrite -sqrtrM ?mxvar_ge0 //; apply: le_trans (ler_norm _) _.
by rewrite -sqrtr_sqr; apply: ler_wsqrtr; rewrite !mxvarE //; exact: cauchy.
Qed.

Lemma sd_bound A e : (forall i j, `|A i j| <= e) -> Num.sqrt (mxvar A) <= e.
Proof.
move=> H; have e0 : 0 <= e.
  have i : 'I_n by case: (n) Hpos => // l _; exact: ord0.
  have j : 'I_m by case: (m) Hpos => [|l] H0; [by exfalso; lia|exact: ord0].
  exact: le_trans (normr_ge0 _) (H i j).
rewrite -[X in _ <= X]ger0_norm // -sqrtr_sqr; apply: ler_wsqrtr.
rewrite mxvar_koenig // ler_subl_addr; apply: ler_paddr; first exact: sqr_ge0.
by apply: mxmean_ub => // i j; rewrite mxE -real_normK ?num_real // ler_expn2r // ?nnegrE.
Qed.

(** The standard deviation of a sum is at most the sum of the standard deviations. *)
Theorem c101_stddev_sum (A B : matrix R) : shape n m A -> shape n m B ->
  exists C r s t, [/\ sum K n m A B = Ok C, stddev K n m A = Ok r, stddev K n m B = Ok s,
    stddev K n m C = Ok t & t <= r + s].
Proof.
move=> H H'; tomx H; tomx H'; exists (mxrows (X + X0)); do 3 eexists.
rewrite sum_mx !stddev_mx //; split; [by []..|exact: sd_add].
Qed.

(** It moves by no more than the elements do. *)
Theorem c101_stddev (A A' : matrix R) e : shape n m A -> shape n m A' ->
  compare K n m A A' e = Ok true ->
  exists r r', [/\ stddev K n m A = Ok r, stddev K n m A' = Ok r' & `|r - r'| <= e].
Proof.
move=> H H'; tomx H; tomx H' => /compareP He; do 2 eexists; rewrite !stddev_mx //; split; [by []..|].
have L (P Q : 'M[R]_(n, m)) : (forall i j, `|P i j - Q i j| <= e) ->
  Num.sqrt (mxvar P) <= Num.sqrt (mxvar Q) + e.
  move=> HD; rewrite -{1}(subrK Q P) [P - Q + Q]addrC; apply: le_trans (sd_add _ _) _.
  by rewrite ler_add2l; apply: sd_bound => i j; rewrite !mxE.
rewrite ler_distl ler_subl_addr !L // => i j; by rewrite distrC.
Qed.
End Stddev.

Print Assumptions c101_trans.
Print Assumptions c101_sum.
Print Assumptions c101_scalar.
Print Assumptions c101_abs.
Print Assumptions c101_mult.
Print Assumptions c101_strassen.
Print Assumptions c101_pow.
Print Assumptions c101_det.
Print Assumptions c101_inv.
Print Assumptions c101_conv.
Print Assumptions c101_conv_valid.
Print Assumptions c101_mean.
Print Assumptions c101_median.
Print Assumptions c101_stddev_sum.
Print Assumptions c101_stddev.

(** An invertible matrix, and one within 1/100 of it: n^2 b e = 8/100 *)
Example c101_ex (sq : rat -> outcome rat) (K := ordS sq) :
  compare K 2 2 [:: [:: 2%:R; 1]; [:: 1; 1]] [:: [:: 2%:R; 1]; [:: 1; 1 + 1 / 100%:R]] (1 / 100%:R) = Ok true /\
  inv K 2 [:: [:: 2%:R; 1]; [:: 1; 1]] = Ok [:: [:: 1; - 1]; [:: - 1; 2%:R]] /\
  (2%:R ^+ 2 * 2%:R * (1 / 100%:R) < 1 :> rat).
Proof. by repeat split; vm_compute. Qed.

(** The condition n^2 b e < 1 of [c101_inv] cannot be weakened: at n^2 b e = 1 the other matrix
    may be singular. *)
Theorem c101_inv_limit (sq : rat -> outcome rat) (K := ordS sq) :
  [/\ inv K 1 [:: [:: 1]] = Ok [:: [:: 1]], compare K 1 1 [:: [:: 1]] [:: [:: 0]] 1 = Ok true &
   inv K 1 [:: [:: 0]] = UB DivByZero].
Proof. by split; vm_compute. Qed.
Print Assumptions c101_inv_limit.

(** The bound of [c101_mult] is reached: 1*1 + 1*1 against 0*1 + 0*1 with d = 1, e = 0. *)
Theorem c101_mult_reached (sq : rat -> outcome rat) (K := ordS sq) :
  let near e := (let* X := mult K 1 2 1 [:: [:: 1; 1]] [:: [:: 1]; [:: 1]] in
    let* X' := mult K 1 2 1 [:: [:: 0; 0]] [:: [:: 1]; [:: 1]] in compare K 1 1 X X' e) in
  near 2%:R = Ok true /\ near (199%:R / 100%:R) = Ok false.
Proof. by split; vm_compute. Qed.
Print Assumptions c101_mult_reached.

(** histogram, isSymetric and the solvability tests are not continuous: arguments as close as
    one likes give different answers. *)
Theorem c101_jump (sq : rat -> outcome rat) (K := ordS sq) (e : rat) : 0 < e ->
  [/\ compare K 2 2 [:: [:: 1; 0]; [:: 0; 1]] [:: [:: 1; e]; [:: 0; 1]] e = Ok true,
   isSymetric K 2 [:: [:: 1; 0]; [:: 0; 1]] = Ok true & isSymetric K 2 [:: [:: 1; e]; [:: 0; 1]] = Ok false].
Proof.
move=> e0; have E : compare K 2 2 [:: [:: 1; 0]; [:: 0; 1]] [:: [:: 1; e]; [:: 0; 1]] e = Ok true.
  have -> : [:: [:: 1; 0]; [:: 0; 1]] = mxrows (mx22 1 0 0 1 : 'M[rat]_2).
    by rewrite /mxrows !enum_ordSl enum_ord0 /= !mxE.
  have -> : [:: [:: 1; e]; [:: 0; 1]] = mxrows (mx22 1 e 0 1 : 'M[rat]_2).
    by rewrite /mxrows !enum_ordSl enum_ord0 /= !mxE.
  apply/compareP => i j; rewrite !mxE; case: ifP => _; case: ifP => _; rewrite ?subrr ?normr0; try exact: ltW.
  by rewrite sub0r normrN ger0_norm; last exact: ltW.
have N : negb ((0 : rat) == e) = true by rewrite eq_sym (gt_eqF e0).
split=> //; rewrite /isSymetric /for_ret /=; rewrite /for_ret /= N //.
Qed.
Print Assumptions c101_jump.
