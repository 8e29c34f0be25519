(** * Property C104: the long run - powers, iterations and steady states
    Exact arithmetic over an ordered field; [compare A B e] is the library's own
    tolerance test.  The loops below are the user's: they repeat library calls. *)

From Coq Require Import ZArith List Lia.
From mathcomp Require Import all_ssreflect all_algebra.
From mathcomp Require Import zify.
From Verif Require Import Base Scalar Model Spec Loops Struct Exact ExactLemmas Alg Det Inv Pow Order Preds PropAlg PropPred PropClass PropDom Long.
Set Implicit Arguments.
Unset Strict Implicit.
Unset Printing Implicit Defensive.
Import mathcomp.ssreflect.order.Order.TTheory GRing.Theory Num.Theory.
Local Notation ltP := ssrnat.ltP (only parsing).
Local Notation leP := ssrnat.leP (only parsing).
Local Open Scope ring_scope.
Delimit Scope Z_scope with Z.

Section Exact.
Variables (R : realFieldType) (sq : R -> outcome R).
Notation K := (ordS sq).

Lemma pow_is n w (A B : 'M[R]_n) m : (1 <= w)%Z -> (Z.of_nat m < 2 ^ (w - 1))%Z ->
  pow K n w (mxrows A) (Z.of_nat m) = Ok (mxrows B) -> mxpow A m = B.
Proof. by move=> Hw Hm; rewrite c25_pow // => -[] /(@mxrows_inj _ _ _ 0). Qed.

(** ** Powers that die out *)

(** If the rows of [A] add up (in absolute value) to at most [c] and those of its m-th power
    to at most [q], the rows of the p-th power add up to at most [c^(p mod m) q^(p div m)]. *)
Theorem c104_decay n w (A B : 'M[R]_n) c q m p : (1 <= w)%Z ->
  (Z.of_nat m < 2 ^ (w - 1))%Z -> (Z.of_nat p < 2 ^ (w - 1))%Z -> 0 <= c -> 0 <= q ->
  (forall i, \sum_j `|A i j| <= c) ->
  pow K n w (mxrows A) (Z.of_nat m) = Ok (mxrows B) -> (forall i, \sum_j `|B i j| <= q) ->
  exists P : 'M[R]_n, pow K n w (mxrows A) (Z.of_nat p) = Ok (mxrows P) /\
    forall i, \sum_j `|P i j| <= c ^+ (p %% m) * q ^+ (p %/ m).
Proof.
move=> Hw Hm Hp c0 q0 HA /pow_is EB HB; exists (mxpow A p); rewrite c25_pow //; split=> //.
by apply: rows_pow_div => //; rewrite EB.
Qed.

(** ** Iterative refinement with an approximate inverse [C]: X = X + C*(b - A*X) *)
Definition refine n m (A C b : matrix R) (k : nat) (X : matrix R) : outcome (matrix R) :=
  for_ 0 k (fun _ X =>
    let* P := mult K n n m A X in
    let* D := sub K n m b P in
    let* E := mult K n n m C D in
    sum K n m X E) X.

Fixpoint refinements n m (A C : 'M[R]_n) (b X : 'M[R]_(n, m)) k : 'M[R]_(n, m) :=
  if k is k'.+1 then let Y := refinements A C b X k' in Y + C *m (b - A *m Y) else X.

Lemma refine_mx n m (A C : 'M[R]_n) (b X : 'M[R]_(n, m)) k :
  refine n m (mxrows A) (mxrows C) (mxrows b) k (mxrows X) = Ok (mxrows (refinements A C b X k)).
Proof.
elim: k => [//|k IH]; rewrite /refine for_snoc; last exact/leP.
by move: IH; rewrite /refine => -> /=; rewrite mult_mx /= sub_mx /= mult_mx /= sum_mx.
Qed.

Lemma elts_pow n m q e k (A C : 'M[R]_n) (b X Y : 'M[R]_(n, m)) : A *m Y = b ->
  rows_upto q (1%:M - C *m A) -> elts_upto e (X - Y) ->
  elts_upto (q ^+ k * e) (refinements A C b X k - Y).
Proof.
move=> EY Hq He i j.
have q0 : 0 <= q by apply: le_trans (Hq i); exact: sumr_ge0.
have e0 : 0 <= e by exact: le_trans (He i j).
move: i j; elim: k => [|k IH]; first by rewrite expr0 mul1r.
rewrite /= (refine_step _ _ EY) exprS -mulrA; apply: rows_elts_mul => //.
by apply: mulr_ge0 => //; exact: exprn_ge0.
Qed.

(** The distance to the solution [inv(A)*b] is multiplied by at most [q] in every step. *)
Theorem c104_refine n m (A C : 'M[R]_n) (b X : 'M[R]_(n, m)) q k : q < 1 ->
  (forall i, \sum_j `|(1%:M - C *m A) i j| <= q) ->
  exists Y Xk : 'M[R]_(n, m),
    [/\ (let* B := inv K n (mxrows A) in mult K n n m B (mxrows b)) = Ok (mxrows Y),
        A *m Y = b,
        refine n m (mxrows A) (mxrows C) (mxrows b) k (mxrows X) = Ok (mxrows Xk) &
        forall e, compare K n m (mxrows X) (mxrows Y) e = Ok true ->
          compare K n m (mxrows Xk) (mxrows Y) (q ^+ k * e) = Ok true].
Proof.
move=> q1 Hq; have [UA _] := left_unit q1 Hq.
exists (invmx A *m b), (refinements A C b X k).
have EY : A *m (invmx A *m b) = b by rewrite mulmxA mulmxV ?mul1mx.
rewrite inv_mx //= mult_mx refine_mx; split=> // e /compareP /eltsB He; apply/compareP/eltsB.
exact: elts_pow.
Qed.

(** When to stop: if a step changes no element by more than [d], the result is within
    [q*d/(1-q)] of the solution. *)
Theorem c104_refine_stop n m (A C : 'M[R]_n) (b X : 'M[R]_(n, m)) q d : q < 1 ->
  (forall i, \sum_j `|(1%:M - C *m A) i j| <= q) ->
  exists Y X' : 'M[R]_(n, m),
    [/\ (let* B := inv K n (mxrows A) in mult K n n m B (mxrows b)) = Ok (mxrows Y),
        refine n m (mxrows A) (mxrows C) (mxrows b) 1 (mxrows X) = Ok (mxrows X') &
        compare K n m (mxrows X) (mxrows X') d = Ok true ->
        compare K n m (mxrows X') (mxrows Y) (q * d / (1 - q)) = Ok true].
Proof.
move=> q1 Hq; have [UA _] := left_unit q1 Hq.
exists (invmx A *m b), (refinements A C b X 1); rewrite inv_mx //= mult_mx refine_mx.
split=> // /compareP /eltsB Hd; apply/compareP/eltsB => i j.
have EY : A *m (invmx A *m b) = b by rewrite mulmxA mulmxV ?mul1mx.
set Y := invmx A *m b in EY *; set X' := X + C *m (b - A *m X) in Hd *.
have ES : X' - Y = (1%:M - C *m A) *m (X - Y) by exact: refine_step.
have EX : X - Y = invmx (C *m A) *m (X - X').
  have -> : X - X' = C *m A *m (X - Y).
    rewrite -[X - X'](subrKA Y) addrC -[Y - X']opprB ES mulmxBl mul1mx.
    by rewrite opprB subrK.
  by rewrite mulmxA mulVmx ?mul1mx // (near1_unit q1 Hq).
have q0 : 0 <= q by apply: le_trans (Hq i); exact: sumr_ge0.
have d0 : 0 <= d by exact: le_trans (Hd i j).
have r0 : 0 <= (1 - q)^-1 by rewrite invr_ge0 subr_ge0 ltW.
have H1 : elts_upto ((1 - q)^-1 * d) (X - Y) by rewrite EX; apply: rows_elts_mul => //; exact: near1_inv.
have := @rows_elts_mul _ _ _ _ q _ (1%:M - C *m A) (X - Y) (mulr_ge0 r0 d0) Hq H1 i j.
by rewrite -ES [_^-1 * d]mulrC mulrA.
Qed.

(** In particular (Jacobi's method): [C] holds the reciprocals of the diagonal of [A]. *)
Theorem c104_jacobi n m (A : 'M[R]_n) (b X : 'M[R]_(n, m)) q k : q < 1 ->
  (forall i, A i i != 0) -> (forall i, \sum_(j | j != i) `|A i j| <= q * `|A i i|) ->
  let C : 'M[R]_n := diag_mx (\row_i (A i i)^-1) in
  exists Y Xk : 'M[R]_(n, m),
    [/\ (let* B := inv K n (mxrows A) in mult K n n m B (mxrows b)) = Ok (mxrows Y),
        A *m Y = b,
        refine n m (mxrows A) (mxrows C) (mxrows b) k (mxrows X) = Ok (mxrows Xk) &
        forall e, compare K n m (mxrows X) (mxrows Y) e = Ok true ->
          compare K n m (mxrows Xk) (mxrows Y) (q ^+ k * e) = Ok true].
Proof.
move=> q1 Hn HA C; apply: c104_refine => // i.
have E j : (1%:M - C *m A) i j = (i == j)%:R - (A i i)^-1 * A i j.
  by rewrite /C mul_diag_mx !mxE.
rewrite (bigD1 i) //= E eqxx mulVf // subrr normr0 add0r.
rewrite (eq_bigr (fun j => `|A i i|^-1 * `|A i j|)) => [|j /negbTE Hj].
  by rewrite -mulr_sumr mulrC ler_pdivr_mulr ?normr_gt0.
by rewrite E eq_sym Hj sub0r normrN normrM normfV.
Qed.

(** ** Newton's iteration for the inverse: X = X*(eye(2) - A*X) *)
Definition newton n (A : matrix R) (k : nat) (X : matrix R) : outcome (matrix R) :=
  for_ 0 k (fun _ X =>
    let* P := mult K n n n A X in
    let* T := eye K n 2%:R in
    let* D := sub K n n T P in
    mult K n n n X D) X.

Fixpoint newtons n (A X : 'M[R]_n) k : 'M[R]_n :=
  if k is k'.+1 then let Y := newtons A X k' in Y *m (2%:R%:M - A *m Y) else X.

Lemma newton_mx n (A X : 'M[R]_n) k :
  newton n (mxrows A) k (mxrows X) = Ok (mxrows (newtons A X k)).
Proof.
elim: k => [//|k IH]; rewrite /newton for_snoc; last exact/leP.
by move: IH; rewrite /newton => -> /=; rewrite mult_mx /= eye_mx /= sub_mx /= mult_mx.
Qed.

Lemma newtons_res n (A X : 'M[R]_n) k :
  1%:M - A *m newtons A X k = mxpow (1%:M - A *m X) (2 ^ k).
Proof.
elim: k => [|k IH] /=; first by rewrite mulmx1.
have -> : 2%:R%:M = 1%:M + 1%:M :> 'M[R]_n by rewrite -raddfD.
by rewrite newton_step IH -mxpowD expnS mul2n addnn.
Qed.

(** The number of correct digits doubles: after [k] steps the error is [c/(1-q)*q^(2^k)]. *)
Theorem c104_newton n (A X : 'M[R]_n) q c k : q < 1 -> 0 <= c ->
  (forall i, \sum_j `|(1%:M - A *m X) i j| <= q) -> (forall i, \sum_j `|X i j| <= c) ->
  exists B Xk : 'M[R]_n,
    [/\ inv K n (mxrows A) = Ok (mxrows B), newton n (mxrows A) k (mxrows X) = Ok (mxrows Xk) &
        compare K n n (mxrows Xk) (mxrows B) (c / (1 - q) * q ^+ (2 ^ k)) = Ok true].
Proof.
move=> q1 c0 Hq Hc; have U := near1_unit q1 Hq.
have UA : A \in unitmx by move: U; rewrite unitmx_mul => /andP [].
exists (invmx A), (newtons A X k); rewrite inv_mx // newton_mx; split=> //; apply/compareP/eltsB => i j.
have q0 : 0 <= q by apply: le_trans (Hq i); exact: sumr_ge0.
have r0 : 0 <= (1 - q)^-1 by rewrite invr_ge0 subr_ge0 ltW.
have EI : invmx A = X *m invmx (A *m X).
  by rewrite -[LHS]mulmx1 -(mulmxV U) -[A *m X *m _]mulmxA mulKmx.
have RI : rows_upto (c / (1 - q)) (invmx A) by rewrite EI; apply: rows_mul => //; exact: near1_inv.
have D : newtons A X k - invmx A = - (invmx A *m mxpow (1%:M - A *m X) (2 ^ k)).
  by rewrite -newtons_res mulmxBr mulmx1 mulKmx // opprB.
have RP := rows_mul (exprn_ge0 (2 ^ k) q0) RI (rows_pow (2 ^ k) q0 Hq).
have ON (M : 'M[R]_n) a l : (- M) a l = - M a l by rewrite mxE.
by have := rows_elts RP i j; rewrite D ON normrN.
Qed.

(** ** Sums of powers: X = eye + A*X *)
Definition series n (A : matrix R) (k : nat) (X : matrix R) : outcome (matrix R) :=
  for_ 0 k (fun _ X =>
    let* P := mult K n n n A X in
    let* J := eye1 K n in
    sum K n n J P) X.

Definition psum n (A : 'M[R]_n) k : 'M[R]_n := \sum_(i < k.+1) mxpow A i.

Lemma psumS n (A : 'M[R]_n) k : psum A k.+1 = 1%:M + A *m psum A k.
Proof. by rewrite /psum big_ord_recl /= mulmx_sumr. Qed.

Lemma series_mx n (A : 'M[R]_n) k :
  series n (mxrows A) k (mxrows (1%:M : 'M[R]_n)) = Ok (mxrows (psum A k)).
Proof.
elim: k => [|k IH]; first by rewrite /psum big_ord1.
rewrite /series for_snoc; last exact/leP.
by move: IH; rewrite /series => -> /=; rewrite mult_mx /= eye1_mx /= sum_mx psumS.
Qed.

Lemma psum_left n (A : 'M[R]_n) k : (1%:M - A) *m psum A k = 1%:M - mxpow A k.+1.
Proof.
elim: k => [|k IH]; first by rewrite /psum big_ord1 /= !mulmx1.
have -> : psum A k.+1 = psum A k + mxpow A k.+1 by rewrite /psum big_ord_recr.
by rewrite mulmxDr IH mulmxBl mul1mx addrA subrK.
Qed.

Lemma psum_tail n (A : 'M[R]_n) k : 1%:M - A \in unitmx ->
  invmx (1%:M - A) - psum A k = invmx (1%:M - A) *m mxpow A k.+1.
Proof.
move=> U; have E : psum A k = invmx (1%:M - A) *m (1%:M - mxpow A k.+1) by rewrite -psum_left mulKmx.
by rewrite E mulmxBr mulmx1 opprB addrC subrK.
Qed.

(** [eye + A + A^2 + ... + A^k] is within [q^(k+1)/(1-q)] of [inv(eye - A)]. *)
Theorem c104_series n (A : 'M[R]_n) q k : q < 1 -> (forall i, \sum_j `|A i j| <= q) ->
  exists N S : 'M[R]_n,
    [/\ (let* J := eye1 K n in let* D := sub K n n J (mxrows A) in inv K n D) = Ok (mxrows N),
        (let* J := eye1 K n in series n (mxrows A) k J) = Ok (mxrows S),
        compare K n n (mxrows N) (mxrows S) (q ^+ k.+1 / (1 - q)) = Ok true &
        S = \sum_(i < k.+1) mxpow A i].
Proof.
move=> q1 Hq; have Hq' : rows_upto q (1%:M - (1%:M - A)) by rewrite opprB addrC subrK.
have U := near1_unit q1 Hq'.
exists (invmx (1%:M - A)), (psum A k); rewrite eye1_mx /= sub_mx /= inv_mx // series_mx; split=> //.
apply/compareP/eltsB => i j; have q0 : 0 <= q by apply: le_trans (Hq i); exact: sumr_ge0.
rewrite psum_tail // [_ / _]mulrC.
exact: (rows_elts (rows_mul (exprn_ge0 _ q0) (near1_inv q1 Hq') (rows_pow k.+1 q0 Hq))).
Qed.

(** *** without negative elements (absorbing chains, input-output tables) *)
Lemma nonneg_inv n (B : 'M[R]_n) q : q < 1 -> (forall i j, 0 <= B i j) -> rows_upto q B ->
  forall i j, 0 <= invmx (1%:M - B) i j.
Proof.
move=> q1 B0 Hq i j.
have Hq' : rows_upto q (1%:M - (1%:M - B)) by rewrite opprB addrC subrK.
have U := near1_unit q1 Hq'; pose N := invmx (1%:M - B).
have EN : N = 1%:M + B *m N by rewrite -{1}[N]mul1mx -[X in X *m N](subrK B) mulmxDl mulmxV.
have [l _ Hl] := @arg_minP _ _ _ i xpredT (fun k => N k j) isT.
apply: (@le_trans _ _ (N l j)); last exact: Hl.
rewrite leNgt; apply/negP => Ln.
have : N l j >= q * N l j.
  rewrite {2}EN mxE; apply: (@le_trans _ _ ((B *m N) l j)); last by rewrite ler_addr mxE ler0n.
  rewrite mxE; apply: (@le_trans _ _ (\sum_k B l k * N l j)).
    rewrite -mulr_suml; apply: ler_wnmul2r; first exact: ltW.
    apply: le_trans (Hq l).
    by apply: ler_sum => k _; exact: ler_norm.
  by apply: ler_sum => k _; rewrite ler_wpmul2l //; exact: Hl.
by rewrite -{2}[N l j]mul1r ler_nmul2r // leNgt q1.
Qed.

Lemma nonneg_mul n m p (A : 'M[R]_(n, m)) (B : 'M[R]_(m, p)) : (forall i j, 0 <= A i j) ->
  (forall i j, 0 <= B i j) -> forall i j, 0 <= (A *m B) i j.
Proof. by move=> HA HB i j; rewrite mxE; apply: sumr_ge0 => k _; exact: mulr_ge0. Qed.

Lemma nonneg_pow n (A : 'M[R]_n) p : (forall i j, 0 <= A i j) -> forall i j, 0 <= mxpow A p i j.
Proof.
by move=> HA; elim: p => [|p IH] /=; [move=> i j; rewrite mxE ler0n | exact: nonneg_mul].
Qed.

(** If [A] has no negative element and some power of it has row sums below one, then [eye - A]
    can be inverted, no element of the inverse is negative, and every sum of powers stays
    below it. *)
Theorem c104_absorbing n w (A B : 'M[R]_n) q m k : (1 <= w)%Z -> (0 < m)%N ->
  (Z.of_nat m < 2 ^ (w - 1))%Z ->
  (forall i j, 0 <= A i j) -> pow K n w (mxrows A) (Z.of_nat m) = Ok (mxrows B) ->
  q < 1 -> (forall i, \sum_j B i j <= q) ->
  exists N S : 'M[R]_n,
    [/\ (let* J := eye1 K n in let* D := sub K n n J (mxrows A) in inv K n D) = Ok (mxrows N),
        (let* J := eye1 K n in series n (mxrows A) k J) = Ok (mxrows S),
        N *m (1%:M - A) = 1%:M &
        forall i j, 0 <= S i j <= N i j].
Proof.
move=> Hw; case: m => // m _ Hm A0 /pow_is EB q1 Hq; have {EB} := EB Hw Hm => EB.
have B0 i j : 0 <= B i j by rewrite -EB; exact: nonneg_pow.
have HB : rows_upto q B.
  by move=> i; rewrite (eq_bigr (fun j => B i j)) // => j _; rewrite ger0_norm.
have HB' : rows_upto q (1%:M - (1%:M - B)) by rewrite opprB addrC subrK.
have UB := near1_unit q1 HB'.
have EP : (1%:M - A) *m psum A m = 1%:M - B by rewrite psum_left EB.
have U : 1%:M - A \in unitmx by move: UB; rewrite -EP unitmx_mul => /andP [].
have S0 l i j : 0 <= psum A l i j.
  by rewrite /psum summxE; apply: sumr_ge0 => a _; exact: nonneg_pow.
have N0 i j : 0 <= invmx (1%:M - A) i j.
  have -> : invmx (1%:M - A) = psum A m *m invmx (1%:M - B).
    have H1 : (1%:M - A) *m (psum A m *m invmx (1%:M - B)) = 1%:M by rewrite mulmxA EP mulmxV.
    by rewrite -(mulKmx U (psum A m *m _)) H1 mulmx1.
  by apply: nonneg_mul; [exact: S0|exact: (nonneg_inv q1 B0 HB)].
exists (invmx (1%:M - A)), (psum A k); rewrite eye1_mx /= sub_mx /= inv_mx // series_mx mulVmx //.
split=> // i j; rewrite S0 /= -subr_ge0.
have -> : invmx (1%:M - A) i j - psum A k i j = (invmx (1%:M - A) - psum A k) i j by rewrite [RHS]mxE [in RHS]mxE.
by rewrite psum_tail //; apply: nonneg_mul; [exact: N0|exact: nonneg_pow].
Qed.

(** ** Steady states of stochastic matrices *)
Section Chain.
Variables (n : nat) (w : Z) (A B : 'M[R]_n) (m : nat) (d : 'I_n -> R).
Hypotheses (Hw : (1 <= w)%Z) (Hm : (Z.of_nat m < 2 ^ (w - 1))%Z).
Hypothesis HA : stochastic A.
(** whatever the state, after [m] steps state [j] has probability at least [d j] *)
Hypothesis HB : pow K n w (mxrows A) (Z.of_nat m) = Ok (mxrows B).
Hypothesis Hd : forall i j, d j <= B i j.
Hypothesis d0 : 0 < \sum_j d j.

Lemma Hd' : minor_by (mxpow A m) d.
Proof. by rewrite (pow_is Hw Hm HB). Qed.

(** The steady state is a row of an inverse: replace any column of [eye - A] by ones. *)
Theorem c104_steady (c : 'I_n) (M : 'M[R]_n) :
  (forall i j, M i j = if j == c then 1 else (i == j)%:R - A i j) ->
  exists N : 'M[R]_n, inv K n (mxrows M) = Ok (mxrows N) /\
    [/\ stochastic (row c N), mult K 1 n n (mxrows (row c N)) (mxrows A) = Ok (mxrows (row c N)) &
        forall v : 'rV[R]_n, \sum_i v 0 i = 1 ->
          mult K 1 n n (mxrows v) (mxrows A) = Ok (mxrows v) -> v = row c N].
Proof.
move=> HM; have -> : M = steady A c by apply/matrixP => i j; rewrite HM !mxE.
have U := steady_unit HA Hd' d0 c.
have E : row c (invmx (steady A c)) *m steady A c = delta_mx 0 c.
  by rewrite rowE -mulmxA mulVmx // mulmx1.
have [S1 F] := proj1 (steady_row HA c _) E.
exists (invmx (steady A c)); rewrite inv_mx //; split=> //; split.
- split=> [i j|i]; rewrite ord1 //; exact: (fixed_ge0 HA Hd' d0 F S1).
- by rewrite mult_mx F.
- move=> v Sv; rewrite mult_mx => -[] /(@mxrows_inj _ _ _ 0) Fv.
  have := proj2 (steady_row HA c v) (conj Sv Fv); rewrite -E => /(congr1 (mulmx^~ (invmx (steady A c)))).
  by rewrite !mulmxK.
Qed.

(** All rows of the powers approach the steady state, and so does every starting distribution. *)
Theorem c104_limit (v x : 'rV[R]_n) p : (Z.of_nat p < 2 ^ (w - 1))%Z ->
  \sum_i v 0 i = 1 -> mult K 1 n n (mxrows v) (mxrows A) = Ok (mxrows v) -> stochastic x ->
  let e := (1 - \sum_j d j) ^+ (p %/ m) in
  exists P : 'M[R]_n, pow K n w (mxrows A) (Z.of_nat p) = Ok (mxrows P) /\
    compare K n n (mxrows P) (mxrows (\matrix_(i < n, j < n) v 0 j)) e = Ok true /\
    (let* y := mult K 1 n n (mxrows x) (mxrows P) in compare K 1 n y (mxrows v) e) = Ok true.
Proof.
move=> Hp S1; rewrite mult_mx => -[] /(@mxrows_inj _ _ _ 0) F Hx e.
exists (mxpow A p); rewrite c25_pow // mult_mx /=; split=> //; split; apply/compareP => i j.
  by rewrite [X in _ - X]mxE; exact: (limit_bound HA Hd' d0).
by rewrite ord1; exact: (start_bound HA Hd' d0).
Qed.

Lemma rate_range : 0 <= 1 - \sum_j d j < 1.
Proof.
have i : 'I_n by case: (n) d d0 => [|k] d' H; [move: H; rewrite big_ord0 ltxx | exact: ord0].
rewrite subr_ge0 -{1}(proj2 (sto_pow m HA) i) ltr_subl_addr ltr_addl d0 andbT.
by apply: ler_sum => j _; exact: Hd'.
Qed.
End Chain.

Lemma row_sto n m (A : 'M[R]_(n, m)) i : stochastic A -> stochastic (row i A).
Proof.
move=> [A0 A1]; split=> [a j|a]; first by rewrite mxE; exact: A0.
by rewrite -(A1 i); apply: eq_bigr => j _; rewrite mxE.
Qed.

(** With damping (as for ranking pages): A*g + (1-g)/n *)
Theorem c104_damped n w (A : 'M[R]_n) (g : R) (v : 'rV[R]_n) p : (2 <= w)%Z ->
  (Z.of_nat p < 2 ^ (w - 1))%Z -> (0 < n)%N -> stochastic A -> 0 <= g -> g < 1 ->
  exists G : 'M[R]_n,
    (let* D := mult_scalar K n n (mxrows A) g in sum_scalar K n n D ((1 - g) / n%:R)) = Ok (mxrows G) /\
    stochastic G /\
    (\sum_i v 0 i = 1 -> mult K 1 n n (mxrows v) (mxrows G) = Ok (mxrows v) ->
     (let* P := pow K n w (mxrows G) (Z.of_nat p) in
      compare K n n P (mxrows (\matrix_(i < n, j < n) v 0 j)) (g ^+ p)) = Ok true).
Proof.
move=> Hw Hp n0 [A0 A1] g0 g1; pose G := map_mx (fun x => x * g) A + const_mx ((1 - g) / n%:R).
have nR : (n%:R : R) != 0 by rewrite pnatr_eq0 -lt0n.
have h0 : 0 <= (1 - g) / n%:R by rewrite divr_ge0 ?ler0n // subr_ge0 ltW.
have Hs : \sum_(j < n) (1 - g) / n%:R = 1 - g.
  by rewrite sumr_const card_ord -[_ *+ n]mulr_natr divfK.
have HG : stochastic G.
  split=> [i j|i]; first by rewrite !mxE addr_ge0 // mulr_ge0.
  rewrite (eq_bigr (fun j => A i j * g + (1 - g) / n%:R)) => [|j _]; last by rewrite !mxE.
  by rewrite big_split /= Hs -mulr_suml A1 mul1r addrC subrK.
exists G; rewrite mult_scalar_mx /= sum_scalar_mx; split=> //; split=> // S1 F.
have H1 : (Z.of_nat 1 < 2 ^ (w - 1))%Z.
  have := Z.pow_le_mono_r 2 1 (w - 1); lia.
have HB : pow K n w (mxrows G) (Z.of_nat 1) = Ok (mxrows G) by rewrite c25_pow ?mxpow1 //; lia.
have Hd i (j : 'I_n) : (fun _ => (1 - g) / n%:R) j <= G i j by rewrite !mxE ler_addr mulr_ge0.
have d0 : 0 < \sum_(j < n) (fun _ => (1 - g) / n%:R) j by rewrite Hs subr_gt0.
have Hw1 : (1 <= w)%Z by lia.
have [P [-> [H _]]] := @c104_limit n w G G 1 _ Hw1 H1 HG HB Hd d0 v _ p Hp S1 F (row_sto (Ordinal n0) HG).
by move: H; rewrite Hs divn1 opprB addrC subrK.
Qed.
End Exact.

(** ** Limits: over the rationals and the reals the distances get as small as one likes *)
Section Archi.
Variables (R : archiFieldType) (sq : R -> outcome R).
Notation K := (ordS sq).

Theorem c104_vanish n w (A : 'M[R]_n) q e : (1 <= w)%Z -> q < 1 -> 0 < e ->
  (forall i, \sum_j `|A i j| <= q) ->
  exists p0, forall p, (p0 <= p)%N -> (Z.of_nat p < 2 ^ (w - 1))%Z ->
    (let* P := pow K n w (mxrows A) (Z.of_nat p) in compare K n n P (zeros K n n) e) = Ok true.
Proof.
move=> Hw q1 e0 Hq.
case: n A Hq => [|n] A Hq.
  exists 0%N => p _ Hp; rewrite c25_pow //= zeros_mx; apply/compareP => -[] //.
have q0 : 0 <= q by apply: le_trans (Hq ord0); exact: sumr_ge0.
have [p0 H] := power_small q0 q1 ler01 e0; exists p0 => p Lp Hp.
rewrite c25_pow //= zeros_mx; apply/compareP => i j; rewrite mxE subr0.
by apply: le_trans (rows_elts (rows_pow p q0 Hq) i j) _; have := H p Lp; rewrite mul1r.
Qed.

Theorem c104_limit_reached n w (A B : 'M[R]_n) m (d : 'I_n -> R) (v : 'rV[R]_n) e :
  (1 <= w)%Z -> (Z.of_nat m < 2 ^ (w - 1))%Z -> (0 < m)%N -> stochastic A ->
  pow K n w (mxrows A) (Z.of_nat m) = Ok (mxrows B) -> (forall i j, d j <= B i j) ->
  0 < \sum_j d j -> \sum_i v 0 i = 1 -> mult K 1 n n (mxrows v) (mxrows A) = Ok (mxrows v) -> 0 < e ->
  exists p0, forall p, (p0 <= p)%N -> (Z.of_nat p < 2 ^ (w - 1))%Z ->
    (let* P := pow K n w (mxrows A) (Z.of_nat p) in
     compare K n n P (mxrows (\matrix_(i < n, j < n) v 0 j)) e) = Ok true.
Proof.
move=> Hw Hm m0 HA HB Hd d0 S1 F e0.
have /andP [r0 r1] := rate_range Hw Hm HA HB Hd d0.
have [k0 H] := power_small r0 r1 ler01 e0; exists (k0 * m)%N => p Lp Hp.
have i : 'I_n by case: (n) d d0 {Hd r0 r1 H} => [|k] d' H; [move: H; rewrite big_ord0 ltxx | exact: ord0].
have Hx := row_sto i HA.
have [P [-> [/compareP H1 _]]] := c104_limit Hw Hm HA HB Hd d0 Hp S1 F Hx.
apply/compareP => a j; apply: le_trans (H1 a j) _.
by have := H (p %/ m)%N; rewrite mul1r; apply; rewrite leq_divRL.
Qed.
End Archi.

(** ** What goes wrong at the border *)
Section Border.
Variables (R : realFieldType) (sq : R -> outcome R).
Notation K := (ordS sq).

Lemma flip2 p : mxpow (mx22 (0 : R) 1 1 0) p = if odd p then mx22 0 1 1 0 else 1%:M.
Proof.
have PP : mx22 (0 : R) 1 1 0 *m mx22 0 1 1 0 = 1%:M.
  apply/matrixP => -[[|[|//]] ?] [[|[|//]] ?]; rewrite !mxE !big_ord_recl big_ord0 !mxE /=;
    by rewrite ?(mul0r, mulr0, mul1r, addr0, add0r).
by elim: p => [//|p IH] /=; rewrite IH; case: (odd p) => /=; rewrite ?PP ?mulmx1.
Qed.

(** A stochastic matrix none of whose powers has a positive column: the powers alternate for
    ever, any two consecutive ones are 1 apart (C95's steady state (1/2,1/2) exists). *)
Theorem c104_periodic w p : (1 <= w)%Z -> (Z.of_nat p.+1 < 2 ^ (w - 1))%Z ->
  let A := mx22 (0 : R) 1 1 0 in
  stochastic A /\
  (forall e, e < 1 ->
    (let* P := pow K 2 w (mxrows A) (Z.of_nat p) in
     let* Q := pow K 2 w (mxrows A) (Z.of_nat p.+1) in compare K 2 2 P Q e) = Ok false).
Proof.
move=> Hw Hp A; split.
  split=> [|]; first by case=> [[|[|//]] ?] [[|[|//]] ?]; rewrite mxE /= ?ler01.
  by case=> [[|[|//]] ?]; rewrite !big_ord_recl big_ord0 !mxE /= ?(addr0, add0r).
move=> e e1; rewrite !c25_pow //; last lia.
rewrite /= !flip2; have [b [-> H]] := c34_compare sq (if odd p then A else 1%:M) (A *m (if odd p then A else 1%:M)) e.
congr Ok; apply/negbTE/negP => /H /(_ ord0 ord0).
have -> : A *m (if odd p then A else 1%:M) = mxpow A p.+1 by rewrite /= flip2.
rewrite flip2 /=; case: (odd p); rewrite !mxE /= ?(sub0r, subr0, normrN) normr1; apply/negP; by rewrite -ltNge.
Qed.

(** Row sums of exactly one are not enough for powers to die out or [eye - A] to be inverted. *)
Theorem c104_rows_one w p : (1 <= w)%Z -> (Z.of_nat p < 2 ^ (w - 1))%Z ->
  (let* J := eye1 K 2 in pow K 2 w J (Z.of_nat p)) = eye1 K 2 /\
  (let* J := eye1 K 2 in let* D := sub K 2 2 J J in inv K 2 D) = Throw OverflowError.
Proof.
move=> Hw Hp; rewrite !eye1_mx; split.
  rewrite /= c25_pow //; congr (Ok (mxrows _)); elim: p {Hp} => [//|p IH] /=; by rewrite IH mulmx1.
change (bind (sub K 2 2 (mxrows (1%:M : 'M[R]_2)) (mxrows (1%:M : 'M[R]_2))) (inv K 2) = Throw OverflowError).
rewrite sub_mx subrr; change (inv K 2 (mxrows (0 : 'M[R]_2)) = Throw OverflowError).
by rewrite inv_mx_singular ?det0.
Qed.
End Border.

Print Assumptions c104_decay.
Print Assumptions c104_refine.
Print Assumptions c104_refine_stop.
Print Assumptions c104_jacobi.
Print Assumptions c104_newton.
Print Assumptions c104_series.
Print Assumptions c104_absorbing.
Print Assumptions c104_steady.
Print Assumptions c104_limit.
Print Assumptions c104_damped.
Print Assumptions c104_vanish.
Print Assumptions c104_limit_reached.
Print Assumptions c104_periodic.
Print Assumptions c104_rows_one.

(** The hypotheses are met: two states, (1/3, 2/3) is the steady state, found as the second row
    of an inverse; from state to state at least (1/4, 1/2) after one step. *)
Example c104_ex (sq : rat -> outcome rat) (K := ordS sq)
  (A := mx22 (1 / 2%:R : rat) (1 / 2%:R) (1 / 4%:R) (3%:R / 4%:R))
  (d := fun j : 'I_2 => if j == 0 then 1 / 4%:R else 1 / 2%:R : rat) :
  [/\ stochastic A, forall i j, d j <= A i j, 0 < \sum_j d j,
      inv K 2 [:: [:: 1 / 2%:R; 1]; [:: - (1 / 4%:R); 1]] =
        Ok [:: [:: 4%:R / 3%:R; - (4%:R / 3%:R)]; [:: 1 / 3%:R; 2%:R / 3%:R]] &
      mult K 1 2 2 [:: [:: 1 / 3%:R; 2%:R / 3%:R]] [:: [:: 1 / 2%:R; 1 / 2%:R]; [:: 1 / 4%:R; 3%:R / 4%:R]] =
        Ok [:: [:: 1 / 3%:R; 2%:R / 3%:R]]].
Proof.
split.
- split; first by case=> [[|[|//]] ?] [[|[|//]] ?]; rewrite mxE.
  by case=> [[|[|//]] ?]; rewrite !big_ord_recl big_ord0 !mxE; apply/eqP.
- by case=> [[|[|//]] ?] [[|[|//]] ?]; rewrite mxE.
- by rewrite !big_ord_recl big_ord0.
- by vm_compute.
- by vm_compute.
Qed.

(** Jacobi: {{4,1},{1,3}} with q = 1/3; a crude inverse for Newton with residual 1/4 *)
Example c104_ex2 (A := mx22 (4%:R : rat) 1 1 3%:R) :
  (forall i, A i i != 0) /\ (forall i, \sum_(j | j != i) `|A i j| <= 1 / 3%:R * `|A i i|).
Proof.
split; first by case=> [[|[|//]] ?]; rewrite mxE.
by case=> [[|[|//]] ?]; rewrite big_mkcond !big_ord_recl big_ord0 !mxE.
Qed.

Example c104_ex3 (sq : rat -> outcome rat) (K := ordS sq) :
  newton sq 2 [:: [:: 4%:R; 1]; [:: 1; 3%:R]] 2 [:: [:: 1 / 4%:R; 0]; [:: 0; 1 / 3%:R]] =
    Ok [:: [:: 13%:R / 48%:R; - (13%:R / 144%:R)]; [:: - (13%:R / 144%:R); 13%:R / 36%:R]].
Proof. by vm_compute. Qed.
