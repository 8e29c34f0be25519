(** * Facts about long products: norms by rows, stochastic matrices, iterations

    Mathematics only; PropLong.v applies it to the model. *)

From Coq Require Import ZArith List Lia.
From mathcomp Require Import all_ssreflect all_algebra.
From mathcomp Require Import zify.
From Verif Require Import Base Scalar Model Spec Loops Struct Exact ExactLemmas Alg Det Inv Pow PropAlg PropClass PropDom.
Set Implicit Arguments.
Unset Strict Implicit.
Unset Printing Implicit Defensive.
Import mathcomp.ssreflect.order.Order.TTheory GRing.Theory Num.Theory.
Local Notation ltP := ssrnat.ltP (only parsing).
Local Notation leP := ssrnat.leP (only parsing).
Local Open Scope ring_scope.
Delimit Scope Z_scope with Z.

Section Norm.
Variable R : realFieldType.

(** the absolute values of no row add up to more than [q] *)
Definition rows_upto n m (q : R) (A : 'M[R]_(n, m)) : Prop := forall i, \sum_j `|A i j| <= q.
(** no element exceeds [e] in absolute value *)
Definition elts_upto n m (e : R) (A : 'M[R]_(n, m)) : Prop := forall i j, `|A i j| <= e.

Lemma rows_elts n m q (A : 'M[R]_(n, m)) : rows_upto q A -> elts_upto q A.
Proof.
move=> H i j; apply: le_trans (H i); rewrite (bigD1 j) //= ler_addl; exact: sumr_ge0.
Qed.

Lemma eltsB n m e (X Y : 'M[R]_(n, m)) : elts_upto e (X - Y) <-> forall i j, `|X i j - Y i j| <= e.
Proof. by split=> H i j; have := H i j; rewrite !mxE. Qed.

Lemma rows_mul n m p a b (A : 'M[R]_(n, m)) (B : 'M[R]_(m, p)) : 0 <= b ->
  rows_upto a A -> rows_upto b B -> rows_upto (a * b) (A *m B).
Proof.
move=> b0 HA HB i.
apply: (@le_trans _ _ (\sum_k `|A i k| * b)); last by rewrite -mulr_suml ler_wpmul2r.
apply: (@le_trans _ _ (\sum_j \sum_k `|A i k| * `|B k j|)).
  apply: ler_sum => j _; rewrite mxE; apply: le_trans (ler_norm_sum _ _ _) _.
  by apply: ler_sum => k _; rewrite normrM.
rewrite exchange_big; apply: ler_sum => k _; rewrite -mulr_sumr ler_wpmul2l //; exact: HB.
Qed.

Lemma rows_elts_mul n m p a e (A : 'M[R]_(n, m)) (X : 'M[R]_(m, p)) : 0 <= e ->
  rows_upto a A -> elts_upto e X -> elts_upto (a * e) (A *m X).
Proof.
move=> e0 HA HX i j; rewrite mxE; apply: le_trans (ler_norm_sum _ _ _) _.
apply: (@le_trans _ _ (\sum_k `|A i k| * e)); last by rewrite -mulr_suml ler_wpmul2r.
by apply: ler_sum => k _; rewrite normrM ler_wpmul2l //; exact: HX.
Qed.

Lemma rows_1 n : rows_upto 1 (1%:M : 'M[R]_n).
Proof.
move=> i; rewrite (bigD1 i) //= big1 ?addr0 ?mxE ?eqxx ?normr1 // => j /negbTE Hj.
by rewrite mxE eq_sym Hj normr0.
Qed.

Lemma rows_pow n q (A : 'M[R]_n) p : 0 <= q -> rows_upto q A -> rows_upto (q ^+ p) (mxpow A p).
Proof.
move=> q0 HA; elim: p => [|p IH] /=; first by rewrite expr0; exact: rows_1.
by rewrite exprS; apply: rows_mul => //; exact: exprn_ge0.
Qed.

Lemma mxpowM n (A : 'M[R]_n) k l : mxpow A (k * l) = mxpow (mxpow A k) l.
Proof. by elim: l => [|l IH]; rewrite ?muln0 // mulnS mxpowD IH. Qed.

(** after [p] steps, knowing only one step and [m] steps *)
Lemma rows_pow_div n c q (A : 'M[R]_n) m p : 0 <= c -> 0 <= q ->
  rows_upto c A -> rows_upto q (mxpow A m) -> rows_upto (c ^+ (p %% m) * q ^+ (p %/ m)) (mxpow A p).
Proof.
move=> c0 q0 HA Hm; rewrite {3}(divn_eq p m) addnC mxpowD mulnC mxpowM.
by apply: rows_mul; [exact: exprn_ge0|exact: rows_pow|exact: rows_pow].
Qed.

(** a matrix close to the identity is invertible, and its inverse is bounded *)
Lemma near1_gap n q (M : 'M[R]_n) i : rows_upto q (1%:M - M) -> 1 - q <= gap M i.
Proof.
move=> H; have := H i; rewrite (bigD1 i) //= !mxE eqxx.
rewrite (eq_bigr (fun j => `|M i j|)) => [|j /negbTE Hj]; last first.
  by rewrite !mxE eq_sym Hj /= sub0r normrN.
rewrite -/(off M i) => H2; rewrite /gap ler_subr_addr.
apply: (@le_trans _ _ (1 - `|1 - M i i|)).
  by rewrite ler_subr_addr -addrA [_ + `|_|]addrC -[X in _ <= X](subrK q) ler_add2l.
rewrite ler_subl_addr addrC -[X in X <= _]normr1 -{1}[1 : R](subrK (M i i)); exact: ler_norm_add.
Qed.

Lemma near1_unit n q (M : 'M[R]_n) : q < 1 -> rows_upto q (1%:M - M) -> M \in unitmx.
Proof.
move=> q1 H; apply: dominant_unit; apply/gap_gt0 => i.
by apply: lt_le_trans (near1_gap i H); rewrite subr_gt0.
Qed.

Lemma near1_inv n q (M : 'M[R]_n) : q < 1 -> rows_upto q (1%:M - M) -> rows_upto (1 - q)^-1 (invmx M).
Proof.
by move=> q1 H; apply: inverse_bound; [rewrite subr_gt0 | move=> i; exact: near1_gap].
Qed.

(** [X -> X + C (b - A X)]: the distance to the solution is multiplied by [eye - C A] *)
Lemma refine_step n m (A C : 'M[R]_n) (b X Y : 'M[R]_(n, m)) : A *m Y = b ->
  X + C *m (b - A *m X) - Y = (1%:M - C *m A) *m (X - Y).
Proof.
move=> <-; rewrite -mulmxBr mulmxBl mul1mx -mulmxA.
by rewrite -[Y - X]opprB !mulmxN addrAC.
Qed.

Lemma left_unit n q (A C : 'M[R]_n) : q < 1 -> rows_upto q (1%:M - C *m A) -> A \in unitmx /\ C \in unitmx.
Proof.
by move=> q1 /(near1_unit q1); rewrite unitmx_mul => /andP [].
Qed.

(** Newton's step squares the residual *)
Lemma newton_step n (A X : 'M[R]_n) (E := 1%:M - A *m X) :
  1%:M - A *m (X *m (1%:M + 1%:M - A *m X)) = E *m E.
Proof.
have -> : 1%:M + 1%:M - A *m X = 1%:M + E by rewrite /E addrA.
have EA : A *m X = 1%:M - E by rewrite /E opprB addrC subrK.
by rewrite mulmxA EA mulmxDr mulmx1 mulmxBl mul1mx addrA subrK opprB addrC subrK.
Qed.

(** *** powers of a number below one *)
Lemma bernoulli (x : R) k : 0 <= x -> 1 + x *+ k <= (1 + x) ^+ k.
Proof.
move=> x0; elim: k => [|k IH]; first by rewrite mulr0n addr0 expr0.
rewrite exprS; apply: (@le_trans _ _ ((1 + x) * (1 + x *+ k))); last first.
  by apply: ler_wpmul2l IH; rewrite addr_ge0 // ler01.
rewrite mulrDl mul1r mulrDr mulr1 mulrS [x + x *+ k]addrC [1 + (_ + _)]addrA ler_add2l.
by rewrite ler_addl mulr_ge0 // mulrn_wge0.
Qed.
End Norm.

(** In an archimedean field (the rationals, the reals) [q^p] gets as small as one likes. *)
Lemma power_small (R : archiFieldType) (q c e : R) : 0 <= q -> q < 1 -> 0 <= c -> 0 < e ->
  exists p0, forall p, (p0 <= p)%N -> c * q ^+ p <= e.
Proof.
move=> q0 q1 c0 e0.
have M p0 : c * q ^+ p0 <= e -> forall p, (p0 <= p)%N -> c * q ^+ p <= e.
  move=> H p /subnK <-; apply: le_trans H; apply: ler_wpmul2l => //.
  by rewrite addnC exprD ler_pimulr ?exprn_ge0 // exprn_ile1 // ltW.
case: (eqVneq q 0) => [q_0|nq].
  by exists 1%N; apply: M; rewrite q_0 expr0n mulr0 ltW.
have qp : 0 < q by rewrite lt_neqAle eq_sym nq.
pose x := q^-1 - 1; have x0 : 0 < x by rewrite subr_gt0 invf_gt1.
have [k Hk] : exists k : nat, c / e / x < k%:R.
  exists (Num.bound (c / e / x)); apply: archi_boundP.
  by rewrite !divr_ge0 // ltW.
exists k; apply: M.
have : c / e <= (1 + x) ^+ k.
  apply: le_trans (bernoulli k (ltW x0)); apply: (@le_trans _ _ (x *+ k)); last by rewrite ler_addr ler01.
  by move/ltW: Hk; rewrite ler_pdivr_mulr // mulr_natl.
rewrite /x addrC subrK ler_pdivr_mulr // exprVn mulrC => H.
by rewrite -ler_pdivl_mulr ?exprn_gt0.
Qed.

(** ** Stochastic matrices *)
Section Chain.
Variable R : realFieldType.
Local Notation sto := (@stochastic R _ _).

Lemma sto_1 n : sto (1%:M : 'M[R]_n).
Proof.
split=> [i j | i]; first by rewrite mxE ler0n.
by rewrite (bigD1 i) //= mxE eqxx big1 ?addr0 // => j /negbTE Hj; rewrite mxE eq_sym Hj.
Qed.

Lemma sto_pow n (A : 'M[R]_n) p : sto A -> sto (mxpow A p).
Proof. by move=> HA; elim: p => [|p IH] /=; [exact: sto_1|exact: stochastic_mul]. Qed.

(** every element of column [j] of [A] is at least [d j] *)
Definition minor_by n m (A : 'M[R]_(n, m)) (d : 'I_m -> R) : Prop := forall i j, d j <= A i j.

(** a row vector that sums to zero shrinks *)
Lemma zero_sum_shrinks n m (A : 'M[R]_(n, m)) d (v : 'rV[R]_n) :
  sto A -> minor_by A d -> \sum_i v 0 i = 0 ->
  \sum_j `|(v *m A) 0 j| <= (1 - \sum_j d j) * \sum_i `|v 0 i|.
Proof.
move=> [A0 A1] Hd Hv.
have E j : (v *m A) 0 j = \sum_i v 0 i * (A i j - d j).
  rewrite mxE (eq_bigr (fun i => v 0 i * (A i j - d j) + v 0 i * d j)) => [|i _].
    by rewrite big_split /= -mulr_suml Hv mul0r addr0.
  by rewrite mulrBr subrK.
apply: (@le_trans _ _ (\sum_j \sum_i `|v 0 i| * (A i j - d j))).
  apply: ler_sum => j _; rewrite E; apply: le_trans (ler_norm_sum _ _ _) _.
  by apply: ler_sum => i _; rewrite normrM [X in _ * X]ger0_norm // subr_ge0.
rewrite exchange_big mulr_sumr; apply: ler_sum => i _.
by rewrite -mulr_sumr mulrC sumrB A1.
Qed.

(** the columns get flat: averages of a column with values in an interval of width [w] *)
Lemma column_flattens n m (A : 'M[R]_(n, m)) d (x : 'cV[R]_m) (w : R) :
  sto A -> minor_by A d -> (forall k l, x k 0 - x l 0 <= w) ->
  forall i j, (A *m x) i 0 - (A *m x) j 0 <= (1 - \sum_k d k) * w.
Proof.
move=> [A0 A1] Hd Hx i j.
have [->|m0] := eqVneq ((A *m x) i 0 - (A *m x) j 0) 0.
  apply: mulr_ge0; first rewrite subr_ge0 -(A1 i); first by apply: ler_sum => k _.
  case: m A x d A0 A1 Hd Hx => [|m] A x d A0 A1 Hd Hx; last by rewrite -(subrr (x ord0 0)).
  by move: (A1 i); rewrite big_ord0 => /eqP; rewrite eq_sym oner_eq0.
case: m A x d A0 A1 Hd Hx m0 => [|m] A x d A0 A1 Hd Hx m0.
  by move: m0; rewrite !mxE !big_ord0 subrr eqxx.
pose s := \sum_k d k.
have s1 : 0 <= 1 - s by rewrite subr_ge0 -(A1 i); apply: ler_sum => k _.
have [lo Hlo] : exists l, forall k, x l 0 <= x k 0.
  have [l _ Hl] := @arg_minP _ _ _ ord0 xpredT (fun k => x k 0) isT.
  by exists l => k; exact: Hl.
have P a : (A *m x) a 0 = \sum_k (A a k - d k) * x k 0 + \sum_k d k * x k 0.
  by rewrite mxE -big_split; apply: eq_bigr => k _; rewrite /= -mulrDl subrK.
have W a : \sum_k (A a k - d k) = 1 - s by rewrite sumrB A1.
rewrite !P opprD addrACA subrr addr0.
have U : \sum_k (A i k - d k) * x k 0 <= (1 - s) * (x lo 0 + w).
  rewrite -(W i) mulr_suml; apply: ler_sum => k _; apply: ler_wpmul2l; first by rewrite subr_ge0.
  by rewrite addrC -ler_subl_addr.
have L : (1 - s) * x lo 0 <= \sum_k (A j k - d k) * x k 0.
  rewrite -(W j) mulr_suml; apply: ler_sum => k _; apply: ler_wpmul2l => //; by rewrite subr_ge0.
apply: le_trans (ler_sub U L) _; by rewrite -mulrBr addrAC subrr add0r.
Qed.

Section Fixed.
Variables (n : nat) (A : 'M[R]_n) (m : nat) (d : 'I_n -> R).
Hypothesis HA : sto A.
Hypothesis Hd : minor_by (mxpow A m) d.
Hypothesis d0 : 0 < \sum_j d j.
Let s := \sum_j d j.

Lemma fixed_pow (v : 'rV[R]_n) p : v *m A = v -> v *m mxpow A p = v.
Proof. by move=> E; elim: p => [|p IH] /=; rewrite ?mulmx1 // mulmxA E. Qed.

(** only zero is fixed and sums to zero (already for m steps) *)
Lemma fixed_zero (v : 'rV[R]_n) : v *m mxpow A m = v -> \sum_i v 0 i = 0 -> v = 0.
Proof.
move=> E Hv; have := zero_sum_shrinks (sto_pow m HA) Hd Hv; rewrite E mulrBl mul1r.
rewrite -subr_ge0 addrAC subrr add0r oppr_ge0 => H.
have S0 : 0 <= \sum_i `|v 0 i| by apply: sumr_ge0.
have /eqP : \sum_i `|v 0 i| = 0.
  apply/eqP; rewrite eq_le S0 andbT; move: H; by rewrite pmulr_rle0.
rewrite psumr_eq0 // => /allP H0; apply/rowP => i; rewrite mxE.
by apply/eqP; rewrite -normr_eq0; apply: H0; rewrite mem_index_enum.
Qed.

(** [eye - A] with column [c] replaced by ones *)
Definition steady (c : 'I_n) : 'M[R]_n := \matrix_(i, j) (if j == c then 1 else (1%:M - A) i j).

Lemma steady_row (c : 'I_n) (v : 'rV[R]_n) : v *m steady c = delta_mx 0 c <->
  \sum_i v 0 i = 1 /\ v *m A = v.
Proof.
have EC j : (v *m steady c) 0 j = if j == c then \sum_i v 0 i else v 0 j - (v *m A) 0 j.
  rewrite mxE; case: eqP => [->|/eqP Hj].
    by apply: eq_bigr => i _; rewrite mxE eqxx mulr1.
  rewrite (eq_bigr (fun i => v 0 i * (1%:M - A) i j)) => [|i _]; last by rewrite mxE (negbTE Hj).
  have -> : \sum_i v 0 i * (1%:M - A) i j = (v *m (1%:M - A)) 0 j by rewrite mxE.
  by rewrite mulmxBr mulmx1 !mxE.
split=> [E | [E1 E2]]; last first.
  by apply/rowP => j; rewrite EC E1 E2 subrr mxE eqxx /=; case: eqP.
have S1 : \sum_i v 0 i = 1 by have := EC c; rewrite E mxE !eqxx.
split=> //; have N j : j != c -> (v *m A) 0 j = v 0 j.
  move=> Hj; have := EC j; rewrite E mxE (negbTE Hj) andbF => /esym /eqP.
  by rewrite subr_eq0 => /eqP.
have T : \sum_j (v *m A) 0 j = \sum_j v 0 j.
  rewrite (eq_bigr (fun j => \sum_i v 0 i * A i j)) => [|j _]; last by rewrite mxE.
  by rewrite exchange_big; apply: eq_bigr => i _; rewrite -mulr_sumr (proj2 HA) mulr1.
apply/rowP => j; have [->|Hj] := eqVneq j c; last exact: N.
move: T; rewrite (bigD1 c) //= [RHS](bigD1 c) //= (eq_bigr (fun j => v 0 j)); first by move/addIr.
by move=> k Hk; exact: N.
Qed.

Lemma steady_unit (c : 'I_n) : steady c \in unitmx.
Proof.
rewrite unitmxE unitfE; apply/negP => /det0P [v nv E].
have EC j : (v *m steady c) 0 j = if j == c then \sum_i v 0 i else v 0 j - (v *m A) 0 j.
  rewrite mxE; case: eqP => [->|/eqP Hj].
    by apply: eq_bigr => i _; rewrite mxE eqxx mulr1.
  rewrite (eq_bigr (fun i => v 0 i * (1%:M - A) i j)) => [|i _]; last by rewrite mxE (negbTE Hj).
  have -> : \sum_i v 0 i * (1%:M - A) i j = (v *m (1%:M - A)) 0 j by rewrite mxE.
  by rewrite mulmxBr mulmx1 !mxE.
have S0 : \sum_i v 0 i = 0 by have := EC c; rewrite E mxE !eqxx.
have N j : j != c -> (v *m A) 0 j = v 0 j.
  move=> Hj; have := EC j; rewrite E mxE (negbTE Hj) => /esym /eqP.
  by rewrite subr_eq0 => /eqP.
have T : \sum_j (v *m A) 0 j = \sum_j v 0 j.
  rewrite (eq_bigr (fun j => \sum_i v 0 i * A i j)) => [|j _]; last by rewrite mxE.
  by rewrite exchange_big; apply: eq_bigr => i _; rewrite -mulr_sumr (proj2 HA) mulr1.
have F : v *m A = v.
  apply/rowP => j; have [->|Hj] := eqVneq j c; last exact: N.
  move: T; rewrite (bigD1 c) //= [RHS](bigD1 c) //= (eq_bigr (fun j => v 0 j)); first by move/addIr.
  by move=> k Hk; exact: N.
by move: nv; rewrite (fixed_zero (fixed_pow m F) S0) eqxx.
Qed.

(** the fixed distribution is not negative *)
Lemma fixed_ge0 (v : 'rV[R]_n) : v *m A = v -> \sum_i v 0 i = 1 -> forall j, 0 <= v 0 j.
Proof.
move=> F S1; pose B := mxpow A m; have [B0 B1] := sto_pow m HA.
pose a : 'rV[R]_n := \row_j `|v 0 j|.
have Fm : v *m B = v by exact: fixed_pow.
have le j : a 0 j <= (a *m B) 0 j.
  rewrite mxE -{1}Fm mxE [X in _ <= X]mxE; apply: le_trans (ler_norm_sum _ _ _) _.
  by apply: ler_sum => i _; rewrite normrM mxE [`|B i j|]ger0_norm.
have T : \sum_j (a *m B) 0 j = \sum_j a 0 j.
  rewrite (eq_bigr (fun j => \sum_i a 0 i * B i j)) => [|j _]; last by rewrite mxE.
  by rewrite exchange_big; apply: eq_bigr => i _; rewrite -mulr_sumr B1 mulr1.
have Ea : a *m B = a.
  have /eqP : \sum_j ((a *m B) 0 j - a 0 j) = 0 by rewrite sumrB T subrr.
  rewrite psumr_eq0 => [/allP H|j _]; last by rewrite subr_ge0.
  by apply/rowP => j; apply/eqP; rewrite -subr_eq0; apply: H; rewrite mem_index_enum.
pose t := \sum_j a 0 j.
have Z : a - t *: v = 0.
  apply: fixed_zero; first by rewrite mulmxBl -scalemxAl Ea Fm.
  rewrite (eq_bigr (fun i => a 0 i - t * v 0 i)) => [|i _]; last by rewrite !mxE.
  by rewrite sumrB -mulr_sumr S1 mulr1 subrr.
move=> j; have E : t * v 0 j = a 0 j.
  by have /rowP /(_ j) := Z; rewrite !mxE => /eqP; rewrite subr_eq0 => /eqP.
have t1 : 1 <= t.
  rewrite -S1; apply: ler_sum => i _; rewrite mxE; exact: ler_norm.
have t0 : 0 < t by exact: lt_le_trans ltr01 t1.
by rewrite -(pmulr_rge0 _ t0) E mxE.
Qed.

(** after [p] steps every row is near the fixed distribution *)
Lemma spread p i k j : mxpow A p i j - mxpow A p k j <= (1 - s) ^+ (p %/ m).
Proof.
have [->|m0] := eqVneq m 0%N.
  rewrite divn0 expr0; have [P0 P1] := sto_pow p HA.
  apply: (@le_trans _ _ (mxpow A p i j)); first by rewrite ler_subl_addr ler_addl.
  by rewrite -(P1 i) (bigD1 j) //= ler_addl sumr_ge0.
rewrite {1 2}(divn_eq p m) mulnC mxpowD mxpowM.
elim: (p %/ m)%N i k => [|l IH] i k.
  rewrite expr0 !mul1mx; have [P0 P1] := sto_pow (p %% m) HA.
  apply: (@le_trans _ _ (mxpow A (p %% m) i j)); first by rewrite ler_subl_addr ler_addl.
  by rewrite -(P1 i) (bigD1 j) //= ler_addl sumr_ge0.
rewrite exprS /= -mulmxA.
set B := mxpow A m in IH *; set X := mxpow B l *m _ in IH *.
have := @column_flattens _ _ B d (col j X) ((1 - s) ^+ l) (sto_pow m HA) Hd.
have E a : (B *m col j X) a 0 = (B *m X) a j.
  by rewrite !mxE; apply: eq_bigr => b _; rewrite mxE.
move=> /(_ _ i k); rewrite !E; apply => a b; rewrite [col j X a 0]mxE [col j X b 0]mxE; exact: IH.
Qed.

Lemma limit_bound (v : 'rV[R]_n) p i j : v *m A = v -> \sum_i v 0 i = 1 ->
  `|mxpow A p i j - v 0 j| <= (1 - s) ^+ (p %/ m).
Proof.
move=> F S1; have V0 := fixed_ge0 F S1.
have Ev : v 0 j = \sum_k v 0 k * mxpow A p k j by rewrite -{1}(fixed_pow p F) mxE.
have Ea : mxpow A p i j = \sum_k v 0 k * mxpow A p i j by rewrite -mulr_suml S1 mul1r.
rewrite Ev {1}Ea -sumrB; apply: le_trans (ler_norm_sum _ _ _) _.
rewrite -[X in _ <= X]mul1r -{1}S1 mulr_suml; apply: ler_sum => k _.
rewrite -mulrBr normrM ger0_norm // ler_wpmul2l // ler_norml spread andbT.
by rewrite ler_oppl opprB spread.
Qed.

Lemma start_bound (v x : 'rV[R]_n) p j : v *m A = v -> \sum_i v 0 i = 1 ->
  sto x -> `|(x *m mxpow A p) 0 j - v 0 j| <= (1 - s) ^+ (p %/ m).
Proof.
move=> F S1 [x0 x1]; have {1}-> : v 0 j = \sum_k x 0 k * v 0 j by rewrite -mulr_suml x1 mul1r.
rewrite mxE -sumrB; apply: le_trans (ler_norm_sum _ _ _) _.
rewrite -[X in _ <= X]mul1r -{1}(x1 0) mulr_suml; apply: ler_sum => k _.
by rewrite -mulrBr normrM ger0_norm // ler_wpmul2l // limit_bound.
Qed.
End Fixed.
End Chain.
