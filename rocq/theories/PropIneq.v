(** * Property C89: the statistics agree with one another

    Exact arithmetic over any ordered field.  [elements A] is the list of the
    elements of A, row by row; [count p l] the number of elements of l with p. *)

From Coq Require Import ZArith List Lia Permutation Sorted.
From mathcomp Require Import all_ssreflect all_algebra.
From mathcomp Require Import zify ssrZ.
From Verif Require Import Base Scalar Model CInt Spec Loops Struct Exact ExactLemmas Alg Det Order Stat StatExact Median Rank PropAlg PropStat PropMedian PropRearr.

Set Implicit Arguments.
Unset Strict Implicit.
Unset Printing Implicit Defensive.

Import mathcomp.ssreflect.order.Order.TTheory GRing.Theory Num.Theory.
Local Notation ltP := ssrnat.ltP (only parsing).
Local Notation leP := ssrnat.leP (only parsing).
Local Open Scope ring_scope.
Delimit Scope Z_scope with Z.

Lemma half_div k : Nat.div k 2 = (k %/ 2)%N.
Proof.
  have E := divn_eq k 2. have L := @ltn_pmod k 2 erefl.
  have := Nat.div_mod k 2 ltac:(lia). have := Nat.mod_upper_bound k 2 ltac:(lia). move: E L.
  move: (k %/ 2)%N (k %% 2)%N (Nat.div k 2) (Nat.modulo k 2). lia.
Qed.

(** ** Sums over lists *)
Section Lists.
Variable (R : realFieldType).
Implicit Types (v : seq R) (g : R -> R).

Definition avg v g : R := (\sum_(x <- v) g x) / (size v)%:R.

Lemma avg_scale v g : (0 < size v)%N -> (size v)%:R * avg v g = \sum_(x <- v) g x.
Proof. by move=> H; rewrite /avg mulrC divfK // pnatr_eq0 -lt0n. Qed.

Lemma sumB v g h : \sum_(x <- v) (g x - h x) = \sum_(x <- v) g x - \sum_(x <- v) h x.
Proof. by rewrite big_split /= sumrN. Qed.

Lemma sum_const v (c : R) : \sum_(x <- v) c = (size v)%:R * c.
Proof. by rewrite big_const_seq count_predT iter_addr_0 mulr_natl. Qed.

(** around any value c: the variance plus the squared distance of c from the mean *)
Lemma steiner v g c : (0 < size v)%N ->
  \sum_(x <- v) (g x - c) ^+ 2 =
  \sum_(x <- v) (g x - avg v g) ^+ 2 + (size v)%:R * (avg v g - c) ^+ 2.
Proof.
  move=> H. set mu := avg v g.
  under eq_bigr => x _ do rewrite -(subrKA mu) sqrrD.
  rewrite !big_split /= sum_const; congr (_ + _).
  rewrite -[RHS]addr0; congr (_ + _).
  by rewrite -mulr_suml sumB sum_const avg_scale // subrr mul0r addr0.
Qed.

Lemma sum_ge0 v g : (forall x, 0 <= g x) -> 0 <= \sum_(x <- v) g x.
Proof. by move=> H; apply: sumr_ge0. Qed.

(** Cauchy-Schwarz *)
Lemma avg_sqr v g : (0 < size v)%N -> avg v g ^+ 2 <= avg v (fun x => g x ^+ 2).
Proof.
  move=> H. have N : 0 < (size v)%:R :> R by rewrite ltr0n.
  rewrite -(ler_pmul2l N) (avg_scale (fun x => g x ^+ 2)) //.
  have := steiner g 0 H. under eq_bigr => x _ do rewrite subr0. rewrite subr0 => ->.
  by rewrite ler_addr; apply: sum_ge0 => x; apply: sqr_ge0.
Qed.

Lemma ler_avg v g h : (forall x, x \in v -> g x <= h x) -> avg v g <= avg v h.
Proof.
  move=> H. rewrite /avg; apply: ler_wpmul2r; first by rewrite invr_ge0 ler0n.
  rewrite big_seq [X in _ <= X]big_seq. exact: ler_sum.
Qed.

Lemma avg_norm v g : `|avg v g| <= avg v (fun x => `|g x|).
Proof.
  rewrite /avg normrM normfV (ger0_norm (ler0n _ _)). apply: ler_wpmul2r; first by rewrite invr_ge0 ler0n.
  exact: ler_norm_sum.
Qed.

Lemma avgB v g c : (0 < size v)%N -> avg v (fun x => g x - c) = avg v g - c.
Proof.
  move=> H. rewrite /avg sumB sum_const mulrBl; congr (_ - _).
  by rewrite mulrC mulKf // pnatr_eq0 -lt0n.
Qed.

Lemma sum_count v (p : pred R) : \sum_(x <- v) (p x)%:R = (count p v)%:R :> R.
Proof.
  rewrite /count; elim: v => [|x v IH] /=; first by rewrite big_nil.
  rewrite big_cons IH; case: (p x) => /=; last by rewrite add0r.
  by rewrite -[in RHS]add1n natrD.
Qed.

Lemma parabola (a b d : R) : (a - d) * (d + b) + d ^+ 2 = a * b + d * (a - b).
Proof.
  rewrite mulrBl mulrBr !mulrDr opprD expr2 [a * d]mulrC -!addrA addrCA.
  by congr (_ + (_ + _)); rewrite addrC addrK.
Qed.

(** the algebra of joining *)
Lemma pool_algebra (a b ma mb va vb : R) : a + b != 0 -> let mu := (a * ma + b * mb) / (a + b) in
  (a * va + a * (ma - mu) ^+ 2 + (b * vb + b * (mb - mu) ^+ 2)) / (a + b) =
  (a * va + b * vb) / (a + b) + a * b * (ma - mb) ^+ 2 / (a + b) ^+ 2.
Proof.
  move=> Ps mu. set s := a + b in Ps mu *.
  have D1 : ma - mu = b * (ma - mb) / s.
    apply: (mulIf Ps). rewrite mulrBl /mu !divfK // /s mulrDr mulrBr [ma * a]mulrC [ma * b]mulrC.
    by rewrite opprD addrACA subrr add0r.
  have D2 : mb - mu = - (a * (ma - mb) / s).
    apply: (mulIf Ps). rewrite mulrBl mulNr /mu !divfK // /s mulrDr mulrBr [mb * a]mulrC [mb * b]mulrC opprB.
    by rewrite opprD addrACA subrr addr0.
  rewrite D1 D2 sqrrN addrACA mulrDl; congr (_ + _).
  set d := ma - mb. rewrite !exprMn !exprVn.
  have -> : a * (b ^+ 2 * d ^+ 2 / s ^+ 2) + b * (a ^+ 2 * d ^+ 2 / s ^+ 2) = (a * b * d ^+ 2 / s ^+ 2) * s.
    have F x : a * b * x * d * d / (s * s) = a * b * d * d / (s * s) * x.
      rewrite [RHS]mulrAC; congr (_ / _). rewrite [RHS]mulrAC; congr (_ * _). by rewrite mulrAC.
    by rewrite {2}/s mulrDr !expr2 !mulrA F [b * a]mulrC F addrC.
  by rewrite mulfK.
Qed.

(** Chebyshev *)
Lemma chebyshev v g c e : 0 < e ->
  (count (fun x => e <= `|g x - c|) v)%:R * e ^+ 2 <= \sum_(x <- v) (g x - c) ^+ 2.
Proof.
  move=> He. rewrite -sum_count mulr_suml; apply: ler_sum => x _.
  case: (boolP (e <= _)) => H; rewrite ?mul1r ?mul0r ?sqr_ge0 //.
  by rewrite -[X in _ <= X]real_normK ?num_real // ler_sqr ?nnegrE ?(ltW He).
Qed.

(** a value that halves the elements has the least absolute deviation *)
Lemma count_split v (r : R) : (size v = count (fun y => (y < r)%R) v + count (fun y => (y == r)%R) v + count (fun y => (r < y)%R) v)%N.
Proof.
  rewrite /count; elim: v => [|x v IH] //=. rewrite IH.
  case: (ltgtP x r) => _ /=; lia.
Qed.

Lemma half_below (a b c h N : nat) : (N = a + b + c -> h * 2 <= N -> c <= h -> h <= a + b)%N.
Proof. lia. Qed.
Lemma half_above (a b c h N : nat) : (N = a + b + c -> h * 2 <= N -> a <= h -> h <= c + b)%N.
Proof. lia. Qed.

Lemma halves_least v r c : (count (fun y => (y < r)%R) v <= (size v) %/ 2)%N ->
  (count (fun y => (r < y)%R) v <= (size v) %/ 2)%N ->
  \sum_(x <- v) `|x - r| <= \sum_(x <- v) `|x - c|.
Proof.
  move=> H1 H2. have Sz := count_split v r. have Hd := leq_trunc_div (size v) 2. rewrite -subr_ge0 -sumB.
  (* moving from r to c costs c - r on one side and gains at most that on the other *)
  have T (x : R) : - `|c - r| <= `|x - c| - `|x - r|.
    have := ler_dist_dist (x - c) (x - r).
    by rewrite opprB [x - c + _]addrC subrKA (distrC r c) ler_norml => /andP [].
  have E1 : count (fun x => (x <= r)%R) v = (count (fun y => (y < r)%R) v + count (fun y => (y == r)%R) v)%N.
    rewrite /count; elim: (v) => [|x w IH] //=. case: (ltgtP x r) => _ /=; by rewrite ?addnS ?addSn IH.
  have E2 : count (fun x => (r <= x)%R) v = (count (fun y => (r < y)%R) v + count (fun y => (y == r)%R) v)%N.
    rewrite /count; elim: (v) => [|x w IH] //=. rewrite [x == r]eq_sym. case: (ltgtP r x) => _ /=; by rewrite ?addnS ?addSn IH.
  case: (ltgtP r c) => Hc; last by rewrite Hc sumB subrr.
  - have D : 0 < c - r by rewrite subr_gt0.
    apply: (@le_trans _ _ (\sum_(x <- v) ((c - r) * (x <= r)%R%:R - (c - r) * (r < x)%R%:R))).
      rewrite sumB -!mulr_sumr -mulrBr !sum_count. apply: mulr_ge0; first exact: ltW.
      by rewrite subr_ge0 ler_nat E1; apply: (leq_trans H2); exact: (half_below Sz Hd H2).
    apply: ler_sum => x _. case: (lerP x r) => Hx /=; rewrite ?mulr1 ?mulr0 ?subr0 ?sub0r.
      by rewrite !ler0_norm ?subr_le0 ?(le_trans Hx (ltW Hc)) // !opprB subrKA.
    by have := T x; rewrite (gtr0_norm D) [`|x - r|]gtr0_norm ?subr_gt0.
  - have D : 0 < r - c by rewrite subr_gt0.
    apply: (@le_trans _ _ (\sum_(x <- v) ((r - c) * (r <= x)%R%:R - (r - c) * (x < r)%R%:R))).
      rewrite sumB -!mulr_sumr -mulrBr !sum_count. apply: mulr_ge0; first exact: ltW.
      by rewrite subr_ge0 ler_nat (E2 : count _ v = _); apply: (leq_trans H1); exact: (half_above Sz Hd H1).
    apply: ler_sum => x _. case: (lerP r x) => Hx /=; rewrite ?mulr1 ?mulr0 ?subr0 ?sub0r.
      by rewrite !ger0_norm ?subr_ge0 ?(le_trans (ltW Hc) Hx) // opprB [_ + (r - x)]addrC subrKA.
    by have := T x; rewrite (distrC c r) (gtr0_norm D) (distrC x r) [`|r - x|]gtr0_norm ?subr_gt0.
Qed.
End Lists.

(** ** mean, var and median *)
Section Exact.
Variables (R : realFieldType) (sq : R -> outcome R).
Notation K := (ordS sq).
Notation lt := (less K).

Lemma size_elements (T : Type) n m (A : matrix T) : shape n m A -> size (elements A) = (n * m)%N.
Proof.
  move=> [<- H]. elim: A H => [|r X IH] H //=.
  rewrite /elements /= size_cat -/(elements X) IH ?mulSn; last by move=> y Hy; apply: H; right.
  by rewrite -[size r]/(length r) (H r (or_introl erefl)).
Qed.

Lemma mem_In (v : seq R) x : x \in v -> In x v.
Proof. by elim: v => [//|y v IH]; rewrite in_cons => /orP [/eqP -> | /IH]; [left|right]. Qed.

Section Stats.
Variables (n m : nat) (A : matrix R).
Hypothesis HA : shape n m A.
Hypothesis Hpos : (0 < n * m)%N.
Hypothesis Hsz : (Z.of_nat (n * m) < 2 ^ 64)%Z.

Lemma mean_avg : mean K n m A = Ok (avg (elements A) id).
Proof.
  rewrite /avg (size_elements HA). move: HA => H; tomx H. rewrite mean_mx //. congr (Ok (_ / _)).
  exact: (big_elements X id).
Qed.

Lemma var_avg : var K n m A = Ok (avg (elements A) (fun x => (x - avg (elements A) id) ^+ 2)).
Proof.
  rewrite /avg (size_elements HA). move: HA => H; tomx H. rewrite var_mx //. congr (Ok (_ / _)).
  rewrite (big_elements X (fun x => (x - mxmean X) ^+ 2)).
  by rewrite /mxmean (big_elements X id).
Qed.

Lemma size_pos : (0 < size (elements A))%N.
Proof. by rewrite (size_elements HA). Qed.

Variables (mu v : R).
Hypothesis Emu : mean K n m A = Ok mu.
Hypothesis Ev : var K n m A = Ok v.

Lemma muE : mu = avg (elements A) id. Proof. by move: Emu; rewrite mean_avg => -[]. Qed.
Lemma vE : v = avg (elements A) (fun x => (x - mu) ^+ 2). Proof. by move: Ev; rewrite var_avg -muE => -[]. Qed.

(** The mean squared distance of the elements from any value c is the variance plus
    the squared distance of c from the mean: the mean is the best single value. *)
Theorem c89_around c :
  (\sum_(x <- elements A) (x - c) ^+ 2) / (n * m)%:R = v + (mu - c) ^+ 2.
Proof.
  have N := size_pos. rewrite (steiner id c N) -muE mulrDl vE /avg (size_elements HA).
  congr (_ + _). by rewrite mulrC mulKf // pnatr_eq0 -lt0n.
Qed.

(** Chebyshev: few elements are far from the mean. *)
Theorem c89_far e : 0 < e ->
  (count (fun x => e <= `|x - mu|) (elements A))%:R * e ^+ 2 <= (n * m)%:R * v.
Proof.
  move=> He. rewrite vE -(size_elements HA) avg_scale ?size_pos //. exact: (chebyshev _ id _ He).
Qed.

(** Elements between lo and hi: the variance is at most (hi - mean)(mean - lo), hence
    at most a quarter of the squared range. *)
Theorem c89_range lo hi : (forall x, In x (elements A) -> lo <= x <= hi) ->
  v <= (hi - mu) * (mu - lo) /\ 4%:R * v <= (hi - lo) ^+ 2.
Proof.
  move=> H. have N := size_pos.
  have B : v <= (hi - mu) * (mu - lo).
    rewrite vE. set a := hi - mu; set b := mu - lo.
    have E x : (hi - x) * (x - lo) + (x - mu) ^+ 2 = a * b + (x - mu) * (a - b).
      have -> : hi - x = a - (x - mu) by rewrite /a opprB subrKA.
      have -> : x - lo = (x - mu) + b by rewrite /b subrKA.
      exact: parabola.
    apply: (@le_trans _ _ (avg (elements A) (fun x => a * b + (x - mu) * (a - b)))).
      apply: ler_avg => x /mem_In /H /andP [L U]. rewrite -E ler_addr. by apply: mulr_ge0; rewrite subr_ge0.
    rewrite /avg big_split /= sum_const -mulr_suml (sumB _ id) sum_const muE.
    by rewrite avg_scale // subrr mul0r addr0 mulrC mulKf // pnatr_eq0 -lt0n.
  split=> //. apply: (@le_trans _ _ (4%:R * ((hi - mu) * (mu - lo)))); first by rewrite ler_pmul2l ?ltr0n.
  rewrite mulr_natl. have := leif_AGM2_scaled (hi - mu) (mu - lo). rewrite subrKA => -[]. by [].
Qed.

(** The median has the least mean absolute deviation, and is at most one standard
    deviation away from the mean. *)
Theorem c89_median sort : sorts lt sort (elements A) ->
  exists med, [/\ median K sort n m A = Ok med,
    (forall c, \sum_(x <- elements A) `|x - med| <= \sum_(x <- elements A) `|x - c|) &
    (mu - med) ^+ 2 <= v].
Proof.
  move=> So. have N := size_pos.
  have [med [E [H1 H2]]] := c75_exact HA Hpos So. exists med.
  have L c : \sum_(x <- elements A) `|x - med| <= \sum_(x <- elements A) `|x - c|.
    apply: halves_least; rewrite (size_elements HA) -half_div; exact/leP.
  split=> //. rewrite vE.
  have Nn : 0 <= (size (elements A))%:R^-1 :> R by rewrite invr_ge0 ler0n.
  apply: (@le_trans _ _ (avg (elements A) (fun x => `|x - mu|) ^+ 2)).
    rewrite -[X in X <= _]real_normK ?num_real // ler_sqr ?nnegrE //; last first.
      by apply: mulr_ge0 => //; apply: sum_ge0.
    apply: (@le_trans _ _ (avg (elements A) (fun x => `|x - med|))).
      by rewrite {1}muE -avgB //; apply: avg_norm.
    by rewrite /avg; apply: ler_wpmul2r.
  apply: le_trans (avg_sqr _ N) _. apply: ler_avg => x _. by rewrite real_normK ?num_real.
Qed.
End Stats.

(** ** Joined matrices: the mean is the weighted mean; the variance is the weighted
    variance plus a term for the distance of the means *)
Section Pooled.
Variables (n m n' m' N M : nat) (A B C : matrix R).
Hypothesis HA : shape n m A.
Hypothesis HB : shape n' m' B.
Hypothesis HC : shape N M C.
Hypothesis P : Permutation (elements A ++ elements B) (elements C).
Hypothesis Ha : (0 < n * m)%N.
Hypothesis Hb : (0 < n' * m')%N.
Hypothesis Hsz : (Z.of_nat (n * m + n' * m') < 2 ^ 64)%Z.

Lemma pooled_size : (N * M = n * m + n' * m')%N.
Proof.
  rewrite -(size_elements HA) -(size_elements HB) -(size_elements HC) -size_cat.
  symmetry; exact: (Permutation_length P).
Qed.

Variables (ma va mb vb : R).
Hypothesis Ema : mean K n m A = Ok ma.
Hypothesis Eva : var K n m A = Ok va.
Hypothesis Emb : mean K n' m' B = Ok mb.
Hypothesis Evb : var K n' m' B = Ok vb.

Lemma pooled : let a := (n * m)%:R in let b := (n' * m')%:R in
  mean K N M C = Ok ((a * ma + b * mb) / (a + b)) /\
  var K N M C = Ok ((a * va + b * vb) / (a + b) + a * b * (ma - mb) ^+ 2 / (a + b) ^+ 2).
Proof.
  move=> a b. have Sz := pooled_size.
  have Hc : (0 < N * M)%N by rewrite Sz addn_gt0 Ha.
  have HzA : (Z.of_nat (n * m) < 2 ^ 64)%Z by lia.
  have HzB : (Z.of_nat (n' * m') < 2 ^ 64)%Z by lia.
  have HzC : (Z.of_nat (N * M) < 2 ^ 64)%Z by rewrite Sz.
  have [Na Nb] := (size_pos HA Ha, size_pos HB Hb). have Nc := size_pos HC Hc.
  have Pa : a != 0 by rewrite pnatr_eq0 -lt0n.
  have Ps : a + b != 0 by rewrite -natrD pnatr_eq0 -Sz -lt0n.
  have Ea := muE HA Ha HzA Ema. have Eb := muE HB Hb HzB Emb.
  have S1 (g : R -> R) : \sum_(x <- elements C) g x = \sum_(x <- elements A) g x + \sum_(x <- elements B) g x.
    by rewrite -(big_perm g P) big_cat.
  have Em : avg (elements C) id = (a * ma + b * mb) / (a + b).
    rewrite /avg S1 Ea Eb /a /b -(size_elements HA) -(size_elements HB) !avg_scale //.
    by rewrite (size_elements HC) Sz natrD (size_elements HA) (size_elements HB).
  split; first by rewrite mean_avg // Em.
  rewrite var_avg // Em. set mu := _ / _. congr Ok.
  rewrite {1}/avg S1 (size_elements HC) Sz natrD -/a -/b.
  rewrite (steiner id mu Na) (steiner id mu Nb) -Ea -Eb (size_elements HA) (size_elements HB) -/a -/b.
  have -> : \sum_(x <- elements A) (x - ma) ^+ 2 = a * va.
    by rewrite /a (vE HA Ha HzA Ema Eva) -(size_elements HA) avg_scale.
  have -> : \sum_(x <- elements B) (x - mb) ^+ 2 = b * vb.
    by rewrite /b (vE HB Hb HzB Emb Evb) -(size_elements HB) avg_scale.
  exact: pool_algebra.
Qed.
End Pooled.

Theorem c89_concatenate_v n n' m (A B C : matrix R) (ma va mb vb : R) :
  shape n m A -> shape n' m B -> (0 < n * m)%N -> (0 < n' * m)%N ->
  (Z.of_nat (n * m + n' * m) < 2 ^ 64)%Z ->
  mean K n m A = Ok ma -> var K n m A = Ok va -> mean K n' m B = Ok mb -> var K n' m B = Ok vb ->
  concatenate_v K n n' m A B = Ok C -> let a := (n * m)%:R in let b := (n' * m)%:R in
  mean K (n + n') m C = Ok ((a * ma + b * mb) / (a + b)) /\
  var K (n + n') m C = Ok ((a * va + b * vb) / (a + b) + a * b * (ma - mb) ^+ 2 / (a + b) ^+ 2).
Proof.
  move=> HA HB Ha Hb Hs E1 E2 E3 E4 E. have P := @c73_concatenate_v K n m A HA n' B C HB E.
  have HC : shape (n + n') m C.
    move: HA HB E => /(shape_mk (lite K 0)) [f ->] /(shape_mk (lite K 0)) [g ->].
    by rewrite concatenate_v_mk => -[<-]; apply: shape_of_mk.
  exact: (pooled HA HB HC P Ha Hb Hs E1 E2 E3 E4).
Qed.

Theorem c89_concatenate_h n m m' (A B C : matrix R) (ma va mb vb : R) :
  shape n m A -> shape n m' B -> (0 < n * m)%N -> (0 < n * m')%N ->
  (Z.of_nat (n * m + n * m') < 2 ^ 64)%Z ->
  mean K n m A = Ok ma -> var K n m A = Ok va -> mean K n m' B = Ok mb -> var K n m' B = Ok vb ->
  concatenate_h K n m m' A B = Ok C -> let a := (n * m)%:R in let b := (n * m')%:R in
  mean K n (m + m') C = Ok ((a * ma + b * mb) / (a + b)) /\
  var K n (m + m') C = Ok ((a * va + b * vb) / (a + b) + a * b * (ma - mb) ^+ 2 / (a + b) ^+ 2).
Proof.
  move=> HA HB Ha Hb Hs E1 E2 E3 E4 E. have P := @c73_concatenate_h K n m A HA m' B C HB E.
  have HC : shape n (m + m') C.
    move: HA HB E => /(shape_mk (lite K 0)) [f ->] /(shape_mk (lite K 0)) [g ->].
    by rewrite concatenate_h_mk => -[<-]; apply: shape_of_mk.
  exact: (pooled HA HB HC P Ha Hb Hs E1 E2 E3 E4).
Qed.

(** ** Statistics from the histogram *)
Lemma hist_sum (l : seq R) (h : list (R * Z)) (g : R -> R) : is_histogram lt l h ->
  \sum_(x <- l) g x = \sum_(p <- h) (Z.to_nat (snd p))%:R * g (fst p).
Proof.
  move=> [So [Hc Hx]].
  have EQ x k : equivalent lt x k = (x == k).
    by rewrite /equivalent /less /= -!leNgt eq_le andbC.
  transitivity (\sum_(x <- l) \sum_(p <- h) (x == fst p)%:R * g (fst p)).
    rewrite big_seq [RHS]big_seq; apply: eq_bigr => x /mem_In /Hx [k [c [I]]]; rewrite EQ => /eqP Ek.
    elim: h So {Hc Hx} I => [//|p h IH] So I. have [So' Fa] := StronglySorted_inv So.
    rewrite big_cons. case: I => I.
    - rewrite I /= -Ek eqxx mul1r big1_seq ?addr0 // => q /= Hq.
      have : lt (fst p) (fst q) = true.
        move: Fa; rewrite Forall_forall; apply. move: Hq; clear; elim: h => [//|y h IH].
        by rewrite in_cons => /orP [/eqP -> | /IH]; [left|right].
      by rewrite I /less /= -Ek; case: eqP => [-> | _]; rewrite ?ltxx // mul0r.
    - have : lt (fst p) k = true by move: Fa; rewrite Forall_forall => /(_ _ I).
      by rewrite /less /= Ek; case: eqP => [-> | _]; rewrite ?ltxx // mul0r add0r; rewrite -Ek -IH.
  rewrite exchange_big /=. rewrite big_seq [RHS]big_seq; apply: eq_bigr => -[k c] Hk /=.
  rewrite -mulr_suml; congr (_ * _).
  have /Hc [_ ->] : In (k, c) h.
    move: Hk; clear; elim: h => [//|y h IH].
    by rewrite in_cons => /orP [/eqP -> | /IH]; [left|right].
  rewrite Nat2Z.id -sum_count. apply: eq_bigr => x _. by rewrite EQ.
Qed.

Theorem c89_histogram n m (A : matrix R) : shape n m A -> (0 < n * m)%N -> (Z.of_nat (n * m) < 2 ^ 64)%Z ->
  exists h, histogram K n m A = Ok h /\
    mean K n m A = Ok ((\sum_(p <- h) (Z.to_nat (snd p))%:R * fst p) / (n * m)%:R) /\
    forall mu, mean K n m A = Ok mu ->
    var K n m A = Ok ((\sum_(p <- h) (Z.to_nat (snd p))%:R * (fst p - mu) ^+ 2) / (n * m)%:R).
Proof.
  move=> HA Hpos Hsz. have W := proj1 (c40_exact_order sq (elements A)).
  have [h [E H _]] := @c41_histogram K n m A HA W Hsz. exists h; split=> //. split.
  - by rewrite mean_avg // /avg (size_elements HA) (hist_sum id H).
  - move=> mu; rewrite mean_avg // => -[Em]; rewrite var_avg // Em /avg (size_elements HA).
    by rewrite (hist_sum (fun x => (x - mu) ^+ 2) H).
Qed.
End Exact.
Print Assumptions c89_around.
Print Assumptions c89_far.
Print Assumptions c89_range.
Print Assumptions c89_median.
Print Assumptions c89_concatenate_v.
Print Assumptions c89_concatenate_h.
Print Assumptions c89_histogram.

(** ** The median from the cumulative histogram, every element type

    [first_over lt r k key]: key is the first key of r whose number exceeds k
    (Rank.v).  Of an odd number N of elements the median is the first key over N/2;
    of an even number the mean of the first key over N/2 and the first over N/2 - 1. *)
Theorem c89_cumulative (K : scalar) sort n m (A : matrix (elt K)) : shape n m A ->
  strict_weak_on (less K) (elements A) -> sorts (less K) sort (elements A) ->
  (0 < n * m)%N -> (Z.of_nat (n * m) < 2 ^ 64)%Z ->
  exists r, cumulative_histogram K n m A = Ok r /\
  if odd (n * m) then
    exists med key, [/\ median K sort n m A = Ok med, equivalent (less K) med key = true &
      first_over (less K) r ((n * m) %/ 2)%N key]
  else
    exists x y kx ky, [/\
      median K sort n m A = (let* t := xadd (ld x) (ld y) in let* q := xdiv t (@lit K 2) in Ok (st q)),
      equivalent (less K) x kx = true, equivalent (less K) y ky = true,
      first_over (less K) r ((n * m) %/ 2)%N kx & first_over (less K) r ((n * m) %/ 2 - 1)%N ky].
Proof.
  move=> HA W So Hpos Hs. have [r [Er H]] := rank_key K n m A sort HA W So Hs.
  exists r; split=> //. rewrite -half_div.
  have Par : Nat.modulo (n * m) 2 = odd (n * m).
    have := Nat.div_mod (n * m) 2 ltac:(lia). have := Nat.mod_upper_bound (n * m) 2 ltac:(lia). lia.
  case: ifP Par => Ho Par.
  - move: (HA) W So H => /(shape_mk (lite K 0)) [f ->] W So H.
    have [x [E [Ex _]]] := median_odd K sort n m f W So Par.
    have [key [E1 E2]] := H _ _ Ex. by exists x, key.
  - have [x [y [Ex Ey E]]] := c40_even HA W So Par Hpos.
    have [kx [E1 E2]] := H _ _ Ex. have [ky [E3 E4]] := H _ _ Ey.
    by exists x, y, kx, ky.
Qed.
Print Assumptions c89_cumulative.


(** one element far away: 0, 0, 0, 8 has mean 2, variance 12 = (8 - 2)(2 - 0), the
    largest possible in this range, and median 0; exactly one element is 6 away *)
Example c89_ex (sq : rat -> outcome rat) : let A := [:: [:: 0; 0]; [:: 0; 8%:R]] : matrix rat in
  [/\ shape 2 2 A, mean (ordS sq) 2 2 A = Ok 2%:R, var (ordS sq) 2 2 A = Ok 12%:R,
   median (ordS sq) (isort (fun a b : rat => a < b)) 2 2 A = Ok 0 &
   count (fun x : rat => 6%:R <= `|x - 2%:R|) (elements A) = 1%N].
Proof. by vm_compute; split=> //; split=> // r [<-|[<-|[]]]. Qed.
