(** * chol: the Cholesky factorisation in a real closed field *)

From Coq Require Import ZArith List Lia.
From mathcomp Require Import all_ssreflect all_algebra all_fingroup.
From mathcomp Require Import zify.
From Verif Require Import Base Scalar Model Spec Loops Struct Elim Alg Exact ExactLemmas Det LU.

Set Implicit Arguments.
Unset Strict Implicit.
Unset Printing Implicit Defensive.

Import Order.TTheory GRing.Theory Num.Theory.
Local Notation ltP := ssrnat.ltP (only parsing).
Local Notation leP := ssrnat.leP (only parsing).
Local Open Scope ring_scope.

Section Chol.
Variable R : rcfType.
Notation K := (realS R).
Implicit Types f l : nat -> nat -> R.

(** dot product of rows a and b of l, first m columns *)
Definition rdot l a b m : R := pdot l (fun i j => l j i) a b m.

Definition chol_body n f (i j : nat) (L : matrix R) : outcome (matrix R) :=
      if Nat.eqb j i then
        let* sum := for_ 0 i (fun k (sum : elt K) =>
          let* x := aget L i k in
          let* t := xmul (s := K) (ld (s := K) x) (ld (s := K) x) in
          let* v := xadd (s := K) (ld (s := K) sum) t in
          Ok (st (s := K) v)) (lite K 0) in
        let* a := aget (mk n n f) i i in
        let* v := xsub (s := K) (ld (s := K) a) (ld (s := K) sum) in
        let* r := xsqrt (s := K) v in
        aset L i i r
      else
        let* sum := for_ 0 i (fun k (sum : elt K) =>
          let* x := aget L i k in
          let* y := aget L j k in
          let* t := xmul (s := K) (ld (s := K) x) (ld (s := K) y) in
          let* v := xadd (s := K) (ld (s := K) sum) t in
          Ok (st (s := K) v)) (lite K 0) in
        let* a := aget (mk n n f) i j in
        let* v := xsub (s := K) (ld (s := K) a) (ld (s := K) sum) in
        let* ljj := aget L j j in
        let* q := xdiv (s := K) v (ld (s := K) ljj) in
        aset L i j (st (s := K) q).

Lemma chol_unfold n f : chol K n (mk n n f) =
  for_ 0 n (fun i L => for_ 0 (Nat.add i 1) (chol_body n f i) L) (init n n (lite K 0)).
Proof. by []. Qed.

Definition upd2 l i j (x : R) (a b : nat) : R := if (a == i) && (b == j) then x else l a b.

Lemma upd2_same l i j x : upd2 l i j x i j = x.
Proof. by rewrite /upd2 !eqxx. Qed.
Lemma upd2_other l i j x a b : (a != i) || (b != j) -> upd2 l i j x a b = l a b.
Proof. by rewrite /upd2; case: eqP => //= _; case: eqP. Qed.

Lemma aset_upd2 n l i j x : (i < n)%N -> (j < n)%N ->
  aset (mk n n l) i j x = Ok (mk n n (upd2 l i j x)).
Proof. by move=> Hi Hj; rewrite aset_mk //; exact/ltP. Qed.

(** positions visited before (i,j) *)
Definition before i j a b := (a < i)%N || ((a == i) && (b < j)%N).

Definition chol_inv n f (i j : nat) (s : matrix R) : Prop :=
  exists l, s = mk n n l /\
  (forall a b, (a < b)%N || ~~ before i j a b -> l a b = 0) /\
  (forall a b, (b <= a < n)%N -> before i j a b -> rdot l a b b.+1 = f a b) /\
  (forall b, before i j b b -> 0 <= l b b).

(** value under the square root at row i *)
Definition chol_v f l i : R := f i i - rdot l i i i.

Lemma chol_body_diag n f l i : (i < n)%N ->
  chol_body n f i i (mk n n l) =
  if chol_v f l i < 0 then UB BadConversion
  else Ok (mk n n (upd2 l i i (Num.sqrt (chol_v f l i)))).
Proof.
move=> Hi; rewrite /chol_body eqbE eqxx.
rewrite (@for_sum0 _ i (fun k => l i k * l i k)); last first.
  by move=> k c Hk; rewrite aget_mk //; apply/ltP; lia.
rewrite [bind _ _]/= aget_mk; try exact/ltP.
rewrite [bind _ _]/= -/(chol_v f l i).
by case: ifP => //= _; rewrite aset_upd2.
Qed.

Lemma chol_body_off n f l i j : (j < i < n)%N ->
  (forall b, (j <= b)%N -> l i b = 0) ->
  chol_body n f i j (mk n n l) =
  if l j j == 0 then UB DivByZero
  else Ok (mk n n (upd2 l i j ((f i j - rdot l i j j) / l j j))).
Proof.
move=> /andP[Hji Hi] Hz; rewrite /chol_body eqbE (ltn_eqF Hji).
rewrite (@for_sum0 _ i (fun k => l i k * l j k)); last first.
  by move=> k c Hk; rewrite !aget_mk //; apply/ltP; lia.
rewrite [bind _ _]/= aget_mk; try (apply/ltP; lia).
rewrite [bind _ _]/= aget_mk; try (apply/ltP; lia).
rewrite [bind _ _]/=.
have -> : \sum_(k < i) l i k * l j k = rdot l i j j.
  rewrite -/(pdot l (fun a b => l b a) i j i); apply: pdot_stable; first exact: ltnW.
  by move=> p Hp; rewrite Hz ?mul0r //; lia.
rewrite /exact_div unitfE; case: eqP => //= _; by rewrite aset_upd2 //; lia.
Qed.

Lemma rdot_ext l l' a b m :
  (forall p, (p < m)%N -> l a p = l' a p /\ l b p = l' b p) -> rdot l a b m = rdot l' a b m.
Proof. by move=> H; apply: pdot_ext => p Hp; have [-> ->] := H p Hp. Qed.

(** what one step does to the invariant *)
Lemma chol_step n f i j l x : (j <= i < n)%N ->
  (forall a b, (a < b)%N || ~~ before i j a b -> l a b = 0) ->
  (forall a b, (b <= a < n)%N -> before i j a b -> rdot l a b b.+1 = f a b) ->
  (forall b, before i j b b -> 0 <= l b b) ->
  (if i == j then 0 <= x /\ x * x = f i i - rdot l i i i
   else x * l j j = f i j - rdot l i j j) ->
  chol_inv n f i j.+1 (mk n n (upd2 l i j x)).
Proof.
move=> /andP[Hji Hi] Hz Hd Hp Hx; exists (upd2 l i j x); split=> //.
split.
  move=> a b H; rewrite upd2_other; last first.
    by case: (a =P i) H => [->|//]; case: (b =P j) => [->|//]; rewrite /before eqxx ltnS leqnn orbT orbF; lia.
  apply: Hz; case/orP: H => [->//|H]; apply/orP; right; move: H; rewrite /before; lia.
have Eb a b m : (m <= b.+1)%N -> (b <= a)%N -> before i j a b -> rdot (upd2 l i j x) a b m = rdot l a b m.
  move=> Hm Hba Hb; apply: rdot_ext => p Hpm; rewrite !upd2_other //; move: Hb; rewrite /before; lia.
have En a b : before i j.+1 a b -> before i j a b \/ (a = i /\ b = j).
  move=> H; case: (boolP (before i j a b)) => Hb; [by left|right]; move: H Hb; rewrite /before; lia.
split; last first.
  move=> b /En [Hb|[-> Eij]].
    by rewrite upd2_other; [exact: Hp|move: Hb; rewrite /before; lia].
  by move: Hx; rewrite -Eij upd2_same eqxx => -[].
move=> a b Hba /En [Hb|[-> ->]].
  by rewrite Eb ?Hd //; case/andP: Hba.
rewrite /rdot pdotS.
have -> : pdot (upd2 l i j x) (fun i0 j0 => upd2 l i j x j0 i0) i j j = rdot l i j j.
  apply: rdot_ext => p Hpj; rewrite !upd2_other //; lia.
rewrite upd2_same; case: (i =P j) Hx => [<-|/eqP Hij] Hx.
  by rewrite upd2_same (proj2 Hx) addrC subrK.
by rewrite upd2_other ?Hx ?[_ + (_ - _)]addrC ?subrK // eq_sym Hij.
Qed.

Lemma chol_inv_row n f i s : chol_inv n f i i.+1 s <-> chol_inv n f i.+1 0 s.
Proof.
have E a b : (b <= a)%N -> before i i.+1 a b = before i.+1 0 a b by rewrite /before; lia.
split=> -[l [-> [Hz [Hd Hp]]]]; exists l; split=> //.
  split; first by move=> a b H; apply: Hz; case: (ltnP a b) H => //= H; rewrite E.
  by split=> [a b Hba|b] Hb; [apply: Hd => //; rewrite E //; case/andP: Hba|apply: Hp; rewrite E].
split; first by move=> a b H; apply: Hz; case: (ltnP a b) H => //= H; rewrite E.
by split=> [a b Hba|b] Hb; [apply: Hd => //; rewrite -E //; case/andP: Hba|apply: Hp; rewrite -E].
Qed.

Lemma chol_inv0 n f : chol_inv n f 0 0 (init n n (lite K 0)).
Proof.
rewrite init_mk; exists (fun _ _ => 0); split=> //; split=> //.
by split=> [a b _|b]; rewrite /before !ltn0 andbF.
Qed.

(** whenever chol returns *)
Lemma chol_partial n f L : chol K n (mk n n f) = Ok L -> chol_inv n f n 0 L.
Proof.
rewrite chol_unfold; apply: (@for_partial _ (fun i => chol_inv n f i 0)).
- exact/leP.
- exact: chol_inv0.
move=> i s s' [_ /ltP Hi] Hs E; apply/chol_inv_row; rewrite Nat.add_1_r in E.
move: E; apply: (@for_partial _ (chol_inv n f i)) => //; first exact/leP.
move=> j {s s' Hs} s s' [_ /ltP Hj] [l [-> [Hz [Hd Hp]]]].
case: (i =P j) => [Eij|/eqP Hij].
  rewrite -Eij in Hz Hd Hp *; rewrite chol_body_diag //.
  case: ifP => // /negbT; rewrite -leNgt => Hv [<-].
  apply: chol_step; rewrite ?leqnn ?eqxx //.
  by split; [exact: sqrtr_ge0|rewrite -expr2 sqr_sqrtr].
have Hji : (j < i)%N by lia.
rewrite chol_body_off ?Hji // => [|b Hb]; last by apply: Hz; rewrite /before; lia.
case: eqP => // /eqP Hnz [<-].
apply: chol_step => //; first by rewrite (ltnW Hji).
by rewrite (negbTE Hij) divfK.
Qed.

(** ** positive definite input *)

(** the quadratic form of the leading part is a sum of squares plus the value
    under the square root *)
Lemma chol_v_pos n f l i (A : 'M[R]_n) : (i < n)%N ->
  (forall a b : 'I_n, A a b = f a b) -> symmetric A -> pos_def A ->
  (forall a b, (a < b)%N || ~~ before i i a b -> l a b = 0) ->
  (forall a b, (b <= a < n)%N -> before i i a b -> rdot l a b b.+1 = f a b) ->
  0 < chol_v f l i.
Proof.
move=> Hi Af Asym Apd Hz Hd.
pose B : 'M[R]_(n, n.-1) := \matrix_(a, c) (if (c < i)%N then l a c else ((a : nat) == c.+1)%:R).
have [x Hx Hx0] : exists2 x : 'rV[R]_n, (x <= kermx B)%MS & x != 0.
  apply/rowV0Pn; rewrite -mxrank_eq0 mxrank_ker -lt0n subn_gt0.
  by apply: leq_ltn_trans (rank_leq_col B) _; lia.
move/sub_kermxP: Hx => Hx.
have Hcol (c : 'I_n.-1) : \sum_a x 0 a * B a c = 0.
  by have /matrixP/(_ 0 c) := Hx; rewrite !mxE.
have Hout (a : 'I_n) : (i < a)%N -> x 0 a = 0.
  move=> Hia; have Hc : (a.-1 < n.-1)%N by have := ltn_ord a; lia.
  have := Hcol (Ordinal Hc); rewrite (bigD1 a) //= mxE /=.
  have -> : (a.-1 < i)%N = false by lia.
  rewrite prednK ?eqxx ?mulr1; last by lia.
  rewrite big1 ?addr0 // => b Hb; rewrite mxE /=.
  have -> : (a.-1 < i)%N = false by lia.
  rewrite prednK; last by lia.
  by rewrite (inj_eq val_inj) (negbTE Hb) mulr0.
have Hin k : (k < i)%N -> \sum_(a < n) x 0 a * l a k = 0.
  move=> Hk; have Hc : (k < n.-1)%N by lia.
  rewrite -[RHS](Hcol (Ordinal Hc)); apply: eq_bigr => a _; by rewrite mxE /= Hk.
have Hle (a b : 'I_n) : (b <= a <= i)%N ->
   f a b = \sum_(k < i) l a k * l b k + (a == Ordinal Hi)%:R * (b == Ordinal Hi)%:R * chol_v f l i.
  move=> Hab; case: (boolP (before i i a b)) => Hb.
    rewrite -Hd //; last by rewrite ltn_ord andbT; case/andP: Hab.
    have -> : (b == Ordinal Hi) = false.
      by apply/negbTE/eqP => Eb; move: Hb Hab; rewrite Eb /before /=; lia.
    rewrite mulr0 mul0r addr0 /rdot.
    rewrite -/(pdot l (fun p q => l q p) a b i); symmetry; apply: pdot_stable.
      by move: Hb; rewrite /before; lia.
    by move=> p Hp; rewrite (Hz b p) ?mulr0 //; lia.
  have Ea : (a : nat) = i by move: Hb; rewrite /before; lia.
  have Eb : (b : nat) = i by move: Hb; rewrite /before; lia.
  have -> : (a == Ordinal Hi) by apply/eqP/val_inj.
  have -> : (b == Ordinal Hi) by apply/eqP/val_inj.
  by rewrite !mul1r Ea Eb /chol_v /rdot /pdot addrC subrK.
have Hall (a b : 'I_n) : (a <= i)%N -> (b <= i)%N ->
   A a b = \sum_(k < i) l a k * l b k + (a == Ordinal Hi)%:R * (b == Ordinal Hi)%:R * chol_v f l i.
  move=> Ha Hb; case: (leqP b a) => Hba.
    by rewrite Af Hle // Hba.
  rewrite -Asym mxE Af Hle; last by rewrite (ltnW Hba).
  congr (_ + _); first by apply: eq_bigr => k _; rewrite mulrC.
  by rewrite [(b == _)%:R * _]mulrC.
have := Apd x Hx0.
have -> : (x *m A *m x^T) 0 0 = x 0 (Ordinal Hi) ^+ 2 * chol_v f l i; last first.
  move=> H; rewrite ltNge; apply/negP => Hv; move: H; rewrite ltNge => /negP; apply.
  by apply: mulr_ge0_le0 => //; exact: sqr_ge0.
transitivity (\sum_(b < n) \sum_(a < n) x 0 a * x 0 b *
   (\sum_(k < i) l a k * l b k + (a == Ordinal Hi)%:R * (b == Ordinal Hi)%:R * chol_v f l i)).
  rewrite mxE; apply: eq_bigr => b _; rewrite !mxE mulr_suml; apply: eq_bigr => a _.
  case: (leqP a i) => Ha; last by rewrite (Hout a Ha) !mul0r.
  case: (leqP b i) => Hb; last by rewrite (Hout b Hb) !mulr0 mul0r.
  by rewrite Hall // mulrAC.
transitivity (\sum_(b < n) \sum_(a < n) \sum_(k < i) (x 0 a * l a k) * (x 0 b * l b k)
  + \sum_(b < n) \sum_(a < n) x 0 a * x 0 b * ((a == Ordinal Hi)%:R * (b == Ordinal Hi)%:R * chol_v f l i)).
  rewrite -big_split; apply: eq_bigr => b _; rewrite -big_split; apply: eq_bigr => a _ /=.
  rewrite mulrDr mulr_sumr; congr (_ + _); apply: eq_bigr => k _; by rewrite mulrACA.
have -> : \sum_(b < n) \sum_(a < n) \sum_(k < i) (x 0 a * l a k) * (x 0 b * l b k) = 0.
  apply: big1 => b _; rewrite exchange_big /=; apply: big1 => k _.
  by rewrite -mulr_suml Hin ?mul0r.
rewrite add0r (bigD1 (Ordinal Hi)) //= [X in _ + X]big1 ?addr0; last first.
  move=> b Hb; apply: big1 => a _; by rewrite (negbTE Hb) mulr0 mul0r mulr0.
rewrite (bigD1 (Ordinal Hi)) //= [X in _ + X]big1 ?addr0; last first.
  move=> a Ha; by rewrite (negbTE Ha) !mul0r mulr0.
by rewrite !eqxx !mul1r expr2.
Qed.

Definition chol_inv_pos n f i j (s : matrix R) : Prop :=
  exists l, s = mk n n l /\
  (forall a b, (a < b)%N || ~~ before i j a b -> l a b = 0) /\
  (forall a b, (b <= a < n)%N -> before i j a b -> rdot l a b b.+1 = f a b) /\
  (forall b, before i j b b -> 0 < l b b).

Lemma chol_inv_pos_row n f i s : chol_inv_pos n f i i.+1 s -> chol_inv_pos n f i.+1 0 s.
Proof.
have E a b : (b <= a)%N -> before i i.+1 a b = before i.+1 0 a b by rewrite /before; lia.
move=> [l [-> [Hz [Hd Hp]]]]; exists l; split=> //.
split; first by move=> a b H; apply: Hz; case: (ltnP a b) H => //= H; rewrite E.
by split=> [a b Hba|b] Hb; [apply: Hd => //; rewrite E //; case/andP: Hba|apply: Hp; rewrite E].
Qed.

Lemma chol_step_pos n f i j l x : (j <= i < n)%N ->
  (forall a b, (a < b)%N || ~~ before i j a b -> l a b = 0) ->
  (forall a b, (b <= a < n)%N -> before i j a b -> rdot l a b b.+1 = f a b) ->
  (forall b, before i j b b -> 0 < l b b) ->
  (if i == j then 0 < x /\ x * x = f i i - rdot l i i i
   else x * l j j = f i j - rdot l i j j) ->
  chol_inv_pos n f i j.+1 (mk n n (upd2 l i j x)).
Proof.
move=> Hji Hz Hd Hp Hx.
have [||l' [El [Hz' [Hd' _]]]] := @chol_step n f i j l x Hji Hz Hd.
- by move=> b /Hp /ltW.
- by move: Hx; case: eqP => // _ [/ltW].
exists l'; split=> //; split=> //; split=> // b Hb.
have El' a c : (a < n)%N -> (c < n)%N -> l' a c = upd2 l i j x a c.
  by move=> /ltP Ha /ltP Hc; have := @mk_inj _ _ _ _ _ El a c Ha Hc.
rewrite El' //; last 2 first.
- by move: Hb; rewrite /before; lia.
- by move: Hb; rewrite /before; lia.
case: (boolP ((b == i) && (b == j))) => [/andP[/eqP Ei /eqP Ej]|H].
  by move: Hx; rewrite -Ei -Ej eqxx upd2_same => -[].
rewrite upd2_other; last by rewrite -negb_and.
by apply: Hp; move: Hb H Hji; rewrite /before; lia.
Qed.

Lemma chol_total n f (A : 'M[R]_n) : (forall a b : 'I_n, A a b = f a b) ->
  symmetric A -> pos_def A ->
  exists L, chol K n (mk n n f) = Ok L /\ chol_inv_pos n f n 0 L.
Proof.
move=> Af Asym Apd; rewrite chol_unfold.
apply: (@for_inv _ (fun i => chol_inv_pos n f i 0)).
- exact/leP.
- rewrite init_mk; exists (fun _ _ => 0); split=> //; split=> //.
  by split=> [a b _|b]; rewrite /before !ltn0 andbF.
move=> i s [_ /ltP Hi] Hs; rewrite Nat.add_1_r.
have [||L [-> HL]] := @for_inv _ (chol_inv_pos n f i) 0 i.+1 (chol_body n f i) s _ Hs.
- exact/leP.
- move=> j {s Hs} s [_ /ltP Hj] [l [-> [Hz [Hd Hp]]]].
  case: (i =P j) => [Eij|/eqP Hij].
    rewrite -Eij in Hz Hd Hp *; rewrite chol_body_diag //.
    have Hv := chol_v_pos Hi Af Asym Apd Hz Hd.
    rewrite ltNge (ltW Hv) /=; eexists; split; first reflexivity.
    apply: chol_step_pos; rewrite ?leqnn ?eqxx //.
    by split; [rewrite sqrtr_gt0|rewrite -expr2 sqr_sqrtr // ltW].
  have Hji : (j < i)%N by lia.
  rewrite chol_body_off ?Hji // => [|b Hb]; last by apply: Hz; rewrite /before; lia.
  have Hpj : 0 < l j j by apply: Hp; rewrite /before Hji.
  rewrite gt_eqF //; eexists; split; first reflexivity.
  apply: chol_step_pos => //; first by rewrite (ltnW Hji).
  by rewrite (negbTE Hij) divfK // gt_eqF.
by exists L; split=> //; apply: chol_inv_pos_row.
Qed.

(** ** in terms of matrices *)

Lemma chol_mx_prod n f (l : nat -> nat -> R) :
  (forall a b, (a < b)%N || ~~ before n 0 a b -> l a b = 0) ->
  (forall a b, (b <= a < n)%N -> before n 0 a b -> rdot l a b b.+1 = f a b) ->
  let L : 'M[R]_n := \matrix_(i, j) l i j in
  lower L /\ forall i j : 'I_n, (j <= i)%N -> (L *m L^T) i j = f i j /\ (L *m L^T) j i = f i j.
Proof.
move=> Hz Hd L; split; first by move=> i j Hij; rewrite mxE Hz // Hij.
have Hsym (i j : 'I_n) : (L *m L^T) i j = (L *m L^T) j i.
  by rewrite !mxE; apply: eq_bigr => k _; rewrite !mxE mulrC.
move=> i j Hji; suff E : (L *m L^T) i j = f i j by split=> //; rewrite -Hsym.
rewrite -Hd ?Hji ?ltn_ord //; last by rewrite /before ltn_ord.
rewrite mxE; transitivity (rdot l i j n).
  by apply: eq_bigr => k _; rewrite !mxE.
apply: pdot_stable => // p Hp; rewrite (Hz j p) ?mulr0 //; lia.
Qed.

Lemma chol_spd n (A : 'M[R]_n) : symmetric A -> pos_def A ->
  exists L : 'M[R]_n, chol K n (mxrows A) = Ok (mxrows L) /\
  [/\ lower L, forall i, 0 < L i i & L *m L^T = A].
Proof.
move=> Asym Apd; rewrite (mxrowsE 0 A).
have [|L [-> [l [-> [Hz [Hd Hp]]]]]] := @chol_total n (mxf 0 A) A _ Asym Apd.
  by move=> a b; rewrite mxf_ord.
exists (\matrix_(i, j) l i j); rewrite mk_mxrows; split=> //.
have [Hl H] := chol_mx_prod Hz Hd; split=> //.
  by move=> i; rewrite mxE; apply: Hp; rewrite /before ltn_ord.
apply/matrixP => i j; case: (leqP j i) => Hij.
  by have [-> _] := H i j Hij; rewrite mxf_ord.
by have [_ ->] := H j i (ltnW Hij); rewrite mxf_ord -{1}Asym mxE.
Qed.

(** the symmetric matrix with A's lower triangle *)
Definition sym_lower n (A : 'M[R]_n) : 'M[R]_n :=
  \matrix_(i, j) if (j <= i)%N then A i j else A j i.

Lemma chol_ret n (A : 'M[R]_n) X : chol K n (mxrows A) = Ok X ->
  exists L : 'M[R]_n, X = mxrows L /\
  [/\ lower L, forall i, 0 <= L i i & L *m L^T = sym_lower A].
Proof.
rewrite (mxrowsE 0 A) => /chol_partial [l [-> [Hz [Hd Hp]]]].
exists (\matrix_(i, j) l i j); rewrite mk_mxrows; split=> //.
have [Hl H] := chol_mx_prod Hz Hd; split=> //.
  by move=> i; rewrite mxE; apply: Hp; rewrite /before ltn_ord.
apply/matrixP => i j; rewrite [in RHS]mxE; case: (leqP j i) => Hij.
  by have [-> _] := H i j Hij; rewrite mxf_ord.
by have [_ ->] := H j i (ltnW Hij); rewrite mxf_ord.
Qed.
End Chol.
