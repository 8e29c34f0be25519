(** * chol over a field in which every element has a square root *)

From Coq Require Import ZArith List Lia.
From mathcomp Require Import all_ssreflect all_algebra all_fingroup.
From mathcomp Require Import zify.
From Verif Require Import Base Scalar Model Spec Loops Struct Elim Alg Exact ExactLemmas Det LU.

Set Implicit Arguments.
Unset Strict Implicit.
Unset Printing Implicit Defensive.

Import Order.TTheory GRing.Theory Num.Theory.
Local Notation ltP := ssrnat.ltP (only parsing).
Local Notation leP := ssrnat.leP (only parsing).
Local Open Scope ring_scope.

Section CholField.
Variables (F : fieldType) (lt : F -> F -> bool) (ab : F -> F) (s : F -> F).
Notation K := (exactS lt ab (fun z => Ok (s z))).
Hypothesis Hs : forall z, s z * s z = z.
Implicit Types f l : nat -> nat -> F.

Definition fdot l a b m : F := \sum_(p < m) l a p * l b p.

Lemma fdotS l a b m : fdot l a b m.+1 = fdot l a b m + l a m * l b m.
Proof. by rewrite /fdot big_ord_recr. Qed.
Lemma fdot_ext l l' a b m :
  (forall p, (p < m)%N -> l a p = l' a p /\ l b p = l' b p) -> fdot l a b m = fdot l' a b m.
Proof. by move=> H; apply: eq_bigr => p _; have [-> ->] := H p (ltn_ord p). Qed.
Lemma fdot_stable l a b m m' : (m <= m')%N ->
  (forall p, (m <= p < m')%N -> l a p * l b p = 0) -> fdot l a b m' = fdot l a b m.
Proof.
elim: m' => [|m' IH] Hm H; first by move: Hm; rewrite leqn0 => /eqP ->.
move: Hm; rewrite leq_eqVlt => /orP[/eqP -> //|]; rewrite ltnS => Hm.
by rewrite fdotS IH // ?H ?addr0 // => [|p Hp]; [lia|apply: H; lia].
Qed.

Definition fchol_body n f (i j : nat) (L : matrix F) : outcome (matrix F) :=
      if Nat.eqb j i then
        let* sum := for_ 0 i (fun k (sum : elt K) =>
          let* x := aget L i k in
          let* t := xmul (s := K) (ld (s := K) x) (ld (s := K) x) in
          let* v := xadd (s := K) (ld (s := K) sum) t in
          Ok (st (s := K) v)) (lite K 0) in
        let* a := aget (mk n n f) i i in
        let* v := xsub (s := K) (ld (s := K) a) (ld (s := K) sum) in
        let* r := xsqrt (s := K) v in
        aset L i i r
      else
        let* sum := for_ 0 i (fun k (sum : elt K) =>
          let* x := aget L i k in
          let* y := aget L j k in
          let* t := xmul (s := K) (ld (s := K) x) (ld (s := K) y) in
          let* v := xadd (s := K) (ld (s := K) sum) t in
          Ok (st (s := K) v)) (lite K 0) in
        let* a := aget (mk n n f) i j in
        let* v := xsub (s := K) (ld (s := K) a) (ld (s := K) sum) in
        let* ljj := aget L j j in
        let* q := xdiv (s := K) v (ld (s := K) ljj) in
        aset L i j (st (s := K) q).

Lemma fchol_unfold n f : chol K n (mk n n f) =
  for_ 0 n (fun i L => for_ 0 (Nat.add i 1) (fchol_body n f i) L) (init n n (lite K 0)).
Proof. by []. Qed.

Definition put l i j (x : F) (a b : nat) : F := if (a == i) && (b == j) then x else l a b.
Lemma put_same l i j x : put l i j x i j = x.
Proof. by rewrite /put !eqxx. Qed.
Lemma put_other l i j x a b : (a != i) || (b != j) -> put l i j x a b = l a b.
Proof. by rewrite /put; case: eqP => //= _; case: eqP. Qed.
Lemma aset_put n l i j x : (i < n)%N -> (j < n)%N -> aset (mk n n l) i j x = Ok (mk n n (put l i j x)).
Proof. by move=> Hi Hj; rewrite aset_mk //; exact/ltP. Qed.

Definition seen i j a b := (a < i)%N || ((a == i) && (b < j)%N).

(** rows before i and the first j elements of row i are done *)
Definition finv n f (i j : nat) (X : matrix F) : Prop :=
  exists l, X = mk n n l /\
  (forall a b, (a < b)%N || ~~ seen i j a b -> l a b = 0) /\
  (forall a b, (b <= a < n)%N -> seen i j a b -> fdot l a b b.+1 = f a b) /\
  (forall b, seen i j b b -> exists v, l b b = s v) /\
  (forall a b, (b < a)%N -> seen i j a b -> l b b != 0).

Lemma fbody_diag n f l i : (i < n)%N ->
  fchol_body n f i i (mk n n l) = Ok (mk n n (put l i i (s (f i i - fdot l i i i)))).
Proof.
move=> Hi; rewrite /fchol_body eqbE eqxx.
rewrite (@for_sum0 _ i (fun k => l i k * l i k)); last first.
  by move=> k c Hk; rewrite aget_mk //; apply/ltP; lia.
rewrite [bind _ _]/= aget_mk; try exact/ltP.
by rewrite [bind _ _]/= aset_put.
Qed.

Lemma fbody_off n f l i j : (j < i < n)%N -> (forall b, (j <= b)%N -> l i b = 0) ->
  fchol_body n f i j (mk n n l) =
  if l j j == 0 then UB DivByZero
  else Ok (mk n n (put l i j ((f i j - fdot l i j j) / l j j))).
Proof.
move=> /andP[Hji Hi] Hz; rewrite /fchol_body eqbE (ltn_eqF Hji).
rewrite (@for_sum0 _ i (fun k => l i k * l j k)); last first.
  by move=> k c Hk; rewrite !aget_mk //; apply/ltP; lia.
rewrite [bind _ _]/= aget_mk; try (apply/ltP; lia).
rewrite [bind _ _]/= aget_mk; try (apply/ltP; lia).
rewrite [bind _ _]/=.
have -> : \sum_(k < i) l i k * l j k = fdot l i j j.
  rewrite -/(fdot l i j i); apply: fdot_stable; first exact: ltnW.
  by move=> p Hp; rewrite Hz ?mul0r //; lia.
rewrite /exact_div unitfE; case: eqP => //= _; by rewrite aset_put //; lia.
Qed.

Lemma finv_step n f i j l x : (j <= i < n)%N ->
  (forall a b, (a < b)%N || ~~ seen i j a b -> l a b = 0) ->
  (forall a b, (b <= a < n)%N -> seen i j a b -> fdot l a b b.+1 = f a b) ->
  (forall b, seen i j b b -> exists v, l b b = s v) ->
  (forall a b, (b < a)%N -> seen i j a b -> l b b != 0) ->
  (if i == j then x = s (f i i - fdot l i i i)
   else l j j != 0 /\ x * l j j = f i j - fdot l i j j) ->
  finv n f i j.+1 (mk n n (put l i j x)).
Proof.
move=> /andP[Hji Hi] Hz Hd Hp Hn Hx; exists (put l i j x); split=> //.
have En a b : seen i j.+1 a b -> seen i j a b \/ (a = i /\ b = j).
  move=> H; case: (boolP (seen i j a b)) => Hb; [by left|right]; move: H Hb; rewrite /seen; lia.
split.
  move=> a b H; rewrite put_other; last first.
    by case: (a =P i) H => [->|//]; case: (b =P j) => [->|//]; rewrite /seen eqxx ltnS leqnn orbT orbF; lia.
  apply: Hz; case/orP: H => [->//|H]; apply/orP; right; move: H; rewrite /seen; lia.
have Eb a b m : (m <= b.+1)%N -> (b <= a)%N -> seen i j a b -> fdot (put l i j x) a b m = fdot l a b m.
  move=> Hm Hba Hb; apply: fdot_ext => p Hpm; rewrite !put_other //; move: Hb; rewrite /seen; lia.
split.
  move=> a b Hba /En [Hb|[-> ->]].
    by rewrite Eb ?Hd //; case/andP: Hba.
  rewrite fdotS.
  have -> : fdot (put l i j x) i j j = fdot l i j j.
    apply: fdot_ext => p Hpj; rewrite !put_other //; lia.
  rewrite put_same; case: (i =P j) Hx => [<-|/eqP Hij] Hx.
    by rewrite put_same Hx Hs addrC subrK.
  by rewrite put_other ?(proj2 Hx) ?[_ + (_ - _)]addrC ?subrK // eq_sym Hij.
split.
  move=> b /En [Hb|[-> Eij]].
    by rewrite put_other; [exact: Hp|move: Hb; rewrite /seen; lia].
  by move: Hx; rewrite -Eij put_same eqxx => ->; eexists.
move=> a b Hba /En [Hb|[Ea Ej]].
  by rewrite put_other; [exact: (Hn a)|move: Hb; rewrite /seen; lia].
subst b; have Hij : (i == j) = false by lia.
by rewrite put_other ?(eq_sym j) ?Hij //; move: Hx; rewrite Hij => -[].
Qed.

Lemma finv_row n f i X : finv n f i i.+1 X -> finv n f i.+1 0 X.
Proof.
have E a b : (b <= a)%N -> seen i i.+1 a b = seen i.+1 0 a b by rewrite /seen; lia.
move=> [l [-> [Hz [Hd [Hp Hn]]]]]; exists l; split=> //.
split; first by move=> a b H; apply: Hz; case: (ltnP a b) H => //= H; rewrite E.
split; first by move=> a b Hba Hb; apply: Hd => //; rewrite E //; case/andP: Hba.
split; first by move=> b Hb; apply: Hp; rewrite E.
by move=> a b Hba Hb; apply: (Hn a) => //; rewrite E // ltnW.
Qed.

Lemma finv0 n f : finv n f 0 0 (init n n (lite K 0)).
Proof.
rewrite init_mk; exists (fun _ _ => 0); split=> //; split=> //.
by split=> [a b _|]; [|split=> [b|a b _]]; rewrite /seen !ltn0 andbF.
Qed.

Lemma fchol_partial n f L : chol K n (mk n n f) = Ok L -> finv n f n 0 L.
Proof.
rewrite fchol_unfold; apply: (@for_partial _ (fun i => finv n f i 0)).
- exact/leP.
- exact: finv0.
move=> i X X' [_ /ltP Hi] HX E; apply: finv_row; rewrite Nat.add_1_r in E.
move: E; apply: (@for_partial _ (finv n f i)) => //; first exact/leP.
move=> j {X X' HX} X X' [_ /ltP Hj] [l [-> [Hz [Hd [Hp Hn]]]]].
case: (i =P j) => [Eij|/eqP Hij].
  rewrite -Eij in Hz Hd Hp Hn *; rewrite fbody_diag // => -[<-].
  by apply: finv_step; rewrite ?leqnn ?eqxx.
have Hji : (j < i)%N by lia.
rewrite fbody_off ?Hji // => [|b Hb]; last by apply: Hz; rewrite /seen; lia.
case: eqP => // /eqP Hnz [<-].
apply: finv_step => //; first by rewrite (ltnW Hji).
by rewrite (negbTE Hij) divfK.
Qed.

(** the symmetric matrix with the lower triangle of f *)
Definition slow f a b : F := if (b <= a)%N then f a b else f b a.

(** leading minors are products of squares of the diagonal *)
Lemma fminor f l m :
  (forall a b, (a < b)%N -> l a b = 0) ->
  (forall a b, (b <= a < m)%N -> fdot l a b b.+1 = f a b) ->
  detf m (slow f) = \prod_(p < m) (l p p) ^+ 2.
Proof.
move=> Hz Hd; pose L : 'M[F]_m := \matrix_(i, j) l i j.
have D (i j : 'I_m) : (j <= i)%N -> \sum_(p < m) l i p * l j p = f i j.
  move=> Hji; rewrite -/(fdot l i j m) -Hd; last by rewrite Hji ltn_ord.
  by apply: fdot_stable => [|p Hp]; [exact: ltn_ord|rewrite (Hz j p) ?mulr0 //; lia].
have -> : detf m (slow f) = \det (L *m L^T).
  congr (\det _); apply/matrixP => i j; rewrite !mxE /slow.
  case: (leqP j i) => Hij; [rewrite -D //|rewrite -(D j i (ltnW Hij))]; apply: eq_bigr => p _; rewrite !mxE //.
  by rewrite mulrC.
rewrite det_mulmx det_tr det_trig; last by apply/is_trig_mxP=> i j Hij; rewrite mxE Hz.
by rewrite -big_split; apply: eq_bigr => i _; rewrite !mxE expr2.
Qed.

(** chol returns when the leading minors before the last are not 0 *)
Lemma fchol_total n f : (forall k, (0 < k < n)%N -> detf k (slow f) != 0) ->
  exists L, chol K n (mk n n f) = Ok L.
Proof.
move=> Hm; rewrite fchol_unfold.
suff [L [-> _]] : exists L, for_ 0 n (fun i L => for_ 0 (Nat.add i 1) (fchol_body n f i) L) (init n n (lite K 0)) = Ok L
    /\ finv n f n 0 L by exists L.
apply: (@for_inv _ (fun i => finv n f i 0)); first exact/leP.
  exact: finv0.
move=> i X [_ /ltP Hi] HX; rewrite Nat.add_1_r.
have [||L [-> HL]] := @for_inv _ (finv n f i) 0 i.+1 (fchol_body n f i) X _ HX.
- exact/leP.
- move=> j {X HX} X [_ /ltP Hj] [l [-> [Hz [Hd [Hp Hn]]]]].
  case: (i =P j) => [Eij|/eqP Hij].
    rewrite -Eij in Hz Hd Hp Hn *; rewrite fbody_diag //; eexists; split; first reflexivity.
    by apply: finv_step; rewrite ?leqnn ?eqxx.
  have Hji : (j < i)%N by lia.
  rewrite fbody_off ?Hji // => [|b Hb]; last by apply: Hz; rewrite /seen; lia.
  have Hnz : l j j != 0.
    have : detf j.+1 (slow f) != 0 by apply: Hm; lia.
    rewrite (@fminor f l j.+1) => [|a b Hab|a b Hab].
    + by rewrite big_ord_recr /= mulf_eq0 negb_or expf_eq0 /= => /andP[].
    + by apply: Hz; rewrite Hab.
    + by apply: Hd; rewrite /seen; lia.
  rewrite (negbTE Hnz); eexists; split; first reflexivity.
  apply: finv_step => //; first by rewrite (ltnW Hji).
  by rewrite (negbTE Hij) divfK.
by exists L; split=> //; apply: finv_row.
Qed.

Lemma fchol_minors n f L : chol K n (mk n n f) = Ok L -> forall k, (0 < k < n)%N -> detf k (slow f) != 0.
Proof.
move=> /fchol_partial [l [_ [Hz [Hd [_ Hn]]]]] k Hk.
rewrite (@fminor f l k) => [|a b Hab|a b Hab].
- apply/prodf_neq0 => p _; rewrite expf_eq0 /= (Hn k p) ?ltn_ord //; rewrite /seen; lia.
- by apply: Hz; rewrite Hab.
- by apply: Hd; rewrite ?/seen; lia.
Qed.

(** ** in terms of matrices *)
Definition slow_mx n (A : 'M[F]_n) : 'M[F]_n := \matrix_(i, j) if (j <= i)%N then A i j else A j i.

Lemma detf_slow n (A : 'M[F]_n) k (Hk : (k <= n)%N) : detf k (slow (mxf 0 A)) = lead_minor (slow_mx A) Hk.
Proof.
congr (\det _); apply/matrixP => i j; rewrite !mxE /slow /=.
have E (a b : 'I_k) : mxf 0 A a b = A (widen_ord Hk a) (widen_ord Hk b) := mxf_ord 0 A (widen_ord Hk a) (widen_ord Hk b).
by case: ifP => _; rewrite E.
Qed.

Lemma fchol_ret n (A : 'M[F]_n) X : chol K n (mxrows A) = Ok X ->
  exists L : 'M[F]_n, X = mxrows L /\
  [/\ lower L, forall i, exists v, L i i = s v & L *m L^T = slow_mx A].
Proof.
rewrite (mxrowsE 0 A) => /fchol_partial [l [-> [Hz [Hd [Hp _]]]]].
exists (\matrix_(i, j) l i j); rewrite mk_mxrows; split=> //.
have D (i j : 'I_n) : (j <= i)%N -> \sum_(p < n) l i p * l j p = A i j.
  move=> Hji; rewrite -/(fdot l i j n) -(mxf_ord 0 A) -Hd; last by rewrite /seen ltn_ord.
    by apply: fdot_stable => [|p Hp']; [exact: ltn_ord|rewrite (Hz j p) ?mulr0 //; lia].
  by rewrite Hji ltn_ord.
split.
- by move=> i j Hij; rewrite mxE Hz // Hij.
- by move=> i; have [|v Hv] := Hp i; [rewrite /seen ltn_ord|exists v; rewrite mxE].
apply/matrixP => i j; rewrite !mxE; case: (leqP j i) => Hij; [rewrite -D //|rewrite -(D j i (ltnW Hij))];
  by apply: eq_bigr => p _; rewrite !mxE // mulrC.
Qed.

Lemma fchol_iff n (A : 'M[F]_n) : (exists X, chol K n (mxrows A) = Ok X) <->
  (forall k (Hk : (k <= n)%N), (0 < k < n)%N -> lead_minor (slow_mx A) Hk != 0).
Proof.
rewrite (mxrowsE 0 A); split=> [[X HX] k Hk Hkn|H].
  by rewrite -detf_slow; apply: (fchol_minors HX).
apply: fchol_total => k Hk; have Hkn : (k <= n)%N by lia.
by rewrite (detf_slow A Hkn) H.
Qed.
End CholField.
