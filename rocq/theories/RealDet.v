(** * The determinant of a real matrix given by triangular factors and row exchanges *)

From Coq Require Import ZArith Reals Lra Lia List.
From mathcomp Require Import all_ssreflect fingroup perm ssralg matrix.
From mathcomp Require Import zify.
From Flocq Require Import IEEE754.BinarySingleNaN.
From Verif Require Import Base Spec Loops Det RealRing FloatMx FloatElim.
Set Implicit Arguments. Unset Strict Implicit. Unset Printing Implicit Defensive.
Import GRing.Theory.
Delimit Scope R_scope with Re.
Local Open Scope ring_scope.

Lemma rsumE n (f : nat -> R) : rsum n f = \sum_(k < n) f k.
Proof.
elim: n => [|n IH]; first by rewrite big_ord0.
by rewrite rsum_S IH big_ord_recr.
Qed.

Lemma rprodE n (f : nat -> R) : rprodf 0 n f = \prod_(k < n) f k.
Proof.
elim: n => [|n IH]; first by rewrite big_ord0.
by rewrite rprodf_last ?IH ?big_ord_recr //; lia.
Qed.

Definition rmx n (f : nat -> nat -> R) : 'M[R]_n := \matrix_(i, j) f i j.

Lemma pow_m1 k : ((-1) ^ k)%Re = (-1) ^+ k :> R.
Proof. elim: k => [|k IH] //=; rewrite IH exprS. by []. Qed.

Section Perm.
Variable n : nat.
Definition tswap (p : nat * nat) : 'S_n.+1 := tperm (inord p.1) (inord p.2).
Fixpoint psw (sw : list (nat * nat)) : 'S_n.+1 :=
  match sw with nil => 1%g | p :: sw => (psw sw * tswap p)%g end.

Lemma tswapE p (i : 'I_n.+1) : (p.1 < n.+1)%N -> (p.2 < n.+1)%N -> tswap p i = swap1 p i :> nat.
Proof.
move=> H1 H2; rewrite /tswap /swap1 !eqbE; case: tpermP => [->|->|/eqP A /eqP B].
- by rewrite !inordK // eqxx.
- by rewrite !inordK // eqxx; case: eqP.
have E1 : (i == p.1 :> nat) = false by apply: contraNF A => /eqP E; apply/eqP/val_inj; rewrite /= inordK.
have E2 : (i == p.2 :> nat) = false by apply: contraNF B => /eqP E; apply/eqP/val_inj; rewrite /= inordK.
by rewrite E1 E2.
Qed.

Lemma pswE sw (i : 'I_n.+1) : (forall p, In p sw -> (p.1 < n.+1)%N /\ (p.2 < n.+1)%N) -> psw sw i = swaps sw i :> nat.
Proof.
elim: sw => [|p sw IH] H /=; first by rewrite perm1.
have [H1 H2] := H p (or_introl erefl).
by rewrite permM tswapE // IH // => q Hq; apply: H; right.
Qed.

Lemma psw_odd sw : (forall p, In p sw -> [/\ (p.1 < n.+1)%N, (p.2 < n.+1)%N & p.1 <> p.2]) -> odd_perm (psw sw) = odd (size sw).
Proof.
elim: sw => [|p sw IH] H /=; first by rewrite odd_perm1.
have [H1 H2 H3] := H p (or_introl erefl).
rewrite odd_permM IH; last by move=> q Hq; apply: H; right.
rewrite odd_tperm; have -> : (inord p.1 != inord p.2 :> 'I_n.+1).
  by apply/eqP => /(congr1 val) /=; rewrite !inordK.
by rewrite addbT.
Qed.
End Perm.

(** determinant of P^-1 L U *)
Lemma det_factors n (A : 'M[R]_n) (s : 'S_n) (L U : nat -> nat -> R) :
  (forall i, L i i = 1) -> (forall i k, (i < k)%N -> L i k = 0) -> (forall k j, (j < k)%N -> U k j = 0) ->
  (forall i j : 'I_n, A (s i) j = rsum n (fun k => L i k * U k j)%Re) ->
  \det A = (-1) ^+ s * rprodf 0 n (fun k => U k k).
Proof.
move=> L1 L0 U0 HA.
have E : row_perm s A = rmx n L *m rmx n U.
  by apply/matrixP => i j; rewrite !mxE HA rsumE; apply: eq_bigr => k _; rewrite !mxE.
have DL : \det (rmx n L) = 1.
  rewrite det_trig; last by apply/is_trig_mxP => i j Hij; rewrite mxE L0.
  by rewrite big1 // => i _; rewrite mxE L1.
have DU : \det (rmx n U) = rprodf 0 n (fun k => U k k).
  rewrite -det_tr det_trig; last by apply/is_trig_mxP => i j Hij; rewrite !mxE U0.
  by rewrite rprodE; apply: eq_bigr => i _; rewrite !mxE.
have : \det (row_perm s A) = (-1) ^+ s * \det A.
  by rewrite row_permE det_mulmx det_perm.
rewrite E det_mulmx DL DU mul1r => ->.
by rewrite mulrA -signr_addb addbb mul1r.
Qed.
