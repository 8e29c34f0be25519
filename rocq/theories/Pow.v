(** * pow computes the matrix power *)

From Coq Require Import ZArith List Lia.
From mathcomp Require Import all_ssreflect all_algebra all_fingroup.
From mathcomp Require Import zify.
From Verif Require Import Base Scalar Model Spec Loops Struct Elim Alg Exact ExactLemmas Det Inv.

Set Implicit Arguments.
Unset Strict Implicit.
Unset Printing Implicit Defensive.

Import GRing.Theory.
Local Open Scope ring_scope.
Delimit Scope Z_scope with Z.

(** ** mxpow *)
Section MxPow.
Variables (R : ringType) (n : nat).
Implicit Type A : 'M[R]_n.

Lemma mxpow1 A : mxpow A 1 = A. Proof. exact: mulmx1. Qed.

Lemma mxpowD A k l : mxpow A (k + l) = mxpow A k *m mxpow A l.
Proof. by elim: k => [|k IH]; rewrite ?mul1mx //= IH mulmxA. Qed.

Lemma mxpowSr A k : mxpow A k.+1 = mxpow A k *m A.
Proof. by rewrite -addn1 mxpowD mxpow1. Qed.

Lemma mxpow_half A q :
  mxpow A q = if odd q then mxpow A q./2 *m mxpow A q./2 *m A
              else mxpow A q./2 *m mxpow A q./2.
Proof.
rewrite -{1}(odd_double_half q) -mxpowD addnn; case: (odd q) => //=.
by rewrite -mxpowSr.
Qed.
End MxPow.

(** ** halving an exponent *)
Lemma quot2 q : Z.quot (Z.of_nat q) 2 = Z.of_nat q./2.
Proof. by symmetry; apply: (Z.quot_unique _ _ _ (Z.of_nat (odd q))); lia. Qed.

Lemma rem2 q : Z.eqb (Z.rem (Z.of_nat q) 2) 0 = ~~ odd q.
Proof.
have -> : Z.rem (Z.of_nat q) 2 = Z.of_nat (odd q).
  by symmetry; apply: (Z.rem_unique _ _ (Z.of_nat q./2)); lia.
by case: (odd q).
Qed.

Section AnyType.
Variable K : scalar.

Lemma pow_1 n w (A : matrix (elt K)) : pow K n w A 1 = Ok A.
Proof. by rewrite /pow Nat.add_comm. Qed.

Lemma pow_0 n w (A : matrix (elt K)) : pow K n w A 0 = eye1 K n.
Proof. by rewrite /pow Nat.add_comm. Qed.

Lemma pow_2 n w (A : matrix (elt K)) : pow K n w A 2 = mult K n n n A A.
Proof. by rewrite /pow Nat.add_comm. Qed.

Lemma pow_3 n w (A : matrix (elt K)) :
  pow K n w A 3 = let* q := mult K n n n A A in mult K n n n q A.
Proof. by rewrite /pow Nat.add_comm. Qed.

Lemma pow_min n w (A : matrix (elt K)) : (32 <= w)%Z ->
  pow K n w A (- 2 ^ (w - 1)) =
  let* _ := inv K n A in UB SignedOverflow.
Proof.
move=> Hw; rewrite /pow Nat.add_comm /=.
have Hp : (0 < 2 ^ (w - 1))%Z by apply: Z.pow_pos_nonneg; lia.
have -> : Z.eqb (- 2 ^ (w - 1)) 0 = false by apply/Z.eqb_neq; lia.
have -> : Z.eqb (- 2 ^ (w - 1)) 1 = false by apply/Z.eqb_neq; lia.
have -> : Z.ltb (- 2 ^ (w - 1)) 0 by apply/Z.ltb_lt; lia.
have -> : abs_assign w (- 2 ^ (w - 1)) = UB SignedOverflow.
  rewrite /abs_assign Z.eqb_refl.
  by have -> : Z.ltb w 32 = false by apply/Z.ltb_ge.
by case: (inv K n A).
Qed.
End AnyType.

Section Pow.
Variables (F : fieldType) (lt : F -> F -> bool) (ab : F -> F) (sq : F -> outcome F).
Notation K := (exactS lt ab sq).
Variable n : nat.
Implicit Type A : 'M[F]_n.

Lemma pow_step A (o : outcome (matrix F)) q : o = Ok (mxrows (mxpow A q./2)) ->
  (let* powA := o in
   if (Z.rem (Z.of_nat q) 2 =? 0)%Z then op_mult K n n n powA powA
   else let* r := op_mult K n n n powA powA in op_mult K n n n r (mxrows A))
  = Ok (mxrows (mxpow A q)).
Proof.
move=> -> /=; rewrite rem2 /op_mult (@mult_mx F lt ab sq n n n) (mxpow_half A q).
by case: (odd q); rewrite ?[bind _ _]/= ?(@mult_mx F lt ab sq n n n).
Qed.

Lemma pow_fuel_mx fuel w A q k :
  (Z.of_nat q < 2 ^ Z.of_nat k)%Z -> (k < fuel)%N ->
  pow_fuel K fuel n w (mxrows A) (Z.of_nat q) = Ok (mxrows (mxpow A q)).
Proof.
elim: fuel w q k => // fuel IH w q k Hq Hk.
case: q Hq => [|[|q]] Hq; rewrite [pow_fuel _ _ _ _ _ _]/=.
- by rewrite eye1_mx.
- by rewrite mxpow1.
have E : Z.pos (Pos.succ (Pos.of_succ_nat q)) = Z.of_nat q.+2 by lia.
rewrite E; case: (Pos.succ _) E => [p|p|] E; try (exfalso; lia).
all: apply: pow_step; rewrite quot2.
all: case: k Hq Hk => [|k] Hq Hk; first by exfalso; lia.
all: apply: (IH _ _ k); last by lia.
all: move: Hq; rewrite (Nat2Z.inj_succ k) Z.pow_succ_r; last by lia.
all: by have := odd_double_half q.+2; lia.
Qed.

Lemma pow_fuel_step fuel w A q k :
  (Z.of_nat q < 2 ^ Z.of_nat k)%Z -> (k < fuel)%N ->
  (let* powA := pow_fuel K fuel n w (mxrows A) (Z.quot (Z.of_nat q) 2) in
   if (Z.rem (Z.of_nat q) 2 =? 0)%Z then op_mult K n n n powA powA
   else let* r := op_mult K n n n powA powA in op_mult K n n n r (mxrows A))
  = Ok (mxrows (mxpow A q)).
Proof.
move=> Hq Hk; apply: pow_step; rewrite quot2; apply: (@pow_fuel_mx _ _ _ _ k) => //.
by have := odd_double_half q; lia.
Qed.

Lemma pow_mx w A q : (1 <= w)%Z -> (Z.of_nat q < 2 ^ (w - 1))%Z ->
  pow K n w (mxrows A) (Z.of_nat q) = Ok (mxrows (mxpow A q)).
Proof.
move=> Hw Hq; rewrite /pow.
apply: (@pow_fuel_mx _ _ _ _ (Z.to_nat w)); last by lia.
rewrite Z2Nat.id; last by lia.
by apply: Z.lt_le_trans Hq _; apply: Z.pow_le_mono_r; lia.
Qed.

Lemma abs_assign_ok w q : (1 <= w)%Z -> (Z.of_nat q < 2 ^ (w - 1))%Z ->
  abs_assign w (- Z.of_nat q) = Ok (Z.of_nat q).
Proof.
move=> Hw Hq; rewrite /abs_assign.
have Ea : Z.abs (- Z.of_nat q) = Z.of_nat q by lia.
case: Z.ltb_spec => _.
  rewrite Ea Z.mod_small ?Z.add_simpl_r //.
  have -> : (2 ^ w = 2 * 2 ^ (w - 1))%Z by rewrite -Z.pow_succ_r; [congr (2 ^ _)%Z|]; lia.
  by have := Z.pow_nonneg 2 (w - 1); lia.
have -> : Z.eqb (- Z.of_nat q) (- 2 ^ (w - 1)) = false by apply/Z.eqb_neq; lia.
by rewrite Ea.
Qed.

Lemma pow_fuel_neg fuel w A q k : A \in unitmx -> (1 <= w)%Z -> (0 < q)%N ->
  (Z.of_nat q < 2 ^ (w - 1))%Z -> (Z.of_nat q < 2 ^ Z.of_nat k)%Z -> (k.+1 < fuel)%N ->
  pow_fuel K fuel n w (mxrows A) (- Z.of_nat q) = Ok (mxrows (mxpow (invmx A) q)).
Proof.
move=> UA Hw Hq0 Hq Hk Hf; case: fuel Hf => // fuel Hf.
rewrite [pow_fuel _ _ _ _ _ _]/=.
have -> : Z.eqb (- Z.of_nat q) 0 = false by apply/Z.eqb_neq; lia.
have -> : Z.eqb (- Z.of_nat q) 1 = false by apply/Z.eqb_neq; lia.
have -> : Z.ltb (- Z.of_nat q) 0 by apply/Z.ltb_lt; lia.
rewrite inv_mx // [bind _ _]/= abs_assign_ok // [bind _ _]/=.
by rewrite (@pow_fuel_step _ _ _ _ k).
Qed.

Lemma pow_neg_mx w A q : A \in unitmx -> (1 <= w)%Z -> (0 < q)%N ->
  (Z.of_nat q < 2 ^ (w - 1))%Z ->
  pow K n w (mxrows A) (- Z.of_nat q) = Ok (mxrows (mxpow (invmx A) q)).
Proof.
move=> UA Hw Hq0 Hq; rewrite /pow.
apply: (@pow_fuel_neg _ _ _ _ (Z.to_nat w)) => //; last by lia.
rewrite Z2Nat.id; last by lia.
by apply: Z.lt_le_trans Hq _; apply: Z.pow_le_mono_r; lia.
Qed.

Lemma pow_neg_singular w A q : \det A = 0 -> (0 < q)%N ->
  pow K n w (mxrows A) (- Z.of_nat q) = inv_singular F n.
Proof.
move=> HA Hq0; rewrite /pow Nat.add_comm [pow_fuel _ _ _ _ _ _]/=.
have -> : Z.eqb (- Z.of_nat q) 0 = false by apply/Z.eqb_neq; lia.
have -> : Z.eqb (- Z.of_nat q) 1 = false by apply/Z.eqb_neq; lia.
have -> : Z.ltb (- Z.of_nat q) 0 by apply/Z.ltb_lt; lia.
rewrite inv_mx_singular //; by case: (n) => [|[|[|[]]]].
Qed.

(** the least exponent of a type narrower than int *)
Lemma pow_min_narrow w A : A \in unitmx -> (2 <= w)%Z -> (w < 32)%Z ->
  pow K n w (mxrows A) (- 2 ^ (w - 1)) = Ok (mxrows (mxpow A (2 ^ (Z.to_nat w - 1))%N)).
Proof.
move=> UA Hw1 Hw2; rewrite /pow.
have [fu [-> Hfu]] : exists fu, Nat.add (Z.to_nat (Z.max w 32)) 3 = fu.+1 /\ (32 < fu)%N.
  by exists 34%N; lia.
rewrite [pow_fuel _ _ _ _ _ _]/=.
have Hp : (0 < 2 ^ (w - 1))%Z by apply: Z.pow_pos_nonneg; lia.
have -> : Z.eqb (- 2 ^ (w - 1)) 0 = false by apply/Z.eqb_neq; lia.
have -> : Z.eqb (- 2 ^ (w - 1)) 1 = false by apply/Z.eqb_neq; lia.
have -> : Z.ltb (- 2 ^ (w - 1)) 0 by apply/Z.ltb_lt; lia.
have Ew : (2 ^ w = 2 * 2 ^ (w - 1))%Z by rewrite -Z.pow_succ_r; [congr (2 ^ _)%Z|]; lia.
have Ew1 : (2 ^ (w - 1) = 2 * 2 ^ (w - 2))%Z by rewrite -Z.pow_succ_r; [congr (2 ^ _)%Z|]; lia.
have Hp2 : (0 < 2 ^ (w - 2))%Z by apply: Z.pow_pos_nonneg; lia.
rewrite inv_mx // [bind _ _]/= {1}/abs_assign.
have -> : Z.ltb w 32 by apply/Z.ltb_lt.
have Ea : Z.abs (- 2 ^ (w - 1)) = (2 ^ (w - 1))%Z by lia.
rewrite Ea Z.add_diag -Ew Z_mod_same_full [bind _ _]/=.
have Eq : (2 ^ (w - 2))%Z = Z.of_nat (2 ^ (Z.to_nat w - 2))%N.
  rewrite -[in LHS](Z2Nat.id w); last by lia.
  have -> : (Z.of_nat (Z.to_nat w) - 2)%Z = Z.of_nat (Z.to_nat w - 2)%N by lia.
  by rewrite -(Nat2Z.inj_pow 2); congr Z.of_nat; elim: (_ - 2)%N => //= k IH; rewrite expnS -IH; lia.
have -> : Z.quot (0 - 2 ^ (w - 1)) 2 = (- Z.of_nat (2 ^ (Z.to_nat w - 2))%N)%Z.
  by rewrite -Eq; symmetry; apply: Z.quot_unique_exact; lia.
have -> : Z.rem (0 - 2 ^ (w - 1)) 2 = 0%Z.
  have -> : (0 - 2 ^ (w - 1) = (- 2 ^ (w - 2)) * 2)%Z by lia.
  exact: Z.rem_mul.
have -> : Z.max w 32 = 32%Z by lia.
rewrite (@pow_fuel_neg _ _ _ _ 31); last first.
- by lia.
- by rewrite -Eq; apply: Z.pow_lt_mono_r; lia.
- by rewrite -Eq; apply: Z.pow_lt_mono_r; lia.
- by rewrite expn_gt0.
- by [].
- by rewrite unitmx_inv.
rewrite invmxK [bind _ _]/= /op_mult (@mult_mx F lt ab sq n n n) -mxpowD.
congr (Ok (mxrows (mxpow A _))).
by rewrite addnn -mul2n -expnS; congr (2 ^ _)%N; lia.
Qed.
End Pow.
