(** * inv computes the inverse (exact arithmetic over a field) *)

From Coq Require Import ZArith List Lia.
From mathcomp Require Import all_ssreflect all_algebra all_fingroup.
From mathcomp Require Import zify.
From Verif Require Import Base Scalar Model Spec Loops Struct Elim Alg Exact ExactLemmas Det.

Set Implicit Arguments.
Unset Strict Implicit.
Unset Printing Implicit Defensive.

Import GRing.Theory.
Local Open Scope ring_scope.

Lemma divn_eq' k : k = Nat.add (Nat.mul 2 (k %/ 2)) (k %% 2).
Proof. by rewrite {1}(divn_eq k 2) mulnC. Qed.

Lemma mod2_odd k : Nat.eqb (Nat.modulo k 2) 0 = ~~ odd k.
Proof.
rewrite eqbE; have E : Nat.modulo k 2 = odd k :> nat.
  by rewrite -modn2; symmetry; apply: Nat.mod_unique (divn_eq' k); apply/ltP; rewrite ltn_mod.
by rewrite E; case: (odd k).
Qed.

Lemma cof_signE (R : ringType) i j : ring_of_Z R (cof_sign i j) = (-1) ^+ (i + j).
Proof.
rewrite /cof_sign mod2_odd -signr_odd; case: (odd _) => //=.
Qed.

Lemma skip_bump i a : skip i a = bump i a.
Proof. rewrite /skip ltbE /bump; case: ltnP; lia. Qed.

Section Inv.
Variables (F : fieldType) (lt : F -> F -> bool) (ab : F -> F) (sq : F -> outcome F).
Notation K := (exactS lt ab sq).
Notation cF := (GRing.Field.comRingType F).

(** the adjugate as a function *)
Definition adjf n (f : nat -> nat -> F) (i j : nat) : F :=
  (-1) ^+ (j + i) * detf n.-1 (fun a b => f (bump j a) (bump i b)).

Lemma div_mk n m (f : nat -> nat -> F) (s : F) :
  op_div K n m (mk n m f) s = if s == 0 then Terminate else Ok (mk n m (fun i j => f i j / s)).
Proof.
rewrite /op_div div_tab /=; case: eqP => // /eqP Hs.
by apply: tabM_ok => i j _ _; rewrite exact_divE.
Qed.

Lemma inv_general_mk n (f : nat -> nat -> F) :
  inv_general K n (mk n n f) =
  if detf n f == 0 then Terminate else Ok (mk n n (fun i j => adjf n f i j / detf n f)).
Proof.
rewrite inv_general_tab det_mk /=.
rewrite (@tabM_ok _ _ _ _ (fun i j => adjf n f j i)); last first.
  move=> i j _ _; rewrite det_mk /= cof_signE Nat.sub_1_r /adjf; congr (Ok (_ * _)).
  by apply: detf_ext => a b _ _; rewrite !skip_bump.
by rewrite [bind _ _]/= trans_mk [bind _ _]/= div_mk.
Qed.

Lemma inv1_mk (f : nat -> nat -> F) :
  inv1 K (mk 1 1 f) =
  if detf 1 f == 0 then UB DivByZero else Ok (mk 1 1 (fun i j => adjf 1 f i j / detf 1 f)).
Proof.
rewrite /inv1 [det K 1 _]/= /= detf1 /exact_div unitfE.
case: eqP => //= _; rewrite /mk /= /adjf /= expr0 mul1r; congr (Ok [:: [:: _ / _]]).
by rewrite /detf det_mx00.
Qed.

Add Ring Fring : (comring_theory cF).

Lemma adj2_mk (f : nat -> nat -> F) :
  [:: [:: f 1%N 1%N; - f 0%N 1%N]; [:: - f 1%N 0%N; f 0%N 0%N]] = mk 2 2 (adjf 2 f).
Proof.
rewrite /mk /= /adjf /= !detf1 /bump /= ?expr0 ?expr1 ?sqrrN ?expr1n.
by rewrite ?mulN1r ?mul1r.
Qed.

Lemma inv2_mk (f : nat -> nat -> F) :
  inv2 K (mk 2 2 f) =
  if detf 2 f == 0 then Throw OverflowError
  else Ok (mk 2 2 (fun i j => adjf 2 f i j / detf 2 f)).
Proof.
rewrite /inv2 [det K 2 _]/= det2_mk [bind _ _]/=.
case E : (detf 2 f == 0) => //.
set X := [:: _; _]; have -> : X = mk 2 2 (adjf 2 f) by rewrite -adj2_mk.
by rewrite div_mk E.
Qed.

Lemma adj3_mk (f : nat -> nat -> F) :
  let a := f 0%N 0%N in let b := f 0%N 1%N in let c := f 0%N 2%N in
  let d := f 1%N 0%N in let e := f 1%N 1%N in let g := f 1%N 2%N in
  let h := f 2%N 0%N in let k := f 2%N 1%N in let l := f 2%N 2%N in
  [:: [:: e * l - g * k; c * k - b * l; b * g - c * e];
      [:: g * h - d * l; a * l - c * h; c * d - a * g];
      [:: d * k - e * h; b * h - a * k; a * e - b * d]] = mk 3 3 (adjf 3 f).
Proof.
move=> a b c d e g h k l.
rewrite /mk /= /adjf /= !detf2 /bump /= ?expr0 ?expr1 ?sqrrN ?expr1n.
rewrite -/a -/b -/c -/d -/e -/g -/h -/k -/l.
rewrite -signr_odd /= -[(-1) ^+ 4]signr_odd /= ?expr0 ?expr1.
do ![congr (_ :: _)]; mc_ring (GRing.Field.comRingType F).
Qed.

Lemma inv3_mk (f : nat -> nat -> F) :
  inv3 K (mk 3 3 f) =
  if detf 3 f == 0 then Throw OverflowError
  else Ok (mk 3 3 (fun i j => adjf 3 f i j / detf 3 f)).
Proof.
rewrite /inv3 [det K 3 _]/= det3_mk [bind _ _]/=.
case E : (detf 3 f == 0) => //.
set X := [:: _; _; _]; have -> : X = mk 3 3 (adjf 3 f) by rewrite -adj3_mk.
by rewrite div_mk E.
Qed.

(** how inv fails on a singular matrix *)
Definition inv_singular (n : nat) : outcome (matrix F) :=
  match n with
  | 1%N => UB DivByZero
  | 2%N | 3%N => Throw OverflowError
  | _ => Terminate
  end.

Lemma inv_mk n (f : nat -> nat -> F) :
  inv K n (mk n n f) =
  if detf n f == 0 then inv_singular n
  else Ok (mk n n (fun i j => adjf n f i j / detf n f)).
Proof.
case: n => [|[|[|[|n]]]].
- exact: inv_general_mk.
- exact: inv1_mk.
- exact: inv2_mk.
- exact: inv3_mk.
- exact: inv_general_mk.
Qed.

Lemma adjf_mx n (A : 'M[F]_n) (i j : 'I_n) : adjf n (mxf 0 A) i j = \adj A i j.
Proof.
rewrite mxE /cofactor /adjf /detf; congr (_ * \det _).
case: n A i j => [|n] A i j; first by case: i.
apply/matrixP => a b; rewrite !mxE; exact: (mxf_ord 0 A (lift j a) (lift i b)).
Qed.

Lemma inv_mx n (A : 'M[F]_n) : A \in unitmx -> inv K n (mxrows A) = Ok (mxrows (invmx A)).
Proof.
move=> UA; rewrite (mxrowsE 0 A) inv_mk detf_mx.
move: (UA); rewrite unitmxE unitfE => /negbTE -> /=.
congr Ok; apply: esym; apply: mxrows_mk => i j.
by rewrite adjf_mx /invmx UA [in RHS]mxE mulrC.
Qed.

Lemma inv_mx_singular n (A : 'M[F]_n) : \det A = 0 -> inv K n (mxrows A) = inv_singular n.
Proof. by move=> H; rewrite (mxrowsE 0 A) inv_mk detf_mx H eqxx. Qed.
End Inv.
