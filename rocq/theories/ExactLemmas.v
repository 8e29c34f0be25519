(** * Bridge between the model's arrays and mathcomp matrices; exact sums *)

From Coq Require Import ZArith List Lia.
From mathcomp Require Import all_ssreflect all_algebra.
From Verif Require Import Base Scalar Model Spec Loops Struct Exact.

Set Implicit Arguments.
Unset Strict Implicit.
Unset Printing Implicit Defensive.

Import GRing.Theory Num.Theory.
Local Open Scope ring_scope.

(** ** mathcomp and stdlib list vocabulary *)

Lemma seq_iota lo n : List.seq lo n = iota lo n.
Proof. by elim: n lo => //= n IH lo; rewrite IH. Qed.

Lemma List_map_map (A B : Type) (f : A -> B) l : List.map f l = map f l.
Proof. by []. Qed.

Lemma mxrows_mk (T : Type) n m (A : 'M[T]_(n, m)) (f : nat -> nat -> T) :
  (forall (i : 'I_n) (j : 'I_m), f i j = A i j) -> mxrows A = mk n m f.
Proof.
move=> H; rewrite /mxrows /mk !seq_iota !List_map_map.
rewrite -(val_enum_ord n) -(val_enum_ord m) -[RHS]map_comp.
apply: eq_map => i; rewrite [RHS]/= List_map_map -[RHS]map_comp; apply: eq_map => j; by rewrite /= H.
Qed.

Section Fun.
Variables (T : Type) (n m : nat) (d : T).

(** a matrix as a function on [nat], [d] outside *)
Definition mxf (A : 'M[T]_(n, m)) (i j : nat) : T :=
  match insub i, insub j with
  | Some i', Some j' => A i' j'
  | _, _ => d
  end.

Lemma mxf_ord A (i : 'I_n) (j : 'I_m) : mxf A i j = A i j.
Proof. by rewrite /mxf !valK. Qed.

Lemma mxrowsE A : mxrows A = mk n m (mxf A).
Proof. by apply: mxrows_mk => i j; rewrite mxf_ord. Qed.

Lemma mk_mxrows (f : nat -> nat -> T) : mk n m f = mxrows (\matrix_(i < n, j < m) f i j).
Proof. by symmetry; apply: mxrows_mk => i j; rewrite mxE. Qed.

Lemma mxrows_inj (A B : 'M[T]_(n, m)) : mxrows A = mxrows B -> A = B.
Proof.
rewrite !mxrowsE => H; apply/matrixP => i j.
have := @mk_inj _ _ _ _ _ H i j; rewrite !mxf_ord; apply; exact/ltP.
Qed.

Lemma shape_mxrows (A : 'M[T]_(n, m)) : shape n m (mxrows A).
Proof. rewrite mxrowsE; exact: shape_of_mk. Qed.
End Fun.

Lemma tabM_mx (T : Type) n m (f : nat -> nat -> outcome T) (B : 'M[T]_(n, m)) :
  (forall (i : 'I_n) (j : 'I_m), f i j = Ok (B i j)) -> tabM n m f = Ok (mxrows B).
Proof.
move=> H; case: n m f B H => [|n] [|m] f B H.
- by rewrite /tabM /mxrows /=; congr Ok; rewrite enum_ord0.
- by rewrite /tabM /mxrows /=; congr Ok; rewrite enum_ord0.
- rewrite /tabM /mxrows; rewrite (@map_out_ok _ _ _ (fun=> [::])) //; congr Ok.
  rewrite seq_iota List_map_map -(val_enum_ord n.+1) -map_comp; apply: eq_map => i /=.
  by rewrite enum_ord0.
rewrite (mxrowsE (B 0 0)); apply: tabM_ok => i j /ltP Hi /ltP Hj.
by have := H (Ordinal Hi) (Ordinal Hj); rewrite /= => ->; rewrite -(mxf_ord (B 0 0) B (Ordinal Hi) (Ordinal Hj)).
Qed.

(** ** literals *)

Section Lit.
Variable R : ringType.

Lemma ring_of_Z0 : ring_of_Z R 0 = 0. Proof. by []. Qed.
Lemma ring_of_Z1 : ring_of_Z R 1 = 1. Proof. by []. Qed.
Lemma ring_of_ZN1 : ring_of_Z R (-1) = -1. Proof. by []. Qed.
Lemma ring_of_Z_nat k : ring_of_Z R (Z.of_nat k) = k%:R.
Proof. by case: k => //= k; rewrite SuccNat2Pos.id_succ. Qed.
End Lit.

(** ** exact accumulation *)

Section Acc.
Variable R : ringType.

Lemma for_sum lo hi (g : nat -> R) c0 (body : nat -> R -> outcome R) :
  (lo <= hi)%N ->
  (forall k c, (lo <= k < hi)%N -> body k c = Ok (c + g k)) ->
  for_ lo hi body c0 = Ok (c0 + \sum_(lo <= k < hi) g k).
Proof.
move=> Hle H.
rewrite (@for_states _ _ _ _ (fun h => c0 + \sum_(lo <= k < h) g k)) //.
- exact/leP.
- by rewrite big_geq ?addr0.
move=> k [/leP H1 /ltP H2]; rewrite H ?H1 // big_nat_recr //=; by rewrite addrA.
Qed.

Lemma for_sum0 m (g : nat -> R) (body : nat -> R -> outcome R) :
  (forall k c, (k < m)%N -> body k c = Ok (c + g k)) ->
  for_ 0 m body 0 = Ok (\sum_(k < m) g k).
Proof.
move=> H; rewrite (@for_sum 0 m g) //; by rewrite add0r big_mkord.
Qed.
End Acc.

(** ** the elementary functions in exact arithmetic *)

Section Basic.
Variables (R : unitRingType) (lt : R -> R -> bool) (ab : R -> R) (sq : R -> outcome R).
Notation K := (exactS lt ab sq).

Lemma dot_exact m (a b : nat -> R) :
  dot K m a b = Ok (\sum_(k < m) a k * b k).
Proof. rewrite /dot; exact: (@for_sum0 R m (fun k => a k * b k)). Qed.

Variables (n m : nat).
Implicit Types A B : 'M[R]_(n, m).

Lemma sum_mx A B : sum K n m (mxrows A) (mxrows B) = Ok (mxrows (A + B)).
Proof.
rewrite (mxrowsE 0 A) (mxrowsE 0 B) sum_tab.
by apply: tabM_mx => i j; rewrite !mxf_ord mxE.
Qed.

Lemma sub_mx A B : sub K n m (mxrows A) (mxrows B) = Ok (mxrows (A - B)).
Proof.
rewrite (mxrowsE 0 A) (mxrowsE 0 B) sub_tab.
by apply: tabM_mx => i j; rewrite !mxf_ord !mxE.
Qed.

Lemma sum_scalar_mx A (s : R) :
  sum_scalar K n m (mxrows A) s = Ok (mxrows (A + const_mx s)).
Proof.
rewrite (mxrowsE 0 A) sum_scalar_tab.
by apply: tabM_mx => i j; rewrite !mxf_ord !mxE.
Qed.

Lemma sub_scalar_mx A (s : R) :
  sub_scalar K n m (mxrows A) s = Ok (mxrows (A - const_mx s)).
Proof.
rewrite (mxrowsE 0 A) sub_scalar_tab.
by apply: tabM_mx => i j; rewrite !mxf_ord !mxE.
Qed.

Lemma mult_scalar_mx A (s : R) :
  mult_scalar K n m (mxrows A) s = Ok (mxrows (map_mx (fun x => x * s) A)).
Proof.
rewrite (mxrowsE 0 A) mult_scalar_tab.
by apply: tabM_mx => i j; rewrite !mxf_ord !mxE.
Qed.

Lemma trans_mx A : trans K n m (mxrows A) = Ok (mxrows A^T).
Proof.
rewrite (mxrowsE 0 A) trans_mk; congr Ok; symmetry; apply: mxrows_mk => i j.
by rewrite mxf_ord mxE.
Qed.

Lemma zeros_mx : zeros K n m = mxrows (0 : 'M[R]_(n, m)).
Proof. by rewrite zeros_mk; symmetry; apply: mxrows_mk => i j; rewrite mxE. Qed.

Lemma mult_mx p A (B : 'M[R]_(m, p)) :
  mult K n m p (mxrows A) (mxrows B) = Ok (mxrows (A *m B)).
Proof.
rewrite (mxrowsE 0 A) (mxrowsE 0 B) mult_tab.
apply: tabM_mx => i j; rewrite dot_exact mxE; congr Ok.
by apply: eq_bigr => k _; rewrite !mxf_ord.
Qed.

Lemma eye_mx (s : R) : eye K n s = Ok (mxrows (s%:M : 'M[R]_n)).
Proof.
rewrite eye_mk; congr Ok; symmetry; apply: mxrows_mk => i j; rewrite mxE.
have -> : Nat.eqb i j = (i == j) by apply/idP/idP => [/Nat.eqb_eq/val_inj ->|/eqP ->] //; apply/Nat.eqb_eq.
by case: (i == j); rewrite ?mulr1n ?mulr0n.
Qed.

Lemma eye1_mx : eye1 K n = Ok (mxrows (1%:M : 'M[R]_n)).
Proof. exact: eye_mx. Qed.

Lemma div_mx A (s : R) : s \is a GRing.unit ->
  div K n m (mxrows A) s = Ok (mxrows (map_mx (fun x => x / s) A)).
Proof.
move=> Us; rewrite (mxrowsE 0 A) div_tab /=.
have -> : (s == 0) = false by apply/negbTE/negP => /eqP E; rewrite E unitr0 in Us.
by apply: tabM_mx => i j; rewrite mxf_ord mxE /exact_div Us.
Qed.

Lemma div0_mx A : div K n m (mxrows A) 0 = Terminate.
Proof. by rewrite (mxrowsE 0) div_tab /= eqxx. Qed.
End Basic.
