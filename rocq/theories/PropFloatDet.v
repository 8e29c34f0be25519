(** * Property C72: the determinant of larger matrices in floating point

    As in PropFloat.v: every binary format, [u] = [uro prec] = 2^-prec,
    [h] = [eta prec emax] half the smallest positive number, [B2R x] the value of
    a finite x, [rsum m f] = f 0 + ... + f (m-1).  [\det] is MathComp's
    determinant (the Leibniz formula) over the reals of the standard library. *)

From Coq Require Import ZArith Reals Lra Lia List.
From mathcomp Require Import all_ssreflect fingroup perm ssralg matrix.
From mathcomp Require Import zify.
From Flocq Require Import IEEE754.BinarySingleNaN Core.Core.
From Verif Require Import Base Scalar CFloat Model Spec Loops Struct Det RealRing RealDet Float FloatMx FloatElim.
Set Implicit Arguments. Unset Strict Implicit. Unset Printing Implicit Defensive.
Import GRing.Theory.
Delimit Scope R_scope with Re.
Delimit Scope Z_scope with Z.
Local Open Scope ring_scope.

Section Format.
Variables prec emax : Z.
Context {Hp : Prec_gt_0 prec} {He : Prec_lt_emax prec emax}.
Notation fl := (binary_float prec emax).
Notation K := (floatS prec emax).
Notation u := (uro prec).
Notation h := (eta prec emax).

(** the real values of the entries *)
Definition valmx n (f : nat -> nat -> fl) : 'M[R]_n := \matrix_(i, j) B2R (f i j).

(** a finite non-zero result is, up to the n+1 roundings of the final product,
    the determinant of A + E exactly; E is small next to |L|*|U|, the factors
    the elimination computed (rows in the order s) *)
Theorem c72_det n (f : nat -> nat -> fl) (d : fl) : (3 < n)%N ->
  det K n (mk n n f) = Ok d -> is_finite d = true -> B2R d <> (IZR 0) ->
  exists (L U : nat -> nat -> R) (s : 'S_n) (E : 'M[R]_n),
    (forall i, L i i = (IZR 1)) /\ (forall i k, (i < k)%N -> L i k = (IZR 0)) /\
    (forall k j, (j < k)%N -> U k j = (IZR 0)) /\ (forall k, (k < n)%N -> U k k <> (IZR 0)) /\
    (forall i j : 'I_n, (valmx n f + E) (s i) j = rsum n (fun k => L i k * U k j)%Re) /\
    (forall i j : 'I_n, (Rabs (E (s i) j) <=
       ((1 + u) ^ (n + 1) - 1) * rsum n (fun k => Rabs (L i k * U k j)) +
       h * (1 + u) ^ n * rsum n (fun k => 1 + / Rabs (U k k)))%Re) /\
    (Rabs (B2R d - \det (valmx n f + E)) <=
       ((1 + u) ^ n - 1) * Rabs (\det (valmx n f + E)) +
       h * (1 + u) ^ n * rsum n (fun k => rprodf (S k) n (fun j => Rabs (U j j))))%Re.
Proof.
move=> Hn.
have -> : det K n (mk n n f) = det_general K n (mk n n f) by case: n Hn => [|[|[|[|n]]]].
rewrite det_general_drun => Ed Fd Nd.
have [||sw [m [v [Hsw [Nv [Fv [[fac' [[Ff Hf] [Ef Ed']]] HF]]]]]]] :=
  @drun_back prec emax Hp He n (n - 0) 0 f _ d erefl _ _ Ed Fd Nd.
- lia.
- by have [E1 [E2 _]] := @f_of_Z_1 prec emax Hp He; split; [|left].
case: n Hn f d Ed Fd Nd sw m v Hsw Nv Fv Ef Ed' HF => [//|n] Hn f d Ed Fd Nd sw m v Hsw Nv Fv Ef Ed' HF.
pose L := Lf m. pose U := Uf prec emax v. pose s := psw n sw.
have Hsw1 p : In p sw -> [/\ (p.1 < n.+1)%N, (p.2 < n.+1)%N & p.1 <> p.2].
  by move=> /Hsw [[A B] C]; split=> //; lia.
have sE i : s i = swaps sw i :> nat by apply: pswE => p /Hsw1 [].
have U_kk k : U k k = B2R (v k k) by rewrite /U /Uf Nat.leb_refl.
have L1 i : L i i = (IZR 1) by rewrite /L /Lf Nat.ltb_irrefl Nat.eqb_refl.
have L0 i k : (i < k)%N -> L i k = (IZR 0).
  by move=> H; rewrite /L /Lf ltbE eqbE; case: ltnP => [|_]; [lia|]; case: eqP => //; lia.
have U0 k j : (j < k)%N -> U k j = (IZR 0).
  by move=> H; rewrite /U /Uf lebE; case: leqP => //; lia.
pose E : 'M[R]_n.+1 := \matrix_(i, j) (rsum n.+1 (fun k => L ((s^-1)%g i) k * U k j) - B2R (f i j))%Re.
have HE i j : (valmx n.+1 f + E) (s i) j = rsum n.+1 (fun k => L i k * U k j)%Re.
  by rewrite !mxE permK; rewrite /GRing.add /=; ring.
exists L, U, s, E; do 3!split=> //.
split; first by move=> k Hk; rewrite U_kk; apply: Nv; lia.
split=> //; split.
  move=> i j; have Hi := ltn_ord i; have Hj := ltn_ord j; have [||_ B] := HF i j; [lia|lia|].
  rewrite /E mxE permK Rabs_minus_sym sE.
  rewrite !rsumf_rsum Nat.sub_0_r in B.
  rewrite (@rsum_ext n.+1 (fun k => 1 + / Rabs (U k k))%Re (fun k => 1 + / Rabs (B2R (v k k)))%Re) //.
  by move=> k _; rewrite U_kk.
have D : \det (valmx n.+1 f + E) = (B2R fac' * rprodf 0 n.+1 (fun k => B2R (v k k)))%Re.
  rewrite (det_factors L1 L0 U0 HE) psw_odd //.
  have -> : rprodf 0 n.+1 (fun k => U k k) = rprodf 0 n.+1 (fun k => B2R (v k k)).
    by rewrite !rprodE; apply: eq_bigr => k _; rewrite U_kk.
  rewrite Ef (proj1 (@f_of_Z_1 prec emax Hp He)) Rmult_1_l pow_m1 signr_odd.
  by [].

have Fd' : is_finite (Bdiv mode_NE (fprod prec emax n.+1 (fun k => if Nat.ltb k 0 then f k k else v k k)) fac') = true by rewrite -Ed'.
have [FP EP] := @div_sign prec emax Hp He _ _ Ff Hf Fd'.
have X : fprod prec emax n.+1 (fun k => if Nat.ltb k 0 then f k k else v k k) = fprod prec emax n.+1 (fun k => v k k) by apply: fprod_ext.
rewrite X in FP EP Ed'.
have B := @fprod_error prec emax Hp He _ _ FP.
rewrite D Ed' EP Rmult_comm -Rmult_minus_distr_l !(Rabs_mult (B2R fac')).
have A1 : Rabs (B2R fac') = (IZR 1).
  by case: Hf => ->; [rewrite Rabs_R1|rewrite Rabs_Ropp Rabs_R1].
rewrite A1 !Rmult_1_l.
rewrite (@rsum_ext n.+1 _ (fun k => rprodf (S k) n.+1 (fun j => Rabs (B2R (v j j)))) ).
  exact: B.
move=> k _; rewrite /rprodf; congr (fold_right _ _ _); apply: eq_map => j.
by rewrite U_kk.
Qed.
End Format.

(** ** without pivoting E can be large: growth of the factors *)

(** 1 N N 0 / 1 1 0 0 / 1 0 1 0 / 0 0 0 1, determinant 1 - 2 N *)
Definition growth (N : Z) (i j : nat) : Z :=
  match i, j with
  | 0%N, 0%N => 1 | 0%N, 1%N => N | 0%N, 2%N => N
  | 1%N, 0%N => 1 | 1%N, 1%N => 1
  | 2%N, 0%N => 1 | 2%N, 2%N => 1
  | 3%N, 3%N => 1
  | _, _ => 0
  end%Z.

Lemma growth_det N : (2 <= N)%Z -> \det (rmx 4 (fun i j => IZR (growth N i j))) = IZR (1 - 2 * N).
Proof.
move=> HN; have P : (2 <= IZR N)%Re by apply: IZR_le.
pose x := IZR N.
pose L (i k : nat) : R := match i, k with
  | 1%N, 0%N => 1 | 2%N, 0%N => 1 | 2%N, 1%N => (- x / (1 - x)) | _, _ => if Nat.eqb i k then 1 else 0 end%Re.
pose U (k j : nat) : R := match k, j with
  | 0%N, 0%N => 1 | 0%N, 1%N => x | 0%N, 2%N => x
  | 1%N, 1%N => (1 - x) | 1%N, 2%N => (- x)
  | 2%N, 2%N => (1 - x - x * x / (1 - x))
  | 3%N, 3%N => 1 | _, _ => 0 end%Re.
have NZ : (1 - x <> 0)%Re by rewrite /x; lra.
rewrite (@det_factors 4 _ 1%g L U).
- rewrite odd_perm1 expr0 mul1r minus_IZR mult_IZR -/x.
  by rewrite /rprodf /=; field.
- by case=> [|[|[|i]]] //=; rewrite Nat.eqb_refl.
- by case=> [|[|[|i]]] [|[|[|k]]] //= H; case: Nat.eqb_spec => //; lia.
- by case=> [|[|[|[|k]]]] [|[|[|[|j]]]].
move=> [i Hi] [j Hj]; rewrite perm1 mxE /=.
do 4?[case: i Hi => [|i] Hi]; last by [];
do 4?[case: j Hj => [|j] Hj]; try (by []); rewrite /rsum /L /U /= -/x; field; exact: NZ.
Qed.

Definition zf {prec emax} {Hp : Prec_gt_0 prec} {He : Prec_lt_emax prec emax} (F : nat -> nat -> Z) :
  matrix (elt (floatS prec emax)) := mk 4 4 (fun i j => f_of_Z prec emax (F i j)).

Definition is_zero {prec emax} (o : outcome (binary_float prec emax)) : bool :=
  match o with Ok (B754_zero _) => true | _ => false end.
Definition terminates {X} (o : outcome X) : bool := match o with Terminate => true | _ => false end.

Lemma c72_check :
  is_zero (det float32S 4 (@zf 24 128 _ _ (growth (2 ^ 25)))) && terminates (inv float32S 4 (@zf 24 128 _ _ (growth (2 ^ 25)))) &&
  is_zero (det float64S 4 (@zf 53 1024 _ _ (growth (2 ^ 54)))) && terminates (inv float64S 4 (@zf 53 1024 _ _ (growth (2 ^ 54)))) = true.
Proof. by vm_compute. Qed.

(** a non-singular integer matrix whose computed determinant is 0 and
    on which inv ends the program *)
Theorem c72_growth :
  (exists F d, \det (rmx 4 (fun i j => IZR (F i j))) = IZR (1 - 2 * 2 ^ 25) /\
     (forall i j, (0 <= F i j <= 2 ^ 25)%Z) /\
     det float32S 4 (@zf 24 128 _ _ F) = Ok d /\ B2R (d : binary_float 24 128) = IZR 0 /\
     inv float32S 4 (@zf 24 128 _ _ F) = Terminate) /\
  (exists F d, \det (rmx 4 (fun i j => IZR (F i j))) = IZR (1 - 2 * 2 ^ 54) /\
     (forall i j, (0 <= F i j <= 2 ^ 54)%Z) /\
     det float64S 4 (@zf 53 1024 _ _ F) = Ok d /\ B2R (d : binary_float 53 1024) = IZR 0 /\
     inv float64S 4 (@zf 53 1024 _ _ F) = Terminate).
Proof.
have Z prec emax (o : outcome (binary_float prec emax)) : is_zero o -> exists d, o = Ok d /\ B2R d = IZR 0.
  by case: o => // -[s| | |] // _; exists (B754_zero s).
have T X (o : outcome X) : terminates o -> o = Terminate by case: o.
have G N : (1 <= N)%Z -> forall i j, (0 <= growth N i j <= N)%Z.
  by move=> H; do 4?[case=> [|]]; do 4?[case=> [|]]; move=> *; rewrite /growth; lia.
have := c72_check; move/andP => [/andP[/andP[H1 H2] H3] H4].
have [d [E1 V1]] := Z _ _ _ H1. have [d' [E2 V2]] := Z _ _ _ H3.
split; [exists (growth (2 ^ 25)), d|exists (growth (2 ^ 54)), d'].
- split; first by apply: growth_det; lia.
  split; first by apply: G; lia.
  exact: (conj E1 (conj V1 (T _ _ H2))).
- split; first by apply: growth_det; lia.
  split; first by apply: G; lia.
  exact: (conj E2 (conj V2 (T _ _ H4))).
Qed.

(** the hypotheses of c72_det on concrete matrices, without and with a row exchange *)
Definition ok_nonzero {prec emax} (o : outcome (binary_float prec emax)) : bool :=
  match o with Ok (B754_finite _ _ _ _) => true | _ => false end.
Example c72_ex :
  ok_nonzero (det float32S 4 (@zf 24 128 _ _ (fun i j => if Nat.eqb i j then 4%Z else Z.of_nat (i + j * j)%N))) &&
  ok_nonzero (det float64S 4 (@zf 53 1024 _ _ (fun i j => if Nat.eqb (i + j)%N 3 then 3%Z else if Nat.eqb i j then 0%Z else 1%Z))) = true.
Proof. by vm_compute. Qed.

Print Assumptions c72_det.
Print Assumptions c72_growth.
