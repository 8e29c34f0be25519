(** * Property C96 (second part): the elements of an inverse in floating point

    As in C72: [u] = [uro prec] = 2^-prec, [h] = [eta prec emax] half the smallest
    positive number, [valmx n f] the matrix of the real values. *)

From Coq Require Import ZArith Reals Lra Lia List.
From mathcomp Require Import all_ssreflect fingroup perm ssralg matrix.
From mathcomp Require Import zify.
From Flocq Require Import IEEE754.BinarySingleNaN Core.Core.
From Verif Require Import Base Scalar CFloat Model Spec Loops Struct Elim Det Inv RealRing RealDet Float FloatMx FloatErr FloatElim
  PropFloatDet PropFloat2 PropClassF PropTriF.
Set Implicit Arguments. Unset Strict Implicit. Unset Printing Implicit Defensive.
Import GRing.Theory.
Delimit Scope R_scope with Re.
Delimit Scope Z_scope with Z.
Local Open Scope ring_scope.

Section Format.
Variables prec emax : Z.
Context {Hp : Prec_gt_0 prec} {He : Prec_lt_emax prec emax}.
Notation fl := (binary_float prec emax).
Notation K := (floatS prec emax).
Notation u := (uro prec).
Notation h := (eta prec emax).

(** the conclusion of C72: d is, up to the roundings of the final product, the
    determinant of a matrix near f *)
Definition det_of_near (n : nat) (f : nat -> nat -> fl) (d : fl) : Prop :=
  exists (L U : nat -> nat -> R) (s : 'S_n) (E : 'M[R]_n),
    (forall i, L i i = (IZR 1)) /\ (forall i k, (i < k)%N -> L i k = (IZR 0)) /\
    (forall k j, (j < k)%N -> U k j = (IZR 0)) /\ (forall k, (k < n)%N -> U k k <> (IZR 0)) /\
    (forall i j : 'I_n, (valmx n f + E) (s i) j = rsum n (fun k => L i k * U k j)%Re) /\
    (forall i j : 'I_n, (Rabs (E (s i) j) <=
       ((1 + u) ^ (n + 1) - 1) * rsum n (fun k => Rabs (L i k * U k j)) +
       h * (1 + u) ^ n * rsum n (fun k => 1 + / Rabs (U k k)))%Re) /\
    (Rabs (B2R d - \det (valmx n f + E)) <=
       ((1 + u) ^ n - 1) * Rabs (\det (valmx n f + E)) +
       h * (1 + u) ^ n * rsum n (fun k => rprodf (S k) n (fun j => Rabs (U j j))))%Re.

(** the elements that are left when row i and column j are deleted *)
Definition crossed (f : nat -> nat -> fl) (i j a b : nat) : fl :=
  f (if (a < i)%N then a else a.+1) (if (b < j)%N then b else b.+1).

Lemma crossed_skip f i j a b : crossed f i j a b = f (skip i a) (skip j b).
Proof. by rewrite /crossed /skip !ltbE. Qed.

Lemma minor_ext n f i j : mk (n - 1) (n - 1) (crossed f i j) = mk (n - 1) (n - 1) (fun a b => f (skip i a) (skip j b)).
Proof. apply: mk_ext => a b _ _. exact: crossed_skip. Qed.

(** every finite non-zero element of an inverse is one rounded quotient of two
    determinants, each of them the determinant of a matrix near the one it is meant for *)
Theorem c96_entry n f Y : (3 < n)%N -> inv K n (mk n n f) = Ok Y -> exists (y : nat -> nat -> fl) (d : fl),
  Y = mk n n y /\ det K n (mk n n f) = Ok d /\
  forall i j, (i < n)%N -> (j < n)%N -> is_finite (y j i) = true -> B2R (y j i) <> IZR 0 ->
  exists e : fl, det K (n - 1) (mk (n - 1) (n - 1) (crossed f i j)) = Ok e /\
    det_of_near n f d /\ ((4 < n)%N -> det_of_near (n - 1) (crossed f i j) e) /\
    is_finite d = true /\ B2R d <> IZR 0 /\ is_finite e = true /\ B2R e <> IZR 0 /\
    let q := ((if odd (i + j) then - IZR 1 else IZR 1) * B2R e / B2R d)%Re in
    (Rabs (B2R (y j i) - q) <= u * Rabs q + h)%Re.
Proof.
move=> Hn E.
have [y [d [-> [Ed [Nd H]]]]] := @inv_entries prec emax Hp He n f Y (ssrnat.ltP Hn) E.
exists y, d; split; first by []. split; first exact: Ed.
move=> i j Hi Hj Fy Ny. have [e [E1 E2]] := H i j (ssrnat.ltP Hi) (ssrnat.ltP Hj).
rewrite E2 in Fy Ny *.
set s := f_of_Z prec emax (cof_sign i j) in Fy Ny *.
have Fd : is_finite d = true.
  case: d Fy Ny {Ed Nd H E2} => [b|b| |b m x B] //; first by case: (Bmult _ s e) => //.
  by case: (Bmult _ s e) => //= *; exfalso; auto.
have [F1 [Nz Ev]] := @Bdiv_finite prec emax Hp He _ _ Fy Fd.
have [_ [Fe _]] := @Bmult_finite prec emax Hp He _ _ F1.
have Cs : cof_sign i j = (if odd (i + j) then -1 else 1)%Z by rewrite /cof_sign mod2_odd; case: (odd _).
have Hb : (Z.abs (cof_sign i j) <= 2 ^ prec)%Z.
  rewrite Cs. have P2 : (2 <= 2 ^ prec)%Z := pow_prec_ge2 prec. eapply Z.le_trans; last exact: P2. by case: (odd _).
have [Sv [Fs _]] := f_of_Z_small prec emax (cof_sign i j) Hb. rewrite -/s in Sv Fs.
have X : (B2R s * B2R e)%Re = B2R (if odd (i + j) then Bopp e else e).
  rewrite Sv Cs; case: (odd _); last by rewrite Rmult_1_l.
  rewrite B2R_Bopp. lra.
have G1 : generic_format radix2 (SpecFloat.fexp prec emax) (B2R s * B2R e) by rewrite X; exact: generic_format_B2R.
have G2 : (Rabs (B2R s * B2R e) < bpow radix2 emax)%Re by rewrite X; exact: abs_lt_emax.
have [_ [Em _]] := @Bmult_exact prec emax Hp He s e Fs Fe G1 G2.
have Ne : B2R e <> IZR 0.
  move=> Z0; apply: Ny. rewrite Ev Em Z0 Rmult_0_r /Rdiv Rmult_0_l. exact: rnd0.
have Q : (B2R (Bmult mode_NE s e) / B2R d = (if odd (i + j) then - IZR 1 else IZR 1) * B2R e / B2R d)%Re.
  rewrite Em Sv Cs. by case: (odd _); rewrite /= ?opp_IZR.
exists e; rewrite minor_ext. split; first exact: E1.
split; first exact: (c72_det Hn Ed Fd Nz).
split.
  move=> H4. have H3 : (3 < n - 1)%N by rewrite ltn_subRL.
  have E1' : det K (n - 1) (mk (n - 1) (n - 1) (crossed f i j)) = Ok e by rewrite minor_ext.
  exact: (c72_det H3 E1' Fe Ne).
do 4!(split; first by []).
rewrite /= Ev Q. set q := ((if _ then _ else _) * _ / _)%Re.
have [dl [et [D1 [D2 ->]]]] := rnd_any prec emax q.
have -> : (q * (1 + dl) + et - q = q * dl + et)%Re by ring.
apply: Rle_trans (Rabs_triang _ _) _. apply: Rplus_le_compat => //.
rewrite Rabs_mult Rmult_comm. apply: Rmult_le_compat_r => //. exact: Rabs_pos.
Qed.
End Format.

(** the hypotheses on a concrete matrix: all elements of the inverse are finite and not zero *)
Definition ientry (i j : nat) : Z := if Nat.eqb i j then 7%Z else Z.of_nat (i + 2 * j + 1)%N.
Example c96_ex_entry : exists Y, inv float64S 5 (mk 5 5 (fun i j => f_of_Z 53 1024 (ientry i j))) = Ok Y /\
  forallb (forallb (fun x => match x with B754_finite _ _ _ _ => true | _ => false end)) Y = true.
Proof.
have : match inv float64S 5 (mk 5 5 (fun i j => f_of_Z 53 1024 (ientry i j))) with
    Ok Y => forallb (forallb (fun x => match x with B754_finite _ _ _ _ => true | _ => false end)) Y | _ => false end = true by vm_compute.
case: (inv float64S 5 _) => // Y E. by exists Y.
Qed.

Print Assumptions c96_entry.
