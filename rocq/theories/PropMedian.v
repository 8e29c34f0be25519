(** * Property C75: the median halves the elements

    [halves lt k v r] says that at most [k] elements of the list [v] are less than
    [r] and at most [k] are greater.  C40 says that the median is the middle
    element or, of an even number of elements, [(x + y) / 2] for the two middle
    ones; here: that value is between them in exact arithmetic, in the integer
    types as long as the sum does not overflow, and in floating point as long as
    the result is finite. *)
From Coq Require Import ZArith List Lia Permutation Reals.
From Flocq Require Import IEEE754.BinarySingleNaN Core.Core.
From mathcomp Require Import all_ssreflect all_algebra.
From mathcomp Require Import zify ssrZ.
From Verif Require Import Base Scalar Model CInt CFloat Spec Loops Struct Elim Exact ExactLemmas Order Stat Float Median PropStat PropFloat.

Set Implicit Arguments.
Unset Strict Implicit.
Unset Printing Implicit Defensive.

Import GRing.Theory Num.Theory mathcomp.ssreflect.order.Order.TTheory.
Local Notation ltP := ssrnat.ltP (only parsing).
Local Notation leP := ssrnat.leP (only parsing).
Delimit Scope Z_scope with Z.
Delimit Scope R_scope with Re.
Local Open Scope nat_scope.

Lemma parity k : Nat.modulo k 2 = 0 \/ Nat.modulo k 2 = 1.
Proof. have := Nat.mod_upper_bound k 2; lia. Qed.

(** ** exact arithmetic *)
Theorem c75_exact (R : realFieldType) (sq : R -> outcome R) sort n m (A : matrix R) :
  shape n m A -> 0 < n * m -> sorts (less (ordS sq)) sort (elements A) ->
  exists r, median (ordS sq) sort n m A = Ok r /\ halves (less (ordS sq)) (n * m / 2) (elements A) r.
Proof.
  move=> /(shape_mk (0%R : R)) [f ->] /ltP Hpos So.
  have W w := proj1 (c40_exact_order sq w).
  case: (parity (n * m)) => He; last first.
  { have [x [E _]] := median_odd (ordS sq) sort n m f (W _) So He. exists x; split=> //.
    exact: (odd_halves (ordS sq) sort n m f x (W _) So He E). }
  have [x [y [Ex [Ey ->]]]] := median_even (ordS sq) sort n m f (W _) So He Hpos.
  have L : (y <= x)%R.
  { rewrite leNgt. by have := middle_order (ordS sq) sort n m f x y So He Hpos Ex Ey; rewrite /less /= => ->. }
  have T : (2%:R != 0 :> R)%R by rewrite pnatr_eq0.
  exists ((x + y) / 2%:R)%R; split.
  - have E2 : Pos.to_nat 2 = 2 by []. by rewrite /= /exact_div E2 unitfE T.
  - apply: (between_halves (ordS sq) sort n m f _ x y (W _) So He Hpos Ex Ey); rewrite /less /=; apply/negbTE; rewrite -leNgt.
    + by rewrite ler_pdivl_mulr ?ltr0n // mulr_natr mulr2n ler_add2r.
    + by rewrite ler_pdivr_mulr ?ltr0n // mulr_natr mulr2n ler_add2l.
Qed.
Print Assumptions c75_exact.

(** ** integer types *)
Section Int.
Variables (t : ityp) (sort : list Z -> list Z) (n m : nat) (A : matrix Z).
Notation K := (intS t).
Hypothesis Hw : (0 < width t)%Z.
Hypothesis HA : shape n m A.
Hypothesis Hpos : 0 < n * m.
Hypothesis HI : forall x, In x (elements A) -> in_range t x = true.
Hypothesis So : sorts Z.ltb sort (elements A).

Lemma int_even : Nat.modulo (n * m) 2 = 0 -> exists x y, [/\ Nat.modulo (n * m) 2 = 0, (y <= x)%Z,
    nth_error (sort (elements A)) (n * m / 2) = Some x, nth_error (sort (elements A)) (n * m / 2 - 1) = Some y &
    [/\ In x (elements A), In y (elements A),
     median K sort n m A = (let* t' := @xadd K (@ld K x) (@ld K y) in let* q := @xdiv K t' (@lit K 2) in Ok (@st K q)) &
     forall r, (y <= r <= x)%Z -> halves Z.ltb (n * m / 2) (elements A) r] /\
     forall r, (r < y)%Z -> ~ halves Z.ltb (n * m / 2) (elements A) r].
Proof.
  move: So Hpos. have [f ->] := proj1 (shape_mk 0%Z _ _ _) HA. move=> So' /ltP Hp He.
  have W w : strict_weak_on (less K) w := proj1 (c40_int_order t w).
  have [x [y [Ex [Ey E]]]] := median_even K sort n m f (W _) So' He Hp. exists x, y.
  have L := middle_order K sort n m f x y So' He Hp Ex Ey.
  split=> //; first by move: L; rewrite /less /=; lia. split; first split=> //.
  - exact: (sorts_in Z.ltb _ sort _ x So' Ex).
  - exact: (sorts_in Z.ltb _ sort _ y So' Ey).
  - move=> r Hr. apply: (between_halves K sort n m f r x y (W _) So' He Hp Ex Ey); rewrite /less /=; lia.
  - move=> r Hr. apply: (outside_halves K sort n m f r y (W _) So' He Hp Ey); rewrite /less /=; lia.
Qed.

Lemma int_cases :
  (exists r, median K sort n m A = Ok r /\ halves Z.ltb (n * m / 2) (elements A) r) \/
  exists x y, [/\ Nat.modulo (n * m) 2 = 0, (y <= x)%Z,
    nth_error (sort (elements A)) (n * m / 2) = Some x, nth_error (sort (elements A)) (n * m / 2 - 1) = Some y &
    [/\ In x (elements A), In y (elements A),
     median K sort n m A = (let* t' := @xadd K (@ld K x) (@ld K y) in let* q := @xdiv K t' (@lit K 2) in Ok (@st K q)) &
     forall r, (y <= r <= x)%Z -> halves Z.ltb (n * m / 2) (elements A) r] /\
     forall r, (r < y)%Z -> ~ halves Z.ltb (n * m / 2) (elements A) r].
Proof.
  case: (parity (n * m)) => He; first by right; exact: int_even.
  left. move: So Hpos. have [f ->] := proj1 (shape_mk 0%Z _ _ _) HA. move=> So' /ltP Hp.
  have W w : strict_weak_on (less K) w := proj1 (c40_int_order t w).
  have [x [E _]] := median_odd K sort n m f (W _) So' He. exists x; split=> //.
  exact: (odd_halves K sort n m f x (W _) So' He E).
Qed.

(** if no sum of two elements leaves the type in which it is computed *)
Theorem c75_int : (forall x y, In x (elements A) -> In y (elements A) -> in_range (promote t) (x + y) = true) ->
  exists r, median K sort n m A = Ok r /\ halves Z.ltb (n * m / 2) (elements A) r.
Proof.
  move=> HS. case: int_cases => // -[x [y [He L Ex Ey [[Ix Iy E H] _]]]].
  have Es : iarith (promote t) (x + y) = Ok (x + y)%Z.
  { have := HS x y Ix Iy. rewrite /iarith. case S1: (sgn (promote t)) => R; first by rewrite R.
    rewrite Z.mod_small //. move: R; rewrite /in_range /imin /imax S1; lia. }
  have [E1 E2] := imiddle t x y _ Hw (HI Ix) (HI Iy) L Es.
  exists (Z.quot (x + y) 2); split; first by rewrite E E1 E2.
  apply: H. exact: quot2_between.
Qed.

(** 8 and 16 bit types: always *)
Theorem c75_narrow : (width t <= 16)%Z ->
  exists r, median K sort n m A = Ok r /\ halves Z.ltb (n * m / 2) (elements A) r.
Proof.
  move=> Hn. case: int_cases => // -[x [y [He L Ex Ey [[Ix Iy E H] _]]]].
  have [E1 E2] := imiddle t x y _ Hw (HI Ix) (HI Iy) L (narrow_sum t x y ltac:(lia) (HI Ix) (HI Iy)).
  exists (Z.quot (x + y) 2); split; first by rewrite E E1 E2.
  apply: H. exact: quot2_between.
Qed.

(** signed types: whenever a value is returned; the alternative is an overflow *)
Theorem c75_signed : sgn t = true ->
  (exists r, median K sort n m A = Ok r /\ halves Z.ltb (n * m / 2) (elements A) r) \/
  median K sort n m A = UB SignedOverflow.
Proof.
  move=> Hs. case: int_cases => [|[x [y [He L Ex Ey [[Ix Iy E H] _]]]]]; first by left.
  have S1 : sgn (promote t) = true by rewrite /promote; case: ifP.
  case R: (in_range (promote t) (x + y)); last by right; rewrite E /= /iarith S1 R.
  left. have Es : iarith (promote t) (x + y) = Ok (x + y)%Z by rewrite /iarith S1 R.
  have [E1 E2] := imiddle t x y _ Hw (HI Ix) (HI Iy) L Es.
  exists (Z.quot (x + y) 2); split; first by rewrite E E1 E2.
  apply: H. exact: quot2_between.
Qed.

(** unsigned types of at least 32 bits: a value is always returned; of an even
    number of elements it halves them exactly when the sum of the two middle ones
    does not wrap around *)
Theorem c75_unsigned x y : sgn t = false -> (32 <= width t)%Z -> Nat.modulo (n * m) 2 = 0 ->
  nth_error (sort (elements A)) (n * m / 2) = Some x -> nth_error (sort (elements A)) (n * m / 2 - 1) = Some y ->
  exists r, median K sort n m A = Ok r /\
    (halves Z.ltb (n * m / 2) (elements A) r <-> (x + y < 2 ^ width t)%Z).
Proof.
  move=> Hs Hn He' Ex' Ey'.
  have Hx : forall z, In z (elements A) -> (0 <= z < 2 ^ width t)%Z.
  { move=> z /HI. rewrite /in_range /imin /imax Hs; lia. }
  have P : promote t = t by rewrite /promote; case: Z.ltb_spec => // C; clear - C Hn; lia.
  have [x0 [y0 [_ L Ex Ey [[Ix Iy E H] H2]]]] := int_even He'.
  have Ex1 : x0 = x by congruence. have Ey1 : y0 = y by congruence. subst x0 y0.
  have Hx1 := Hx _ Ix. have Hy1 := Hx _ Iy.
  have Es : iarith (promote t) (x + y) = Ok ((x + y) mod 2 ^ width t)%Z by rewrite /iarith P Hs.
  have [E1 E2] := imiddle t x y _ Hw (HI Ix) (HI Iy) L Es.
  eexists; split; first by rewrite E E1.
  case: (Z.lt_ge_cases (x + y) (2 ^ width t)) => C.
  - split=> // _. rewrite E2; last by apply: Z.mod_small; lia.
    apply: H. exact: quot2_between.
  - split; last lia. move=> Hh; exfalso.
    have Em : ((x + y) mod 2 ^ width t = x + y - 2 ^ width t)%Z.
    { symmetry; apply: (Z.mod_unique _ _ 1); lia. }
    have Q : (0 <= Z.quot (x + y - 2 ^ width t) 2 < y)%Z.
    { rewrite Z.quot_div_nonneg; try lia. split; first by apply: Z.div_pos; lia.
      apply: Z.div_lt_upper_bound; lia. }
    move: Hh. rewrite Em iconv_keep //; last by rewrite /in_range /imin /imax Hs; lia.
    apply: H2; lia.
Qed.
End Int.
Print Assumptions c75_int.
Print Assumptions c75_narrow.
Print Assumptions c75_signed.
Print Assumptions c75_unsigned.

(** median(3000000000, 3000000002) is 852516353 in [unsigned], undefined in [int] for 2^31 - 1 twice *)
Theorem c75_wrong : median (intS uint32) (isort Z.ltb) 1 2 [:: [:: 3000000000; 3000000002]]%Z = Ok (852516353 : Z)%Z /\
  median (intS int32) (isort Z.ltb) 1 2 [:: [:: 2147483647; 2147483647]]%Z = UB SignedOverflow.
Proof. by vm_compute. Qed.
Print Assumptions c75_wrong.

Example c75_ex : (forall x y, In x [:: 5; 1; 4; 2]%Z -> In y [:: 5; 1; 4; 2]%Z -> in_range int32 (x + y) = true) /\
  median (intS int32) (isort Z.ltb) 2 2 [:: [:: 5; 1]; [:: 4; 2]]%Z = Ok (3 : Z)%Z /\
  median (intS int32) (isort Z.ltb) 1 2 [:: [:: -3; -2]]%Z = Ok (-2 : Z)%Z.
Proof.
  split; last by vm_compute.
  by move=> x y /= [<-|[<-|[<-|[<-|[]]]]] [<-|[<-|[<-|[<-|[]]]]].
Qed.

(** ** floating point *)
Section Float.
Variables (prec emax : Z) (Hp : Prec_gt_0 prec) (He : Prec_lt_emax prec emax).
Notation fl := (binary_float prec emax).
Notation K := (@floatS prec emax Hp He).
Variables (sort : list fl -> list fl) (n m : nat) (A : matrix fl).
Hypothesis HA : shape n m A.
Hypothesis Hpos : 0 < n * m.
Hypothesis HN : forall x, In x (elements A) -> is_nan x = false.
Hypothesis So : sorts (less K) sort (elements A).

Theorem c75_float r : median K sort n m A = Ok r -> is_finite r = true ->
  halves (less K) (n * m / 2) (elements A) r.
Proof.
  move: HN So Hpos. have [f ->] := proj1 (shape_mk (lite K 0) _ _ _) HA. move=> HN' So' /ltP Hp' E F.
  have W w : (forall x, In x w -> is_nan x = false) -> strict_weak_on (less K) w.
  { by move=> Hw; apply/(@c53_order prec emax Hp He); left. }
  have Nr : is_nan r = false by case: (r) F.
  have W2 : strict_weak_on (less K) (r :: elements (mk n m f)).
  { by apply: W => x /= [<-|/HN']. }
  case: (parity (n * m)) => Hev; last exact: (odd_halves K sort n m f r (W _ HN') So' Hev E).
  have [x [y [Ex [Ey E']]]] := median_even K sort n m f (W _ HN') So' Hev Hp'.
  have Er : r = Bdiv mode_NE (Bplus mode_NE x y) (@f_of_Z prec emax Hp He 2).
  { move: E'. rewrite E => E'. by injection E'. }
  have L := middle_order K sort n m f x y So' Hev Hp' Ex Ey.
  have [Fx Fy] : is_finite x = true /\ is_finite y = true.
  { have [_ F2] := @two_fl prec emax Hp He. move: F; rewrite Er => F.
    have [Fs _] := @Bdiv_finite prec emax Hp He _ _ F F2.
    by have [? [? _]] := @Bplus_finite prec emax Hp He _ _ Fs. }
  have Lxy : (B2R y <= B2R x)%Re.
  { apply: Rnot_lt_le => C. move: L. rewrite /less /=.
    by move/(@Bltb_finite prec emax _ _ Fx Fy): C => ->. }
  have [B1 B2] : (B2R y <= B2R r <= B2R x)%Re.
  { move: F; rewrite Er => F. by have [] := @half_sum_between prec emax Hp He x y F Lxy. }
  apply: (between_halves K sort n m f r x y W2 So' Hev Hp' Ex Ey).
  - apply/negbTE/negP => /(@Bltb_finite prec emax _ _ F Fy). exact: Rle_not_lt.
  - apply/negbTE/negP => /(@Bltb_finite prec emax _ _ Fx F). exact: Rle_not_lt.
Qed.

(** the result is finite for finite elements up to a quarter of 2^emax *)
Theorem c75_finite : (forall x, In x (elements A) -> is_finite x = true /\ (Rabs (B2R x) <= bpow radix2 (emax - 2))%Re) ->
  exists r, median K sort n m A = Ok r /\ is_finite r = true.
Proof.
  move: HN So Hpos. have [f ->] := proj1 (shape_mk (lite K 0) _ _ _) HA. move=> HN' So' /ltP Hp' HB.
  have W : strict_weak_on (less K) (elements (mk n m f)).
  { by apply/(@c53_order prec emax Hp He); left. }
  case: (parity (n * m)) => Hev.
  - have [x [y [Ex [Ey E]]]] := median_even K sort n m f W So' Hev Hp'.
    have [Fx Bx] := HB x (sorts_in (less K) _ sort _ x So' Ex).
    have [Fy By] := HB y (sorts_in (less K) _ sort _ y So' Ey).
    eexists; split; first exact: E. exact: (@half_sum_finite prec emax Hp He).
  - have [x [E [_ [I _]]]] := median_odd K sort n m f W So' Hev. exists x; split=> //. by have [] := HB _ I.
Qed.
End Float.
Print Assumptions c75_float.
Print Assumptions c75_finite.

(** four times the largest float: the sum of the middle elements overflows, the result is infinite *)
Definition fmax32 : elt float32S := @f_of_Z 24 128 Hprec32 Hemax32 (2 ^ 128 - 2 ^ 104).
Definition over32 (A : matrix (elt float32S)) : bool :=
  match median float32S (fun v => v) 1 2 A with Ok r => List.forallb (fun x => Bltb x r && is_finite x) (elements A) | _ => false end.
Lemma c75_check : over32 [:: [:: fmax32; fmax32]] = true.
Proof. by vm_compute. Qed.
Lemma c75_check1 : Bltb fmax32 fmax32 = false.
Proof. by vm_compute. Qed.

Lemma over32_inv A : over32 A = true -> exists r, median float32S (fun v => v) 1 2 A = Ok r /\
  forall x, In x (elements A) -> is_finite x = true /\ less float32S x r = true.
Proof.
  rewrite /over32. case: (median _ _ _ _ _) => // r /List.forallb_forall H. exists r; split=> // x /H /andP [H1 H2].
  by [].
Qed.

Lemma pair_sorted (a : elt float32S) : Bltb a a = false -> sorts (less float32S) (fun v => v) [:: a; a].
Proof.
  move=> Ha. split; first exact: Permutation_refl.
  move=> i j x y _. case: i => [|[|[]]] //= [<-]; case: j => [|[|[]]] //= [<-]; exact: Ha.
Qed.

Theorem c75_overflow : exists (A : matrix (elt float32S)) sort r,
  [/\ sorts (less float32S) sort (elements A), (forall x, In x (elements A) -> is_finite x = true),
   median float32S sort 1 2 A = Ok r & forall x, In x (elements A) -> less float32S x r = true].
Proof.
  have [r [E H]] := over32_inv c75_check.
  exists [:: [:: fmax32; fmax32]], (fun v => v), r. split.
  - exact: (pair_sorted c75_check1).
  - by move=> x /H [].
  - exact: E.
  - by move=> x /H [].
Qed.
Print Assumptions c75_overflow.
