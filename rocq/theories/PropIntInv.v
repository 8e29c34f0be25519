(** * Property C74: inv on integer types

    Matrices of integers are given as mathcomp matrices over Z, [mxrows A] is the
    array; [mx_in t A] says that all elements are values of type t, [iconv t] is
    the conversion to t (Int*.v).  [\adj A] is the adjugate: A * \adj A = \det A * I.
    [Z.quot] truncates towards zero like the / of C++. *)
From Coq Require Import ZArith List Lia.
From mathcomp Require Import all_ssreflect all_algebra.
From mathcomp Require Import zify ssrZ.
From Verif Require Import Base Scalar Model CInt Spec Loops Struct Elim Exact ExactLemmas Alg Det Sim IntMx Int IntFactor IntInvRet IntInv PropAlg.

Set Implicit Arguments.
Unset Strict Implicit.
Unset Printing Implicit Defensive.

Import GRing.Theory.
Local Open Scope ring_scope.
Delimit Scope Z_scope with Z.

(** ** every integer type, sizes up to 4: the adjugate over the computed
    determinant; for sizes up to 3 that is the determinant *)
Theorem c74_any t n (A : 'M[Z]_n) Y : (1 < width t)%Z -> (0 < n <= 4)%N -> mx_in t A ->
  inv (intS t) n (mxrows A) = Ok Y ->
  exists d : Z, [/\ det (intS t) n (mxrows A) = Ok d, d <> 0%Z,
    ((n <= 3)%N -> d = iconv t (\det A)) &
    Y = mxrows (\matrix_(i, j) iconv t (Z.quot (iconv t (\adj A i j)) d))].
Proof.
move=> Hw Hn HA /(inv_any Hw Hn HA) [d [Ed D ->]]; exists d; split=> // Hn3.
apply: (idet_conv _ _ HA Ed); lia.
Qed.
Print Assumptions c74_any.

(** ** int, long: no conversions *)
Section Signed.
Variables (t : ityp) (n : nat) (A : 'M[Z]_n).
Notation K := (intS t).
Hypothesis Hs : sgn t = true.
Hypothesis Hw : (32 <= width t)%Z.
Hypothesis HA : mx_in t A.

Theorem c74_signed Y : (0 < n <= 3)%N -> inv K n (mxrows A) = Ok Y ->
  \det A <> 0 /\ Y = mxrows (\matrix_(i, j) Z.quot (\adj A i j) (\det A)).
Proof.
move=> Hn E; have Hn4 : (0 < n <= 4)%N by lia.
have [d [Ed D ->]] := inv_signed Hs Hw Hn4 HA E.
by have [Edet _] := sdet_exact Hs Hw Hn HA Ed; rewrite -Edet.
Qed.

Theorem c74_signed4 Y : n = 4%N -> inv K n (mxrows A) = Ok Y ->
  exists d : Z, [/\ det K n (mxrows A) = Ok d, d <> 0%Z & Y = mxrows (\matrix_(i, j) Z.quot (\adj A i j) d)].
Proof. by move=> Hn E; apply: (inv_signed Hs Hw _ HA E); rewrite Hn. Qed.

Lemma unit_Z (x y : Z) : x * y = 1 -> x = 1 \/ x = -1.
Proof. move=> /Z.mul_eq_1. rewrite -[1]/1%Z -[-1]/(-1)%Z. lia. Qed.

Lemma quot_pm a d e : d = 1 \/ d = -1 -> e = d -> Z.quot a e = d * a.
Proof.
case=> -> ->; rewrite ?mul1r ?mulN1r; first exact: Z.quot_1_r.
by rewrite (Z.quot_opp_r a 1) // Z.quot_1_r.
Qed.

Lemma quot_same (a d e : Z) : (a <> 0 -> d <> 0 -> e = 1 \/ e = -1 -> Z.quot a d = e * a -> e = d)%Z.
Proof.
move=> Ha Hd He Q.
have E1 : (Z.abs (Z.quot a d) = Z.abs a)%Z by case: He Q => -> ->; lia.
move: E1; rewrite -Z.quot_abs // => E1.
have D1 : (Z.abs d = 1)%Z.
{ have : (Z.abs d < 2)%Z; last lia.
  apply/Z.nle_gt => L. have : (Z.quot (Z.abs a) (Z.abs d) < Z.abs a)%Z by apply: Z.quot_lt; lia. lia. }
have [Ed|Ed] : d = 1%Z \/ d = (-1)%Z by lia.
- by move: Q; rewrite Ed Z.quot_1_r; case: He => ->; lia.
- by move: Q; rewrite Ed (Z.quot_opp_r a 1) // Z.quot_1_r; case: He => ->; lia.
Qed.

(** the result is the inverse exactly when the determinant is 1 or -1 and was
    computed correctly *)
Theorem c74_right (X : 'M[Z]_n) : (0 < n <= 4)%N -> inv K n (mxrows A) = Ok (mxrows X) ->
  (A *m X = 1%:M <-> det K n (mxrows A) = Ok (\det A) /\ (\det A = 1 \/ \det A = -1)).
Proof.
move=> Hn E; have [d [Ed D /(mxrows_inj 0%Z) EX]] := inv_signed Hs Hw Hn HA E; split.
- move=> AX. have dAX : \det A * \det X = 1 by rewrite -det_mulmx AX matrix.det1.
  have U := unit_Z dAX; split=> //.
  have dd : \det A * \det A = 1 by case: U => ->; rewrite ?mulr1 ?mulrNN ?mulr1.
  have EX2 : X = \det A *: \adj A.
  { have : \adj A *m (A *m X) = \adj A by rewrite AX mulmx1.
    by rewrite mulmxA mul_adj_mx mul_scalar_mx => <-; rewrite scalerA dd scale1r. }
  have [i [j NZ]] : exists i j, \adj A i j <> 0.
  { case: (boolP [exists i, exists j, \adj A i j != 0]).
    - by move=> /existsP [i /existsP [j /eqP NZ]]; exists i, j.
    - rewrite negb_exists => /forallP H. exfalso.
      have Z0 : \adj A = 0.
      { apply/matrixP => i j; rewrite [RHS]mxE; move: (H i); rewrite negb_exists => /forallP /(_ j).
        by rewrite negbK => /eqP. }
      have := mul_mx_adj A; rewrite Z0 mulmx0 => /esym /matrixP H0.
      have lt0n' : (0 < n)%N by lia.
      have := H0 (Ordinal lt0n') (Ordinal lt0n'); rewrite !mxE eqxx mulr1n => D0.
      by move: dAX; rewrite D0 mul0r. }
  rewrite Ed; congr Ok.
  have := congr1 (fun M : 'M[Z]_n => M i j) EX; rewrite EX2 [RHS]mxE [LHS]mxE => Q.
  exact: (esym (quot_same NZ D U (esym Q))).
- move=> [Ed' U]. have Edd : d = \det A by move: Ed'; rewrite Ed => -[].
  have -> : X = \det A *: \adj A.
  { by rewrite EX; apply/matrixP => i j; rewrite 3!mxE [in RHS]mxE; exact: quot_pm. }
  rewrite -scalemxAr mul_mx_adj scale_scalar_mx; congr (_%:M).
  by case: U => ->; rewrite ?mulr1 ?mulrNN ?mulr1.
Qed.
End Signed.
Print Assumptions c74_signed.
Print Assumptions c74_signed4.
Print Assumptions c74_right.

Lemma inv_throw (K : scalar) n A d : n = 2%N \/ n = 3%N -> det K n A = Ok d -> xeq (ld d) (lit 0) = true ->
  inv K n A = Throw OverflowError.
Proof.
case=> -> E X; [change (inv K 2 A) with (inv2 K A)|change (inv K 3 A) with (inv3 K A)];
  by rewrite /inv2 /inv3 E /bind X.
Qed.

(** ** when a result is returned: entries of absolute value at most a *)
Section Returns.
Variables (t : ityp) (a : Z).
Notation K := (intS t).
Hypothesis Hs : sgn t = true.
Hypothesis Hw : (32 <= width t)%Z.

Lemma mxf_bound n (A : 'M[Z]_n) : (forall i j, Z.abs (A i j) <= a)%Z ->
  forall i j, (i < n)%coq_nat -> (j < n)%coq_nat -> (Z.abs (mxf 0%Z A i j) <= a)%Z.
Proof.
move=> H i j /ssrnat.ltP Hi /ssrnat.ltP Hj. rewrite -[i]/(val (Ordinal Hi)) -[j]/(val (Ordinal Hj)) mxf_ord. exact: H.
Qed.

Lemma det_detf n (A : 'M[Z]_n) : \det A = detf n (mxf 0%Z A).
Proof. by congr (\det _); apply/matrixP => i j; rewrite mxE mxf_ord. Qed.

Lemma abs_range n (A : 'M[Z]_n) : (0 <= a <= imax t)%Z -> (forall i j, Z.abs (A i j) <= a)%Z -> mx_in t A.
Proof. by move=> Ha H i j; apply: abs_in => //; move: (H i j); lia. Qed.

Theorem c74_returns n (A : 'M[Z]_n) : (n = 2%N /\ (2 * (a * a) <= imax t)%Z) \/ (n = 3%N /\ (6 * (a * a * a) <= imax t)%Z) ->
  (forall i j, Z.abs (A i j) <= a)%Z ->
  inv K n (mxrows A) = if \det A == 0 then Throw OverflowError
                       else Ok (mxrows (\matrix_(i, j) Z.quot (\adj A i j) (\det A))).
Proof.
move=> Hn HA.
have Ha0 : (0 <= a)%Z.
{ have n0 : (0 < n)%N by case: Hn => [[-> _]|[-> _]].
  by move: (HA (Ordinal n0) (Ordinal n0)); lia. }
have Ha : (0 <= a <= imax t)%Z by case: Hn => [[_ H]|[_ H]]; split=> //; nia.
have Hn3 : (0 < n <= 3)%N by case: Hn => [[-> _]|[-> _]].
have [Ed Er] : det K n (mxrows A) = Ok (\det A) /\ (\det A <> 0 -> exists Y, inv K n (mxrows A) = Ok Y).
{ rewrite (mxrowsE 0%Z A) det_detf. case: Hn A HA => [[-> H]|[-> H]] A HA.
  - rewrite detf2. exact: (inv2_ret _ Hs Hw _ _ (mxf_bound HA) H).
  - rewrite detf3. exact: (inv3_ret _ Hs Hw _ _ (mxf_bound HA) H). }
case: eqP => [E0|N0].
- rewrite E0 in Ed. apply: (inv_throw _ Ed); first by case: Hn => [[-> _]|[-> _]]; [left|right].
  by rewrite /= (lit_zero _ Hs Hw).
- have [Y EY] := Er N0. by have [_ <-] := c74_signed Hs Hw (abs_range Ha HA) Hn3 EY.
Qed.

(** a 1x1 matrix: 1/a truncated, undefined for 0 *)
Theorem c74_one (x : Z) : in_range t x ->
  inv K 1 [:: [:: x]] = if x == 0 then UB DivByZero else Ok [:: [:: Z.quot 1 x]].
Proof.
move=> Hx. rewrite [inv K 1 _]/(inv1 K _) /inv1 /=.
have [L1 L2] : iconv (promote t) 1 = 1%Z /\ (1 <= imax t)%Z.
{ rewrite promote_wide // iconv1; last lia. split=> //. rewrite /imax Hs.
  have : (2 ^ 31 <= 2 ^ (width t - 1))%Z by apply: Z.pow_le_mono_r; lia. lia. }
rewrite L1. case: eqP => [->|N0]; first by rewrite /idiv.
rewrite (dv _ Hs Hw) //= (conv_abs _ Hs Hw) //. exact: Z.le_trans (quot_abs 1 x) L2.
Qed.
End Returns.
Print Assumptions c74_returns.
Print Assumptions c74_one.

(** any integer type: a computed determinant 0 throws for sizes 2 and 3 *)
Theorem c74_singular t n (A : matrix Z) : (0 < width t)%Z -> n = 2%N \/ n = 3%N ->
  det (intS t) n A = Ok (0 : Z)%Z -> inv (intS t) n A = Throw OverflowError.
Proof.
by move=> Hw Hn E; apply: (inv_throw Hn E); rewrite /= (lit0_any Hw).
Qed.
Print Assumptions c74_singular.

(** ** unsigned types: right when the determinant is 1 modulo 2^w *)
Section Total.
Variables (K : scalar) (n : nat) (f : nat -> nat -> elt K) (d : elt K).
Hypothesis Hsub : forall a b : xpr K, returns (xsub a b).
Hypothesis Hmul : forall a b : xpr K, returns (xmul a b).
Hypothesis Hneg : forall a : xpr K, returns (xneg a).
Hypothesis Hdiv : forall a : xpr K, returns (xdiv a (ld d)).
Hypothesis Ed : det K n (mk n n f) = Ok d.
Hypothesis Hd : xeq (ld d) (lit 0) = false.

Lemma op_div_total p q g : returns (op_div K p q (mk p q g) d).
Proof.
rewrite /op_div div_tab Hd. apply: returns_tabM => i j _ _.
by apply: returns_bind => [|v]; [exact: Hdiv|exact: returns_ok].
Qed.

Lemma mul_sub_total x y z w : returns (mul_sub K x y z w).
Proof.
rewrite /mul_sub. do 3 (apply: returns_bind => [|?]; first by [exact: Hmul|exact: Hsub]).
exact: returns_ok.
Qed.

Lemma inv_total : (0 < n <= 3)%N -> returns (inv K n (mk n n f)).
Proof.
case: n f Ed => [|[|[|[|?]]]] // g E _.
- rewrite [inv K 1 _]/(inv1 K _) /inv1 E.
  rewrite -[returns _]/(returns (let* q := xdiv (lit 1) (ld d) in Ok [:: [:: st q]])).
  by apply: returns_bind => [|w]; [exact: Hdiv|exact: returns_ok].
- rewrite [inv K 2 _]/(inv2 K _) /inv2 E /bind Hd -/bind.
  rewrite -[returns _]/(returns (let* p := xneg (ld (g 0%N 1%N)) in let* q := xneg (ld (g 1%N 0%N)) in
    op_div K 2 2 [:: [:: g 1%N 1%N; st p]; [:: st q; g 0%N 0%N]] d)).
  do 2 (apply: returns_bind => [|?]; first exact: Hneg).
  set N := [:: [:: _; _]; _]. rewrite -[N]/(mk 2 2 (fun i j => nth (lite K 0) (nth [::] N i) j)).
  exact: op_div_total.
- rewrite [inv K 3 _]/(inv3 K _) /inv3 E /bind Hd -/bind.
  rewrite -[returns _]/(returns (let a := g 0%N 0%N in let b := g 0%N 1%N in let c := g 0%N 2%N in
    let d0 := g 1%N 0%N in let e := g 1%N 1%N in let f := g 1%N 2%N in
    let h := g 2%N 0%N in let k := g 2%N 1%N in let l := g 2%N 2%N in
    let* i00 := mul_sub K e l f k in let* i01 := mul_sub K c k b l in let* i02 := mul_sub K b f c e in
    let* i10 := mul_sub K f h d0 l in let* i11 := mul_sub K a l c h in let* i12 := mul_sub K c d0 a f in
    let* i20 := mul_sub K d0 k e h in let* i21 := mul_sub K b h a k in let* i22 := mul_sub K a e b d0 in
    op_div K 3 3 [:: [:: i00; i01; i02]; [:: i10; i11; i12]; [:: i20; i21; i22]] d)).
  cbv zeta. do 9 (apply: returns_bind => [|?]; first exact: mul_sub_total).
  set N := [:: [:: _; _; _]; _; _]. rewrite -[N]/(mk 3 3 (fun i j => nth (lite K 0) (nth [::] N i) j)).
  exact: op_div_total.
Qed.
End Total.

Theorem c74_unsigned t n (A : 'M[Z]_n) : sgn t = false -> (32 <= width t)%Z -> (0 < n <= 3)%N -> mx_in t A ->
  Z.modulo (\det A) (2 ^ width t) = 1%Z ->
  exists X, inv (intS t) n (mxrows A) = Ok X /\
    mult (intS t) n n n (mxrows A) X = Ok (mxrows (1%:M : 'M[Z]_n)).
Proof.
move=> Hs Hw Hn HA H1. have Hw0 : (0 < width t)%Z by lia. have Hw1 : (1 < width t)%Z by lia.
have Ep : promote t = t by exact: promote_wide.
have Ra z : returns (iarith (promote t) z) by rewrite Ep /iarith Hs; exact: returns_ok.
have Ed : det (intS t) n (mxrows A) = Ok (1%Z : elt (intS t)) by rewrite (udet_mx Hs Hw Hn HA) H1.
have [X EX] : returns (inv (intS t) n (mxrows A)).
{ rewrite (mxrowsE 0%Z A) in Ed *. apply: (@inv_total (intS t) n _ (1%Z : elt (intS t)) _ _ _ _ Ed _ Hn) => //=.
  - by move=> a; exact: Ra.
  - by rewrite lit0_any. }
exists X; split=> //.
have Hn4 : (0 < n <= 4)%N by lia.
have [d [Ed' _ EX']] := inv_any Hw1 Hn4 HA EX. move: Ed'; rewrite Ed => -[Ed']; subst d.
have RX : @relM (intS t) _ (relc t) n n X (\adj A).
{ rewrite EX' (mxrowsE 0%Z). eexists; split; first reflexivity.
  move=> i j; rewrite mxf_ord /relc [LHS]mxE Z.quot_1_r. by apply: iconv_cong; exact: iconv_eqm. }
have [C EC] : returns (mult (intS t) n n n (mxrows A) X).
{ by rewrite EX' (mxrowsE 0%Z A) [mxrows _](mxrowsE 0%Z); apply: returns_mult => /= *; exact: Ra. }
have := mult_sim (sim_cong Hw0) (relM_in Hw0 HA) RX EC; rewrite EC mul_mx_adj => /(relM_out (t := t)) ->.
congr (Ok (mxrows _)); apply/matrixP => i j; rewrite !mxE /iconv Hs.
case: eqP => _; rewrite ?mulr1n ?mulr0n //.
Qed.
Print Assumptions c74_unsigned.

(** a matrix of determinant -1 has an inverse in unsigned arithmetic, inv returns
    something else *)
Theorem c74_unsigned_wrong : exists A B X : matrix Z,
  [/\ mult (intS uint32) 2 2 2 A B = eye1 (intS uint32) 2,
      inv (intS uint32) 2 A = Ok X &
      mult (intS uint32) 2 2 2 A X <> eye1 (intS uint32) 2].
Proof.
exists [:: [:: 0; 1]; [:: 1; 1]]%Z, [:: [:: 4294967295; 1]; [:: 1; 0]]%Z, [:: [:: 0; 1]; [:: 1; 0]]%Z.
by split; vm_compute.
Qed.
Print Assumptions c74_unsigned_wrong.

(** ** from 4x4 on: the determinant is computed by elimination with truncating
    division, and can be wrong for a matrix that has an integer inverse *)
Theorem c74_wrong4 : exists A B X : matrix Z,
  [/\ mult (intS int32) 4 4 4 A B = eye1 (intS int32) 4,
      inv (intS int32) 4 A = Ok X &
      mult (intS int32) 4 4 4 A X <> eye1 (intS int32) 4].
Proof.
exists [:: [:: 2; 1; 0; 0]; [:: 1; 1; 0; 0]; [:: 0; 0; 1; 0]; [:: 0; 0; 0; 1]]%Z,
  [:: [:: 1; -1; 0; 0]; [:: -1; 2; 0; 0]; [:: 0; 0; 1; 0]; [:: 0; 0; 0; 1]]%Z,
  [:: [:: 0; 0; 0; 0]; [:: 0; 1; 0; 0]; [:: 0; 0; 0; 0]; [:: 0; 0; 0; 0]]%Z.
by split; vm_compute.
Qed.
Print Assumptions c74_wrong4.

(** the hypotheses: a 3x3 int matrix of determinant -1, and one of determinant 2 *)
Example c74_ex : inv (intS int32) 3 [:: [:: 1; 2; 3]; [:: 0; 1; 4]; [:: 5; 6; 1]]%Z <> UB SignedOverflow /\
  inv (intS int32) 3 [:: [:: 1; 2; 3]; [:: 0; 1; 4]; [:: 5; 6; 0]]%Z =
    Ok [:: [:: -24; 18; 5]; [:: 20; -15; -4]; [:: -5; 4; 1]]%Z /\
  inv (intS int32) 2 [:: [:: 2; 0]; [:: 0; 1]]%Z = Ok [:: [:: 0; 0]; [:: 0; 1]]%Z.
Proof. by split; [|split]; vm_compute. Qed.
