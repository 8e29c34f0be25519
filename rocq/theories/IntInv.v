(** * inv on integer types: the adjugate divided by the determinant, truncated *)
From Coq Require Import ZArith List Lia.
From mathcomp Require Import all_ssreflect all_algebra.
From mathcomp Require Import zify ssrZ.
From Verif Require Import Base Scalar Model CInt Spec Loops Struct Elim Conv Exact ExactLemmas Alg Det ConvExact Pow Inv Sim IntMx Int IntFactor.

Set Implicit Arguments.
Unset Strict Implicit.
Unset Printing Implicit Defensive.

Import GRing.Theory.
Local Open Scope ring_scope.
Delimit Scope Z_scope with Z.

(** ** the adjugate as a function, over a commutative ring *)
Section Adj.
Variable R : comRingType.
Add Ring Rring : (comring_theory R).

Definition cadjf n (f : nat -> nat -> R) (i j : nat) : R :=
  (-1) ^+ (j + i) * detf n.-1 (fun a b => f (bump j a) (bump i b)).

Lemma cadjf_mx n (A : 'M[R]_n) (i j : 'I_n) : cadjf n (mxf 0 A) i j = \adj A i j.
Proof.
rewrite mxE /cofactor /cadjf /detf; congr (_ * \det _).
case: n A i j => [|n] A i j; first by case: i.
apply/matrixP => a b; rewrite !mxE; exact: (mxf_ord 0 A (lift j a) (lift i b)).
Qed.

Lemma cadj2 (f : nat -> nat -> R) :
  [/\ cadjf 2 f 0 0 = f 1%N 1%N, cadjf 2 f 0 1 = - f 0%N 1%N,
      cadjf 2 f 1 0 = - f 1%N 0%N & cadjf 2 f 1 1 = f 0%N 0%N].
Proof.
by split; rewrite /cadjf /= !detf1 /bump /= ?expr0 ?expr1 ?sqrrN ?expr1n ?mulN1r ?mul1r.
Qed.

Lemma cadj3 (f : nat -> nat -> R) :
  let a := f 0%N 0%N in let b := f 0%N 1%N in let c := f 0%N 2%N in
  let d := f 1%N 0%N in let e := f 1%N 1%N in let g := f 1%N 2%N in
  let h := f 2%N 0%N in let k := f 2%N 1%N in let l := f 2%N 2%N in
  [/\ [/\ cadjf 3 f 0 0 = e * l - g * k, cadjf 3 f 0 1 = c * k - b * l & cadjf 3 f 0 2 = b * g - c * e],
      [/\ cadjf 3 f 1 0 = g * h - d * l, cadjf 3 f 1 1 = a * l - c * h & cadjf 3 f 1 2 = c * d - a * g] &
      [/\ cadjf 3 f 2 0 = d * k - e * h, cadjf 3 f 2 1 = b * h - a * k & cadjf 3 f 2 2 = a * e - b * d]].
Proof.
move=> a b c d e g h k l.
split; split; rewrite /cadjf /= !detf2 /bump /= -/a -/b -/c -/d -/e -/g -/h -/k -/l;
  rewrite -signr_odd /= ?expr0 ?expr1; mc_ring R.
Qed.
End Adj.

(** ** simulation: inv divides something that simulates the adjugate *)
Section SimInv.
Variables (K : scalar) (R : comRingType).
Variables (rel : elt K -> R -> Prop) (relx : xpr K -> R -> Prop).
Hypothesis S : sim rel relx.
Hypothesis Hneg : forall a x, relx a x -> upon (xneg a) (fun v => relx v (- x)).
Hypothesis Hm1 : relx (lit (-1)) (-1).

Ltac sim_val :=
  lazymatch goal with
  | |- relx (ld _) _ => eapply (sim_ld S); sim_val
  | |- rel (st _) _ => eapply (sim_st S); sim_val
  | |- _ => eassumption
  end.

Lemma mul_sub_sim a b c d x y z w : rel a x -> rel b y -> rel c z -> rel d w ->
  upon (mul_sub K a b c d) (fun v => rel v (x * y - z * w)).
Proof.
move=> Ha Hb Hc Hd; rewrite /mul_sub.
apply: upon_bind (sim_mul S (sim_ld S Ha) (sim_ld S Hb)) _ => p Hp.
apply: upon_bind (sim_mul S (sim_ld S Hc) (sim_ld S Hd)) _ => q Hq.
apply: upon_bind (sim_sub S Hp Hq) _ => r Hr.
apply: upon_ok; exact: (sim_st S).
Qed.

Lemma relM_fun n m (f : nat -> nat -> elt K) (x : nat -> nat -> R) (X : 'M[R]_(n, m)) :
  (forall (i : 'I_n) (j : 'I_m), x i j = X i j) ->
  (forall i j, (i < n)%N -> (j < m)%N -> rel (f i j) (x i j)) -> relM rel (mk n m f) X.
Proof. by move=> HX H; exists f; split=> // i j; rewrite -HX; apply: H. Qed.

Lemma sign_sim i j : relx (lit (cof_sign i j)) ((-1) ^+ (i + j)).
Proof.
rewrite /cof_sign mod2_odd; case: ifP => O.
- by rewrite -signr_odd (negbTE O) expr0; exact: sim_1 S.
- by move/negbFE: O => O; rewrite -signr_odd O expr1.
Qed.

Lemma inv_sim n A (X : 'M[R]_n) Y : (1 < n <= 4)%N -> relM rel A X -> inv K n A = Ok Y ->
  exists d N, [/\ det K n A = Ok d, relM rel N (\adj X) & op_div K n n N d = Ok Y].
Proof.
move=> Hn [f [-> Hf0]].
have Hf i j : (i < n)%N -> (j < n)%N -> rel (f i j) (mxf 0 X i j).
  by move=> Hi Hj; have := Hf0 (Ordinal Hi) (Ordinal Hj); rewrite -(mxf_ord 0).
have HX := cadjf_mx X. have HX2 := mxf_ord 0 X. move: (mxf 0 X) Hf HX HX2 => x {Hf0} Hf HX HX2.
case: n X Hn Hf HX HX2 => [|[|[|[|[|n]]]]] X // _ Hf HX HX2.
- have h00 := Hf 0%N 0%N isT isT; have h01 := Hf 0%N 1%N isT isT.
  have h10 := Hf 1%N 0%N isT isT; have h11 := Hf 1%N 1%N isT isT.
  have [e00 e01 e10 e11] := cadj2 x.
  rewrite -[inv K 2 _]/(inv2 K _) /inv2.
  move=> /(bind_inv _ _ _) [d [Ed]]. case: ifP => // _.
  move=> /(bind_inv _ _ _) [? [[<-]]] /(bind_inv _ _ _) [? [[<-]]] /(bind_inv _ _ _) [? [[<-]]] /(bind_inv _ _ _) [? [[<-]]].
  move=> /(bind_inv _ _ _) [p [/(Hneg (sim_ld S h01)) Hp]] /(bind_inv _ _ _) [q [/(Hneg (sim_ld S h10)) Hq]] E.
  exists d, [:: [:: f 1%N 1%N; st p]; [:: st q; f 0%N 0%N]]; split=> //.
  have -> : [:: [:: f 1%N 1%N; st p]; [:: st q; f 0%N 0%N]] =
    mk 2 2 (fun i j => nth (lite K 0) (nth [::] [:: [:: f 1%N 1%N; st p]; [:: st q; f 0%N 0%N]] i) j) by [].
  apply: (relM_fun HX) => -[|[|i]] [|[|j]] // _ _ /=; rewrite ?e00 ?e01 ?e10 ?e11 //; exact: (sim_st S).
- have h00 := Hf 0%N 0%N isT isT; have h01 := Hf 0%N 1%N isT isT; have h02 := Hf 0%N 2%N isT isT.
  have h10 := Hf 1%N 0%N isT isT; have h11 := Hf 1%N 1%N isT isT; have h12 := Hf 1%N 2%N isT isT.
  have h20 := Hf 2%N 0%N isT isT; have h21 := Hf 2%N 1%N isT isT; have h22 := Hf 2%N 2%N isT isT.
  have [[e00 e01 e02] [e10 e11 e12] [e20 e21 e22]] := cadj3 x.
  rewrite -[inv K 3 _]/(inv3 K _) /inv3.
  move=> /(bind_inv _ _ _) [d [Ed]]. case: ifP => // _.
  move=> /(bind_inv _ _ _) [? [[<-]]] /(bind_inv _ _ _) [? [[<-]]] /(bind_inv _ _ _) [? [[<-]]].
  move=> /(bind_inv _ _ _) [? [[<-]]] /(bind_inv _ _ _) [? [[<-]]] /(bind_inv _ _ _) [? [[<-]]].
  move=> /(bind_inv _ _ _) [? [[<-]]] /(bind_inv _ _ _) [? [[<-]]] /(bind_inv _ _ _) [? [[<-]]].
  move=> /(bind_inv _ _ _) [i00 [/(mul_sub_sim h11 h22 h12 h21) g00]].
  move=> /(bind_inv _ _ _) [i01 [/(mul_sub_sim h02 h21 h01 h22) g01]].
  move=> /(bind_inv _ _ _) [i02 [/(mul_sub_sim h01 h12 h02 h11) g02]].
  move=> /(bind_inv _ _ _) [i10 [/(mul_sub_sim h12 h20 h10 h22) g10]].
  move=> /(bind_inv _ _ _) [i11 [/(mul_sub_sim h00 h22 h02 h20) g11]].
  move=> /(bind_inv _ _ _) [i12 [/(mul_sub_sim h02 h10 h00 h12) g12]].
  move=> /(bind_inv _ _ _) [i20 [/(mul_sub_sim h10 h21 h11 h20) g20]].
  move=> /(bind_inv _ _ _) [i21 [/(mul_sub_sim h01 h20 h00 h21) g21]].
  move=> /(bind_inv _ _ _) [i22 [/(mul_sub_sim h00 h11 h01 h10) g22]] E.
  set N := [:: [:: i00; i01; i02]; [:: i10; i11; i12]; [:: i20; i21; i22]].
  exists d, N; split=> //.
  have -> : N = mk 3 3 (fun i j => nth (lite K 0) (nth [::] N i) j) by [].
  apply: (relM_fun HX) => -[|[|[|i]]] [|[|[|j]]] // _ _ /=;
    by rewrite ?e00 ?e01 ?e02 ?e10 ?e11 ?e12 ?e20 ?e21 ?e22.
- rewrite -[inv K 4]/(inv_general K 4) inv_general_tab.
  move=> /(bind_inv _ _ _) [d [Ed]] /(bind_inv _ _ _) [C [EC]] /(bind_inv _ _ _) [N [EN E]].
  exists d, N; split=> //.
  have RC : relM rel C (\matrix_(i < 4, j < 4) cofactor X i j).
  { apply: (tabM_sim _ EC) => i j. rewrite mxE /cofactor.
    apply: upon_bind (det_sim S (X := row' i (col' j X)) _ _) _ => //.
    - apply: (relM_fun (x := fun a b => x (bump i a) (bump j b))).
      + by move=> a b; rewrite !mxE; exact: (HX2 (lift i a) (lift j b)).
      + move=> a b Ha Hb; rewrite !skip_bump.
        have Bd p c : (c < 3)%N -> (bump p c < 4)%N by rewrite /bump; case: (p <= c)%N => /= ; lia.
        by apply: Hf; apply: Bd.
    - move=> v Hv; apply: upon_bind (sim_mul S (sign_sim i j) (sim_ld S Hv)) _ => w Hw.
      apply: upon_ok; exact: (sim_st S). }
  case: RC EN => g [-> Hg]; rewrite trans_mk => -[<-].
  exists (fun i j => g j i); split=> // i j. by have := Hg j i; rewrite !mxE.
Qed.
End SimInv.

(** ** division of a matrix of integers *)
Lemma idiv_inv t a b q : (0 < width t)%Z -> idiv (promote t) a b = Ok q ->
  b <> 0%Z /\ iconv t q = iconv t (Z.quot a b).
Proof.
move=> Hw; rewrite /idiv; case: Z.eqb_spec => // Hb E; split=> //.
by apply: iconv_cong; exact: (iarith_eqm E).
Qed.

Section AnyType.
Variable t : ityp.
Hypothesis Hw : (0 < width t)%Z.
Notation K := (intS t).

Lemma lit0_any : iconv (promote t) 0 = 0%Z.
Proof.
have Hp : (0 < width (promote t))%Z by rewrite /promote; case: ifP.
by apply: iconv_id => //; exact: in_range0.
Qed.

Lemma op_div_any n m (N : 'M[Z]_(n, m)) (d : Z) Y : op_div K n m (mxrows N) d = Ok Y ->
  d <> 0%Z /\ Y = mxrows (\matrix_(i, j) iconv t (Z.quot (N i j) d)).
Proof.
rewrite (mxrowsE 0%Z N) /op_div div_tab [xeq _ _]/= lit0_any. case: Z.eqb_spec => // D E.
split=> //. case: (tabM_inv 0%Z _ _ _ _ E) => g [-> Hg].
rewrite mk_mxrows; congr mxrows; apply/matrixP => i j; rewrite !mxE.
have := Hg i j (ssrnat.ltP (ltn_ord i)) (ssrnat.ltP (ltn_ord j)).
rewrite mxf_ord. move=> /(bind_inv _ _ _) [q [E1 [<-]]]. exact: (proj2 (idiv_inv Hw E1)).
Qed.
End AnyType.

Lemma iconv1 t : (1 < width t)%Z -> iconv t 1 = 1%Z.
Proof.
move=> Hw; have Hw0 : (0 < width t)%Z by lia.
apply: iconv_id => //; apply/in_rangeP; rewrite /imin /imax.
have := pow2_half Hw0; have : (2 ^ 1 <= 2 ^ (width t - 1))%Z by apply: Z.pow_le_mono_r; lia.
by case: (sgn t); lia.
Qed.

(** ** inv on any integer type, sizes 1 to 4 *)
Section InvAny.
Variable t : ityp.
Hypothesis Hw : (1 < width t)%Z.
Notation K := (intS t).
Let Hw0 : (0 < width t)%Z. Proof. lia. Qed.

Lemma neg_cong a x : relxc t a x -> upon (@xneg K a) (fun v => relxc t v (- x)).
Proof.
move=> Ha v /iarith_eqm; rewrite /relxc /Zdiv.eqm => ->.
change (((0 - a) mod 2 ^ width t) = ((0 - x) mod 2 ^ width t))%Z.
by rewrite Zminus_mod Ha -Zminus_mod.
Qed.

Lemma adj_mx11 (A : 'M[Z]_1) : \adj A = 1%:M.
Proof.
apply/matrixP => i j. rewrite !mxE /cofactor det_mx00 mulr1.
by rewrite (ord1 i) (ord1 j) /= expr0.
Qed.

Lemma inv_any n (A : 'M[Z]_n) Y : (0 < n <= 4)%N -> mx_in t A -> inv K n (mxrows A) = Ok Y ->
  exists d : Z, [/\ det K n (mxrows A) = Ok d, d <> 0%Z &
    Y = mxrows (\matrix_(i, j) iconv t (Z.quot (iconv t (\adj A i j)) d))].
Proof.
case: n A => // -[|n] A Hn HA.
- rewrite (mxrowsE 0%Z A) -[inv K 1 _]/(inv1 K _) /inv1 => /(bind_inv _ _ _) [d [Ed]].
  move=> /(bind_inv _ _ _) [q [/(idiv_inv Hw0) [D Eq] [<-]]].
  exists d; split=> //. rewrite /= Eq.
  rewrite (mxrowsE 0%Z) /mk /=. rewrite -[0%N]/(nat_of_ord (ord0 : 'I_1)) mxf_ord mxE adj_mx11 mxE eqxx.
  have Hp : (1 < width (promote t))%Z by rewrite /promote; case: ifP => //= _; lia.
  by rewrite (iconv1 Hp) [true%:R](_ : _ = 1%Z) // (iconv1 Hw).
- have {}Hn : (1 < n.+2 <= 4)%N by lia.
  move=> E; have [d [N [Ed RN EY]]] := inv_sim (sim_cong Hw0) neg_cong (lit_eqm Hw0 _) Hn (relM_in Hw0 HA) E.
  move: EY; rewrite (relM_out RN) => /(op_div_any Hw0) [D ->]. exists d; split=> //.
  by congr mxrows; apply/matrixP => i j; rewrite !mxE.
Qed.
End InvAny.

(** ** signed types of at least 32 bits *)
Section InvSigned.
Variable t : ityp.
Hypothesis Hs : sgn t = true.
Hypothesis Hw : (32 <= width t)%Z.
Notation K := (intS t).
Let Hw0 : (0 < width t)%Z. Proof. lia. Qed.
Let S0 : @sim K _ (relz t) (relz t). Proof. exact: sim_signed. Qed.

Lemma neg_z a x : relz t a x -> upon (@xneg K a) (fun v => relz t v (- x)).
Proof.
have Ep : promote t = t by apply: promote_wide.
by move=> [-> _] v /=; rewrite Ep /iarith Hs; case: ifP => // H [<-].
Qed.

Lemma m1_z : relz t (@lit K (-1)) (-1).
Proof.
have Hbig : (2 ^ 31 <= 2 ^ (width t - 1))%Z by apply: Z.pow_le_mono_r; lia.
have H : in_range t (-1) by apply/in_rangeP; rewrite /imin /imax Hs; lia.
by split=> //; rewrite /= promote_wide // iconv_id.
Qed.

Lemma inv_signed n (A : 'M[Z]_n) Y : (0 < n <= 4)%N -> mx_in t A -> inv K n (mxrows A) = Ok Y ->
  exists d : Z, [/\ det K n (mxrows A) = Ok d, d <> 0%Z &
    Y = mxrows (\matrix_(i, j) Z.quot (\adj A i j) d)].
Proof.
case: n A => // -[|n] A Hn HA E.
- have [d [Ed D ->]] := inv_any (t := t) ltac:(lia) Hn HA E. exists d; split=> //.
  rewrite adj_mx11; congr mxrows; apply/matrixP => i j; rewrite !mxE (ord1 i) (ord1 j) eqxx.
  rewrite [1%:R](_ : _ = 1%Z) // iconv1; last lia.
  have Hbig : (2 ^ 31 <= 2 ^ (width t - 1))%Z by apply: Z.pow_le_mono_r; lia.
  apply: iconv_id => //; apply/in_rangeP; rewrite /imin /imax Hs.
  have B : (Z.abs (Z.quot 1 d) <= 1)%Z.
  { rewrite -Z.quot_abs //. apply: Z.quot_le_upper_bound; lia. }
  lia.
- have {}Hn : (1 < n.+2 <= 4)%N by lia.
  have [d [N [Ed RN EY]]] := inv_sim S0 neg_z m1_z Hn (relM_zin HA) E.
  have [EN IN] := relM_zout RN. move: EY; rewrite EN => EY. exists d; split=> //; have := EY.
  + by move=> /(op_div_any Hw0) [].
  rewrite (mxrowsE 0%Z (\adj A)) /op_div div_tab; case: ifP => // _ ET.
  case: (tabM_inv 0%Z _ _ _ _ ET) => g [-> Hg].
  rewrite mk_mxrows; congr mxrows; apply/matrixP => i j; rewrite !mxE.
  have := Hg i j (ssrnat.ltP (ltn_ord i)) (ssrnat.ltP (ltn_ord j)).
  rewrite mxf_ord mxE. move=> /(bind_inv _ _ _) [q [E1 [<-]]].
  have [_ [Eq R]] := IntFactor.div_int _ Hs Hw _ _ _ E1. by rewrite Eq in R *; apply: iconv_id.
Qed.
End InvSigned.
