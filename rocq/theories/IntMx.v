(** * Matrices of C++ integers against exact integer matrices *)

From Coq Require Import ZArith List Lia.
From mathcomp Require Import all_ssreflect all_algebra.
From mathcomp Require Import zify ssrZ.
From Verif Require Import Base Scalar Model CInt Spec Loops Struct Conv Exact ExactLemmas Alg Det ConvExact Pow Sim.

Set Implicit Arguments.
Unset Strict Implicit.
Unset Printing Implicit Defensive.

Import GRing.Theory.
Local Open Scope ring_scope.
Delimit Scope Z_scope with Z.

(** all elements are values of type [t] *)
Definition mx_in (t : ityp) n m (A : 'M[Z]_(n, m)) : Prop := forall i j, in_range t (A i j).

Lemma in_rangeP t z : reflect (imin t <= z <= imax t)%Z (in_range t z).
Proof. by rewrite /in_range; apply: (iffP idP); lia. Qed.

Lemma pow2_gt0 w : (0 <= w)%Z -> (0 < 2 ^ w)%Z.
Proof. by move=> H; apply: Z.pow_pos_nonneg. Qed.

Lemma pow2_half w : (0 < w)%Z -> (2 ^ w = 2 * 2 ^ (w - 1))%Z.
Proof. by move=> H; rewrite -Z.pow_succ_r; [congr (2 ^ _)%Z|]; lia. Qed.

Section Conv.
Variable t : ityp.
Hypothesis Hw : (0 < width t)%Z.
Notation M := (2 ^ width t)%Z.

Lemma iconv_eqm a : Zdiv.eqm M (iconv t a) a.
Proof.
have HM := pow2_gt0 (Z.lt_le_incl _ _ Hw).
rewrite /Zdiv.eqm /iconv; case: (sgn t); last by rewrite Zmod_mod.
by rewrite Zminus_mod_idemp_l; congr Z.modulo; lia.
Qed.

Lemma iconv_cong a b : Zdiv.eqm M a b -> iconv t a = iconv t b.
Proof.
rewrite /Zdiv.eqm /iconv => E; case: (sgn t) => //; congr (_ - _)%Z.
by rewrite -Zplus_mod_idemp_l E Zplus_mod_idemp_l.
Qed.

Lemma iconv_id a : in_range t a -> iconv t a = a.
Proof.
move=> /in_rangeP; rewrite /imin /imax /iconv; have := pow2_half Hw.
move: (2 ^ (width t - 1))%Z => h E; rewrite E; case: (sgn t) => H; rewrite Z.mod_small; lia.
Qed.

Lemma iconv_range a : in_range t (iconv t a).
Proof.
apply/in_rangeP; rewrite /imin /imax /iconv; have := pow2_half Hw.
have := pow2_gt0 (Z.lt_le_incl _ _ Hw); move: (2 ^ (width t - 1))%Z => h HM E.
case: (sgn t).
- have := Z.mod_pos_bound (a + h)%Z M HM; lia.
- have := Z.mod_pos_bound a M HM; lia.
Qed.

Lemma iarith_eqm z v : iarith (promote t) z = Ok v -> Zdiv.eqm M v z.
Proof.
rewrite /promote; case: Z.ltb_spec => Hlt; rewrite /iarith /=.
  by case: ifP => // _ [->].
case: (sgn t); first by case: ifP => // _ [->].
by move=> [<-]; rewrite /Zdiv.eqm Zmod_mod.
Qed.

Lemma lit_eqm z : Zdiv.eqm M (iconv (promote t) z) z.
Proof.
rewrite /promote; case: Z.ltb_spec => Hlt; last exact: iconv_eqm.
have Hd : (M | 2 ^ 32)%Z by exists (2 ^ (32 - width t))%Z; rewrite -Z.pow_add_r; [congr (2 ^ _)%Z|..]; lia.
have HM := pow2_gt0 (Z.lt_le_incl _ _ Hw).
have E : Zdiv.eqm (2 ^ 32) (iconv int32 z) z.
  by rewrite /Zdiv.eqm /iconv /= Zminus_mod_idemp_l; congr Z.modulo; lia.
by rewrite /Zdiv.eqm (Znumtheory.Zmod_div_mod _ _ _ HM _ Hd) // E -(Znumtheory.Zmod_div_mod _ _ _ HM _ Hd).
Qed.

(** ** every integer type: the result, if there is one, is the exact result
    converted to the type *)
Definition relc (a x : Z) : Prop := a = iconv t x.
Definition relxc (v x : Z) : Prop := Zdiv.eqm M v x.

Lemma sim_cong : @sim (intS t) _ relc relxc.
Proof.
split.
- move=> a x ->; exact: iconv_eqm.
- move=> v x; exact: iconv_cong.
- exact: lit_eqm.
- exact: lit_eqm.
- move=> a x b y Ha Hb v /iarith_eqm; rewrite /relxc /Zdiv.eqm => ->.
  by rewrite Zplus_mod Ha Hb -Zplus_mod.
- move=> a x b y Ha Hb v /iarith_eqm; rewrite /relxc /Zdiv.eqm => ->.
  by rewrite Zminus_mod Ha Hb -Zminus_mod.
- move=> a x b y Ha Hb v /iarith_eqm; rewrite /relxc /Zdiv.eqm => ->.
  by rewrite Zmult_mod Ha Hb -Zmult_mod.
Qed.

Lemma relM_in n m (A : 'M[Z]_(n, m)) : mx_in t A -> @relM (intS t) _ relc n m (mxrows A) A.
Proof.
move=> H; exists (mxf Z0 A); split; first exact: mxrowsE.
by move=> i j; rewrite mxf_ord /relc iconv_id.
Qed.

Lemma relM_out n m C (X : 'M[Z]_(n, m)) : @relM (intS t) _ relc n m C X ->
  C = mxrows (map_mx (iconv t) X).
Proof. by move=> [f [-> Hf]]; symmetry; apply: mxrows_mk => i j; rewrite mxE Hf. Qed.

(** ** signed types of at least 32 bits: the exact result itself *)
Definition relz (a x : Z) : Prop := a = x /\ in_range t x.

Lemma sim_signed : sgn t = true -> (32 <= width t)%Z -> @sim (intS t) _ relz relz.
Proof.
move=> Hs Hw32; have Ep : promote t = t by rewrite /promote; case: Z.ltb_spec => //; lia.
have Har z v : iarith t z = Ok v -> relz v z.
  by rewrite /iarith Hs; case: ifP => // H [<-].
have Hl z : in_range t z -> relz (iconv (promote t) z) z.
  by move=> H; rewrite Ep iconv_id.
have Hbig : (2 ^ 31 <= 2 ^ (width t - 1))%Z by apply: Z.pow_le_mono_r; lia.
split=> //.
- by move=> v x [-> H]; split=> //; exact: iconv_id.
- by apply: Hl; apply/in_rangeP; rewrite /imin /imax Hs; lia.
- by apply: Hl; apply/in_rangeP; rewrite /imin /imax Hs; lia.
- by move=> a x b y [-> _] [-> _] v /=; rewrite Ep => /Har.
- by move=> a x b y [-> _] [-> _] v /=; rewrite Ep => /Har.
- by move=> a x b y [-> _] [-> _] v /=; rewrite Ep => /Har.
Qed.

Lemma relM_zin n m (A : 'M[Z]_(n, m)) : mx_in t A -> @relM (intS t) _ relz n m (mxrows A) A.
Proof.
move=> H; exists (mxf Z0 A); split; first exact: mxrowsE.
by move=> i j; rewrite mxf_ord.
Qed.

Lemma relM_zout n m C (X : 'M[Z]_(n, m)) : @relM (intS t) _ relz n m C X -> C = mxrows X /\ mx_in t X.
Proof.
move=> [f [-> Hf]]; split; first by symmetry; apply: mxrows_mk => i j; case: (Hf i j).
by move=> i j; case: (Hf i j).
Qed.
End Conv.

(** ** operations that always return make functions that always return *)
Section Total.
Variable K : scalar.
Hypothesis Hadd : forall a b : xpr K, returns (xadd a b).
Hypothesis Hsub : forall a b : xpr K, returns (xsub a b).
Hypothesis Hmul : forall a b : xpr K, returns (xmul a b).

Lemma returns_bind A B (o : outcome A) (k : A -> outcome B) :
  returns o -> (forall a, returns (k a)) -> returns (bind o k).
Proof. by move=> [a ->] H; exact: (H a). Qed.

Lemma returns_ok A (a : A) : returns (Ok a). Proof. by exists a. Qed.

Lemma returns_tabM n m (f : nat -> nat -> outcome (elt K)) :
  (forall i j, (i < n)%N -> (j < m)%N -> returns (f i j)) -> returns (tabM n m f).
Proof.
move=> H; pose g i j := match f i j with Ok a => a | _ => lite K 0 end.
exists (mk n m g); apply: tabM_ok => i j /ltP Hi /ltP Hj; rewrite /g.
by case: (H i j Hi Hj) => a ->.
Qed.

Ltac ret := repeat first [apply: returns_ok | apply: returns_bind => [|?] | exact: Hadd | exact: Hsub | exact: Hmul].

Variables (n m p : nat).
Implicit Types f g : nat -> nat -> elt K.

Lemma returns_sum f g : returns (sum K n m (mk n m f) (mk n m g)).
Proof. by rewrite sum_tab; apply: returns_tabM => i j _ _; ret. Qed.
Lemma returns_sub f g : returns (sub K n m (mk n m f) (mk n m g)).
Proof. by rewrite sub_tab; apply: returns_tabM => i j _ _; ret. Qed.
Lemma returns_sum_scalar f s : returns (sum_scalar K n m (mk n m f) s).
Proof. by rewrite sum_scalar_tab; apply: returns_tabM => i j _ _; ret. Qed.
Lemma returns_sub_scalar f s : returns (sub_scalar K n m (mk n m f) s).
Proof. by rewrite sub_scalar_tab; apply: returns_tabM => i j _ _; ret. Qed.
Lemma returns_mult_scalar f s : returns (mult_scalar K n m (mk n m f) s).
Proof. by rewrite mult_scalar_tab; apply: returns_tabM => i j _ _; ret. Qed.

Lemma returns_for A lo hi (body : nat -> A -> outcome A) s : (lo <= hi)%N ->
  (forall k s, returns (body k s)) -> returns (for_ lo hi body s).
Proof.
move=> /leP Hle H; case: (@for_inv _ (fun _ _ => True) lo hi body s Hle I).
  by move=> k c _ _; case: (H k c) => c' ->; exists c'.
by move=> s' [-> _]; exists s'.
Qed.

Lemma returns_dot a b : returns (dot K m a b).
Proof. by apply: returns_for => // k c; ret. Qed.
Lemma returns_mult f g : returns (mult K n m p (mk n m f) (mk m p g)).
Proof. by rewrite mult_tab; apply: returns_tabM => i j _ _; exact: returns_dot. Qed.

Lemma returns_corr f k x y : returns (corr K n m f k x y).
Proof.
have st c ab : returns (corr_step K n m f k x y c ab).
  by rewrite /corr_step; case: (inside _ _ _ _); ret.
by rewrite corr_unfold; repeat (apply: returns_bind => [|?]; first exact: st).
Qed.
Lemma returns_conv2 f k : (Z.of_nat n <= 2 ^ 31)%Z -> (Z.of_nat m <= 2 ^ 31)%Z ->
  returns (conv2 K n m (mk n m f) (mk 3 3 k)).
Proof. by move=> Hn Hm; rewrite conv2_tab //; apply: returns_tabM => i j _ _; exact: returns_corr. Qed.
Lemma returns_conv2_full f k : (Z.of_nat n <= 2 ^ 31)%Z -> (Z.of_nat m <= 2 ^ 31)%Z ->
  returns (conv2_full K n m (mk n m f) (mk 3 3 k)).
Proof. by move=> Hn Hm; rewrite conv2_full_tab //; apply: returns_tabM => i j _ _; exact: returns_corr. Qed.

Lemma returns_strassen f g : returns (strassen K (mk 2 2 f) (mk 2 2 g)).
Proof.
rewrite /strassen; cbn -[returns ld st lite xadd xsub xmul].
ret.
Qed.

Lemma returns_det f : (0 < n <= 3)%N -> returns (det K n (mk n n f)).
Proof.
case: n => [|[|[|[|k]]]] // _.
- exact: returns_ok.
- cbn -[returns ld st lite xadd xsub xmul]; ret.
- cbn -[returns ld st lite xadd xsub xmul]; ret.
Qed.
End Total.

Section TotalPow.
Variable K : scalar.
Hypothesis Hadd : forall a b : xpr K, returns (xadd a b).
Hypothesis Hmul : forall a b : xpr K, returns (xmul a b).

(** a non-negative exponent of at most [max w 32] bits *)
Lemma returns_pow_fuel fuel n w f q : (Z.of_nat q < 2 ^ Z.of_nat fuel)%Z ->
  exists g, pow_fuel K fuel.+1 n w (mk n n f) (Z.of_nat q) = Ok (mk n n g).
Proof.
elim: fuel w q => [|fuel IH] w q Hq.
  have -> : q = 0%N by move: Hq => /=; lia.
  rewrite [pow_fuel _ _ _ _ _ _]/= eye1_mk.
  by eexists.
rewrite [pow_fuel _ _ _ _ _ _]/=.
case: q Hq => [|[|q]] Hq.
- by rewrite /= eye1_mk; eexists.
- by exists f.
move: (q.+2) (isT : (1 < q.+2)%N) Hq => {}q Hq1 Hq.
have -> : (Z.of_nat q =? 0)%Z = false by lia.
have -> : (Z.of_nat q =? 1)%Z = false by lia.
have -> : (Z.of_nat q <? 0)%Z = false by lia.
rewrite [bind (Ok _) _]/= quot2 rem2.
case: (IH (Z.max w 32) q./2).
  by move: Hq; rewrite Nat2Z.inj_succ Z.pow_succ_r; lia.
move=> g; rewrite [pow_fuel _ fuel.+1 _ _ _ _]/= => -> /=; rewrite /op_mult.
have mm a b : exists c, mult K n n n (mk n n a) (mk n n b) = Ok (mk n n c).
  case: (returns_mult Hadd Hmul n n n a b) => C; rewrite mult_tab => E.
  by case: (tabM_inv (lite K 0) _ _ _ _ E) => c [Ec _]; exists c; rewrite -Ec E.
case: (odd q) => /=; last exact: mm.
by case: (mm g g) => c -> /=; exact: mm.
Qed.

Lemma returns_pow n w f q : (Z.of_nat q < 2 ^ (Z.max w 32))%Z ->
  returns (pow K n w (mk n n f) (Z.of_nat q)).
Proof.
move=> Hq; rewrite /pow.
have -> : (Z.to_nat (Z.max w 32) + 3 = (Z.to_nat (Z.max w 32) + 2).+1)%coq_nat by lia.
case: (@returns_pow_fuel (Z.to_nat (Z.max w 32) + 2)%coq_nat n w f q); last by move=> g ->; eexists.
apply: Z.lt_le_trans Hq _; apply: Z.pow_le_mono_r; lia.
Qed.
End TotalPow.
