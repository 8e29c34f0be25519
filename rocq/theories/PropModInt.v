(** * Property C107: matrices of residues *)

From Coq Require Import ZArith Zpow_facts List Lia.
From mathcomp Require Import all_ssreflect all_algebra all_fingroup.
From mathcomp Require Import zify ssrZ.
From Verif Require Import Base Scalar Model Spec Loops Struct Elim Alg Exact ExactLemmas Det Inv LU Pow StatExact
  ConvExact Param Preds BoundedInt StrictExact PropAlg PropIval Dual ModInt.

Set Implicit Arguments.
Unset Strict Implicit.
Unset Printing Implicit Defensive.

Import GRing.Theory.
Local Open Scope ring_scope.
Delimit Scope Z_scope with Z.
Local Notation ltP := ssrnat.ltP (only parsing).
Local Notation leP := ssrnat.leP (only parsing).

(** ** Functions that do not divide: the residues of the exact integer result, for every modulus *)
Section Any.
Variable p : Z.
Hypothesis Hp : (0 < p)%Z.
Notation M := (modS p).
Notation K := (@exactS [unitRingType of Z] (fun _ _ => false) id (@Ok Z)).
Notation R := (resid p).
Notation rm := (fun (z : elt K) (a : elt M) => a = (z mod p)%Z).
Let Rld (a : elt K) (x : elt M) : rm a x -> rm (ld a) (ld x). Proof. by []. Qed.
Let Rst (a : xpr K) (x : xpr M) : rm a x -> rm (st a) (st x). Proof. by []. Qed.
Let Rlit z : rm (@lit K z) (@lit M z). Proof. exact: rm_lit. Qed.
Let Radd a x b y : rm a x -> rm b y -> refines rm (@xadd K a b) (@xadd M x y). Proof. exact: rm_add. Qed.
Let Rsub a x b y : rm a x -> rm b y -> refines rm (@xsub K a b) (@xsub M x y). Proof. exact: rm_sub. Qed.
Let Rmul a x b y : rm a x -> rm b y -> refines rm (@xmul K a b) (@xmul M x y). Proof. exact: rm_mul. Qed.
Let Rrel n m (A : 'M[Z]_(n, m)) : mrel rm (mxrows A) (R A). Proof. exact: (proj2 (@resid_rel p (fun _ _ => false) id (@Ok Z) n m A _) erefl). Qed.
Let Rrun n m (B : 'M[Z]_(n, m)) o : refines (mrel rm) (Ok (mxrows B)) o -> o = Ok (R B).
Proof. exact: (@resid_run p (fun _ _ => false) id (@Ok Z)). Qed.

Theorem c107_sum n m (A B : 'M[Z]_(n, m)) : sum M n m (R A) (R B) = Ok (R (A + B)).
Proof.
apply: Rrun; rewrite -(sum_mx (fun _ _ => false) id (@Ok Z)).
exact: (@sum_ref K M rm rm Rld Rst (Rlit 0) Radd).
Qed.
Theorem c107_sub n m (A B : 'M[Z]_(n, m)) : sub M n m (R A) (R B) = Ok (R (A - B)).
Proof.
apply: Rrun; rewrite -(sub_mx (fun _ _ => false) id (@Ok Z)).
exact: (@sub_ref K M rm rm Rld Rst (Rlit 0) Rsub).
Qed.
Theorem c107_mult n m q (A : 'M[Z]_(n, m)) (B : 'M[Z]_(m, q)) : mult M n m q (R A) (R B) = Ok (R (A *m B)).
Proof.
apply: Rrun; rewrite -(mult_mx (fun _ _ => false) id (@Ok Z)).
exact: (@mult_ref K M rm rm Rld Rst (Rlit 0) Radd Rmul).
Qed.
(** through the rational numbers: [pow_mx] is about fields *)
Section Rat.
Notation Q := (@exactS [unitRingType of rat] (fun _ _ => false) id (@Ok rat)).
Notation iq := (ring_of_Z [ringType of rat]).
Let rq (x : rat) (a : Z) := exists2 z, x = iq z & a = (z mod p)%Z.
Let Qld (x : elt Q) (a : elt M) : rq x a -> rq (ld x) (ld a). Proof. by []. Qed.
Let Qst (x : xpr Q) (a : xpr M) : rq x a -> rq (st x) (st a). Proof. by []. Qed.
Let Qlit z : rq (@lit Q z) (@lit M z). Proof. by exists z. Qed.
Let Qadd x a y b : rq x a -> rq y b -> refines rq (@xadd Q x y) (@xadd M a b).
Proof.
move=> [u -> ->] [v -> ->]; apply: ref_ok; exists (u + v)%Z; first by rewrite ring_of_ZD.
by rewrite -Z.add_mod //; lia.
Qed.
Let Qmul x a y b : rq x a -> rq y b -> refines rq (@xmul Q x y) (@xmul M a b).
Proof.
move=> [u -> ->] [v -> ->]; apply: ref_ok; exists (u * v)%Z; first by rewrite ring_of_ZM.
by rewrite -Zmult_mod.
Qed.
Let Qsub x a y b : rq x a -> rq y b -> refines rq (@xsub Q x y) (@xsub M a b).
Proof.
move=> [u -> ->] [v -> ->]; apply: ref_ok; exists (u - v)%Z; first by rewrite ring_of_ZB.
by rewrite -Zminus_mod.
Qed.
Let iq_rmorph : rmorphism iq.
Proof.
split; first by move=> a b; rewrite -[a - b]/(a - b)%Z ring_of_ZB.
by split=> [a b|]; [rewrite -[a * b]/(a * b)%Z ring_of_ZM|rewrite ring_of_ZE].
Qed.
Let iq_pow n (A : 'M[Z]_n) q : mxpow (map_mx iq A) q = map_mx iq (mxpow A q).
Proof.
elim: q => [|q IH] /=; first by rewrite (map_mx1 (RMorphism iq_rmorph)).
by rewrite (map_mxM (RMorphism iq_rmorph)) /= IH.
Qed.
Let Qrel n m (A : 'M[Z]_(n, m)) : mrel rq (mxrows (map_mx iq A)) (R A).
Proof.
rewrite /resid (mxrowsE 0 (map_mx iq A)) (mxrowsE 0%Z (map_mx _ A)); apply: mrel_mk => i j Hi Hj.
rewrite -[i]/(val (Ordinal Hi)) -[j]/(val (Ordinal Hj)) !mxf_ord !mxE; by eexists.
Qed.

Theorem c107_det_small n (A : 'M[Z]_n) : (0 < n <= 3)%N -> det M n (R A) = Ok (\det A mod p)%Z.
Proof.
move=> Hn; have Hn' : (Peano.lt 0 n /\ Peano.le n 3) by lia.
have := @det_small_ref Q M rq rq Qld Qst Qadd Qmul Qsub n _ _ Hn' (Qrel A).
rewrite det_mx (det_map_mx (RMorphism iq_rmorph)) => -[d [-> [z /= E ->]]].
by rewrite (ring_of_Z_inj E).
Qed.
Theorem c107_pow n w (A : 'M[Z]_n) q : (1 <= w)%Z -> (Z.of_nat q < 2 ^ (w - 1))%Z ->
  pow M n w (R A) (Z.of_nat q) = Ok (R (mxpow A q)).
Proof.
move=> Hw Hq; have := @pow_ref Q M rq rq Qld Qst (Qlit 0) Qadd Qmul (Qlit 1) n w _ _ (Z.of_nat q) (Qrel A) ltac:(lia).
rewrite pow_mx // iq_pow => -[X [-> H]]; congr Ok.
have Hs : shape n n X by exact: (mrel_shape (shape_mxrows 0 (map_mx iq (mxpow A q))) (proj1 (mrel_flip rq _ _) H)).
have [Z [E _]] := every_array 0%Z Hs; rewrite E; congr mxrows; apply/matrixP => i j; rewrite mxE.
have := ref_aget rq _ _ i j H.
rewrite E (mxrowsE 0 (map_mx iq _)) (mxrowsE 0%Z Z) !aget_mk; try exact/ltP.
by move=> [b [[<-]]]; rewrite !mxf_ord mxE => -[z /ring_of_Z_inj -> ->].
Qed.
End Rat.
Theorem c107_conv2 n m (A : 'M[Z]_(n, m)) (k : 'M[Z]_3) :
  (Z.of_nat n <= 2 ^ 31)%Z -> (Z.of_nat m <= 2 ^ 31)%Z ->
  conv2 M n m (R A) (R k) = Ok (R (octave_same A (rot180 k))).
Proof.
move=> Hn Hm; apply: Rrun; rewrite -(conv2_mx (fun _ _ => false) id (@Ok Z) Hn Hm).
exact: (@conv2_ref K M rm rm Rld Rst (Rlit 0) Radd Rmul).
Qed.
(** the mean: the sum times the [p - 2]nd power of the number of elements *)
Definition meanS : scalar :=
  {| elt := Z; xpr := Z; epsT := Z; ld := id; st := id; lit := id;
     xadd := fun a b => Ok (a + b); xsub := fun a b => Ok (a - b); xmul := fun a b => Ok (a * b);
     xdiv := fun a b => Ok a; xneg := fun a => Ok (- a); xeq := Z.eqb; xlt := Z.ltb;
     xabs := fun a => Ok a; gteps := fun a e => (e <? a)%Z; xsqrt := fun a => Ok a;
     divsz := fun a n => Ok (a * n ^ (p - 2))%Z |}.

Lemma mean_fermat n m (A : 'M[Z]_(n, m)) : (Z.of_nat (n * m) < 2 ^ 64)%Z ->
  mean M n m (R A) = Ok (((\sum_i \sum_j A i j) * Z.of_nat (n * m) ^ (p - 2)) mod p)%Z.
Proof.
move=> Hs; pose rq := (fun (z : elt meanS) (a : elt M) => a = (z mod p)%Z).
have := @mean_ref meanS M rq rq (fun a x H => H) (fun a x H => H) erefl _ _ n m (mxrows A) (R A) (Rrel A).
have -> : mean meanS n m (mxrows A) = Ok ((\sum_i \sum_j A i j) * Z.of_nat (n * m) ^ (p - 2))%Z.
  by rewrite /mean (@acc2 _ n m A id (fun a r => Ok (r + a))) // [bind _ _]/= size_mulE.
case=> [a x b y|a x k ->|_ [-> ->]] //; first exact: Radd.
apply: ref_ok; rewrite /rq /fermat_div Zmult_mod_idemp_l.
by rewrite Zmult_mod -Zpower_mod; [rewrite -Zmult_mod|lia].
Qed.
End Any.

(** ** A prime modulus: det, inv, lu and division are those of the field of residues *)
Section Prime.
Variable p : nat.
Hypothesis Hp : prime p.
Notation P := (Z.of_nat p).
Notation F := [fieldType of 'F_p].
Notation iz := (ring_of_Z F).
Notation M := (modS P).
Notation K := (@exactS F (fun _ _ => false) id (@Ok F)).
Notation R := (resid P).
Notation rp := (fun (x : elt K) (a : elt M) => x = iz a /\ (0 <= a < P)%Z).
Let Rld (a : elt K) (x : elt M) : rp a x -> rp (ld a) (ld x). Proof. by []. Qed.
Let Rst (a : xpr K) (x : xpr M) : rp a x -> rp (st a) (st x). Proof. by []. Qed.
Let Rlit z : rp (@lit K z) (@lit M z). Proof. exact: rp_lit. Qed.
Let Radd a x b y : rp a x -> rp b y -> refines rp (@xadd K a b) (@xadd M x y). Proof. exact: rp_add. Qed.
Let Rsub a x b y : rp a x -> rp b y -> refines rp (@xsub K a b) (@xsub M x y). Proof. exact: rp_sub. Qed.
Let Rmul a x b y : rp a x -> rp b y -> refines rp (@xmul K a b) (@xmul M x y). Proof. exact: rp_mul. Qed.
Let Rneg a x : rp a x -> refines rp (@xneg K a) (@xneg M x). Proof. exact: rp_neg. Qed.
Let Rdiv a x b y : rp a x -> rp b y -> refines rp (@xdiv K a b) (@xdiv M x y). Proof. exact: rp_div. Qed.
Let Req a x b y : rp a x -> rp b y -> @xeq K a b = @xeq M x y. Proof. exact: rp_eq. Qed.
Let Rrel n m (A : 'M[Z]_(n, m)) : mrel rp (mxrows (map_mx iz A)) (R A). Proof. exact: (proj2 (@resid_relp p Hp (fun _ _ => false) id (@Ok F) n m A _) erefl). Qed.
Let Rrun n m (B : 'M[F]_(n, m)) o : refines (mrel rp) (Ok (mxrows B)) o -> o = Ok (R (map_mx (@rep p) B)).
Proof. exact: resid_runp. Qed.
Lemma prime_pos : (0 < P)%Z. Proof. by have := P2 Hp; lia. Qed.
Let HP := prime_pos.

Theorem c107_det n (A : 'M[Z]_n) : det M n (R A) = Ok (\det A mod P)%Z.
Proof.
have := @det_ref K M rp rp Rld Rst (Rlit 0) (Rlit 1) (Rlit (-1)) Radd Rsub Rmul Rdiv Req n _ _ (Rrel A).
rewrite det_mx => -[d [-> [E Hd]]]; congr Ok.
by move: E; rewrite det_iz // => /(iz_eq Hp) ->; rewrite Z.mod_small.
Qed.

(** the determinant itself, if the modulus is large enough *)
Theorem c107_det_recover n (A : 'M[Z]_n) : (2 * Z.abs (\det A) < P)%Z ->
  exists2 d, det M n (R A) = Ok d & \det A = (if 2 * d <? P then d else d - P)%Z.
Proof.
move=> H; exists (\det A mod P)%Z; first exact: c107_det.
case: (Z.leb_spec 0 (\det A)) => Hs.
  by rewrite Z.mod_small; [case: Z.ltb_spec; lia|lia].
have -> : (\det A mod P = \det A + P)%Z.
  by rewrite -(Z.mod_add _ 1) ?Z.mul_1_l; [apply: Z.mod_small|]; lia.
by case: Z.ltb_spec; lia.
Qed.

(** congruent to the unit matrix *)
Theorem c107_inv n (A : 'M[Z]_n) : ~ (P | \det A)%Z ->
  exists B : 'M[Z]_n, [/\ inv M n (R A) = Ok (R B),
    R (A *m B) = R (1%:M : 'M[Z]_n), R (B *m A) = R (1%:M : 'M[Z]_n) &
    forall B' : 'M[Z]_n, R (A *m B') = R (1%:M : 'M[Z]_n) -> R B' = R B].
Proof.
move=> Hd; have U : map_mx iz A \in unitmx.
  rewrite unit_iz //; apply/negP => /Z.eqb_spec E; apply: Hd.
  by apply/Z.mod_divide; [lia|].
exists (map_mx (@rep p) (invmx (map_mx iz A))); split.
- have := @inv_ref K M rp rp Rld Rst (Rlit 0) (Rlit 1) (Rlit (-1)) Radd Rsub Rmul Rdiv Rneg Req n _ _ (Rrel A).
  by rewrite inv_mx // => /Rrun.
- by apply/resid_iz => //; rewrite mul_iz rep_mx // mulmxV // one_iz.
- by apply/resid_iz => //; rewrite mul_iz rep_mx // mulVmx // one_iz.
move=> B' /(resid_iz Hp); rewrite mul_iz one_iz => E; apply/resid_iz => //.
by rewrite rep_mx // -[map_mx iz B']mul1mx -(mulVmx U) -mulmxA E mulmx1.
Qed.

(** no inverse: refused, but for 1 x 1 *)
Theorem c107_inv_singular n (A : 'M[Z]_n) : (1 < n)%N -> (P | \det A)%Z ->
  inv M n (R A) = if (n <= 3)%N then Throw OverflowError else Terminate.
Proof.
move=> Hn Hd; have E : \det (map_mx iz A) = 0.
  rewrite det_iz //; apply/eqP; rewrite iz_eq0 //; apply/Z.eqb_spec.
  by apply/Z.mod_divide => //; lia.
have := @inv_ref K M rp rp Rld Rst (Rlit 0) (Rlit 1) (Rlit (-1)) Radd Rsub Rmul Rdiv Rneg Req n _ _ (Rrel A).
rewrite inv_mx_singular //.
by case: n Hn A {Hd E} => [|[|[|[|n]]]].
Qed.
Theorem c107_inv_one_zero : (2 < p)%N -> inv M 1 [:: [:: 0%Z]] = Ok [:: [:: 0%Z]].
Proof.
move=> H; have -> : inv M 1 [:: [:: 0%Z]] = Ok [:: [:: fermat_div P (1 mod P) 0]] by [].
by rewrite /fermat_div Z.pow_0_l ?Z.mul_0_r; [|lia].
Qed.

(** decryption of a Hill cipher *)
Theorem c107_hill n m (A : 'M[Z]_n) (X : 'M[Z]_(n, m)) : ~ (P | \det A)%Z ->
  exists B C, [/\ inv M n (R A) = Ok B, mult M n n m (R A) (R X) = Ok C & mult M n n m B C = Ok (R X)].
Proof.
move=> /c107_inv [B [E _ E2 _]]; exists (R B), (R (A *m X)); split=> //; first exact: c107_mult.
rewrite c107_mult //; congr Ok; apply/resid_iz => //.
move/(resid_iz Hp): E2; rewrite !mul_iz one_iz mulmxA => ->; by rewrite mul1mx.
Qed.

(** negative powers *)
Theorem c107_pow_neg n w (A : 'M[Z]_n) q : ~ (P | \det A)%Z -> (1 <= w)%Z -> (0 < q)%N ->
  (Z.of_nat q < 2 ^ (w - 1))%Z ->
  exists B : 'M[Z]_n, [/\ pow M n w (R A) (- Z.of_nat q) = Ok (R B) & R (mxpow A q *m B) = R (1%:M : 'M[Z]_n)].
Proof.
move=> Hd Hw Hq0 Hq; have U : map_mx iz A \in unitmx.
  rewrite unit_iz //; apply/negP => /Z.eqb_spec E; apply: Hd.
  by apply/Z.mod_divide; [lia|].
exists (map_mx (@rep p) (mxpow (invmx (map_mx iz A)) q)); split.
  have := @pow_ref_all K M rp rp Rld Rst (Rlit 0) (Rlit 1) (Rlit (-1)) Radd Rsub Rmul Rdiv Rneg Req n w _ _
    (- Z.of_nat q)%Z (Rrel A).
  by rewrite pow_neg_mx // => /Rrun.
apply/resid_iz => //; rewrite mul_iz rep_mx // one_iz.
have -> : map_mx iz (mxpow A q) = mxpow (map_mx iz A) q.
  by elim: q {Hq0 Hq} => [|q IH] /=; rewrite ?one_iz // mul_iz IH.
have C : forall k, mxpow (map_mx iz A) k *m mxpow (invmx (map_mx iz A)) k = 1%:M.
  elim=> [|k IH]; first by rewrite mulmx1.
  by rewrite mxpowSr [mxpow (invmx _) _]/= mulmxA -(mulmxA (mxpow _ k)) mulmxV // mulmx1.
exact: C.
Qed.

(** LU: refused exactly if [p] divides a leading minor *)
Let minor_iz n (A : 'M[Z]_n) k (Hk : (k <= n)%N) : lead_minor (map_mx iz A) Hk = iz (lead_minor A Hk).
Proof.
by rewrite /lead_minor -det_iz //; congr (\det _); apply/matrixP => i j; rewrite !mxE.
Qed.
Theorem c107_lu n (A : 'M[Z]_n) : (forall k (Hk : (k <= n)%N), (0 < k)%N -> ~ (P | lead_minor A Hk)%Z) ->
  exists L U : 'M[Z]_n, [/\ lu M n (R A) = Ok (R L, R U), R (L *m U) = R A &
    forall i j : 'I_n, [/\ (i < j)%N -> (L i j mod P = 0)%Z, (L i i mod P = 1)%Z & (j < i)%N -> (U i j mod P = 0)%Z]].
Proof.
move=> Hm; have := @lu_ref K M rp rp Rld Rst (Rlit 0) (Rlit 1) Radd Rsub Rmul Rdiv Req n _ _ (Rrel A).
case: (lu_mx (fun _ _ => false) id (@Ok F) (map_mx iz A)) => [[L [U [-> [[HL1 HL2] HU _ E]]]]|[_ [k [Hk [Hk0]]]]]; last first.
  rewrite minor_iz => H0; case: (Hm k Hk Hk0); apply/Z.mod_divide; first lia.
  by apply/Z.eqb_spec; rewrite -iz_eq0 // H0.
move=> [[X Y] [-> [HX HY]]]; exists (map_mx (@rep p) L), (map_mx (@rep p) U).
have [[-> ->]] : [/\ X = R (map_mx (@rep p) L) & Y = R (map_mx (@rep p) U)].
  split; [have [] : Ok X = Ok (R (map_mx (@rep p) L))|have [] : Ok Y = Ok (R (map_mx (@rep p) U))] => //.
    by apply: Rrun; exists X.
  by apply: Rrun; exists Y.
split=> //; first by apply/resid_iz => //; rewrite mul_iz // !rep_mx.
have Z0 (x : F) z : x = iz z -> (rep x mod P = z mod P)%Z.
  by move=> Ex; apply/iz_eq => //; rewrite repK.
have M0 : (0 mod P = 0)%Z by rewrite Z.mod_0_l //; lia.
have M1 : (1 mod P = 1)%Z by rewrite Z.mod_1_l //; have := P2 Hp; lia.
move=> i j; rewrite !mxE; split=> [H||H].
- by rewrite HL2 // (Z0 0 0%Z).
- by rewrite HL1 (Z0 1 1%Z) // ring_of_ZE.
by rewrite HU // (Z0 0 0%Z).
Qed.
Theorem c107_lu_refused n (A : 'M[Z]_n) k (Hk : (k <= n)%N) : (0 < k)%N -> (P | lead_minor A Hk)%Z ->
  lu M n (R A) = Throw OverflowError.
Proof.
move=> Hk0 Hd; have := @lu_ref K M rp rp Rld Rst (Rlit 0) (Rlit 1) Radd Rsub Rmul Rdiv Req n _ _ (Rrel A).
case: (c28_lu_otherwise (fun _ _ => false) id (@Ok F) (map_mx iz A)) => [/c28_lu_returns_iff /(_ k Hk Hk0)|-> //].
by rewrite minor_iz iz_eq0 // (proj2 (Z.mod_divide _ _ _) Hd) //; lia.
Qed.

(** division by a number: by 0 it is refused *)
Theorem c107_div n m (A : 'M[Z]_(n, m)) s : ~ (P | s)%Z ->
  exists B : 'M[Z]_(n, m), div M n m (R A) (s mod P)%Z = Ok (R B) /\ R (s *: B) = R A.
Proof.
move=> Hd; have U : iz s != 0.
  rewrite iz_eq0 //; apply/negP => /Z.eqb_spec E; apply: Hd; by apply/Z.mod_divide; [lia|].
exists (map_mx (@rep p) (map_mx (fun x => x / iz s) (map_mx iz A))); split.
  have := @div_ref K M rp rp Rld Rst (Rlit 0) Rdiv Req n m _ _ (iz s) (s mod P)%Z (Rrel A) (rp_mod Hp erefl).
  by rewrite div_mx ?unitfE // => /Rrun.
apply/resid_iz => //; apply/matrixP => i j; rewrite !mxE.
by rewrite -[s * _]/(s * _)%Z ring_of_ZM repK // mulrC divfK.
Qed.
Theorem c107_div_zero n m (A : 'M[Z]_(n, m)) s : (P | s)%Z -> div M n m (R A) (s mod P)%Z = Terminate.
Proof. by move=> Hd; rewrite (proj2 (Z.mod_divide _ _ _) Hd) //; lia. Qed.

(** the mean *)
Theorem c107_mean n m (A : 'M[Z]_(n, m)) : (Z.of_nat (n * m) < 2 ^ 64)%Z -> ~ (P | Z.of_nat (n * m))%Z ->
  exists2 d, mean M n m (R A) = Ok d & ((Z.of_nat (n * m) * d) mod P = (\sum_i \sum_j A i j) mod P)%Z.
Proof.
move=> Hs Hd; rewrite mean_fermat //; eexists; first reflexivity.
apply/iz_eq => //; rewrite ring_of_ZM iz_mod // -/(fermat_div P _ _).
have Hz : iz (Z.of_nat (n * m)) != 0.
  rewrite iz_eq0 //; apply/negP => /Z.eqb_spec E; apply: Hd; by apply/Z.mod_divide; [lia|].
have := iz_div Hp (\sum_i \sum_j A i j) Hz; rewrite /fermat_div iz_mod // => ->.
by rewrite mulrC divfK.
Qed.
Theorem c107_mean_lost n m (A : 'M[Z]_(n, m)) : (2 < p)%N -> (Z.of_nat (n * m) < 2 ^ 64)%Z -> (P | Z.of_nat (n * m))%Z ->
  mean M n m (R A) = Ok 0%Z.
Proof.
move=> H2 Hs Hd; rewrite mean_fermat //; congr Ok.
have E : (Z.of_nat (n * m) mod P = 0)%Z by apply/Z.mod_divide => //; lia.
by rewrite Zmult_mod Zpower_mod // E Z.pow_0_l ?Z.mul_0_r //; lia.
Qed.
End Prime.

(** ** Several primes: the determinant itself, whatever its size *)
Theorem c107_det_crt n (A : 'M[Z]_n) (ps : seq nat) (d : Z) : uniq ps -> all prime ps ->
  (2 * Z.abs (\det A) < Z.of_nat (\prod_(p <- ps) p))%Z -> (2 * Z.abs d < Z.of_nat (\prod_(p <- ps) p))%Z ->
  (forall p, p \in ps -> det (modS (Z.of_nat p)) n (resid (Z.of_nat p) A) = Ok (d mod Z.of_nat p)%Z) ->
  \det A = d.
Proof.
move=> Hu Ha H1 H2 H.
have Hd : forall p, p \in ps -> (p %| `|int_of_Z (\det A - d)%Z|)%N.
  move=> p Hin; have Hp := allP Ha _ Hin.
  have [E] : Ok (\det A mod Z.of_nat p)%Z = Ok (d mod Z.of_nat p)%Z by rewrite -(c107_det Hp) H.
  have := P2 Hp => H3.
  have : (Z.of_nat p | \det A - d)%Z.
    by apply/Z.mod_divide; [lia|rewrite Zminus_mod E Z.sub_diag Z.mod_0_l //; lia].
  by case=> k Ek; apply/dvdnP; exists `|int_of_Z k|%N; rewrite Ek; lia.
have {}Hd : (\prod_(p <- ps) p %| `|int_of_Z (\det A - d)%Z|)%N.
  elim: ps Hu Ha Hd {H H1 H2} => [|p ps IH] /=; first by rewrite big_nil dvd1n.
  move=> /andP [Hn Hu] /andP [Hp Ha] Hd; rewrite big_cons Gauss_dvd.
    by rewrite Hd ?mem_head //= IH // => q Hq; apply: Hd; rewrite in_cons Hq orbT.
  elim: ps Hn Ha {IH Hu Hd} => [|q ps IH] /=; first by rewrite big_nil coprimen1.
  rewrite in_cons negb_or => /andP [Hpq Hn] /andP [Hq Ha]; rewrite big_cons coprimeMr IH // andbT.
  by rewrite prime_coprime // dvdn_prime2.
case: (posnP `|int_of_Z (\det A - d)%Z|%N) => [|Hpos]; first by lia.
by have := dvdn_leq Hpos Hd; lia.
Qed.

(** ** What does not hold *)

(** modulo 6, where 2 has no inverse, det is wrong from 4 x 4 on: 1, not 0 *)
Definition m6 : matrix Z := [:: [:: 2; 1; 0; 0]; [:: 1; 1; 0; 0]; [:: 0; 0; 1; 0]; [:: 0; 0; 0; 1]]%Z.
Theorem c107_composite : det (modS 6) 4 m6 = Ok 0%Z /\ det (modS 7) 4 m6 = Ok 1%Z.
Proof. by split; vm_compute. Qed.

(** compare is not symmetric: the difference of two residues has no sign *)
Theorem c107_compare : compare (modS 7) 1 1 [:: [:: 1%Z]] [:: [:: 0%Z]] 1%Z = Ok true /\
  compare (modS 7) 1 1 [:: [:: 0%Z]] [:: [:: 1%Z]] 1%Z = Ok false.
Proof. by split; vm_compute. Qed.

(** ** Concrete runs *)
Definition a26 : matrix Z := [:: [:: 6; 24; 1; 3]; [:: 13; 16; 10; 0]; [:: 20; 17; 15; 2]; [:: 1; 0; 4; 5]]%Z.
Definition is_one (p : Z) (o : outcome (matrix Z)) : bool :=
  if o is Ok B then
    if mult (modS p) 4 4 4 a26 B is Ok C then
      if isIdentity (modS p) 4 C is Ok b then b else false else false else false.
Theorem c107_example : [/\ prime 29, inv (modS 29) 4 a26 <> Ok a26 & is_one 29 (inv (modS 29) 4 a26)].
Proof. by split; vm_compute. Qed.
Theorem c107_example_lost : [/\ mean (modS 7) 1 7 [:: [:: 1; 2; 3; 4; 5; 6; 0]]%Z = Ok 0%Z,
  mean (modS 7) 1 7 [:: [:: 1; 1; 1; 1; 1; 1; 1]]%Z = Ok 0%Z &
  mean (modS 7) 1 2 [:: [:: 1; 2]]%Z = Ok 5%Z].
Proof. by split; vm_compute. Qed.

Print Assumptions c107_det.
Print Assumptions c107_inv.
Print Assumptions c107_lu.
Print Assumptions c107_det_crt.
