(** * Residues as element type

    The class of modular integers every contest programmer and cryptography course writes:
    representatives in [0, p), operations reduced modulo [p], division by Fermat's little theorem,
    [a / b = a * b^(p-2)], which never fails and gives 0 for [b = 0] if [p > 2].  Not code of the
    repository: a class a user instantiates the templates with. *)

From Coq Require Import ZArith List Lia.
From mathcomp Require Import all_ssreflect all_algebra all_fingroup.
From mathcomp Require Import finfield.
From mathcomp Require Import zify ssrZ.
From Verif Require Import Base Scalar Model Spec Loops Struct Elim Alg Exact ExactLemmas Det Inv LU Pow StatExact
  Param Preds BoundedInt StrictExact PropAlg PropIval Dual.

Set Implicit Arguments.
Unset Strict Implicit.
Unset Printing Implicit Defensive.

Import GRing.Theory.
Local Open Scope ring_scope.
Delimit Scope Z_scope with Z.
Local Notation ltP := ssrnat.ltP (only parsing).
Local Notation leP := ssrnat.leP (only parsing).

(** ** The class *)
Definition fermat_div (p a b : Z) : Z := ((a * b ^ (p - 2)) mod p)%Z.

Definition modS (p : Z) : scalar :=
  {| elt := Z; xpr := Z; epsT := Z; ld := id; st := id;
     lit := fun z => (z mod p)%Z;
     xadd := fun a b => Ok ((a + b) mod p)%Z;
     xsub := fun a b => Ok ((a - b) mod p)%Z;
     xmul := fun a b => Ok ((a * b) mod p)%Z;
     xdiv := fun a b => Ok (fermat_div p a b);
     xneg := fun a => Ok ((- a) mod p)%Z;
     xeq := Z.eqb;
     xlt := Z.ltb;
     xabs := fun a => Ok a;
     gteps := fun a e => (e <? a)%Z;
     xsqrt := fun _ => Throw OverflowError;
     divsz := fun a n => Ok (fermat_div p a (n mod p)%Z) |}.

(** the array of the residues of an integer matrix *)
Definition resid (p : Z) n m (A : 'M[Z]_(n, m)) : matrix Z := mxrows (map_mx (fun z => (z mod p)%Z) A).

Lemma residE p n m (A B : 'M[Z]_(n, m)) :
  resid p A = resid p B <-> forall i j, (A i j mod p = B i j mod p)%Z.
Proof.
split=> [/(@mxrows_inj _ _ _ 0%Z) /matrixP H i j|H]; first by have := H i j; rewrite !mxE.
by congr mxrows; apply/matrixP => i j; rewrite !mxE.
Qed.

(** ** Any modulus: the run on residues against the exact run on integers *)
Section Any.
Variable p : Z.
Hypothesis Hp : (0 < p)%Z.
Variables (lt : Z -> Z -> bool) (ab : Z -> Z) (sq : Z -> outcome Z).
Notation K := (exactS lt ab sq).
Notation M := (modS p).
Notation rm := (fun (z : elt K) (a : elt M) => a = (z mod p)%Z).

Lemma ring_of_Z_Z z : ring_of_Z [ringType of Z] z = z.
Proof. by rewrite ring_of_ZE; lia. Qed.
Lemma rm_lit z : rm (@lit K z) (@lit M z). Proof. by rewrite /= ring_of_Z_Z. Qed.
Lemma rm_add a x b y : rm a x -> rm b y -> refines rm (@xadd K a b) (@xadd M x y).
Proof. by move=> -> ->; apply: ref_ok; rewrite /= -Z.add_mod //; lia. Qed.
Lemma rm_sub a x b y : rm a x -> rm b y -> refines rm (@xsub K a b) (@xsub M x y).
Proof. by move=> -> ->; apply: ref_ok; rewrite /= -Zminus_mod. Qed.
Lemma rm_mul a x b y : rm a x -> rm b y -> refines rm (@xmul K a b) (@xmul M x y).
Proof. by move=> -> ->; apply: ref_ok; rewrite /= -Zmult_mod. Qed.
Lemma rm_ld (a : elt K) (x : elt M) : rm a x -> rm (ld a) (ld x). Proof. by []. Qed.
Lemma rm_st (a : xpr K) (x : xpr M) : rm a x -> rm (st a) (st x). Proof. by []. Qed.

Lemma resid_rel n m (A : 'M[Z]_(n, m)) X : mrel rm (mxrows A) X <-> X = resid p A.
Proof.
split=> [H|->].
  have Hs : shape n m X by exact: (mrel_shape (shape_mxrows 0 A) (proj1 (mrel_flip rm _ _) H)).
  have [Z [E _]] := every_array 0%Z Hs; rewrite E; congr mxrows; apply/matrixP => i j; rewrite mxE.
  have := ref_aget rm _ _ i j H; rewrite E (mxrowsE 0 A) (mxrowsE 0%Z Z) !aget_mk; try exact/ltP.
  by move=> [b [[<-]]]; rewrite !mxf_ord.
rewrite /resid (mxrowsE 0 A) (mxrowsE 0%Z (map_mx _ A)); apply: mrel_mk => i j Hi Hj.
by rewrite -[i]/(val (Ordinal Hi)) -[j]/(val (Ordinal Hj)) !mxf_ord mxE.
Qed.

Lemma resid_run n m (B : 'M[Z]_(n, m)) o : refines (mrel rm) (Ok (mxrows B)) o -> o = Ok (resid p B).
Proof. by move=> [X [-> /resid_rel ->]]. Qed.
End Any.

(** ** A prime modulus: the run on residues against the exact run in the field of residues *)
Section Prime.
Variable p : nat.
Hypothesis Hp : prime p.
Notation F := [fieldType of 'F_p].
Notation P := (Z.of_nat p).
Notation iz := (ring_of_Z F).

Lemma P2 : (2 <= P)%Z. Proof. by have := prime_gt1 Hp; lia. Qed.

Lemma iz_rmorph : rmorphism (ring_of_Z F).
Proof.
split; first by move=> a b; rewrite -[a - b]/(a - b)%Z ring_of_ZB.
by split=> [a b|]; [rewrite -[a * b]/(a * b)%Z ring_of_ZM|rewrite ring_of_ZE].
Qed.
Definition izm := RMorphism iz_rmorph.

Lemma izP : iz P = 0.
Proof. by rewrite ring_of_Z_nat char_Fp_0. Qed.
Lemma iz_mod a : iz (a mod P)%Z = iz a.
Proof.
have := P2 => H; rewrite [in RHS](Z.div_mod a P); last lia.
by rewrite ring_of_ZD ring_of_ZM izP mul0r add0r.
Qed.
Lemma iz_eq0 a : (iz a == 0) = (a mod P =? 0)%Z.
Proof.
have H := P2; have [H1 H2] := Z.mod_pos_bound a P ltac:(lia).
rewrite -iz_mod; case: (Z_of_nat_complete _ H1) => r Er; rewrite Er ring_of_Z_nat.
rewrite -(dvdn_charf (char_Fp Hp)).
have Hr : (r < p)%N by lia.
case: r Hr {Er} => [|r] Hr; first by rewrite dvdn0.
by rewrite gtnNdvd.
Qed.
Lemma iz_eq a b : iz a = iz b <-> (a mod P = b mod P)%Z.
Proof.
split=> [E|E]; last by rewrite -(iz_mod a) E iz_mod.
have : iz (a - b)%Z == 0 by rewrite ring_of_ZB E subrr.
rewrite iz_eq0 => /Z.eqb_spec E0; have H := P2.
have := Z.div_mod (a - b)%Z P ltac:(lia); rewrite E0 => E1.
have -> : a = (b + ((a - b) / P) * P)%Z by lia.
by rewrite Z.mod_add //; lia.
Qed.

(** a representative of a residue class *)
Definition rep (x : 'F_p) : Z := Z.of_nat (nat_of_ord x).
Lemma repK x : iz (rep x) = x.
Proof. by rewrite ring_of_Z_nat natr_Zp. Qed.
Lemma rep_mx n m (B : 'M[F]_(n, m)) : map_mx iz (map_mx rep B) = B.
Proof. by apply/matrixP => i j; rewrite !mxE repK. Qed.

Lemma iz_pow b k : iz (b ^ Z.of_nat k)%Z = iz b ^+ k.
Proof.
elim: k => [|k IH]; first by rewrite expr0 ring_of_ZE.
by rewrite Nat2Z.inj_succ Z.pow_succ_r ?ring_of_ZM ?IH ?exprS //; lia.
Qed.
Lemma fermat (y : F) : y != 0 -> y ^+ (p - 2) = y^-1.
Proof.
move=> Hy; have E : y ^+ p = y by have := expf_card y; rewrite card_Fp.
have Ep : ((p - 2).+2 = p)%N by have := P2; lia.
apply: (mulIf Hy); rewrite mulVf // -exprSr.
by apply: (mulIf Hy); rewrite -exprSr Ep E mul1r.
Qed.
Lemma iz_div a b : iz b != 0 -> iz (fermat_div P a b) = iz a / iz b.
Proof.
move=> Hb; rewrite /fermat_div iz_mod ring_of_ZM; congr (_ * _).
have -> : (P - 2 = Z.of_nat (p - 2))%Z by have := P2; lia.
by rewrite iz_pow fermat.
Qed.

Variables (lt : F -> F -> bool) (ab : F -> F) (sq : F -> outcome F).
Notation K := (exactS lt ab sq).
Notation M := (modS P).
Notation rp := (fun (x : elt K) (a : elt M) => x = iz a /\ (0 <= a < P)%Z).

Lemma rp_mod x z : x = iz z -> x = iz (z mod P)%Z /\ (0 <= z mod P < P)%Z.
Proof. by move=> ->; rewrite iz_mod; split=> //; apply: Z.mod_pos_bound; have := P2; lia. Qed.
Lemma rp_lit z : rp (@lit K z) (@lit M z). Proof. exact: rp_mod. Qed.
Lemma rp_add x a y b : rp x a -> rp y b -> refines rp (@xadd K x y) (@xadd M a b).
Proof. by move=> [-> _] [-> _]; apply: ref_ok; apply: rp_mod; rewrite ring_of_ZD. Qed.
Lemma rp_sub x a y b : rp x a -> rp y b -> refines rp (@xsub K x y) (@xsub M a b).
Proof. by move=> [-> _] [-> _]; apply: ref_ok; apply: rp_mod; rewrite ring_of_ZB. Qed.
Lemma rp_mul x a y b : rp x a -> rp y b -> refines rp (@xmul K x y) (@xmul M a b).
Proof. by move=> [-> _] [-> _]; apply: ref_ok; apply: rp_mod; rewrite ring_of_ZM. Qed.
Lemma rp_neg x a : rp x a -> refines rp (@xneg K x) (@xneg M a).
Proof. by move=> [-> _]; apply: ref_ok; apply: rp_mod; rewrite ring_of_ZN. Qed.
Lemma rp_div x a y b : rp x a -> rp y b -> refines rp (@xdiv K x y) (@xdiv M a b).
Proof.
move=> [-> _] [-> _]; rewrite /= /exact_div unitfE; case: eqP => //= /eqP Hb.
eexists; split; first reflexivity.
by split; [rewrite iz_div|apply: Z.mod_pos_bound; have := P2; lia].
Qed.
Lemma rp_eq x a y b : rp x a -> rp y b -> @xeq K x y = @xeq M a b.
Proof.
move=> [-> Ha] [-> Hb] /=; apply/eqP/Z.eqb_spec => [/iz_eq|->] //.
by rewrite !Z.mod_small.
Qed.
Lemma rp_ld (x : elt K) (a : elt M) : rp x a -> rp (ld x) (ld a). Proof. by []. Qed.
Lemma rp_st (x : xpr K) (a : xpr M) : rp x a -> rp (st x) (st a). Proof. by []. Qed.

Lemma resid_relp n m (A : 'M[Z]_(n, m)) X : mrel rp (mxrows (map_mx iz A)) X <-> X = resid P A.
Proof.
split=> [H|->].
  have Hs : shape n m X by exact: (mrel_shape (shape_mxrows 0 (map_mx iz A)) (proj1 (mrel_flip rp _ _) H)).
  have [Z [E _]] := every_array 0%Z Hs; rewrite E; congr mxrows; apply/matrixP => i j; rewrite mxE.
  have := ref_aget rp _ _ i j H; rewrite E (mxrowsE 0 (map_mx iz A)) (mxrowsE 0%Z Z) !aget_mk; try exact/ltP.
  move=> [b [[<-]]]; rewrite !mxf_ord mxE => -[/iz_eq -> Hb]; by rewrite Z.mod_small.
rewrite /resid (mxrowsE 0 (map_mx iz A)) (mxrowsE 0%Z (map_mx _ A)); apply: mrel_mk => i j Hi Hj.
by rewrite -[i]/(val (Ordinal Hi)) -[j]/(val (Ordinal Hj)) !mxf_ord !mxE; apply: rp_mod.
Qed.

Lemma resid_runp n m (B : 'M[F]_(n, m)) o :
  refines (mrel rp) (Ok (mxrows B)) o -> o = Ok (resid P (map_mx rep B)).
Proof. by rewrite -{1}(rep_mx B) => -[X [-> /resid_relp ->]]. Qed.

(** congruence of matrices *)
Lemma resid_iz n m (A B : 'M[Z]_(n, m)) : resid P A = resid P B <-> map_mx iz A = map_mx iz B.
Proof.
rewrite residE; split=> [H|/matrixP H i j]; last by have := H i j; rewrite !mxE => /iz_eq.
by apply/matrixP => i j; rewrite !mxE; apply/iz_eq.
Qed.
Lemma det_iz n (A : 'M[Z]_n) : \det (map_mx iz A) = iz (\det A).
Proof. exact: (det_map_mx izm). Qed.
Lemma mul_iz n m q (A : 'M[Z]_(n, m)) (B : 'M[Z]_(m, q)) : map_mx iz (A *m B) = map_mx iz A *m map_mx iz B.
Proof. exact: (map_mxM izm). Qed.
Lemma one_iz n : map_mx iz (1%:M : 'M[Z]_n) = 1%:M.
Proof. exact: (map_mx1 izm). Qed.
Lemma unit_iz n (A : 'M[Z]_n) : (map_mx iz A \in unitmx) = ~~ (\det A mod P =? 0)%Z.
Proof. by rewrite unitmxE det_iz unitfE iz_eq0. Qed.
End Prime.
