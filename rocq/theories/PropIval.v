(** * Property C106: matrices of intervals

    [ivS dn up root] (Ival.v) is a class of intervals whose bounds are rounded by [dn] and
    [up]; nothing is assumed about these two except that they round outwards, so any format of
    the bounds is meant. *)

From Coq Require Import ZArith List Lia.
From mathcomp Require Import all_ssreflect all_algebra all_fingroup.
From mathcomp Require Import zify ssrZ.
From Verif Require Import Base Scalar Model Spec Loops Struct Elim Alg Exact ExactLemmas Det Inv LU Pow StatExact
  ConvExact SimExact Preds Param BoundedInt PropAlg PropPred PropDom Long Ival.

Set Implicit Arguments.
Unset Strict Implicit.
Unset Printing Implicit Defensive.

Import Order.TTheory GRing.Theory Num.Theory.
Local Open Scope ring_scope.
Delimit Scope Z_scope with Z.
Local Notation ltP := ssrnat.ltP (only parsing).
Local Notation leP := ssrnat.leP (only parsing).

(** ** The matrix [A] lies in the matrix of intervals [M] *)
Definition encl (F : realFieldType) n m (M : matrix (F * F)) (A : 'M[F]_(n, m)) : Prop :=
  exists Z : 'M[F * F]_(n, m), M = mxrows Z /\ forall i j, (Z i j).1 <= A i j <= (Z i j).2.

Section Rel.
Variable F : realFieldType.

Lemma mrel_shape (T T' : Type) (R : T -> T' -> Prop) n m M N : shape n m N -> mrel R M N -> shape n m M.
Proof.
move=> [HN HR] H; split; first by rewrite (Forall2_length _ _ _ H).
elim: H HR {HN} => [|r r' M' N' Hr _ IH] HF row; first by case.
case=> [<-|Hin]; first by rewrite (Forall2_length _ _ _ Hr); apply: HF; left.
by apply: IH Hin => q Hq; apply: HF; right.
Qed.

Lemma encl_rel n m M (A : 'M[F]_(n, m)) : encl M A <-> mrel (@mem F) M (mxrows A).
Proof.
split=> [[Z [-> H]]|H].
  rewrite (mxrowsE (0, 0) Z) (mxrowsE 0 A); apply: mrel_mk => i j Hi Hj.
  by have := H (Ordinal Hi) (Ordinal Hj); rewrite /mem -!(mxf_ord (0, 0) Z) -(mxf_ord 0 A).
have [Z [E _]] := every_array (0, 0) (mrel_shape (shape_mxrows 0 A) H).
exists Z; split=> // i j; rewrite E in H.
have := ref_aget (@mem F) _ _ i j H.
rewrite (mxrowsE (0, 0) Z) (mxrowsE 0 A) !aget_mk; try exact/ltP.
by move=> [b [[<-]]]; rewrite !mxf_ord.
Qed.

Lemma mrel_flip (T T' : Type) (R : T -> T' -> Prop) M N : mrel R M N <-> mrel (fun x y => R y x) N M.
Proof.
have V (U U' : Type) (Q : U -> U' -> Prop) u v : List.Forall2 Q u v -> List.Forall2 (fun x y => Q y x) v u.
  by elim=> [|a b u' v' Hab _ IH]; constructor.
have W (U U' : Type) (Q : U -> U' -> Prop) u v : mrel Q u v -> mrel (fun x y => Q y x) v u.
  by elim=> [|a b u' v' Hab _ IH]; constructor; [exact: V|exact: IH].
by split=> H; [exact: W|exact: W H].
Qed.
End Rel.

Section Intervals.
Variables (F : realFieldType) (dn up : F -> F) (root : F * F -> outcome (F * F)).
Notation sq := (@Ok F).  (* no function below takes roots *)
Hypothesis HR : outward dn up.
Notation I := (ivS dn up root).
Notation K := (ordS sq).
Notation rel := (fun (a : elt K) (x : elt I) => @mem F x a).

(** the exact run first *)
Lemma fl_lit z : rel (@lit K z) (@lit I z). Proof. exact: iv_lit. Qed.
Lemma fl_ok (x : F) (y : F * F) : mem y x -> refines rel (Ok x) (Ok y). Proof. by move=> H; apply: ref_ok. Qed.
Lemma fl_add a x b y : rel a x -> rel b y -> refines rel (@xadd K a b) (@xadd I x y).
Proof. by move=> Ha Hb; apply: fl_ok; have [b0 [[<-] H]] := iv_add root sq HR Ha Hb. Qed.
Lemma fl_sub a x b y : rel a x -> rel b y -> refines rel (@xsub K a b) (@xsub I x y).
Proof. by move=> Ha Hb; apply: fl_ok; have [b0 [[<-] H]] := iv_sub root sq HR Ha Hb. Qed.
Lemma fl_mul a x b y : rel a x -> rel b y -> refines rel (@xmul K a b) (@xmul I x y).
Proof. by move=> Ha Hb; apply: fl_ok; have [b0 [[<-] H]] := iv_mul root sq HR Ha Hb. Qed.
Lemma fl_abs a x : rel a x -> refines rel (@xabs K a) (@xabs I x).
Proof. by move=> Ha; apply: fl_ok; have [b0 [[<-] H]] := iv_abs dn up root sq Ha. Qed.

Let Hld (a : elt K) (x : elt I) : rel a x -> rel (ld a) (ld x). Proof. by []. Qed.
Let Hst (a : xpr K) (x : xpr I) : rel a x -> rel (st a) (st x). Proof. by []. Qed.
Let H0 : rel (@lit K 0) (@lit I 0) := fl_lit 0.

Lemma encl_in n m M (A : 'M[F]_(n, m)) : encl M A -> mrel rel (mxrows A) M.
Proof. by move/encl_rel/mrel_flip. Qed.
Lemma encl_out n m (A : 'M[F]_(n, m)) o o' : o = Ok (mxrows A) -> refines (mrel rel) o o' ->
  exists Z, o' = Ok Z /\ encl Z A.
Proof. by move=> -> [Z [-> H]]; exists Z; split=> //; apply/encl_rel/mrel_flip. Qed.

(** ** Functions that do not divide always return, and what they return encloses the exact result *)
Theorem c106_sum n m MA MB (A B : 'M[F]_(n, m)) : encl MA A -> encl MB B ->
  exists Z, sum I n m MA MB = Ok Z /\ encl Z (A + B).
Proof.
move=> HA HB; apply: (encl_out (sum_mx _ _ _ A B)).
exact: (@sum_ref K I rel rel Hld Hst H0 fl_add n m _ _ _ _ (encl_in HA) (encl_in HB)).
Qed.
Theorem c106_sub n m MA MB (A B : 'M[F]_(n, m)) : encl MA A -> encl MB B ->
  exists Z, sub I n m MA MB = Ok Z /\ encl Z (A - B).
Proof.
move=> HA HB; apply: (encl_out (sub_mx _ _ _ A B)).
exact: (@sub_ref K I rel rel Hld Hst H0 fl_sub n m _ _ _ _ (encl_in HA) (encl_in HB)).
Qed.
Theorem c106_mult n m p MA MB (A : 'M[F]_(n, m)) (B : 'M[F]_(m, p)) : encl MA A -> encl MB B ->
  exists Z, mult I n m p MA MB = Ok Z /\ encl Z (A *m B).
Proof.
move=> HA HB; apply: (encl_out (mult_mx _ _ _ A B)).
exact: (@mult_ref K I rel rel Hld Hst H0 fl_add fl_mul n m p _ _ _ _ (encl_in HA) (encl_in HB)).
Qed.
Theorem c106_scale n m MA (A : 'M[F]_(n, m)) (x : F * F) (s : F) : encl MA A -> x.1 <= s <= x.2 ->
  exists Z, mult_scalar I n m MA x = Ok Z /\ encl Z (s *: A).
Proof.
have -> : s *: A = map_mx (fun x => x * s) A by apply/matrixP => i j; rewrite !mxE mulrC.
move=> HA Hs; apply: (encl_out (mult_scalar_mx _ _ _ A s)).
exact: (@mult_scalar_ref K I rel rel Hld Hst H0 fl_mul n m _ _ _ _ (encl_in HA) Hs).
Qed.
Theorem c106_trans n m MA (A : 'M[F]_(n, m)) : encl MA A -> exists Z, trans I n m MA = Ok Z /\ encl Z A^T.
Proof.
move=> HA; apply: (encl_out (trans_mx _ _ _ A)).
exact: (@trans_ref K I rel rel Hst H0 n m _ _ (encl_in HA)).
Qed.
Theorem c106_eye n : exists Z, eye1 I n = Ok Z /\ encl Z (1%:M : 'M[F]_n).
Proof.
apply: (encl_out (eye1_mx _ _ _ n)).
exact: (@eye1_ref K I rel rel Hst H0 (fl_lit 1) n).
Qed.
Theorem c106_pow n w MA (A : 'M[F]_n) k : (1 <= w)%Z -> (Z.of_nat k < 2 ^ (w - 1))%Z -> encl MA A ->
  exists Z, pow I n w MA (Z.of_nat k) = Ok Z /\ encl Z (mxpow A k).
Proof.
move=> Hw Hk HA; apply: (encl_out (pow_mx _ _ _ A Hw Hk)).
apply: (@pow_ref K I rel rel Hld Hst H0 fl_add fl_mul (fl_lit 1) n w _ _ _ (encl_in HA)).
exact: Nat2Z.is_nonneg.
Qed.
Theorem c106_conv2 n m MA (A : 'M[F]_(n, m)) MK (k : 'M[F]_3) : (Z.of_nat n <= 2 ^ 31)%Z -> (Z.of_nat m <= 2 ^ 31)%Z ->
  encl MA A -> encl MK k -> exists Z, conv2 I n m MA MK = Ok Z /\ encl Z (octave_same A (rot180 k)).
Proof.
move=> Hn Hm HA Hk; apply: (encl_out (conv2_mx _ _ _ Hn Hm A k)).
exact: (@conv2_ref K I rel rel Hld Hst H0 fl_add fl_mul n m _ _ _ _ (encl_in HA) (encl_in Hk)).
Qed.
Theorem c106_det_small n MA (A : 'M[F]_n) : (0 < n <= 3)%N -> encl MA A ->
  exists d, det I n MA = Ok d /\ d.1 <= \det A <= d.2.
Proof.
move=> /andP [/leP Hn /leP Hn'] HA.
have := @det_small_ref K I rel rel Hld Hst fl_add fl_mul fl_sub n _ _ (conj Hn Hn') (encl_in HA).
by rewrite det_mx => -[d [-> H]]; exists d.
Qed.

(** ** Functions that divide: if they return, every matrix in the argument has the property the
    function needs, and the result encloses *)
Let Gld (x : elt I) (a : elt K) : @mem F x a -> @mem F (ld x) (ld a). Proof. by []. Qed.
Let Gst (x : xpr I) (a : xpr K) : @mem F x a -> @mem F (st x) (st a). Proof. by []. Qed.
Let I_lit := iv_lit root sq HR.
Let I_add := iv_add root sq HR.
Let I_sub := iv_sub root sq HR.
Let I_mul := iv_mul root sq HR.
Let I_div : forall x a y b, @mem F x a -> @mem F y b -> okref (@mem F) (@xdiv I x y) (@xdiv K a b).
Proof. by move=> x a y b; apply: Ival.iv_div. Qed.
Let I_nz x y b c : @mem F y b -> @xdiv I x y = Ok c -> @xeq K b (@lit K 0) = false.
Proof. by move=> Hb; apply: Ival.iv_nz. Qed.

Theorem c106_det n MA (A : 'M[F]_n) d : encl MA A -> det I n MA = Ok d -> d.1 <= \det A <= d.2.
Proof.
move=> /encl_rel; rewrite (mxrowsE 0 A) => HA E.
have [b] := @iv_det F dn up root sq HR _ _ _ HA _ E; rewrite -(mxrowsE 0 A) det_mx => -[<-].
exact.
Qed.

Theorem c106_inv n MA (A : 'M[F]_n) Z : (0 < n)%N -> encl MA A -> inv I n MA = Ok Z ->
  A \in unitmx /\ encl Z (invmx A).
Proof.
move=> Hn /encl_rel; rewrite (mxrowsE 0 A) => HA E.
have [b] := @iv_inv_ok F dn up root sq HR _ _ _ Hn HA _ E; rewrite -(mxrowsE 0 A).
case U : (A \in unitmx); first by rewrite inv_mx // => -[<-] H; split=> //; apply/encl_rel.
rewrite inv_mx_singular; last by apply/eqP; move/negbT: U; rewrite unitmxE unitfE negbK.
have X k B : inv_singular F k <> Ok B by case: k => [|[|[|[|k]]]].
by move/X.
Qed.

Theorem c106_lu n MA (A : 'M[F]_n) ML MU : encl MA A -> lu I n MA = Ok (ML, MU) ->
  exists L U : 'M[F]_n, [/\ encl ML L, encl MU U, unit_lower L & upper U] /\
    (forall i, U i i != 0) /\ L *m U = A.
Proof.
move=> /encl_rel HA E.
have [[X Y] EX [/= HX HY]] := @lu_ok I K (@mem F) (@mem F) Gld Gst I_lit I_add I_sub I_mul I_div I_nz n _ _ HA _ E.
have [L [U [EL EU [uL uU nU P] _]]] := c27_lu EX.
exists L, U; split=> //; split=> //; apply/encl_rel; first by rewrite -EL.
by rewrite -EU.
Qed.

Theorem c106_div n m MA (A : 'M[F]_(n, m)) (x : F * F) (s : F) Z : (0 < n)%N -> (0 < m)%N -> encl MA A ->
  x.1 <= s <= x.2 -> div I n m MA x = Ok Z -> s != 0 /\ encl Z (s^-1 *: A).
Proof.
move=> Hn Hm /encl_rel HA Hs E.
have [X] := @div_ok I K (@mem F) (@mem F) Gld Gst I_lit I_div I_nz n m _ _ x s Hn Hm HA Hs _ E.
rewrite (mxrowsE 0 A) -/(op_div K n m _ _) div_mk; case: eqP => // /eqP Hs0 [<-] H; split=> //.
apply/encl_rel; rewrite (_ : mxrows _ = mk n m (fun i j => mxf 0 A i j / s)) //.
by apply: mxrows_mk => i j; rewrite mxf_ord !mxE mulrC.
Qed.

Theorem c106_mean n m MA (A : 'M[F]_(n, m)) z : (0 < n * m)%N -> (Z.of_nat (n * m) < 2 ^ 64)%Z -> encl MA A ->
  mean I n m MA = Ok z -> z.1 <= mxmean A <= z.2.
Proof.
move=> Hp Hz /encl_rel HA E.
have [b] := @mean_ok I K (@mem F) (@mem F) Gld Gst I_lit I_add (@iv_divsz F dn up root sq HR) n m _ _ HA _ E.
by rewrite mean_mx // => -[<-].
Qed.
Theorem c106_var n m MA (A : 'M[F]_(n, m)) z : (0 < n * m)%N -> (Z.of_nat (n * m) < 2 ^ 64)%Z -> encl MA A ->
  var I n m MA = Ok z -> z.1 <= mxvar A <= z.2.
Proof.
move=> Hp Hz /encl_rel HA E.
have [b] := @var_ok I K (@mem F) (@mem F) Gld Gst I_lit I_add I_sub I_mul (@iv_divsz F dn up root sq HR) n m _ _ HA _ E.
by rewrite var_mx // => -[<-].
Qed.

(** ** Comparisons that return true (== and isSymetric) or false (compare) are right for all members *)
Theorem c106_symmetric n MA (A : 'M[F]_n) : encl MA A -> isSymetric I n MA = Ok true -> A^T = A.
Proof.
move=> [Z [-> HZ]]; rewrite (mxrowsE (0, 0) Z).
have [b [-> Hb]] := @c32_any I n (mxf (0, 0) Z) => -[Eb]; move/Hb: Eb => Hs.
have S (i j : 'I_n) : (j < i)%N -> A i j = A j i.
  move=> Hij; have := Hs i j; rewrite Hij ltn_ord /= => /(_ isT).
  rewrite (mxf_ord (0, 0) Z i j) (mxf_ord (0, 0) Z j i) => E.
  exact: (@iv_eq F dn up root _ _ _ _ (HZ i j) (HZ j i) E).
apply/matrixP => i j; rewrite mxE.
by case: (ltngtP i j) => [H|H|/val_inj -> //]; [rewrite (S j i)|rewrite (S i j)].
Qed.

Theorem c106_equal n m MA MB (A B : 'M[F]_(n, m)) : encl MA A -> encl MB B -> mat_eqb I MA MB = true -> A = B.
Proof.
move=> /encl_rel HA /encl_rel HB E; apply: (@mxrows_inj _ n m 0).
have V u a v b : List.Forall2 (@mem F) u a -> List.Forall2 (@mem F) v b -> vec_eqb I u v -> a = b.
  move=> Hu; elim: Hu v b => [|x a0 u' a' Hx _ IH] v b Hv; inversion Hv as [|y b0 v' b' Hy Hv']; subst => //=.
  by move=> /andP [Exy] /(IH _ _ Hv') ->; rewrite (@iv_eq F dn up root _ _ _ _ Hx Hy Exy).
elim: HA (MB) (mxrows B) HB E => [|r a M N Hr _ IH] MB' B' HB; inversion HB as [|r' b M' N' Hr' HB']; subst => //=.
by move=> /andP [Er] /(IH _ _ HB') ->; rewrite (V _ _ _ _ Hr Hr' Er).
Qed.

Theorem c106_compare n m MA MB (A B : 'M[F]_(n, m)) (e : F) : encl MA A -> encl MB B ->
  exists b, compare I n m MA MB e = Ok b /\ (b = false -> exists i j, e < `|A i j - B i j|).
Proof.
move=> [X [-> HX]] [Y [-> HY]]; rewrite (mxrowsE (0, 0) X) (mxrowsE (0, 0) Y).
pose d i j := i_abs (dn ((mxf (0, 0) X i j).1 - (mxf (0, 0) Y i j).2), up ((mxf (0, 0) X i j).2 - (mxf (0, 0) Y i j).1)).
have [//|b [-> Hb]] := @compare_mk I n m (mxf (0, 0) X) (mxf (0, 0) Y) d e.
exists b; split=> // Eb.
have [/existsP [i /existsP [j H]]|H] := boolP [exists i : 'I_n, [exists j : 'I_m, e < (d i j).1]].
  exists i, j; apply: lt_le_trans H _.
  have [c [[<-] /= Hc]] := iv_sub root sq HR (HX i j) (HY i j).
  have [c' [[<-] /andP [Hc' _]]] := iv_abs dn up root sq Hc.
  by move: Hc'; rewrite /d /= -(mxf_ord (0, 0) X) -(mxf_ord (0, 0) Y).
have : b = true; last by rewrite Eb.
apply/Hb => i j /ltP Hi /ltP Hj; apply/negbTE; move: H; rewrite negb_exists => /forallP /(_ (Ordinal Hi)).
by rewrite negb_exists => /forallP /(_ (Ordinal Hj)).
Qed.
End Intervals.
