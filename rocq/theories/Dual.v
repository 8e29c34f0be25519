(** * Dual numbers as element type

    A class one uses for automatic differentiation: a value and a derivative.  Comparisons
    look at the values only (as those of ceres::Jet do).  [dualS V] is that class over the
    element type [V]; over exact arithmetic it is the ring [dual F], F[e] with e^2 = 0. *)

From Coq Require Import ZArith List Lia.
From mathcomp Require Import all_ssreflect all_algebra all_fingroup.
From mathcomp Require Import zify.
From Verif Require Import Base Scalar Model Spec Loops Struct Elim Alg Exact ExactLemmas Det Inv Param.

Set Implicit Arguments.
Unset Strict Implicit.
Unset Printing Implicit Defensive.

Import GRing.Theory.
Local Open Scope ring_scope.
Delimit Scope Z_scope with Z.

(** ** The class, over any element type *)
Section Class.
Variable V : scalar.
Notation T := (elt V).
Implicit Types x y : T * T.

(** an expression of the element type stored in a member *)
Definition keep (o : outcome (xpr V)) : outcome T := let* v := o in Ok (st v).

Definition d_add x y : outcome (T * T) :=
  let* v := keep (xadd (ld x.1) (ld y.1)) in
  let* d := keep (xadd (ld x.2) (ld y.2)) in
  Ok (v, d).
Definition d_sub x y : outcome (T * T) :=
  let* v := keep (xsub (ld x.1) (ld y.1)) in
  let* d := keep (xsub (ld x.2) (ld y.2)) in
  Ok (v, d).
(** (v, d) * (w, e) = (v*w, v*e + d*w) *)
Definition d_mul x y : outcome (T * T) :=
  let* v := keep (xmul (ld x.1) (ld y.1)) in
  let* p := xmul (ld x.1) (ld y.2) in
  let* q := xmul (ld x.2) (ld y.1) in
  let* d := keep (xadd p q) in
  Ok (v, d).
(** (v, d) / (w, e) = (v/w, (d - v/w*e)/w) *)
Definition d_div x y : outcome (T * T) :=
  let* v := keep (xdiv (ld x.1) (ld y.1)) in
  let* p := xmul (ld v) (ld y.2) in
  let* q := xsub (ld x.2) p in
  let* d := keep (xdiv q (ld y.1)) in
  Ok (v, d).
Definition d_neg x : outcome (T * T) :=
  let* v := keep (xneg (ld x.1)) in
  let* d := keep (xneg (ld x.2)) in
  Ok (v, d).
(** sqrt (v, d) = (r, d/(2*r)) *)
Definition d_sqrt x : outcome (T * T) :=
  let* r := xsqrt (ld x.1) in
  let* p := xmul (lit 2) (ld r) in
  let* d := keep (xdiv (ld x.2) p) in
  Ok (r, d).
Definition d_abs x : outcome (T * T) := if xlt (ld x.1) (lit 0) then d_neg x else Ok x.

Definition dualS : scalar :=
  {| elt := T * T; xpr := T * T; epsT := epsT V; ld := id; st := id;
     lit := fun z => (lite V z, lite V 0);
     xadd := d_add; xsub := d_sub; xmul := d_mul; xdiv := d_div; xneg := d_neg;
     xeq := fun x y => xeq (ld x.1) (ld y.1);
     xlt := fun x y => xlt (ld x.1) (ld y.1);
     xabs := d_abs;
     gteps := fun x e => gteps (ld x.1) e;
     xsqrt := d_sqrt;
     divsz := fun x n =>
       let* v := divsz (ld x.1) n in
       let* d := divsz (ld x.2) n in
       Ok (v, d) |}.
End Class.

(** ** The ring of dual numbers over a field *)
Definition dual (F : Type) : Type := (F * F)%type.
Section Ring.
Variable F : fieldType.
Notation D := (dual F).

Canonical dual_eqType := [eqType of D for [eqType of F * F]].
Canonical dual_choiceType := [choiceType of D for [choiceType of F * F]].

Definition dadd (x y : D) : D := (x.1 + y.1, x.2 + y.2).
Definition dopp (x : D) : D := (- x.1, - x.2).
Definition dmul (x y : D) : D := (x.1 * y.1, x.1 * y.2 + x.2 * y.1).
Definition dinv (x : D) : D := if x.1 == 0 then x else (x.1^-1, - (x.2 / x.1 / x.1)).

Lemma daddA : associative dadd.
Proof. by move=> x y z; congr (_, _); rewrite /= addrA. Qed.
Lemma daddC : commutative dadd.
Proof. by move=> x y; congr (_, _); rewrite /= addrC. Qed.
Lemma dadd0 : left_id (0, 0) dadd.
Proof. by move=> [x1 x2]; congr (_, _); rewrite /= add0r. Qed.
Lemma daddN : left_inverse (0, 0) dopp dadd.
Proof. by move=> [x1 x2]; congr (_, _); rewrite /= addNr. Qed.
Definition dual_zmodMixin := ZmodMixin daddA daddC dadd0 daddN.
Canonical dual_zmodType := Eval hnf in ZmodType D dual_zmodMixin.

Lemma dmulA : associative dmul.
Proof.
move=> [x1 x2] [y1 y2] [z1 z2]; congr (_, _); rewrite /= ?mulrA //.
by rewrite mulrDr mulrDl !mulrA addrA.
Qed.
Lemma dmulC : commutative dmul.
Proof. by move=> [x1 x2] [y1 y2]; congr (_, _); rewrite /= 1?mulrC // addrC; congr (_ + _); rewrite mulrC. Qed.
Lemma dmul1 : left_id (1, 0) dmul.
Proof. by move=> [x1 x2]; congr (_, _); rewrite /= ?mul1r // mul0r addr0. Qed.
Lemma dmulD : left_distributive dmul dadd.
Proof.
move=> [x1 x2] [y1 y2] [z1 z2]; congr (_, _); rewrite /= !mulrDl //.
by rewrite addrACA.
Qed.
Lemma done0 : (1, 0) != (0, 0) :> D.
Proof. by apply/negP => /eqP [] /eqP; rewrite oner_eq0. Qed.
Definition dual_ringMixin := ComRingMixin dmulA dmulC dmul1 dmulD done0.
Canonical dual_ringType := Eval hnf in RingType D dual_ringMixin.
Canonical dual_comRingType := Eval hnf in ComRingType D dmulC.

Definition dunit : pred D := fun x => x.1 != 0.
Lemma dmulV : {in dunit, left_inverse 1 dinv *%R}.
Proof.
move=> [x1 x2]; rewrite unfold_in /= => H; rewrite /dinv /= (negbTE H).
by congr (_, _); rewrite /= ?mulVf // mulNr divfK // mulrC subrr.
Qed.
Lemma dunitP (x y : D) : y * x = 1 -> dunit x.
Proof.
case: x y => [x1 x2] [y1 y2] [E _]; rewrite /dunit /=; apply/eqP => Z.
by move: E => /eqP; rewrite Z mulr0 eq_sym oner_eq0.
Qed.
Lemma dinv_out : {in [predC dunit], dinv =1 id}.
Proof. by move=> [x1 x2]; rewrite inE /= unfold_in /dunit /= negbK /dinv /= => ->. Qed.
Definition dual_unitRingMixin := ComUnitRingMixin dmulV dunitP dinv_out.
Canonical dual_unitRingType := Eval hnf in UnitRingType D dual_unitRingMixin.
Canonical dual_comUnitRingType := Eval hnf in [comUnitRingType of D].

Lemma dunitE (x : D) : (x \is a GRing.unit) = (x.1 != 0). Proof. by []. Qed.

Lemma d1D (x y : D) : (x + y).1 = x.1 + y.1. Proof. by []. Qed.
Lemma d2D (x y : D) : (x + y).2 = x.2 + y.2. Proof. by []. Qed.
Lemma d1N (x : D) : (- x).1 = - x.1. Proof. by []. Qed.
Lemma d2N (x : D) : (- x).2 = - x.2. Proof. by []. Qed.
Lemma d1M (x y : D) : (x * y).1 = x.1 * y.1. Proof. by []. Qed.
Lemma d2M (x y : D) : (x * y).2 = x.1 * y.2 + x.2 * y.1. Proof. by []. Qed.

(** the value and the embedding are morphisms of rings *)
Definition dval (x : D) : F := x.1.
Lemma dval_morph : rmorphism dval.
Proof. by do !split. Qed.
Canonical dval_additive := Additive dval_morph.
Canonical dval_rmorphism := RMorphism dval_morph.

Definition dcst (a : F) : D := (a, 0).
Lemma dcst_morph : rmorphism dcst.
Proof.
split=> [a b|]; first by congr (_, _); rewrite /= oppr0 addr0.
by split=> // a b; congr (_, _); rewrite /= mulr0 mul0r addr0.
Qed.
Canonical dcst_additive := Additive dcst_morph.
Canonical dcst_rmorphism := RMorphism dcst_morph.

Lemma lit_dual z : ring_of_Z dual_ringType z = (ring_of_Z F z, 0).
Proof.
have E k : k%:R = (k%:R, 0) :> D by rewrite -[RHS]/(dcst k%:R) rmorph_nat.
case: z => [|p|p] //=; rewrite E //; congr (_, _) => /=; exact: oppr0.
Qed.

Lemma ddivE (x y : D) : y.1 != 0 -> x / y = (x.1 / y.1, (x.2 - x.1 / y.1 * y.2) / y.1).
Proof.
move=> H; rewrite /GRing.inv /= /dinv (negbTE H); congr (_, _) => /=.
rewrite mulrN addrC mulrBl; congr (_ - _).
by rewrite !mulrA; congr (_ * _); rewrite mulrAC.
Qed.
End Ring.

(** ** Arithmetic in a commutative ring, compared with 0 up to the elements without inverse *)
Definition locS (R : comUnitRingType) (lt : R -> R -> bool) (ab : R -> R) (sq : R -> outcome R) : scalar :=
  {| elt := R; xpr := R; epsT := R; ld := id; st := id;
     lit := ring_of_Z R;
     xadd := fun a b => Ok (a + b);
     xsub := fun a b => Ok (a - b);
     xmul := fun a b => Ok (a * b);
     xdiv := @exact_div R;
     xneg := fun a => Ok (- a);
     xeq := fun a b => (a - b) \isn't a GRing.unit;
     xlt := lt;
     xabs := fun a => Ok (ab a);
     gteps := fun a e => lt e a;
     xsqrt := sq;
     divsz := fun a n => exact_div a (ring_of_Z R n) |}.

Section Det.
Variables (R : comUnitRingType) (lt : R -> R -> bool) (ab : R -> R) (sq : R -> outcome R).
Notation K := (locS lt ab sq).
(** the elements without inverse are closed under sums and products: the ring is local *)
Hypothesis local : forall a b : R, a + b \is a GRing.unit -> (a \is a GRing.unit) || (b \is a GRing.unit).

Lemma loc_divE (a b : R) : b \is a GRing.unit -> exact_div a b = Ok (a / b).
Proof. by rewrite /exact_div => ->. Qed.

Lemma for_prodR n (g : nat -> R) c0 (body : nat -> R -> outcome R) :
  (forall k c, (k < n)%N -> body k c = Ok (c * g k)) ->
  for_ 0 n body c0 = Ok (c0 * \prod_(k < n) g k).
Proof.
move=> H.
rewrite (@for_states _ _ _ _ (fun h => c0 * \prod_(k < h) g k)) //.
- exact/leP.
- by rewrite big_ord0 mulr1.
by move=> k [_ /ltP Hk]; rewrite H // big_ord_recr /= mulrA.
Qed.

Lemma loc_det_prod n (f : nat -> nat -> R) (factor : R) : factor \is a GRing.unit ->
  det_prod K n (mk n n f) factor = Ok ((\prod_(i < n) f i i) / factor).
Proof.
move=> Hf; rewrite /det_prod (@for_prodR n (fun i => f i i)).
  by rewrite /= loc_divE // mul1r.
by move=> k c /ltP Hk; rewrite aget_mk.
Qed.

(** a row with a unit in the column is found *)
Lemma loc_search fuel n (f : nat -> nat -> R) r i p :
  (r <= i < n)%N -> (p < n)%N -> (n - i <= fuel)%N ->
  (exists2 k, (i <= k < n)%N & f k p \is a GRing.unit) ->
  exists2 i', det_search K fuel n (mk n n f) r i p = Ok (Cont (i', p)) &
    (r <= i' < n)%N /\ f i' p \is a GRing.unit.
Proof.
elim: fuel i => [|fuel IH] i Hi Hp Hf [k Hk Uk]; first by lia.
have [/andP[Hri Hin]] := (Hi); rewrite /= aget_mk; try exact/ltP.
rewrite /= subr0; case U : (f i p \is a GRing.unit) => /=.
  by exists i.
have Hik : (i < k)%N.
  by rewrite ltn_neqAle; case/andP: Hk => -> _; rewrite andbT; apply/eqP => E; rewrite E Uk in U.
rewrite !Nat.add_1_r !eqbE; case: eqP => [En|_]; first by lia.
have [|||| i' -> [Hi' U']] := IH i.+1; try by [lia].
  by exists k => //; lia.
by exists i'.
Qed.

(** no unit in a block of r+1 columns and n-r rows, zeros below the diagonal before it *)
Lemma detf_nonunit n (f : nat -> nat -> R) r : (r < n)%N ->
  (forall i j, (j < r)%N -> (j < i < n)%N -> f i j = 0) ->
  (forall i, (r <= i < n)%N -> f i r \isn't a GRing.unit) -> detf n f \isn't a GRing.unit.
Proof.
move=> Hr Hz Hn; rewrite /detf /determinant; apply/negP.
have S (I : Type) (l : seq I) (P : pred I) (g : I -> R) :
    (forall i, g i \isn't a GRing.unit) -> \sum_(i <- l | P i) g i \isn't a GRing.unit.
  move=> Hg; elim/big_rec: _ => [|i x _ Hx]; first by rewrite unitr0.
  by apply/negP => /local; rewrite (negbTE Hx) (negbTE (Hg i)).
apply/negP/S => s.
have [i /andP [Hi Hs]] : exists i : 'I_n, (r <= i)%N && (s i <= r)%N.
  case: (boolP [exists i : 'I_n, (r <= i)%N && (s i <= r)%N]) => [/existsP //|].
  rewrite negb_exists => /forallP Hno; exfalso.
  have Hsub : [set (s^-1)%g j | j : 'I_n & (j <= r)%N] \subset [set i : 'I_n | (i < r)%N].
    apply/subsetP => x /imsetP[j]; rewrite inE => Hj ->; rewrite inE.
    have := Hno ((s^-1)%g j); rewrite permKV Hj andbT -ltnNge //.
  have := subset_leq_card Hsub; rewrite card_imset; last exact: perm_inj.
  have Hc k : (k <= n)%N -> #|[set i : 'I_n | (i < k)%N]| = k.
    move=> Hk; rewrite -[RHS]card_ord -(card_imset _ (_ : injective (widen_ord Hk))); last first.
      by move=> x y /(congr1 val) /= /val_inj.
    apply: eq_card => i; rewrite inE; apply/idP/imsetP => [Hi|[j _ ->]]; last exact: (ltn_ord j).
    by exists (Ordinal Hi) => //; apply: val_inj.
  have -> : [set j : 'I_n | (j <= r)%N] = [set i : 'I_n | (i < r.+1)%N] by apply/setP => j; rewrite !inE.
  by rewrite !Hc ?ltnn // ltnW.
have U : (\matrix_(i < n, j < n) f i j) i (s i) \isn't a GRing.unit.
  rewrite mxE; move: Hs; rewrite leq_eqVlt => /orP [/eqP ->|Hs]; first by apply: Hn; rewrite Hi ltn_ord.
  by rewrite Hz ?unitr0 //; rewrite (leq_trans Hs Hi) ltn_ord.
rewrite (bigD1 i) //= mulrCA; apply/negP; rewrite unitrM => /andP [Ui _].
by rewrite Ui in U.
Qed.

Lemma detf_swapR n (f : nat -> nat -> R) a b :
  (a < n)%N -> (b < n)%N -> a != b ->
  detf n (fun i j => if i == a then f b j else if i == b then f a j else f i j) = - detf n f.
Proof.
move=> Ha Hb Hab; rewrite /detf.
set M := \matrix_(i < n, j < n) f i j.
have -> : \matrix_(i < n, j < n)
   (if (i : nat) == a then f b j else if (i : nat) == b then f a j else f i j)
   = xrow (Ordinal Ha) (Ordinal Hb) M.
  apply/matrixP => i j; rewrite !mxE.
  case: tpermP => [->|->|/eqP H1 /eqP H2] /=; rewrite ?eqxx //.
    by rewrite eq_sym (negbTE Hab).
  have -> : ((i : nat) == a) = false by apply: contraNF H1 => /eqP E; apply/eqP/val_inj.
  by have -> : ((i : nat) == b) = false by apply: contraNF H2 => /eqP E; apply/eqP/val_inj.
rewrite xrowE det_mulmx /tperm_mx det_perm odd_tperm.
by rewrite -(inj_eq val_inj) /= Hab expr1 mulN1r.
Qed.

Definition elimR (f : nat -> nat -> R) r p (i j : nat) : R :=
  if [&& (p < i)%N, i != r & (p <= j)%N] then f i j - f i p * f r j / f r p else f i j.

Lemma detf_elimR n (f : nat -> nat -> R) r :
  (r < n)%N -> f r r \is a GRing.unit -> (forall j, (j < r)%N -> f r j = 0) ->
  detf n (elimR f r r) = detf n f.
Proof.
move=> Hr Hrr H0; rewrite /detf.
set M := \matrix_(i < n, j < n) f i j.
pose L : 'M[R]_n := \matrix_(i, k) ((i == k)%:R - ((r < i)%N && ((k : nat) == r))%:R * (f i r / f r r)).
have -> : \matrix_(i < n, j < n) elimR f r r i j = L *m M.
  apply/matrixP => i j; rewrite !mxE /elimR.
  have -> : \sum_k L i k * M k j
     = f i j - ((r < i)%N)%:R * (f i r / f r r) * f r j.
    rewrite (eq_bigr (fun k : 'I_n => (i == k)%:R * f k j
       - (((r < i)%N)%:R * (f i r / f r r)) * (((k : nat) == r)%:R * f k j))); last first.
      move=> k _; rewrite !mxE mulrBl; congr (_ - _).
      by case: (r < i)%N; case: eqP => /= _; rewrite ?mul1r ?mul0r ?mulr0.
    rewrite sumrB -mulr_sumr; congr (_ - _ * _).
      rewrite (bigD1 i) //= eqxx mul1r big1 ?addr0 // => k Hk.
      by rewrite eq_sym (negbTE Hk) mul0r.
    rewrite (bigD1 (Ordinal Hr)) //= eqxx mul1r big1 ?addr0 // => k Hk.
    have -> : ((k : nat) == r) = false by apply: contraNF Hk => /eqP E; apply/eqP/val_inj.
    by rewrite mul0r.
  case: (ltnP r i) => /= Hri; last by rewrite !mul0r subr0.
  rewrite gtn_eqF //= mul1r mulrAC.
  by case: leqP => // Hj; rewrite (H0 j) // mulr0 subr0.
rewrite det_mulmx.
have -> : \det L = 1.
  rewrite det_trig; last first.
    apply/is_trig_mxP => i k Hik; rewrite mxE.
    have -> : (i == k) = false by apply/negbTE/negP => /eqP E; rewrite E ltnn in Hik.
    case: (ltnP r i) => //= Hri; last by rewrite mul0r subrr.
    by rewrite gtn_eqF ?mul0r ?subrr // (ltn_trans Hri).
  apply: big1 => i _; rewrite mxE eqxx.
  case: (ltnP r i) => //= Hri; last by rewrite mul0r subr0.
  by rewrite gtn_eqF ?mul0r ?subr0.
by rewrite mul1r.
Qed.

Lemma loc_elim n (f : nat -> nat -> R) r p :
  (r < n)%N -> (p < n)%N -> f r p \is a GRing.unit ->
  det_eliminate K n (mk n n f) r p = Ok (mk n n (elimR f r p)).
Proof.
move=> Hr Hp Hnz.
rewrite (@det_eliminate_mk K n f (fun i j => f i j - f i p * f r j / f r p)); try exact/ltP.
  congr Ok; apply: mk_ext => i j /ltP Hi /ltP Hj.
  by rewrite /elimR !ltbE !eqbE !lebE -andbA.
by move=> i j *; rewrite /elim_val /= loc_divE.
Qed.

Definition swapR (g : nat -> nat -> R) a r (i j : nat) : R :=
  if i == a then g r j else if i == r then g a j else g i j.

Lemma loc_swap n (g : nat -> nat -> R) (factor : R) a r :
  (a < n)%N -> (r < n)%N ->
  (if Nat.eqb a r then Ok (mk n n g, factor)
   else let* A := swap_rows K n n (mk n n g) a r in
        let* f := xmul (s := K) (ld (s := K) factor) (lit (s := K) (-1)) in
        Ok (A, st (s := K) f))
  = Ok (mk n n (swapR g a r), if a == r then factor else - factor).
Proof.
move=> Ha Hr; rewrite eqbE; case: eqP => [->|_].
  congr (Ok (_, _)); apply: mk_ext => i j _ _; rewrite /swapR; by case: eqP => [->|].
rewrite swap_rows_mk; try exact/ltP.
by rewrite /= mulrN1; congr (Ok (_, _)).
Qed.

Definition loc_inv n (f : nat -> nat -> R) (r : nat) (s : matrix R * R * nat) : Prop :=
  exists (g : nat -> nat -> R) (factor : R), s = (mk n n g, factor, r) /\ factor \is a GRing.unit /\ (forall i j, (j < r)%N -> (j < i < n)%N -> g i j = 0) /\ detf n g = factor * detf n f /\ factor * factor = 1.

Lemma loc_det_general n (f : nat -> nat -> R) : detf n f \is a GRing.unit ->
  det_general K n (mk n n f) = Ok (detf n f).
Proof.
move=> Ud; rewrite /det_general.
set body := (fun (r : nat) (s : matrix R * R * nat) => _).
have [|||c [E Hc]] := @for_ret_inv _ _ (loc_inv n f) (fun d => d = detf n f) 0 n body
  (mk n n f, lite K 1, 0%N).
- by [].
- exists f, 1; split=> //; rewrite unitr1; split=> //.
  by rewrite !mul1r; split.
- move=> r s /andP[_ Hr] [g [factor [-> [Uf [Hz [Hd H1]]]]]].
  rewrite /body /= lebE leqNgt Hr /=.
  have Ug : detf n g \is a GRing.unit by rewrite Hd unitrM Uf.
  have [|||| i' -> [Hi' Up]] := @loc_search (n * n + 1) n g r r r.
  + by rewrite leqnn.
  + by [].
  + by case: (n) Hr => // n' _; rewrite mulSn; lia.
  + case: (boolP [exists k : 'I_n, (r <= k)%N && (g k r \is a GRing.unit)]) => [/existsP [k /andP [Hk U]]|].
      by exists k => //; rewrite Hk ltn_ord.
    rewrite negb_exists => /forallP Hno; exfalso; move: Ug; apply/negP.
    apply: (@detf_nonunit _ _ r) => // i /andP [Hi Hin].
    by have := Hno (Ordinal Hin); rewrite /= Hi.
  case/andP: (Hi') => Hri Hin; rewrite /= (loc_swap g factor Hin Hr) /=.
  have Hg1 : swapR g i' r r r \is a GRing.unit by rewrite /swapR eqxx; case: (r =P i') => [E|_] //; rewrite {1}E.
  rewrite (loc_elim Hr Hr Hg1) /=.
  eexists; split; first reflexivity.
  set factor' := if _ then _ else _.
  have Hnz' : factor' \is a GRing.unit by rewrite /factor'; case: ifP; rewrite ?unitrN.
  exists (elimR (swapR g i' r) r r), factor'; split; first by rewrite Nat.add_1_r.
  split=> //.
  have Hz1 i j : (j < r)%N -> (j < i < n)%N -> swapR g i' r i j = 0.
    move=> Hj Hi; rewrite /swapR; case: eqP => [?|_]; [|case: eqP => [?|_]]; apply: Hz => //; lia.
  split.
    move=> i j Hj Hi; rewrite /elimR.
    case: (ltngtP j r) => [Hjr|?|Ejr]; last 2 first.
    - by exfalso; lia.
    - subst j; have Hlt : (r < i)%N by lia.
      rewrite Hlt gtn_eqF //= ?leqnn.
      by rewrite mulrK // subrr.
    by rewrite !andbF Hz1.
  split; last by rewrite /factor'; case: ifP => // _; rewrite mulrNN.
  rewrite detf_elimR //; last by move=> j Hj; apply: Hz1 => //; rewrite Hj.
  rewrite /factor'; case: eqP => [Ei|/eqP Hne].
    rewrite -Hd; apply: detf_ext => i j _ _; rewrite /swapR Ei; by case: eqP => [->|].
  by rewrite -/(swapR g i' r) detf_swapR // Hd mulNr.
rewrite E /= {E}.
case: c Hc => [[[A factor] pivot]|d] /=; last by move=> ->.
case=> g [fa [[-> -> _] [Hnz [Hz [Hd H1]]]]].
rewrite loc_det_prod //.
have -> : \prod_(i < n) g i i = detf n g.
  rewrite /detf -det_tr det_trig; first by apply: eq_bigr => i _; rewrite !mxE.
  by apply/is_trig_mxP => i k Hik; rewrite !mxE Hz // Hik ltn_ord.
by rewrite Hd mulrAC divrr // mul1r.
Qed.

Lemma loc_det n (f : nat -> nat -> R) : (n <= 3)%N && (0 < n)%N || (detf n f \is a GRing.unit) ->
  det K n (mk n n f) = Ok (detf n f).
Proof.
case: n => [|[|[|[|n]]]] /= H.
- exact: loc_det_general.
- by rewrite detf1.
- by rewrite detf2.
- by rewrite detf3.
- exact: loc_det_general.
Qed.

(** *** inv, while the determinants of the minors are computed without division *)
Definition adjR n (f : nat -> nat -> R) (i j : nat) : R :=
  (-1) ^+ (j + i) * detf n.-1 (fun a b => f (bump j a) (bump i b)).

Lemma loc_div n m (f : nat -> nat -> R) (s : R) : s \is a GRing.unit ->
  op_div K n m (mk n m f) s = Ok (mk n m (fun i j => f i j / s)).
Proof.
move=> U; rewrite /op_div div_tab /= subr0 U /=.
by apply: tabM_ok => i j _ _; rewrite loc_divE.
Qed.

Lemma loc_inv_general n (f : nat -> nat -> R) : detf n f \is a GRing.unit ->
  (forall i j, (i < n)%N -> (j < n)%N -> det K n.-1 (mk n.-1 n.-1 (fun a b => f (skip i a) (skip j b))) =
    Ok (detf n.-1 (fun a b => f (skip i a) (skip j b)))) -> (3 < n)%N ->
  inv_general K n (mk n n f) = Ok (mk n n (fun i j => adjR n f i j / detf n f)).
Proof.
move=> U Hm Hn; rewrite inv_general_tab loc_det ?U ?orbT //=.
rewrite (@tabM_ok _ _ _ _ (fun i j => adjR n f j i)); last first.
  move=> i j /ltP Hi /ltP Hj; rewrite Nat.sub_1_r Hm //= cof_signE /adjR; congr (Ok (_ * _)).
  by apply: detf_ext => a b _ _; rewrite !skip_bump.
by rewrite [bind _ _]/= trans_mk [bind _ _]/= loc_div.
Qed.

Lemma loc_inv1 (f : nat -> nat -> R) : detf 1 f \is a GRing.unit ->
  inv1 K (mk 1 1 f) = Ok (mk 1 1 (fun i j => adjR 1 f i j / detf 1 f)).
Proof.
rewrite /inv1 [det K 1 _]/= /= detf1 /exact_div => ->.
rewrite /mk /= /adjR /= expr0 mul1r; congr (Ok [:: [:: _ / _]]).
by rewrite /detf det_mx00.
Qed.


Lemma loc_inv2 (f : nat -> nat -> R) : detf 2 f \is a GRing.unit ->
  inv2 K (mk 2 2 f) = Ok (mk 2 2 (fun i j => adjR 2 f i j / detf 2 f)).
Proof.
move=> U; rewrite /inv2 loc_det // [bind _ _]/= subr0 U; cbn [negb].
set X := [:: _; _]; have -> : X = mk 2 2 (adjR 2 f).
  rewrite /X /mk /= /adjR /= !detf1 /bump /= ?expr0 ?expr1 ?sqrrN ?expr1n.
  by rewrite ?mulN1r ?mul1r.
by rewrite loc_div.
Qed.

Lemma loc_inv3 (f : nat -> nat -> R) : detf 3 f \is a GRing.unit ->
  inv3 K (mk 3 3 f) = Ok (mk 3 3 (fun i j => adjR 3 f i j / detf 3 f)).
Proof.
move=> U; rewrite /inv3 loc_det // [bind _ _]/= subr0 U; cbn [negb].
set X := [:: _; _; _]; have -> : X = mk 3 3 (adjR 3 f).
  rewrite /X /mk /= /adjR /= !detf2 /bump /= ?expr0 ?expr1 ?sqrrN ?expr1n.
  rewrite -signr_odd /= -[(-1) ^+ 4]signr_odd /= ?expr0 ?expr1.
  by rewrite ?addn0 ?add0n -[(1 + 1)%N]/2%N !mul1r !mulN1r !opprB.
by rewrite loc_div.
Qed.

Lemma loc_inv_small n (f : nat -> nat -> R) : (0 < n <= 4)%N -> detf n f \is a GRing.unit ->
  Model.inv K n (mk n n f) = Ok (mk n n (fun i j => adjR n f i j / detf n f)).
Proof.
case: n => [|[|[|[|[|n]]]]] // _ U.
- exact: loc_inv1.
- exact: loc_inv2.
- exact: loc_inv3.
by apply: loc_inv_general => // i j _ _; rewrite loc_det.
Qed.

Lemma adjR_mx n (A : 'M[R]_n) (i j : 'I_n) : adjR n (mxf 0 A) i j = \adj A i j.
Proof.
rewrite mxE /cofactor /adjR /detf; congr (_ * \det _).
case: n A i j => [|n] A i j; first by case: i.
apply/matrixP => a b; rewrite !mxE; exact: (mxf_ord 0 A (lift j a) (lift i b)).
Qed.

Lemma detf_mxR n (A : 'M[R]_n) : detf n (mxf 0 A) = \det A.
Proof. by congr (\det _); apply/matrixP => i j; rewrite mxE mxf_ord. Qed.

Lemma loc_det_mx n (A : 'M[R]_n) : (0 < n <= 3)%N || (A \in unitmx) -> det K n (mxrows A) = Ok (\det A).
Proof. by move=> H; rewrite (mxrowsE 0 A) loc_det detf_mxR //; move: H; rewrite unitmxE andbC. Qed.

Lemma adj_inv n (A : 'M[R]_n) : A \in unitmx ->
  mk n n (fun i j => adjR n (mxf 0 A) i j / detf n (mxf 0 A)) = mxrows (invmx A).
Proof.
move=> UA; apply: esym; apply: mxrows_mk => i j.
by rewrite adjR_mx detf_mxR /invmx UA [in RHS]mxE mulrC.
Qed.

Lemma loc_inv_mx n (A : 'M[R]_n) : (0 < n <= 4)%N -> A \in unitmx ->
  Model.inv K n (mxrows A) = Ok (mxrows (invmx A)).
Proof.
move=> Hn UA; rewrite (mxrowsE 0 A) loc_inv_small ?adj_inv //.
by rewrite detf_mxR -unitmxE.
Qed.

(** larger matrices: right where no minor vanishes *)
Lemma loc_inv_mx_minors n (A : 'M[R]_n) : (3 < n)%N -> A \in unitmx ->
  (forall i j, cofactor A i j \is a GRing.unit) -> Model.inv K n (mxrows A) = Ok (mxrows (invmx A)).
Proof.
move=> Hn UA Hc; rewrite (mxrowsE 0 A).
have -> B : Model.inv K n B = inv_general K n B by case: n Hn {A UA Hc} B => [|[|[|[|n]]]].
rewrite loc_inv_general ?adj_inv // ?detf_mxR -?unitmxE // => i j Hi Hj.
rewrite loc_det //; apply/orP; right.
have := Hc (Ordinal Hi) (Ordinal Hj); rewrite /cofactor unitrM => /andP [_].
suff -> : detf n.-1 (fun a b => mxf 0 A (skip i a) (skip j b)) = \det (row' (Ordinal Hi) (col' (Ordinal Hj) A)) by [].
rewrite /detf; congr (\det _); apply/matrixP => a b; rewrite !mxE !skip_bump.
exact: (mxf_ord 0 A (lift (Ordinal Hi) a) (lift (Ordinal Hj) b)).
Qed.
End Det.
