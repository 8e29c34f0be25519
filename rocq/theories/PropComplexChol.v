(** * C100: chol, abs and compare on matrices of complex numbers

    [R] is a real closed field, [R[i]] mathcomp's complex numbers over it; the
    element type [C] is std::complex over [R] with the division, modulus and square
    root of libstdc++'s templates (CComplexOps.v). *)

From Coq Require Import ZArith List Lia.
From mathcomp Require Import all_ssreflect all_algebra.
From mathcomp Require Import complex.
From mathcomp Require Import zify ssrZ.
From Verif Require Import Base Scalar Model Spec Loops Struct CComplex CComplexOps Param RingOps Exact ExactLemmas Det SimExact Preds PropAlg BoundedInt Chol CholField PropComplexE.

Set Implicit Arguments.
Unset Strict Implicit.
Unset Printing Implicit Defensive.

Import mathcomp.ssreflect.order.Order.TTheory GRing.Theory Num.Theory.
Local Notation ltP := ssrnat.ltP (only parsing).
Local Notation leP := ssrnat.leP (only parsing).
Local Open Scope ring_scope.
Delimit Scope Z_scope with Z.

Section Scalars.
Variable R : rcfType.
Notation K := (realS R).
Variables (ltx : R * R -> R * R -> bool) (dz : R * R -> Z -> outcome (R * R)).
Notation o := (@rest_std K ltx dz).
Notation C := (complexS K no_fix o).

Lemma two : ring_of_Z R 2 = 2%:R. Proof. by []. Qed.

(** ** the operations on single numbers *)
Definition modulus (z : R[i]) : R := Num.sqrt (complex.Re z ^+ 2 + complex.Im z ^+ 2).
(** the square root in the right half plane *)
Definition principal (z w : R[i]) : Prop :=
  w ^+ 2 = z /\ (0 < complex.Re w \/ (complex.Re w = 0 /\ 0 <= complex.Im w)).

Lemma cdiv_exact (z w : R[i]) : @cdiv_std K (parts z) (parts w) =
  if w == 0 then UB DivByZero else Ok (parts (z / w)).
Proof.
case: z => a b; case: w => c d; rewrite /cdiv_std /c_norm /= /exact_div unitfE.
have -> : (c * c + d * d == 0) = ((c +i* d)%C == 0 :> R[i]).
  by rewrite eq_complex /= -!expr2 paddr_eq0 ?sqr_ge0 // !sqrf_eq0.
case: eqP => //= _; rewrite /parts /= -!expr2; congr (Ok (_, _)).
- by rewrite mulrDl -!mulrA mulrN opprK.
- by rewrite mulrBl -!mulrA mulrN addrC.
Qed.

Lemma sqrt_ok (x : R) : 0 <= x ->
  (if x < 0 then UB BadConversion else Ok (Num.sqrt x)) = Ok (Num.sqrt x).
Proof. by rewrite leNgt => /negbTE ->. Qed.
Lemma div_ok (x y : R) : y != 0 -> exact_div x y = Ok (x / y).
Proof. by rewrite /exact_div unitfE => ->. Qed.
Lemma sq_ge0 (x : R) : 0 <= x * x.
Proof. by rewrite -expr2 sqr_ge0. Qed.

Lemma cabs_exact (z : R[i]) : @cabs_std K (parts z) = Ok (modulus z).
Proof.
case: z => a b; rewrite /cabs_std /modulus /=.
set s : R := if `|a| < `|b| then `|b| else `|a|.
have s0 : 0 <= s by rewrite /s; case: ifP.
have [Ha Hb] : `|a| <= s /\ `|b| <= s.
  by rewrite /s; case: ltrP => H; split=> //; exact: ltW.
case: eqP => [E|/eqP N].
  move: Ha Hb; rewrite E !normr_le0 => /eqP -> /eqP ->.
  by rewrite expr0n addr0 sqrtr0.
rewrite !div_ok //= sqrt_ok ?addr_ge0 ?sq_ge0 //=.
rewrite -{1}(ger0_norm s0) -sqrtr_sqr -sqrtrM ?sqr_ge0 //.
by congr (Ok (Num.sqrt _)); rewrite -!expr2 mulrDr -!exprMn ![s * _]mulrC !divfK.
Qed.

Lemma csqrt_exact (z : R[i]) : exists w, @csqrt_std K (parts z) = Ok (parts w) /\ principal z w.
Proof.
case: z => a b; rewrite /csqrt_std.
have n2 : 2%:R != 0 :> R by rewrite pnatr_eq0.
rewrite cabs_exact /modulus /=; case: eqP => [->|/eqP Na].
- rewrite div_ok //= sqrt_ok ?divr_ge0 ?ler0n //=; set t := Num.sqrt _.
  have t0 : 0 <= t by exact: sqrtr_ge0.
  have E : t ^+ 2 + t ^+ 2 = `|b| by rewrite sqr_sqrtr ?divr_ge0 ?ler0n // -mulr2n -mulr_natr divfK.
  exists (t +i* (if b < 0 then - t else t))%C; split=> //; split=> /=.
    rewrite expr2; simpc; congr (_ +i* _)%C.
      by case: ifP => _; rewrite ?mulrNN subrr.
    case: ltrP => Hb; last by rewrite -expr2 E ger0_norm.
    by rewrite mulrN mulNr -expr2 -opprD E ltr0_norm ?opprK.
  move: t0; rewrite le_eqVlt => /orP[/eqP t0|->]; last by left.
  right; rewrite -t0 oppr0; by case: ifP.
set m := Num.sqrt _; have m0 : 0 <= m by exact: sqrtr_ge0.
have mm : m ^+ 2 = a ^+ 2 + b ^+ 2 by rewrite sqr_sqrtr // addr_ge0 ?sqr_ge0.
have a0 : 0 < `|a| by rewrite normr_gt0.
have e0 : 0 < 2%:R * (m + `|a|) by rewrite mulr_gt0 ?ltr0n // ltr_paddl.
rewrite sqrt_ok ?(ltW e0) //=; set t := Num.sqrt _.
have t0 : 0 < t by rewrite sqrtr_gt0.
have tt : t ^+ 2 = 2%:R * (m + `|a|) by rewrite sqr_sqrtr // ltW.
have Nt : t != 0 by rewrite gt_eqF.
have tt0 : t ^+ 2 != 0 by rewrite expf_eq0.
have tt4 : 4%:R * t ^+ 2 != 0 by rewrite mulf_neq0 // pnatr_eq0.
(* u = t/2, v = |b|/t: u^2 - v^2 = |a| and 2uv = |b| *)
have p0 : m + `|a| != 0 by rewrite gt_eqF // ltr_paddl.
have Eu : (t / 2%:R) * (t / 2%:R) = (m + `|a|) / 2%:R.
  by rewrite mulrACA -expr2 tt [2%:R * _]mulrC -mulrA mulVKf.
have Ebb : b ^+ 2 = (m - `|a|) * (m + `|a|) by rewrite -subr_sqr mm real_normK ?num_real // addrAC subrr add0r.
have Evv : (b / t) * (b / t) = (m - `|a|) / 2%:R.
  by rewrite mulrACA -invfM -!expr2 tt Ebb [2%:R * _]mulrC invfM !mulrA mulfK.
have Ed : (m + `|a|) / 2%:R - (m - `|a|) / 2%:R = `|a|.
  by rewrite -mulrBl opprB addrC addrA subrK -mulr2n -mulr_natr mulfK.
have Ev (x : R) : (t / 2%:R) * (x / t) = x / 2%:R by rewrite mulf_div [t * x]mulrC -mulf_div divff // mulr1.
have Half (x : R) : x / 2%:R + x / 2%:R = x by rewrite -mulrDl -mulr2n -mulr_natr mulfK.
rewrite !div_ok //=; case: ltrP => Ha.
- exists (t / 2%:R +i* (b / t))%C; split=> //; split=> /=; last by left; rewrite divr_gt0 ?ltr0n.
  by rewrite expr2; simpc; rewrite Eu Evv Ed [_ / t * _]mulrC Ev Half gtr0_norm.
have {}Ha : a < 0 by rewrite lt_neqAle Na.
have Eb : (`|b| / t) * (`|b| / t) = (b / t) * (b / t) by rewrite !mulf_div -!expr2 real_normK ?num_real.
exists (`|b| / t +i* (if (b < 0)%R then - (t / 2%:R) else t / 2%:R))%C; split=> //; split=> /=.
  rewrite expr2; simpc; congr (_ +i* _)%C.
    have -> : (if (b < 0)%R then - (t / 2%:R) else t / 2%:R) * (if (b < 0)%R then - (t / 2%:R) else t / 2%:R) = (t / 2%:R) * (t / 2%:R).
      by case: ifP; rewrite ?mulrNN.
    by rewrite Eb Eu Evv -[LHS]opprK opprB Ed ltr0_norm ?opprK.
  case: ltrP => Hb; rewrite ?mulrN ?mulNr [_ / t * _]mulrC Ev.
    by rewrite -opprD Half ltr0_norm ?opprK.
  by rewrite Half ger0_norm.
case: (b =P 0) => [->|/eqP Nb].
  by right; rewrite normr0 mul0r ltxx divr_ge0 ?ler0n // ltW.
by left; rewrite divr_gt0 ?normr_gt0.
Qed.

Lemma principal_unique (z v w : R[i]) : principal z v -> principal z w -> v = w.
Proof.
move=> [Ev Pv] [Ew Pw]; have : v ^+ 2 == w ^+ 2 by rewrite Ev Ew.
rewrite eqf_sqr => /orP[/eqP //|/eqP E]; move: E Pv; case: v Ev => a b Ev; case: w Ew Pw => c d Ew /= Pw [Ea Eb].
rewrite {}Ea {}Eb oppr_gt0 oppr_ge0 => -[H|[/eqP]].
  by case: Pw => [/lt_trans/(_ H)|[E _]]; [rewrite ltxx|move: H; rewrite E ltxx].
rewrite oppr_eq0 => /eqP E Hd; case: Pw => [|[_ Hd']]; first by rewrite E ltxx.
by rewrite E (_ : d = 0) ?oppr0 //; apply: le_anti; rewrite Hd Hd'.
Qed.

Lemma principal_sqrtc (z : R[i]) : principal z (sqrtc z).
Proof.
split; first exact: sqr_sqrtc.
case: z => a b /=; set r := Num.sqrt (a ^+ 2 + b ^+ 2).
have := sqrtr_ge0 ((r + a) / 2%:R); rewrite le_eqVlt => /orP[/eqP E|H]; [right|by left].
split=> //; case: eqP => [_|/eqP Nb]; first by rewrite mul1r sqrtr_ge0.
move/esym/eqP: E; rewrite sqrtr_eq0 leNgt divr_gt0 ?ltr0n //.
have Hr : `|a| < r.
  have Pb : 0 < b ^+ 2 by rewrite lt_def sqr_ge0 sqrf_eq0 Nb.
  by rewrite -sqrtr_sqr ltr_sqrt ?ltr_addl // ltr_paddl ?sqr_ge0.
by rewrite -ltr_subl_addr sub0r; apply: le_lt_trans Hr; rewrite -normrN ler_norm.
Qed.

Lemma csqrt_sqrtc (z : R[i]) : @csqrt_std K (parts z) = Ok (parts (sqrtc z)).
Proof. by have [w [-> Hw]] := csqrt_exact z; rewrite (principal_unique Hw (principal_sqrtc z)). Qed.

(** division, modulus and principal square root *)
Theorem c100_scalar (z w : R[i]) :
  @xdiv C (parts z) (parts w) = (if w == 0 then UB DivByZero else Ok (parts (z / w))) /\
  @xabs C (parts z) = Ok (modulus z, 0) /\
  exists v, @xsqrt C (parts z) = Ok (parts v) /\ v ^+ 2 = z /\
    (0 < complex.Re v \/ (complex.Re v = 0 /\ 0 <= complex.Im v)).
Proof.
split; first exact: cdiv_exact. split; first by rewrite /= (cabs_exact z).
exact: csqrt_exact.
Qed.

(** ** chol *)
Notation RI := (exactS (fun _ _ : R[i] => false) (@id R[i]) (fun z : R[i] => Ok (sqrtc z))).
Notation isp := (@isparts R).

Lemma chol_there n (A : 'M[R[i]]_n) : refines (mrel isp) (chol RI n (mxrows A)) (chol C n (crows A)).
Proof.
apply: (@chol_ref RI C isp isp) => //; last exact: crows_rel.
- by move=> z p ->; case: z.
- by move=> z p ->; case: z.
- by move=> [a b] p [c d] q -> ->; apply: ref_ok.
- by move=> [a b] p [c d] q -> ->; apply: ref_ok.
- by move=> [a b] p [c d] q -> ->; apply: ref_ok.
- move=> z p w q -> ->; rewrite /= /exact_div unitfE cdiv_exact; case: eqP => //= _; exact: ref_ok.
- move=> z p ->; rewrite /= csqrt_sqrtc; exact: ref_ok.
Qed.

Notation psi := (fun p (z : R[i]) => isp z p).
Lemma chol_back n (A : 'M[R[i]]_n) : refines (mrel psi) (chol C n (crows A)) (chol RI n (mxrows A)).
Proof.
apply: (@chol_ref C RI psi psi) => //.
- by move=> p z ->; case: z.
- by move=> p z ->; case: z.
- by move=> p [a b] q [c d] -> ->; apply: ref_ok.
- by move=> p [a b] q [c d] -> ->; apply: ref_ok.
- by move=> p [a b] q [c d] -> ->; apply: ref_ok.
- by move=> p z q w -> ->; rewrite /= /exact_div unitfE cdiv_exact; case: eqP => //= _; exists (z / w).
- by move=> p z ->; rewrite /= csqrt_sqrtc; exists (sqrtc z).
- have := crows_rel A; elim=> [|r r' M M' Hr _ IH]; constructor=> //.
  by elim: Hr => [|z p v v' Hz _ IHv]; constructor.
Qed.

Lemma crows_inj n m (A B : 'M[R[i]]_(n, m)) : crows A = crows B -> A = B.
Proof.
move/(mxrows_inj (0, 0)) => /matrixP H; apply/matrixP => i j.
by have := H i j; rewrite !mxE; case: (A i j) => a b; case: (B i j) => c d [-> ->].
Qed.
Lemma sqrtc_sq (z : R[i]) : sqrtc z * sqrtc z = z.
Proof. by rewrite -expr2 sqr_sqrtc. Qed.

(** *** what chol returns is a lower triangular L, its diagonal made of principal
    square roots, with L*trans(L) the symmetric matrix with the lower triangle of A:
    the transpose, not the conjugate transpose *)
Theorem c100_returned n (A : 'M[R[i]]_n) X : chol C n (crows A) = Ok X ->
  exists L : 'M[R[i]]_n, X = crows L /\
  [/\ lower L,
      forall i, 0 < complex.Re (L i i) \/ (complex.Re (L i i) = 0 /\ 0 <= complex.Im (L i i)) &
      L *m L^T = \matrix_(i, j) if (j <= i)%N then A i j else A j i].
Proof.
move=> E; have := chol_back A; rewrite E => -[Y [EY _]].
have [L [EL [lL pL HL]]] := fchol_ret sqrtc_sq EY; exists L; split; last first.
  by split=> // i; have [v ->] := pL i; case: (principal_sqrtc v).
by have := chol_there A; rewrite EY EL E => -[Z [[<-] /rel_crows]].
Qed.

(** it returns exactly when no leading principal minor of that matrix, the
    determinant itself excepted, is 0; otherwise it divides by zero *)
Theorem c100_iff n (A : 'M[R[i]]_n) : (exists X, chol C n (crows A) = Ok X) <->
  (forall k (Hk : (k <= n)%N), (0 < k < n)%N ->
     lead_minor (\matrix_(i, j) if (j <= i)%N then A i j else A j i) Hk != 0).
Proof.
rewrite -(fchol_iff (fun _ _ => false) (@id _) sqrtc_sq A); split=> -[X E].
  by have := chol_back A; rewrite E => -[Y [EY _]]; exists Y.
by have := chol_there A; rewrite E => -[Y [EY _]]; exists Y.
Qed.

(** every symmetric complex matrix whose leading minors are not 0 is factored *)
Theorem c100_symmetric n (A : 'M[R[i]]_n) : A^T = A ->
  (forall k (Hk : (k <= n)%N), (0 < k < n)%N -> lead_minor A Hk != 0) ->
  exists L : 'M[R[i]]_n, chol C n (crows A) = Ok (crows L) /\ lower L /\ L *m L^T = A.
Proof.
move=> Asym Hm; have EA : (\matrix_(i, j) if (j <= i)%N then A i j else A j i) = A.
  by apply/matrixP => i j; rewrite mxE; case: ifP => // _; rewrite -{2}Asym mxE.
have [|X E] := proj2 (c100_iff A); first by move=> k Hk; rewrite EA; exact: Hm.
by have [L [EL [lL _ HL]]] := c100_returned E; exists L; rewrite E EL HL EA.
Qed.

(** *** a Hermitian matrix with an element that is not real is never factored:
    neither L*trans(L) nor L times its conjugate transpose is A *)
Definition conj_mx n m (A : 'M[R[i]]_(n, m)) : 'M[R[i]]_(n, m) := map_mx (@conjc R) A.
Definition hermitian n (A : 'M[R[i]]_n) : Prop := (conj_mx A)^T = A.
Definition real_mx n m (A : 'M[R[i]]_(n, m)) : Prop := forall i j, complex.Im (A i j) = 0.

Theorem c100_hermitian n (A L : 'M[R[i]]_n) : hermitian A -> ~ real_mx A ->
  chol C n (crows A) = Ok (crows L) -> L *m L^T <> A /\ L *m (conj_mx L)^T <> A.
Proof.
move=> HA NR E; split=> EA; apply: NR => i j.
  have ET : A^T = A by rewrite -EA trmx_mul trmxK.
  have : conjc (A i j) = A i j.
    have /matrixP/(_ j i) := HA; rewrite !mxE => ->.
    by have /matrixP/(_ j i) := ET; rewrite !mxE => ->.
  by case: (A i j) => a b [] /eqP; rewrite eq_sym -subr_eq0 opprK -mulr2n mulrn_eq0 /= => /eqP.
have [M [/crows_inj EM [_ _ HM]]] := c100_returned E; rewrite -{}EM in HM.
have rL k l : complex.Im (L k l) = 0.
  have D : \sum_p L k p * conjc (L k p) = \sum_p L k p * L k p.
    have H1 : (L *m L^T) k k = A k k by rewrite HM mxE leqnn.
    have H2 : (L *m (conj_mx L)^T) k k = A k k by rewrite EA.
    transitivity ((L *m (conj_mx L)^T) k k); first by rewrite mxE; apply: eq_bigr => p _; rewrite !mxE.
    by rewrite H2 -H1 mxE; apply: eq_bigr => p _; rewrite !mxE.
  have D2 : \sum_p (complex.Im (L k p) ^+ 2) *+ 2 = 0.
    have := congr1 (@complex.Re R) D.
    rewrite !(big_morph (@complex.Re R) (id1 := 0) (op1 := +%R) (@Re_add R) (erefl : complex.Re (0 : R[i]) = 0)).
    move/eqP; rewrite -subr_eq0 -sumrB => /eqP H0; rewrite -[RHS]H0; apply: eq_bigr => p _; case: (L k p) => a b /=.
    by rewrite mulrN opprK opprD opprK addrACA subrr add0r expr2.
  have /eqP := D2; rewrite psumr_eq0 => [/allP/(_ l)|p _]; last by rewrite mulrn_wge0 ?sqr_ge0.
  by rewrite mem_index_enum mulrn_eq0 /= sqrf_eq0 => /(_ isT) /eqP.
rewrite -EA mxE (big_morph (@complex.Im R) (id1 := 0) (op1 := +%R) (@Im_add R) (erefl : complex.Im (0 : R[i]) = 0)).
apply: big1 => p _; rewrite !mxE; have := rL i p; have := rL j p.
by case: (L i p) => a b; case: (L j p) => c d /= -> ->; rewrite mul0r oppr0 mulr0 addr0.
Qed.

(** *** on real matrices it is the real chol *)
Definition cplx n m (A : 'M[R]_(n, m)) : 'M[R[i]]_(n, m) := map_mx (real_complex R) A.

Theorem c100_real n (A L : 'M[R]_n) : chol K n (mxrows A) = Ok (mxrows L) ->
  chol C n (crows (cplx A)) = Ok (crows (cplx L)).
Proof.
pose re (a : R) (p : R * R) := p = (a, 0).
have Eq (a : R) : (a, 0) = parts a%:C%C by [].
have M (B : 'M[R]_n) : mrel re (mxrows B) (crows (cplx B)).
  rewrite (mxrowsE 0 B) /crows (@mxrows_mk _ n n _ (fun i j => (mxf 0 B i j, 0))); first exact: mrel_mk.
  by move=> i j; rewrite mxf_ord !mxE.
have : refines (mrel re) (chol K n (mxrows A)) (chol C n (crows (cplx A))).
  apply: (@chol_ref K C re re) => //.
  - by move=> a p ->.
  - by move=> a p ->.
  - by move=> a p b q -> ->; exists (a + b, 0); rewrite /= /c_add /= addr0.
  - by move=> a p b q -> ->; exists (a - b, 0); rewrite /= /c_sub /= subr0.
  - by move=> a p b q -> ->; exists (a * b, 0); rewrite /= /c_mul /= /no_fix !mulr0 mul0r subr0 addr0.
  - move=> a p b q -> ->; rewrite /= /exact_div unitfE !Eq cdiv_exact; case: eqP => //= /eqP Nb.
    have -> : (b%:C%C == 0 :> R[i]) = false by rewrite eq_complex /= (negbTE Nb).
    by exists (parts (a%:C%C / b%:C%C)); split=> //; rewrite -fmorph_div.
  - move=> a p ->; rewrite /= Eq csqrt_sqrtc; case: ltrP => //= Ha.
    by exists (parts (sqrtc a%:C%C)); split=> //; rewrite /re sqrtc_sqrtr ?lecR.
move=> H E; move: H; rewrite E => -[X [-> HX]]; congr Ok.
have V : forall r x y, Forall2 re r x -> Forall2 re r y -> x = y.
  move=> r x y H; elim: H y => [|z p r' x' Hz _ IH] y HY; inversion HY as [|? q ? y' Hq H']; subst => //.
  by rewrite (IH _ H') Hz Hq.
move: (M L); elim: HX (crows (cplx L)) => [|r r' M' X' Hr _ IH] Y HY; inversion HY as [|? q ? y' Hq H']; subst => //.
by rewrite (IH _ H') (V _ _ _ Hr Hq).
Qed.

(** ** abs and compare *)
Theorem c100_abs n m junk (A : 'M[R[i]]_(n, m)) :
  Model.abs C n m (mk n m junk) (crows A) = Ok (crows (\matrix_(i, j) (modulus (A i j))%:C%C)).
Proof.
rewrite /crows (@mxrows_mk _ n m _ (fun i j => parts (mxf 0 A i j))); last by move=> i j; rewrite mxf_ord !mxE.
rewrite abs_tab; apply: tabM_mx => i j; rewrite !mxE mxf_ord /=.
have -> : (complex.Re (A i j), complex.Im (A i j)) = parts (A i j) by [].
by rewrite cabs_exact.
Qed.

Theorem c100_compare n m (A B : 'M[R[i]]_(n, m)) (eps : R) : exists b,
  compare C n m (crows A) (crows B) eps = Ok b /\
  (b = true <-> forall i j, modulus (A i j - B i j) <= eps).
Proof.
rewrite /crows (@mxrows_mk _ n m _ (fun i j => parts (mxf 0 A i j))); last by move=> i j; rewrite mxf_ord !mxE.
rewrite (@mxrows_mk _ n m _ (fun i j => parts (mxf 0 B i j))); last by move=> i j; rewrite mxf_ord !mxE.
have [|b [-> Hb]] := @compare_mk C n m (fun i j => parts (mxf 0 A i j)) (fun i j => parts (mxf 0 B i j))
  (fun i j => (modulus (mxf 0 A i j - mxf 0 B i j), 0)) eps.
  move=> i j _ _; rewrite /cmp_diff [bind _ _]/=.
  by have := cabs_exact (mxf 0 A i j - mxf 0 B i j); case: (mxf 0 A i j) => a b; case: (mxf 0 B i j) => c d /= ->.
exists b; split=> //; rewrite Hb; split=> H i j.
- have := H i j (ltP (ltn_ord i)) (ltP (ltn_ord j)); rewrite /= !mxf_ord => /negbT; by rewrite -leNgt.
- move=> /ltP Hi /ltP Hj; have := H (Ordinal Hi) (Ordinal Hj); rewrite -!(mxf_ord 0) /= leNgt => /negbTE; exact.
Qed.

(** ** the hypotheses are met *)

(** [[1, -i], [i, 2]] is Hermitian and not real; chol returns *)
Definition exH : 'M[R[i]]_2 := mx22 1 (- 'i%C) 'i%C 2%:R.
Example c100_hermitian_example : hermitian exH /\ ~ real_mx exH /\ exists L : 'M[R[i]]_2, chol C 2 (crows exH) = Ok (crows L).
Proof.
split; [|split].
- apply/matrixP => i j; rewrite !mxE; case: i => [[|[|//]]] Hi; case: j => [[|[|//]]] Hj /=;
    apply/eqP; rewrite eq_complex /= ?addr0 ?oppr0 ?opprK ?eqxx //.
- by move=> /(_ (lift ord0 ord0) ord0); rewrite mxE /= => /eqP; rewrite oner_eq0.
have [|X E] := proj2 (c100_iff exH).
  move=> k Hk; case: k Hk => [|[|k]] Hk //; rewrite /lead_minor det_mx11 !mxE /= => _; exact: oner_neq0.
by have [L [EL _]] := c100_returned E; exists L; rewrite E EL.
Qed.
(** chol of the 1x1 matrix -1 is i *)
Example c100_minus_one_example : chol C 1 (crows ((-1)%:M : 'M[R[i]]_1)) = Ok (crows (('i%C)%:M : 'M[R[i]]_1)).
Proof.
have [|X E] := proj2 (c100_iff ((-1)%:M : 'M[R[i]]_1)); first by move=> [|k] Hk; rewrite ?andbF //=; lia.
have [L [EL [_ pL HL]]] := c100_returned E; rewrite E EL; congr (Ok (crows _)).
apply/matrixP => i j; rewrite (ord1 i) (ord1 j) [RHS]mxE eqxx mulr1n.
apply: (@principal_unique (-1)); last by split; [rewrite sqr_i|right; rewrite /= ler01].
split; last exact: pL.
by have /matrixP/(_ 0 0) := HL; rewrite !mxE big_ord1 !mxE leqnn /= mulr1n expr2.
Qed.
End Scalars.

Print Assumptions c100_scalar.
Print Assumptions c100_returned.
Print Assumptions c100_iff.
Print Assumptions c100_symmetric.
Print Assumptions c100_hermitian.
Print Assumptions c100_real.
Print Assumptions c100_abs.
Print Assumptions c100_compare.
