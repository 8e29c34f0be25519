(** * Property C106, second part: roots, verified solutions, points, and what does not hold *)

From Coq Require Import ZArith List Lia.
From mathcomp Require Import all_ssreflect all_algebra all_fingroup.
From mathcomp Require Import zify ssrZ.
From Verif Require Import Base Scalar Model Spec Loops Struct Elim Stat Alg Exact ExactLemmas Det Inv LU Pow StatExact
  ConvExact SimExact Preds Param BoundedInt PropAlg PropPred PropDom Long Ival PropIval.

Set Implicit Arguments.
Unset Strict Implicit.
Unset Printing Implicit Defensive.

Import Order.TTheory GRing.Theory Num.Theory.
Local Open Scope ring_scope.
Delimit Scope Z_scope with Z.
Local Notation ltP := ssrnat.ltP (only parsing).
Local Notation leP := ssrnat.leP (only parsing).

(** ** Functions that take roots *)
Section Roots.
Variables (F : rcfType) (dn up : F -> F).
Hypothesis HR : outward dn up.
Notation I := (ivS dn up (i_root dn up)).
Notation K := (realS F).

Lemma iv_sqrt x (a : F) : @mem F x a -> okref (@mem F) (@xsqrt I x) (@xsqrt K a).
Proof.
move=> /andP [H1 H2] z; rewrite /= /i_root; case: ltrP => // H0 [<-].
have Ha := le_trans H0 H1.
exists (Num.sqrt a); first by rewrite ltNge Ha.
by apply: (round_encl HR); rewrite !ler_wsqrtr.
Qed.

Let Gld (x : elt I) (a : elt K) : @mem F x a -> @mem F (ld x) (ld a). Proof. by []. Qed.
Let Gst (x : xpr I) (a : xpr K) : @mem F x a -> @mem F (st x) (st a). Proof. by []. Qed.
Let I_lit : forall z, @mem F (@lit I z) (@lit K z). Proof. exact: iv_lit. Qed.
Let I_add x a y b : @mem F x a -> @mem F y b -> refines (@mem F) (@xadd I x y) (@xadd K a b).
Proof. exact: iv_add. Qed.
Let I_sub x a y b : @mem F x a -> @mem F y b -> refines (@mem F) (@xsub I x y) (@xsub K a b).
Proof. exact: iv_sub. Qed.
Let I_mul x a y b : @mem F x a -> @mem F y b -> refines (@mem F) (@xmul I x y) (@xmul K a b).
Proof. exact: iv_mul. Qed.
Let I_div x a y b : @mem F x a -> @mem F y b -> okref (@mem F) (@xdiv I x y) (@xdiv K a b).
Proof. by move=> Ha Hb; apply: Ival.iv_div. Qed.
Let I_divsz x a n : @mem F x a -> okref (@mem F) (@divsz I x n) (@divsz K a n).
Proof. by move=> Ha; apply: Ival.iv_divsz. Qed.

Theorem c106_chol n MA (A : 'M[F]_n) ML : encl MA A -> chol I n MA = Ok ML ->
  exists L : 'M[F]_n, [/\ encl ML L, lower L, forall i, 0 <= L i i &
    L *m L^T = \matrix_(i, j) (if (j <= i)%N then A i j else A j i)].
Proof.
move=> /encl_rel HA E.
have [X EX HX] := @chol_ok I K (@mem F) (@mem F) Gld Gst I_lit I_add I_sub I_mul I_div iv_sqrt n _ _ HA _ E.
have [L [EL [H1 H2 H3]]] := c31_returned EX.
by exists L; split=> //; apply/encl_rel; rewrite -EL.
Qed.

Theorem c106_stddev n m MA (A : 'M[F]_(n, m)) z : (0 < n * m)%N -> (Z.of_nat (n * m) < 2 ^ 64)%Z -> encl MA A ->
  stddev I n m MA = Ok z -> z.1 <= Num.sqrt (mxvar A) <= z.2.
Proof.
move=> Hp Hz /encl_rel HA E.
have [b] := @stddev_ok I K (@mem F) (@mem F) Gld Gst I_lit I_add I_sub I_mul iv_sqrt I_divsz n m _ _ HA _ E.
by rewrite stddev_mx // => -[<-].
Qed.

(** not empty: chol of the 1 x 1 matrix [[[4,9]]], with exact bounds, is [[[2,3]]] *)
Theorem c106_example_chol : (forall a, dn a = a) -> (forall a, up a = a) ->
  chol I 1 [:: [:: (4%:R, 9%:R)]] = Ok [:: [:: (2%:R, 3%:R)]].
Proof.
move=> Hdn Hup; have sq (k : nat) : Num.sqrt ((k * k)%:R : F) = k%:R.
  by rewrite natrM -expr2 sqrtr_sqr ger0_norm // ler0n.
rewrite /chol /for_ /= /i_root /for_ /= /i_lit !(Hdn, Hup) /= !subr0 ltNge ler0n /=.
by rewrite -[4%:R]/((2 * 2)%:R) -[9%:R]/((3 * 3)%:R) !sq.
Qed.
End Roots.

(** ** A verified solution: the test of Krawczyk and Rump, computed by the library *)
Section Contract.
Variable F : realFieldType.

Lemma contract n (G : 'M[F]_n) (z m d : 'cV[F]_n) :
  (forall i, 0 <= d i 0) ->
  (forall x : 'cV[F]_n, (forall i, `|x i 0 - m i 0| <= d i 0) -> forall i, `|(z + G *m x) i 0 - m i 0| < d i 0) ->
  (1%:M - G \in unitmx) /\ forall x, x = z + G *m x -> forall i, `|x i 0 - m i 0| <= d i 0.
Proof.
move=> Hd0 H; pose e := z + G *m m - m.
have Hd i : 0 < d i 0.
  by apply: le_lt_trans (H m _ i) => // j; rewrite subrr normr0.
have Hs i (s : F) : `|s| <= 1 -> `|e i 0 + s * \sum_j `|G i j| * d j 0| < d i 0.
  move=> Hs; pose x := m + \col_j (s * Num.sg (G i j) * d j 0).
  have Hx k : `|x k 0 - m k 0| <= d k 0.
    rewrite /x !mxE addrC addKr !normrM (ger0_norm (Hd0 k)) ler_pimull //.
    by rewrite mulr_ile1 // normr_sg; case: eqP; rewrite ?ler01 ?lexx.
  have := H x Hx i; congr (`|_| < _).
  rewrite /x /e mulmxDr !mxE -!addrA; congr (_ + (_ + _)).
  rewrite addrC; congr (_ + _); rewrite mulr_sumr; apply: eq_bigr => j _.
  by rewrite mxE normrEsg -!mulrA mulrCA; congr (_ * _); rewrite mulrCA.
have He i : `|e i 0| + \sum_j `|G i j| * d j 0 < d i 0.
  have P : 0 <= \sum_j `|G i j| * d j 0 by apply: sumr_ge0 => j _; rewrite mulr_ge0.
  case: (ger0P (e i 0)) => A.
    by have := Hs i 1; rewrite normr1 mul1r ger0_norm ?addr_ge0 //; apply.
  have := Hs i (-1); rewrite normrN1 mulN1r ler0_norm ?opprB ?opprD ?opprK; first by rewrite addrC; apply.
  by rewrite subr_le0 (le_trans (ltW A)).
have Hbig (v f : 'cV[F]_n) (c : F) : 0 <= c -> (forall i, `|f i 0| <= c * `|e i 0|) -> v = f + G *m v ->
    forall i, `|v i 0| <= c * d i 0.
  move=> Hc Hf Ev i0.
  pose i := [arg max_(i > i0) (`|v i 0| / d i 0)]%O.
  have M j : `|v j 0| / d j 0 <= `|v i 0| / d i 0 by rewrite /i; case: arg_maxP => // q _; apply.
  set t := `|v i 0| / d i 0 in M.
  have Ei : `|v i 0| = t * d i 0 by rewrite /t mulfVK // gt_eqF.
  have Mj j : `|v j 0| <= t * d j 0 by rewrite -ler_pdivr_mulr.
  case: (lerP t c) => Htc; first by apply: le_trans (Mj i0) _; rewrite ler_wpmul2r.
  exfalso; have Ht0 : 0 <= t by exact: le_trans Hc (ltW Htc).
  have : `|v i 0| <= t * (`|e i 0| + \sum_j `|G i j| * d j 0).
    rewrite [in X in X <= _]Ev mxE; apply: le_trans (ler_norm_add _ _) _; rewrite mulrDr; apply: ler_add.
      by apply: le_trans (Hf i) _; rewrite ler_wpmul2r // ltW.
    rewrite mxE; apply: le_trans (ler_norm_sum _ _ _) _; rewrite mulr_sumr ler_sum // => j _.
    by rewrite normrM mulrCA ler_wpmul2l.
  rewrite Ei leNgt ltr_pmul2l ?He //; exact: le_lt_trans Htc.
split; last first.
  move=> x Ex i; rewrite -[d i 0]mul1r (_ : x i 0 - m i 0 = (x - m) i 0); last by rewrite !mxE.
  apply: (Hbig (x - m) e); [exact: ler01|by move=> j; rewrite mul1r|].
  by rewrite mulmxBr {1}Ex /e [z + _ - m]addrAC -addrA [_ *m m + _]addrC subrK addrAC.
rewrite -unitmx_tr -row_free_unit; apply: inj_row_free => w Hw; apply: trmx_inj; rewrite trmx0.
set v := w^T; have {Hw} Hv : (1%:M - G) *m v = 0 by rewrite -[1%:M - G]trmxK -trmx_mul Hw trmx0.
have Ev : v = 0 + G *m v by move/eqP: Hv; rewrite mulmxBl mul1mx subr_eq0 add0r => /eqP.
apply/matrixP => i j; rewrite ord1 [RHS]mxE; apply/eqP; rewrite -normr_le0.
rewrite -(mul0r (d i 0)); apply: (Hbig v 0 0) => // k.
by rewrite mxE normr0 mul0r.
Qed.
End Contract.

(** [C*b + (eye - C*A)*X] by the library's functions *)
Definition krawczyk (K : scalar) n (A C b X : matrix (elt K)) : outcome (matrix (elt K)) :=
  let* P := mult K n n 1 C b in
  let* Q := mult K n n n C A in
  let* E := eye1 K n in
  let* G := sub K n n E Q in
  let* H := mult K n n 1 G X in
  sum K n 1 P H.

Lemma verified_solve (F : realFieldType) (dn up : F -> F) root n (MA MC MP MQ ME MG MH : matrix (F * F)) Mb
  (X Y : 'M[F * F]_(n, 1)) (C : 'M[F]_n) : let I := ivS dn up root in outward dn up ->
  encl MC C -> (forall i, (X i 0).1 <= (X i 0).2) ->
  mult I n n 1 MC Mb = Ok MP -> mult I n n n MC MA = Ok MQ -> eye1 I n = Ok ME -> sub I n n ME MQ = Ok MG ->
  mult I n n 1 MG (mxrows X) = Ok MH -> sum I n 1 MP MH = Ok (mxrows Y) ->
  (forall i, (X i 0).1 < (Y i 0).1 /\ (Y i 0).2 < (X i 0).2) ->
  forall (A : 'M[F]_n) (b : 'cV[F]_n), encl MA A -> encl Mb b ->
    A \in unitmx /\ forall i, (Y i 0).1 <= (invmx A *m b) i 0 <= (Y i 0).2.
Proof.
move=> I HR HC Hwf EP EQ EE EG EH EY Hin A b HA Hb.
have out n' m' (o : outcome (matrix (F * F))) M (B : 'M[F]_(n', m')) :
  o = Ok M -> (exists Z, o = Ok Z /\ encl Z B) -> encl M B by move=> -> [Z [[<-]]].
have HP := out _ _ _ _ _ EP (c106_mult root HR HC Hb).
have HQ := out _ _ _ _ _ EQ (c106_mult root HR HC HA).
have HE := out _ _ _ _ _ EE (c106_eye root HR n).
have HG := out _ _ _ _ _ EG (c106_sub root HR HE HQ).
set G := 1%:M - C *m A in HG; set z := C *m b in HP.
have HX (x : 'cV[F]_n) : (forall i, (X i 0).1 <= x i 0 <= (X i 0).2) ->
    forall i, (Y i 0).1 <= (z + G *m x) i 0 <= (Y i 0).2.
  move=> Hx; have HX : encl (mxrows X) x by exists X; split=> // i j; rewrite (ord1 j).
  have HH := out _ _ _ _ _ EH (c106_mult root HR HG HX).
  have [Z [EZ H]] := out _ _ _ _ _ EY (c106_sum root HR HP HH).
  by move=> i; move: (H i 0); rewrite (mxrows_inj (0, 0) EZ).
pose m : 'cV[F]_n := \col_i (((X i 0).1 + (X i 0).2) / 2%:R).
pose d : 'cV[F]_n := \col_i (((X i 0).2 - (X i 0).1) / 2%:R).
have two : (2%:R : F) != 0 by rewrite pnatr_eq0.
have Em i : m i 0 - d i 0 = (X i 0).1.
  by rewrite !mxE -mulrBl opprB addrACA subrr addr0 -mulr2n -[_ *+ 2]mulr_natr mulfK.
have Ep i : m i 0 + d i 0 = (X i 0).2.
  by rewrite !mxE -mulrDl [_ + (X i 0).2]addrC addrACA subrr addr0 -mulr2n -[_ *+ 2]mulr_natr mulfK.
have W (y : F) i : (`|y - m i 0| <= d i 0) = ((X i 0).1 <= y <= (X i 0).2) by rewrite ler_distl Em Ep.
have [||U Hfix] := @contract F n G z m d.
- by move=> i; rewrite mxE divr_ge0 ?subr_ge0 ?ler0n.
- move=> x Hx i; have Hx' j : (X j 0).1 <= x j 0 <= (X j 0).2 by rewrite -W.
  have /andP [H1 H2] := HX x Hx' i; have [H3 H4] := Hin i.
  by rewrite ltr_distl Em Ep (lt_le_trans H3 H1) (le_lt_trans H2 H4).
have UA : A \in unitmx.
  by move: U; rewrite /G opprB addrC subrK unitmx_mul => /andP [].
split=> //; set x := invmx A *m b.
have Ex : x = z + G *m x by rewrite /G mulmxBl mul1mx -mulmxA {3}/x mulKVmx // addrC subrK.
have Hx i : (X i 0).1 <= x i 0 <= (X i 0).2 by rewrite -W; exact: Hfix.
by move=> i; rewrite Ex; exact: HX.
Qed.

(** if the result lies strictly inside [X], every system in the data has exactly one solution and
    the result encloses all of them, whatever [C], [X] and the rounding of the bounds *)
Theorem c106_verified_solve (F : realFieldType) (dn up : F -> F) root n (MA MC Mb : matrix (F * F))
  (X Y : 'M[F * F]_(n, 1)) (C : 'M[F]_n) : let I := ivS dn up root in outward dn up ->
  encl MC C -> (forall i, (X i 0).1 <= (X i 0).2) ->
  @krawczyk I n MA MC Mb (mxrows X) = Ok (mxrows Y) ->
  (forall i, (X i 0).1 < (Y i 0).1 /\ (Y i 0).2 < (X i 0).2) ->
  forall (A : 'M[F]_n) (b : 'cV[F]_n), encl MA A -> encl Mb b ->
    A \in unitmx /\ forall i, (Y i 0).1 <= (invmx A *m b) i 0 <= (Y i 0).2.
Proof.
move=> I HR HC HX; rewrite /krawczyk.
move=> /(@bind_ok _ _ _ _ _) [P EP] /(@bind_ok _ _ _ _ _) [Q EQ] /(@bind_ok _ _ _ _ _) [E EE].
move=> /(@bind_ok _ _ _ _ _) [G EG] /(@bind_ok _ _ _ _ _) [H EH] EY Hin A b HA Hb.
exact: (verified_solve HR HC HX EP EQ EE EG EH EY Hin HA Hb).
Qed.

(** ** Points with exact bounds behave like numbers: nothing is lost or gained *)
Section Points.
Variables (F : realFieldType) (dn up : F -> F) (root : F * F -> outcome (F * F)).
Notation sq := (@Ok F).
Hypothesis Hdn : forall a, dn a = a.
Hypothesis Hup : forall a, up a = a.
Notation I := (ivS dn up root).
Notation K := (ordS sq).
Notation pt := (fun (a : elt K) (x : elt I) => x = (a, a)).

Lemma pt_lit z : pt (@lit K z) (@lit I z). Proof. by rewrite /= /i_lit Hdn Hup. Qed.
Lemma pt_add a x b y : pt a x -> pt b y -> refines pt (@xadd K a b) (@xadd I x y).
Proof. by move=> -> ->; apply: ref_ok; rewrite /= Hdn Hup. Qed.
Lemma pt_sub a x b y : pt a x -> pt b y -> refines pt (@xsub K a b) (@xsub I x y).
Proof. by move=> -> ->; apply: ref_ok; rewrite /= Hdn Hup. Qed.
Lemma pt_mul a x b y : pt a x -> pt b y -> refines pt (@xmul K a b) (@xmul I x y).
Proof. by move=> -> ->; apply: ref_ok; rewrite /= /i_mul Hdn Hup /min4 /max4 /= !minxx !maxxx. Qed.
Lemma pt_neg a x : pt a x -> refines pt (@xneg K a) (@xneg I x).
Proof. by move=> ->; apply: ref_ok. Qed.
Lemma pt_div a x b y : pt a x -> pt b y -> refines pt (@xdiv K a b) (@xdiv I x y).
Proof.
move=> -> ->; rewrite /= /exact_div unitfE; case: eqP => //= /eqP Hb.
by rewrite /i_div /= -eq_le (negbTE Hb) Hdn Hup /min4 /max4 !minxx !maxxx; exists (a / b, a / b).
Qed.
Lemma pt_eq a x b y : pt a x -> pt b y -> @xeq K a b = @xeq I x y.
Proof. by move=> -> ->; rewrite /= !eqxx. Qed.

Let Hld (a : elt K) (x : elt I) : pt a x -> pt (ld a) (ld x). Proof. by []. Qed.
Let Hst (a : xpr K) (x : xpr I) : pt a x -> pt (st a) (st x). Proof. by []. Qed.

Definition points n m (A : 'M[F]_(n, m)) : matrix (F * F) := mxrows (map_mx (fun a => (a, a)) A).

Lemma points_rel n m (A : 'M[F]_(n, m)) M : mrel pt (mxrows A) M <-> M = points A.
Proof.
split=> [H|->].
  have Hs : shape n m M by exact: (mrel_shape (shape_mxrows 0 A) (proj1 (mrel_flip pt _ _) H)).
  have [Z [E _]] := every_array (0, 0) Hs; rewrite E; congr mxrows; apply/matrixP => i j; rewrite mxE.
  have := ref_aget pt _ _ i j H; rewrite E (mxrowsE 0 A) (mxrowsE (0, 0) Z) !aget_mk; try exact/ltP.
  by move=> [b [[<-]]]; rewrite !mxf_ord.
rewrite /points (mxrowsE 0 A) (mxrowsE (0, 0) (map_mx _ A)); apply: mrel_mk => i j Hi Hj.
by rewrite -[i]/(val (Ordinal Hi)) -[j]/(val (Ordinal Hj)) !mxf_ord mxE.
Qed.

Theorem c106_points_inv n (A : 'M[F]_n) : A \in unitmx -> inv I n (points A) = Ok (points (invmx A)).
Proof.
move=> U; have := @inv_ref K I pt pt Hld Hst (pt_lit 0) (pt_lit 1) (pt_lit (-1)) pt_add pt_sub pt_mul pt_div pt_neg pt_eq n
  _ _ (proj2 (points_rel A _) erefl).
by rewrite inv_mx // => -[Z [-> /points_rel ->]].
Qed.
Theorem c106_points_det n (A : 'M[F]_n) : det I n (points A) = Ok (\det A, \det A).
Proof.
have := @det_ref K I pt pt Hld Hst (pt_lit 0) (pt_lit 1) (pt_lit (-1)) pt_add pt_sub pt_mul pt_div pt_eq n
  _ _ (proj2 (points_rel A _) erefl).
by rewrite det_mx // => -[Z [-> ->]].
Qed.
End Points.

(** ** With exact bounds every bound of a product is attained: the enclosure is as narrow as it can be *)
Section Sharp.
Variables (F : realFieldType) (dn up : F -> F) (root : F * F -> outcome (F * F)).
Hypothesis Hdn : forall a, dn a = a.
Hypothesis Hup : forall a, up a = a.
Notation I := (ivS dn up root).

Definition end_of (x : F * F) (a : F) : Prop := a = x.1 \/ a = x.2.

Lemma mul_sharp (x y : F * F) : exists a b a' b',
  [/\ end_of x a, end_of y b & (i_mul dn up x y).1 = a * b] /\
  [/\ end_of x a', end_of y b' & (i_mul dn up x y).2 = a' * b'].
Proof.
rewrite /i_mul Hdn Hup /min4 /max4 /=.
have [a [b [H1 H2 ->]]] : exists a b, [/\ end_of x a, end_of y b &
    Num.min (Num.min (x.1 * y.1) (x.1 * y.2)) (Num.min (x.2 * y.1) (x.2 * y.2)) = a * b].
  rewrite /Num.min /end_of; case: ifP => _; case: ifP => _; do 2 eexists; (split; [| |reflexivity]); auto.
have [a' [b' [H3 H4 ->]]] : exists a b, [/\ end_of x a, end_of y b &
    Num.max (Num.max (x.1 * y.1) (x.1 * y.2)) (Num.max (x.2 * y.1) (x.2 * y.2)) = a * b].
  rewrite /Num.max /end_of; case: ifP => _; case: ifP => _; do 2 eexists; (split; [| |reflexivity]); auto.
by exists a, b, a', b'.
Qed.

Lemma dot_sharp m (f g : nat -> F * F) : exists z, dot I m f g = Ok z /\
  (exists a b : nat -> F, (forall k, end_of (f k) (a k) /\ end_of (g k) (b k)) /\ z.1 = \sum_(k < m) a k * b k) /\
  (exists a b : nat -> F, (forall k, end_of (f k) (a k) /\ end_of (g k) (b k)) /\ z.2 = \sum_(k < m) a k * b k).
Proof.
elim: m => [|m [z [E [[a [b [H1 H2]]] [a' [b' [H3 H4]]]]]]].
  exists (lite I 0); split; first by [].
  have L : lite I 0 = (0, 0) by rewrite /lite /= /i_lit Hdn Hup.
  by split; exists (fun k => (f k).1), (fun k => (g k).1); rewrite L big_ord0; split=> // k; split; left.
have [c [d [c' [d' [[H5 H6 H7] [H8 H9 H10]]]]]] := mul_sharp (f m) (g m).
exists (z.1 + c * d, z.2 + c' * d').
split; first by rewrite -H7 -H10 /dot for_snoc; [rewrite -/(dot I m f g) E /= !(Hdn, Hup)|lia].
pose ins (h : nat -> F) (v : F) k := if k == m then v else h k.
have insm h v : ins h v m = v by rewrite /ins eqxx.
have insk h v (k : 'I_m) : ins h v k = h k by rewrite /ins ltn_eqF.
split.
  exists (ins a c), (ins b d); split; last by rewrite big_ord_recr /= !insm H2; congr (_ + _); apply: eq_bigr => k _; rewrite !insk.
  by move=> k; rewrite /ins; case: eqP => [->|_].
exists (ins a' c'), (ins b' d'); split; last by rewrite big_ord_recr /= !insm H4; congr (_ + _); apply: eq_bigr => k _; rewrite !insk.
by move=> k; rewrite /ins; case: eqP => [->|_].
Qed.

Theorem c106_mult_sharp n m p (X : 'M[F * F]_(n, m)) (Y : 'M[F * F]_(m, p)) :
  (forall i k, (X i k).1 <= (X i k).2) -> (forall k j, (Y k j).1 <= (Y k j).2) ->
  exists Z : 'M[F * F]_(n, p), mult I n m p (mxrows X) (mxrows Y) = Ok (mxrows Z) /\
  forall i j,
    (exists (A : 'M[F]_(n, m)) (B : 'M[F]_(m, p)), [/\ encl (mxrows X) A, encl (mxrows Y) B & (A *m B) i j = (Z i j).1]) /\
    (exists (A : 'M[F]_(n, m)) (B : 'M[F]_(m, p)), [/\ encl (mxrows X) A, encl (mxrows Y) B & (A *m B) i j = (Z i j).2]).
Proof.
move=> HX HY; pose f := mxf (0, 0) X; pose g := mxf (0, 0) Y.
pose zz i j := if dot I m (f i) (fun k => g k j) is Ok z then z else (0, 0).
exists (\matrix_(i < n, j < p) zz i j); split.
  rewrite (mxrowsE (0, 0) X) (mxrowsE (0, 0) Y) mult_tab -mk_mxrows; apply: tabM_ok => i j _ _.
  by rewrite /zz; have [z [-> _]] := dot_sharp m (f i) (fun k => g k j).
have E (x : F * F) (a : F) : end_of x a -> x.1 <= x.2 -> x.1 <= a <= x.2 by case=> -> ->; rewrite lexx.
have L (i : 'I_n) (j : 'I_p) (v : F) (a b : nat -> F) : (forall k, end_of (f i k) (a k) /\ end_of (g k j) (b k)) ->
    v = \sum_(k < m) a k * b k ->
    exists (A : 'M[F]_(n, m)) (B : 'M[F]_(m, p)), [/\ encl (mxrows X) A, encl (mxrows Y) B & (A *m B) i j = v].
  move=> H ->; exists (\matrix_(r, k) if r == i then a k else (X r k).1), (\matrix_(k, c) if c == j then b k else (Y k c).1).
  split.
  - exists X; split=> // r k; rewrite mxE; case: eqP => [->|_]; last by rewrite lexx HX.
    by have [/E] := H k; rewrite /f mxf_ord => /(_ (HX _ _)).
  - exists Y; split=> // k c; rewrite mxE; case: eqP => [->|_]; last by rewrite lexx HY.
    by have [_ /E] := H k; rewrite /g mxf_ord => /(_ (HY _ _)).
  by rewrite mxE; apply: eq_bigr => k _; rewrite !mxE !eqxx.
move=> i j; rewrite mxE /zz; have [z [-> [[a [b [H1 H2]]] [a' [b' [H3 H4]]]]]] := dot_sharp m (f i) (fun k => g k j).
by split; [exact: (L i j _ a b H1 H2)|exact: (L i j _ a' b' H3 H4)].
Qed.
End Sharp.

(** ** Examples over the rationals, with exact bounds *)
Notation idq := (fun a : rat => a).
Notation IQ := (ivS idq idq (fun x => if x.1 < 0 then Throw OverflowError else Ok x)).
Notation KQ := (ordS (@Ok rat)).
Definition qi (a b : int) : rat * rat := (a%:~R, b%:~R).
Definition qeq (x y : rat * rat) : bool := (x.1 == y.1) && (x.2 == y.2).

Lemma outward_id : outward idq idq.
Proof. by move=> a; rewrite lexx. Qed.
Lemma qeqP x y : qeq x y -> x = y.
Proof. by case: x y => [a b] [c d] /andP [/= /eqP -> /eqP ->]. Qed.

(** a matrix given by its rows *)
Lemma encl_mk n m (f : nat -> nat -> rat * rat) (A : 'M[rat]_(n, m)) :
  (forall (i : 'I_n) (j : 'I_m), (f i j).1 <= A i j <= (f i j).2) -> encl (mk n m f) A.
Proof. by move=> H; exists (\matrix_(i, j) f i j); split; [exact: mk_mxrows|move=> i j; rewrite mxE]. Qed.
Definition rows (M : matrix (rat * rat)) (i j : nat) : rat * rat := nth (0, 0) (nth [::] M i) j.

Definition okb T (o : outcome T) : bool := if o is Ok _ then true else false.
Definition is2 (o : outcome (matrix (rat * rat))) (f : nat -> nat -> rat * rat) : bool :=
  if o is Ok [:: [:: y0]; [:: y1]] then qeq y0 (f 0%N 0%N) && qeq y1 (f 1%N 0%N) else false.
Definition is1 (o : outcome (rat * rat)) z : bool := if o is Ok y then qeq y z else false.
Definition isq (o : outcome rat) a : bool := if o is Ok y then y == a else false.
Lemma ok_if T (o : outcome T) : okb o -> exists Z, o = Ok Z.
Proof. by case: o => // Z _; exists Z. Qed.
Lemma ok_is2 o f : is2 o f -> o = Ok (mk 2 1 f).
Proof.
case: o => // -[|[|y0 [|? ?]] [|[|y1 [|? ?]] [|? ?]]] // /andP [/qeqP H0 /qeqP H1].
by rewrite H0 H1.
Qed.
Lemma ok_is o z : is1 o z -> o = Ok z.
Proof. by case: o => // y /qeqP ->. Qed.
Lemma ok_isq o a : isq o a -> o = Ok a.
Proof. by case: o => // y /eqP ->. Qed.

(** *** inv of [[2,3] [0,1]; [-1,1] [4,5]] returns, so all these matrices have inverses *)
Definition M2 : matrix (rat * rat) := [:: [:: qi 2 3; qi 0 1]; [:: qi (-1) 1; qi 4 5]].
Lemma c106_inv_check : okb (Model.inv IQ 2 (mk 2 2 (rows M2))).
Proof. vm_compute; reflexivity. Qed.
Theorem c106_example_inv (A : 'M[rat]_2) : (forall i j : 'I_2, (rows M2 i j).1 <= A i j <= (rows M2 i j).2) ->
  A \in unitmx /\ exists Z, Model.inv IQ 2 (mk 2 2 (rows M2)) = Ok Z /\ encl Z (invmx A).
Proof.
move=> /encl_mk HA; have [Z E] := ok_if c106_inv_check.
have [U H] := c106_inv outward_id (ltn0Sn 1) HA E; split; first exact: U.
by exists Z; split; [exact: E|exact: H].
Qed.

(** *** a verified solution: A in [[4,5] [0,1]; [0,1] [4,5]], b in [8,9]^2, C = 2/9, X = [0,4]^2 *)
Definition SA : matrix (rat * rat) := [:: [:: qi 4 5; qi 0 1]; [:: qi 0 1; qi 4 5]].
Definition SC (i j : nat) : rat * rat := let a : rat := if i == j then 2%:R / 9%:R else 0 in (a, a).
Definition Sb (i j : nat) : rat * rat := qi 8 9.
Definition SX (i j : nat) : rat * rat := qi 0 4.
Definition SY (i j : nat) : rat * rat := (4%:R / 9%:R, 22%:R / 9%:R).
Lemma c106_solve_check :
  is2 (@krawczyk IQ 2 (mk 2 2 (rows SA)) (mk 2 2 SC) (mk 2 1 Sb) (mk 2 1 SX)) SY.
Proof. vm_compute; reflexivity. Qed.
Theorem c106_example_solve (A : 'M[rat]_2) (b : 'cV[rat]_2) :
  (forall i j : 'I_2, (rows SA i j).1 <= A i j <= (rows SA i j).2) -> (forall i, 8%:R <= b i 0 <= 9%:R) ->
  A \in unitmx /\ forall i, 4%:R / 9%:R <= (invmx A *m b) i 0 <= 22%:R / 9%:R.
Proof.
move=> /encl_mk HA Hb.
have {Hb} Hb : encl (mk 2 1 Sb) b by apply: encl_mk => i j; rewrite (ord1 j); exact: Hb.
have HC : encl (mk 2 2 SC) (\matrix_(i < 2, j < 2) (SC i j).1).
  by apply: encl_mk => i j; rewrite mxE /SC lexx.
have EY : @krawczyk IQ 2 (mk 2 2 (rows SA)) (mk 2 2 SC) (mk 2 1 Sb) (mk 2 1 SX) = Ok (mk 2 1 SY).
  exact: ok_is2 c106_solve_check.
rewrite (mk_mxrows 2 1 SY) (mk_mxrows 2 1 SX) in EY.
have [||U HU] := @c106_verified_solve _ _ _ _ 2 _ _ _ _ _ _ outward_id HC _ EY _ A b HA Hb.
- by move=> i; rewrite mxE.
- by move=> i; rewrite !mxE.
by split=> // i; move: (HU i); rewrite mxE.
Qed.

(** ** What does not hold *)
(** *** the same interval subtracted from itself is not zero *)
Theorem c106_dependency : exists Z, sub IQ 1 1 [:: [:: qi 0 1]] [:: [:: qi 0 1]] = Ok [:: [:: Z]] /\ Z.1 = -1 /\ Z.2 = 1.
Proof. by eexists; split; first reflexivity. Qed.

(** *** compare may return true although members differ by any amount allowed by the intervals *)
Theorem c106_compare_true : compare IQ 1 1 [:: [:: qi 0 10]] [:: [:: qi 0 10]] 1 = Ok true.
Proof. by vm_compute. Qed.

(** *** the standard deviation may refuse: the bounds of the variance [[-1,1]] forget that squares are positive *)
Theorem c106_stddev_refused : stddev IQ 1 2 [:: [:: qi 0 1; qi 0 1]] = Throw OverflowError.
Proof. by vm_compute. Qed.

(** *** the median is not enclosed: among [[0,10]], [[5,5]], [[4,6]] none is certainly less than another *)
Lemma c106_median_check : is1 (median IQ (Stat.isort (fun x y : rat * rat => x.2 < y.1)) 1 3 [:: [:: qi 0 10; qi 5 5; qi 4 6]]) (qi 5 5).
Proof. vm_compute; reflexivity. Qed.
Theorem c106_median_wrong :
  median IQ (Stat.isort (fun x y : rat * rat => x.2 < y.1)) 1 3 [:: [:: qi 0 10; qi 5 5; qi 4 6]] = Ok (qi 5 5) /\
  encl [:: [:: qi 0 10; qi 5 5; qi 4 6]] (\matrix_(i < 1, j < 3) nth 0 [:: 0; 5%:R; 4%:R] j : 'M[rat]_(1, 3)) /\
  exists a : rat, median KQ (Stat.isort (fun x y : rat => x < y)) 1 3 [:: [:: 0; 5%:R; 4%:R]] = Ok a /\ a = 4%:R.
Proof.
split; last split.
- exact: ok_is c106_median_check.
- have -> : [:: [:: qi 0 10; qi 5 5; qi 4 6]] = mk 1 3 (rows [:: [:: qi 0 10; qi 5 5; qi 4 6]]) by [].
  by apply: encl_mk => -[[|i] Hi] [[|[|[|j]]] Hj] //; rewrite mxE.
have C : isq (median KQ (Stat.isort (fun x y : rat => x < y)) 1 3 [:: [:: 0; 5%:R; 4%:R]]) 4%:R by vm_compute.
by exists 4%:R; split; first exact: ok_isq C.
Qed.
Theorem c106_median_undefined sort : median IQ sort 1 3 [:: [:: qi 0 10; qi 1 2; qi 3 4]] = UB BadOrder.
Proof. vm_compute; reflexivity. Qed.

(** *** a class whose [==] means "may be equal" makes det wrong from 4 x 4 on *)
Definition ivP : scalar :=
  {| elt := elt IQ; xpr := xpr IQ; epsT := epsT IQ; ld := @ld IQ; st := @st IQ; lit := @lit IQ; xadd := @xadd IQ;
     xsub := @xsub IQ; xmul := @xmul IQ; xdiv := @xdiv IQ; xneg := @xneg IQ;
     xeq := (fun x y : rat * rat => (x.1 <= y.2) && (y.1 <= x.2));
     xlt := @xlt IQ; xabs := @xabs IQ; gteps := @gteps IQ; xsqrt := @xsqrt IQ; divsz := @divsz IQ |}.
Definition had : matrix rat := [:: [:: 1; 1; 1; 1]; [:: 1; -1; 1; -1]; [:: 1; 1; -1; -1]; [:: 1; -1; -1; 1]].
Lemma c106_possible_check :
  is1 (det ivP 4 (mk 4 4 (fun _ _ => qi (-1) 1))) (qi (-1) 1) && (isq (det KQ 4 (mk 4 4 (fun i j => nth 0 (nth [::] had i) j))) 16%:R &&
  all (fun i => all (fun j => -1 <= nth 0 (nth [::] had i) j <= 1) (iota 0 4)) (iota 0 4)).
Proof. vm_compute; reflexivity. Qed.
Theorem c106_possible_equality :
  det ivP 4 (mk 4 4 (fun _ _ => qi (-1) 1)) = Ok (qi (-1) 1) /\
  exists A : 'M[rat]_4, (forall i j, -1 <= A i j <= 1) /\ \det A = 16%:R.
Proof.
have /andP [H1 /andP [H2 H3]] := c106_possible_check; split.
  exact: ok_is H1.
exists (\matrix_(i, j) nth 0 (nth [::] had i) j); split.
  move=> i j; rewrite mxE; apply: (allP (allP H3 i _)); rewrite mem_iota ltn_ord //.
by move: H2; rewrite mk_mxrows det_mx => /ok_isq [].
Qed.
