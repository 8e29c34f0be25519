(** * C94: definiteness, seen by chol, lu, det and inv

    Exact arithmetic over an ordered field (real closed where chol takes square roots). *)

From Coq Require Import ZArith List Lia.
From mathcomp Require Import all_ssreflect all_algebra.
From mathcomp Require Import zify.
From Verif Require Import Base Scalar Model Spec Loops Struct Exact ExactLemmas Alg Det Inv Pow LU Chol PropAlg.

Set Implicit Arguments.
Unset Strict Implicit.
Unset Printing Implicit Defensive.

Import mathcomp.ssreflect.order.Order.TTheory GRing.Theory Num.Theory.
Local Notation ltP := ssrnat.ltP (only parsing).
Local Notation leP := ssrnat.leP (only parsing).
Local Open Scope ring_scope.
Delimit Scope Z_scope with Z.

Section Def.
Variable R : realFieldType.
Variable sq : R -> outcome R.
Let K := ordS sq.

(** *** symmetric elimination: U is the diagonal times the transposed multipliers *)
Lemma ldl n (A L U : 'M[R]_n) : symmetric A -> lu_good A L U ->
  U = diag_mx (\row_i U i i) *m L^T.
Proof.
  move=> As G; have [[L1 L0] HU Hd E] := G.
  pose L' : 'M[R]_n := \matrix_(a, b) (U b a / U b b); pose U' : 'M[R]_n := diag_mx (\row_i U i i) *m L^T.
  have HL' : unit_lower L' by split=> [a | a b Hab]; rewrite mxE ?divff // HU // mul0r.
  have HU' : upper U' by move=> a b Hab; rewrite /U' mul_diag_mx !mxE L0 // mulr0.
  have E' : L' *m U' = A.
    rewrite -As -E trmx_mul mulmxA; congr (_ *m _); apply/matrixP => a b.
    by rewrite mul_mx_diag !mxE divfK.
  by have [_ EU] := lu_good_unique G HL' HU' E'; exact: esym EU.
Qed.

Lemma form_ldl n (A L U : 'M[R]_n) (x : 'rV[R]_n) : symmetric A -> lu_good A L U ->
  (x *m A *m x^T) 0 0 = \sum_i U i i * ((x *m L) 0 i) ^+ 2.
Proof.
  move=> As G; have [_ _ _ E] := G; rewrite -E {1}(ldl As G) !mulmxA -mulmxA -trmx_mul.
  rewrite mul_mx_diag mxE; apply: eq_bigr => i _; rewrite !mxE expr2 mulrC mulrA mulrC; congr (_ * _).
  by rewrite mulrC.
Qed.

Lemma unit_lower_unit n (L : 'M[R]_n) : unit_lower L -> L \in unitmx.
Proof.
  move=> [L1 L0]; rewrite unitmxE det_trig; last by apply/is_trig_mxP => i j; exact: L0.
  by rewrite big1 ?unitr1 // => i _; rewrite L1.
Qed.

(** a definite matrix is not singular; its leading blocks are definite *)
Lemma pos_def_unit n (A : 'M[R]_n) : pos_def A -> A \in unitmx.
Proof.
  move=> H; rewrite -row_free_unit -kermx_eq0; apply/negPn/negP => /matrix0Pn [i [j kij]].
  have x0 : row i (kermx A) != 0 by apply: contra_neq kij => /rowP/(_ j); rewrite mxE [RHS]mxE.
  by have := H _ x0; rewrite -row_mul mulmx_ker row0 mul0mx mxE ltxx.
Qed.

Definition lead n (A : 'M[R]_n) k (Hk : (k <= n)%N) : 'M[R]_k :=
  \matrix_(i < k, j < k) A (widen_ord Hk i) (widen_ord Hk j).

Definition emb n k (Hk : (k <= n)%N) : 'M[R]_(k, n) := \matrix_(i < k, j < n) (j == widen_ord Hk i)%:R.

Lemma lead_emb n (A : 'M[R]_n) k (Hk : (k <= n)%N) : lead A Hk = emb Hk *m A *m (emb Hk)^T.
Proof.
  have E1 i b : (emb Hk *m A) i b = A (widen_ord Hk i) b.
    rewrite mxE (bigD1 (widen_ord Hk i)) //= mxE eqxx mul1r big1 ?addr0 // => a /negbTE Ha.
    by rewrite mxE Ha mul0r.
  apply/matrixP => i j; rewrite mxE [RHS]mxE (bigD1 (widen_ord Hk j)) //= E1 !mxE eqxx mulr1 big1 ?addr0 //.
  by move=> a /negbTE Ha; rewrite [(emb Hk)^T _ _]mxE [emb Hk _ _]mxE Ha mulr0.
Qed.

Lemma emb_free n k (Hk : (k <= n)%N) (x : 'rV[R]_k) : x != 0 -> x *m emb Hk != 0.
Proof.
  move=> /matrix0Pn [i [j xij]]; apply/eqP => /rowP/(_ (widen_ord Hk j)); rewrite !mxE (bigD1 j) //= mxE eqxx mulr1.
  rewrite big1 ?addr0 => [|a Ha]; first by move: xij; rewrite (ord1 i) => /eqP.
  rewrite mxE; have -> : (widen_ord Hk j == widen_ord Hk a) = false; last by rewrite mulr0.
  apply/negP => /eqP/(congr1 val) /= E; by move: Ha; rewrite (val_inj E) eqxx.
Qed.

(** congruence *)
Lemma pos_def_cong m n (B : 'M[R]_(m, n)) (A : 'M[R]_n) : (forall x : 'rV[R]_m, x != 0 -> x *m B != 0) ->
  pos_def A -> pos_def (B *m A *m B^T).
Proof.
  move=> HB HA x x0; have := HA _ (HB x x0); by rewrite trmx_mul !mulmxA.
Qed.

Lemma pos_def1 n : pos_def (1%:M : 'M[R]_n).
Proof.
  move=> x /matrix0Pn [i [j]]; rewrite (ord1 i) => Hj.
  rewrite mulmx1 mxE (bigD1 j) //= mxE -expr2 ltr_spaddl ?exprn_even_gt0 //.
  by apply: sumr_ge0 => a _; rewrite mxE -expr2 sqr_ge0.
Qed.

Lemma symmetric_cong m n (B : 'M[R]_(m, n)) (A : 'M[R]_n) : symmetric A -> symmetric (B *m A *m B^T).
Proof. by move=> HA; rewrite /symmetric !trmx_mul trmxK HA mulmxA. Qed.

Lemma pos_def_lead n (A : 'M[R]_n) k (Hk : (k <= n)%N) : pos_def A -> pos_def (lead A Hk).
Proof. move=> H; rewrite lead_emb; apply: pos_def_cong => // x; exact: emb_free. Qed.

Lemma pos_def_lu n (A : 'M[R]_n) : symmetric A -> pos_def A ->
  exists L U, lu K n (mxrows A) = Ok (mxrows L, mxrows U) /\ lu_good A L U /\ forall i, 0 < U i i.
Proof.
  move=> As HA; case: (lu_mx (fun a b : R => a < b) (fun a => `|a|) sq A) => [[L [U [E G]]] | [_ [k [Hk [k0 D]]]]].
    exists L, U; split=> //; split=> // i; have [HL _ _ _] := G.
    have UL := unit_lower_unit HL.
    pose x : 'rV[R]_n := delta_mx 0 i *m invmx L.
    have xL : x *m L = delta_mx 0 i by rewrite -mulmxA mulVmx ?mulmx1.
    have x0 : x != 0.
      apply/eqP => x0; have := congr1 (fun M : 'rV[R]_n => M 0 i) xL; rewrite x0 mul0mx !mxE !eqxx => /esym/eqP.
      by rewrite oner_eq0.
    have := HA x x0; rewrite (form_ldl _ As G) xL (bigD1 i) //= mxE !eqxx expr1n mulr1 big1 ?addr0 // => j /negbTE Hj.
    by rewrite mxE Hj andbF expr0n mulr0.
  have := pos_def_unit (pos_def_lead Hk HA); rewrite unitmxE unitfE.
  by move: D; rewrite /lead_minor -/(lead A Hk) => ->; rewrite eqxx.
Qed.

Lemma lu_pos_def n (A L U : 'M[R]_n) : symmetric A -> lu_good A L U -> (forall i, 0 < U i i) -> pos_def A.
Proof.
  move=> As G HU x x0; rewrite (form_ldl x As G); have [HL _ _ _] := G.
  have : x *m L != 0.
    apply: contra_neq x0 => /(congr1 (fun M => M *m invmx L)); by rewrite mulmxK ?unit_lower_unit // mul0mx.
  move=> /matrix0Pn [i [j]]; rewrite (ord1 i) => Hj; rewrite (bigD1 j) //= ltr_spaddl //.
    by rewrite mulr_gt0 // exprn_even_gt0 //= Hj.
  by apply: sumr_ge0 => a _; rewrite mulr_ge0 ?sqr_ge0 // ltW.
Qed.

(** ** C94 *)

(** lu decides *)
Theorem c94_lu n (A : 'M[R]_n) : symmetric A ->
  (pos_def A <-> exists L U : 'M[R]_n, lu K n (mxrows A) = Ok (mxrows L, mxrows U) /\ forall i, 0 < U i i).
Proof.
  move=> As; split=> [HA | [L [U [E HU]]]].
    by have [L [U [E [_ HU]]]] := pos_def_lu As HA; exists L, U.
  case: (lu_mx (fun a b : R => a < b) (fun a => `|a|) sq A) => [[L' [U' [E' G]]] | [E' _]];
    move: E; rewrite /K /ordS E' //.
  move=> [EL EU]; have HU' := mxrows_inj 0 EU.
  by apply: (lu_pos_def As G) => i; rewrite HU'; exact: HU.
Qed.

(** the determinants of the leading blocks decide *)
Theorem c94_minors n (A : 'M[R]_n) : symmetric A ->
  (pos_def A <-> forall k (Hk : (k <= n)%N), (0 < k)%N ->
     exists d, det K k (mxrows (\matrix_(i < k, j < k) A (widen_ord Hk i) (widen_ord Hk j))) = Ok d /\ 0 < d).
Proof.
  move=> As; split=> [HA k Hk k0 | H].
    exists (lead_minor A Hk); split; first exact: det_mx.
    have [L [U [_ [G HU]]]] := pos_def_lu As HA; rewrite (lu_good_minor Hk G) prodr_gt0 // => i _; exact: HU.
  have P k (Hk : (k <= n)%N) : 0 < lead_minor A Hk.
    case: k Hk => [|k] Hk; first by rewrite /lead_minor det_mx00 ltr01.
    by have [//|d [E d0]] := H k.+1 Hk; move: E; rewrite /K /ordS det_mx => -[Ed]; rewrite /lead_minor Ed.
  case: (lu_mx (fun a b : R => a < b) (fun a => `|a|) sq A) => [[L [U [E G]]] | [_ [k [Hk [k0 D]]]]].
    apply: (lu_pos_def As G) => i; have Hi : (i < n)%N := ltn_ord i.
    have := P i.+1 Hi; rewrite (lu_good_minor Hi G) big_ord_recr /=.
    have E0 : \prod_(p < i) U (widen_ord Hi (widen_ord (leqnSn i) p)) (widen_ord Hi (widen_ord (leqnSn i) p)) =
        lead_minor A (ltnW Hi).
      by rewrite (lu_good_minor _ G); apply: eq_bigr => p _; congr (U _ _); exact: val_inj.
    rewrite E0 pmulr_rgt0 //; by have -> : widen_ord Hi ord_max = i by exact: val_inj.
  by have := P k Hk; rewrite D ltxx.
Qed.

(** inv keeps the class *)
Theorem c94_inv n (A : 'M[R]_n) : symmetric A -> pos_def A ->
  exists B : 'M[R]_n, inv K n (mxrows A) = Ok (mxrows B) /\ symmetric B /\ pos_def B /\ A *m B = 1%:M.
Proof.
  move=> As HA; have UA := pos_def_unit HA; exists (invmx A); rewrite inv_mx // mulmxV //; split=> //.
  have Bs : symmetric (invmx A) by rewrite /symmetric trmx_inv As.
  split=> //; split=> //.
  have -> : invmx A = invmx A *m A *m (invmx A)^T by rewrite mulVmx // mul1mx Bs.
  apply: pos_def_cong => // x; apply: contra_neq => /(congr1 (fun M => M *m A)).
  by rewrite mulmxKV // mul0mx.
Qed.

Theorem c94_sum n (A B : 'M[R]_n) (s : R) : pos_def A -> pos_def B -> 0 < s ->
  exists C : 'M[R]_n, (let* T := mult_scalar K n n (mxrows B) s in sum K n n (mxrows A) T) = Ok (mxrows C) /\ pos_def C.
Proof.
  move=> HA HB s0; exists (A + map_mx (fun x => x * s) B); rewrite mult_scalar_mx /= sum_mx; split=> // x x0.
  have -> : map_mx (fun x => x * s) B = s *: B by apply/matrixP => i j; rewrite !mxE mulrC.
  have HAx := HA x x0; have HBx := HB x x0.
  rewrite mulmxDr mulmxDl mxE -scalemxAr -scalemxAl addr_gt0 //.
  by move: HBx; move: (_ *m _ *m _) => M HM; rewrite mxE mulr_gt0.
Qed.

(** B * A * trans(B), and the normal matrix B * trans(B), for a B of full row rank *)
Theorem c94_normal m n (B : 'M[R]_(m, n)) : (forall x : 'rV[R]_m, x != 0 -> x *m B != 0) ->
  exists C : 'M[R]_m, (let* T := trans K m n (mxrows B) in mult K m n m (mxrows B) T) = Ok (mxrows C) /\
    symmetric C /\ pos_def C.
Proof.
  move=> HB; exists (B *m B^T); rewrite trans_mx /= mult_mx; split=> //; split.
    by rewrite /symmetric trmx_mul trmxK.
  rewrite (_ : B *m B^T = B *m 1%:M *m B^T); last by rewrite mulmx1.
  apply: pos_def_cong => //; exact: pos_def1.
Qed.

(** sizes of the elements *)
Theorem c94_diag n (A : 'M[R]_n) : symmetric A -> pos_def A ->
  (forall i, 0 < A i i) /\ forall i j, i != j -> A i j ^+ 2 < A i i * A j j.
Proof.
  move=> As HA.
  have D i : 0 < A i i.
    have x0 : (delta_mx 0 i : 'rV[R]_n) != 0.
      by apply/eqP => /rowP/(_ i); rewrite !mxE !eqxx => /eqP; rewrite oner_eq0.
    by have := HA _ x0; rewrite -rowE trmx_delta -colE !mxE.
  split=> // i j Hij.
  pose x : 'rV[R]_n := A j j *: delta_mx 0 i - A i j *: delta_mx 0 j.
  have x0 : x != 0.
    apply/eqP => /rowP/(_ i); rewrite !mxE !eqxx (negbTE Hij) mulr1 mulr0 subr0 => E.
    by have := D j; rewrite E ltxx.
  have Aji : A j i = A i j by have := congr1 (fun M : 'M[R]_n => M i j) As; rewrite mxE.
  have F : (x *m A *m x^T) 0 0 = A j j * (A i i * A j j - A i j ^+ 2).
    have xT : x^T = A j j *: delta_mx i 0 - A i j *: delta_mx j 0.
      by apply/matrixP => a b; rewrite !mxE (ord1 b) !eqxx /= !andbT.
    have xA : x *m A = A j j *: row i A - A i j *: row j A by rewrite /x mulmxBl -!scalemxAl -!rowE.
    rewrite xT xA mulmxBr -!scalemxAr -!colE !mxE Aji; move: (A i i) (A i j) (A j j) => a b d.
    rewrite [b * (d * b - b * d)](_ : _ = 0) ?subr0; last by rewrite [d * b]mulrC subrr mulr0.
    by rewrite expr2 [d * a]mulrC.
  by have := HA x x0; rewrite F pmulr_rgt0 // subr_gt0.
Qed.

(** Hadamard's inequality *)
Theorem c94_hadamard n (A : 'M[R]_n) : symmetric A -> pos_def A ->
  exists d, det K n (mxrows A) = Ok d /\ 0 < d <= \prod_i A i i.
Proof.
  move=> As HA; exists (\det A); split; first exact: det_mx.
  have [L [U [_ [G HU]]]] := pos_def_lu As HA; rewrite (lu_good_det G) prodr_gt0 //=.
  apply: ler_prod => i _; rewrite ltW //=; have [[L1 _] _ _ E] := G.
  rewrite -E {2}(ldl As G) mulmxA mul_mx_diag mxE (bigD1 i) //= !mxE L1 mul1r mulr1 ler_addl.
  by apply: sumr_ge0 => a _; rewrite !mxE mulrAC -expr2 mulr_ge0 ?sqr_ge0 // ltW.
Qed.

(** powers, negative ones included *)
Lemma pos_def_pow n (A : 'M[R]_n) p : symmetric A -> pos_def A -> symmetric (mxpow A p) /\ pos_def (mxpow A p).
Proof.
  move=> As HA.
  have S q : symmetric (mxpow A q).
    by elim: q => [|q IH]; rewrite /symmetric /= ?trmx1 // trmx_mul As IH -mxpowSr.
  have UP q (x : 'rV[R]_n) : x != 0 -> x *m mxpow A q != 0.
    elim: q x => [|q IH] x x0 /=; first by rewrite mulmx1.
    rewrite mulmxA IH //; apply: contra_neq x0 => /(congr1 (fun M => M *m invmx A)).
    by rewrite mulmxK ?pos_def_unit // mul0mx.
  split=> //; rewrite -[p]odd_double_half -addnn.
  case: (odd p).
    rewrite add1n -addnS mxpowD.
    rewrite (_ : mxpow A p./2 *m _ = mxpow A p./2 *m A *m (mxpow A p./2)^T); last by rewrite S -mulmxA.
    apply: pos_def_cong => //; exact: UP.
  rewrite add0n mxpowD (_ : mxpow A p./2 *m _ = mxpow A p./2 *m 1%:M *m (mxpow A p./2)^T).
    apply: pos_def_cong; [exact: UP | exact: pos_def1].
  by rewrite mulmx1 S.
Qed.

Theorem c94_pow n w (A : 'M[R]_n) (p : Z) : (0 < n)%N -> symmetric A -> pos_def A -> (1 <= w)%Z ->
  (Z.abs p < 2 ^ (w - 1))%Z ->
  exists B : 'M[R]_n, pow K n w (mxrows A) p = Ok (mxrows B) /\ symmetric B /\ pos_def B.
Proof.
  move=> n0 As HA Hw Hp; have UA := pos_def_unit HA.
  have [p0 | p0] : (0 <= p \/ p < 0)%Z by lia.
    exists (mxpow A (Z.to_nat p)); split; last exact: pos_def_pow.
    by rewrite -{1}[p]Z2Nat.id // c25_pow // Z2Nat.id //; lia.
  have [B [E [Bs [HB EB]]]] := c94_inv As HA.
  have {}E : invmx A = B by move: E; rewrite inv_mx // => -[/(mxrows_inj 0)].
  exists (mxpow B (Z.to_nat (- p))); split; last exact: pos_def_pow.
  have -> : p = (- Z.of_nat (Z.to_nat (- p)))%Z by lia.
  rewrite /K /ordS c25_pow_neg //; try lia; by rewrite E; congr (Ok (mxrows (mxpow _ _))); lia.
Qed.
End Def.

(** *** square roots *)
Section Root.
Variable R : rcfType.

Theorem c94_chol n (A : 'M[R]_n) : symmetric A ->
  (pos_def A <-> exists C : 'M[R]_n, chol (realS R) n (mxrows A) = Ok (mxrows C) /\ forall i, 0 < C i i).
Proof.
  move=> As; rewrite c31_iff (_ : \matrix_(i, j) _ = A) //.
  apply/matrixP => i j; rewrite mxE; case: ifP => // _.
  by have := congr1 (fun M : 'M[R]_n => M i j) As; rewrite mxE.
Qed.

(** the factors of lu and chol determine each other *)
Theorem c94_chol_lu n (A C L U : 'M[R]_n) : symmetric A -> pos_def A ->
  chol (realS R) n (mxrows A) = Ok (mxrows C) -> lu (realS R) n (mxrows A) = Ok (mxrows L, mxrows U) ->
  (forall i j, C i j = L i j * Num.sqrt (U j j)) /\ (forall i j, U i j = C i i * C j i).
Proof.
  move=> As HA EC EL.
  have [L' [U' [E [G HU]]]] := pos_def_lu (fun a : R => if a < 0 then UB BadConversion else Ok (Num.sqrt a)) As HA.
  move: E; rewrite -/(realS R) EL => -[/(mxrows_inj 0) E1 /(mxrows_inj 0) E2]; rewrite -{}E1 -{}E2 in G HU.
  have [[L1 L0] _ _ E] := G.
  pose C' : 'M[R]_n := \matrix_(i, j) (L i j * Num.sqrt (U j j)).
  have HC : C = C'.
    have : chol (realS R) n (mxrows A) = Ok (mxrows C').
      apply: c30_unique.
      - by move=> i j Hij; rewrite mxE L0 // mul0r.
      - by move=> i; rewrite mxE L1 mul1r sqrtr_gt0.
      - rewrite -E (ldl As G); apply/matrixP => i j; rewrite !mxE; apply: eq_bigr => k _.
        by rewrite mul_diag_mx !mxE mulrACA -expr2 sqr_sqrtr ?ltW // mulrA mulrAC -mulrA [U k k * _]mulrC mulrA.
    by rewrite EC => -[/(mxrows_inj 0)].
  split=> i j; rewrite HC mxE // {1}(ldl As G) mul_diag_mx !mxE L1 mul1r mulrA mulrAC -expr2 sqr_sqrtr ?ltW //.
Qed.

(** whatever chol returns for a symmetric matrix, the matrix is positive semidefinite *)
Theorem c94_semidefinite n (A : 'M[R]_n) X : symmetric A -> chol (realS R) n (mxrows A) = Ok X ->
  forall x : 'rV[R]_n, 0 <= (x *m A *m x^T) 0 0.
Proof.
  move=> As /c31_returned [L [_ [_ _ E]]] x.
  have {}E : L *m L^T = A.
    rewrite E; apply/matrixP => i j; rewrite mxE; case: ifP => // _.
    by have := congr1 (fun M : 'M[R]_n => M i j) As; rewrite mxE.
  by rewrite -E mulmxA -mulmxA -trmx_mul mxE sumr_ge0 // => i _; rewrite [(_^T) _ _]mxE -expr2 sqr_ge0.
Qed.

Theorem c94_indefinite n (A : 'M[R]_n) (x : 'rV[R]_n) : symmetric A -> (x *m A *m x^T) 0 0 < 0 ->
  forall X, chol (realS R) n (mxrows A) <> Ok X.
Proof. by move=> As Hx X /(c94_semidefinite As)/(_ x); rewrite leNgt Hx. Qed.
End Root.

(** *** concrete matrices *)
Example c94_ex (R : realFieldType) : let A := mx22 (2%:R : R) 1 1 2%:R in symmetric A /\ pos_def A.
Proof.
  move=> A.
  have As : symmetric A.
    apply/matrixP => i j; rewrite !mxE.
    by case: (unliftP ord0 i) => [? -> | ->]; case: (unliftP ord0 j) => [? -> | ->].
  split=> //; apply/(c94_minors (fun _ => Terminate) As) => k Hk k0; eexists; split; first exact: det_mx.
  case: k Hk k0 => [|[|[|k]]] // Hk _.
  - by rewrite det_mx11 !mxE ltr0n.
  - have -> : \matrix_(i < 2, j < 2) A (widen_ord Hk i) (widen_ord Hk j) = A.
      by apply/matrixP => i j; rewrite mxE; congr (A _ _); exact: val_inj.
    by rewrite det_mx22 mulr1 -natrM subr_gt0 ltr1n.
Qed.

(** symmetric with positive elements and positive diagonal, but chol does not return *)
Example c94_ex_bad (R : rcfType) : let A := mx22 (1 : R) 2%:R 2%:R 1 in
  symmetric A /\ forall X, chol (realS R) 2 (mxrows A) <> Ok X.
Proof.
  move=> A.
  have As : symmetric A.
    apply/matrixP => i j; rewrite !mxE.
    by case: (unliftP ord0 i) => [? -> | ->]; case: (unliftP ord0 j) => [? -> | ->].
  split=> //; apply: (@c94_indefinite _ _ _ (\row_(i < 2) (if i == ord0 then 1 else -1))) => //.
  rewrite mxE !big_ord_recl big_ord0 /= !mxE !big_ord_recl !big_ord0 /= !mxE /= !addr0 !mul1r !mulN1r !mulrN1 !mulr1.
  by rewrite -[2%:R - 1]opprB opprK -mulr2n pmulrn_llt0 // subr_lt0 ltr1n.
Qed.
