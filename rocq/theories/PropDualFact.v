(** * Property C103, continued: lu and chol of matrices of dual numbers *)

From Coq Require Import ZArith List Lia.
From mathcomp Require Import all_ssreflect all_algebra all_fingroup.
From mathcomp Require Import zify.
From Verif Require Import Base Scalar Model Spec CFloat Loops Struct Elim Alg Exact ExactLemmas Det Inv Param LU Chol Dual DualMx DualFact PropDual.

Set Implicit Arguments.
Unset Strict Implicit.
Unset Printing Implicit Defensive.

Import Order.TTheory GRing.Theory Num.Theory.
Local Notation ltP := ssrnat.ltP (only parsing).
Local Notation leP := ssrnat.leP (only parsing).
Local Open Scope ring_scope.
Delimit Scope Z_scope with Z.

(** zero on and above the diagonal *)
Definition strictly_lower (R : ringType) (n : nat) (M : 'M[R]_n) : Prop := forall i j : 'I_n, (i <= j)%N -> M i j = 0.

Section LU.
Variables (F : fieldType) (lt : F -> F -> bool) (ab : F -> F) (sq : F -> outcome F).
Notation K := (exactS lt ab sq).
Notation D := (dualS K).
Notation C := (dual_comUnitRingType F).

Let dlt : C -> C -> bool := xlt (s := D).
Let L0 : scalar := @locS C dlt id (d_sqrt (V := K)).

Lemma lu_ref_d n A : refines (relP (mrel eq) (mrel eq)) (lu L0 n A) (lu D n A).
Proof.
apply: (lu_ref L0 D eq eq); first [exact: mrel_eq | exact: (dlitE _) | by [] | idtac].
all: try by move=> ? ? ? ? -> -> /=; eexists.
- by move=> ? ? ? ? -> ->; exact: ddiv_exact.
- by move=> ? ? ? ? -> ->; exact: locxeq.
Qed.
Lemma lu_d n A X Y : lu L0 n A = Ok (X, Y) -> lu D n A = Ok (X, Y).
Proof.
move=> E; have := lu_ref_d n A; rewrite E /= => -[[X' Y'] [-> [/= H1 H2]]].
have Q Z Z' : mrel eq Z Z' -> Z = Z' :> matrix (dual F).
  by elim=> // r r' l l' Hr _ ->; congr (_ :: _); elim: Hr => // a a' w w' -> _ ->.
by rewrite (Q _ _ H1) (Q _ _ H2).
Qed.

Lemma vals_mx n m (A B : 'M[F]_(n, m)) : vals (mxrows (dmx A B)) = mxrows A.
Proof.
rewrite /vals /mxrows -map_comp; apply: eq_map => i /=; rewrite -map_comp; apply: eq_map => j /=.
by rewrite mxE.
Qed.

(** L N + M U = 0 has only the solution 0 *)
Lemma lu_tangent0 n (L U M N : 'M[F]_n) : unit_lower L -> upper U -> (forall i, U i i != 0) ->
  strictly_lower M -> upper N -> L *m N + M *m U = 0 -> M = 0 /\ N = 0.
Proof.
move=> [HL1 HL] HU Hnz HM HN E.
suff H (k : nat) : forall (Hk : (k < n)%N), (forall i, M i (Ordinal Hk) = 0) /\ (forall j, N (Ordinal Hk) j = 0).
  by split; apply/matrixP => i j; rewrite mxE; [case: j|case: i] => k Hk; apply H.
elim/ltn_ind: k => k IH Hk.
have Nk j : N (Ordinal Hk) j = 0.
  have : (L *m N + M *m U) (Ordinal Hk) j = 0 by rewrite E mxE.
  rewrite mxE [X in X + _]mxE [X in _ + X]mxE (bigD1 (Ordinal Hk)) //= HL1 mul1r !big1 ?addr0 //.
    move=> p _; case: (ltnP p k) => Hp; last by rewrite HM ?mul0r.
    by have [H _] := IH p Hp (ltn_ord p); rewrite (_ : p = Ordinal (ltn_ord p)) ?H ?mul0r //; apply: val_inj.
  move=> p Hp; case: (ltngtP p k) => Hpk.
  - by have [_ H] := IH p Hpk (ltn_ord p); rewrite (_ : p = Ordinal (ltn_ord p)) ?H ?mulr0 //; apply: val_inj.
  - by rewrite HL ?mul0r.
  - by case/eqP: Hp; apply: val_inj.
split=> // i; case: (leqP i k) => Hik; first exact: HM.
have : (L *m N + M *m U) i (Ordinal Hk) = 0 by rewrite E mxE.
rewrite mxE [X in X + _]mxE [X in _ + X]mxE big1.
  rewrite add0r (bigD1 (Ordinal Hk)) //= big1 ?addr0 => [|p Hp].
    by move/eqP; rewrite mulf_eq0 (negbTE (Hnz _)) orbF => /eqP.
  case: (ltngtP p k) => Hpk.
  - by have [H _] := IH p Hpk (ltn_ord p); rewrite (_ : p = Ordinal (ltn_ord p)) ?H ?mul0r //; apply: val_inj.
  - by rewrite HU ?mulr0.
  - by case/eqP: Hp; apply: val_inj.
move=> p _; case: (ltngtP p k) => Hpk.
- by have [_ H] := IH p Hpk (ltn_ord p); rewrite (_ : p = Ordinal (ltn_ord p)) ?H ?mulr0 //; apply: val_inj.
- by rewrite HN ?mulr0.
- by rewrite (_ : p = Ordinal Hk) ?Nk ?mulr0 //; apply: val_inj.
Qed.

(** lu: values as in the plain call, and the derivatives solve L*dU + dL*U = B, which they are the only ones to do *)
Theorem c103_lu n (A B : 'M[F]_n) :
  (exists L M U N : 'M[F]_n,
    [/\ lu D n (mxrows (dmx A B)) = Ok (mxrows (dmx L M), mxrows (dmx U N)),
        lu K n (mxrows A) = Ok (mxrows L, mxrows U),
        L *m N + M *m U = B & strictly_lower M /\ upper N] /\
    (forall M' N', strictly_lower M' -> upper N' -> L *m N' + M' *m U = B -> M' = M /\ N' = N)) \/
  (lu D n (mxrows (dmx A B)) = Throw OverflowError /\ lu K n (mxrows A) = Throw OverflowError).
Proof.
have P : plain (@exactS F lt ab (fun x => Ok x)) by exact: plain_exact.
have [_ _ _ V _] := @c103_values_solve _ P n 31 0 (mxrows (dmx A B)).
change (same_values (fun q => (vals q.1, vals q.2)) (lu D n (mxrows (dmx A B))) (lu K n (vals (mxrows (dmx A B))))) in V.
rewrite vals_mx in V.
have [[l [u [El [[H1 [Hl Hu]] [Hnz Hp]]]]]|ET] := @llu_spec C dlt id (d_sqrt (V := K)) n (mxf 0 (dmx A B)); last first.
  right; have X : lu D n (mxrows (dmx A B)) = Throw OverflowError.
    by have := lu_ref_d n (mxrows (dmx A B)); rewrite {1}(mxrowsE 0 (dmx A B)) [X in refines _ X _]ET.
  by split=> //; move: V; rewrite X.
left; pose LL : 'M[dual_ringType F]_n := \matrix_(i, j) l i j; pose UU : 'M[dual_ringType F]_n := \matrix_(i, j) u i j.
have X : lu D n (mxrows (dmx A B)) = Ok (mxrows LL, mxrows UU).
  by apply: lu_d; rewrite {1}(mxrowsE 0 (dmx A B)) /LL /UU -!mk_mxrows.
have EP : LL *m UU = dmx A B.
  apply/matrixP => i j; rewrite -(mxf_ord 0 (dmx A B)) -Hp // mxE /ldot; apply: eq_bigr => p _; by rewrite !mxE.
have [L [M EL]] : exists L M, LL = dmx L M by do 2!eexists; exact: dmx_vals.
have [U [N EU]] : exists U N, UU = dmx U N by do 2!eexists; exact: dmx_vals.
have EV : lu K n (mxrows A) = Ok (mxrows L, mxrows U) by move: V; rewrite X EL EU /= !vals_mx.
have [G1 G2] : L *m U = A /\ L *m N + M *m U = B by apply: dmx_inj; rewrite -dmxM -EL -EU.
have EM (i j : 'I_n) : l i j = (L i j, M i j) by have := congr1 (fun Z : 'M[dual_ringType F]_n => Z i j) EL; rewrite !mxE.
have EN (i j : 'I_n) : u i j = (U i j, N i j) by have := congr1 (fun Z : 'M[dual_ringType F]_n => Z i j) EU; rewrite !mxE.
have SM : strictly_lower M.
  move=> i j; rewrite leq_eqVlt => /orP[/eqP/val_inj <-|Hij].
    by have := H1 i (ltn_ord i); rewrite EM => -[].
  by have := Hl i j; rewrite Hij ltn_ord EM => /(_ isT) [].
have SN : upper N by move=> i j Hij; have := Hu i j; rewrite Hij ltn_ord EN => /(_ isT) [].
exists L, M, U, N; split; first by rewrite X EL EU.
have HL1 : unit_lower L.
  by split=> [i|i j Hij]; [have := H1 i (ltn_ord i); rewrite EM => -[]|have := Hl i j; rewrite Hij ltn_ord EM => /(_ isT) []].
have HU : upper U by move=> i j Hij; have := Hu i j; rewrite Hij ltn_ord EN => /(_ isT) [].
have HUn i : U i i != 0 by have := Hnz i (ltn_ord i); rewrite dunitE EN.
move=> M' N' HM' HN' E'.
have [||||||E1 E2] := @lu_tangent0 n L U (M' - M) (N' - N) => //.
- by move=> i j Hij; rewrite !mxE HM' ?SM ?subrr.
- by move=> i j Hij; rewrite !mxE HN' ?SN ?subrr.
- by rewrite mulmxBr mulmxBl addrACA -opprD E' G2 subrr.
by split; apply/eqP; rewrite -subr_eq0 ?E1 ?E2.
Qed.
End LU.

Section Chol.
Variable F : rcfType.
Notation K := (realS F).
Notation D := (dualS K).
Notation C := (dual_comUnitRingType F).

Let dlt : C -> C -> bool := xlt (s := D).
Let dsq : C -> outcome C := d_sqrt (V := K).
Let L0 : scalar := @locS C dlt id dsq.

Lemma dsqE (z : C) : dsq z = if 0 < z.1 then Ok (Num.sqrt z.1, z.2 / (2%:R * Num.sqrt z.1)) else dsq z.
Proof.
case: ifP => // H; rewrite /dsq /d_sqrt /= (lt_gtF H) /= /exact_div unitfE mulf_neq0 ?pnatr_eq0 //.
by rewrite sqrtr_eq0 -ltNge.
Qed.
Lemma dsq_ret (z r : C) : dsq z = Ok r -> 0 < z.1.
Proof.
rewrite /dsq /d_sqrt /=; case: ifP => // H /=; rewrite /exact_div unitfE mulf_eq0 pnatr_eq0 /= sqrtr_eq0 -ltNge.
by case: ifP.
Qed.
Lemma dsqP (z r : C) : dsq z = Ok r -> r * r = z /\ r \is a GRing.unit.
Proof.
move=> E; have H := dsq_ret E; move: E; rewrite dsqE H => -[<-].
have Hs : Num.sqrt z.1 != 0 by rewrite sqrtr_eq0 -ltNge.
rewrite dunitE; split=> //; apply: dual_eq; rewrite ?d1M ?d2M /=; first by rewrite -expr2 sqr_sqrtr // ltW.
by rewrite [X in X + _]mulrC -mulrDr -mulr2n -(mulr_natl (Num.sqrt z.1) 2) divfK // mulf_neq0 ?pnatr_eq0.
Qed.

Lemma chol_d n A X : chol L0 n A = Ok X -> chol D n A = Ok X.
Proof.
apply: ref_meq; apply: (chol_ref L0 D eq eq); first [exact: mrel_eq | exact: (dlitE _) | by [] | idtac].
all: try by move=> ? ? ? ? -> -> /=; eexists.
- by move=> ? ? ? ? -> ->; exact: ddiv_exact.
- by move=> ? ? ->; rewrite /= -/dsq; case: dsq => //= r; eexists.
Qed.

(** M L^T + L M^T = 0 has only the solution 0 among lower triangular matrices *)
Lemma chol_tangent0 n (L M : 'M[F]_n) : lower L -> (forall i, L i i != 0) -> lower M ->
  M *m L^T + L *m M^T = 0 -> M = 0.
Proof.
move=> HL Hnz HM E.
suff H (a : nat) : forall (Ha : (a < n)%N) b, M (Ordinal Ha) b = 0.
  by apply/matrixP => -[a Ha] b; rewrite H mxE.
elim/ltn_ind: a => a IH Ha; set oa := Ordinal Ha.
suff H (b : nat) : forall Hb : (b < n)%N, M oa (Ordinal Hb) = 0 by case=> b Hb.
elim/ltn_ind: b => b IHb Hb; set ob := Ordinal Hb.
case: (ltnP a b) => Hab; first exact: HM.
have IH' (p q : 'I_n) : (p < a)%N -> M p q = 0.
  by case: p => p Hp Hpa; apply: IH.
have IHb' (p : 'I_n) : (p < b)%N -> M oa p = 0.
  by case: p => p Hp Hpb; apply: IHb.
have : (M *m L^T + L *m M^T) oa ob = 0 by rewrite E mxE.
rewrite mxE [X in X + _]mxE [X in _ + X]mxE (bigD1 ob) //= [X in _ + _ + X](bigD1 ob) //=.
rewrite !mxE [\sum_(i < n | _) _ in X in X + _]big1 => [|p Hp]; last first.
  rewrite mxE; case: (ltngtP p b) => Hpb.
  - by rewrite IHb' ?mul0r.
  - by rewrite (HL ob) ?mulr0.
  - by case/eqP: Hp; apply: val_inj.
rewrite big1 => [|p Hp]; last first.
  rewrite mxE; case: (ltngtP p b) => Hpb.
  - case: (ltngtP b a) => Hba; first by rewrite IH' ?mulr0.
      by exfalso; lia.
    by rewrite (_ : ob = oa) ?IHb' ?mulr0 //; apply: val_inj.
  - by rewrite (HM ob) ?mulr0.
  - by case/eqP: Hp; apply: val_inj.
rewrite !addr0; case: (ltngtP b a) => Hba; last first.
- have -> : ob = oa by apply: val_inj.
  rewrite [X in _ + X]mulrC -mulr2n => /eqP; rewrite mulrn_eq0 /= mulf_eq0 (negbTE (Hnz _)) orbF => /eqP; exact.
- by exfalso; lia.
rewrite (IH' ob) // mulr0 addr0 => /eqP; rewrite mulf_eq0 (negbTE (Hnz _)) orbF => /eqP; exact.
Qed.

(** chol of a symmetric positive definite matrix *)
Theorem c103_chol n (A B : 'M[F]_n) : symmetric A -> pos_def A -> symmetric B ->
  exists L M : 'M[F]_n,
    [/\ chol D n (mxrows (dmx A B)) = Ok (mxrows (dmx L M)), chol K n (mxrows A) = Ok (mxrows L),
        lower M, M *m L^T + L *m M^T = B &
        forall M', lower M' -> M' *m L^T + L *m M'^T = B -> M' = M].
Proof.
move=> SA PA SB; pose f := mxf 0 (dmx A B).
have Hf (a b : 'I_n) : f a b = (A a b, B a b) by rewrite /f mxf_ord mxE.
have [|X [EX [l [El [Hz [Hd Hu]]]]]] := @kchol_total C dlt id dsq dsqP n f.
  move=> i l Hi Hz Hd.
  have Hv : 0 < (f i i - kdot l i i i).1.
    have E1 a b m : rdot (fun p q => (l p q).1) a b m = (kdot l a b m).1.
      by rewrite /rdot /pdot /kdot sum1; apply: eq_bigr => p _; rewrite d1M.
    have := @chol_v_pos F n (fun p q => (f p q).1) (fun p q => (l p q).1) i A Hi _ SA PA.
    rewrite /chol_v E1 d1D d1N; apply.
    - by move=> a b; rewrite Hf.
    - by move=> a b H; rewrite Hz.
    - by move=> a b H1 H2; rewrite E1 Hd.
  by rewrite dsqE Hv; eexists.
have ED : chol D n (mxrows (dmx A B)) = Ok (mk n n l).
  by apply: chol_d; rewrite (mxrowsE 0 (dmx A B)) -/f [LHS]EX El.
pose LL : 'M[dual_ringType F]_n := \matrix_(i, j) l i j.
have [L [M EL]] : exists L M, LL = dmx L M by do 2!eexists; exact: dmx_vals.
rewrite mk_mxrows -/LL EL in ED.
have EM (i j : 'I_n) : l i j = (L i j, M i j) by have := congr1 (fun Z : 'M[dual_ringType F]_n => Z i j) EL; rewrite !mxE.
have [L' [EK [HL' HP' HA']]] := chol_spd SA PA.
have P : plain K by apply: plain_exact => x; case: ifP.
have [_ _ _ _ V] := @c103_values_solve _ P n 31 0 (mxrows (dmx A B)).
rewrite ED vals_mx /= vals_mx in V.
have EL' : L' = L by apply: (@mxrows_inj _ _ _ 0); move: V; rewrite EK => -[].
have [Hlow Hprod] := @kchol_prod C n f l Hz Hd.
have HLM : lower L /\ lower M.
  by split=> i j Hij; have := Hlow i j Hij; rewrite mxE EM => -[].
have EP : dmx L M *m (dmx L M)^T = dmx A B.
  rewrite -EL; apply/matrixP => i j; case: (leqP j i) => Hij.
    by have [-> _] := Hprod i j Hij; rewrite Hf mxE.
  have [_ ->] := Hprod j i (ltnW Hij); rewrite Hf mxE; congr (_, _); first by rewrite -{1}SA mxE.
  by rewrite -{1}SB mxE.
have [G1 G2] : L *m L^T = A /\ L *m M^T + M *m L^T = B by apply: dmx_inj; rewrite -dmxM -dmxT.
exists L, M; split=> //.
- by case: HLM.
- by rewrite addrC.
move=> M' HM' E'; apply/eqP; rewrite -subr_eq0; apply/eqP; apply: (@chol_tangent0 n L).
- by case: HLM.
- by move=> i; rewrite -EL' lt0r_neq0.
- by move=> i j Hij; rewrite !mxE HM' //; case: HLM => _ ->; rewrite ?subrr.
by rewrite mulmxBl linearB /= mulmxBr addrACA -opprD E' [X in _ - X]addrC G2 subrr.
Qed.
End Chol.

(** the hypotheses on a concrete case: the identity *)
Example c103_chol_ex (F : rcfType) : symmetric (1%:M : 'M[F]_4) /\ pos_def (1%:M : 'M[F]_4).
Proof.
split; first by rewrite /symmetric trmx1.
move=> x Hx; rewrite mulmx1 mxE; have : exists i, x 0 i != 0.
  apply/existsP; apply: contraNT Hx; rewrite negb_exists => /forallP H; apply/eqP/matrixP => i j.
  by rewrite ord1 mxE; apply/eqP; have := H j; rewrite negbK.
case=> i Hi; rewrite (bigD1 i) //= mxE; apply: ltr_paddr.
  by apply: sumr_ge0 => j _; rewrite mxE -expr2 sqr_ge0.
by rewrite -expr2 lt0r sqrf_eq0 Hi sqr_ge0.
Qed.

Print Assumptions c103_lu.
Print Assumptions c103_chol.
