(** * Strict integers inside an ordered field *)

From Coq Require Import ZArith List Lia.
From mathcomp Require Import all_ssreflect all_algebra.
From mathcomp Require Import zify ssrZ.
From Verif Require Import Base Scalar Model Spec Loops Struct Exact ExactLemmas Alg Det Inv LU Pow Param ParamInst Strict.

Set Implicit Arguments.
Unset Strict Implicit.
Unset Printing Implicit Defensive.

Import GRing.Theory Num.Theory.
Local Open Scope ring_scope.
Delimit Scope Z_scope with Z.

Section Ring.
Variable R : ringType.
Lemma ring_of_ZE z : ring_of_Z R z = (int_of_Z z)%:~R.
Proof.
case: z => [|p|p] //=.
by rewrite NegzE mulrNz prednK //; lia.
Qed.
Lemma ring_of_ZD a b : ring_of_Z R (a + b)%Z = ring_of_Z R a + ring_of_Z R b.
Proof. by rewrite !ring_of_ZE -intrD; congr (_%:~R); lia. Qed.
Lemma ring_of_ZN a : ring_of_Z R (- a)%Z = - ring_of_Z R a.
Proof. by rewrite !ring_of_ZE -mulrNz; congr (_%:~R); lia. Qed.
Lemma ring_of_ZB a b : ring_of_Z R (a - b)%Z = ring_of_Z R a - ring_of_Z R b.
Proof. by rewrite -[(a - b)%Z]/(a + - b)%Z ring_of_ZD ring_of_ZN. Qed.
Lemma ring_of_ZM a b : ring_of_Z R (a * b)%Z = ring_of_Z R a * ring_of_Z R b.
Proof. by rewrite !ring_of_ZE -intrM; congr (_%:~R); lia. Qed.
End Ring.

Section Field.
Variable R : realFieldType.
Notation iz := (ring_of_Z R).

Lemma int_of_Z_eq a b : (int_of_Z a == int_of_Z b) = (a =? b)%Z.
Proof. by apply/idP/idP => [/eqP /(can_inj int_of_ZK) ->|/Z.eqb_spec ->]; [exact: Z.eqb_refl|]. Qed.
Lemma int_of_Z_lt a b : (int_of_Z a < int_of_Z b) = (a <? b)%Z.
Proof. apply/idP/idP; lia. Qed.

Lemma ring_of_Z_eq a b : (iz a == iz b) = (a =? b)%Z.
Proof. by rewrite !ring_of_ZE eqr_int int_of_Z_eq. Qed.
Lemma ring_of_Z_lt a b : (iz a < iz b) = (a <? b)%Z.
Proof. by rewrite !ring_of_ZE ltr_int int_of_Z_lt. Qed.
Lemma ring_of_Z_inj : injective iz.
Proof. by move=> a b /eqP; rewrite ring_of_Z_eq => /Z.eqb_spec. Qed.

Section Tracks.
Variables (sq : R -> outcome R) (B : Z).
Hypothesis Hsq : forall z, (0 <= z)%Z -> sq (iz (z * z)%Z) = Ok (iz z).
Notation K := (ordS sq).
Definition relR (z : Z) (x : R) : Prop := x = iz z.

Lemma relR_chk z : refines relR (chk B z) (Ok (iz z)).
Proof. by apply: ref_chk => _; exists (iz z). Qed.

Lemma relR_unit b : b <> 0%Z -> iz b \is a GRing.unit.
Proof. by move=> H; rewrite unitfE -[0]/(iz 0) ring_of_Z_eq; apply/negP => /Z.eqb_spec. Qed.

Lemma relR_div a b : b <> 0%Z -> (a mod b = 0)%Z -> iz a / iz b = iz (a / b)%Z.
Proof.
move=> H E; rewrite [in LHS](exact_div_eq _ _ H E) ring_of_ZM mulrC mulKr //; exact: relR_unit.
Qed.

Theorem tracks_exact : tracks B K relR relR.
Proof.
split.
- by [].
- by [].
- by move=> z _; rewrite /relR.
- by move=> a x b y -> -> /=; rewrite -ring_of_ZD; exact: relR_chk.
- by move=> a x b y -> -> /=; rewrite -ring_of_ZB; exact: relR_chk.
- by move=> a x b y -> -> /=; rewrite -ring_of_ZM; exact: relR_chk.
- move=> a x b y -> -> /=. case: Z.eqb_spec => // N; case: Z.eqb_spec => // E.
  rewrite /exact_div relR_unit // relR_div //; exact: relR_chk.
- by move=> a x -> /=; rewrite -ring_of_ZN; exact: relR_chk.
- move=> a x -> /=. have -> : `|iz a| = iz (Z.abs a).
    by rewrite !ring_of_ZE -intr_norm; congr (_%:~R); lia.
  exact: relR_chk.
- by move=> a x b y -> -> /=; rewrite ring_of_Z_eq.
- by move=> a x b y -> -> /=; rewrite ring_of_Z_lt.
- move=> a x -> /=. case: Z.eqb_spec => // E; rewrite -[in sq _]E Hsq; last exact: Z.sqrt_nonneg.
  exact: ref_ok.
- move=> a x n -> /=. case: Z.leb_spec => // a0; case: Z.ltb_spec => // n0; case: Z.leb_spec => // nB.
  case: Z.eqb_spec => // E /=; rewrite /exact_div relR_unit; last by lia.
  rewrite relR_div //; [exact: ref_ok|lia].
Qed.
End Tracks.

Lemma mrel_map n m (A : 'M[Z]_(n, m)) : mrel relR (mxrows A) (mxrows (map_mx iz A)).
Proof.
rewrite /mrel /mxrows; elim: (enum 'I_n) => [|i s IH] /=; constructor=> //.
by elim: (enum 'I_m) => [|j s' IH'] /=; constructor=> //; rewrite /relR mxE.
Qed.

Lemma mrel_mapE (A : matrix Z) (A' : matrix R) : mrel relR A A' -> A' = List.map (List.map iz) A.
Proof.
move=> H; elim: H => [|r r' A0 A0' Hr _ IH] //=; rewrite IH; congr cons.
by elim: Hr => [|z x v v' -> _ ->].
Qed.
End Field.

(** rationals with a square root good enough for squares of integers *)
Definition sqrtQ (a : rat) : outcome rat := Ok (ring_of_Z [ringType of rat] (Z.sqrt (Z_of_int (numq a)))).
Lemma sqrtQ_square z : (0 <= z)%Z -> sqrtQ (ring_of_Z _ (z * z)%Z) = Ok (ring_of_Z _ z).
Proof.
move=> H; rewrite /sqrtQ [in numq _]ring_of_ZE (_ : numq _ = int_of_Z (z * z)); last exact: numq_int.
by rewrite int_of_ZK Z.sqrt_square.
Qed.
