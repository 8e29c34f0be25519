(** * C21 continued: determinants of larger integer matrices

    From 4x4 on det eliminates with truncating divisions.  Whatever the integer
    type and the size, there are matrices with elements 0, 1, 2 on which it returns
    a wrong value, calls an invertible matrix singular or a singular one invertible;
    on triangular matrices it is exact. *)

From Coq Require Import ZArith List Lia.
From mathcomp Require Import all_ssreflect all_algebra.
From mathcomp Require Import zify ssrZ.
From Verif Require Import Base Scalar Model CInt Spec Loops Struct Exact ExactLemmas Alg Det IntMx Sim Int IntDet.

Set Implicit Arguments.
Unset Strict Implicit.
Unset Printing Implicit Defensive.

Import GRing.Theory.
Local Open Scope ring_scope.
Delimit Scope Z_scope with Z.

(** the 3x3 matrix of a list of rows *)
Definition blk (B : list (list Z)) : 'M[Z]_3 := \matrix_(i, j) entry B i j.
(** the identity of size m with B below and to the right of it *)
Definition frame (m : nat) (B : list (list Z)) : 'M[Z]_(m + 3) := block_mx 1%:M 0 0 (blk B).

Lemma frame_entry m B (i j : 'I_(m + 3)) : framed m B i j = frame m B i j.
Proof.
  rewrite /frame /framed !ltbE eqbE.
  case: (splitP i) => i' Ei; case: (splitP j) => j' Ej; rewrite Ei Ej.
  - have -> : i = lshift 3 i' by apply: val_inj. have -> : j = lshift 3 j' by apply: val_inj.
    rewrite block_mxEul mxE /= -(inj_eq val_inj) /=. by case: eqP.
  - have -> : i = lshift 3 i' by apply: val_inj. have -> : j = rshift m j' by apply: val_inj.
    rewrite block_mxEur mxE /=. by case: eqP => // E; have := ltn_ord i'; lia.
  - have -> : i = rshift m i' by apply: val_inj. have -> : j = lshift 3 j' by apply: val_inj.
    rewrite block_mxEdl mxE /=. by case: eqP => // E; have := ltn_ord j'; lia.
  - have -> : i = rshift m i' by apply: val_inj. have -> : j = rshift m j' by apply: val_inj.
    rewrite block_mxEdr mxE.
    by rewrite /=; congr entry; lia.
Qed.

Lemma frame_rows m B : mxrows (frame m B) = mk (m + 3) (m + 3) (framed m B).
Proof. by apply: mxrows_mk => i j; apply: frame_entry. Qed.

Lemma frame_det m B : \det (frame m B) = \det (blk B).
Proof. by rewrite det_ublock mathcomp.algebra.matrix.det1 mul1r. Qed.

Lemma frame_small m B i j : all_small B = true -> (0 <= frame m B i j <= 2)%Z.
Proof.
  move=> H; rewrite -frame_entry.
  have := @framed_small m B i j H ltac:(have := ltn_ord i; lia) ltac:(have := ltn_ord j; lia).
  by case=> [<-|[<-|[<-|[]]]].
Qed.

Lemma blk_det B d : all_small B = true -> det (intS int32) 3 (mk 3 3 (entry B)) = Ok d -> \det (blk B) = d.
Proof.
  move=> H E. have R : mxrows (blk B) = mk 3 3 (entry B) by apply: mxrows_mk => i j; rewrite mxE.
  have HA : mx_in int32 (blk B).
    move=> i j; rewrite mxE; have := @small_entry B i j H ltac:(have := ltn_ord i; lia) ltac:(have := ltn_ord j; lia).
    by case=> [<-|[<-|[<-|[]]]].
  rewrite -R in E. by case: (@sdet_exact int32 erefl (Z.le_refl 32) 3 (blk B) d erefl HA E).
Qed.

Lemma example t n B v d : (3 < n)%N -> all_small B = true ->
  det (intS int32) 3 (mk 3 3 (entry B)) = Ok d ->
  (forall m, det_general (intS t) (m + 3) (mk (m + 3) (m + 3) (framed m B)) = Ok v) ->
  exists A : 'M[Z]_n, (forall i j, (0 <= A i j <= 2)%Z) /\ \det A = d /\ det (intS t) n (mxrows A) = Ok v.
Proof.
  move=> Hn H E R. have -> : n = (n - 3 + 3)%N by lia. exists (frame (n - 3) B). split; last split.
  - by move=> i j; apply: frame_small.
  - by rewrite frame_det; apply: blk_det.
  - by rewrite frame_rows det_general_four ?R //; lia.
Qed.

(** An integer type of the language. *)
Definition int_type (t : ityp) : Prop :=
  t = int8 \/ t = uint8 \/ t = int16 \/ t = uint16 \/ t = int32 \/ t = uint32 \/ t = int64 \/ t = uint64.
Lemma int_type_in t : int_type t -> In t int_types.
Proof. by rewrite /int_type /=; intuition. Qed.

(** wrong value *)
Theorem c21_wrong t n : int_type t -> (3 < n)%N ->
  exists A : 'M[Z]_n, (forall i j, (0 <= A i j <= 2)%Z) /\ \det A = 1 /\ det (intS t) n (mxrows A) = Ok (2 : Z)%Z.
Proof. by move=> /int_type_in Ht Hn; apply: (example Hn (B := blk_wrong)) => // m; apply: wrong_run. Qed.
Print Assumptions c21_wrong.

(** determinant -1, returned 0 *)
Theorem c21_wrong_zero t n : int_type t -> (3 < n)%N ->
  exists A : 'M[Z]_n, (forall i j, (0 <= A i j <= 2)%Z) /\ \det A = (-1 : Z)%Z /\ det (intS t) n (mxrows A) = Ok (0 : Z)%Z.
Proof. by move=> /int_type_in Ht Hn; apply: (example Hn (B := blk_zero)) => // m; apply: zero_run. Qed.
Print Assumptions c21_wrong_zero.

(** singular, returned 2 *)
Theorem c21_wrong_nonzero t n : int_type t -> (3 < n)%N ->
  exists A : 'M[Z]_n, (forall i j, (0 <= A i j <= 2)%Z) /\ \det A = 0 /\ det (intS t) n (mxrows A) = Ok (2 : Z)%Z.
Proof. by move=> /int_type_in Ht Hn; apply: (example Hn (B := blk_singular)) => // m; apply: singular_run. Qed.
Print Assumptions c21_wrong_nonzero.

(** Upper triangular, no zero on the diagonal, and the products of the first
    diagonal elements are values of the type: exact at every size. *)
Theorem c21_triangular t n (A : 'M[Z]_n) : int_type t -> (3 < n)%N -> mx_in t A -> upper A ->
  (forall i, A i i <> 0) -> (forall k, (k <= n)%N -> in_range t (\prod_(i < n | (i < k)%N) A i i)) ->
  det (intS t) n (mxrows A) = Ok (\det A).
Proof.
  move=> /int_type_in Ht Hn HA HU HD HP.
  case: n Hn A HA HU HD HP => [//|n] Hn A HA HU HD HP.
  pose f i j := A (inord i) (inord j).
  rewrite det_general_four; last by lia.
  rewrite (@mxrows_mk _ _ _ A f); last by move=> i j; rewrite /f !inord_val.
  etransitivity; [apply: (@det_upper_run t n.+1 f (fun k => \prod_(i < n.+1 | (i < k)%N) A i i) Ht)|].
  - by lia.
  - move=> i j Hj Hi; rewrite /f HU // !inordK; lia.
  - by move=> i j _ _; apply: HA.
  - by move=> i _; apply: HD.
  - by rewrite big_pred0.
  - move=> k Hk. have Hk' : (k < n.+1)%N by lia.
    rewrite (bigD1 (inord k)) /=; last by rewrite inordK; lia.
    rewrite mulrC; congr (_ * _). apply: eq_bigl => i.
    rewrite -(inj_eq val_inj) /= inordK //. by lia.
  - by move=> k Hk; apply: HP; lia.
  - congr Ok. rewrite -det_tr det_trig; last first.
      apply/is_trig_mxP => i j Hij; rewrite mxE; exact: HU.
    rewrite (eq_bigl xpredT) => [|i]; last by rewrite ltn_ord.
    by apply: eq_bigr => i _; rewrite mxE.
Qed.
Print Assumptions c21_triangular.

(** the hypotheses are satisfiable: diag(2, -3, 5, 7) with ones above, as int *)
Definition tri4 : 'M[Z]_4 := \matrix_(i, j)
  (if (j < i)%N then 0 else if i == j then nth 0 [:: 2; -3; 5; 7]%Z i else 1).
Example c21_ex_triangular : det (intS int32) 4 (mxrows tri4) = Ok (-210 : Z)%Z /\
  det (intS int32) 4 (mxrows tri4) = Ok (\det tri4).
Proof.
  split.
  - rewrite (@mxrows_mk _ _ _ tri4 (fun i j => if (j < i)%N then 0%Z else if i == j then nth 0%Z [:: 2; -3; 5; 7]%Z i else 1%Z)) //.
    by move=> i j; rewrite mxE -(inj_eq val_inj).
  - apply: c21_triangular => //.
    + by do 4 right; left.
    + by case=> [[|[|[|[|]]]]] //= Hi [[|[|[|[|]]]]] //= Hj; rewrite mxE.
    + by move=> i j Hj; rewrite mxE Hj.
    + by case=> [[|[|[|[|]]]]] //= Hi; rewrite mxE eqxx.
    + by case=> [|[|[|[|[|]]]]] // _; rewrite big_mkcond !big_ord_recl big_ord0 ?mxE.
Qed.
