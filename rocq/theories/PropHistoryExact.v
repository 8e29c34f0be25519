(** * C80: histories of exchanges, elements, determinant and inverse *)

From Coq Require Import ZArith List Lia Permutation.
From mathcomp Require Import all_ssreflect all_algebra all_fingroup.
From mathcomp Require Import zify.
From Verif Require Import Base Scalar Model Spec Loops Struct Elim Alg Exact ExactLemmas Det Inv PropAlg Rearr PropRearr PropHistory.

Set Implicit Arguments.
Unset Strict Implicit.
Unset Printing Implicit Defensive.

Import GRing.Theory.
Local Open Scope ring_scope.

(** no element is lost or duplicated, whatever the element type *)
Theorem c80_elements (K : scalar) n m h (A B : matrix (elt K)) : (0 < n)%N -> (0 < m)%N -> shape n m A ->
  play K n m h A = Ok B -> Permutation (elements A) (elements B).
Proof.
  move=> Hn Hm. elim: h A => [|s h IH] A HA /=; first by move=> [<-]; apply: Permutation_refl.
  move=> /(bind_inv _ _ _) [C [EC E]].
  have SC : shape n m C.
  { case: s EC => a b /= EC.
    - have [f Ef] := proj1 (shape_mk (lite K 0) _ _ _) HA. move: EC; rewrite Ef.
      case: (Nat.eq_dec a b) => [->|N]; first by rewrite swap_rows_same => -[<-]; exact: shape_of_mk.
      case: (Compare_dec.lt_dec a n) => Ha; last by rewrite swap_rows_oob //; [lia|exact/ssrnat.ltP].
      case: (Compare_dec.lt_dec b n) => Hb; last by rewrite swap_rows_oob //; [lia|exact/ssrnat.ltP].
      by rewrite swap_rows_mk // => -[<-]; exact: shape_of_mk.
    - have [f Ef] := proj1 (shape_mk (lite K 0) _ _ _) HA. move: EC; rewrite Ef.
      case: (Nat.eq_dec a b) => [->|N]; first by rewrite swap_cols_same => -[<-]; exact: shape_of_mk.
      case: (Compare_dec.lt_dec a m) => Ha; last by rewrite swap_cols_oob //; [lia|exact/ssrnat.ltP].
      case: (Compare_dec.lt_dec b m) => Hb; last by rewrite swap_cols_oob //; [lia|exact/ssrnat.ltP].
      by rewrite swap_cols_mk // => -[<-]; exact: shape_of_mk. }
  apply: (Permutation_trans _ (IH C SC E)). case: s EC => a b /=; [exact: c73_swap_rows|exact: c73_swap_cols].
Qed.

(** the calls that exchange two different rows or columns *)
Definition effective (s : swap) : bool := match s with Rows a b | Cols a b => a != b end.

Section Field.
Variables (F : fieldType) (lt : F -> F -> bool) (ab : F -> F) (sq : F -> outcome F).
Notation K := (exactS lt ab sq).

Lemma do_shape n s (A B : matrix F) : shape n n A -> valid n n s -> do_swap K n n s A = Ok B -> shape n n B.
Proof.
  move=> /(shape_mk 0) [f ->]. case: s => a b [Ha Hb] /=; rewrite ?swap_rows_mk ?swap_cols_mk // => -[<-]; exact: shape_of_mk.
Qed.
Lemma do_ok n s (A : matrix F) : shape n n A -> valid n n s -> exists B, do_swap K n n s A = Ok B.
Proof.
  move=> /(shape_mk 0) [f ->]. case: s => a b [Ha Hb] /=; rewrite ?swap_rows_mk ?swap_cols_mk //; by eexists.
Qed.

(** every effective exchange changes the sign of the determinant *)
Theorem c80_det n h (A : matrix F) : shape n n A -> Forall (valid n n) h ->
  (let* B := play K n n h A in det K n B) = (let* d := det K n A in Ok ((-1) ^+ seq.count effective h * d)).
Proof.
  move=> HA Hh. elim: Hh A HA => [|s t Vs _ IH] A HA /=.
  { have [f ->] := proj1 (shape_mk 0 _ _ _) HA. by rewrite det_mk /= mul1r. }
  have [B EB] := do_ok HA Vs. rewrite EB /= (IH B (do_shape HA Vs EB)).
  have [f EA] := proj1 (shape_mk 0 _ _ _) HA.
  have: det K n B = let* d := det K n A in Ok ((-1) ^+ effective s * d).
  { case: s Vs EB => a b [Ha Hb] /= EB; case: (eqVneq a b) => [Eab|/eqP N] /=.
    - rewrite Eab swap_rows_same in EB. case: EB => <-. by rewrite EA det_mk /= mul1r.
    - have := @c20_swap_rows _ lt ab sq n A a b HA. rewrite EB /= => -> //; try exact/ssrnat.ltP. by rewrite EA det_mk /= mulN1r.
    - rewrite Eab swap_cols_same in EB. case: EB => <-. by rewrite EA det_mk /= mul1r.
    - have := @c20_swap_cols _ lt ab sq n A a b HA. rewrite EB /= => -> //; try exact/ssrnat.ltP. by rewrite EA det_mk /= mulN1r. }
  rewrite EA det_mk /= => ->. by rewrite /= exprD mulrA [_ ^+ seq.count _ _ * _]mulrC.
Qed.

Lemma swap_rows_mx n m (X : 'M[F]_(n, m)) (a b : 'I_n) : swap_rows K n m (mxrows X) a b = Ok (mxrows (xrow a b X)).
Proof.
  rewrite (mxrowsE 0 X) swap_rows_mk; try exact/ssrnat.ltP. congr Ok. symmetry. apply: mxrows_mk => i j.
  rewrite mxE !eqbE -[(i : nat) == a]/(i == a) -[(i : nat) == b]/(i == b). rewrite !mxf_ord.
  case: tpermP => [->|->|/eqP/negbTE -> /eqP/negbTE -> //]; rewrite eqxx //. by case: eqP => [->|].
Qed.
Lemma swap_cols_mx n m (X : 'M[F]_(n, m)) (a b : 'I_m) : swap_cols K n m (mxrows X) a b = Ok (mxrows (xcol a b X)).
Proof.
  rewrite (mxrowsE 0 X) swap_cols_mk; try exact/ssrnat.ltP. congr Ok. symmetry. apply: mxrows_mk => i j.
  rewrite mxE !eqbE -[(j : nat) == a]/(j == a) -[(j : nat) == b]/(j == b). rewrite !mxf_ord.
  case: tpermP => [->|->|/eqP/negbTE -> /eqP/negbTE -> //]; rewrite eqxx //. by case: eqP => [->|].
Qed.

Lemma tperm_mx2 n (a b : 'I_n) : tperm_mx a b *m tperm_mx a b = 1%:M :> 'M[F]_n.
Proof. by rewrite -perm_mxM tperm2 perm_mx1. Qed.
Lemma invmx_xrow n (X : 'M[F]_n) (a b : 'I_n) : X \in unitmx -> invmx (xrow a b X) = xcol a b (invmx X).
Proof.
  move=> U. have E : xrow a b X *m xcol a b (invmx X) = 1%:M.
  { rewrite xrowE xcolE -!mulmxA (mulmxA X) mulmxV // mul1mx. exact: tperm_mx2. }
  by rewrite -[LHS]mulmx1 -E mulKmx //; case: (mulmx1_unit E).
Qed.
Lemma invmx_xcol n (X : 'M[F]_n) (a b : 'I_n) : X \in unitmx -> invmx (xcol a b X) = xrow a b (invmx X).
Proof.
  move=> U. have E : xcol a b X *m xrow a b (invmx X) = 1%:M.
  { rewrite xrowE xcolE -!mulmxA (mulmxA (tperm_mx a b)) tperm_mx2 mul1mx mulmxV //. }
  by rewrite -[LHS]mulmx1 -E mulKmx //; case: (mulmx1_unit E).
Qed.

(** the inverse of the rearranged matrix is the inverse with the exchanges made on the
    other side; if there is no inverse both calls fail in the same way *)
Theorem c80_inv n h (A : matrix F) : shape n n A -> Forall (valid n n) h ->
  (let* X := play K n n h A in inv K n X) = (let* Y := inv K n A in play K n n (List.map flip h) Y).
Proof.
  move=> HA Hh. have [X [EX _]] := every_array 0 HA. rewrite {A HA}EX.
  elim: Hh X => [|s t Vs _ IH] X /=; first by case: inv.
  case: s Vs => a b [/ssrnat.ltP Ha /ssrnat.ltP Hb] /=.
  - rewrite (swap_rows_mx X (Ordinal Ha) (Ordinal Hb)) /= IH.
    case: (boolP (X \in unitmx)) => U.
    + have U' : xrow (Ordinal Ha) (Ordinal Hb) X \in unitmx.
      { rewrite xrowE unitmx_mul U andbT. exact: unitmx_perm. }
      by rewrite !inv_mx //= invmx_xrow // (swap_cols_mx _ (Ordinal Ha) (Ordinal Hb)).
    + have D : \det X = 0 by apply/eqP; move: U; rewrite unitmxE unitfE negbK.
      rewrite !inv_mx_singular //; last by rewrite xrowE det_mulmx D mulr0.
      rewrite /inv_singular. by case: n {IH X U D Ha Hb} => [|[|[|[|n]]]].
  - rewrite (swap_cols_mx X (Ordinal Ha) (Ordinal Hb)) /= IH.
    case: (boolP (X \in unitmx)) => U.
    + have U' : xcol (Ordinal Ha) (Ordinal Hb) X \in unitmx.
      { rewrite xcolE unitmx_mul U /=. exact: unitmx_perm. }
      by rewrite !inv_mx //= invmx_xcol // (swap_rows_mx _ (Ordinal Ha) (Ordinal Hb)).
    + have D : \det X = 0 by apply/eqP; move: U; rewrite unitmxE unitfE negbK.
      rewrite !inv_mx_singular //; last by rewrite xcolE det_mulmx D mul0r.
      rewrite /inv_singular. by case: n {IH X U D Ha Hb} => [|[|[|[|n]]]].
Qed.
End Field.

Print Assumptions c80_elements.
Print Assumptions c80_det.
Print Assumptions c80_inv.
