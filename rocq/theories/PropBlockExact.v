(** * C82: partitioned matrices with exact elements

    The product, determinant and inverse of a matrix assembled from blocks. *)

From Coq Require Import ZArith List Lia.
From mathcomp Require Import all_ssreflect all_algebra.
From mathcomp Require Import zify.
From Verif Require Import Base Scalar Model Spec Loops Struct Elim Alg Exact ExactLemmas Det Inv PropAlg.

Set Implicit Arguments.
Unset Strict Implicit.
Unset Printing Implicit Defensive.

Import GRing.Theory.
Local Open Scope ring_scope.

Section Ring.
Variables (F : unitRingType) (lt : F -> F -> bool) (ab : F -> F) (sq : F -> outcome F).
Notation K := (exactS lt ab sq).

Lemma over_mx n1 n2 m (A : 'M[F]_(n1, m)) (B : 'M[F]_(n2, m)) :
  concatenate_v K n1 n2 m (mxrows A) (mxrows B) = Ok (mxrows (col_mx A B)).
Proof.
  rewrite (mxrowsE 0 A) (mxrowsE 0 B) concatenate_v_mk. congr Ok. symmetry.
  apply: mxrows_mk => i j. rewrite /vcat mxE. case: splitP => k ->.
  - case: (Nat.ltb_spec k n1) => [_|H]; first by rewrite mxf_ord.
    have := ltn_ord k. lia.
  - case: (Nat.ltb_spec (n1 + k) n1) => [H|_]; first lia.
    have -> : (n1 + k - n1)%coq_nat = k by lia. by rewrite mxf_ord.
Qed.

Lemma beside_mx n m1 m2 (A : 'M[F]_(n, m1)) (B : 'M[F]_(n, m2)) :
  concatenate_h K n m1 m2 (mxrows A) (mxrows B) = Ok (mxrows (row_mx A B)).
Proof.
  rewrite (mxrowsE 0 A) (mxrowsE 0 B) concatenate_h_mk. congr Ok. symmetry.
  apply: mxrows_mk => i j. rewrite /hcat mxE. case: splitP => k ->.
  - case: (Nat.ltb_spec k m1) => [_|H]; first by rewrite mxf_ord.
    have := ltn_ord k. lia.
  - case: (Nat.ltb_spec (m1 + k) m1) => [H|_]; first lia.
    have -> : (m1 + k - m1)%coq_nat = k by lia. by rewrite mxf_ord.
Qed.
End Ring.

Section Field.
Variables (F : fieldType) (lt : F -> F -> bool) (ab : F -> F) (sq : F -> outcome F).
Notation K := (exactS lt ab sq).

(** the calls that assemble [[A, B], [C, D]] *)
Definition assemble (n1 n2 m1 m2 : nat) (A B C D : matrix F) : outcome (matrix F) :=
  let* X := concatenate_h K n1 m1 m2 A B in
  let* Y := concatenate_h K n2 m1 m2 C D in
  concatenate_v K n1 n2 (m1 + m2) X Y.

Lemma assemble_mx n1 n2 m1 m2 (A : 'M[F]_(n1, m1)) (B : 'M[F]_(n1, m2)) (C : 'M[F]_(n2, m1)) (D : 'M[F]_(n2, m2)) :
  assemble n1 n2 m1 m2 (mxrows A) (mxrows B) (mxrows C) (mxrows D) = Ok (mxrows (block_mx A B C D)).
Proof. rewrite /assemble beside_mx /= beside_mx /=. exact: over_mx. Qed.

Ltac calls := repeat (rewrite ?assemble_mx ?beside_mx ?over_mx ?zeros_mx ?mult_mx ?sum_mx ?sub_mx ?det_mx; progress cbn [bind]);
  rewrite ?assemble_mx ?beside_mx ?over_mx ?zeros_mx ?mult_mx ?sum_mx ?sub_mx ?det_mx.

(** [A | B] times [C over D] is A*C + B*D *)
Theorem c82_inner n m1 m2 p (A B C D : matrix F) :
  shape n m1 A -> shape n m2 B -> shape m1 p C -> shape m2 p D ->
  (let* X := concatenate_h K n m1 m2 A B in
   let* Y := concatenate_v K m1 m2 p C D in mult K n (m1 + m2) p X Y)
  = (let* P := mult K n m1 p A C in let* Q := mult K n m2 p B D in sum K n p P Q).
Proof.
  move=> HA HB HC HD. tomx HA; tomx HB; tomx HC; tomx HD.
  by calls; rewrite mul_row_col.
Qed.

(** the product of two matrices of blocks, block by block *)
Theorem c82_mult_blocks n1 n2 m1 m2 p1 p2 (A B C D A' B' C' D' : matrix F) :
  shape n1 m1 A -> shape n1 m2 B -> shape n2 m1 C -> shape n2 m2 D ->
  shape m1 p1 A' -> shape m1 p2 B' -> shape m2 p1 C' -> shape m2 p2 D' ->
  let combine n p P Q R S := (let* X := mult K n m1 p P R in let* Y := mult K n m2 p Q S in sum K n p X Y) in
  (let* X := assemble n1 n2 m1 m2 A B C D in
   let* Y := assemble m1 m2 p1 p2 A' B' C' D' in mult K (n1 + n2) (m1 + m2) (p1 + p2) X Y)
  = (let* E := combine n1 p1 A B A' C' in let* G := combine n1 p2 A B B' D' in
     let* H := combine n2 p1 C D A' C' in let* J := combine n2 p2 C D B' D' in
     assemble n1 n2 p1 p2 E G H J).
Proof.
  move=> HA HB HC HD HA' HB' HC' HD' /=.
  tomx HA; tomx HB; tomx HC; tomx HD; tomx HA'; tomx HB'; tomx HC'; tomx HD'.
  by calls; rewrite mulmx_block.
Qed.

(** a block of zeros below or beside the diagonal: the determinants multiply *)
Theorem c82_det_upper n1 n2 (A B D : matrix F) : shape n1 n1 A -> shape n1 n2 B -> shape n2 n2 D ->
  (let* M := assemble n1 n2 n1 n2 A B (zeros K n2 n1) D in det K (n1 + n2) M)
  = (let* a := det K n1 A in let* d := det K n2 D in Ok (a * d)).
Proof.
  move=> HA HB HD. tomx HA; tomx HB; tomx HD.
  by calls; rewrite det_ublock.
Qed.
Theorem c82_det_lower n1 n2 (A C D : matrix F) : shape n1 n1 A -> shape n2 n1 C -> shape n2 n2 D ->
  (let* M := assemble n1 n2 n1 n2 A (zeros K n1 n2) C D in det K (n1 + n2) M)
  = (let* a := det K n1 A in let* d := det K n2 D in Ok (a * d)).
Proof.
  move=> HA HC HD. tomx HA; tomx HC; tomx HD.
  by calls; rewrite det_lblock.
Qed.

Lemma inv_unit n (X : 'M[F]_n) (B : matrix F) : (0 < n)%N -> inv K n (mxrows X) = Ok B ->
  X \in unitmx /\ B = mxrows (invmx X).
Proof.
  move=> Hn E. have [d [D /eqP N]] := c23_never_returns (shape_mxrows 0 X) Hn E.
  move: D; rewrite det_mx => -[D]. have U : X \in unitmx by rewrite unitmxE unitfE D.
  split=> //. by move: E; rewrite inv_mx // => -[].
Qed.

(** eliminating an invertible leading block: the Schur complement *)
Theorem c82_schur n1 n2 (A B C D A' : matrix F) : (0 < n1)%N ->
  shape n1 n1 A -> shape n1 n2 B -> shape n2 n1 C -> shape n2 n2 D -> inv K n1 A = Ok A' ->
  (let* M := assemble n1 n2 n1 n2 A B C D in det K (n1 + n2) M)
  = (let* X := mult K n2 n1 n1 C A' in let* Y := mult K n2 n1 n2 X B in
     let* Z := sub K n2 n2 D Y in
     let* a := det K n1 A in let* s := det K n2 Z in Ok (a * s)).
Proof.
  move=> Hn HA HB HC HD. tomx HA; tomx HB; tomx HC; tomx HD => /(inv_unit Hn) [U ->].
  calls. congr Ok.
  have -> : block_mx X X0 X1 X2 = block_mx 1%:M 0 (X1 *m invmx X) 1%:M *m block_mx X X0 0 (X2 - X1 *m invmx X *m X0).
  { rewrite mulmx_block !mul1mx !mul0mx ?mulmx0 !addr0 -mulmxA mulVmx // mulmx1 -mulmxA. by rewrite addrC subrK. }
  by rewrite det_mulmx det_lblock !matrix.det1 !mul1r det_ublock.
Qed.

(** the inverse of a block triangular matrix *)
Theorem c82_inv_upper n1 n2 (A B D A' D' : matrix F) : (0 < n1)%N -> (0 < n2)%N ->
  shape n1 n1 A -> shape n1 n2 B -> shape n2 n2 D -> inv K n1 A = Ok A' -> inv K n2 D = Ok D' ->
  (let* M := assemble n1 n2 n1 n2 A B (zeros K n2 n1) D in inv K (n1 + n2) M)
  = (let* X := mult K n1 n1 n2 A' B in let* Y := mult K n1 n2 n2 X D' in
     let* N := sub K n1 n2 (zeros K n1 n2) Y in
     assemble n1 n2 n1 n2 A' N (zeros K n2 n1) D').
Proof.
  move=> H1 H2 HA HB HD. tomx HA; tomx HB; tomx HD => /(inv_unit H1) [U ->] /(inv_unit H2) [V ->].
  calls.
  have W : block_mx X X0 0 X1 \in unitmx.
  { rewrite unitmxE det_ublock. by rewrite unitrM -!unitmxE U V. }
  rewrite inv_mx //. congr (Ok (mxrows _)).
  apply: (@row_free_inj _ _ _ _ (block_mx X X0 0 X1)); first by rewrite row_free_unit.
  rewrite mulVmx // mulmx_block !mulmx0 !mul0mx !mulVmx // !addr0 !add0r mulNmx -!mulmxA mulVmx // mulmx1.
  by rewrite subrr -scalar_mx_block.
Qed.

(** ... and of a block diagonal one: invert the blocks *)
Corollary c82_inv_diag n1 n2 (A D A' D' : matrix F) : (0 < n1)%N -> (0 < n2)%N ->
  shape n1 n1 A -> shape n2 n2 D -> inv K n1 A = Ok A' -> inv K n2 D = Ok D' ->
  (let* M := assemble n1 n2 n1 n2 A (zeros K n1 n2) (zeros K n2 n1) D in inv K (n1 + n2) M)
  = assemble n1 n2 n1 n2 A' (zeros K n1 n2) (zeros K n2 n1) D'.
Proof.
  move=> H1 H2 HA HD EA ED. rewrite (c82_inv_upper H1 H2 HA _ HD EA ED); last by rewrite zeros_mx; exact (shape_mxrows 0 _).
  move: EA ED. tomx HA; tomx HD => /(inv_unit H1) [U ->] /(inv_unit H2) [V ->].
  by calls; rewrite mulmx0 mul0mx subr0.
Qed.
End Field.

(** a concrete case with rationals: [[1, 2, 7], [3, 5, 9], [0, 0, 2]] *)
Example c82_ex_blocks lt ab sq : let K := exactS lt ab sq in
  let B := [:: [:: 7%:R]; [:: 9%:R]] in let D := [:: [:: 2%:R]] in
  (let* M := assemble lt ab sq 2 1 2 1 (mxrows exA) B (zeros K 1 2) D in det K 3 M) = Ok (- 2%:R) /\
  returns (inv K 2 (mxrows exA)) /\ returns (inv K 1 D).
Proof.
  move=> K B D. split.
  - have := @c82_det_upper _ lt ab sq 2 1 (mxrows exA) B D (shape_mxrows 0 _) _ _. rewrite det_mx (proj1 c22_ex) /= => -> //.
    + by split=> // r [<-|[<-|[]]].
    + by split=> // r [<-|[]].
  - split; first by rewrite /K inv_mx; [eexists|exact: (proj1 (proj2 c22_ex))].
    have -> : D = mxrows (const_mx 2%:R : 'M[rat]_1).
    { by symmetry; rewrite (@mxrows_mk _ _ _ _ (fun _ _ => 2%:R)) // => i j; rewrite mxE. }
    by rewrite /K inv_mx; [eexists|rewrite unitmxE det_mx11 mxE].
Qed.

Print Assumptions c82_mult_blocks.
Print Assumptions c82_schur.
Print Assumptions c82_inv_upper.
