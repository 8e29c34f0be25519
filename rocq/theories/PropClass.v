(** * C95: structured matrices stay structured

    Exact arithmetic: triangular, strictly triangular, orthogonal, permutation,
    symmetric, skew, idempotent, involutory and stochastic matrices. *)

From Coq Require Import ZArith List Lia.
From mathcomp Require Import all_ssreflect all_algebra fingroup perm.
From mathcomp Require Import zify.
From Verif Require Import Base Scalar Model Spec Loops Struct Exact ExactLemmas Alg Det Inv Pow LU PropAlg PropTransExact.

Set Implicit Arguments.
Unset Strict Implicit.
Unset Printing Implicit Defensive.

Import mathcomp.ssreflect.order.Order.TTheory GRing.Theory Num.Theory.
Local Notation ltP := ssrnat.ltP (only parsing).
Local Notation leP := ssrnat.leP (only parsing).
Local Open Scope ring_scope.
Delimit Scope Z_scope with Z.

Section Cls.
Variable F : fieldType.
Variables (lt : F -> F -> bool) (ab : F -> F) (sq : F -> outcome F).
Let K := exactS lt ab sq.

(** ** triangular *)
Lemma upper_mul n (A B : 'M[F]_n) : upper A -> upper B ->
  upper (A *m B) /\ forall i, (A *m B) i i = A i i * B i i.
Proof.
  move=> HA HB; split=> [i j Hij | i].
    rewrite mxE big1 // => k _; case: (ltnP k i) => H; first by rewrite HA ?mul0r.
    by rewrite HB ?mulr0 //; lia.
  rewrite mxE (bigD1 i) //= big1 ?addr0 // => k Hk; case: (ltngtP k i) => H; first by rewrite HA ?mul0r.
    by rewrite HB ?mulr0.
  by move: Hk; rewrite (val_inj H) eqxx.
Qed.

Lemma upper_tr n (A : 'M[F]_n) : upper A^T <-> lower A.
Proof. by split=> H i j Hij; have := H j i Hij; rewrite mxE. Qed.

Lemma upper_pow n (A : 'M[F]_n) p : upper A -> upper (mxpow A p) /\ forall i, mxpow A p i i = A i i ^+ p.
Proof.
  move=> HA; elim: p => [|p [IH1 IH2]] /=.
    split=> [i j Hij | i]; rewrite mxE ?eqxx //; by case: eqP => // E; rewrite E ltnn in Hij.
  have [H1 H2] := upper_mul HA IH1; by split=> // i; rewrite H2 IH2 exprS.
Qed.

Lemma det_upper n (A : 'M[F]_n) : upper A -> \det A = \prod_i A i i.
Proof.
  move=> HA; rewrite -det_tr det_trig; first by apply: eq_bigr => i _; rewrite mxE.
  by apply/is_trig_mxP => i j Hij; rewrite mxE HA.
Qed.

(** the solution of a triangular system, by descending induction *)
Lemma upper_inv n (A : 'M[F]_n) : upper A -> (forall i, A i i != 0) ->
  [/\ A \in unitmx, upper (invmx A) & forall i, invmx A i i = (A i i)^-1].
Proof.
  move=> HA Hd; have UA : A \in unitmx by rewrite unitmxE unitfE det_upper //; apply/prodf_neq0.
  have E := mulmxV UA.
  have HU : upper (invmx A).
    move=> k j; have [l] := ubnP (n - k); elim: l k => // l IH k Hl Hkj.
    have := congr1 (fun M : 'M[F]_n => M k j) E; rewrite !mxE (bigD1 k) //= big1 ?addr0.
      have -> : (k == j) = false by apply/negP => /eqP Ekj; rewrite Ekj ltnn in Hkj.
      by move=> /eqP; rewrite mulf_eq0 (negbTE (Hd k)) => /eqP.
    move=> i Hi; case: (ltngtP i k) => H.
    - by rewrite HA ?mul0r.
    - by rewrite IH ?mulr0 //; [have := ltn_ord i; lia | lia].
    - by move: Hi; rewrite (val_inj H) eqxx.
  split=> // i; have [_ /(_ i)] := upper_mul HA HU; rewrite E mxE eqxx => D.
  by apply: (mulfI (Hd i)); rewrite -D mulfV.
Qed.

Theorem c95_upper n (A B : 'M[F]_n) : upper A -> upper B ->
  exists C : 'M[F]_n, mult K n n n (mxrows A) (mxrows B) = Ok (mxrows C) /\ upper C /\
    forall i, C i i = A i i * B i i.
Proof. by move=> HA HB; exists (A *m B); rewrite mult_mx; split=> //; exact: upper_mul. Qed.

Theorem c95_upper_pow n w (A : 'M[F]_n) (p : nat) : upper A -> (1 <= w)%Z -> (Z.of_nat p < 2 ^ (w - 1))%Z ->
  exists C : 'M[F]_n, pow K n w (mxrows A) (Z.of_nat p) = Ok (mxrows C) /\ upper C /\ forall i, C i i = A i i ^+ p.
Proof. by move=> HA Hw Hp; exists (mxpow A p); rewrite c25_pow //; split=> //; exact: upper_pow. Qed.

Theorem c95_upper_det n (A : 'M[F]_n) : upper A -> det K n (mxrows A) = Ok (\prod_i A i i).
Proof. by move=> HA; rewrite /K det_mx det_upper. Qed.

Theorem c95_upper_inv n (A : 'M[F]_n) : upper A -> (forall i, A i i != 0) ->
  exists B : 'M[F]_n, inv K n (mxrows A) = Ok (mxrows B) /\ upper B /\ A *m B = 1%:M /\
    forall i, B i i = (A i i)^-1.
Proof. by move=> HA Hd; have [UA HB Hi] := upper_inv HA Hd; exists (invmx A); rewrite inv_mx // mulmxV. Qed.

(** the same for lower triangular matrices *)
Theorem c95_lower n (A B : 'M[F]_n) : lower A -> lower B ->
  exists C : 'M[F]_n, mult K n n n (mxrows A) (mxrows B) = Ok (mxrows C) /\ lower C /\
    forall i, C i i = A i i * B i i.
Proof.
  move=> /upper_tr HA /upper_tr HB; exists (A *m B); rewrite mult_mx; split=> //.
  have [H1 H2] := upper_mul HB HA; rewrite -trmx_mul in H1 H2; split=> [|i]; first exact/upper_tr.
  by have := H2 i; rewrite !mxE => ->; rewrite mulrC.
Qed.

Theorem c95_lower_inv n (A : 'M[F]_n) : lower A -> (forall i, A i i != 0) ->
  exists B : 'M[F]_n, inv K n (mxrows A) = Ok (mxrows B) /\ lower B /\ A *m B = 1%:M /\
    forall i, B i i = (A i i)^-1.
Proof.
  move=> /upper_tr HA Hd; have Hd' i : A^T i i != 0 by rewrite mxE.
  have [] := upper_inv HA Hd'; rewrite unitmx_tr => UA; rewrite -trmx_inv => /upper_tr HB Hi.
  exists (invmx A); rewrite inv_mx // mulmxV //; split=> //; split=> //; split=> // i.
  by have := Hi i; rewrite mxE => ->; rewrite mxE.
Qed.

(** strictly triangular: the n-th power vanishes *)
Theorem c95_nilpotent n w (A : 'M[F]_n) (p : nat) : (forall i j : 'I_n, (j <= i)%N -> A i j = 0) ->
  (n <= p)%N -> (1 <= w)%Z -> (Z.of_nat p < 2 ^ (w - 1))%Z ->
  pow K n w (mxrows A) (Z.of_nat p) = Ok (zeros K n n).
Proof.
  move=> HA Hn Hw Hp; rewrite c25_pow // zeros_mx; congr (Ok (mxrows _)).
  have H q : forall i j : 'I_n, (j < i + q)%N -> mxpow A q i j = 0.
    elim: q => [|q IH] i j Hij /=.
      rewrite mxE; case: eqP => // E; move: Hij; rewrite E; lia.
    rewrite mxE big1 // => k _; case: (leqP k i) => Hk; first by rewrite HA ?mul0r.
    by rewrite IH ?mulr0 //; lia.
  by apply/matrixP => i j; rewrite H ?mxE //; have := ltn_ord j; lia.
Qed.

(** ** orthogonal *)
Definition orthogonal n (A : 'M[F]_n) : Prop := A *m A^T = 1%:M.

Theorem c95_orthogonal n (A : 'M[F]_n) : orthogonal A ->
  inv K n (mxrows A) = trans K n n (mxrows A) /\
  (exists d, det K n (mxrows A) = Ok d /\ (d = 1 \/ d = -1)) /\
  (let* T := trans K n n (mxrows A) in mult K n n n T (mxrows A)) = eye1 K n.
Proof.
  move=> H; have [UA UT] := mulmx1_unit H.
  have E : invmx A = A^T by rewrite -[RHS]mul1mx -(mulVmx UA) -mulmxA H mulmx1.
  rewrite inv_mx // trans_mx /= mult_mx eye1_mx E; split=> //; split; last by rewrite -E mulVmx.
  exists (\det A); split; first exact: det_mx.
  have /eqP := congr1 (@determinant F n) H; rewrite det_mulmx det_tr matrix.det1 -expr2 sqrf_eq1.
  by case/orP => /eqP; [left | right].
Qed.

Theorem c95_orthogonal_mult n (A B : 'M[F]_n) : orthogonal A -> orthogonal B ->
  exists C : 'M[F]_n, mult K n n n (mxrows A) (mxrows B) = Ok (mxrows C) /\ orthogonal C.
Proof.
  move=> HA HB; exists (A *m B); rewrite mult_mx; split=> //.
  by rewrite /orthogonal trmx_mul -mulmxA [B *m (_ *m _)]mulmxA HB mul1mx.
Qed.

Theorem c95_orthogonal_pow n w (A : 'M[F]_n) (p : nat) : orthogonal A -> (1 <= w)%Z -> (Z.of_nat p < 2 ^ (w - 1))%Z ->
  exists C : 'M[F]_n, pow K n w (mxrows A) (Z.of_nat p) = Ok (mxrows C) /\ orthogonal C.
Proof.
  move=> HA Hw Hp; exists (mxpow A p); rewrite c25_pow //; split=> //.
  elim: p {Hp} => [|p IH] /=; first by rewrite /orthogonal trmx1 mulmx1.
  by rewrite /orthogonal trmx_mul -mulmxA [_ *m (_^T *m _)]mulmxA IH mul1mx.
Qed.

(** lengths and angles are kept *)
Theorem c95_isometry n m (A : 'M[F]_n) (X Y : 'M[F]_(m, n)) : orthogonal A ->
  (let* XA := mult K m n n (mxrows X) (mxrows A) in let* YA := mult K m n n (mxrows Y) (mxrows A) in
   let* T := trans K m n YA in mult K m n m XA T)
  = (let* T := trans K m n (mxrows Y) in mult K m n m (mxrows X) T).
Proof.
  move=> H; rewrite !mult_mx /= !trans_mx /= !mult_mx trmx_mul -mulmxA [A *m _]mulmxA H mul1mx //.
Qed.

(** ** permutations *)
Theorem c95_permutation n m (s : 'S_n) (A : 'M[F]_(n, m)) (B : 'M[F]_(m, n)) :
  mult K n n m (mxrows (perm_mx s)) (mxrows A) = Ok (mxrows (\matrix_(i, j) A (s i) j)) /\
  mult K m n n (mxrows B) (mxrows (perm_mx s)) = Ok (mxrows (\matrix_(i, j) B i ((s^-1)%g j))) /\
  orthogonal (perm_mx s).
Proof.
  rewrite !mult_mx; split; last split.
  - by congr (Ok (mxrows _)); rewrite -row_permE; apply/matrixP => i j; rewrite !mxE.
  - by congr (Ok (mxrows _)); rewrite -[s]invgK -col_permE; apply/matrixP => i j; rewrite !mxE invgK.
  - by rewrite /orthogonal tr_perm_mx -perm_mxM mulgV perm_mx1.
Qed.

(** ** symmetric and skew *)
Theorem c95_symmetric_mult n (A B : 'M[F]_n) : symmetric A -> symmetric B ->
  (exists C : 'M[F]_n, mult K n n n (mxrows A) (mxrows B) = Ok (mxrows C) /\ symmetric C) <->
  mult K n n n (mxrows A) (mxrows B) = mult K n n n (mxrows B) (mxrows A).
Proof.
  move=> HA HB; rewrite !mult_mx; split=> [[C [[/(mxrows_inj 0) <-]]] | [/(mxrows_inj 0) E]].
    by rewrite /symmetric trmx_mul HA HB => ->.
  by exists (A *m B); split=> //; rewrite /symmetric trmx_mul HA HB -E.
Qed.

Theorem c95_symmetric_pow n w (A : 'M[F]_n) (p : nat) : symmetric A -> (1 <= w)%Z -> (Z.of_nat p < 2 ^ (w - 1))%Z ->
  exists C : 'M[F]_n, pow K n w (mxrows A) (Z.of_nat p) = Ok (mxrows C) /\ symmetric C.
Proof. by move=> HA Hw Hp; exists (mxpow A p); rewrite c25_pow //; split=> //; rewrite /symmetric -mxpow_tr HA. Qed.

Theorem c95_symmetric_inv n (A : 'M[F]_n) X : symmetric A -> inv K n (mxrows A) = Ok X ->
  exists B : 'M[F]_n, X = mxrows B /\ symmetric B.
Proof.
  move=> HA; case UA : (A \in unitmx).
    by rewrite inv_mx // => -[<-]; exists (invmx A); split=> //; rewrite /symmetric trmx_inv HA.
  move: UA; rewrite unitmxE unitfE => /negbFE/eqP D; rewrite inv_mx_singular //.
  by case: n A HA D X => [|[|[|[|n]]]] A HA D X //=.
Qed.

Theorem c95_skew n (A : 'M[F]_n) : A^T = - A -> odd n -> (2%:R : F) != 0 ->
  det K n (mxrows A) = Ok 0 /\ forall B, inv K n (mxrows A) <> Ok B.
Proof.
  move=> HA On N2.
  have D : \det A = 0.
    have := det_tr A; rewrite HA -scaleN1r detZ -signr_odd On expr1 mulN1r => /eqP.
    by rewrite eq_sym -addr_eq0 -mulr2n -mulr_natl mulf_eq0 (negbTE N2) => /eqP.
  rewrite /K det_mx D; split=> // B; rewrite inv_mx_singular //; by case: n {A HA D} On B => [|[|[|[|n]]]].
Qed.

(** ** idempotent and involutory *)
Theorem c95_idempotent n w (A : 'M[F]_n) (p : nat) : A *m A = A -> (0 < p)%N -> (1 <= w)%Z ->
  (Z.of_nat p < 2 ^ (w - 1))%Z ->
  pow K n w (mxrows A) (Z.of_nat p) = Ok (mxrows A) /\ (A = 1%:M \/ det K n (mxrows A) = Ok 0).
Proof.
  move=> H p0 Hw Hp; rewrite c25_pow //; split.
    case: p p0 {Hp} => // p _; congr (Ok (mxrows _)); elim: p => [|p IH]; first exact: mxpow1.
    by rewrite [mxpow _ _]/(A *m mxpow A p.+1) IH.
  case UA : (A \in unitmx).
    by left; rewrite -[LHS]mul1mx -(mulVmx UA) -mulmxA H mulVmx.
  by right; rewrite /K det_mx; move: UA; rewrite unitmxE unitfE => /negbFE/eqP ->.
Qed.

Theorem c95_involution n w (A : 'M[F]_n) (p : nat) : A *m A = 1%:M -> (1 <= w)%Z -> (Z.of_nat p < 2 ^ (w - 1))%Z ->
  inv K n (mxrows A) = Ok (mxrows A) /\
  pow K n w (mxrows A) (Z.of_nat p) = (if odd p then Ok (mxrows A) else eye1 K n).
Proof.
  move=> H Hw Hp; have [UA _] := mulmx1_unit H; split.
    by rewrite inv_mx //; congr (Ok (mxrows _)); rewrite -[LHS]mulmx1 -H mulmxA mulVmx ?mul1mx.
  rewrite c25_pow // eye1_mx.
  have E q : mxpow A (q + q)%N = 1%:M.
    by elim: q => [|q IH] //; rewrite addSn addnS /= IH mulmx1.
  rewrite -[p in LHS]odd_double_half -addnn; case: (odd p); rewrite ?add0n ?E // add1n.
  by rewrite /= E mulmx1.
Qed.
End Cls.

(** ** stochastic: elements not negative, rows sum to one *)
Section Sto.
Variable R : realFieldType.
Variable sq : R -> outcome R.
Let K := ordS sq.
Definition stochastic n m (A : 'M[R]_(n, m)) : Prop :=
  (forall i j, 0 <= A i j) /\ forall i, \sum_j A i j = 1.

Lemma stochastic_mul n m p (A : 'M[R]_(n, m)) (B : 'M[R]_(m, p)) : stochastic A -> stochastic B -> stochastic (A *m B).
Proof.
  move=> [A0 A1] [B0 B1]; split=> [i j | i].
    by rewrite mxE sumr_ge0 // => k _; rewrite mulr_ge0.
  rewrite -[RHS](A1 i) (eq_bigr (fun j => \sum_k A i k * B k j)); last by move=> j _; rewrite mxE.
  by rewrite exchange_big; apply: eq_bigr => k _; rewrite -mulr_sumr B1 mulr1.
Qed.

Theorem c95_stochastic n m p (A : 'M[R]_(n, m)) (B : 'M[R]_(m, p)) : stochastic A -> stochastic B ->
  exists C : 'M[R]_(n, p), mult K n m p (mxrows A) (mxrows B) = Ok (mxrows C) /\ stochastic C.
Proof. by move=> HA HB; exists (A *m B); rewrite mult_mx; split=> //; exact: stochastic_mul. Qed.

Theorem c95_stochastic_pow n w (A : 'M[R]_n) (p : nat) : stochastic A -> (1 <= w)%Z -> (Z.of_nat p < 2 ^ (w - 1))%Z ->
  exists C : 'M[R]_n, pow K n w (mxrows A) (Z.of_nat p) = Ok (mxrows C) /\ stochastic C.
Proof.
  move=> HA Hw Hp; exists (mxpow A p); rewrite c25_pow //; split=> //.
  elim: p {Hp} => [|p IH] /=; last exact: stochastic_mul.
  split=> [i j | i]; first by rewrite mxE ler0n.
  by rewrite (bigD1 i) //= mxE eqxx big1 ?addr0 // => j /negbTE Hj; rewrite mxE eq_sym Hj.
Qed.

(** a stochastic matrix moves no value out of the range of the values *)
Theorem c95_average n m p (A : 'M[R]_(n, m)) (X : 'M[R]_(m, p)) (lo hi : R) : stochastic A ->
  (forall i j, lo <= X i j <= hi) ->
  exists C : 'M[R]_(n, p), mult K n m p (mxrows A) (mxrows X) = Ok (mxrows C) /\ forall i j, lo <= C i j <= hi.
Proof.
  move=> [A0 A1] HX; exists (A *m X); rewrite mult_mx; split=> // i j; rewrite mxE; apply/andP; split.
    rewrite -[lo]mul1r -(A1 i) mulr_suml; apply: ler_sum => k _; rewrite ler_wpmul2l //.
    by have /andP [] := HX k j.
  rewrite -[hi]mul1r -(A1 i) mulr_suml; apply: ler_sum => k _; rewrite ler_wpmul2l //.
  by have /andP [] := HX k j.
Qed.
End Sto.

(** ** concrete members *)
Example c95_ex : let A := mx22 (2%:R : rat) 3%:R 0 5%:R in let P := mx22 (0 : rat) 1 1 0 in
  let H := mx22 (2%:R^-1 : rat) 2%:R^-1 2%:R^-1 2%:R^-1 in
  [/\ upper A /\ (forall i, A i i != 0), orthogonal P /\ P *m P = 1%:M,
      stochastic H /\ H *m H = H & forall i j : 'I_2, (j <= i)%N -> mx22 0 (7%:R : rat) 0 0 i j = 0].
Proof.
  split.
  - split=> [i j Hij | i]; rewrite mxE; last by move: i => [[|[|//]] ?].
    by move: i j Hij => [[|[|//]] ?] [[|[|//]] ?].
  - have PT : (mx22 (0 : rat) 1 1 0)^T = mx22 0 1 1 0.
      by apply/matrixP => -[[|[|//]] ?] [[|[|//]] ?]; rewrite !mxE.
    have PP : mx22 (0 : rat) 1 1 0 *m mx22 0 1 1 0 = 1%:M.
      by apply/matrixP => -[[|[|//]] ?] [[|[|//]] ?]; rewrite !mxE !big_ord_recl big_ord0 !mxE.
    by rewrite /orthogonal PT.
  - split; first split.
    + by case=> [[|[|//]] ?] [[|[|//]] ?]; rewrite mxE.
    + by case=> [[|[|//]] ?]; rewrite !big_ord_recl big_ord0 !mxE; apply/eqP.
    + by apply/matrixP => -[[|[|//]] ?] [[|[|//]] ?]; rewrite !mxE !big_ord_recl big_ord0 !mxE; apply/eqP.
  - by case=> [[|[|//]] ?] [[|[|//]] ?] //; rewrite mxE.
Qed.
