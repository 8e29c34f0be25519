(** * Property C109: matrices whose elements are blocks *)

From Coq Require Import ZArith List Lia.
From mathcomp Require Import all_ssreflect all_algebra.
From mathcomp Require Import zify.
From Verif Require Import Base Scalar Model Spec Loops Struct Preds Alg Exact ExactLemmas Det Inv Param Sim IntMx SimExact StatExact Block BlockRec.

Set Implicit Arguments.
Unset Strict Implicit.
Unset Printing Implicit Defensive.

Import GRing.Theory.
Local Open Scope ring_scope.
Delimit Scope Z_scope with Z.

(** ** The determinant of four blocks of which two commute *)
Lemma det_four (F : fieldType) k (A B C D : 'M[F]_k.+1) : C *m D = D *m C ->
  \det (block_mx A B C D) = \det (A *m D - B *m C).
Proof.
move=> HCD; pose p M : 'M[{poly F}]_k.+1 := map_mx polyC M.
pose Dx : 'M[{poly F}]_k.+1 := 'X%:M + p D.
have Hc : p C *m Dx = Dx *m p C.
  rewrite mulmxDr mulmxDl -!map_mxM HCD; by rewrite scalar_mxC.
have D0 : \det Dx != 0.
  have -> : Dx = char_poly_mx (- D) by rewrite /char_poly_mx map_mxN opprK.
  exact: monic_neq0 (char_poly_monic (- D)).
have E : \det (block_mx (p A) (p B) (p C) Dx) = \det (p A *m Dx - p B *m p C).
  apply: (mulIf D0); rewrite -[in LHS](mulr1 (\det Dx)) -(matrix.det1 [comRingType of {poly F}] k.+1) -(det_lblock Dx (- p C) 1%:M) -det_mulmx.
  rewrite mulmx_block !mulmx0 !add0r !mulmx1 !mulmxN Hc subrr.
  by rewrite det_ublock.
have := congr1 (horner_eval 0) E; rewrite -!det_map_mx map_block_mx.
have pE M : map_mx (horner_eval 0) (p M) = M by apply/matrixP => i j; rewrite !mxE /horner_eval hornerC.
have DE : map_mx (horner_eval 0) Dx = D.
  apply/matrixP => i j; rewrite !mxE /horner_eval hornerD hornerC; case: (i == j); rewrite ?mulr1n ?mulr0n.
  - by rewrite hornerX add0r.
  - by rewrite horner0 add0r.
by rewrite map_mxB !map_mxM /= !pE DE.
Qed.

Section Four.
Variables (F : fieldType) (k : nat).
Lemma dbl : (2 * k.+1 = k.+1 + k.+1)%N. Proof. by rewrite mul2n addnn. Qed.
Lemma det_cast n m (e : n = m) (A : 'M[F]_n) : \det (castmx (e, e) A) = \det A.
Proof. by case: m / e; rewrite castmx_id. Qed.
Notation i0 := (ord0 : 'I_2).
Notation i1 := (ord_max : 'I_2).
Lemma cast_four (A : 'M[F]_(2 * k.+1)) :
  castmx (dbl, dbl) A = block_mx (cut A i0 i0) (cut A i0 i1) (cut A i1 i0) (cut A i1 i1).
Proof.
apply/matrixP => r c; rewrite castmxE.
have H (x : 'I_(k.+1 + k.+1)) : match split x with
    | inl a => cast_ord (esym dbl) x = at_ i0 a
    | inr a => cast_ord (esym dbl) x = at_ i1 a end.
  by case: splitP => a Ha; apply: val_inj; rewrite /= Ha ?mul0n ?mul1n.
have := H r; have := H c; rewrite !mxE.
by case: (split r) => a; rewrite !mxE; case: (split c) => b -> ->; rewrite !mxE.
Qed.
Lemma det_blocks (A : 'M[F]_(2 * k.+1)) : cut A i1 i0 *m cut A i1 i1 = cut A i1 i1 *m cut A i1 i0 ->
  \det A = \det (cut A i0 i0 *m cut A i1 i1 - cut A i0 i1 *m cut A i1 i0).
Proof. by move=> H; rewrite -(det_cast dbl A) cast_four det_four. Qed.
End Four.

(** lu() on four blocks *)
Lemma lu22 (T : unitRingType) lt ab sq (a b c d : T) : a \is a GRing.unit -> d - b * (c / a) \is a GRing.unit ->
  lu (@exactS T lt ab sq) 2 [:: [:: a; b]; [:: c; d]] =
  Ok ([:: [:: 1; 0]; [:: c / a; 1]], [:: [:: a; b]; [:: 0; d - b * (c / a)]]).
Proof.
move=> Ua Ud.
have nz (x : T) : x \is a GRing.unit -> (x == 0) = false by move=> U; apply/eqP => x0; rewrite x0 unitr0 in U.
have dv (x y : T) : y \is a GRing.unit -> exact_div x y = Ok (x / y) by rewrite /exact_div => ->.
rewrite /lu /eye1 /zeros /fill /for_ /=.
rewrite ?subr0 ?nz ?dv //= ?subr0 ?add0r ?nz ?dv //= ?subr0 ?add0r ?nz ?dv //= ?divrr // mulr0 subr0 //.
Qed.

(** ** The theorems *)
Section Block.
Variables (F : fieldType) (lt : F -> F -> bool) (ab : F -> F) (sq : F -> outcome F) (k : nat).
Notation K := (exactS lt ab sq).
Notation B := (prodS K k.+1).
Notation R := [unitRingType of 'M[F]_k.+1].
Notation E := (@exactS R (fun _ _ => false) id (fun _ => UB BadConversion)).
Notation i0 := (ord0 : 'I_2).
Notation i1 := (ord_max : 'I_2).

Let hl (x : elt E) (a : elt B) (H : isblock x a) : isblock (ld x) (ld a) := H.
Let hs (x : xpr E) (a : xpr B) (H : isblock x a) : isblock (st x) (st a) := H.
Let h0 := h_lit lt ab sq k 0.
Let h1 := h_lit lt ab sq k 1.
Let hm1 := h_lit lt ab sq k (-1).
Let ha (x : xpr E) (a : xpr B) (y : xpr E) (b : xpr B) (H : isblock x a) (H' : isblock y b) := h_add lt ab sq H H'.
Let hb (x : xpr E) (a : xpr B) (y : xpr E) (b : xpr B) (H : isblock x a) (H' : isblock y b) := h_sub lt ab sq H H'.
Let hm (x : xpr E) (a : xpr B) (y : xpr E) (b : xpr B) (H : isblock x a) (H' : isblock y b) := h_mul lt ab sq H H'.
Let hd (x : xpr E) (a : xpr B) (y : xpr E) (b : xpr B) (H : isblock x a) (H' : isblock y b) := h_div lt ab sq H H'.
Let hn (x : xpr E) (a : xpr B) (H : isblock x a) := h_neg lt ab sq H.
Let he (x : xpr E) (a : xpr B) (y : xpr E) (b : xpr B) (H : isblock x a) (H' : isblock y b) := h_eq lt ab sq H H'.

(** working on the blocks is working on the whole matrix *)
Theorem c109_sum n m (A C : 'M[F]_(n * k.+1, m * k.+1)) :
  sum B n m (blocks A) (blocks C) = Ok (blocks (A + C)).
Proof.
rewrite !blocksE cutm_add; apply: (run_bm (sum_mx _ _ _ (cutm A) (cutm C))).
exact: (@sum_ref E B _ _ hl hs h0 ha n m _ _ _ _ (bm_rel _) (bm_rel _)).
Qed.

Theorem c109_sub n m (A C : 'M[F]_(n * k.+1, m * k.+1)) :
  sub B n m (blocks A) (blocks C) = Ok (blocks (A - C)).
Proof.
rewrite !blocksE cutm_sub; apply: (run_bm (sub_mx _ _ _ (cutm A) (cutm C))).
exact: (@sub_ref E B _ _ hl hs h0 hb n m _ _ _ _ (bm_rel _) (bm_rel _)).
Qed.

Theorem c109_mult n m p (A : 'M[F]_(n * k.+1, m * k.+1)) (C : 'M[F]_(m * k.+1, p * k.+1)) :
  mult B n m p (blocks A) (blocks C) = Ok (blocks (A *m C)).
Proof.
rewrite !blocksE cutm_mul; apply: (run_bm (mult_mx _ _ _ (cutm A) (cutm C))).
exact: (@mult_ref E B _ _ hl hs h0 ha hm n m p _ _ _ _ (bm_rel _) (bm_rel _)).
Qed.

Theorem c109_strassen (A C : 'M[F]_(2 * k.+1)) :
  strassen B (blocks A) (blocks C) = Ok (blocks (A *m C)).
Proof.
rewrite !blocksE cutm_mul; apply: (run_bm (strassen_mx _ _ _ (cutm A) (cutm C))).
exact: (@strassen_ref E B _ _ hl hs h0 ha hm hb _ _ _ _ (bm_rel _) (bm_rel _)).
Qed.

Theorem c109_eye n : eye1 B n = Ok (blocks (1%:M : 'M[F]_(n * k.+1))).
Proof.
rewrite blocksE cutm_1; apply: (run_bm (eye1_mx _ _ _ n)).
exact: (@eye1_ref E B _ _ hs h0 h1 n).
Qed.

Theorem c109_pow n w (A : 'M[F]_(n * k.+1)) q : (Z.of_nat q < 2 ^ Z.max w 32)%Z ->
  pow B n w (blocks A) (Z.of_nat q) = Ok (blocks (mxpow A q)).
Proof.
move=> Hq; rewrite !blocksE cutm_pow.
have [X EX] : returns (pow E n w (mxrows (cutm A)) (Z.of_nat q)).
  by rewrite (mxrowsE 0); apply: returns_pow => // a b; eexists.
have relE (Y : 'M[R]_n) : @relM E R eq n n (mxrows Y) Y.
  by exists (mxf 0 Y); split; [exact: mxrowsE|move=> i j; rewrite mxf_ord].
have EP : pow E n w (mxrows (cutm A)) (Z.of_nat q) = Ok (mxrows (mxpow (cutm A) q)).
  case: (pow_sim (sim_exact _ _ _) (relE (cutm A)) EX) => f [Ef Hf].
  by rewrite EX Ef; congr Ok; symmetry; apply: mxrows_mk => i j; rewrite Hf.
apply: (run_bm EP).
by apply: (@pow_ref E B _ _ hl hs h0 ha hm h1 n w _ _ _ (bm_rel _)); lia.
Qed.

(** trans() moves the blocks but does not turn them *)
Theorem c109_trans n m (A : 'M[F]_(n * k.+1, m * k.+1)) :
  trans B n m (blocks A) = Ok (blocks A^T) <-> forall i j, symmetric (cut A i j).
Proof.
have -> : trans B n m (blocks A) = Ok (bm (cutm A)^T).
  rewrite blocksE; apply: (run_bm (trans_mx _ _ _ (cutm A))).
  exact: (@trans_ref E B _ _ hs h0 n m _ _ (bm_rel _)).
rewrite blocksE; split=> [[H] i j|H].
  have := congr1 (fun M => fun_of_matrix M j i) (bm_inj (esym H)).
  by rewrite !mxE cut_tr.
congr (Ok (bm _)); apply/matrixP => i j; rewrite !mxE cut_tr; exact/esym/H.
Qed.

(** the determinant over the blocks *)
Lemma det_E (X : 'M[R]_2) : det E 2 (mxrows X) = Ok (X i0 i0 * X i1 i1 - X i0 i1 * X i1 i0).
Proof. by rewrite mxrows22. Qed.

Definition delta (A : 'M[F]_(2 * k.+1)) : 'M[F]_k.+1 :=
  cut A i0 i0 *m cut A i1 i1 - cut A i0 i1 *m cut A i1 i0.

Lemma det_B (A : 'M[F]_(2 * k.+1)) : det B 2 (blocks A) = Ok (mxrows (delta A)).
Proof.
have H2 : (0 < 2)%coq_nat /\ (2 <= 3)%coq_nat by lia.
have := @det_small_ref E B (@isblock F k) (@isblock F k) hl hs ha hm hb 2 (mxrows (cutm A)) (bm (cutm A)) H2 (bm_rel _).
by rewrite det_E -blocksE => -[a [-> ->]]; rewrite !mxE.
Qed.

(** it has the determinant of the whole matrix if the two lower blocks commute *)
Theorem c109_det (A : 'M[F]_(2 * k.+1)) : cut A i1 i0 *m cut A i1 i1 = cut A i1 i1 *m cut A i1 i0 ->
  exists D : 'M[F]_k.+1, det B 2 (blocks A) = Ok (mxrows D) /\ det K k.+1 (mxrows D) = Ok (\det A).
Proof.
move=> H; exists (delta A); split; first exact: det_B.
by rewrite det_mx det_blocks.
Qed.

(** all blocks commute *)
Definition commuting (A : 'M[F]_(2 * k.+1)) : Prop :=
  forall i j i' j', cut A i j *m cut A i' j' = cut A i' j' *m cut A i j.

Lemma inv_E (X : 'M[R]_2) : X i0 i0 * X i1 i1 - X i0 i1 * X i1 i0 \is a GRing.unit ->
  Model.inv E 2 (mxrows X) = Ok (mxrows (map_mx (fun x : R => x / (X i0 i0 * X i1 i1 - X i0 i1 * X i1 i0))
    (\matrix_(i < 2, j < 2) if i == i0 then (if j == i0 then X i1 i1 else - X i0 i1)
                            else (if j == i0 then - X i1 i0 else X i0 i0)))).
Proof.
move=> U; rewrite -(@div_mx R _ _ _ 2 2) // [LHS]/(inv2 E (mxrows X)) /inv2 det_E [bind _ _]/=.
case: eqP => [H|_]; first by rewrite H unitr0 in U.
by rewrite !mxrows22 !mxE.
Qed.

Lemma inv_E_right (Y : 'M[R]_2) (d := Y i0 i0 * Y i1 i1 - Y i0 i1 * Y i1 i0) : d \is a GRing.unit ->
  (forall i j i' j', Y i j * Y i' j' = Y i' j' * Y i j) ->
  Y *m map_mx (fun x : R => x / d)
    (\matrix_(i < 2, j < 2) if i == i0 then (if j == i0 then Y i1 i1 else - Y i0 i1)
                            else (if j == i0 then - Y i1 i0 else Y i0 i0)) = 1%:M.
Proof.
move=> U c; apply/matrixP => i j; rewrite !mxE !big_ord_recl big_ord0 addr0 !mxE.
have -> : lift ord0 ord0 = i1 by apply: val_inj.
have l10 : (i1 == i0) = false by [].
have l01 : (i0 == i1) = false by [].
have O (x : 'I_2) : x = i0 \/ x = i1 by case: x => -[|[|//]] p; [left|right]; apply: val_inj.
case: (O i) => ->; case: (O j) => -> ; rewrite ?eqxx ?l01 ?l10 !mulrA -mulrDl.
- by rewrite mulrN divrr.
- by rewrite mulrN addrC c subrr mul0r.
- by rewrite mulrN c subrr mul0r.
- by rewrite mulrN addrC c [X in _ - X]c divrr.
Qed.

Theorem c109_inv (A : 'M[F]_(2 * k.+1)) : commuting A -> A \in unitmx ->
  Model.inv B 2 (blocks A) = Ok (blocks (invmx A)).
Proof.
move=> C UA.
have Ud : (delta A : R) \is a GRing.unit by rewrite -[_ \is a _]/(delta A \in unitmx) unitmxE -det_blocks // -unitmxE.
have UX : cutm A i0 i0 * cutm A i1 i1 - cutm A i0 i1 * cutm A i1 i0 \is a GRing.unit by rewrite !mxE.
rewrite !blocksE; apply: (run_bm (lt := lt) (ab := ab) (sq := sq)); last first.
  exact: (@inv_ref E B (@isblock F k) (@isblock F k) hl hs h0 h1 hm1 ha hb hm hd hn he 2 _ _ (bm_rel (cutm A))).
rewrite inv_E //; congr (Ok (mxrows _)).
set Z := map_mx _ _.
have AZ : cutm A *m Z = 1%:M.
  by apply: inv_E_right => // i j i' j'; rewrite !mxE; exact: C.
have ZA : cutm (invmx A) *m cutm A = 1%:M by rewrite -cutm_mul mulVmx // cutm_1.
by rewrite -[Z]mul1mx -ZA -mulmxA AZ mulmx1.
Qed.

(** a singular matrix has no inverse, and none is returned *)
Theorem c109_inv_singular (A : 'M[F]_(2 * k.+1)) :
  cut A i1 i0 *m cut A i1 i1 = cut A i1 i1 *m cut A i1 i0 -> \det A = 0 ->
  (forall X, Model.inv B 2 (blocks A) <> Ok X) /\
  ((k.+1 <= 3)%N -> Model.inv B 2 (blocks A) = Throw OverflowError).
Proof.
move=> C D0.
have Dd : \det (delta A) = 0 by rewrite -det_blocks.
have -> : Model.inv B 2 (blocks A) = if delta A == 0 then Throw OverflowError else
    bind (Model.inv K k.+1 (mxrows (delta A))) (fun _ => UB BadConversion).
  rewrite [LHS]/(inv2 B (blocks A)) /inv2 det_B; cbn [bind].
  have EQ : xeq (s := B) (ld (s := B) (mxrows (delta A))) (lit (s := B) 0) = (delta A == 0).
    by symmetry; exact: (he (erefl (mxrows (delta A))) h0).
  rewrite EQ; case: ifP => // Hd.
  rewrite inv_mx_singular //.
  rewrite blocksE /bm mxrows22 !mxE.
  have ng (M : 'M[F]_k.+1) : sub K k.+1 k.+1 (zeros K k.+1 k.+1) (mxrows M) = Ok (mxrows (- M)).
    by rewrite zeros_mx sub_mx sub0r.
  rewrite [LHS]/(let* x := sub K k.+1 k.+1 (zeros K k.+1 k.+1) (mxrows (cut A ord0 ord_max)) in
    let* y := sub K k.+1 k.+1 (zeros K k.+1 k.+1) (mxrows (cut A ord_max ord0)) in
    Model.div B 2 2 [:: [:: mxrows (cut A ord_max ord_max); x]; [:: y; mxrows (cut A ord0 ord0)]] (mxrows (delta A))).
  rewrite !ng; cbn [bind].
  set L := [:: _; _].
  have -> : L = mk 2 2 (fun i j => List.nth j (List.nth i L [::]) [::]) by [].
  rewrite div_tab EQ Hd.
  have xd (x : matrix F) : xdiv (s := B) x (mxrows (delta A)) =
      (let* c := inv_singular F k.+1 in mult K k.+1 k.+1 k.+1 x c).
    by rewrite [LHS]/(let* c := Model.inv K k.+1 (mxrows (delta A)) in mult K k.+1 k.+1 k.+1 x c) inv_mx_singular.
  rewrite /tabM [List.seq 0 2]/=; cbn [map_out]; rewrite xd.
  have [->|[->|->]] // : inv_singular F k.+1 = UB DivByZero \/ inv_singular F k.+1 = Throw OverflowError \/
    inv_singular F k.+1 = Terminate.
  by case: (k) => [|[|[|?]]] /=; auto.
case: ifP => [_|Hd]; first by split.
rewrite inv_mx_singular //; move: Hd Dd; case: k (delta A) => [|[|[|k']]] d Hd Dd //=.
exfalso; move/negP: Hd; apply; apply/eqP/matrixP => i j; rewrite !ord1 mxE -Dd.
by rewrite det_mx11.
Qed.

(** a factor or divisor is applied to every block from the right *)
Theorem c109_scalar n m (A : 'M[F]_(n * k.+1, m * k.+1)) (s : 'M[F]_k.+1) :
  mult_scalar B n m (blocks A) (mxrows s) = Ok (mxrows (\matrix_(i < n, j < m) mxrows (cut A i j *m s))) /\
  (s \in unitmx -> Model.div B n m (blocks A) (mxrows s) = Ok (mxrows (\matrix_(i < n, j < m) mxrows (cut A i j *m invmx s)))).
Proof.
have fin (g : R -> R) (o : outcome (matrix (elt B))) : o = Ok (bm (map_mx g (cutm A))) ->
    o = Ok (mxrows (\matrix_(i < n, j < m) mxrows (g (cut A i j) : 'M[F]_k.+1))).
  by move=> ->; congr (Ok (mxrows _)); apply/matrixP => i j; rewrite !mxE.
split=> [|Us].
  apply: (fin (fun x : R => x * (s : R))); rewrite blocksE.
  apply: (run_bm (mult_scalar_mx _ _ _ (cutm A) (s : R))).
  exact: (@mult_scalar_ref E B _ _ hl hs h0 hm n m _ _ _ _ (bm_rel _) (erefl _)).
apply: (fin (fun x : R => x / (s : R))); rewrite blocksE.
apply: (run_bm (div_mx _ _ _ (cutm A) (Us : (s : R) \is a GRing.unit))).
exact: (@div_ref E B _ _ hl hs h0 hd he n m _ _ _ _ (bm_rel _) (erefl _)).
Qed.

Lemma h_divsz (x : xpr E) (a : xpr B) z : isblock x a -> refines (@isblock F k) (divsz x z) (divsz a z).
Proof.
move=> ->; rewrite [divsz x z]/(exact_div x (ring_of_Z R z)) /exact_div.
have RE : ring_of_Z R z = (ring_of_Z F z)%:M :> 'M[F]_k.+1.
  by case: z => [|p|p] /=; rewrite ?raddf0 ?raddfN /= ?rmorph_nat.
case: ifP => // U; eexists; split; last reflexivity.
have Uz : ring_of_Z F z \is a GRing.unit.
  by move: U; rewrite RE -[_ \is a _]/(_ \in unitmx) unitmxE det_scalar unitrX_pos.
apply: (etrans (@div_mx F lt ab sq k.+1 k.+1 (x : 'M[F]_k.+1) _ Uz)).
congr (Ok (mxrows _)); apply/matrixP => i j.
have -> : ((x : R) / ring_of_Z R z : 'M[F]_k.+1) = (ring_of_Z F z)^-1 *: (x : 'M[F]_k.+1).
  by rewrite RE -mul_mx_scalar -invmx_scalar.
by rewrite !mxE mulrC.
Qed.

Lemma natE c : c%:R = (c%:R)%:M :> 'M[F]_k.+1.
Proof. by rewrite rmorph_nat. Qed.

(** the mean of the blocks *)
Theorem c109_mean n m (A : 'M[F]_(n * k.+1, m * k.+1)) : (Z.of_nat (n * m) < 2 ^ 64)%Z -> (n * m)%:R != 0 :> F ->
  mean B n m (blocks A) = Ok (mxrows ((n * m)%:R^-1 *: \sum_(i < n) \sum_(j < m) cut A i j)).
Proof.
move=> Hs Hz.
have EM : mean E n m (mxrows (cutm A)) = Ok ((\sum_(i < n) \sum_(j < m) cutm A i j) / (n * m)%:R : R).
  rewrite /mean (@acc2 _ n m (cutm A) id (fun a r => Ok (r + a))) //.
  rewrite [LHS]/(exact_div _ (ring_of_Z R (size_mul n m))) size_mulE // ring_of_Z_nat /exact_div.
  by rewrite natE -[_ \is a _]/(_%:M \in unitmx) unitmxE det_scalar unitrX_pos // unitfE Hz.
have := @mean_ref E B (@isblock F k) (@isblock F k) hl hs h0 ha h_divsz n m _ _ (bm_rel (cutm A)).
rewrite EM -blocksE => -[a [-> ->]]; congr (Ok (mxrows _)).
transitivity ((n * m)%:R^-1 *: (\sum_(i < n) \sum_(j < m) cutm A i j : 'M[F]_k.+1)).
  by rewrite natE -mul_mx_scalar -invmx_scalar.
congr (_ *: _); by apply: eq_bigr => i _; apply: eq_bigr => j _; rewrite mxE.
Qed.

(** such matrices exist: with blocks 1, M, 0, 1 a regular one, with four blocks M a singular one *)
Lemma with_blocks (P M N O : 'M[F]_k.+1) : exists A : 'M[F]_(2 * k.+1),
  [/\ cut A i0 i0 = P, cut A i0 i1 = M, cut A i1 i0 = N & cut A i1 i1 = O].
Proof.
have [A eA] : exists A, castmx (dbl k, dbl k) A = block_mx P M N O.
  by exists (castmx (esym (dbl k), esym (dbl k)) (block_mx P M N O)); rewrite castmxKV.
by exists A; move: eA; rewrite cast_four => /eq_block_mx[].
Qed.

(** lu(): factors of the whole matrix if the blocks commute *)
Theorem c109_lu (A : 'M[F]_(2 * k.+1)) : commuting A -> cut A i0 i0 \in unitmx -> A \in unitmx ->
  exists L U : 'M[F]_(2 * k.+1), [/\ lu B 2 (blocks A) = Ok (blocks L, blocks U), L *m U = A,
    [/\ cut L i0 i0 = 1%:M, cut L i0 i1 = 0 & cut L i1 i1 = 1%:M] & cut U i1 i0 = 0].
Proof.
move=> C Ua UA.
pose a : R := cut A i0 i0; pose b : R := cut A i0 i1; pose c : R := cut A i1 i0; pose d : R := cut A i1 i1.
have Va : a \is a GRing.unit by [].
have cab : a * b = b * a by exact: C.
have cac : a * c = c * a by exact: C.
have cbc : b * c = c * b by exact: C.
have cad : a * d = d * a by exact: C.
have Vd : a * d - b * c \is a GRing.unit.
  by rewrite -[_ \is a _]/(delta A \in unitmx) unitmxE -det_blocks // -unitmxE.
have eu : (d - b * (c / a)) * a = a * d - b * c by rewrite mulrBl -!mulrA mulVr // mulr1 cad.
have Vu : d - b * (c / a) \is a GRing.unit by rewrite -(unitrMl _ Va) eu.
have [L [L00 L01 L10 L11]] := with_blocks 1%:M 0 (c / a : R) 1%:M.
have [U [U00 U01 U10 U11]] := with_blocks a b 0 (d - b * (c / a) : R).
exists L, U; split=> //.
- have EL : mxrows (cutm L) = [:: [:: 1; 0]; [:: c / a; 1]] :> matrix R by rewrite mxrows22 !mxE L00 L01 L10 L11.
  have EU : mxrows (cutm U) = [:: [:: a; b]; [:: 0; d - b * (c / a)]] :> matrix R by rewrite mxrows22 !mxE U00 U01 U10 U11.
  have EA : mxrows (cutm A) = [:: [:: a; b]; [:: c; d]] :> matrix R by rewrite mxrows22 !mxE.
  have := @lu_ref E B (@isblock F k) (@isblock F k) hl hs h0 h1 ha hb hm hd he 2 _ _ (bm_rel (cutm A)).
  rewrite {1}EA (lu22 _ _ _ Va Vu) -EL -EU -blocksE => -[[L' U'] [-> [/= HL HU]]].
  by rewrite (rel_bm HL) (rel_bm HU) !blocksE.
- apply: cutm_inj.
  rewrite cutm_mul; apply/matrixP => i j; rewrite !mxE !big_ord_recl big_ord0 addr0 !mxE.
  have -> : lift ord0 ord0 = i1 by apply: val_inj.
  have O (x : 'I_2) : x = i0 \/ x = i1 by case: x => -[|[|//]] p; [left|right]; apply: val_inj.
  have cba : b * a^-1 = a^-1 * b by rewrite -[RHS]mulr1 -(mulrV Va) mulrA -[_ * b * a]mulrA -cab mulKr.
  case: (O i) => ->; case: (O j) => ->; rewrite ?L00 ?L01 ?L10 ?L11 ?U00 ?U01 ?U10 ?U11.
  + by rewrite mul1r mul0r addr0.
  + by rewrite mul1r mul0r addr0.
  + by rewrite mulr0 addr0 divrK.
  + by rewrite mul1r -mulrA -cba mulrA -cbc -mulrA addrC subrK.
Qed.

Theorem c109_example (M : 'M[F]_k.+1) :
  (exists A, [/\ commuting A, A \in unitmx, cut A i0 i0 \in unitmx & cut A i0 i1 = M]) /\
  (exists A, [/\ commuting A, \det A = 0 & forall i j, cut A i j = M]).
Proof.
have O (x : 'I_2) : x = i0 \/ x = i1 by case: x => -[|[|//]] p; [left|right]; apply: val_inj.
split.
- have [A [H00 H01 H10 H11]] := with_blocks 1%:M M 0 1%:M; exists A; split=> //.
  + move=> i j i' j'; case: (O i) (O j) (O i') (O j') => -> [] -> [] -> [] ->;
    by rewrite ?H00 ?H01 ?H10 ?H11 ?mul1mx ?mulmx1 ?mul0mx ?mulmx0 ?mul1mx ?mulmx1.
  + rewrite unitmxE det_blocks H10 ?H11 ?mulmx1 ?mul1mx // H00 H01 mulmx0 subr0 ?mulmx1 matrix.det1; exact: unitr1.
  + by rewrite H00 unitmx1.
- have [A [H00 H01 H10 H11]] := with_blocks M M M M; exists A.
  have H i j : cut A i j = M by case: (O i) (O j) => -> [] ->.
  split=> //; first by move=> i j i' j'; rewrite !H.
  by rewrite det_blocks !H // subrr det0 .
Qed.
End Block.

(** ** strassen all the way down: order 2^r *)
Theorem c109_recursive (R : unitRingType) lt ab sq r (A C : 'M[R]_(order r.+1)) : order r.+1 = (2 ^ r.+1)%N /\
  let K := @exactS R lt ab sq in
  strassen (strassenS K r) (nest K (r := r.+1) A) (nest K (r := r.+1) C) = Ok (nest K (r := r.+1) (A *m C)).
Proof. by split; [exact: order2|exact: strassen_nest]. Qed.

Theorem c109_nest_inj (R : unitRingType) lt ab sq r (A C : 'M[R]_(order r)) :
  let K := @exactS R lt ab sq in nest K A = nest K C -> A = C.
Proof.
move=> K; elim: r A C => [|r IH] A C.
  by move=> /= H; apply/matrixP => i j; rewrite !ord1.
move=> H; apply: (@cut_inj _ 2 2 (order r)) => i j; apply: IH.
have /= := H; rewrite !mxrows22 !mxE => -[H00 H01 H10 H11].
have O (x : 'I_2) : x = ord0 \/ x = ord_max by case: x => -[|[|//]] p; [left|right]; apply: val_inj.
by case: (O i) => ->; case: (O j) => ->.
Qed.

Theorem c109_blocks_inj (T : Type) n m k (A C : 'M[T]_(n * k, m * k)) : blocks A = blocks C -> A = C.
Proof.
case: k A C => [|k] A C H; first by apply/matrixP => -[i Hi]; exfalso; move: Hi; rewrite muln0.
case: n m A C H => [|n] m A C H; first by apply/matrixP => -[].
case: m A C H => [|m] A C H; first by apply/matrixP => i -[].
have d : T := A (at_ ord0 ord0) (at_ ord0 ord0).
apply: cut_inj => i j; apply: (@mxrows_inj _ _ _ d).
have := congr1 (fun M => fun_of_matrix M i j) (@mxrows_inj _ _ _ [::] _ _ H).
by rewrite !mxE.
Qed.

(** ** What goes wrong when blocks do not commute *)
Definition Q : scalar := @exactS [unitRingType of rat] (fun _ _ => false) id (fun _ => UB BadConversion).
Definition QB : scalar := prodS Q 2.
Definition q (z : Z) : rat := ring_of_Z [ringType of rat] z.
Definition qm (A : list (list Z)) : matrix rat := map (map q) A.

(** a permutation matrix, of which inv() finds no inverse *)
Definition perm_blocks : matrix (matrix rat) :=
  [:: [:: qm [:: [:: 0; 0]; [:: 0; 1]]; qm [:: [:: 0; 1]; [:: 0; 0]]];
      [:: qm [:: [:: 1; 0]; [:: 0; 0]]; qm [:: [:: 0; 0]; [:: 1; 0]]]]%Z.
Definition perm_flat : matrix rat :=
  qm [:: [:: 0; 0; 0; 1]; [:: 0; 1; 0; 0]; [:: 1; 0; 0; 0]; [:: 0; 0; 1; 0]]%Z.
(** a matrix with two equal rows, of which inv() returns an inverse *)
Definition sing_blocks : matrix (matrix rat) :=
  [:: [:: qm [:: [:: 1; 0]; [:: 0; 0]]; qm [:: [:: 0; 0]; [:: 0; 1]]];
      [:: qm [:: [:: 0; 0]; [:: 1; 0]]; qm [:: [:: 0; 1]; [:: 0; 0]]]]%Z.
Definition sing_flat : matrix rat :=
  qm [:: [:: 1; 0; 0; 0]; [:: 0; 0; 0; 1]; [:: 0; 0; 0; 1]; [:: 1; 0; 0; 0]]%Z.
(** a matrix that lu() factors wrongly *)
Definition lu_blocks : matrix (matrix rat) :=
  [:: [:: qm [:: [:: 1; 0]; [:: 0; 1]]; qm [:: [:: 0; 1]; [:: 0; 0]]];
      [:: qm [:: [:: 0; 0]; [:: 1; 0]]; qm [:: [:: 3; 0]; [:: 0; 3]]]]%Z.
Definition lu_flat : matrix rat :=
  qm [:: [:: 1; 0; 0; 1]; [:: 0; 1; 0; 0]; [:: 0; 0; 3; 0]; [:: 1; 0; 0; 3]]%Z.

Definition picked (T : Type) (o : outcome T) (P : T -> bool) : bool := match o with Ok M => P M | _ => false end.
Lemma picked_ok (T : Type) (o : outcome T) (P : T -> bool) : picked o P = true -> exists M, o = Ok M /\ P M = true.
Proof. case: o => //= M H; by exists M. Qed.
Lemma returned_ok (T : Type) (o : outcome T) : picked o (fun _ => true) = true -> exists M, o = Ok M.
Proof. case: o => //= M _; by exists M. Qed.
Definition threw (T : Type) (o : outcome T) : bool := match o with Throw OverflowError => true | _ => false end.
Lemma threw_ok (T : Type) (o : outcome T) : threw o = true -> o = Throw OverflowError.
Proof. by case: o => // -[]. Qed.
Lemma det_perm : picked (det Q 4 perm_flat) (fun d => xeq (s := Q) d (q 1)) = true.
Proof. vm_compute. reflexivity. Qed.
Lemma inv_perm : threw (Model.inv QB 2 perm_blocks) = true.
Proof. vm_compute. reflexivity. Qed.
Lemma det_sing : picked (det Q 4 sing_flat) (fun d => xeq (s := Q) d (q 0)) = true.
Proof. vm_compute. reflexivity. Qed.
Lemma inv_sing : picked (Model.inv QB 2 sing_blocks) (fun _ => true) = true.
Proof. vm_compute. reflexivity. Qed.
Theorem c109_inv_wrong :
  ((exists d, det Q 4 perm_flat = Ok d /\ xeq (s := Q) d (q 1) = true) /\
   Model.inv QB 2 perm_blocks = Throw OverflowError) /\
  ((exists d, det Q 4 sing_flat = Ok d /\ xeq (s := Q) d (q 0) = true) /\
   (exists X, Model.inv QB 2 sing_blocks = Ok X)).
Proof.
exact (conj (conj (picked_ok det_perm) (threw_ok inv_perm)) (conj (picked_ok det_sing) (returned_ok inv_sing))).
Qed.

Definition lu_mult (K : scalar) (n : nat) (A : matrix (elt K)) : outcome (matrix (elt K)) :=
  let* p := lu K n A in mult K n n n p.1 p.2.
Lemma lu_check_blocks : picked (lu_mult (K := QB) 2 lu_blocks) (fun M => negb (mat_eqb QB M lu_blocks)) = true.
Proof. vm_compute. reflexivity. Qed.
Lemma lu_check_flat : picked (lu_mult (K := Q) 4 lu_flat) (fun M => mat_eqb Q M lu_flat) = true.
Proof. vm_compute. reflexivity. Qed.
Theorem c109_lu_wrong :
  (exists M, lu_mult (K := QB) 2 lu_blocks = Ok M /\ negb (mat_eqb QB M lu_blocks) = true) /\
  (exists M, lu_mult (K := Q) 4 lu_flat = Ok M /\ mat_eqb Q M lu_flat = true).
Proof. exact (conj (picked_ok lu_check_blocks) (picked_ok lu_check_flat)). Qed.
