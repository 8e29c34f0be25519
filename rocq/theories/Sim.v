(** * Simulation of a scalar type by a ring

    If the operations [+ - *] of an element type [K], whenever they return,
    respect a relation between [K] and a ring [R], then so does every function
    of the library that uses only these operations.  Instances: integers modulo
    2^w, signed integers that do not overflow, exact arithmetic. *)

From Coq Require Import ZArith List Lia.
From mathcomp Require Import all_ssreflect all_algebra.
From mathcomp Require Import zify.
From mathcomp Require Import ssrAC.
From Verif Require Import Base Scalar Model Spec Loops Struct Conv Exact ExactLemmas Alg Det ConvExact Pow.

Set Implicit Arguments.
Unset Strict Implicit.
Unset Printing Implicit Defensive.

Import GRing.Theory.
Local Open Scope ring_scope.
Delimit Scope Z_scope with Z.

(** [o], if it returns, returns something that satisfies [P] *)
Definition upon (A : Type) (o : outcome A) (P : A -> Prop) : Prop := forall a, o = Ok a -> P a.

Lemma upon_ok A (a : A) (P : A -> Prop) : P a -> upon (Ok a) P.
Proof. by move=> H b [<-]. Qed.

Lemma upon_bind A B (o : outcome A) (k : A -> outcome B) (P : A -> Prop) (Q : B -> Prop) :
  upon o P -> (forall a, P a -> upon (k a) Q) -> upon (bind o k) Q.
Proof. by move=> H1 H2 b E; case: (bind_inv _ _ _ E) => a [E1 E2]; apply: (H2 a) => //; exact: H1. Qed.

(** ** the identities behind strassen, in a ring that need not be commutative *)
Section Identities.
Variables (R : ringType) (a b c d e f g h : R).
Lemma st00 : (a + d) * (e + h) + d * (g - e) - (a + b) * h + (b - d) * (g + h) = a * e + b * g.
Proof. by rewrite !(mulrDl, mulrDr, mulrN, mulNr, opprD, opprK) !addrA [LHS](ACl (1*9*2*7*3*6*4*12*5*11*10*8)) /= !addrK. Qed.
Lemma st01 : a * (f - h) + (a + b) * h = a * f + b * h.
Proof. by rewrite !(mulrDl, mulrDr, mulrN, mulNr, opprD, opprK) !addrA subrK. Qed.
Lemma st10 : (c + d) * e + d * (g - e) = c * e + d * g.
Proof. by rewrite !(mulrDl, mulrDr, mulrN, mulNr, opprD, opprK) !addrA [LHS](ACl (1*3*2*4)) /= addrK. Qed.
Lemma st11 : a * (f - h) + (a + d) * (e + h) - ((c + d) * e + (a - c) * (e + f)) = c * f + d * h.
Proof. by rewrite !(mulrDl, mulrDr, mulrN, mulNr, opprD, opprK) !addrA [LHS](ACl (12*6*1*10*4*2*3*9*5*8*11*7)) /= !addrK. Qed.
End Identities.

Section Sim.
Variables (K : scalar) (R : ringType).
Variables (rel : elt K -> R -> Prop) (relx : xpr K -> R -> Prop).

Record sim : Prop := Sim {
  sim_ld : forall a x, rel a x -> relx (ld a) x;
  sim_st : forall v x, relx v x -> rel (st v) x;
  sim_0 : relx (lit 0) 0;
  sim_1 : relx (lit 1) 1;
  sim_add : forall a x b y, relx a x -> relx b y -> upon (xadd a b) (fun v => relx v (x + y));
  sim_sub : forall a x b y, relx a x -> relx b y -> upon (xsub a b) (fun v => relx v (x - y));
  sim_mul : forall a x b y, relx a x -> relx b y -> upon (xmul a b) (fun v => relx v (x * y))
}.

Definition relM n m (A : matrix (elt K)) (X : 'M[R]_(n, m)) : Prop :=
  exists f, A = mk n m f /\ forall (i : 'I_n) (j : 'I_m), rel (f i j) (X i j).

Hypothesis S : sim.

Lemma sim_lite0 : rel (lite K 0) 0. Proof. exact: sim_st S _ _ (sim_0 S). Qed.
Lemma sim_lite1 : rel (lite K 1) 1. Proof. exact: sim_st S _ _ (sim_1 S). Qed.

Lemma tabM_sim n m (f : nat -> nat -> outcome (elt K)) (X : 'M[R]_(n, m)) :
  (forall (i : 'I_n) (j : 'I_m), upon (f i j) (fun v => rel v (X i j))) ->
  upon (tabM n m f) (fun C => relM C X).
Proof.
move=> H C E0; case: (tabM_inv (lite K 0) _ _ _ _ E0) => g [-> E]; exists g; split=> // i j.
by apply: (H i j); apply: E; exact/ltP.
Qed.

Lemma sum_sim n m A B (X Y : 'M[R]_(n, m)) : relM A X -> relM B Y ->
  upon (sum K n m A B) (fun C => relM C (X + Y)).
Proof.
move=> [f [-> Hf]] [g [-> Hg]]; rewrite sum_tab; apply: tabM_sim => i j; rewrite mxE.
apply: upon_bind (sim_add S (sim_ld S (Hf i j)) (sim_ld S (Hg i j))) _ => v Hv.
apply: upon_ok; exact: (sim_st S).
Qed.

Lemma sub_sim n m A B (X Y : 'M[R]_(n, m)) : relM A X -> relM B Y ->
  upon (sub K n m A B) (fun C => relM C (X - Y)).
Proof.
move=> [f [-> Hf]] [g [-> Hg]]; rewrite sub_tab; apply: tabM_sim => i j; rewrite !mxE.
apply: upon_bind (sim_sub S (sim_ld S (Hf i j)) (sim_ld S (Hg i j))) _ => v Hv.
apply: upon_ok; exact: (sim_st S).
Qed.

Lemma sum_scalar_sim n m A (X : 'M[R]_(n, m)) s x : relM A X -> rel s x ->
  upon (sum_scalar K n m A s) (fun C => relM C (X + const_mx x)).
Proof.
move=> [f [-> Hf]] Hs; rewrite sum_scalar_tab; apply: tabM_sim => i j; rewrite !mxE.
apply: upon_bind (sim_add S (sim_ld S (Hf i j)) (sim_ld S Hs)) _ => v Hv.
apply: upon_ok; exact: (sim_st S).
Qed.

Lemma sub_scalar_sim n m A (X : 'M[R]_(n, m)) s x : relM A X -> rel s x ->
  upon (sub_scalar K n m A s) (fun C => relM C (X - const_mx x)).
Proof.
move=> [f [-> Hf]] Hs; rewrite sub_scalar_tab; apply: tabM_sim => i j; rewrite !mxE.
apply: upon_bind (sim_sub S (sim_ld S (Hf i j)) (sim_ld S Hs)) _ => v Hv.
apply: upon_ok; exact: (sim_st S).
Qed.

Lemma mult_scalar_sim n m A (X : 'M[R]_(n, m)) s x : relM A X -> rel s x ->
  upon (mult_scalar K n m A s) (fun C => relM C (map_mx (fun a => a * x) X)).
Proof.
move=> [f [-> Hf]] Hs; rewrite mult_scalar_tab; apply: tabM_sim => i j; rewrite !mxE.
apply: upon_bind (sim_mul S (sim_ld S (Hf i j)) (sim_ld S Hs)) _ => v Hv.
apply: upon_ok; exact: (sim_st S).
Qed.

Lemma dot_sim m (a b : nat -> elt K) (x y : nat -> R) :
  (forall k, (k < m)%N -> rel (a k) (x k)) -> (forall k, (k < m)%N -> rel (b k) (y k)) ->
  upon (dot K m a b) (fun v => rel v (\sum_(0 <= k < m) x k * y k)).
Proof.
move=> Ha Hb v; rewrite /dot.
apply: (@for_partial _ (fun k c => rel c (\sum_(0 <= k < k) x k * y k))).
- exact/leP.
- rewrite big_geq //; exact: sim_lite0.
move=> k c c' [_ /ltP Hk] Hc; move: c'.
apply: upon_bind (sim_mul S (sim_ld S (Ha k Hk)) (sim_ld S (Hb k Hk))) _ => t Ht.
apply: upon_bind (sim_add S (sim_ld S Hc) Ht) _ => w Hw.
apply: upon_ok; rewrite big_nat_recr //=; exact: (sim_st S).
Qed.

Lemma mult_sim n m p A B (X : 'M[R]_(n, m)) (Y : 'M[R]_(m, p)) : relM A X -> relM B Y ->
  upon (mult K n m p A B) (fun C => relM C (X *m Y)).
Proof.
move=> [f [-> Hf]] [g [-> Hg]]; rewrite mult_tab; apply: tabM_sim => i j; rewrite mxE.
have -> : \sum_(k < m) X i k * Y k j = \sum_(0 <= k < m) mxf 0 X i k * mxf 0 Y k j.
  by rewrite big_mkord; apply: eq_bigr => k _; rewrite !mxf_ord.
apply: dot_sim => k Hk; rewrite -[k]/(val (Ordinal Hk)) mxf_ord; [exact: Hf|exact: Hg].
Qed.

Lemma trans_sim n m A (X : 'M[R]_(n, m)) : relM A X ->
  upon (trans K n m A) (fun C => relM C X^T).
Proof.
move=> [f [-> Hf]]; rewrite trans_mk; apply: upon_ok; exists (fun i j => f j i); split=> // i j.
by rewrite mxE.
Qed.

Lemma eye1_sim n : upon (eye1 K n) (fun C => relM C (1%:M : 'M[R]_n)).
Proof.
rewrite eye1_mk; apply: upon_ok; eexists; split; first reflexivity.
move=> i j; rewrite mxE eqbE -val_eqE; case: eqP => _; rewrite ?mulr1n ?mulr0n.
- exact: sim_lite1.
- exact: sim_lite0.
Qed.

(** ** powers with a non-negative exponent *)

Lemma pow_fuel_sim fuel n w A (X : 'M[R]_n) q : relM A X ->
  upon (pow_fuel K fuel n w A (Z.of_nat q)) (fun C => relM C (mxpow X q)).
Proof.
move=> HA; elim: fuel w q => [|fuel IH] w q //=.
case: q => [|[|q]].
- exact: eye1_sim.
- apply: upon_ok; by rewrite mxpow1.
move: (q.+2) (isT : (1 < q.+2)%N) => {}q Hq.
have -> : (Z.of_nat q =? 0)%Z = false by lia.
have -> : (Z.of_nat q =? 1)%Z = false by lia.
have -> : (Z.of_nat q <? 0)%Z = false by lia.
rewrite [X in upon X _]/= quot2 rem2; apply: upon_bind (IH _ _) _ => P HP.
rewrite [mxpow X _]mxpow_half; case: (odd _) => /=; last exact: mult_sim.
by apply: upon_bind (mult_sim HP HP) _ => Q HQ; exact: mult_sim.
Qed.

Lemma pow_sim n w A (X : 'M[R]_n) q : relM A X ->
  upon (pow K n w A (Z.of_nat q)) (fun C => relM C (mxpow X q)).
Proof. exact: pow_fuel_sim. Qed.

(** ** strassen *)

Ltac sim_val :=
  lazymatch goal with
  | |- relx (ld _) _ => eapply (sim_ld S); sim_val
  | |- rel (st _) _ => eapply (sim_st S); sim_val
  | |- _ => eassumption
  end.
Ltac sim_op :=
  lazymatch goal with
  | |- upon (xadd _ _) _ => eapply (sim_add S); [sim_val|sim_val]
  | |- upon (xsub _ _) _ => eapply (sim_sub S); [sim_val|sim_val]
  | |- upon (xmul _ _) _ => eapply (sim_mul S); [sim_val|sim_val]
  end.
Ltac sim_run :=
  lazymatch goal with
  | |- upon (bind _ _) _ =>
      eapply upon_bind; [sim_op|let v := fresh "v" in let H := fresh "Hv" in intros v H; cbv beta in H; sim_run]
  | |- _ => idtac
  end.

Lemma strassen_sim A B (X Y : 'M[R]_2) : relM A X -> relM B Y ->
  upon (strassen K A B) (fun C => relM C (X *m Y)).
Proof.
move=> [f [-> Hf]] [g [-> Hg]].
have h00 := Hf ord0 ord0; have h01 := Hf ord0 (lift ord0 ord0).
have h10 := Hf (lift ord0 ord0) ord0; have h11 := Hf (lift ord0 ord0) (lift ord0 ord0).
have g00 := Hg ord0 ord0; have g01 := Hg ord0 (lift ord0 ord0).
have g10 := Hg (lift ord0 ord0) ord0; have g11 := Hg (lift ord0 ord0) (lift ord0 ord0).
move=> {Hf Hg}; rewrite /= /bump /= !addn0 in h00 h01 h10 h11 g00 g01 g10 g11.
rewrite /strassen; cbn -[upon relM ld st lite xadd xsub xmul lift].
match goal with |- forall a, ?o = Ok a -> @?P a => change (upon o P) end.
sim_run.
apply: upon_ok.
exists (fun i j => nth (lite K 0) (nth [::] [:: [:: st v18; st v19]; [:: st v20; st v23]] i) j).
split=> // i j.
have -> : (X *m Y) i j = X i ord0 * Y ord0 j + X i (lift ord0 ord0) * Y (lift ord0 ord0) j.
  by rewrite mxE !big_ord_recl big_ord0 addr0.
have case2 (o : 'I_2) : o = ord0 \/ o = lift ord0 ord0.
  by case: o => [[|[|o]] Ho] //; [left|right]; apply: val_inj.
case: (case2 i) => ->; case: (case2 j) => -> /=.
- by have := sim_st S Hv18; rewrite st00.
- by have := sim_st S Hv19; rewrite st01.
- by have := sim_st S Hv20; rewrite st10.
- by have := sim_st S Hv23; rewrite st11.
Qed.

(** ** convolution *)

Lemma corr_step_sim n m (f k : nat -> nat -> elt K) (X : 'M[R]_(n, m)) (Y : 'M[R]_3) p q c x (a b : 'I_3) :
  (forall (i : 'I_n) (j : 'I_m), rel (f i j) (X i j)) ->
  (forall (i j : 'I_3), rel (k i j) (Y i j)) -> rel c x ->
  upon (corr_step K n m f k p q c (val a, val b))
    (fun v => rel v (x + Y a b * at0 X (p + pos a - 1)%Z (q + pos b - 1)%Z)).
Proof.
move=> Hf Hk Hc; rewrite /corr_step [X in upon X _]/= at0E -/(pos a) -/(pos b).
set pa := (p + pos a - 1)%Z; set qb := (q + pos b - 1)%Z.
have Ht : upon (if inside n m pa qb then xmul (ld (k a b)) (ld (f (Z.to_nat pa) (Z.to_nat qb)))
      else Ok (@lit K 0))
   (fun t => relx t (Y a b * (if inside n m pa qb then mxf 0 X (Z.to_nat pa) (Z.to_nat qb) else 0))).
  case: ifP => H; last by apply: upon_ok; rewrite mulr0; exact: (sim_0 S).
  have [Hp Hq] : (Z.to_nat pa < n)%N /\ (Z.to_nat qb < m)%N by move: H; rewrite /inside; lia.
  apply: (sim_mul S); apply: (sim_ld S); first exact: Hk.
  rewrite -[Z.to_nat pa]/(val (Ordinal Hp)) -[Z.to_nat qb]/(val (Ordinal Hq)) mxf_ord; exact: Hf.
apply: upon_bind Ht _ => t Ht; apply: upon_bind (sim_add S (sim_ld S Hc) Ht) _ => v Hv.
by apply: upon_ok; exact: (sim_st S).
Qed.

Lemma corr_sim n m (f k : nat -> nat -> elt K) (X : 'M[R]_(n, m)) (Y : 'M[R]_3) p q :
  (forall (i : 'I_n) (j : 'I_m), rel (f i j) (X i j)) ->
  (forall (i j : 'I_3), rel (k i j) (Y i j)) ->
  upon (corr K n m f k p q) (fun v => rel v (correlation X Y p q)).
Proof.
move=> Hf Hk; rewrite corr_unfold.
pose o0 : 'I_3 := ord0; pose o1 : 'I_3 := lift ord0 ord0; pose o2 : 'I_3 := lift ord0 (lift ord0 ord0).
have st a b c x (Hc : rel c x) := @corr_step_sim n m f k X Y p q c x a b Hf Hk Hc.
apply: upon_bind (st o0 o0 _ _ sim_lite0) _ => c0 H0.
apply: upon_bind (st o0 o1 _ _ H0) _ => c1 H1.
apply: upon_bind (st o0 o2 _ _ H1) _ => c2 H2.
apply: upon_bind (st o1 o0 _ _ H2) _ => c3 H3.
apply: upon_bind (st o1 o1 _ _ H3) _ => c4 H4.
apply: upon_bind (st o1 o2 _ _ H4) _ => c5 H5.
apply: upon_bind (st o2 o0 _ _ H5) _ => c6 H6.
apply: upon_bind (st o2 o1 _ _ H6) _ => c7 H7.
move=> v Hv; have := st o2 o2 _ _ H7 _ Hv; congr rel.
by rewrite /correlation !big_ord_recl !big_ord0 !addr0 !add0r !addrA.
Qed.

Lemma conv2_sim n m A k (X : 'M[R]_(n, m)) (Y : 'M[R]_3) :
  (Z.of_nat n <= 2 ^ 31)%Z -> (Z.of_nat m <= 2 ^ 31)%Z -> relM A X -> relM k Y ->
  upon (conv2 K n m A k) (fun C => relM C (\matrix_(r < n, c < m) correlation X Y (pos r) (pos c))).
Proof.
move=> Hn Hm [f [-> Hf]] [g [-> Hg]]; rewrite conv2_tab //; apply: tabM_sim => i j; rewrite mxE.
exact: corr_sim.
Qed.

Lemma conv2_full_sim n m A k (X : 'M[R]_(n, m)) (Y : 'M[R]_3) :
  (Z.of_nat n <= 2 ^ 31)%Z -> (Z.of_nat m <= 2 ^ 31)%Z -> relM A X -> relM k Y ->
  upon (conv2_full K n m A k)
    (fun C => relM C (\matrix_(r < n + 2, c < m + 2) correlation X Y (pos r - 1)%Z (pos c - 1)%Z)).
Proof.
move=> Hn Hm [f [-> Hf]] [g [-> Hg]]; rewrite conv2_full_tab //; apply: tabM_sim => i j; rewrite mxE.
exact: corr_sim.
Qed.
End Sim.

(** ** small determinants *)
Section SimDet.
Variables (K : scalar) (R : comRingType).
Variables (rel : elt K -> R -> Prop) (relx : xpr K -> R -> Prop).
Hypothesis S : sim rel relx.

Ltac sim_val :=
  lazymatch goal with
  | |- relx (ld _) _ => eapply (sim_ld S); sim_val
  | |- rel (st _) _ => eapply (sim_st S); sim_val
  | |- _ => eassumption
  end.
Ltac sim_op :=
  lazymatch goal with
  | |- upon (xadd _ _) _ => eapply (sim_add S); [sim_val|sim_val]
  | |- upon (xsub _ _) _ => eapply (sim_sub S); [sim_val|sim_val]
  | |- upon (xmul _ _) _ => eapply (sim_mul S); [sim_val|sim_val]
  | |- upon (mul3 _ _ _ _) _ =>
      eapply upon_bind; [sim_op|let v := fresh "w" in let H := fresh "Hw" in intros v H; cbv beta in H; sim_op]
  end.
Ltac sim_run :=
  lazymatch goal with
  | |- upon (bind _ _) _ =>
      eapply upon_bind; [sim_op|let v := fresh "v" in let H := fresh "Hv" in intros v H; cbv beta in H; sim_run]
  | |- _ => idtac
  end.

Lemma det_sim n A (X : 'M[R]_n) : (0 < n <= 3)%N -> relM rel A X ->
  upon (det K n A) (fun d => rel d (\det X)).
Proof.
move=> Hn [f [-> Hf0]].
have Hf i j : (i < n)%N -> (j < n)%N -> rel (f i j) (mxf 0 X i j).
  by move=> Hi Hj; have := Hf0 (Ordinal Hi) (Ordinal Hj); rewrite -(mxf_ord 0).
have -> : \det X = detf n (mxf 0 X).
  by congr (\det _); apply/matrixP => i j; rewrite mxE mxf_ord.
move: (mxf 0 X) Hf => x {Hf0} Hf; case: n X Hn Hf => [|[|[|[|n]]]] X // _ Hf.
- rewrite detf1; apply: upon_ok; exact: Hf.
- have h00 := Hf 0%N 0%N isT isT; have h01 := Hf 0%N 1%N isT isT.
  have h10 := Hf 1%N 0%N isT isT; have h11 := Hf 1%N 1%N isT isT.
  have -> : det K 2 (mk 2 2 f) =
    (let* x := xmul (ld (f 0%N 0%N)) (ld (f 1%N 1%N)) in
     let* y := xmul (ld (f 0%N 1%N)) (ld (f 1%N 0%N)) in
     let* r := xsub x y in Ok (st r)) by [].
  sim_run; apply: upon_ok; rewrite detf2; exact: (sim_st S).
have h00 := Hf 0%N 0%N isT isT; have h01 := Hf 0%N 1%N isT isT; have h02 := Hf 0%N 2%N isT isT.
have h10 := Hf 1%N 0%N isT isT; have h11 := Hf 1%N 1%N isT isT; have h12 := Hf 1%N 2%N isT isT.
have h20 := Hf 2%N 0%N isT isT; have h21 := Hf 2%N 1%N isT isT; have h22 := Hf 2%N 2%N isT isT.
have -> : det K 3 (mk 3 3 f) =
  (let* t1 := mul3 K (ld (f 0%N 0%N)) (ld (f 1%N 1%N)) (ld (f 2%N 2%N)) in
  let* t2 := mul3 K (ld (f 0%N 1%N)) (ld (f 1%N 2%N)) (ld (f 2%N 0%N)) in
  let* r := xadd t1 t2 in
  let* t3 := mul3 K (ld (f 0%N 2%N)) (ld (f 1%N 0%N)) (ld (f 2%N 1%N)) in
  let* r := xadd r t3 in
  let* t4 := mul3 K (ld (f 0%N 2%N)) (ld (f 1%N 1%N)) (ld (f 2%N 0%N)) in
  let* r := xsub r t4 in
  let* t5 := mul3 K (ld (f 0%N 1%N)) (ld (f 1%N 0%N)) (ld (f 2%N 2%N)) in
  let* r := xsub r t5 in
  let* t6 := mul3 K (ld (f 0%N 0%N)) (ld (f 1%N 2%N)) (ld (f 2%N 1%N)) in
  let* r := xsub r t6 in
  Ok (st r)) by [].
sim_run; apply: upon_ok; rewrite detf3; exact: (sim_st S).
Qed.
End SimDet.
