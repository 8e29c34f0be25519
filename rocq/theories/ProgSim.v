(** * What a program computes, in a commutative ring *)

From Coq Require Import ZArith List Lia.
From mathcomp Require Import all_ssreflect all_algebra.
From mathcomp Require Import zify ssrZ.
From Verif Require Import Base Scalar Model CInt Spec Loops Struct Conv Exact ExactLemmas Alg Det ConvExact Pow Sim IntMx Program.

Set Implicit Arguments.
Unset Strict Implicit.
Unset Printing Implicit Defensive.

Import GRing.Theory.
Local Open Scope ring_scope.
Delimit Scope Z_scope with Z.
Local Notation ltP := ssrnat.ltP (only parsing).
Local Notation leP := ssrnat.leP (only parsing).

(** ** the mathematical meaning: matrices over a commutative ring *)
Section Denote.
Variables (rows cols : nat -> nat) (R : comRingType).

(** the values of the variables *)
Record denv := DEnv { dm : forall x, 'M[R]_(rows x, cols x); ds : nat -> R }.

(** the element in row i and column j, 0 outside *)
Notation get X i j := (mxf 0 X i j).

Fixpoint mden (s : denv) n m (e : mexp rows cols n m) : 'M[R]_(n, m) :=
  match e in Program.mexp _ _ n m return 'M[R]_(n, m) with
  | Var x => dm s x
  | Fill n m d => const_mx (sden s d)
  | Zeros n m => 0
  | Eye n => 1%:M
  | Sum n m A B => mden s A + mden s B
  | Sub n m A B => mden s A - mden s B
  | SumS n m A d => mden s A + const_mx (sden s d)
  | SubS n m A d => mden s A - const_mx (sden s d)
  | MultS n m A d => sden s d *: mden s A
  | Mult n m p A B => mden s A *m mden s B
  | Strassen A B => mden s A *m mden s B
  | Trans n m A => (mden s A)^T
  | Pow n w q A => mxpow (mden s A) q
  | Over n n' m A B => col_mx (mden s A) (mden s B)
  | Beside n m m' A B => row_mx (mden s A) (mden s B)
  | Minor n A i j => \matrix_(a, b) get (mden s A) (bump i a) (bump j b)
  | Conv n m A k => octave_same (mden s A) (rot180 (mden s k))
  | ConvFull n m A k => octave_full (mden s A) (rot180 (mden s k))
  end
with sden (s : denv) (e : sexp rows cols) : R :=
  match e with
  | SVar x => ds s x
  | Elem n m A i j => get (mden s A) i j
  | Det n _ A => \det (mden s A)
  end.

Definition dset (f : forall x, 'M[R]_(rows x, cols x)) x (X : 'M[R]_(rows x, cols x)) y : 'M[R]_(rows y, cols y) :=
  match Nat.eq_dec x y with
  | left E => eq_rect x (fun z => 'M[R]_(rows z, cols z)) X y E
  | right _ => f y
  end.

(** index i when a and b change places *)
Definition other (a b i : nat) : nat := if i == a then b else if i == b then a else i.

Fixpoint pden (p : prog rows cols) (s : denv) : denv :=
  match p with
  | Skip => s
  | Assign x e => DEnv (dset (dm s) (mden s e)) (ds s)
  | AssignS x e => DEnv (dm s) (upd (ds s) x (sden s e))
  | SwapRows x a b => DEnv (@dset (dm s) x (\matrix_(i, j) get (dm s x) (other a b i) j)) (ds s)
  | SwapCols x a b => DEnv (@dset (dm s) x (\matrix_(i, j) get (dm s x) i (other a b j))) (ds s)
  | Seq p q => pden q (pden p s)
  | Loop k p => ssrnat.iter k (pden p) s
  end.

Lemma dset_same f x X : @dset f x X x = X.
Proof.
  rewrite /dset; case: Nat.eq_dec => // E.
  by rewrite (Eqdep_dec.UIP_refl_nat _ E).
Qed.
Lemma dset_other f x X y : x <> y -> @dset f x X y = f y.
Proof. by rewrite /dset; case: Nat.eq_dec. Qed.
End Denote.

(** ** an element type that follows the ring *)
Section Sim.
Variables (K : scalar) (R : comRingType).
Variables (rel : elt K -> R -> Prop) (relx : xpr K -> R -> Prop).
Hypothesis S : sim rel relx.
(** [tot]: the operations of the element type always return *)
Variable tot : Prop.
Hypothesis Hadd : tot -> forall a b : xpr K, returns (xadd a b).
Hypothesis Hsub : tot -> forall a b : xpr K, returns (xsub a b).
Hypothesis Hmul : tot -> forall a b : xpr K, returns (xmul a b).
Variables rows cols : nat -> nat.

Definition esim (s : env (elt K)) (d : denv rows cols R) : Prop :=
  (forall x, relM rel (mvar s x) (dm d x)) /\ (forall x, rel (svar s x) (ds d x)).

Definition good (A : Type) (o : outcome A) (P : A -> Prop) : Prop :=
  (tot -> returns o) /\ upon o P.

Lemma good_bind A B (o : outcome A) (k : A -> outcome B) (P : A -> Prop) (Q : B -> Prop) :
  good o P -> (forall a, P a -> good (k a) Q) -> good (bind o k) Q.
Proof.
  move=> [H1 H2] H3; split.
    by move=> t; have [a E] := H1 t; rewrite E /=; apply: (proj1 (H3 a (H2 a E))).
  by apply: upon_bind H2 _ => a Pa; apply: (proj2 (H3 a Pa)).
Qed.

Lemma good_ok A (a : A) (P : A -> Prop) : P a -> good (Ok a) P.
Proof. by move=> H; split; [exists a | apply: upon_ok]. Qed.

Lemma relM_get n m (X : 'M[R]_(n, m)) (f : nat -> nat -> elt K) : (forall (i : 'I_n) (j : 'I_m), rel (f i j) (X i j)) ->
  forall i j, (i < n)%N -> (j < m)%N -> rel (f i j) (mxf 0 X i j).
Proof. by move=> H i j Hi Hj; have := H (Ordinal Hi) (Ordinal Hj); rewrite -(mxf_ord 0 X). Qed.

Lemma eval_good s d : esim s d ->
  (forall n m (e : mexp rows cols n m), mfits e -> good (meval K s e) (fun C => relM rel C (mden d e))) /\
  (forall e : sexp rows cols, sfits e -> good (seval K s e) (fun v => rel v (sden d e))).
Proof.
  move=> [Hm Hs]; apply: (exp_ind rows cols (fun n m e => mfits e -> good (meval K s e) (fun C => relM rel C (mden d e)))
    (fun e => sfits e -> good (seval K s e) (fun v => rel v (sden d e)))).
  - by move=> x _; apply: (@good_ok _ _ (fun C => relM rel C (dm d x))); exact: Hm.
  - move=> n m e IH /IH He; rewrite meval_Fill; apply: (good_bind He) => v Hv; apply: good_ok.
    by exists (fun _ _ => v); split; [rewrite fill_mk | move=> i j; rewrite mxE].
  - move=> n m _; apply: good_ok; exists (fun _ _ => lite K 0); split; first by rewrite zeros_mk.
    by move=> i j; rewrite mxE; exact: (sim_lite0 S).
  - move=> n _; rewrite meval_Eye; split; last exact: (eye1_sim S).
    by move=> _; rewrite eye1_mk; eexists.
  - move=> n m A IA B IB [/IA HA /IB HB]; rewrite meval_Sum; apply: (good_bind HA) => a Ha; apply: (good_bind HB) => b Hb.
    split; last exact: (sum_sim S).
    by case: Ha Hb => f [-> _] [g [-> _]] t; apply: returns_sum; auto.
  - move=> n m A IA B IB [/IA HA /IB HB]; rewrite meval_Sub; apply: (good_bind HA) => a Ha; apply: (good_bind HB) => b Hb.
    split; last exact: (sub_sim S).
    by case: Ha Hb => f [-> _] [g [-> _]] t; apply: returns_sub; auto.
  - move=> n m A IA e IE [/IA HA /IE HE]; rewrite meval_SumS; apply: (good_bind HA) => a Ha; apply: (good_bind HE) => v Hv.
    split; last exact: (sum_scalar_sim S).
    by case: Ha => f [-> _] t; apply: returns_sum_scalar; auto.
  - move=> n m A IA e IE [/IA HA /IE HE]; rewrite meval_SubS; apply: (good_bind HA) => a Ha; apply: (good_bind HE) => v Hv.
    split; last exact: (sub_scalar_sim S).
    by case: Ha => f [-> _] t; apply: returns_sub_scalar; auto.
  - move=> n m A IA e IE [/IA HA /IE HE]; rewrite meval_MultS; apply: (good_bind HA) => a Ha; apply: (good_bind HE) => v Hv.
    split; first by case: Ha => f [-> _] t; apply: returns_mult_scalar; auto.
    move=> C HC; have := mult_scalar_sim S Ha Hv HC; congr relM.
    by apply/matrixP => i j; rewrite !mxE mulrC.
  - move=> n m p A IA B IB [/IA HA /IB HB]; rewrite meval_Mult; apply: (good_bind HA) => a Ha; apply: (good_bind HB) => b Hb.
    split; last exact: (mult_sim S).
    by case: Ha Hb => f [-> _] [g [-> _]] t; apply: returns_mult; auto.
  - move=> A IA B IB [/IA HA /IB HB]; rewrite meval_Strassen; apply: (good_bind HA) => a Ha; apply: (good_bind HB) => b Hb.
    split; last exact: (strassen_sim S).
    by case: Ha Hb => f [-> _] [g [-> _]] t; apply: returns_strassen; auto.
  - move=> n m A IA /IA HA; rewrite meval_Trans; apply: (good_bind HA) => a Ha.
    split; last exact: trans_sim.
    by case: Ha => f [-> _] t; rewrite trans_mk; eexists.
  - move=> n w q A IA [Hq /IA HA]; rewrite meval_Pow; apply: (good_bind HA) => a Ha.
    split; last exact: (pow_sim S).
    by case: Ha => f [-> _] t; apply: returns_pow; auto.
  - move=> n n' m A IA B IB [/IA HA /IB HB]; rewrite meval_Over; apply: (good_bind HA) => a Ha; apply: (good_bind HB) => b Hb.
    case: Ha Hb => f [-> Hf] [g [-> Hg]]; rewrite concatenate_v_mk; apply: good_ok; eexists; split; first by [].
    move=> i j; rewrite /vcat /= mxE; case: splitP => k ->.
    + by case: (Nat.ltb_spec k n) => [_|H] //; have := ltn_ord k; lia.
    + case: (Nat.ltb_spec (n + k) n) => [H|_]; first lia.
      by have -> : (n + k - n)%coq_nat = k by lia.
  - move=> n m m' A IA B IB [/IA HA /IB HB]; rewrite meval_Beside; apply: (good_bind HA) => a Ha; apply: (good_bind HB) => b Hb.
    case: Ha Hb => f [-> Hf] [g [-> Hg]]; rewrite concatenate_h_mk; apply: good_ok; eexists; split; first by [].
    move=> i j; rewrite /hcat /= mxE; case: splitP => k ->.
    + by case: (Nat.ltb_spec k m) => [_|H] //; have := ltn_ord k; lia.
    + case: (Nat.ltb_spec (m + k) m) => [H|_]; first lia.
      by have -> : (m + k - m)%coq_nat = k by lia.
  - move=> n A IA i j [[Hi Hj] /IA HA]; rewrite meval_Minor; apply: (good_bind HA) => a [f [E Hf]].
    rewrite E getminor_mk //; apply: good_ok; eexists; split; first by [].
    have B x (y : 'I_(n - 1)) : skip x y = bump x y.
      by rewrite /skip /bump; case: Nat.ltb_spec => H1; case: leqP => H2; lia.
    move=> k l; rewrite mxE !B.
    apply: (relM_get Hf); rewrite /bump; have := ltn_ord k; have := ltn_ord l; lia.
  - move=> n m A IA k IK [[Hn Hm'] [/IA HA /IK HK]]; rewrite meval_Conv; apply: (good_bind HA) => a Ha; apply: (good_bind HK) => b Hb.
    split; first by case: Ha Hb => f [-> _] [g [-> _]] t; apply: returns_conv2; auto.
    move=> C HC; have := conv2_sim S Hn Hm' Ha Hb HC; congr relM.
    by apply/matrixP => i j; rewrite !mxE octave_correlation.
  - move=> n m A IA k IK [[Hn Hm'] [/IA HA /IK HK]]; rewrite meval_ConvFull; apply: (good_bind HA) => a Ha; apply: (good_bind HK) => b Hb.
    split; first by case: Ha Hb => f [-> _] [g [-> _]] t; apply: returns_conv2_full; auto.
    move=> C HC; have := conv2_full_sim S Hn Hm' Ha Hb HC; congr relM.
    by apply/matrixP => i j; rewrite !mxE octave_correlation; congr octave; lia.
  - by move=> x _; apply: (@good_ok _ _ (fun v => rel v (ds d x))); exact: Hs.
  - move=> n m A IA i j [[/ltP Hi /ltP Hj] /IA HA]; rewrite seval_Elem; apply: (good_bind HA) => a [f [E Hf]].
    rewrite E aget_mk; [|exact/ltP|exact/ltP]; apply: good_ok; exact: (relM_get Hf).
  - move=> n Hn A IA /IA HA; rewrite seval_Det; apply: (good_bind HA) => a Ha.
    have Hn' : (0 < n <= 3)%N by lia.
    split; last exact: (det_sim S).
    by case: Ha => f [-> _] t; apply: returns_det; auto.
Qed.

Lemma dset_sim s d x v (X : 'M[R]_(rows x, cols x)) : (forall y, relM rel (s y) (d y)) -> relM rel v X ->
  forall y, relM rel (upd s x v y) (dset d X y).
Proof.
  move=> H Hv y; rewrite /upd; case: (Nat.eqb_spec y x) => [-> | N]; first by rewrite dset_same.
  by rewrite dset_other //; apply: nesym.
Qed.

Lemma run_good (p : prog rows cols) : fits p -> forall s d, esim s d -> good (run K p s) (fun t => esim t (pden p d)).
Proof.
  elim: p => [|x e|x e|x a b|x a b|p IHp q IHq|k p IHp] /=.
  - by move=> _ s d H; exact: good_ok.
  - move=> Hf s d H; have [E _] := eval_good H; apply: (good_bind (E _ _ e Hf)) => v Hv; apply: good_ok.
    by case: H => H1 H2; split=> //= y; exact: dset_sim.
  - move=> Hf s d H; have [_ E] := eval_good H; apply: (good_bind (E e Hf)) => v Hv; apply: good_ok.
    by case: H => H1 H2; split=> //= y; rewrite /upd; case: (Nat.eqb_spec y x).
  - move=> [Ha Hb] s d H; case: (H) => H1 H2; have [f [E Hf]] := H1 x.
    rewrite E swap_rows_mk //=; apply: good_ok; split=> //= y; apply: dset_sim => //.
    eexists; split; first by []; move=> i j; rewrite mxE.
    have -> : (if (i =? a)%nat then f b j else if (i =? b)%nat then f a j else f i j) = f (other a b i) j.
      by rewrite /other !eqbE; case: ifP => //; case: ifP.
    by have := ltn_ord i; have := ltn_ord j; move=> Lj Li; apply: (relM_get Hf) => //; rewrite /other; case: ifP; [lia | case: ifP; lia].
  - move=> [Ha Hb] s d H; case: (H) => H1 H2; have [f [E Hf]] := H1 x.
    rewrite E swap_cols_mk //=; apply: good_ok; split=> //= y; apply: dset_sim => //.
    eexists; split; first by []; move=> i j; rewrite mxE.
    have -> : (if (j =? a)%nat then f i b else if (j =? b)%nat then f i a else f i j) = f i (other a b j).
      by rewrite /other !eqbE; case: ifP => //; case: ifP.
    by have := ltn_ord i; have := ltn_ord j; move=> Lj Li; apply: (relM_get Hf) => //; rewrite /other; case: ifP; [lia | case: ifP; lia].
  - move=> [Hp Hq] s d H; apply: (good_bind (IHp Hp s d H)) => t Ht; exact: IHq.
  - move=> Hp; elim: k => [|k IH] s d H /=; first exact: good_ok.
    apply: (good_bind (IHp Hp s d H)) => t Ht; rewrite -iterS iterSr; exact: IH.
Qed.
End Sim.
