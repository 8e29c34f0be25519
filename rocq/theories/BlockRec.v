(** * strassen on blocks of blocks *)

From Coq Require Import ZArith List Lia.
From mathcomp Require Import all_ssreflect all_algebra.
From mathcomp Require Import zify.
From Verif Require Import Base Scalar Model Spec Loops Struct Preds Alg Exact ExactLemmas Param Sim BoundedInt Block.

Set Implicit Arguments.
Unset Strict Implicit.
Unset Printing Implicit Defensive.

Import GRing.Theory.
Local Open Scope ring_scope.
Delimit Scope Z_scope with Z.

Section Rec.
Variables (R : unitRingType) (lt : R -> R -> bool) (ab : R -> R) (sq : R -> outcome R).
Notation K := (exactS lt ab sq).
Notation N := (strassenS K).

(** d x d matrices as elements *)
Definition mxS (d : nat) : scalar :=
  {| elt := 'M[R]_d; xpr := 'M[R]_d; epsT := unit; ld := id; st := id;
     lit := fun z => (ring_of_Z R z)%:M;
     xadd := fun x y => Ok (x + y); xsub := fun x y => Ok (x - y); xmul := fun x y => Ok (x *m y);
     xdiv := fun _ _ => UB BadConversion; xneg := fun x => Ok (- x);
     xeq := fun _ _ => false; xlt := fun _ _ => false; xabs := fun x => Ok x;
     gteps := fun _ _ => false; xsqrt := fun _ => UB BadConversion; divsz := fun _ _ => UB BadConversion |}.

Lemma d_sum d n m (X Y : 'M['M[R]_d]_(n, m)) : sum (mxS d) n m (mxrows X) (mxrows Y) = Ok (mxrows (X + Y)).
Proof. by rewrite (mxrowsE 0 X) (mxrowsE 0 Y) sum_tab; apply: tabM_mx => i j; rewrite !mxf_ord mxE. Qed.
Lemma d_sub d n m (X Y : 'M['M[R]_d]_(n, m)) : sub (mxS d) n m (mxrows X) (mxrows Y) = Ok (mxrows (X - Y)).
Proof. by rewrite (mxrowsE 0 X) (mxrowsE 0 Y) sub_tab; apply: tabM_mx => i j; rewrite !mxf_ord !mxE. Qed.

Lemma d_identities d (a b c e a' b' c' e' : 'M[R]_d) :
  [/\ (a + e) *m (a' + e') + e *m (c' - a') - (a + b) *m e' + (b - e) *m (c' + e') = a *m a' + b *m c',
      a *m (b' - e') + (a + b) *m e' = a *m b' + b *m e',
      (c + e) *m a' + e *m (c' - a') = c *m a' + e *m c' &
      a *m (b' - e') + (a + e) *m (a' + e') - ((c + e) *m a' + (a - c) *m (a' + b')) = c *m b' + e *m e'].
Proof.
case: d a b c e a' b' c' e' => [|d] a b c e a' b' c' e'.
  by split; apply/matrixP => -[].
split; [exact: (st00 a b e a' c' e')|exact: (st01 a b b' e')|exact: (st10 c e a' c')|exact: (st11 a c e a' b' e')].
Qed.

Lemma mxrows22 (T : Type) (X : 'M[T]_2) :
  mxrows X = [:: [:: X ord0 ord0; X ord0 ord_max]; [:: X ord_max ord0; X ord_max ord_max]].
Proof.
rewrite /mxrows; have -> : enum 'I_2 = [:: ord0; ord_max].
  by apply: (inj_map val_inj); rewrite val_enum_ord.
by [].
Qed.

Lemma d_strassen d (X Y : 'M['M[R]_d]_2) :
  strassen (mxS d) (mxrows X) (mxrows Y) =
  Ok (mxrows (\matrix_(i < 2, j < 2) \sum_(l < 2) X i l *m Y l j)).
Proof.
rewrite !mxrows22 !mxE !big_ord_recl !big_ord0 !addr0.
have -> : lift ord0 ord0 = ord_max :> 'I_2 by apply: val_inj.
case: (d_identities (X ord0 ord0) (X ord0 ord_max) (X ord_max ord0) (X ord_max ord_max)
        (Y ord0 ord0) (Y ord0 ord_max) (Y ord_max ord0) (Y ord_max ord_max)) => <- <- <- <-.
by [].
Qed.

(** the expressions built from the elements *)
Definition nestx r : 'M[R]_(order r) -> xpr (N r) :=
  match r return 'M[R]_(order r) -> xpr (N r) with
  | 0%N => fun A => @nest K 0 A
  | r'.+1 => fun A => @nest K r'.+1 A
  end.
Definition rel r (X : 'M[R]_(order r)) (a : elt (N r)) : Prop := a = nest K X.
Definition relx r (X : 'M[R]_(order r)) (v : xpr (N r)) : Prop := v = nestx X.

Lemma rel_ld r (X : elt (mxS (order r))) a : rel X a -> relx (ld X) (ld a).
Proof. by case: r X a => [|r] X a ->. Qed.
Lemma rel_st r (X : xpr (mxS (order r))) a : relx X a -> rel (st X) (st a).
Proof. by case: r X a => [|r] X a ->. Qed.

Lemma nest_mrel r (X : 'M['M[R]_(order r)]_2) :
  mrel (@rel r) (mxrows X) (mxrows (\matrix_(i < 2, j < 2) nest K (X i j))).
Proof. by rewrite !mxrows22 !mxE; repeat constructor. Qed.

Lemma mrel_nest r (X : 'M['M[R]_(order r)]_2) A : mrel (@rel r) (mxrows X) A ->
  A = mxrows (\matrix_(i < 2, j < 2) nest K (X i j)).
Proof.
rewrite !mxrows22 !mxE => H.
inversion H as [|? r0 ? A1 H0 H1]; subst; inversion H1 as [|? r1 ? A2 H2 H3]; subst; inversion H3; subst.
inversion H0 as [|? a ? ? Ha H4]; subst; inversion H4 as [|? b ? ? Hb H5]; subst; inversion H5; subst.
inversion H2 as [|? c ? ? Hc H6]; subst; inversion H6 as [|? e ? ? He H7]; subst; inversion H7; subst.
by rewrite Ha Hb Hc He.
Qed.

Definition good r : Prop :=
  [/\ relx 0 (lit (s := N r) 0),
      forall X Y, xadd (s := N r) (nestx X) (nestx Y) = Ok (nestx (X + Y)),
      forall X Y, xsub (s := N r) (nestx X) (nestx Y) = Ok (nestx (X - Y)) &
      forall X Y, xmul (s := N r) (nestx X) (nestx Y) = Ok (nestx (X *m Y))].

Lemma good_all r : good r.
Proof.
elim: r => [|r [I0 Ia Is Im]].
  split=> //; first by rewrite /relx /= mxE.
  - by move=> X Y /=; rewrite mxE.
  - by move=> X Y /=; rewrite !mxE.
  - by move=> X Y /=; rewrite mxE big_ord_recl big_ord0 addr0.
have H0 : relx (lit (s := mxS (order r)) 0) (lit (s := N r) 0) by rewrite /= raddf0.
have Ha (x : xpr (mxS (order r))) (a : xpr (N r)) (y : xpr (mxS (order r))) (b : xpr (N r)) : relx x a -> relx y b -> refines (@relx r) (xadd x y) (xadd a b).
  by move=> -> -> /=; rewrite Ia; eexists; split.
have Hs (x : xpr (mxS (order r))) (a : xpr (N r)) (y : xpr (mxS (order r))) (b : xpr (N r)) : relx x a -> relx y b -> refines (@relx r) (xsub x y) (xsub a b).
  by move=> -> -> /=; rewrite Is; eexists; split.
have Hm (x : xpr (mxS (order r))) (a : xpr (N r)) (y : xpr (mxS (order r))) (b : xpr (N r)) : relx x a -> relx y b -> refines (@relx r) (xmul x y) (xmul a b).
  by move=> -> -> /=; rewrite Im; eexists; split.
pose cm (A : 'M[R]_(2 * order r)) : 'M['M[R]_(order r)]_2 := \matrix_(i, j) cut A i j.
have nE A : @nestx r.+1 A = mxrows (\matrix_(i < 2, j < 2) nest K (cm A i j)).
  by rewrite /=; congr mxrows; apply/matrixP => i j; rewrite !mxE.
have fin (X : 'M['M[R]_(order r)]_2) (A : 'M[R]_(2 * order r)) o o' :
  o = Ok (mxrows X) -> X = cm A -> refines (mrel (@rel r)) o o' -> o' = Ok (@nestx r.+1 A).
  by move=> -> -> [C [-> /mrel_nest ->]]; rewrite nE.
split.
- rewrite /relx nE; symmetry; apply: mxrows_mk => i j; rewrite !mxE.
  have -> : cut (0 : 'M[R]_(2 * order r)) i j = 0 by apply/matrixP => a b; rewrite !mxE.
  have E0 : lite (N r) 0 = nest K (0 : 'M[R]_(order r)) by apply: rel_st (I0).
  by rewrite E0; case: (Nat.eqb _ _).
- move=> X Y; rewrite (nE X) (nE Y) -[LHS]/(sum (N r) 2 2 _ _).
  apply: (fin _ _ _ _ (d_sum (cm X) (cm Y))); last exact: (@sum_ref (mxS (order r)) (N r) (@rel r) (@relx r) (@rel_ld r) (@rel_st r) H0 Ha 2 2 _ _ _ _ (nest_mrel (cm X)) (nest_mrel (cm Y))).
  by apply/matrixP => i j; rewrite !mxE cut_add.
- move=> X Y; rewrite (nE X) (nE Y) -[LHS]/(sub (N r) 2 2 _ _).
  apply: (fin _ _ _ _ (d_sub (cm X) (cm Y))); last exact: (@sub_ref (mxS (order r)) (N r) (@rel r) (@relx r) (@rel_ld r) (@rel_st r) H0 Hs 2 2 _ _ _ _ (nest_mrel (cm X)) (nest_mrel (cm Y))).
  by apply/matrixP => i j; rewrite !mxE cut_sub.
- move=> X Y; rewrite (nE X) (nE Y) -[LHS]/(strassen (N r) _ _).
  apply: (fin _ _ _ _ (d_strassen (cm X) (cm Y))); last exact: (@strassen_ref (mxS (order r)) (N r) (@rel r) (@relx r) (@rel_ld r) (@rel_st r) H0 Ha Hm Hs _ _ _ _ (nest_mrel (cm X)) (nest_mrel (cm Y))).
  by apply/matrixP => i j; rewrite !mxE cut_mul; apply: eq_bigr => l _; rewrite !mxE.
Qed.

Lemma strassen_nest r (A B : 'M[R]_(order r.+1)) :
  strassen (N r) (@nest K r.+1 A) (@nest K r.+1 B) = Ok (@nest K r.+1 (A *m B)).
Proof. by case: (good_all r.+1) => _ _ _ /(_ A B). Qed.
End Rec.
