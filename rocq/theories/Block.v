(** * Blocks as element type

    A class that wraps a k x k matrix of the library: [+], [-], [*] are the library's own sum, sub
    and a product of k x k matrices, [a / b] is [a * inv(b)], an integer converts to a multiple of
    eye().  Its product does not commute.  Not code of the repository: a class a user instantiates
    the templates with, to work on a matrix cut into blocks. *)

From Coq Require Import ZArith List Lia.
From mathcomp Require Import all_ssreflect all_algebra.
From mathcomp Require Import zify.
From Verif Require Import Base Scalar Model Spec Loops Struct Preds Alg Exact ExactLemmas Det Inv Param Sim IntMx SimExact BoundedInt.

Set Implicit Arguments.
Unset Strict Implicit.
Unset Printing Implicit Defensive.

Import GRing.Theory.
Local Open Scope ring_scope.
Delimit Scope Z_scope with Z.

(** ** The class *)
Section Class.
Variables (K : scalar) (k : nat).
(** the product of two blocks: the library's [*], or its [strassen] for k = 2 *)
Variable mulb : matrix (elt K) -> matrix (elt K) -> outcome (matrix (elt K)).

Definition blockS : scalar :=
  {| elt := matrix (elt K); xpr := matrix (elt K); epsT := unit; ld := id; st := id;
     lit := fun z => mk k k (fun i j => if Nat.eqb i j then lite K z else lite K 0);
     xadd := sum K k k;
     xsub := sub K k k;
     xmul := mulb;
     xdiv := fun a b => let* c := Model.inv K k b in mulb a c;
     xneg := sub K k k (zeros K k k);
     xeq := mat_eqb K;
     xlt := fun _ _ => false;
     xabs := fun _ => UB BadConversion;
     gteps := fun _ _ => false;
     xsqrt := fun _ => UB BadConversion;
     divsz := fun a n => Model.div K k k a (lite K n) |}.
End Class.

Definition prodS (K : scalar) (k : nat) : scalar := @blockS K k (mult K k k k).

(** the class again over itself, r times, blocks being multiplied by strassen *)
Fixpoint strassenS (K : scalar) (r : nat) : scalar :=
  if r is r'.+1 then @blockS (strassenS K r') 2 (strassen (strassenS K r')) else K.

(** ** Cutting a matrix into blocks *)
Section Cut.
Variable T : Type.

Lemma cut_lt n k (i : 'I_n) (a : 'I_k) : (i * k + a < n * k)%N.
Proof.
apply: leq_trans (_ : i.+1 * k <= _)%N; last by rewrite leq_mul2r ltn_ord orbT.
by rewrite mulSn addnC ltn_add2r.
Qed.
Definition at_ n k (i : 'I_n) (a : 'I_k) : 'I_(n * k) := Ordinal (cut_lt i a).

(** block (i, j) of A *)
Definition cut n m k (A : 'M[T]_(n * k, m * k)) (i : 'I_n) (j : 'I_m) : 'M[T]_k :=
  \matrix_(a, b) A (at_ i a) (at_ j b).

(** the matrix of blocks the class works on *)
Definition blocks n m k (A : 'M[T]_(n * k, m * k)) : matrix (matrix T) :=
  mxrows (\matrix_(i < n, j < m) mxrows (cut A i j)).

Lemma at_surj n k (r : 'I_(n * k)) : exists i a, r = at_ i a.
Proof.
have k0 : (0 < k)%N by case: k r => // -[r]; rewrite muln0.
have Hi : (r %/ k < n)%N by rewrite ltn_divLR.
exists (Ordinal Hi), (Ordinal (ltn_pmod r k0)); apply: val_inj => /=; exact: divn_eq.
Qed.

Lemma cut_inj n m k (A B : 'M[T]_(n * k, m * k)) : (forall i j, cut A i j = cut B i j) -> A = B.
Proof.
move=> H; apply/matrixP => r c; case: (at_surj r) => i [a ->]; case: (at_surj c) => j [b ->].
by have := congr1 (fun M => fun_of_matrix M a b) (H i j); rewrite !mxE.
Qed.
End Cut.

(** the same, r times over, for a matrix of order 2^r *)
Fixpoint order (r : nat) : nat := if r is r'.+1 then (2 * order r')%N else 1%N.
Lemma order2 r : order r = (2 ^ r)%N.
Proof. by elim: r => // r IH; rewrite expnS -IH. Qed.

Fixpoint nest (K : scalar) (r : nat) : 'M[elt K]_(order r) -> elt (strassenS K r) :=
  match r return 'M[elt K]_(order r) -> elt (strassenS K r) with
  | 0%N => fun A : 'M[elt K]_1 => A ord0 ord0
  | r'.+1 => fun A : 'M[elt K]_(2 * order r') => mxrows (\matrix_(i < 2, j < 2) @nest K r' (cut A i j))
  end.
Arguments nest K [r] A.

(** ** Cutting and the operations *)
Section Ring.
Variable R : ringType.

Lemma big_blocks n k (f : 'I_(n * k) -> R) :
  \sum_r f r = \sum_(i < n) \sum_(a < k) f (at_ i a).
Proof.
rewrite pair_bigA /= (reindex (fun p : 'I_n * 'I_k => at_ p.1 p.2)) //.
have inj : injective (fun p : 'I_n * 'I_k => at_ p.1 p.2).
  move=> [i a] [j b] /(congr1 val) /= E.
  have k0 : (0 < k)%N by exact: leq_ltn_trans (ltn_ord a).
  have Ei : val i = val j.
    by have := congr1 (fun x => x %/ k)%N E; rewrite !divnMDl // !divn_small // !addn0.
  have Ea : val a = val b by move/eqP: E; rewrite Ei eqn_add2l => /eqP.
  by congr (_, _); exact: val_inj.
apply: onW_bij; apply: inj_card_bij => //.
by rewrite card_prod !card_ord.
Qed.

Lemma cut_mul n m p k (A : 'M[R]_(n * k, m * k)) (B : 'M[R]_(m * k, p * k)) i j :
  cut (A *m B) i j = \sum_(l < m) cut A i l *m cut B l j.
Proof.
apply/matrixP => a b; rewrite !mxE big_blocks summxE; apply: eq_bigr => l _; rewrite mxE.
by apply: eq_bigr => c _; rewrite !mxE.
Qed.

Lemma cut_add n m k (A B : 'M[R]_(n * k, m * k)) i j : cut (A + B) i j = cut A i j + cut B i j.
Proof. by apply/matrixP => a b; rewrite !mxE. Qed.
Lemma cut_sub n m k (A B : 'M[R]_(n * k, m * k)) i j : cut (A - B) i j = cut A i j - cut B i j.
Proof. by apply/matrixP => a b; rewrite !mxE. Qed.
Lemma cut_tr n m k (A : 'M[R]_(n * k, m * k)) i j : cut A^T i j = (cut A j i)^T.
Proof. by apply/matrixP => a b; rewrite !mxE. Qed.

Lemma at_eq n k (i j : 'I_n) (a b : 'I_k) : (at_ i a == at_ j b) = (i == j) && (a == b).
Proof.
apply/eqP/andP => [/(congr1 val) /= E|[/eqP -> /eqP ->]] //.
have k0 : (0 < k)%N by exact: leq_ltn_trans (ltn_ord a).
have Ei : val i = val j.
  by have := congr1 (fun x => x %/ k)%N E; rewrite !divnMDl // !divn_small // !addn0.
by split; apply/eqP; apply: val_inj => //; move/eqP: E; rewrite Ei eqn_add2l => /eqP.
Qed.

Lemma cut_1 n k (i j : 'I_n) : cut (1%:M : 'M[R]_(n * k)) i j = (i == j)%:R%:M.
Proof.
apply/matrixP => a b; rewrite !mxE at_eq.
by case: (i == j); case: (a == b); rewrite ?mulr1n ?mulr0n.
Qed.
End Ring.

(** ** From the ring of k x k matrices to the class *)
Section Transfer.
Variables (F : fieldType) (lt : F -> F -> bool) (ab : F -> F) (sq : F -> outcome F) (k : nat).
Notation K := (exactS lt ab sq).
Notation R := [unitRingType of 'M[F]_k.+1].
Notation B := (prodS K k.+1).
(** exact arithmetic on the blocks *)
Notation E := (@exactS R (fun _ _ => false) id (fun _ => UB BadConversion)).
Definition isblock (x : R) (a : matrix F) : Prop := a = mxrows (x : 'M[F]_k.+1).
Definition bm n m (X : 'M[R]_(n, m)) : matrix (matrix F) :=
  mxrows (\matrix_(i < n, j < m) mxrows (X i j : 'M[F]_k.+1)).
Definition cutm n m (A : 'M[F]_(n * k.+1, m * k.+1)) : 'M[R]_(n, m) := \matrix_(i, j) cut A i j.

Lemma blocksE n m (A : 'M[F]_(n * k.+1, m * k.+1)) : blocks A = bm (cutm A).
Proof. by rewrite /blocks /bm; congr mxrows; apply/matrixP => i j; rewrite !mxE. Qed.

Lemma mxf_map (T T' : Type) (d : T) (d' : T') n m (g : T -> T') (X : 'M[T]_(n, m)) i j : (i < n)%N -> (j < m)%N ->
  mxf d' (\matrix_(i, j) g (X i j)) i j = g (mxf d X i j).
Proof.
move=> Hi Hj; rewrite -[i]/(val (Ordinal Hi)) -[j]/(val (Ordinal Hj)).
by rewrite !mxf_ord mxE.
Qed.

Lemma bm_rel n m (X : 'M[R]_(n, m)) : mrel isblock (mxrows X) (bm X).
Proof.
rewrite /bm (mxrowsE 0 X) (mxrowsE [::] (\matrix_(i, j) _)); apply: mrel_mk => i j Hi Hj.
by rewrite /isblock -(mxf_map 0 [::] (fun x => mxrows (x : 'M[F]_k.+1))).
Qed.

Lemma rel_bm n m (X : 'M[R]_(n, m)) A : mrel isblock (mxrows X) A -> A = bm X.
Proof.
have Hf (l : list R) l' l'' : Forall2 isblock l l' -> Forall2 isblock l l'' -> l' = l''.
  by move=> H; elim: H l'' => [|x a l0 l0' Hx _ IH] l'' H''; inversion H''; subst => //; rewrite Hx H1; congr cons; exact: IH.
have Hm (l : matrix R) l' l'' : mrel isblock l l' -> mrel isblock l l'' -> l' = l''.
  by move=> H; elim: H l'' => [|x a l0 l0' Hx _ IH] l'' H''; inversion H''; subst => //; rewrite (Hf _ _ _ Hx H1); congr cons; exact: IH.
by move=> H; apply: Hm H (bm_rel X).
Qed.

Lemma run_bm n m (X : 'M[R]_(n, m)) (o : outcome (matrix (elt E))) (o' : outcome (matrix (elt B))) :
  o = Ok (mxrows X) -> refines (mrel isblock) o o' -> o' = Ok (bm X).
Proof. by move=> -> [A [-> H]]; rewrite (rel_bm H). Qed.

Lemma run_block (x : R) (o : outcome (elt E)) (o' : outcome (elt B)) :
  o = Ok x -> refines isblock o o' -> o' = Ok (mxrows (x : 'M[F]_k.+1)).
Proof. by move=> -> [a [-> ->]]. Qed.

Lemma h_lit z : isblock (lit (s := E) z) (lit (s := B) z).
Proof.
rewrite /isblock /=; symmetry; apply: mxrows_mk => i j.
have -> : ring_of_Z R z = (ring_of_Z F z)%:M :> 'M[F]_k.+1.
  by case: z => [|p|p] /=; rewrite ?raddf0 ?raddfN /= ?rmorph_nat.
rewrite mxE -val_eqE eqbE.
by case: (_ == _); rewrite ?mulr1n ?mulr0n.
Qed.

Lemma h_add (x y : R) (a b : matrix F) : isblock x a -> isblock y b ->
  refines isblock (xadd (s := E) x y) (xadd (s := B) a b).
Proof. by move=> -> -> /=; eexists; split; first exact: sum_mx. Qed.
Lemma h_sub (x y : R) (a b : matrix F) : isblock x a -> isblock y b ->
  refines isblock (xsub (s := E) x y) (xsub (s := B) a b).
Proof. by move=> -> -> /=; eexists; split; first exact: sub_mx. Qed.
Lemma h_mul (x y : R) (a b : matrix F) : isblock x a -> isblock y b ->
  refines isblock (xmul (s := E) x y) (xmul (s := B) a b).
Proof. by move=> -> -> /=; eexists; split; first exact: mult_mx. Qed.
Lemma h_neg (x : R) (a : matrix F) : isblock x a ->
  refines isblock (xneg (s := E) x) (xneg (s := B) a).
Proof. by move=> -> /=; eexists; split; first by rewrite zeros_mx sub_mx sub0r. Qed.
Lemma h_div (x y : R) (a b : matrix F) : isblock x a -> isblock y b ->
  refines isblock (xdiv (s := E) x y) (xdiv (s := B) a b).
Proof.
move=> -> ->; rewrite [xdiv _ _]/(exact_div x y) /exact_div; case: ifP => // Uy; eexists; split; last reflexivity.
rewrite [LHS]/(let* c := Model.inv K k.+1 (mxrows (y : 'M[F]_k.+1)) in mult K k.+1 k.+1 k.+1 (mxrows (x : 'M[F]_k.+1)) c).
by rewrite inv_mx //; exact: mult_mx.
Qed.
Lemma h_eq (x y : R) (a b : matrix F) : isblock x a -> isblock y b ->
  xeq (s := E) x y = xeq (s := B) a b.
Proof.
move=> -> -> /=; apply/idP/idP => [/eqP <-|].
  by rewrite (mxrowsE 0); apply/mat_eqb_mk => i j _ _; exact: eqxx.
rewrite (mxrowsE 0 (x : 'M[F]_k.+1)) (mxrowsE 0 (y : 'M[F]_k.+1)) => /mat_eqb_mk H; apply/eqP/matrixP => i j.
by have /= := H i j (elimT ltP (ltn_ord i)) (elimT ltP (ltn_ord j)); rewrite !mxf_ord => /eqP.
Qed.

(** cutting commutes with the arithmetic *)
Lemma cutm_mul n m p (A : 'M[F]_(n * k.+1, m * k.+1)) (C : 'M[F]_(m * k.+1, p * k.+1)) :
  cutm (A *m C) = cutm A *m cutm C.
Proof. by apply/matrixP => i j; rewrite !mxE cut_mul; apply: eq_bigr => l _; rewrite !mxE. Qed.
Lemma cutm_add n m (A C : 'M[F]_(n * k.+1, m * k.+1)) : cutm (A + C) = cutm A + cutm C.
Proof. by apply/matrixP => i j; rewrite !mxE cut_add. Qed.
Lemma cutm_sub n m (A C : 'M[F]_(n * k.+1, m * k.+1)) : cutm (A - C) = cutm A - cutm C.
Proof. by apply/matrixP => i j; rewrite !mxE cut_sub. Qed.
Lemma cutm_1 n : cutm (1%:M : 'M[F]_(n * k.+1)) = 1%:M.
Proof. by apply/matrixP => i j; rewrite !mxE cut_1; case: (i == j); rewrite ?mulr1n ?mulr0n ?raddf0. Qed.
Lemma cutm_pow n (A : 'M[F]_(n * k.+1)) q : cutm (mxpow A q) = mxpow (cutm A) q.
Proof. by elim: q => [|q IH] /=; rewrite ?cutm_1 // cutm_mul IH. Qed.
Lemma cutm_inj n m (A C : 'M[F]_(n * k.+1, m * k.+1)) : cutm A = cutm C -> A = C.
Proof. by move=> H; apply: cut_inj => i j; have := congr1 (fun M => fun_of_matrix M i j) H; rewrite !mxE. Qed.
Lemma bm_inj n m (X Y : 'M[R]_(n, m)) : bm X = bm Y -> X = Y.
Proof.
rewrite /bm => /(@mxrows_inj _ _ _ [::]) H; apply/matrixP => i j.
by have := congr1 (fun M => fun_of_matrix M i j) H; rewrite !mxE => /(@mxrows_inj _ _ _ 0).
Qed.
End Transfer.
