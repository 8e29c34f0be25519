(** * Programs that use the library

    A caller's program is a sequence of statements over matrix and scalar variables.
    A variable has the dimensions its C++ type declares.  The right-hand sides are
    nested calls of the functions that use no division: they compile for every element
    type.  The call expressions carry the template arguments C++ deduces.

    Evaluation of an operand has no effect, so the order in which C++ evaluates the
    operands of a call does not matter. *)

From Coq Require Import ZArith Lia Bool List Arith.
From Verif Require Import Base Scalar Model Param.

Local Open Scope nat_scope.

Section Syntax.
(** the declared dimensions of matrix variable x *)
Variables rows cols : nat -> nat.

Inductive mexp : nat -> nat -> Type :=
| Var (x : nat) : mexp (rows x) (cols x)
| Fill n m (s : sexp) : mexp n m                     (* fill<n,m>(s), matrix_fill.hpp *)
| Zeros n m : mexp n m                               (* zeros<n,m>() *)
| Eye n : mexp n n                                   (* eye<n>() *)
| Sum n m (A B : mexp n m) : mexp n m                (* A + B, sum(A, B) *)
| Sub n m (A B : mexp n m) : mexp n m                (* A - B, sub(A, B) *)
| SumS n m (A : mexp n m) (s : sexp) : mexp n m      (* A + s, s + A *)
| SubS n m (A : mexp n m) (s : sexp) : mexp n m      (* A - s *)
| MultS n m (A : mexp n m) (s : sexp) : mexp n m     (* A * s, s * A *)
| Mult n m p (A : mexp n m) (B : mexp m p) : mexp n p (* A * B, mult(A, B) *)
| Strassen (A B : mexp 2 2) : mexp 2 2
| Trans n m (A : mexp n m) : mexp m n
| Pow n (w : Z) (q : nat) (A : mexp n n) : mexp n n  (* pow(A, q), q of a w-bit type *)
| Over n n' m (A : mexp n m) (B : mexp n' m) : mexp (n + n') m   (* concatenate(A, B), matrix_concatenate.hpp *)
| Beside n m m' (A : mexp n m) (B : mexp n m') : mexp n (m + m') (* the horizontal one *)
| Minor n (A : mexp n n) (i j : nat) : mexp (n - 1) (n - 1)      (* getminor *)
| Conv n m (A : mexp n m) (k : mexp 3 3) : mexp n m              (* conv2 *)
| ConvFull n m (A : mexp n m) (k : mexp 3 3) : mexp (n + 2) (m + 2)
with sexp : Type :=
| SVar (x : nat) : sexp
| Elem n m (A : mexp n m) (i j : nat) : sexp         (* A[i][j] *)
| Det n (Hn : 0 < n <= 3) (A : mexp n n) : sexp.     (* det(A) *)

Scheme mexp_ind2 := Induction for mexp Sort Prop
with sexp_ind2 := Induction for sexp Sort Prop.
Combined Scheme exp_ind from mexp_ind2, sexp_ind2.

Inductive prog : Type :=
| Skip
| Assign (x : nat) (e : mexp (rows x) (cols x))      (* X = e; e may mention X *)
| AssignS (x : nat) (e : sexp)
| SwapRows (x : nat) (a b : nat)                     (* swap_rows(X, a, b) changes X *)
| SwapCols (x : nat) (a b : nat)
| Seq (p q : prog)
| Loop (k : nat) (p : prog).                         (* for (i = 0; i < k; ++i) { p } *)

(** the sizes and subscripts for which the calls are meaningful *)
Fixpoint mfits n m (e : mexp n m) : Prop :=
  match e with
  | Var _ | Zeros _ _ | Eye _ => True
  | Fill _ _ s => sfits s
  | Sum _ _ A B | Sub _ _ A B => mfits _ _ A /\ mfits _ _ B
  | SumS _ _ A s | SubS _ _ A s | MultS _ _ A s => mfits _ _ A /\ sfits s
  | Mult _ _ _ A B => mfits _ _ A /\ mfits _ _ B
  | Strassen A B => mfits _ _ A /\ mfits _ _ B
  | Trans _ _ A => mfits _ _ A
  | Pow _ w q A => (Z.of_nat q < 2 ^ Z.max w 32)%Z /\ mfits _ _ A
  | Over _ _ _ A B => mfits _ _ A /\ mfits _ _ B
  | Beside _ _ _ A B => mfits _ _ A /\ mfits _ _ B
  | Minor n A i j => (i < n /\ j < n) /\ mfits _ _ A
  | Conv n m A k | ConvFull n m A k =>
      (Z.of_nat n <= 2 ^ 31 /\ Z.of_nat m <= 2 ^ 31)%Z /\ mfits _ _ A /\ mfits _ _ k
  end
with sfits (s : sexp) : Prop :=
  match s with
  | SVar _ => True
  | Elem n m A i j => (i < n /\ j < m) /\ mfits _ _ A
  | Det _ _ A => mfits _ _ A
  end.

Fixpoint fits (p : prog) : Prop :=
  match p with
  | Skip => True
  | Assign _ e => mfits _ _ e
  | AssignS _ e => sfits e
  | SwapRows x a b => a < rows x /\ b < rows x
  | SwapCols x a b => a < cols x /\ b < cols x
  | Seq p q => fits p /\ fits q
  | Loop _ p => fits p
  end.
End Syntax.

Arguments Var {rows cols} x.
Arguments Fill {rows cols} n m s.
Arguments Zeros {rows cols} n m.
Arguments Eye {rows cols} n.
Arguments Sum {rows cols n m} A B.
Arguments Sub {rows cols n m} A B.
Arguments SumS {rows cols n m} A s.
Arguments SubS {rows cols n m} A s.
Arguments MultS {rows cols n m} A s.
Arguments Mult {rows cols n m p} A B.
Arguments Strassen {rows cols} A B.
Arguments Trans {rows cols n m} A.
Arguments Pow {rows cols n} w q A.
Arguments Over {rows cols n n' m} A B.
Arguments Beside {rows cols n m m'} A B.
Arguments Minor {rows cols n} A i j.
Arguments Conv {rows cols n m} A k.
Arguments ConvFull {rows cols n m} A k.
Arguments SVar {rows cols} x.
Arguments Elem {rows cols n m} A i j.
Arguments Det {rows cols n} Hn A.
Arguments Skip {rows cols}.
Arguments Assign {rows cols} x e.
Arguments AssignS {rows cols} x e.
Arguments SwapRows {rows cols} x a b.
Arguments SwapCols {rows cols} x a b.
Arguments Seq {rows cols} p q.
Arguments Loop {rows cols} k p.
Arguments mfits {rows cols n m} e.
Arguments sfits {rows cols} s.
Arguments fits {rows cols} p.

(** the values of the variables *)
Record env (T : Type) := Env { mvar : nat -> matrix T; svar : nat -> T }.
Arguments Env {T} mvar svar.
Arguments mvar {T} e x.
Arguments svar {T} e x.

Definition upd {A : Type} (f : nat -> A) (x : nat) (v : A) : nat -> A :=
  fun y => if y =? x then v else f y.

Section Run.
Context (K : scalar) {rows cols : nat -> nat}.
Notation T := (elt K).

Fixpoint meval (s : env T) {n m} (e : mexp rows cols n m) : outcome (matrix T) :=
  match e with
  | Var x => Ok (mvar s x)
  | Fill n m d => let* v := seval s d in Ok (fill K n m v)
  | Zeros n m => Ok (zeros K n m)
  | Eye n => eye1 K n
  | @Sum _ _ n m A B => let* a := meval s A in let* b := meval s B in sum K n m a b
  | @Sub _ _ n m A B => let* a := meval s A in let* b := meval s B in sub K n m a b
  | @SumS _ _ n m A d => let* a := meval s A in let* v := seval s d in sum_scalar K n m a v
  | @SubS _ _ n m A d => let* a := meval s A in let* v := seval s d in sub_scalar K n m a v
  | @MultS _ _ n m A d => let* a := meval s A in let* v := seval s d in mult_scalar K n m a v
  | @Mult _ _ n m p A B => let* a := meval s A in let* b := meval s B in mult K n m p a b
  | Strassen A B => let* a := meval s A in let* b := meval s B in strassen K a b
  | @Trans _ _ n m A => let* a := meval s A in trans K n m a
  | @Pow _ _ n w q A => let* a := meval s A in pow K n w a (Z.of_nat q)
  | @Over _ _ n n' m A B => let* a := meval s A in let* b := meval s B in concatenate_v K n n' m a b
  | @Beside _ _ n m m' A B => let* a := meval s A in let* b := meval s B in concatenate_h K n m m' a b
  | @Minor _ _ n A i j => let* a := meval s A in getminor K n a i j
  | @Conv _ _ n m A k => let* a := meval s A in let* b := meval s k in conv2 K n m a b
  | @ConvFull _ _ n m A k => let* a := meval s A in let* b := meval s k in conv2_full K n m a b
  end
with seval (s : env T) (e : sexp rows cols) : outcome T :=
  match e with
  | SVar x => Ok (svar s x)
  | Elem A i j => let* a := meval s A in aget a i j
  | @Det _ _ n _ A => let* a := meval s A in det K n a
  end.

Fixpoint repeat {S : Type} (k : nat) (step : S -> outcome S) (s : S) : outcome S :=
  match k with 0 => Ok s | S k => let* s := step s in repeat k step s end.

Fixpoint run (p : prog rows cols) (s : env T) : outcome (env T) :=
  match p with
  | Skip => Ok s
  | Assign x e => let* v := meval s e in Ok (Env (upd (mvar s) x v) (svar s))
  | AssignS x e => let* v := seval s e in Ok (Env (mvar s) (upd (svar s) x v))
  | SwapRows x a b => let* v := swap_rows K (rows x) (cols x) (mvar s x) a b in Ok (Env (upd (mvar s) x v) (svar s))
  | SwapCols x a b => let* v := swap_cols K (rows x) (cols x) (mvar s x) a b in Ok (Env (upd (mvar s) x v) (svar s))
  | Seq p q => let* s := run p s in run q s
  | Loop k p => repeat k (run p) s
  end.
End Run.
Arguments meval K {rows cols} s {n m} e.
Arguments seval K {rows cols} s e.
Arguments run K {rows cols} p s.


(** the equations of evaluation *)
Section Equations.
Context (K : scalar) {rows cols : nat -> nat} (s : env (elt K)).
Notation mexp := (mexp rows cols).
Lemma meval_Var x : meval K s (@Var rows cols x) = (Ok (mvar s x)).
Proof. reflexivity. Qed.
Lemma meval_Fill n m d : meval K s (@Fill rows cols n m d) = (let* v := seval K s d in Ok (fill K n m v)).
Proof. reflexivity. Qed.
Lemma meval_Zeros n m : meval K s (@Zeros rows cols n m) = (Ok (zeros K n m)).
Proof. reflexivity. Qed.
Lemma meval_Eye n : meval K s (@Eye rows cols n) = (eye1 K n).
Proof. reflexivity. Qed.
Lemma meval_Sum n m A B : meval K s (@Sum rows cols n m A B) = (let* a := meval K s A in let* b := meval K s B in sum K n m a b).
Proof. reflexivity. Qed.
Lemma meval_Sub n m A B : meval K s (@Sub rows cols n m A B) = (let* a := meval K s A in let* b := meval K s B in sub K n m a b).
Proof. reflexivity. Qed.
Lemma meval_SumS n m A d : meval K s (@SumS rows cols n m A d) = (let* a := meval K s A in let* v := seval K s d in sum_scalar K n m a v).
Proof. reflexivity. Qed.
Lemma meval_SubS n m A d : meval K s (@SubS rows cols n m A d) = (let* a := meval K s A in let* v := seval K s d in sub_scalar K n m a v).
Proof. reflexivity. Qed.
Lemma meval_MultS n m A d : meval K s (@MultS rows cols n m A d) = (let* a := meval K s A in let* v := seval K s d in mult_scalar K n m a v).
Proof. reflexivity. Qed.
Lemma meval_Mult n m p A B : meval K s (@Mult rows cols n m p A B) = (let* a := meval K s A in let* b := meval K s B in mult K n m p a b).
Proof. reflexivity. Qed.
Lemma meval_Strassen A B : meval K s (@Strassen rows cols A B) = (let* a := meval K s A in let* b := meval K s B in strassen K a b).
Proof. reflexivity. Qed.
Lemma meval_Trans n m A : meval K s (@Trans rows cols n m A) = (let* a := meval K s A in trans K n m a).
Proof. reflexivity. Qed.
Lemma meval_Pow n w q A : meval K s (@Pow rows cols n w q A) = (let* a := meval K s A in pow K n w a (Z.of_nat q)).
Proof. reflexivity. Qed.
Lemma meval_Over n n' m A B : meval K s (@Over rows cols n n' m A B) = (let* a := meval K s A in let* b := meval K s B in concatenate_v K n n' m a b).
Proof. reflexivity. Qed.
Lemma meval_Beside n m m' A B : meval K s (@Beside rows cols n m m' A B) = (let* a := meval K s A in let* b := meval K s B in concatenate_h K n m m' a b).
Proof. reflexivity. Qed.
Lemma meval_Minor n A i j : meval K s (@Minor rows cols n A i j) = (let* a := meval K s A in getminor K n a i j).
Proof. reflexivity. Qed.
Lemma meval_Conv n m A k : meval K s (@Conv rows cols n m A k) = (let* a := meval K s A in let* b := meval K s k in conv2 K n m a b).
Proof. reflexivity. Qed.
Lemma meval_ConvFull n m A k : meval K s (@ConvFull rows cols n m A k) = (let* a := meval K s A in let* b := meval K s k in conv2_full K n m a b).
Proof. reflexivity. Qed.
Lemma seval_SVar x : seval K s (@SVar rows cols x) = (Ok (svar s x)).
Proof. reflexivity. Qed.
Lemma seval_Elem n m A i j : seval K s (@Elem rows cols n m A i j) = (let* a := meval K s A in aget a i j).
Proof. reflexivity. Qed.
Lemma seval_Det n Hn A : seval K s (@Det rows cols n Hn A) = (let* a := meval K s A in det K n a).
Proof. reflexivity. Qed.
End Equations.

(** ** two element types *)
Definition erel {A B : Type} (R : A -> B -> Prop) (s : env A) (s' : env B) : Prop :=
  (forall x, mrel R (mvar s x) (mvar s' x)) /\ (forall x, R (svar s x) (svar s' x)).

Section Ref.
Context (K K' : scalar) (rel : elt K -> elt K' -> Prop) (relx : xpr K -> xpr K' -> Prop).
Hypothesis Hld : forall a a', rel a a' -> relx (ld a) (ld a').
Hypothesis Hst : forall v v', relx v v' -> rel (st v) (st v').
Hypothesis H0 : relx (lit 0) (lit 0).
Hypothesis H1 : relx (lit 1) (lit 1).
Hypothesis Hadd : forall a a' b b', relx a a' -> relx b b' -> refines relx (xadd a b) (xadd a' b').
Hypothesis Hsub : forall a a' b b', relx a a' -> relx b b' -> refines relx (xsub a b) (xsub a' b').
Hypothesis Hmul : forall a a' b b', relx a a' -> relx b b' -> refines relx (xmul a b) (xmul a' b').
Context {rows cols : nat -> nat}.
Notation RM := (mrel rel).

Lemma eval_ref s s' : erel rel s s' ->
  (forall n m (e : mexp rows cols n m), refines RM (meval K s e) (meval K' s' e)) /\
  (forall e : sexp rows cols, refines rel (seval K s e) (seval K' s' e)).
Proof.
  intros [Hm Hs].
  apply (exp_ind rows cols (fun n m e => refines RM (meval K s e) (meval K' s' e))
    (fun e => refines rel (seval K s e) (seval K' s' e))); intros;
  rewrite ?meval_Fill, ?meval_Sum, ?meval_Sub, ?meval_SumS, ?meval_SubS, ?meval_MultS, ?meval_Mult, ?meval_Strassen,
    ?meval_Trans, ?meval_Pow, ?meval_Over, ?meval_Beside, ?meval_Minor, ?meval_Conv, ?meval_ConvFull, ?seval_Elem, ?seval_Det;
  repeat match goal with
  | |- refines _ (bind (meval K s _) _) _ => eapply ref_bind; [eassumption|intros ? ? ?]
  | |- refines _ (bind (seval K s _) _) _ => eapply ref_bind; [eassumption|intros ? ? ?]
  end.
  - apply ref_ok, Hm.
  - apply ref_ok. eapply (fill_rel K K' rel relx); eauto.
  - apply ref_ok. eapply (fill_rel K K' rel relx); eauto.
  - eapply (eye1_ref K K' rel relx); eauto.
  - eapply (sum_ref K K' rel relx); eauto.
  - eapply (sub_ref K K' rel relx); eauto.
  - eapply (sum_scalar_ref K K' rel relx); eauto.
  - eapply (sub_scalar_ref K K' rel relx); eauto.
  - eapply (mult_scalar_ref K K' rel relx); eauto.
  - eapply (mult_ref K K' rel relx); eauto.
  - eapply (strassen_ref K K' rel relx); eauto.
  - eapply (trans_ref K K' rel relx); eauto.
  - eapply (pow_ref K K' rel relx); eauto. lia.
  - eapply (concatenate_v_ref K K' rel relx); eauto.
  - eapply (concatenate_h_ref K K' rel relx); eauto.
  - eapply (getminor_ref K K' rel relx); eauto.
  - eapply (conv2_ref K K' rel relx); eauto.
  - eapply (conv2_full_ref K K' rel relx); eauto.
  - apply ref_ok, Hs.
  - apply ref_aget; assumption.
  - eapply (det_small_ref K K' rel relx); eauto.
Qed.

Lemma upd_rel {A B} (R : A -> B -> Prop) f g x v w : (forall y, R (f y) (g y)) -> R v w -> forall y, R (upd f x v y) (upd g x w y).
Proof. intros H Hv y. unfold upd. destruct (y =? x); auto. Qed.

Lemma run_ref (p : prog rows cols) : forall s s', erel rel s s' -> refines (erel rel) (run K p s) (run K' p s').
Proof.
  induction p; intros s s' Hs; cbn [run]; pose proof (eval_ref s s' Hs) as [Em Es].
  - apply ref_ok, Hs.
  - eapply ref_bind; [apply Em|]. intros v v' Hv. apply ref_ok. destruct Hs. split; cbn; [apply upd_rel|]; assumption.
  - eapply ref_bind; [apply Es|]. intros v v' Hv. apply ref_ok. destruct Hs. split; cbn; [|apply upd_rel]; assumption.
  - eapply ref_bind; [eapply (swap_rows_ref K K' rel); eauto; apply Hs|]. intros v v' Hv. apply ref_ok. destruct Hs. split; cbn; [apply upd_rel|]; assumption.
  - eapply ref_bind; [eapply (swap_cols_ref K K' rel); eauto; apply Hs|]. intros v v' Hv. apply ref_ok. destruct Hs. split; cbn; [apply upd_rel|]; assumption.
  - eapply ref_bind; [apply IHp1, Hs|]. intros t t' Ht. apply IHp2, Ht.
  - clear Em Es. revert s s' Hs. induction k as [|k IH]; intros s s' Hs; cbn [repeat]; [apply ref_ok, Hs|].
    eapply ref_bind; [apply IHp, Hs|]. intros t t' Ht. apply IH, Ht.
Qed.
End Ref.
