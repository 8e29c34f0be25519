(** * Overload resolution among the function templates of /repo/matrix

    A call such as [det(A)] or [concatenate(A, B)] is resolved by the compiler
    from the argument types alone: the element type and the two sizes of every
    matrix argument.  This file models the part of the C++ rules that decides
    it ([temp.deduct], [temp.func.order], [over.match.best]) and lists the
    overload sets of the library.

    Simplifications: argument types are matrices over, and values of, element
    types that are told apart by a number; no implicit conversion takes part
    (every parameter of these templates mentions T, so T is deduced from each
    argument and a conversion is never considered); parameters declared
    [const Matrix<...>&] and [Matrix<...>] rank the same, both are an exact match. *)

From Coq Require Import List Arith Lia Bool.
Import ListNotations.

(** a size in a parameter type: a template parameter or a literal *)
Inductive size : Type := Var (x : nat) | Lit (k : nat).
(** a parameter type: [Matrix<T, r, c>] or [T] *)
Inductive param : Type := PMat (r c : size) | PScalar.
(** a function template: the types of its parameters *)
Definition template : Type := list param.
(** an argument type: a matrix of r x c elements of type t, or a value of type t *)
Inductive argt : Type := AMat (t r c : nat) | AScalar (t : nat).

(** the size a template parameter list stands for, once the parameters have values *)
Definition size_at (v : nat -> nat) (s : size) : nat := match s with Var x => v x | Lit k => k end.
Definition param_at (t : nat) (v : nat -> nat) (p : param) : argt :=
  match p with PMat r c => AMat t (size_at v r) (size_at v c) | PScalar => AScalar t end.

(** template argument deduction succeeds: some element type and some sizes make
    the parameter types equal to the argument types *)
Definition viable (F : template) (args : list argt) : Prop :=
  exists t v, map (param_at t v) F = args.

(** F is at least as specialised as G: deduction of G succeeds on the parameter
    types of F, whose own template parameters stand for unique unknown values *)
Definition size_sub (w : nat -> size) (s : size) : size := match s with Var x => w x | Lit k => Lit k end.
Definition param_sub (w : nat -> size) (p : param) : param :=
  match p with PMat r c => PMat (size_sub w r) (size_sub w c) | PScalar => PScalar end.
Definition at_least (F G : template) : Prop := exists w, map (param_sub w) G = F.
Definition more_special (F G : template) : Prop := at_least F G /\ ~ at_least G F.

(** the three possible results of a call *)
Definition selects (S : list template) (args : list argt) (i : nat) : Prop :=
  exists F, nth_error S i = Some F /\ viable F args /\
    forall j G, j <> i -> nth_error S j = Some G -> viable G args -> more_special F G.
Definition no_match (S : list template) (args : list argt) : Prop :=
  forall F, In F S -> ~ viable F args.
Definition ambiguous (S : list template) (args : list argt) : Prop :=
  (exists F, In F S /\ viable F args) /\ forall i, ~ selects S args i.

(** at most one overload is selected *)
Lemma selects_unique S args i j : selects S args i -> selects S args j -> i = j.
Proof.
  intros [F [EF [VF HF]]] [G [EG [VG HG]]]. destruct (Nat.eq_dec i j) as [|N]; [assumption|exfalso].
  destruct (HF j G (not_eq_sym N) EG VG) as [H1 H2]. destruct (HG i F N EF VF) as [H3 _]. exact (H2 H3).
Qed.
Lemma selects_not_no_match S args i : selects S args i -> ~ no_match S args.
Proof. intros [F [E [V _]]] H. exact (H F (nth_error_In S i E) V). Qed.

(** ** The overload sets *)
Local Notation n := (Var 0).
Local Notation m := (Var 1).
Local Notation p := (Var 2).

(** matrix_det.hpp:32,46,63,81 and matrix_inv.hpp:65,80,104,132 *)
Definition det_set : list template :=
  [[PMat (Lit 1) (Lit 1)]; [PMat (Lit 2) (Lit 2)]; [PMat (Lit 3) (Lit 3)]; [PMat n n]].
(** matrix_concatenate.hpp:35,79,109 *)
Definition concatenate_set : list template :=
  [[PMat n n; PMat n n]; [PMat n p; PMat m p]; [PMat n m; PMat n p]].
(** matrix_mult.hpp:83,98,113  [operator*] *)
Definition times_set : list template :=
  [[PMat n m; PMat m p]; [PMat n m; PScalar]; [PScalar; PMat n m]].
(** matrix_sum.hpp:80,95,110  [operator+] *)
Definition plus_set : list template :=
  [[PMat n m; PMat n m]; [PMat n m; PScalar]; [PScalar; PMat n m]].
(** matrix_sub.hpp:80,95  [operator-] *)
Definition minus_set : list template := [[PMat n m; PMat n m]; [PMat n m; PScalar]].
(** matrix_div.hpp:59  [operator/] *)
Definition over_set : list template := [[PMat n m; PScalar]].
(** matrix_strassen.hpp:34 *)
Definition strassen_set : list template := [[PMat (Lit 2) (Lit 2); PMat (Lit 2) (Lit 2)]].
(** matrix_conv2.hpp:38,88  conv2 and conv2_full *)
Definition conv2_set : list template := [[PMat n m; PMat (Lit 3) (Lit 3)]].
(** isSymetric, chol, lu, getminor, pow, isIdentity: one square matrix *)
Definition square_set : list template := [[PMat n n]].

(** ** Deciding *)
Lemma viable1 r c t a b : viable [PMat r c] [AMat t a b] <-> exists v, size_at v r = a /\ size_at v c = b.
Proof.
  split.
  - intros [t' [v H]]. cbn in H. injection H as _ H1 H2. exists v. split; assumption.
  - intros [v [H1 H2]]. exists t, v. cbn. rewrite H1, H2. reflexivity.
Qed.
Lemma viable2 r c r' c' t a b t' a' b' : viable [PMat r c; PMat r' c'] [AMat t a b; AMat t' a' b'] <->
  t = t' /\ exists v, size_at v r = a /\ size_at v c = b /\ size_at v r' = a' /\ size_at v c' = b'.
Proof.
  split.
  - intros [t0 [v H]]. cbn in H. injection H as <- H1 H2 <- H3 H4. split; [reflexivity|]. exists v. tauto.
  - intros [<- [v [H1 [H2 [H3 H4]]]]]. exists t, v. cbn. rewrite H1, H2, H3, H4. reflexivity.
Qed.
Lemma viable_ms r c t a b t' : viable [PMat r c; PScalar] [AMat t a b; AScalar t'] <->
  t = t' /\ exists v, size_at v r = a /\ size_at v c = b.
Proof.
  split.
  - intros [t0 [v H]]. cbn in H. injection H as <- H1 H2 <-. split; [reflexivity|]. exists v. tauto.
  - intros [<- [v [H1 H2]]]. exists t, v. cbn. rewrite H1, H2. reflexivity.
Qed.
Lemma viable_sm r c t a b t' : viable [PScalar; PMat r c] [AScalar t'; AMat t a b] <->
  t = t' /\ exists v, size_at v r = a /\ size_at v c = b.
Proof.
  split.
  - intros [t0 [v H]]. cbn in H. injection H as <- <- H1 H2. split; [reflexivity|]. exists v. tauto.
  - intros [<- [v [H1 H2]]]. exists t, v. cbn. rewrite H1, H2. reflexivity.
Qed.
(** sizes for three template parameters *)
Definition val3 (a b c : nat) (x : nat) : nat := match x with 0 => a | 1 => b | _ => c end.
Definition sub3 (a b c : size) (x : nat) : size := match x with 0 => a | 1 => b | _ => c end.

(** an overload set with a single viable member *)
Lemma selects_only S args i F : nth_error S i = Some F -> viable F args ->
  (forall j G, j <> i -> nth_error S j = Some G -> ~ viable G args) -> selects S args i.
Proof. intros E V H. exists F. split; [exact E|]. split; [exact V|]. intros j G N EG VG. destruct (H j G N EG VG). Qed.
