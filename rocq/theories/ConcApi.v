(** * The functions of /repo/matrix as threads

    The bodies of Model.v once more, with every access to an element of an
    argument an access to shared memory (Conc.v).  Local matrices and the
    result belong to the thread.

    [const Matrix&] parameters are read where the C++ text reads them.  By-value
    parameters (det of nxn, pow: matrix_det.hpp:82, matrix_pow.hpp:33) are copied
    first, as in C++.  Simplification: getminor, concatenate, abs, strassen, the
    closed determinants, inv, median, the histograms and the convolutions, which
    take [const Matrix&], are also written as "copy, then compute"; they may
    read an element more than once or not at all, where this model reads each
    element once.

    A [std::terminate] or undefined behaviour in one thread ends the whole
    process in C++; here it ends the thread. *)

From Coq Require Import List ZArith Lia Bool Arith String.
Import ListNotations.
From Verif Require Import Base Scalar Spec Model Loops Struct Conc.

(** ** Programs in sequence *)

Fixpoint pbind {T A B} (p : prog T A) (k : A -> prog T B) : prog T B :=
  match p with
  | Done o =>
      match o with
      | Ok a => k a
      | Throw e => Done (Throw e)
      | Terminate => Done Terminate
      | UB u => Done (UB u)
      | OutOfFuel => Done OutOfFuel
      end
  | Read c f => Read c (fun x => pbind (f x) k)
  | Write c x f => Write c x (pbind f k)
  | Say s f => Say s (pbind f k)
  end.

Notation "'let+' x ':=' e 'in' k" := (pbind e (fun x => k))
  (at level 200, x pattern at level 99, e at level 200, k at level 200).

Fixpoint piter {T St} (cnt lo : nat) (body : nat -> St -> prog T St) (s : St) : prog T St :=
  match cnt with
  | O => Done (Ok s)
  | Datatypes.S c => let+ s' := body lo s in piter c (Datatypes.S lo) body s'
  end.

Definition pfor {T St} (lo hi : nat) (body : nat -> St -> prog T St) (s : St) : prog T St :=
  piter (hi - lo) lo body s.

Fixpoint piter_ret {T St R} (cnt lo : nat) (body : nat -> St -> prog T (ctrl St R)) (s : St)
  : prog T (ctrl St R) :=
  match cnt with
  | O => Done (Ok (Cont s))
  | Datatypes.S c =>
      let+ r := body lo s in
      match r with
      | Cont s' => piter_ret c (Datatypes.S lo) body s'
      | Ret v => Done (Ok (Ret v))
      end
  end.

Definition pfor_ret {T St R} (lo hi : nat) (body : nat -> St -> prog T (ctrl St R)) (s : St)
  : prog T (ctrl St R) := piter_ret (hi - lo) lo body s.

Fixpoint pmap {T X Y} (f : X -> prog T Y) (l : list X) : prog T (list Y) :=
  match l with
  | [] => Done (Ok [])
  | x :: r => let+ y := f x in let+ ys := pmap f r in Done (Ok (y :: ys))
  end.

(** [A[i][j]] and [A[i][j] = x] on the shared matrix number v *)
Definition rd {T} (v i j : nat) : prog T T := Read (v, i, j) (fun x => Done (Ok x)).
Definition wr {T} (v i j : nat) (x : T) : prog T unit := Write (v, i, j) x (Done (Ok tt)).
Definition say {T} (s : string) : prog T unit := Say s (Done (Ok tt)).

(** ** Rules *)

Lemma alone_bind {T A B} (p : prog T A) (k : A -> prog T B) : forall M,
  alone (pbind p k) M =
  match value (alone p M) with
  | Ok a =>
      let r := alone (k a) (memory (alone p M)) in
      (memory r, text (alone p M) ++ text r, value r)%list
  | Throw e => (memory (alone p M), text (alone p M), Throw e)
  | Terminate => (memory (alone p M), text (alone p M), Terminate)
  | UB u => (memory (alone p M), text (alone p M), UB u)
  | OutOfFuel => (memory (alone p M), text (alone p M), OutOfFuel)
  end.
Proof.
  induction p as [o|c f IH|c x f IH|s f IH]; intros M; simpl.
  - destruct o; try reflexivity. simpl. unfold memory, text, value. cbn.
    destruct (alone (k a) M) as [[? ?] ?]. reflexivity.
  - destruct (M c); [apply IH|reflexivity].
  - destruct (M c); [apply IH|reflexivity].
  - rewrite IH. unfold memory, text, value. destruct (alone f M) as [[M' o] r]. simpl.
    destruct r; reflexivity.
Qed.

(** [p] only reads, writes no text and ends with [o] *)
Definition computes {T A} (M : mem T) (p : prog T A) (o : outcome A) : Prop := alone p M = (M, [], o).

Lemma computes_done {T A} (M : mem T) (o : outcome A) : computes M (Done o) o.
Proof. reflexivity. Qed.

Lemma computes_bind {T A B} (M : mem T) (p : prog T A) (k : A -> prog T B) o k' :
  computes M p o -> (forall a, computes M (k a) (k' a)) -> computes M (pbind p k) (bind o k').
Proof.
  unfold computes. intros Hp Hk. rewrite alone_bind, Hp. unfold memory, text, value. simpl.
  destruct o as [a| | | |]; simpl; try reflexivity. rewrite Hk. reflexivity.
Qed.

Lemma computes_for {T St} (M : mem T) lo hi (body : nat -> St -> prog T St) body' s :
  (forall i s, computes M (body i s) (body' i s)) -> computes M (pfor lo hi body s) (for_ lo hi body' s).
Proof.
  intros H. unfold pfor, for_. generalize (hi - lo). intros c. revert lo s.
  induction c as [|c IH]; intros lo s; simpl; [reflexivity|]. apply computes_bind; auto.
Qed.

Lemma computes_for_ret {T St R} (M : mem T) lo hi (body : nat -> St -> prog T (ctrl St R)) body' s :
  (forall i s, computes M (body i s) (body' i s)) ->
  computes M (pfor_ret lo hi body s) (for_ret lo hi body' s).
Proof.
  intros H. unfold pfor_ret, for_ret. generalize (hi - lo). intros c. revert lo s.
  induction c as [|c IH]; intros lo s; simpl; [reflexivity|]. apply computes_bind; [auto|].
  intros [s'|v]; [apply IH|reflexivity].
Qed.

Lemma computes_map {T X Y} (M : mem T) (f : X -> prog T Y) f' l :
  (forall x, computes M (f x) (f' x)) -> computes M (pmap f l) (map_out f' l).
Proof.
  intros H. induction l as [|x l IH]; simpl; [reflexivity|].
  apply computes_bind; [apply H|]. intros y. apply computes_bind; [exact IH|]. reflexivity.
Qed.

(** The element in row i, column j of a matrix, if it has one *)
Definition load {T} (A : matrix T) (i j : nat) : option T :=
  match nth_error A i with
  | Some row => nth_error row j
  | None => None
  end.

Lemma computes_rd {T} (M : mem T) v (A : matrix T) i j :
  (forall i j, M (v, i, j) = load A i j) -> computes M (rd v i j) (aget A i j).
Proof.
  intros H. unfold computes, rd, aget, vget. simpl. rewrite H. unfold load.
  destruct (nth_error A i) as [row|]; simpl; [|reflexivity].
  destruct (nth_error row j); reflexivity.
Qed.

Lemma within_bind {T A B} (R W : loc -> Prop) (p : prog T A) (k : A -> prog T B) :
  within R W p -> (forall a, within R W (k a)) -> within R W (pbind p k).
Proof.
  intros Hp Hk. induction p as [o|c f IH|c x f IH|s f IH]; simpl in *.
  - destruct o; simpl; auto.
  - split; [tauto|]. intros x. apply IH, Hp.
  - split; [tauto|]. apply IH, Hp.
  - apply IH, Hp.
Qed.

Lemma within_for {T St} (R W : loc -> Prop) lo hi (body : nat -> St -> prog T St) s :
  (forall i s, lo <= i < hi -> within R W (body i s)) -> within R W (pfor lo hi body s).
Proof.
  unfold pfor. intros H.
  assert (G : forall c lo', lo <= lo' -> lo' + c <= hi -> forall s, within R W (piter c lo' body s)).
  { induction c as [|c IH]; intros lo' L1 L2 s'; simpl; [exact Logic.I|].
    apply within_bind; [apply H; lia|]. intros a. apply IH; lia. }
  destruct (Nat.le_gt_cases lo hi).
  - apply G; lia.
  - replace (hi - lo) with 0 by lia. exact Logic.I.
Qed.

Lemma within_for_ret {T St X} (R W : loc -> Prop) lo hi (body : nat -> St -> prog T (ctrl St X)) s :
  (forall i s, lo <= i < hi -> within R W (body i s)) -> within R W (pfor_ret lo hi body s).
Proof.
  unfold pfor_ret. intros H.
  assert (G : forall c lo', lo <= lo' -> lo' + c <= hi -> forall s, within R W (piter_ret c lo' body s)).
  { induction c as [|c IH]; intros lo' L1 L2 s'; simpl; [exact Logic.I|].
    apply within_bind; [apply H; lia|]. intros [a|a]; [apply IH; lia|exact Logic.I]. }
  destruct (Nat.le_gt_cases lo hi).
  - apply G; lia.
  - replace (hi - lo) with 0 by lia. exact Logic.I.
Qed.

Lemma within_map {T X Y} (R W : loc -> Prop) (f : X -> prog T Y) l :
  (forall x, In x l -> within R W (f x)) -> within R W (pmap f l).
Proof.
  induction l as [|x l IH]; intros H; simpl; [exact Logic.I|].
  apply within_bind; [apply H; left; reflexivity|]. intros y.
  apply within_bind; [apply IH; intros z Hz; apply H; right; exact Hz|]. intros; exact Logic.I.
Qed.

Lemma within_weaken {T A} (R W R' W' : loc -> Prop) (p : prog T A) :
  (forall c, R c -> R' c) -> (forall c, W c -> W' c) -> within R W p -> within R' W' p.
Proof.
  intros HR HW. induction p as [o|c f IH|c x f IH|s f IH]; simpl; intros H; auto.
  - destruct H. split; auto.
  - destruct H. split; auto.
Qed.

(** ** The functions *)

Section Api.
Context (S : scalar).
Notation T := (elt S).
Notation Mat := (matrix (elt S)).
Notation P := (prog T).

(** a copy of the n x m matrix v *)
Definition copy_p (n m v : nat) : P Mat :=
  pmap (fun i => pmap (fun j => rd v i j) (seq 0 m)) (seq 0 n).

(** matrix_sum.hpp:32-45 *)
Definition sum_p (i j v w : nat) : P Mat :=
  pfor 0 i (fun it R =>
    pfor 0 j (fun jt R =>
      let+ a := rd v it jt in
      let+ b := rd w it jt in
      let+ t := Done (xadd (ld a) (ld b)) in
      Done (aset R it jt (st t))) R) (init i j (lite S 0)).

(** matrix_sum.hpp:56-69 *)
Definition sum_scalar_p (i j v : nat) (x : T) : P Mat :=
  pfor 0 i (fun it R =>
    pfor 0 j (fun jt R =>
      let+ a := rd v it jt in
      let+ t := Done (xadd (ld a) (ld x)) in
      Done (aset R it jt (st t))) R) (init i j (lite S 0)).

(** matrix_sub.hpp:32-45 *)
Definition sub_p (i j v w : nat) : P Mat :=
  pfor 0 i (fun it R =>
    pfor 0 j (fun jt R =>
      let+ a := rd v it jt in
      let+ b := rd w it jt in
      let+ t := Done (xsub (ld a) (ld b)) in
      Done (aset R it jt (st t))) R) (init i j (lite S 0)).

(** matrix_sub.hpp:56-69 *)
Definition sub_scalar_p (i j v : nat) (x : T) : P Mat :=
  pfor 0 i (fun it R =>
    pfor 0 j (fun jt R =>
      let+ a := rd v it jt in
      let+ t := Done (xsub (ld a) (ld x)) in
      Done (aset R it jt (st t))) R) (init i j (lite S 0)).

(** matrix_mult.hpp:32-48 *)
Definition mult_p (n m p v w : nat) : P Mat :=
  pfor 0 n (fun i prod =>
    pfor 0 p (fun j prod =>
      pfor 0 m (fun k prod =>
        let+ c := Done (aget prod i j) in
        let+ a := rd v i k in
        let+ b := rd w k j in
        let+ t := Done (xmul (ld a) (ld b)) in
        let+ s := Done (xadd (ld c) t) in
        Done (aset prod i j (st s))) prod) prod) (zeros S n p).

(** matrix_mult.hpp:59-72 *)
Definition mult_scalar_p (i j v : nat) (x : T) : P Mat :=
  pfor 0 i (fun it R =>
    pfor 0 j (fun jt R =>
      let+ a := rd v it jt in
      let+ t := Done (xmul (ld a) (ld x)) in
      Done (aset R it jt (st t))) R) (init i j (lite S 0)).

(** matrix_div.hpp:32-48 *)
Definition div_p (n m v : nat) (x : T) : P Mat :=
  if xeq (ld x) (lit 0) then Done Terminate
  else
    pfor 0 n (fun i R =>
      pfor 0 m (fun j R =>
        let+ a := rd v i j in
        let+ t := Done (xdiv (ld a) (ld x)) in
        Done (aset R i j (st t))) R) (init n m (lite S 0)).

(** matrix_trans.hpp:31-44 *)
Definition trans_p (n m v : nat) : P Mat :=
  pfor 0 n (fun i R =>
    pfor 0 m (fun j R =>
      let+ a := rd v i j in
      Done (aset R j i a)) R) (init m n (lite S 0)).

(** matrix_cholesky.hpp:29-45 *)
Definition isSymetric_p (n v : nat) : P bool :=
  let+ r := pfor_ret 1 n (fun i _ =>
    pfor_ret 0 i (fun j _ =>
      let+ a := rd v i j in
      let+ b := rd v j i in
      if negb (xeq (ld a) (ld b)) then Done (Ok (Ret false)) else Done (Ok (Cont tt))) tt) tt in
  match r with
  | Ret b => Done (Ok b)
  | Cont _ => Done (Ok true)
  end.

(** matrix_cholesky.hpp:54-86 *)
Definition chol_p (n v : nat) : P Mat :=
  pfor 0 n (fun i L =>
    pfor 0 (i + 1) (fun j L =>
      if j =? i then
        let+ sum := Done (for_ 0 i (fun k sum =>
          let* x := aget L i k in
          let* t := xmul (ld x) (ld x) in
          let* s := xadd (ld sum) t in
          Ok (st s)) (lite S 0)) in
        let+ a := rd v i i in
        let+ t := Done (xsub (ld a) (ld sum)) in
        let+ r := Done (xsqrt t) in
        Done (aset L i i r)
      else
        let+ sum := Done (for_ 0 i (fun k sum =>
          let* x := aget L i k in
          let* y := aget L j k in
          let* t := xmul (ld x) (ld y) in
          let* s := xadd (ld sum) t in
          Ok (st s)) (lite S 0)) in
        let+ a := rd v i j in
        let+ t := Done (xsub (ld a) (ld sum)) in
        let+ ljj := Done (aget L j j) in
        let+ q := Done (xdiv t (ld ljj)) in
        Done (aset L i j (st q))) L) (init n n (lite S 0)).

(** matrix_utils.hpp:49-63 *)
Definition compare_p (row col v w : nat) (epsilon : epsT S) : P bool :=
  let+ r := pfor_ret 0 row (fun i _ =>
    pfor_ret 0 col (fun j _ =>
      let+ a := rd v i j in
      let+ b := rd w i j in
      let+ d := Done (xsub (ld a) (ld b)) in
      let+ d := Done (xabs d) in
      if gteps d epsilon then Done (Ok (Ret false)) else Done (Ok (Cont tt))) tt) tt in
  match r with
  | Ret b => Done (Ok b)
  | Cont _ => Done (Ok true)
  end.

(** matrix_mean.hpp:31-43 *)
Definition mean_p (i j v : nat) : P T :=
  let+ result := pfor 0 i (fun it r =>
    pfor 0 j (fun jt r =>
      let+ a := rd v it jt in
      let+ s := Done (xadd (ld r) (ld a)) in
      Done (Ok (st s))) r) (lite S 0) in
  Done (divsz (ld result) (size_mul i j)).

(** matrix_var.hpp:31-44 *)
Definition var_p (i j v : nat) : P T :=
  let+ meanA := mean_p i j v in
  let+ result := pfor 0 i (fun it r =>
    pfor 0 j (fun jt r =>
      let+ a := rd v it jt in
      let+ d := Done (xsub (ld a) (ld meanA)) in
      let+ d' := Done (xsub (ld a) (ld meanA)) in
      let+ t := Done (xmul d d') in
      let+ s := Done (xadd (ld r) t) in
      Done (Ok (st s))) r) (lite S 0) in
  Done (divsz (ld result) (size_mul i j)).

(** matrix_stddev.hpp:31-35 *)
Definition stddev_p (i j v : nat) : P T :=
  let+ s := var_p i j v in
  Done (xsqrt (ld s)).

(** matrix_print.hpp:36-45,69-81: [std::cout << num << " "] are two insertions,
    [std::cout << std::endl] a third *)
Definition print_p (show : T -> string) (n m v : nat) : P unit :=
  pfor 0 n (fun i _ =>
    let+ _ := pfor 0 m (fun j _ =>
      let+ tmp := rd v i j in
      let+ _ := say (show tmp) in
      say " "%string) tt in
    say newline) tt.

(** matrix_swap.hpp:32-42; [std::swap(x, y)] is [tmp = x; x = y; y = tmp] *)
Definition swap_rows_p (col v row1 row2 : nat) : P unit :=
  if row1 =? row2 then Done (Ok tt)
  else
    pfor 0 col (fun i _ =>
      let+ x := rd v row1 i in
      let+ y := rd v row2 i in
      let+ _ := wr v row1 i y in
      wr v row2 i x) tt.

(** matrix_swap.hpp:54-64 *)
Definition swap_cols_p (row v col1 col2 : nat) : P unit :=
  if col1 =? col2 then Done (Ok tt)
  else
    pfor 0 row (fun i _ =>
      let+ x := rd v i col1 in
      let+ y := rd v i col2 in
      let+ _ := wr v i col1 y in
      wr v i col2 x) tt.

(** ** They compute what the model computes *)

Definition holds (M : mem T) (v : nat) (A : Mat) : Prop := forall i j, M (v, i, j) = load A i j.

Ltac reads :=
  repeat first
    [ apply computes_done
    | apply computes_rd; assumption
    | match goal with
      | |- computes _ (match ?x with _ => _ end) (match ?x with _ => _ end) => destruct x
      end
    | apply computes_bind; [|intros]
    | apply computes_for; intros
    | apply computes_for_ret; intros ].

Section Reading.
Variables (M : mem T) (v w : nat) (A B : Mat).
Hypotheses (HA : holds M v A) (HB : holds M w B).

Lemma run_sum i j : computes M (sum_p i j v w) (sum S i j A B).
Proof. unfold sum_p, sum. reads. Qed.
Lemma run_sum_scalar i j x : computes M (sum_scalar_p i j v x) (sum_scalar S i j A x).
Proof. unfold sum_scalar_p, sum_scalar. reads. Qed.
Lemma run_sub i j : computes M (sub_p i j v w) (sub S i j A B).
Proof. unfold sub_p, sub. reads. Qed.
Lemma run_sub_scalar i j x : computes M (sub_scalar_p i j v x) (sub_scalar S i j A x).
Proof. unfold sub_scalar_p, sub_scalar. reads. Qed.
Lemma run_mult n m p : computes M (mult_p n m p v w) (mult S n m p A B).
Proof. unfold mult_p, mult. reads. Qed.
Lemma run_mult_scalar i j x : computes M (mult_scalar_p i j v x) (mult_scalar S i j A x).
Proof. unfold mult_scalar_p, mult_scalar. reads. Qed.
Lemma run_div i j x : computes M (div_p i j v x) (div S i j A x).
Proof. unfold div_p, div. reads. Qed.
Lemma run_trans i j : computes M (trans_p i j v) (trans S i j A).
Proof. unfold trans_p, trans. reads. Qed.
Lemma run_isSymetric n : computes M (isSymetric_p n v) (isSymetric S n A).
Proof. unfold isSymetric_p, isSymetric. reads. Qed.
Lemma run_chol n : computes M (chol_p n v) (chol S n A).
Proof. unfold chol_p, chol. reads. Qed.
Lemma run_compare i j e : computes M (compare_p i j v w e) (compare S i j A B e).
Proof. unfold compare_p, compare. reads. Qed.
Lemma run_mean i j : computes M (mean_p i j v) (mean S i j A).
Proof. unfold mean_p, mean. reads. Qed.
Lemma run_var i j : computes M (var_p i j v) (var S i j A).
Proof. unfold var_p, var. apply computes_bind; [apply run_mean|intros]. reads. Qed.
Lemma run_stddev i j : computes M (stddev_p i j v) (stddev S i j A).
Proof. unfold stddev_p, stddev. apply computes_bind; [apply run_var|intros]. reads. Qed.

Lemma run_copy n m : shape n m A -> computes M (copy_p n m v) (Ok A).
Proof.
  intros H. apply (shape_mk (lite S 0)) in H. destruct H as [f E].
  replace (Ok A) with (tabM n m (fun i j => aget A i j)).
  - unfold copy_p, tabM. apply computes_map. intros i. apply computes_map. intros j.
    apply computes_rd. exact HA.
  - subst A. apply tabM_ok. intros i j Hi Hj. apply aget_mk; assumption.
Qed.

End Reading.

(** ** print: the pieces of text, joined, are what the model prints *)

Definition joined (l : list string) : string := fold_right append EmptyString l.

Lemma append_assoc s t r : ((s ++ t) ++ r = s ++ (t ++ r))%string.
Proof. induction s as [|a s IH]; simpl; [reflexivity|]. f_equal. exact IH. Qed.

Lemma joined_app l l' : joined (l ++ l') = (joined l ++ joined l')%string.
Proof. induction l as [|s l IH]; simpl; [reflexivity|]. rewrite IH, append_assoc. reflexivity. Qed.

Lemma append_nil s : (s ++ "")%string = s.
Proof. induction s as [|a s IH]; simpl; [reflexivity|]. f_equal. exact IH. Qed.

Definition prints (M : mem T) (p : P unit) (f : string -> outcome string) : Prop :=
  memory (alone p M) = M /\
  forall out, f out = let* _ := value (alone p M) in Ok (out ++ joined (text (alone p M)))%string.

Lemma prints_bind M (p : P unit) k f g : prints M p f -> (forall a, prints M (k a) g) ->
  prints M (pbind p k) (fun out => let* out := f out in g out).
Proof.
  intros [Mp Fp] Hk. unfold prints. rewrite alone_bind, Mp.
  destruct (value (alone p M)) as [a| | | |] eqn:E; simpl.
  - destruct (Hk a) as [Mq Fq].
    unfold memory at 1, text at 1, value at 1. simpl. split; [exact Mq|]. intros out. rewrite Fp. simpl.
    rewrite Fq. apply bind_ext. intros _ _. unfold text at 3. simpl. rewrite joined_app, append_assoc. reflexivity.
  - split; [reflexivity|]. intros out. rewrite Fp. reflexivity.
  - split; [reflexivity|]. intros out. rewrite Fp. reflexivity.
  - split; [reflexivity|]. intros out. rewrite Fp. reflexivity.
  - split; [reflexivity|]. intros out. rewrite Fp. reflexivity.
Qed.

Lemma prints_read {X} M (p : P X) k o g : computes M p o -> (forall a, prints M (k a) (g a)) ->
  prints M (pbind p k) (fun out => let* a := o in g a out).
Proof.
  intros Hp Hk. unfold prints. unfold computes in Hp.
  assert (E : alone (pbind p k) M = match o with
    | Ok a => alone (k a) M | Throw e => (M, [], Throw e) | Terminate => (M, [], Terminate)
    | UB u => (M, [], UB u) | OutOfFuel => (M, [], OutOfFuel) end).
  { rewrite alone_bind, Hp. unfold value at 1. simpl. destruct o; try reflexivity.
    unfold memory, text, value. simpl. destruct (alone (k a) M) as [[? ?] ?]. reflexivity. }
  rewrite E. destruct o as [a| | | |]; simpl; try (split; [reflexivity|]; intros; reflexivity).
  destruct (Hk a) as [Mk Fk]. split; [exact Mk|]. intros out. rewrite Fk. reflexivity.
Qed.

Lemma prints_say M s : prints M (say s) (fun out => Ok (out ++ s)%string).
Proof. split; [reflexivity|]. intros out. simpl. rewrite append_nil. reflexivity. Qed.

Lemma prints_for M lo hi (body : nat -> unit -> P unit) (body' : nat -> string -> outcome string) s :
  (forall i s, prints M (body i s) (body' i)) -> prints M (pfor lo hi body s) (for_ lo hi body').
Proof.
  intros H. unfold pfor, for_. generalize (hi - lo). intros c. revert lo s.
  induction c as [|c IH]; intros lo s; simpl.
  - split; [reflexivity|]. intros out. simpl. rewrite append_nil. reflexivity.
  - apply prints_bind; [apply H|]. intros a. apply IH.
Qed.

Lemma prints_ext M p f g : (forall out, f out = g out) -> prints M p f -> prints M p g.
Proof. intros E [H1 H2]. split; [exact H1|]. intros out. rewrite <- E. apply H2. Qed.

Lemma run_print show M v A n m : holds M v A ->
  prints M (print_p show n m v) (fun out =>
    for_ 0 n (fun i out =>
      let* out := for_ 0 m (fun j out =>
        let* tmp := aget A i j in
        Ok (out ++ show tmp ++ " ")%string) out in
      Ok (out ++ newline)%string) out).
Proof.
  intros HA. apply prints_for. intros i _. apply prints_bind; [|intros; apply prints_say].
  apply prints_for. intros j _. apply prints_read; [apply computes_rd; exact HA|]. intros a.
  apply prints_ext with (f := fun out => let* out := Ok (out ++ show a)%string in Ok (out ++ " ")%string).
  - intros out. simpl. rewrite append_assoc. reflexivity.
  - apply prints_bind; intros; apply prints_say.
Qed.

(** ** swaps: the shared matrix is afterwards what the model returns *)

Definition acts {X} (v : nat) (p : P X) (f : Mat -> outcome (X * Mat)) : Prop :=
  forall M A, holds M v A ->
  text (alone p M) = [] /\
  value (alone p M) = (let* r := f A in Ok (fst r)) /\
  forall a A', f A = Ok (a, A') -> holds (memory (alone p M)) v A'.

Lemma acts_bind {X Y} v (p : P X) (k : X -> P Y) f g : acts v p f -> (forall a, acts v (k a) (g a)) ->
  acts v (pbind p k) (fun A => let* r := f A in g (fst r) (snd r)).
Proof.
  intros Hp Hk M A HA. destruct (Hp M A HA) as (Tp & Vp & Mp). rewrite alone_bind, Tp.
  destruct (f A) as [[a A']| | | |] eqn:E; simpl in Vp; rewrite Vp; simpl;
    try (unfold text, value; simpl; split; [reflexivity|]; split; [reflexivity|]; intros; discriminate).
  specialize (Mp a A' eq_refl). destruct (Hk a _ _ Mp) as (Tk & Vk & Mk).
  unfold text at 1, value at 1, memory at 3. simpl. auto.
Qed.

Lemma acts_done v : acts v (Done (Ok tt)) (fun A => Ok (tt, A)).
Proof. intros M A HA. simpl. split; [reflexivity|]. split; [reflexivity|]. intros a A' E. injection E as _ <-. exact HA. Qed.

Lemma acts_rd v i j : acts v (rd v i j) (fun A => let* x := aget A i j in Ok (x, A)).
Proof.
  intros M A HA. pose proof (computes_rd M v A i j HA) as C. unfold computes in C. rewrite C.
  unfold text, value, memory. simpl.
  split; [reflexivity|]. destruct (aget A i j); simpl; (split; [reflexivity|]); intros a' A' E; inversion E; subst; exact HA.
Qed.

Lemma load_upd A i j x : forall row, nth_error A i = Some row -> j < List.length row ->
  forall i' j', load (upd A i (upd row j x)) i' j' = if (i =? i') && (j =? j') then Some x else @load T A i' j'.
Proof.
  intros row E L i' j'. unfold load. destruct (Nat.eqb_spec i i') as [<-|N]; simpl.
  - rewrite (nth_error_upd _ _ _ _ E), E. destruct (Nat.eqb_spec j j') as [<-|N].
    + destruct (nth_error row j) as [y|] eqn:F; [apply (nth_error_upd _ _ _ _ F)|].
      apply nth_error_None in F. lia.
    + apply nth_error_upd_ne, N.
  - rewrite nth_error_upd_ne by assumption. reflexivity.
Qed.

Lemma acts_wr v i j x : acts v (wr v i j x) (fun A => let* A' := aset A i j x in Ok (tt, A')).
Proof.
  intros M A HA. unfold wr, aset, vget, vset. simpl. rewrite HA. unfold load.
  destruct (nth_error A i) as [row|] eqn:E; simpl.
  2:{ split; [reflexivity|]. split; [reflexivity|]. intros; discriminate. }
  destruct (nth_error row j) as [y|] eqn:F; simpl.
  - assert (L : j < List.length row) by (apply nth_error_Some; congruence).
    rewrite (proj2 (Nat.ltb_lt _ _) L). simpl.
    assert (L' : i < List.length A) by (apply nth_error_Some; congruence).
    rewrite (proj2 (Nat.ltb_lt _ _) L'). simpl. split; [reflexivity|]. split; [reflexivity|].
    intros a A' Q. injection Q as _ <-. unfold memory. simpl. intros i' j'.
    replace (M (v, i, j)) with (Some y) by (rewrite HA; unfold load; rewrite E; symmetry; exact F). simpl.
    rewrite (load_upd _ _ _ _ _ E L). unfold put, loc_eqb. rewrite Nat.eqb_refl, andb_true_l.
    destruct ((i =? i') && (j =? j')); [reflexivity|apply HA].
  - apply nth_error_None in F. rewrite (proj2 (Nat.ltb_ge _ _) F). simpl.
    split; [reflexivity|]. split; [reflexivity|]. intros; discriminate.
Qed.

Lemma acts_for v lo hi (body : nat -> unit -> P unit) (body' : nat -> Mat -> outcome Mat) s :
  (forall i s, acts v (body i s) (fun A => let* A' := body' i A in Ok (tt, A'))) ->
  acts v (pfor lo hi body s) (fun A => let* A' := for_ lo hi body' A in Ok (tt, A')).
Proof.
  intros H. unfold pfor, for_. generalize (hi - lo). intros c. revert lo s.
  induction c as [|c IH]; intros lo []; simpl; [apply acts_done|].
  intros M A HA. specialize (acts_bind _ _ _ _ _ (H lo tt) (fun a => IH (Datatypes.S lo) a) M A HA).
  simpl. rewrite !bind_assoc. simpl. intros (E1 & E2 & E3). split; [exact E1|]. split.
  - etransitivity; [exact E2|]. apply bind_ext. intros B _. rewrite ?bind_assoc. reflexivity.
  - intros a A' Q. apply (E3 a). exact Q.
Qed.

Lemma acts_ext {X} v (p : P X) f g : (forall A, f A = g A) -> acts v p f -> acts v p g.
Proof.
  intros E H M A HA. destruct (H M A HA) as (H1 & H2 & H3). rewrite E in H2, H3. auto.
Qed.

Lemma acts_exchange v i1 j1 i2 j2 : acts v
  (let+ x := rd v i1 j1 in
   let+ y := rd v i2 j2 in
   let+ _ := wr v i1 j1 y in
   wr v i2 j2 x)
  (fun A => let* A' :=
    (let* x := aget A i1 j1 in
     let* y := aget A i2 j2 in
     let* A := aset A i1 j1 y in
     aset A i2 j2 x) in Ok (tt, A')).
Proof.
  eapply acts_ext.
  2:{ eapply acts_bind; [apply acts_rd|]. intros x. eapply acts_bind; [apply acts_rd|]. intros y.
      eapply (acts_bind v _ _ _ (fun _ A => let* A' := aset A i2 j2 x in Ok (tt, A'))); [apply acts_wr|].
      intros a. apply acts_wr. }
  intros A. simpl. rewrite !bind_assoc. apply bind_ext. intros x _. simpl.
  rewrite !bind_assoc. apply bind_ext. intros y _. simpl. rewrite !bind_assoc. reflexivity.
Qed.

Lemma run_swap_rows v n m r1 r2 :
  acts v (swap_rows_p m v r1 r2) (fun A => let* A' := swap_rows S n m A r1 r2 in Ok (tt, A')).
Proof.
  unfold swap_rows_p, swap_rows. destruct (r1 =? r2).
  - apply acts_done.
  - apply acts_for. intros i _. apply acts_exchange.
Qed.

Definition exchange (i1 j1 i2 j2 : nat) (A : Mat) : outcome Mat :=
  let* x := aget A i1 j1 in
  let* y := aget A i2 j2 in
  let* A := aset A i1 j1 y in
  aset A i2 j2 x.

Lemma swap_cols_loop n m A c1 c2 : shape n m A -> c1 <> c2 ->
  for_ 0 n (fun i A => exchange i c1 i c2 A) A = swap_cols S n m A c1 c2.
Proof.
  intros H N. apply (shape_mk (lite S 0)) in H. destruct H as [f ->].
  destruct (Nat.le_gt_cases m c1) as [L1|L1]; [|destruct (Nat.le_gt_cases m c2) as [L2|L2]].
  - destruct n as [|n]; [unfold swap_cols; rewrite (proj2 (Nat.eqb_neq _ _) N); reflexivity|].
    rewrite swap_cols_oob by (auto; lia). rewrite for_first by lia. unfold exchange.
    rewrite aget_mk_col_oob by assumption. reflexivity.
  - destruct n as [|n]; [unfold swap_cols; rewrite (proj2 (Nat.eqb_neq _ _) N); reflexivity|].
    rewrite swap_cols_oob by (auto; lia). rewrite for_first by lia. unfold exchange.
    rewrite aget_mk by lia. simpl. rewrite aget_mk_col_oob by assumption. reflexivity.
  - rewrite swap_cols_mk by assumption.
    set (g := fun k i j => if i <? k then (if j =? c1 then f i c2 else if j =? c2 then f i c1 else f i j) else f i j).
    rewrite (for_states 0 n _ (fun k => mk n m (g k))).
    + f_equal. apply mk_ext. intros i j Hi Hj. unfold g. rewrite (proj2 (Nat.ltb_lt _ _) Hi). reflexivity.
    + lia.
    + reflexivity.
    + intros k Hk. unfold exchange. rewrite !aget_mk by lia. simpl. rewrite aset_mk by lia. simpl.
      rewrite aset_mk by lia. f_equal. apply mk_ext. intros i j Hi Hj. unfold g.
      destruct (Nat.eqb_spec i k) as [->|Ni]; simpl.
      * rewrite (proj2 (Nat.ltb_lt k (Datatypes.S k))), Nat.ltb_irrefl by lia.
        destruct (Nat.eqb_spec j c2) as [E2|N2], (Nat.eqb_spec j c1) as [E1|N1]; try (exfalso; lia); reflexivity.
      * replace (i <? Datatypes.S k) with (i <? k); [reflexivity|].
        destruct (Nat.ltb_spec i k), (Nat.ltb_spec i (Datatypes.S k)); lia.
Qed.

Lemma run_swap_cols v n c1 c2 : c1 <> c2 ->
  acts v (swap_cols_p n v c1 c2) (fun A => let* A' := for_ 0 n (fun i A => exchange i c1 i c2 A) A in Ok (tt, A')).
Proof.
  intros N. unfold swap_cols_p. rewrite (proj2 (Nat.eqb_neq _ _) N).
  apply acts_for. intros i _. apply acts_exchange.
Qed.

(** ** Which elements they touch *)

Definition of_var (v : nat) (c : loc) : Prop := fst (fst c) = v.
Definition of_rows (v r1 r2 : nat) (c : loc) : Prop :=
  fst (fst c) = v /\ (snd (fst c) = r1 \/ snd (fst c) = r2).
Definition of_cols (v c1 c2 : nat) (c : loc) : Prop :=
  fst (fst c) = v /\ (snd c = c1 \/ snd c = c2).

Lemma within_exchange (R W : loc -> Prop) v i1 j1 i2 j2 :
  R (v, i1, j1) -> R (v, i2, j2) -> W (v, i1, j1) -> W (v, i2, j2) ->
  within R W (let+ x := rd v i1 j1 in
              let+ y := rd v i2 j2 in
              let+ _ := wr v i1 j1 y in
              wr (T := T) v i2 j2 x).
Proof. intros. simpl. auto 10. Qed.

Lemma within_swap_rows m v r1 r2 : within (of_rows v r1 r2) (of_rows v r1 r2) (swap_rows_p m v r1 r2).
Proof.
  unfold swap_rows_p. destruct (r1 =? r2); [exact Logic.I|]. apply within_for. intros i _ _.
  apply within_exchange; unfold of_rows; simpl; auto.
Qed.

Lemma within_swap_cols n v c1 c2 : within (of_cols v c1 c2) (of_cols v c1 c2) (swap_cols_p n v c1 c2).
Proof.
  unfold swap_cols_p. destruct (c1 =? c2); [exact Logic.I|]. apply within_for. intros i _ _.
  apply within_exchange; unfold of_cols; simpl; auto.
Qed.

Ltac touches :=
  repeat first
    [ exact Logic.I
    | match goal with
      | |- within _ _ (rd _ _ _) => split; [unfold of_var; simpl; auto|intros; exact Logic.I]
      | |- within _ _ (match ?x with _ => _ end) => destruct x
      end
    | apply within_bind; [|intros]
    | apply within_for; intros
    | apply within_for_ret; intros
    | apply within_map; intros ].

(** ** Calls

    Matrix variables have static types [Matrix<T,n,m>]: [Γ v] is the pair of
    sizes of variable v.  Calls that would not compile because sizes do not match
    are not excluded; they read out of bounds, here as in Model.v. *)
Variable Γ : nat -> nat * nat.
Notation rows v := (fst (Γ v)).
Notation cols v := (snd (Γ v)).
Variable sort : list T -> list T.
Variable show : T -> string.

Inductive call : Type :=
| Sum (v w : nat) | SumScalar (v : nat) (x : T)
| Sub (v w : nat) | SubScalar (v : nat) (x : T)
| Mult (v w : nat) | MultScalar (v : nat) (x : T) | DivScalar (v : nat) (x : T)
| Strassen (v w : nat)
| Trans (v : nat) | AbsOf (v : nat) | Minor (v i j : nat)
| Below (v w : nat) | Beside (v w : nat)
| Det (v : nat) | Inv (v : nat) | Pow (v : nat) (bits e : Z)
| Lu (v : nat) | Chol (v : nat)
| IsSymetric (v : nat) | IsIdentity (v : nat) | Compare (v w : nat) (e : epsT S)
| Mean (v : nat) | Var (v : nat) | Stddev (v : nat) | Median (v : nat)
| Histogram (v : nat) | Cumulative (v : nat)
| Conv2 (v k : nat) | Conv2Full (v k : nat) | Conv2Valid (v k : nat)
| Print (v : nat)
| SwapRows (v r1 r2 : nat) | SwapCols (v c1 c2 : nat).

Inductive answer : Type :=
| AMat (A : Mat) | APair (A B : Mat) | AElt (x : T) | ABool (b : bool)
| AHist (h : list (T * Z)) | ANone.

(** The variables a call mentions, and those it changes. *)
Definition mentions (c : call) (u : nat) : Prop :=
  match c with
  | Sum v w | Sub v w | Mult v w | Strassen v w | Below v w | Beside v w | Compare v w _
  | Conv2 v w | Conv2Full v w | Conv2Valid v w => u = v \/ u = w
  | SumScalar v _ | SubScalar v _ | MultScalar v _ | DivScalar v _ | Trans v | AbsOf v | Minor v _ _
  | Det v | Inv v | Pow v _ _ | Lu v | Chol v | IsSymetric v | IsIdentity v
  | Mean v | Var v | Stddev v | Median v | Histogram v | Cumulative v | Print v
  | SwapRows v _ _ | SwapCols v _ _ => u = v
  end.

Definition changes (c : call) (u : nat) : Prop :=
  match c with
  | SwapRows v _ _ | SwapCols v _ _ => u = v
  | _ => False
  end.

(** The matrices in the variables. *)
Definition store : Type := nat -> Mat.
Definition set (σ : store) (v : nat) (A : Mat) : store := fun w => if v =? w then A else σ w.
Definition well_typed (σ : store) : Prop := forall v, shape (rows v) (cols v) (σ v).

(** What a call returns when nothing else runs: Model.v. *)
Definition returned (σ : store) (c : call) : outcome answer :=
  let mat (o : outcome Mat) := let* A := o in Ok (AMat A) in
  let elt_ (o : outcome T) := let* x := o in Ok (AElt x) in
  let bool_ (o : outcome bool) := let* b := o in Ok (ABool b) in
  let hist (o : outcome (list (T * Z))) := let* h := o in Ok (AHist h) in
  match c with
  | Sum v w => mat (sum S (rows v) (cols v) (σ v) (σ w))
  | SumScalar v x => mat (sum_scalar S (rows v) (cols v) (σ v) x)
  | Sub v w => mat (sub S (rows v) (cols v) (σ v) (σ w))
  | SubScalar v x => mat (sub_scalar S (rows v) (cols v) (σ v) x)
  | Mult v w => mat (mult S (rows v) (cols v) (cols w) (σ v) (σ w))
  | MultScalar v x => mat (mult_scalar S (rows v) (cols v) (σ v) x)
  | DivScalar v x => mat (div S (rows v) (cols v) (σ v) x)
  | Strassen v w => mat (strassen S (σ v) (σ w))
  | Trans v => mat (trans S (rows v) (cols v) (σ v))
  | AbsOf v => mat (Model.abs S (rows v) (cols v) (init (rows v) (cols v) (lite S 0)) (σ v))
  | Minor v i j => mat (getminor S (rows v) (σ v) i j)
  | Below v w => mat (concatenate_v S (rows v) (rows w) (cols v) (σ v) (σ w))
  | Beside v w => mat (concatenate_h S (rows v) (cols v) (cols w) (σ v) (σ w))
  | Det v => elt_ (det S (rows v) (σ v))
  | Inv v => mat (inv S (rows v) (σ v))
  | Pow v b e => mat (pow S (rows v) b (σ v) e)
  | Lu v => let* r := lu S (rows v) (σ v) in Ok (APair (fst r) (snd r))
  | Chol v => mat (chol S (rows v) (σ v))
  | IsSymetric v => bool_ (isSymetric S (rows v) (σ v))
  | IsIdentity v => bool_ (isIdentity S (rows v) (σ v))
  | Compare v w e => bool_ (compare S (rows v) (cols v) (σ v) (σ w) e)
  | Mean v => elt_ (mean S (rows v) (cols v) (σ v))
  | Var v => elt_ (var S (rows v) (cols v) (σ v))
  | Stddev v => elt_ (stddev S (rows v) (cols v) (σ v))
  | Median v => elt_ (median S sort (rows v) (cols v) (σ v))
  | Histogram v => hist (histogram S (rows v) (cols v) (σ v))
  | Cumulative v => hist (cumulative_histogram S (rows v) (cols v) (σ v))
  | Conv2 v k => mat (conv2 S (rows v) (cols v) (σ v) (σ k))
  | Conv2Full v k => mat (conv2_full S (rows v) (cols v) (σ v) (σ k))
  | Conv2Valid v k => mat (conv2_valid S (rows v) (σ v) (σ k))
  | Print v => let* _ := print S show (rows v) (cols v) (σ v) in Ok ANone
  | SwapRows v r1 r2 => let* _ := swap_rows S (rows v) (cols v) (σ v) r1 r2 in Ok ANone
  | SwapCols v c1 c2 => let* _ := swap_cols S (rows v) (cols v) (σ v) c1 c2 in Ok ANone
  end.

(** The variables afterwards and the text printed, when it returns. *)
Definition after (σ : store) (c : call) : store :=
  match c with
  | SwapRows v r1 r2 =>
      match swap_rows S (rows v) (cols v) (σ v) r1 r2 with Ok A => set σ v A | _ => σ end
  | SwapCols v c1 c2 =>
      match swap_cols S (rows v) (cols v) (σ v) c1 c2 with Ok A => set σ v A | _ => σ end
  | _ => σ
  end.

Definition printed (σ : store) (c : call) : string :=
  match c with
  | Print v => match print S show (rows v) (cols v) (σ v) with Ok s => s | _ => EmptyString end
  | _ => EmptyString
  end.

(** A sequence of calls: results, variables afterwards, text. *)
Fixpoint performs (σ : store) (cs : list call) : outcome (list answer * store * string) :=
  match cs with
  | [] => Ok ([], σ, EmptyString)
  | c :: cs =>
      let* a := returned σ c in
      let* r := performs (after σ c) cs in
      let '(l, σ', s) := r in
      Ok (a :: l, σ', printed σ c ++ s)%string
  end.

(** The program of a call. *)
Definition on1 (v : nat) (f : Mat -> outcome answer) : P answer :=
  let+ A := copy_p (rows v) (cols v) v in Done (f A).
Definition on2 (v w : nat) (f : Mat -> Mat -> outcome answer) : P answer :=
  let+ A := copy_p (rows v) (cols v) v in
  let+ B := copy_p (rows w) (cols w) w in
  Done (f A B).

Definition code (c : call) : P answer :=
  let mat (p : P Mat) := let+ A := p in Done (Ok (AMat A)) in
  let elt_ (p : P T) := let+ x := p in Done (Ok (AElt x)) in
  let bool_ (p : P bool) := let+ b := p in Done (Ok (ABool b)) in
  let unit_ (p : P unit) := let+ _ := p in Done (Ok ANone) in
  match c with
  | Sum v w => mat (sum_p (rows v) (cols v) v w)
  | SumScalar v x => mat (sum_scalar_p (rows v) (cols v) v x)
  | Sub v w => mat (sub_p (rows v) (cols v) v w)
  | SubScalar v x => mat (sub_scalar_p (rows v) (cols v) v x)
  | Mult v w => mat (mult_p (rows v) (cols v) (cols w) v w)
  | MultScalar v x => mat (mult_scalar_p (rows v) (cols v) v x)
  | DivScalar v x => mat (div_p (rows v) (cols v) v x)
  | Trans v => mat (trans_p (rows v) (cols v) v)
  | Chol v => mat (chol_p (rows v) v)
  | IsSymetric v => bool_ (isSymetric_p (rows v) v)
  | Compare v w e => bool_ (compare_p (rows v) (cols v) v w e)
  | Mean v => elt_ (mean_p (rows v) (cols v) v)
  | Var v => elt_ (var_p (rows v) (cols v) v)
  | Stddev v => elt_ (stddev_p (rows v) (cols v) v)
  | Print v => unit_ (print_p show (rows v) (cols v) v)
  | SwapRows v r1 r2 => unit_ (swap_rows_p (cols v) v r1 r2)
  | SwapCols v c1 c2 => unit_ (swap_cols_p (rows v) v c1 c2)
  | Strassen v w => on2 v w (fun A B => returned (set (fun _ => B) v A) (Strassen v w))
  | Below v w => on2 v w (fun A B => returned (set (fun _ => B) v A) (Below v w))
  | Beside v w => on2 v w (fun A B => returned (set (fun _ => B) v A) (Beside v w))
  | Conv2 v k => on2 v k (fun A B => returned (set (fun _ => B) v A) (Conv2 v k))
  | Conv2Full v k => on2 v k (fun A B => returned (set (fun _ => B) v A) (Conv2Full v k))
  | Conv2Valid v k => on2 v k (fun A B => returned (set (fun _ => B) v A) (Conv2Valid v k))
  | AbsOf v | Minor v _ _ | Det v | Inv v | Pow v _ _ | Lu v | IsIdentity v
  | Median v | Histogram v | Cumulative v => on1 v (fun A => returned (fun _ => A) c)
  end.

Fixpoint codes (cs : list call) : P (list answer) :=
  match cs with
  | [] => Done (Ok [])
  | c :: cs => let+ a := code c in let+ l := codes cs in Done (Ok (a :: l))
  end.

Definition in_memory (M : mem T) (σ : store) : Prop := forall v, holds M v (σ v).

End Api.
