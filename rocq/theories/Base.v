(** * Outcomes, loops and arrays

    The C++ substrate on which the model of /repo/matrix is written: the
    possible results of running a piece of C++ code, counted loops, and
    [std::array<std::array<T, m>, n>] with its unchecked [operator[]].

    Nothing in this file depends on a particular element type. *)

From Coq Require Import List ZArith Lia Bool Arith.
Import ListNotations.

(** ** Outcomes

    The reasons for which the C++ standard gives no meaning to an execution
    are kept apart, so that a theorem may say "no out-of-bounds access" without
    saying "no arithmetic overflow". *)
Inductive ub : Type :=
| OutOfBounds      (* operator[] of std::array / std::vector past the end *)
| SignedOverflow   (* result of signed integer arithmetic not representable *)
| DivByZero        (* integer division by zero; also an exact-arithmetic 1/0 *)
| BadConversion    (* floating -> integer conversion out of range; exact sqrt of a negative *)
| BadOrder.        (* std::sort / std::map with a comparison that is no strict weak order *)

(** The only exception type the library creates
    (/repo/matrix/matrix_inv.hpp:87,110 and matrix_lu.hpp:62). *)
Inductive exn : Type := OverflowError.

Inductive outcome (A : Type) : Type :=
| Ok (a : A)          (* normal return *)
| Throw (e : exn)     (* an exception leaves the function *)
| Terminate           (* std::terminate: a bare [throw;] with nothing in flight *)
| UB (u : ub)         (* undefined behaviour *)
| OutOfFuel.          (* artefact of the model: a fuelled loop was cut short *)
Arguments Ok {A} _.
Arguments Throw {A} _.
Arguments Terminate {A}.
Arguments UB {A} _.
Arguments OutOfFuel {A}.

Definition bind {A B : Type} (o : outcome A) (k : A -> outcome B) : outcome B :=
  match o with
  | Ok a => k a
  | Throw e => Throw e
  | Terminate => Terminate
  | UB u => UB u
  | OutOfFuel => OutOfFuel
  end.

Notation "'let*' x ':=' e 'in' k" := (bind e (fun x => k))
  (at level 200, x pattern at level 99, e at level 200, k at level 200).

(** ** Loops *)

(** [for (k = lo; k < lo + cnt; k++) s = body k s] *)
Fixpoint iter {S : Type} (cnt lo : nat) (body : nat -> S -> outcome S) (s : S)
  : outcome S :=
  match cnt with
  | O => Ok s
  | Datatypes.S c => let* s' := body lo s in iter c (Datatypes.S lo) body s'
  end.

(** [for (std::size_t k = lo; k < hi; k++) s = body k s] *)
Definition for_ {S : Type} (lo hi : nat) (body : nat -> S -> outcome S) (s : S)
  : outcome S := iter (hi - lo) lo body s.

(** Loop bodies that may execute [return]. *)
Inductive ctrl (S R : Type) : Type :=
| Cont (s : S)        (* fall through to the next iteration *)
| Ret (r : R).        (* return r from the enclosing function *)
Arguments Cont {S R} _.
Arguments Ret {S R} _.

Fixpoint iter_ret {S R : Type} (cnt lo : nat)
  (body : nat -> S -> outcome (ctrl S R)) (s : S) : outcome (ctrl S R) :=
  match cnt with
  | O => Ok (Cont s)
  | Datatypes.S c =>
      let* r := body lo s in
      match r with
      | Cont s' => iter_ret c (Datatypes.S lo) body s'
      | Ret v => Ok (Ret v)
      end
  end.

Definition for_ret {S R : Type} (lo hi : nat)
  (body : nat -> S -> outcome (ctrl S R)) (s : S) : outcome (ctrl S R) :=
  iter_ret (hi - lo) lo body s.

(** [for (auto& a : A) a = f(a);] *)
Fixpoint map_out {A B : Type} (f : A -> outcome B) (l : list A) : outcome (list B) :=
  match l with
  | [] => Ok []
  | x :: r => let* y := f x in let* ys := map_out f r in Ok (y :: ys)
  end.

(** ** Arrays

    /repo/matrix/matrix_type.hpp:35-36
    [template <typename T, size_t i, size_t j> using Matrix = std::array<std::array<T,j>,i>].
    A matrix is the list of its rows; the two template sizes are passed to every
    function of the model as explicit [nat] arguments, as the C++ templates take
    them. *)
Definition matrix (T : Type) : Type := list (list T).

(** [v[i]] on a std::array / std::vector: undefined past the end. *)
Definition vget {T : Type} (v : list T) (i : nat) : outcome T :=
  match nth_error v i with
  | Some x => Ok x
  | None => UB OutOfBounds
  end.

Fixpoint upd {T : Type} (v : list T) (i : nat) (x : T) : list T :=
  match v, i with
  | [], _ => []
  | _ :: r, O => x :: r
  | y :: r, Datatypes.S k => y :: upd r k x
  end.

(** [v[i] = x] *)
Definition vset {T : Type} (v : list T) (i : nat) (x : T) : outcome (list T) :=
  if i <? length v then Ok (upd v i x) else UB OutOfBounds.

(** [A[i][j]] *)
Definition aget {T : Type} (A : matrix T) (i j : nat) : outcome T :=
  let* row := vget A i in vget row j.

(** [A[i][j] = x] *)
Definition aset {T : Type} (A : matrix T) (i j : nat) (x : T) : outcome (matrix T) :=
  let* row := vget A i in
  let* row' := vset row j x in
  vset A i row'.

(** [A[i][j]] where the subscripts are [size_t] values that may have wrapped
    (used by conv2, whose subscripts are expressions such as [it-1]). *)
Definition agetz {T : Type} (A : matrix T) (i j : Z) : outcome T :=
  if ((0 <=? i) && (i <? Z.of_nat (length A)) && (0 <=? j))%Z then
    let* row := vget A (Z.to_nat i) in
    if (j <? Z.of_nat (length row))%Z then vget row (Z.to_nat j) else UB OutOfBounds
  else UB OutOfBounds.

(** [Matrix<T,n,m> A{}] : every element value-initialised to [z]. *)
Definition init {T : Type} (n m : nat) (z : T) : matrix T := repeat (repeat z m) n.
