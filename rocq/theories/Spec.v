(** * Specification vocabulary

    The notions used by the property theorems, independent of the model's
    loops.  Everything here is meant to be read. *)

From Coq Require Import List ZArith Bool Arith Permutation Sorted.
Import ListNotations.
From Verif Require Import Base Scalar.

(** The n x m matrix whose element in row i, column j (from 0) is [f i j]. *)
Definition mk {T : Type} (n m : nat) (f : nat -> nat -> T) : matrix T :=
  map (fun i => map (fun j => f i j) (seq 0 m)) (seq 0 n).

(** [A] is an n x m array.  Every such array is some [mk n m f] and vice versa
    (Loops.v, [shape_mk]). *)
Definition shape {T : Type} (n m : nat) (A : matrix T) : Prop :=
  length A = n /\ forall row, In row A -> length row = m.

(** The n x m matrix whose elements are computed by [f], in row-major order; the
    outcome of the whole is the first outcome that is not a normal return. *)
Definition tabM {T : Type} (n m : nat) (f : nat -> nat -> outcome T)
  : outcome (matrix T) :=
  map_out (fun i => map_out (fun j => f i j) (seq 0 m)) (seq 0 n).

(** [o] is neither an out-of-bounds access nor an endless loop, and if it is a
    normal return its value satisfies [P].  An exception, std::terminate, an
    arithmetic overflow, a division by zero and a bad conversion are allowed. *)
Definition safe {A : Type} (P : A -> Prop) (o : outcome A) : Prop :=
  match o with
  | Ok a => P a
  | UB OutOfBounds => False
  | OutOfFuel => False
  | _ => True
  end.

(** [o] returns normally. *)
Definition returns {A : Type} (o : outcome A) : Prop := exists a, o = Ok a.

(** All elements of a matrix satisfy [P]. *)
Definition all_elts {T : Type} (P : T -> Prop) (A : matrix T) : Prop :=
  forall row x, In row A -> In x row -> P x.

(** The list [l] without its [i]-th element (positions from 0). *)
Fixpoint delete {T : Type} (i : nat) (l : list T) : list T :=
  match l, i with
  | [], _ => []
  | _ :: r, O => r
  | x :: r, S k => x :: delete k r
  end.

(** Join two matrices side by side: row by row. *)
Fixpoint hjoin {T : Type} (A B : matrix T) : matrix T :=
  match A, B with
  | a :: A, b :: B => (a ++ b) :: hjoin A B
  | _, _ => []
  end.

(** The dot product as the library accumulates it:
    [c = 0; for k: c = T(c + a_k * b_k)]. *)
Definition dot (K : scalar) (m : nat) (a b : nat -> elt K) : outcome (elt K) :=
  for_ 0 m (fun k c =>
    let* t := xmul (ld (a k)) (ld (b k)) in
    let* v := xadd (ld c) t in
    Ok (st v)) (lite K 0).

(** The sum f 0 + ... + f (n-1) of integers. *)
Fixpoint zsum (n : nat) (f : nat -> Z) : Z :=
  match n with
  | O => 0%Z
  | S k => (zsum k f + f k)%Z
  end.

(** The operator < of the element type. *)
Definition less (K : scalar) (a b : elt K) : bool := xlt (ld a) (ld b).

(** [sort] behaves like std::sort on the list [v] for the order [lt]: it returns
    a permutation in which no element is less than an earlier one. *)
Definition sorts {T : Type} (lt : T -> T -> bool) (sort : list T -> list T)
  (v : list T) : Prop :=
  Permutation v (sort v) /\
  forall i j x y, i < j -> nth_error (sort v) i = Some x -> nth_error (sort v) j = Some y ->
    lt y x = false.

(** The order [lt] is a strict weak order on the elements of [v]: irreflexive,
    asymmetric, transitive, and incomparability is transitive. *)
Definition strict_weak_on {T : Type} (lt : T -> T -> bool) (v : list T) : Prop :=
  (forall a, In a v -> lt a a = false) /\
  (forall a b, In a v -> In b v -> lt a b = true -> lt b a = false) /\
  (forall a b c, In a v -> In b v -> In c v ->
     lt a b = true -> lt b c = true -> lt a c = true) /\
  (forall a b c, In a v -> In b v -> In c v ->
     lt a b = false -> lt b a = false -> lt b c = false -> lt c b = false ->
     lt a c = false /\ lt c a = false).

(** how many elements of [v] satisfy [p] *)
Definition count {T : Type} (p : T -> bool) (v : list T) : nat := length (filter p v).

(** The operations of an element type never report an out-of-bounds access or an
    endless loop themselves (true of every instance: integers, floats, exact). *)
Definition op_safe {A : Type} (o : outcome A) : Prop := o <> UB OutOfBounds /\ o <> OutOfFuel.

Definition scalar_safe (K : scalar) : Prop :=
  (forall a b : xpr K, op_safe (xadd a b)) /\
  (forall a b : xpr K, op_safe (xsub a b)) /\
  (forall a b : xpr K, op_safe (xmul a b)) /\
  (forall a b : xpr K, op_safe (xdiv a b)) /\
  (forall a : xpr K, op_safe (xneg a)) /\
  (forall a : xpr K, op_safe (xabs a)) /\
  (forall a : xpr K, op_safe (xsqrt a)) /\
  (forall (a : xpr K) z, op_safe (divsz a z)).

(** ** 3x3 neighbourhoods *)

(** position (p, q) lies inside an i x j matrix *)
Definition inside (i j : nat) (p q : Z) : bool :=
  ((0 <=? p) && (p <? Z.of_nat i) && (0 <=? q) && (q <? Z.of_nat j))%Z.

Definition nine : list (nat * nat) :=
  [(0, 0); (0, 1); (0, 2); (1, 0); (1, 1); (1, 2); (2, 0); (2, 1); (2, 2)].

(** The correlation of the 3x3 kernel [k] with the i x j matrix [f], centred at
    (p, q), accumulated in the order [nine]; positions outside contribute 0. *)
Definition corr (K : scalar) (i j : nat) (f k : nat -> nat -> elt K) (p q : Z)
  : outcome (elt K) :=
  fold_left (fun acc ab =>
    let a := fst ab in let b := snd ab in
    let pa := (p + Z.of_nat a - 1)%Z in
    let qb := (q + Z.of_nat b - 1)%Z in
    let* c := acc in
    let* t := (if inside i j pa qb then xmul (ld (k a b)) (ld (f (Z.to_nat pa) (Z.to_nat qb)))
               else Ok (@lit K 0)) in
    let* v := xadd (ld c) t in
    Ok (st v)) nine (Ok (lite K 0)).

(** the elements of a matrix, row by row *)
Definition elements {T : Type} (A : matrix T) : list T := concat A.

(** neither is less than the other *)
Definition equivalent {T : Type} (lt : T -> T -> bool) (a b : T) : bool :=
  negb (lt a b) && negb (lt b a).

(** [h], a list of (key, number) pairs, is the histogram of [v]: strictly
    increasing keys taken from [v]; every element has its key; the number of a
    key is how many elements are equivalent to it. *)
Definition is_histogram {T : Type} (lt : T -> T -> bool) (v : list T) (h : list (T * Z)) : Prop :=
  StronglySorted (fun p q => lt (fst p) (fst q) = true) h /\
  (forall k c, In (k, c) h ->
     In k v /\ c = Z.of_nat (count (fun x => equivalent lt x k) v)) /\
  (forall x, In x v -> exists k c, In (k, c) h /\ equivalent lt x k = true).

Definition total (h : list Z) : Z := fold_right Z.add 0%Z h.
