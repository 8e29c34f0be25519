(** * Model of /repo/bench

    The loops of the benchmarks, without the timing harness: one pass through
    [while (state.KeepRunning())].  Random draws are an argument; uninitialised
    matrices are an arbitrary argument. *)

From Coq Require Import List ZArith Bool Arith.
Import ListNotations.
From Verif Require Import Base Scalar Model.

Section Bench.
Context (S : scalar).
Notation T := (elt S).
Notation Mat := (matrix T).

(** bench/cache/cache.hpp:22-38  [row_major] *)
Definition bench_row_major (row col : nat) (A : Mat) : outcome T :=
  for_ 0 row (fun i sum =>
    for_ 0 col (fun j sum =>
      let* a := aget A i j in
      let* v := xadd (ld sum) (ld a) in
      Ok (st v)) sum) (lite S 0).

(** bench/cache/cache.hpp:40-56  [col_major]: the outer loop runs to [col], the
    inner to [row], the subscripts are still [A[i][j]] *)
Definition bench_col_major (row col : nat) (A : Mat) : outcome T :=
  for_ 0 col (fun i sum =>
    for_ 0 row (fun j sum =>
      let* a := aget A i j in
      let* v := xadd (ld sum) (ld a) in
      Ok (st v)) sum) (lite S 0).

(** bench/cache/cache.hpp:58-86  [rand_major].  [rand] holds [col] values drawn
    from [uniform_int_distribution<size_t>{0, col}], both ends included.
    Simplification: the draws are stored in an array of [T = float] and
    converted back, which is exact below 2^24. *)
Definition bench_rand_major (row col : nat) (rand : list nat) (A : Mat) : outcome T :=
  for_ 0 row (fun i sum =>
    for_ 0 col (fun j sum =>
      let* r := vget rand j in
      let* a := aget A i r in
      let* v := xadd (ld sum) (ld a) in
      Ok (st v)) sum) (lite S 0).

(** what the generator of [rand_major] may produce (lines 65-74) *)
Definition rand_draws (col : nat) (rand : list nat) : Prop :=
  length rand = col /\ forall r, In r rand -> r <= col.

(** bench/inc/setRand.hpp:21-34 and 37-50  [setRand(A)]; [draw k] is the value of
    the k-th call of the distribution *)
Definition setRand (i j : nat) (draw : nat -> T) (A : Mat) : outcome (Mat * nat) :=
  for_ 0 i (fun it s =>
    for_ 0 j (fun jt s =>
      let '(A, k) := s in
      let* A := aset A it jt (draw k) in
      Ok (A, k + 1)) s) (A, 0).

(** bench/multiply/multiply.hpp:22-35  [multiply]; i = j in every instantiation *)
Definition bench_multiply (n : nat) (drawA drawB : nat -> T) (A B : Mat) : outcome Mat :=
  let* A := setRand n n drawA A in
  let* B := setRand n n drawB B in
  mult S n n n (fst A) (fst B).

(** bench/multiply/multiply.hpp:38-49  [multiply_2_2_strassen] *)
Definition bench_strassen (drawA drawB : nat -> T) (A B : Mat) : outcome Mat :=
  let* A := setRand 2 2 drawA A in
  let* B := setRand 2 2 drawB B in
  strassen S (fst A) (fst B).

(** bench/det/det.hpp:22-33  [det] *)
Definition bench_det (n : nat) (draw : nat -> T) (A : Mat) : outcome T :=
  let* A := setRand n n draw A in
  det S n (fst A).

(** bench/inv/inv.hpp:21-32  [inv] *)
Definition bench_inv (n : nat) (draw : nat -> T) (A : Mat) : outcome Mat :=
  let* A := setRand n n draw A in
  inv S n (fst A).

End Bench.
