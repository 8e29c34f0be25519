(** * The model of /repo/matrix

    One Gallina definition per C++ function template.  Template sizes become
    leading [nat] arguments, [const Matrix&] parameters become values, a
    parameter taken by non-const reference becomes an argument whose new value
    is returned.  Loops are [for_] / [for_ret] (Base.v) over the same index
    ranges, in the same order, with the same reads and writes; a subscript past
    the end of an array is [UB OutOfBounds].

    Simplifications common to the whole file:
    - [size_t] loop counters and sums of two of them are [nat]: an object with
      2^64 rows cannot exist.  Where the C++ text relies on [size_t] wrap-around
      or on a conversion to [int] (conv2, mean, var, histogram) the wrap is
      written out.
    - Template instantiations that do not compile (e.g. [det] of a non-square
      matrix, [concatenate] of two 2x3 matrices, which is ambiguous) have no
      counterpart; each such restriction is stated where it matters.
    - Evaluation order inside one expression is left to right; no expression in
      the library has side effects, so this is not observable except in which
      of two undefined behaviours is reported. *)

From Coq Require Import List ZArith Lia Bool Arith String Ascii.
Import ListNotations.
From Verif Require Import Base Scalar.

Section Model.
Context (S : scalar).
Notation T := (elt S).
Notation Mat := (matrix (elt S)).

(** ** Constructors *)

(** matrix_fill.hpp:30-40  [fill<T,i,j>(data)]: value-initialise, then
    [a.fill(data)] on every row. *)
Definition fill (i j : nat) (data : T) : Mat :=
  map (fun row => map (fun _ => data) row) (init i j (lite S 0)).

(** matrix_zeros.hpp:30-34  [zeros<T,i,j>()] *)
Definition zeros (i j : nat) : Mat := fill i j (lite S 0).

(** matrix_ones.hpp:28-32  the overload whose first template parameter is an
    unnamed non-type [unsigned int] (here [u], unused by the body); selected by
    [ones<4,4>()] and [ones<4,4,4>()].  Its element type is [unsigned int]. *)
Definition ones_nontype (u : Z) (i j : nat) : Mat := fill i j (lite S 1).

(** [ones<a,b>()] : a binds the unnamed parameter, b binds [i], and [j = i]
    by the default argument (matrix_ones.hpp:28). *)
Definition ones_call2 (a b : nat) : Mat := ones_nontype (Z.of_nat a) b b.

(** matrix_ones.hpp:34-38  [ones<T,i,j>()]; the declared return type is
    [Matrix<T,i,i>], so it only compiles when [j = i]. *)
Definition ones_type (i j : nat) : Mat := fill i j (lite S 1).

(** matrix_eye.hpp:32-42  [eye<T,n>(data = 1)] *)
Definition eye (n : nat) (data : T) : outcome Mat :=
  for_ 0 n (fun i E => aset E i i data) (fill n n (lite S 0)).

(** [eye<T,n>()] with the default argument of matrix_eye.hpp:33. *)
Definition eye1 (n : nat) : outcome Mat := eye n (lite S 1).

(** ** Entrywise operations *)

(** matrix_sum.hpp:32-45  [sum(A, B)] *)
Definition sum (i j : nat) (A B : Mat) : outcome Mat :=
  for_ 0 i (fun it R =>
    for_ 0 j (fun jt R =>
      let* a := aget A it jt in
      let* b := aget B it jt in
      let* v := xadd (ld a) (ld b) in
      aset R it jt (st v)) R) (init i j (lite S 0)).

(** matrix_sum.hpp:56-69  [sum(A, scalar)] *)
Definition sum_scalar (i j : nat) (A : Mat) (scalar : T) : outcome Mat :=
  for_ 0 i (fun it R =>
    for_ 0 j (fun jt R =>
      let* a := aget A it jt in
      let* v := xadd (ld a) (ld scalar) in
      aset R it jt (st v)) R) (init i j (lite S 0)).

(** matrix_sum.hpp:80-84  [A + B] *)
Definition op_plus (i j : nat) (A B : Mat) : outcome Mat := sum i j A B.

(** matrix_sum.hpp:95-99  [A + scalar] *)
Definition op_plus_scalar (i j : nat) (A : Mat) (scalar : T) : outcome Mat :=
  sum_scalar i j A scalar.

(** matrix_sum.hpp:110-114  [scalar + A] *)
Definition op_scalar_plus (i j : nat) (scalar : T) (A : Mat) : outcome Mat :=
  sum_scalar i j A scalar.

(** matrix_sum.hpp:125-129  [A++].  The operand is a [const Matrix&]: the result
    is a pair (value of the expression, operand afterwards) so that "the operand
    is not modified" can be stated. *)
Definition op_postinc (i j : nat) (A : Mat) : outcome (Mat * Mat) :=
  let* r := op_plus_scalar i j A (lite S 1) in Ok (r, A).

(** matrix_sub.hpp:32-45  [sub(A, B)] *)
Definition sub (i j : nat) (A B : Mat) : outcome Mat :=
  for_ 0 i (fun it R =>
    for_ 0 j (fun jt R =>
      let* a := aget A it jt in
      let* b := aget B it jt in
      let* v := xsub (ld a) (ld b) in
      aset R it jt (st v)) R) (init i j (lite S 0)).

(** matrix_sub.hpp:56-69  [sub(A, scalar)] *)
Definition sub_scalar (i j : nat) (A : Mat) (scalar : T) : outcome Mat :=
  for_ 0 i (fun it R =>
    for_ 0 j (fun jt R =>
      let* a := aget A it jt in
      let* v := xsub (ld a) (ld scalar) in
      aset R it jt (st v)) R) (init i j (lite S 0)).

(** matrix_sub.hpp:80-84  [A - B] *)
Definition op_minus (i j : nat) (A B : Mat) : outcome Mat := sub i j A B.

(** matrix_sub.hpp:95-99  [A - scalar] *)
Definition op_minus_scalar (i j : nat) (A : Mat) (scalar : T) : outcome Mat :=
  sub_scalar i j A scalar.

(** matrix_sub.hpp:110-114  [A--], operand a [const Matrix&] as for [A++]. *)
Definition op_postdec (i j : nat) (A : Mat) : outcome (Mat * Mat) :=
  let* r := op_minus_scalar i j A (lite S 1) in Ok (r, A).

(** matrix_abs.hpp:31-43  [abs(A)].  [Matrix<T,i,j> absA;] is not initialised:
    its contents before the loop are the extra argument [junk], an arbitrary
    i x j array. *)
Definition abs (i j : nat) (junk : Mat) (A : Mat) : outcome Mat :=
  for_ 0 i (fun it R =>
    for_ 0 j (fun jt R =>
      let* a := aget A it jt in
      let* v := xabs (ld a) in
      aset R it jt (st v)) R) junk.

(** matrix_div.hpp:32-48  [div(A, scalar)]: [if(scalar == 0) throw;] is a
    rethrow with no exception in flight, i.e. std::terminate. *)
Definition div (n m : nat) (A : Mat) (scalar : T) : outcome Mat :=
  if xeq (ld scalar) (lit 0) then Terminate
  else
    for_ 0 n (fun i R =>
      for_ 0 m (fun j R =>
        let* a := aget A i j in
        let* v := xdiv (ld a) (ld scalar) in
        aset R i j (st v)) R) (init n m (lite S 0)).

(** matrix_div.hpp:59-63  [A / scalar] *)
Definition op_div (i j : nat) (A : Mat) (scalar : T) : outcome Mat :=
  div i j A scalar.

(** ** Products *)

(** matrix_mult.hpp:32-48  [mult(A, B)] *)
Definition mult (n m p : nat) (A B : Mat) : outcome Mat :=
  for_ 0 n (fun i prod =>
    for_ 0 p (fun j prod =>
      for_ 0 m (fun k prod =>
        let* c := aget prod i j in
        let* a := aget A i k in
        let* b := aget B k j in
        let* t := xmul (ld a) (ld b) in
        let* v := xadd (ld c) t in
        aset prod i j (st v)) prod) prod) (zeros n p).

(** matrix_mult.hpp:59-72  [mult(A, scalar)] *)
Definition mult_scalar (i j : nat) (A : Mat) (scalar : T) : outcome Mat :=
  for_ 0 i (fun it R =>
    for_ 0 j (fun jt R =>
      let* a := aget A it jt in
      let* v := xmul (ld a) (ld scalar) in
      aset R it jt (st v)) R) (init i j (lite S 0)).

(** matrix_mult.hpp:83-87  [A * B] *)
Definition op_mult (n m p : nat) (A B : Mat) : outcome Mat := mult n m p A B.

(** matrix_mult.hpp:98-102  [A * scalar] *)
Definition op_mult_scalar (i j : nat) (A : Mat) (scalar : T) : outcome Mat :=
  mult_scalar i j A scalar.

(** matrix_mult.hpp:113-117  [scalar * A] *)
Definition op_scalar_mult (i j : nat) (scalar : T) (A : Mat) : outcome Mat :=
  mult_scalar i j A scalar.

(** matrix_strassen.hpp:34-53  [strassen(A, B)], 2x2 only *)
Definition strassen (A B : Mat) : outcome Mat :=
  let prod := init 2 2 (lite S 0) in
  let* a00 := aget A 0 0 in let* a01 := aget A 0 1 in
  let* a10 := aget A 1 0 in let* a11 := aget A 1 1 in
  let* b00 := aget B 0 0 in let* b01 := aget B 0 1 in
  let* b10 := aget B 1 0 in let* b11 := aget B 1 1 in
  let* t := xsub (ld b01) (ld b11) in
  let* M1 := xmul (ld a00) t in let M1 := st M1 in               (* line 39 *)
  let* t := xadd (ld a00) (ld a01) in
  let* M2 := xmul t (ld b11) in let M2 := st M2 in               (* line 40 *)
  let* t := xadd (ld a10) (ld a11) in
  let* M3 := xmul t (ld b00) in let M3 := st M3 in               (* line 41 *)
  let* t := xsub (ld b10) (ld b00) in
  let* M4 := xmul (ld a11) t in let M4 := st M4 in               (* line 42 *)
  let* t := xadd (ld a00) (ld a11) in
  let* t' := xadd (ld b00) (ld b11) in
  let* M5 := xmul t t' in let M5 := st M5 in                     (* line 43 *)
  let* t := xsub (ld a01) (ld a11) in
  let* t' := xadd (ld b10) (ld b11) in
  let* M6 := xmul t t' in let M6 := st M6 in                     (* line 44 *)
  let* t := xsub (ld a00) (ld a10) in
  let* t' := xadd (ld b00) (ld b01) in
  let* M7 := xmul t t' in let M7 := st M7 in                     (* line 45 *)
  let* t := xadd (ld M5) (ld M4) in
  let* t := xsub t (ld M2) in
  let* t := xadd t (ld M6) in
  let* prod := aset prod 0 0 (st t) in                           (* line 47 *)
  let* t := xadd (ld M1) (ld M2) in
  let* prod := aset prod 0 1 (st t) in                           (* line 48 *)
  let* t := xadd (ld M3) (ld M4) in
  let* prod := aset prod 1 0 (st t) in                           (* line 49 *)
  let* t := xadd (ld M1) (ld M5) in
  let* t' := xadd (ld M3) (ld M7) in
  let* t := xsub t t' in
  aset prod 1 1 (st t).                                          (* line 50 *)

(** ** Rearrangements *)

(** matrix_trans.hpp:31-44  [trans(A)] *)
Definition trans (n m : nat) (A : Mat) : outcome Mat :=
  for_ 0 n (fun i R =>
    for_ 0 m (fun j R =>
      let* a := aget A i j in
      aset R j i a) R) (init m n (lite S 0)).

(** matrix_swap.hpp:32-42  [swap_rows(A, row1, row2)], in place *)
Definition swap_rows (row col : nat) (A : Mat) (row1 row2 : nat) : outcome Mat :=
  if row1 =? row2 then Ok A
  else
    for_ 0 col (fun i A =>
      let* x := aget A row1 i in
      let* y := aget A row2 i in
      let* A := aset A row1 i y in
      aset A row2 i x) A.

(** matrix_swap.hpp:54-64  [swap_cols(A, col1, col2)], in place, a range-for over
    the rows *)
Definition swap_cols (row col : nat) (A : Mat) (col1 col2 : nat) : outcome Mat :=
  if col1 =? col2 then Ok A
  else
    map_out (fun a =>
      let* x := vget a col1 in
      let* y := vget a col2 in
      let* a := vset a col1 y in
      vset a col2 x) A.

(** matrix_concatenate.hpp:79-98  [concatenate(A, B)], same number of columns *)
Definition concatenate_v (i1 i2 j : nat) (A B : Mat) : outcome Mat :=
  let* R := for_ 0 i1 (fun it R =>
    for_ 0 j (fun jt R =>
      let* a := aget A it jt in aset R it jt a) R) (init (i1 + i2) j (lite S 0)) in
  for_ i1 (i1 + i2) (fun it R =>
    for_ 0 j (fun jt R =>
      let* b := aget B (it - i1) jt in aset R it jt b) R) R.

(** matrix_concatenate.hpp:109-125  [concatenate(A, B)], same number of rows *)
Definition concatenate_h (i j1 j2 : nat) (A B : Mat) : outcome Mat :=
  for_ 0 i (fun it R =>
    let* R := for_ 0 j1 (fun jt R =>
      let* a := aget A it jt in aset R it jt a) R in
    for_ j1 (j1 + j2) (fun jt R =>
      let* b := aget B it (jt - j1) in aset R it jt b) R)
    (init i (j1 + j2) (lite S 0)).

(** matrix_concatenate.hpp:136-155  [concatenateV(A, B)], square *)
Definition concatenateV (n : nat) (A B : Mat) : outcome Mat :=
  let* R := for_ 0 n (fun it R =>
    for_ 0 n (fun jt R =>
      let* a := aget A it jt in aset R it jt a) R) (init (n + n) n (lite S 0)) in
  for_ n (n + n) (fun it R =>
    for_ 0 n (fun jt R =>
      let* b := aget B (it - n) jt in aset R it jt b) R) R.

(** matrix_concatenate.hpp:166-182  [concatenateH(A, B)], square *)
Definition concatenateH (n : nat) (A B : Mat) : outcome Mat :=
  for_ 0 n (fun i R =>
    let* R := for_ 0 n (fun j R =>
      let* a := aget A i j in aset R i j a) R in
    for_ n (n + n) (fun j R =>
      let* b := aget B i (j - n) in aset R i j b) R)
    (init n (n + n) (lite S 0)).

(** matrix_concatenate.hpp:35-68  [concatenate(A, B)] for two square matrices:
    a pair (vertical, horizontal).  Line 63 reads [A], not [B]. *)
Definition concatenate_sq (n : nat) (A B : Mat) : outcome (Mat * Mat) :=
  let* first := for_ 0 n (fun i R =>                              (* lines 39-45 *)
    for_ 0 n (fun j R =>
      let* a := aget A i j in aset R i j a) R) (init (n + n) n (lite S 0)) in
  let* first := for_ n (n + n) (fun i R =>                        (* lines 47-53 *)
    for_ 0 n (fun j R =>
      let* b := aget B (i - n) j in aset R i j b) R) first in
  let* second := for_ 0 n (fun i R =>                             (* lines 55-65 *)
    let* R := for_ 0 n (fun j R =>
      let* a := aget A i j in aset R i j a) R in
    for_ n (n + n) (fun j R =>
      let* a := aget A i (j - n) in aset R i j a) R)
    (init n (n + n) (lite S 0)) in
  Ok (first, second).

(** matrix_inv.hpp:33-55  [getminor(A, i, j)]; loop state is
    (minor, rowCount, colCount).  [n-1] of the return type is [n - 1] on [nat]
    (for n = 0 the C++ instantiation does not compile). *)
Definition getminor (n : nat) (A : Mat) (i j : nat) : outcome Mat :=
  let* st3 := for_ 0 n (fun k s =>
    let '(minor, rowCount, colCount) := s in
    if k =? i then Ok s
    else
      let colCount := 0 in
      let* s2 := for_ 0 n (fun l s =>
        let '(minor, colCount) := s in
        if l =? j then Ok s
        else
          let* a := aget A k l in
          let* minor := aset minor rowCount colCount a in
          Ok (minor, colCount + 1)) (minor, colCount) in
      let '(minor, colCount) := s2 in
      Ok (minor, rowCount + 1, colCount))
    (init (n - 1) (n - 1) (lite S 0), 0, 0) in
  let '(minor, _, _) := st3 in Ok minor.

(** ** Determinant *)

(** matrix_det.hpp:32-36  1x1 *)
Definition det1 (A : Mat) : outcome T := aget A 0 0.

(** matrix_det.hpp:46-53  2x2: [a*d - b*c] *)
Definition det2 (A : Mat) : outcome T :=
  let* a := aget A 0 0 in let* b := aget A 0 1 in
  let* c := aget A 1 0 in let* d := aget A 1 1 in
  let* x := xmul (ld a) (ld d) in
  let* y := xmul (ld b) (ld c) in
  let* r := xsub x y in
  Ok (st r).

(** [x*y*z], left associated *)
Definition mul3 (x y z : xpr S) : outcome (xpr S) :=
  let* t := xmul x y in xmul t z.

(** matrix_det.hpp:63-71  3x3: [a*e*i + b*f*g + c*d*h - c*e*g - b*d*i - a*f*h] *)
Definition det3 (A : Mat) : outcome T :=
  let* a := aget A 0 0 in let* b := aget A 0 1 in let* c := aget A 0 2 in
  let* d := aget A 1 0 in let* e := aget A 1 1 in let* f := aget A 1 2 in
  let* g := aget A 2 0 in let* h := aget A 2 1 in let* i := aget A 2 2 in
  let* t1 := mul3 (ld a) (ld e) (ld i) in
  let* t2 := mul3 (ld b) (ld f) (ld g) in
  let* r := xadd t1 t2 in
  let* t3 := mul3 (ld c) (ld d) (ld h) in
  let* r := xadd r t3 in
  let* t4 := mul3 (ld c) (ld e) (ld g) in
  let* r := xsub r t4 in
  let* t5 := mul3 (ld b) (ld d) (ld i) in
  let* r := xsub r t5 in
  let* t6 := mul3 (ld a) (ld f) (ld h) in
  let* r := xsub r t6 in
  Ok (st r).

(** matrix_det.hpp:87-96  the lambda [prod]: product of the diagonal / factor *)
Definition det_prod (n : nat) (A : Mat) (factor : T) : outcome T :=
  let* prod := for_ 0 n (fun i prod =>
    let* a := aget A i i in
    let* v := xmul (ld prod) (ld a) in
    Ok (st v)) (lite S 1) in
  let* q := xdiv (ld prod) (ld factor) in
  Ok (st q).

(** matrix_det.hpp:107-119  the [while] loop that looks for a non-zero pivot.
    [Ret tt] is the [return prod();] of line 116.  Fuelled: one unit per
    evaluation of the loop condition. *)
Fixpoint det_search (fuel n : nat) (A : Mat) (r i pivot : nat)
  : outcome (ctrl (nat * nat) unit) :=
  match fuel with
  | O => OutOfFuel
  | Datatypes.S fuel =>
      let* a := aget A i pivot in
      if xeq (ld a) (lit 0) then
        let i := i + 1 in
        if n =? i then
          let i := r in
          let pivot := pivot + 1 in
          if n =? pivot then Ok (Ret tt)
          else det_search fuel n A r i pivot
        else det_search fuel n A r i pivot
      else Ok (Cont (i, pivot))
  end.

(** matrix_det.hpp:127-138  elimination below the pivot *)
Definition det_eliminate (n : nat) (A : Mat) (r pivot : nat) : outcome Mat :=
  for_ (pivot + 1) n (fun i A =>
    if i =? r then Ok A
    else
      let* val := aget A i pivot in
      for_ pivot n (fun j A =>
        let* aij := aget A i j in
        let* arj := aget A r j in
        let* arp := aget A r pivot in
        let* t := xmul (ld val) (ld arj) in
        let* t := xdiv t (ld arp) in
        let* v := xsub (ld aij) t in
        aset A i j (st v)) A) A.

(** matrix_det.hpp:81-142  nxn: Gaussian elimination on a copy of the argument.
    Loop state is (A, factor, pivot). *)
Definition det_general (n : nat) (A : Mat) : outcome T :=
  let* res := for_ret 0 n (fun r s =>
    let '(A, factor, pivot) := s in
    if n <=? pivot then
      let* d := det_prod n A factor in Ok (Ret d)                  (* lines 100-103 *)
    else
      let* found := det_search (n * n + 1) n A r r pivot in
      match found with
      | Ret _ => let* d := det_prod n A factor in Ok (Ret d)       (* line 116 *)
      | Cont (i, pivot) =>
          let* s2 :=
            (if i =? r then Ok (A, factor)
             else                                                  (* lines 121-125 *)
               let* A := swap_rows n n A i r in
               let* f := xmul (ld factor) (lit (-1)) in
               Ok (A, st f)) in
          let '(A, factor) := s2 in
          let* A := det_eliminate n A r pivot in
          Ok (Cont (A, factor, pivot + 1))
      end) (A, lite S 1, 0) in
  match res with
  | Ret d => Ok d
  | Cont (A, factor, _) => det_prod n A factor                     (* line 141 *)
  end.

(** Overload resolution of [det(A)] on [Matrix<T,n,n>]: the 1x1, 2x2 and 3x3
    overloads are more specialised than the nxn one. *)
Definition det (n : nat) (A : Mat) : outcome T :=
  match n with
  | 1 => det1 A
  | 2 => det2 A
  | 3 => det3 A
  | _ => det_general n A
  end.

(** ** Inverse *)

(** matrix_inv.hpp:65-69  1x1: [1/det(A)], no zero test *)
Definition inv1 (A : Mat) : outcome Mat :=
  let* d := det 1 A in
  let* q := xdiv (lit 1) (ld d) in
  Ok [[st q]].

(** matrix_inv.hpp:80-93  2x2 *)
Definition inv2 (A : Mat) : outcome Mat :=
  let* detA := det 2 A in
  if xeq (ld detA) (lit 0) then Throw OverflowError
  else
    let* a00 := aget A 0 0 in let* a01 := aget A 0 1 in
    let* a10 := aget A 1 0 in let* a11 := aget A 1 1 in
    let* n01 := xneg (ld a01) in
    let* n10 := xneg (ld a10) in
    let invA := [[a11; st n01]; [st n10; a00]] in
    op_div 2 2 invA detA.

(** [x*y - z*w] *)
Definition mul_sub (x y z w : T) : outcome T :=
  let* p := xmul (ld x) (ld y) in
  let* q := xmul (ld z) (ld w) in
  let* r := xsub p q in
  Ok (st r).

(** matrix_inv.hpp:104-123  3x3 *)
Definition inv3 (A : Mat) : outcome Mat :=
  let* detA := det 3 A in
  if xeq (ld detA) (lit 0) then Throw OverflowError
  else
    let* a := aget A 0 0 in let* b := aget A 0 1 in let* c := aget A 0 2 in
    let* d := aget A 1 0 in let* e := aget A 1 1 in let* f := aget A 1 2 in
    let* g := aget A 2 0 in let* h := aget A 2 1 in let* i := aget A 2 2 in
    let* i00 := mul_sub e i f h in let* i01 := mul_sub c h b i in let* i02 := mul_sub b f c e in
    let* i10 := mul_sub f g d i in let* i11 := mul_sub a i c g in let* i12 := mul_sub c d a f in
    let* i20 := mul_sub d h e g in let* i21 := mul_sub b g a h in let* i22 := mul_sub a e b d in
    let invA := [[i00; i01; i02]; [i10; i11; i12]; [i20; i21; i22]] in
    op_div 3 3 invA detA.

(** matrix_inv.hpp:132-145  nxn: transposed cofactor matrix / det *)
Definition inv_general (n : nat) (A : Mat) : outcome Mat :=
  let* detA := det n A in
  let* invA := for_ 0 n (fun i R =>
    for_ 0 n (fun j R =>
      let* mn := getminor n A i j in
      let* d := det (n - 1) mn in
      let* v := xmul (lit (if (i + j) mod 2 =? 0 then 1 else -1)) (ld d) in
      aset R i j (st v)) R) (init n n (lite S 0)) in
  let* t := trans n n invA in
  op_div n n t detA.

(** Overload resolution of [inv(A)] on [Matrix<T,n,n>]. *)
Definition inv (n : nat) (A : Mat) : outcome Mat :=
  match n with
  | 1 => inv1 A
  | 2 => inv2 A
  | 3 => inv3 A
  | _ => inv_general n A
  end.

(** ** Power *)

(** [std::abs(p)] assigned back to [p], where [p] has a signed integer type of
    [w] bits (matrix_pow.hpp:50).  For w < 32 the call is [abs(int)] and the
    assignment narrows modulo 2^w; for w >= 32 the absolute value of the least
    value overflows. *)
Definition abs_assign (w p : Z) : outcome Z :=
  if (w <? 32)%Z then
    let a := Z.abs p in
    Ok ((a + 2 ^ (w - 1)) mod 2 ^ w - 2 ^ (w - 1))%Z
  else if (p =? - 2 ^ (w - 1))%Z then UB SignedOverflow
  else Ok (Z.abs p).

(** matrix_pow.hpp:32-65  [pow(A, p)], [P] a signed integer type of [w] bits
    (an unsigned [P] makes [std::abs(p)] ambiguous, a floating [P] makes [p % 2]
    ill-formed).  [p/2] has the promoted type, so the recursive instantiation is
    at [max w 32] bits.  The initial value [ones<T,n,n>()] of [powA] (line 53)
    is overwritten before it is read. *)
Fixpoint pow_fuel (fuel n : nat) (w : Z) (A : Mat) (p : Z) : outcome Mat :=
  match fuel with
  | O => OutOfFuel
  | Datatypes.S fuel =>
      if (p =? 0)%Z then eye1 n
      else if (p =? 1)%Z then Ok A
      else
        let* Ap :=
          (if (p <? 0)%Z then
             let* A := inv n A in
             let* p := abs_assign w p in
             Ok (A, p)
           else Ok (A, p)) in
        let '(A, p) := Ap in
        let* powA := pow_fuel fuel n (Z.max w 32) A (Z.quot p 2) in
        if (Z.rem p 2 =? 0)%Z then op_mult n n n powA powA
        else
          let* q := op_mult n n n powA powA in
          op_mult n n n q A
  end.

Definition pow (n : nat) (w : Z) (A : Mat) (p : Z) : outcome Mat :=
  pow_fuel (Z.to_nat (Z.max w 32) + 3) n w A p.

(** ** Decompositions *)

(** matrix_lu.hpp:34-68  [lu(A)] *)
Definition lu (n : nat) (A : Mat) : outcome (Mat * Mat) :=
  let* L := eye1 n in
  let U := zeros n n in
  let lu_sum (L U : Mat) (i j : nat) : outcome T :=            (* lines 45-49 and 55-59 *)
    for_ 0 i (fun p sum =>
      let* u := aget U p j in
      let* l := aget L i p in
      let* t := xmul (ld u) (ld l) in
      let* v := xadd (ld sum) t in
      Ok (st v)) (lite S 0) in
  for_ 0 n (fun j LU =>
    let '(L, U) := LU in
    let* U := for_ 0 (j + 1) (fun i U =>                       (* i <= j *)
      let* sum := lu_sum L U i j in
      let* a := aget A i j in
      let* v := xsub (ld a) (ld sum) in
      aset U i j (st v)) U in
    let* L := for_ j n (fun i L =>
      let* sum := lu_sum L U i j in
      let* ujj := aget U j j in
      if xeq (ld ujj) (lit 0) then Throw OverflowError
      else
        let* a := aget A i j in
        let* v := xsub (ld a) (ld sum) in
        let* q := xdiv v (ld ujj) in
        aset L i j (st q)) L in
    Ok (L, U)) (L, U).

(** matrix_cholesky.hpp:29-45  [isSymetric(A)] *)
Definition isSymetric (n : nat) (A : Mat) : outcome bool :=
  let* r := for_ret 1 n (fun i _ =>
    for_ret 0 i (fun j _ =>
      let* a := aget A i j in
      let* b := aget A j i in
      if negb (xeq (ld a) (ld b)) then Ok (Ret false) else Ok (Cont tt)) tt) tt in
  match r with
  | Ret b => Ok b
  | Cont _ => Ok true
  end.

(** matrix_cholesky.hpp:54-86  [chol(A)] *)
Definition chol (n : nat) (A : Mat) : outcome Mat :=
  for_ 0 n (fun i L =>
    for_ 0 (i + 1) (fun j L =>                                 (* j <= i *)
      if j =? i then
        let* sum := for_ 0 i (fun k sum =>
          let* x := aget L i k in
          let* t := xmul (ld x) (ld x) in
          let* v := xadd (ld sum) t in
          Ok (st v)) (lite S 0) in
        let* a := aget A i i in
        let* v := xsub (ld a) (ld sum) in
        let* r := xsqrt v in
        aset L i i r
      else
        let* sum := for_ 0 i (fun k sum =>
          let* x := aget L i k in
          let* y := aget L j k in
          let* t := xmul (ld x) (ld y) in
          let* v := xadd (ld sum) t in
          Ok (st v)) (lite S 0) in
        let* a := aget A i j in
        let* v := xsub (ld a) (ld sum) in
        let* ljj := aget L j j in
        let* q := xdiv v (ld ljj) in
        aset L i j (st q)) L) (init n n (lite S 0)).

(** ** Predicates *)

(** [operator==] of std::array (std::equal), rows then elements *)
Fixpoint vec_eqb (u v : list T) : bool :=
  match u, v with
  | [], [] => true
  | x :: u, y :: v => xeq (ld x) (ld y) && vec_eqb u v
  | _, _ => false
  end.

Fixpoint mat_eqb (A B : Mat) : bool :=
  match A, B with
  | [], [] => true
  | x :: A, y :: B => vec_eqb x y && mat_eqb A B
  | _, _ => false
  end.

(** matrix_utils.hpp:32-38  [isIdentity(A)].  The [static_cast] to
    [Matrix<unsigned int,n,n>] only compiles when [T] is [unsigned int], where it
    is the identity. *)
Definition isIdentity (n : nat) (A : Mat) : outcome bool :=
  let* identity := eye1 n in
  let uiA := A in
  Ok (mat_eqb uiA identity).

(** matrix_utils.hpp:49-63  [compare(A, B, epsilon)] *)
Definition compare (row col : nat) (A B : Mat) (epsilon : epsT S) : outcome bool :=
  let* r := for_ret 0 row (fun i _ =>
    for_ret 0 col (fun j _ =>
      let* a := aget A i j in
      let* b := aget B i j in
      let* d := xsub (ld a) (ld b) in
      let* d := xabs d in
      if gteps d epsilon then Ok (Ret false) else Ok (Cont tt)) tt) tt in
  match r with
  | Ret b => Ok b
  | Cont _ => Ok true
  end.

(** ** Statistics *)

(** [i*j] computed in [std::size_t] *)
Definition size_mul (i j : nat) : Z := ((Z.of_nat i * Z.of_nat j) mod 2 ^ 64)%Z.

(** matrix_mean.hpp:31-43  [mean(A)] *)
Definition mean (i j : nat) (A : Mat) : outcome T :=
  let* result := for_ 0 i (fun it r =>
    for_ 0 j (fun jt r =>
      let* a := aget A it jt in
      let* v := xadd (ld r) (ld a) in
      Ok (st v)) r) (lite S 0) in
  divsz (ld result) (size_mul i j).

(** matrix_var.hpp:31-44  [var(A)] *)
Definition var (i j : nat) (A : Mat) : outcome T :=
  let* meanA := mean i j A in
  let* result := for_ 0 i (fun it r =>
    for_ 0 j (fun jt r =>
      let* a := aget A it jt in
      let* d := xsub (ld a) (ld meanA) in
      let* d' := xsub (ld a) (ld meanA) in
      let* t := xmul d d' in
      let* v := xadd (ld r) t in
      Ok (st v)) r) (lite S 0) in
  divsz (ld result) (size_mul i j).

(** matrix_stddev.hpp:31-35  [stddev(A)] *)
Definition stddev (i j : nat) (A : Mat) : outcome T :=
  let* v := var i j A in
  xsqrt (ld v).

(** [a < b] on stored elements: the comparison used by [std::sort] and
    [std::map<T,...>] *)
Definition elt_lt (a b : T) : bool := xlt (ld a) (ld b).

(** Does [<] restricted to the elements of [v] form a strict weak order?
    Otherwise std::sort and std::map have undefined behaviour. *)
Definition strict_weak (v : list T) : bool :=
  forallb (fun a => negb (elt_lt a a) &&
    forallb (fun b => negb (elt_lt a b && elt_lt b a) &&
      forallb (fun c =>
        (negb (elt_lt a b && elt_lt b c) || elt_lt a c) &&
        (elt_lt a b || elt_lt b a || elt_lt b c || elt_lt c b
         || negb (elt_lt a c || elt_lt c a))) v) v) v.

(** The elements in the order [for it; for jt; v.push_back(A[it][jt])] *)
Definition flatten (i j : nat) (A : Mat) : outcome (list T) :=
  for_ 0 i (fun it v =>
    for_ 0 j (fun jt v =>
      let* a := aget A it jt in Ok (v ++ [a])) v) [].

(** matrix_median.hpp:30-58  [median(A)].  [sort] stands for std::sort: any
    function that returns a sorted permutation when [<] is a strict weak order on
    the elements (Spec.v, [sorts]); otherwise std::sort is undefined.
    Simplification: [floor(size / 2)] goes through [double], which is exact below
    2^53. *)
Definition median (sort : list T -> list T) (i j : nat) (A : Mat) : outcome T :=
  let size := i * j in
  let* v := flatten i j A in
  if negb (strict_weak v) then UB BadOrder
  else
    let v := sort v in
    if size mod 2 =? 0 then
      let* x := vget v (size / 2) in
      let* y := (if size / 2 =? 0 then UB OutOfBounds   (* size/2 - 1 wraps to 2^64-1 *)
                 else vget v (size / 2 - 1)) in
      let* t := xadd (ld x) (ld y) in
      let* q := xdiv t (lit 2) in
      Ok (st q)
    else vget v (size / 2).

(** *** Histograms: [std::map<T, std::size_t>] as a list of bindings in key order *)

(** [m[k]++] *)
Fixpoint map_incr (k : T) (m : list (T * Z)) : list (T * Z) :=
  match m with
  | [] => [(k, (0 + 1) mod 2 ^ 64)%Z]
  | (k', c) :: r =>
      if elt_lt k k' then (k, ((0 + 1) mod 2 ^ 64)%Z) :: (k', c) :: r
      else if elt_lt k' k then (k', c) :: map_incr k r
      else (k', ((c + 1) mod 2 ^ 64)%Z) :: r
  end.

(** [m[k] = v] *)
Fixpoint map_assign (k : T) (v : Z) (m : list (T * Z)) : list (T * Z) :=
  match m with
  | [] => [(k, v)]
  | (k', c) :: r =>
      if elt_lt k k' then (k, v) :: (k', c) :: r
      else if elt_lt k' k then (k', c) :: map_assign k v r
      else (k', v) :: r
  end.

(** matrix_histogram.hpp:31-43  [histogram(A)] *)
Definition histogram (i j : nat) (A : Mat) : outcome (list (T * Z)) :=
  let* v := flatten i j A in
  if negb (strict_weak v) then UB BadOrder
  else
    for_ 0 i (fun it h =>
      for_ 0 j (fun jt h =>
        let* a := aget A it jt in Ok (map_incr a h)) h) [].

(** matrix_histogram.hpp:54-67  [cumulative_histogram(A)]; the range-for visits
    the bindings in key order *)
Definition cumulative_histogram (i j : nat) (A : Mat) : outcome (list (T * Z)) :=
  let* histA := histogram i j A in
  let '(result, _) :=
    fold_left (fun s p =>
      let '(result, cumul_sum) := s in
      let cumul_sum := ((cumul_sum + snd p) mod 2 ^ 64)%Z in
      (map_assign (fst p) cumul_sum result, cumul_sum)) histA ([], 0%Z) in
  Ok result.

(** ** Convolution *)

(** conversion of a [size_t] value to [int] (32 bits, modular) *)
Definition size_to_int (z : Z) : Z := ((z + 2 ^ 31) mod 2 ^ 32 - 2 ^ 31)%Z.

(** matrix_conv2.hpp:42-62 and 94-114  the lambda [isOutOfRange] (same text
    twice): counts how many range tests fail *)
Definition isOutOfRange (i j : nat) (a b : Z) : nat :=
  (if (a <? 0)%Z then 1 else 0) + (if (b <? 0)%Z then 1 else 0)
  + (if (Z.of_nat i <=? a mod 2 ^ 32)%Z then 1 else 0)
  + (if (Z.of_nat j <=? b mod 2 ^ 32)%Z then 1 else 0).

(** The [size_t] subscript [it + d - off] *)
Definition conv_index (it : nat) (d off : Z) : Z :=
  (((Z.of_nat it + d) mod 2 ^ 64 - off) mod 2 ^ 64)%Z.

(** One line of matrix_conv2.hpp:69-77 (off = 0) / 121-129 (off = 1):
    [result[it][jt] += (isOutOfRange(it+di-off, jt+dj-off) ? 0
                        : kernel[ka][kb] * A[it+di-off][jt+dj-off])] *)
Definition conv_line (i j : nat) (A kernel : Mat) (off : Z) (it jt : nat)
  (ka kb : nat) (di dj : Z) (R : Mat) : outcome Mat :=
  let ii := conv_index it di off in
  let jj := conv_index jt dj off in
  let* r := aget R it jt in
  let* t :=
    (if isOutOfRange i j (size_to_int ii) (size_to_int jj) =? 0 then
       let* k := aget kernel ka kb in
       let* a := agetz A ii jj in
       xmul (ld k) (ld a)
     else Ok (@lit S 0)) in
  let* v := xadd (ld r) t in
  aset R it jt (st v).

(** The body shared by lines 68-77 and 120-129 *)
Definition conv_cell (i j : nat) (A kernel : Mat) (off : Z) (it jt : nat) (R : Mat)
  : outcome Mat :=
  let line := conv_line i j A kernel off it jt in
  let* R := aset R it jt (lite S 0) in
  let* R := line 0 0 (-1)%Z (-1)%Z R in
  let* R := line 0 1 (-1)%Z 0%Z R in
  let* R := line 0 2 (-1)%Z 1%Z R in
  let* R := line 1 0 0%Z (-1)%Z R in
  let* R := line 1 1 0%Z 0%Z R in
  let* R := line 1 2 0%Z 1%Z R in
  let* R := line 2 0 1%Z (-1)%Z R in
  let* R := line 2 1 1%Z 0%Z R in
  line 2 2 1%Z 1%Z R.

(** matrix_conv2.hpp:38-81  [conv2(A, kernel)] *)
Definition conv2 (i j : nat) (A kernel : Mat) : outcome Mat :=
  for_ 0 i (fun it R =>
    for_ 0 j (fun jt R => conv_cell i j A kernel 0 it jt R) R)
    (init i j (lite S 0)).

(** matrix_conv2.hpp:88-133  [conv2_full(A, kernel)] *)
Definition conv2_full (i j : nat) (A kernel : Mat) : outcome Mat :=
  for_ 0 (i + 2) (fun it R =>
    for_ 0 (j + 2) (fun jt R => conv_cell i j A kernel 1 it jt R) R)
    (init (i + 2) (j + 2) (lite S 0)).

(** matrix_conv2.hpp:139-144  [conv2_valid(A, kernel)]; compiles only for square
    [A] (getminor takes an nxn matrix), so one size. *)
Definition conv2_valid (n : nat) (A kernel : Mat) : outcome Mat :=
  let* c := conv2 n n A kernel in
  let* tmp1 := getminor n c (n - 1) (n - 1) in
  getminor (n - 1) tmp1 0 0.

(** ** Printing *)

(** matrix_print.hpp:36-45,69-81  [print(A)]: each element followed by one
    space, each row by one newline.  [show] is what [std::cout << num] writes;
    the result is everything written to the stream. *)
Definition newline : string := String (ascii_of_nat 10) EmptyString.

Definition print (show : T -> string) (I J : nat) (A : Mat) : outcome string :=
  for_ 0 I (fun i out =>
    let* out := for_ 0 J (fun j out =>
      let* tmp := aget A i j in
      Ok (out ++ show tmp ++ " ")%string) out in
    Ok (out ++ newline)%string) EmptyString.

(** matrix_print.hpp:48-66,69-81  the same [print] when PRINT_IOSTREAM_ENABLE
    is not defined: print_num and print_endl have empty bodies, the elements
    are still read. *)
Definition print_off (I J : nat) (A : Mat) : outcome string :=
  for_ 0 I (fun i out => for_ 0 J (fun j out => let* _ := aget A i j in Ok out) out) EmptyString.

End Model.
