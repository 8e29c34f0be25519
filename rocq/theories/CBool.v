(** * [bool] as element type

    The templates of /repo/matrix accept [bool]: a [bool] takes part in
    arithmetic as the [int] 0 or 1, and a number stored in a [bool] becomes true
    unless it is zero.  The brace initialisers of inv 2x2 and 3x3
    (matrix_inv.hpp:89, 118), which pow on those sizes instantiates too, narrow
    int to bool: g++ accepts that with a warning, clang++ rejects it. *)

From Coq Require Import ZArith Bool Lia List Arith.
From Coq Require Import Floats.SpecFloat.
From Verif Require Import Base Scalar CInt.
Local Open Scope Z_scope.

(** the value of a [bool] in an expression *)
Definition b2z (b : bool) : Z := if b then 1 else 0.

Definition boolS : scalar :=
  {| elt := bool; xpr := Z; epsT := spec_float;
     ld := b2z;
     st := fun z => negb (z =? 0);
     lit := iconv int32;
     xadd := fun a b => iarith int32 (a + b);
     xsub := fun a b => iarith int32 (a - b);
     xmul := fun a b => iarith int32 (a * b);
     xdiv := idiv int32;
     xneg := fun a => iarith int32 (- a);
     xeq := Z.eqb;
     xlt := Z.ltb;
     xabs := iabs int32;
     gteps := igt_eps;
     (* a double stored in a bool: false for the zeros only *)
     xsqrt := fun a => Ok (match SFsqrt 53 1024 (to_double a) with S754_zero _ => false | _ => true end);
     divsz := fun a n => if n =? 0 then UB DivByZero else Ok (negb ((a mod 2 ^ 64) / n =? 0)) |}.

(** what the operations do on the values of bools *)
Lemma badd a b : (let* v := @xadd boolS (b2z a) (b2z b) in Ok (@st boolS v)) = Ok (a || b)%bool.
Proof. destruct a, b; reflexivity. Qed.
Lemma bsub a b : (let* v := @xsub boolS (b2z a) (b2z b) in Ok (@st boolS v)) = Ok (xorb a b).
Proof. destruct a, b; reflexivity. Qed.
Lemma bmul a b : @xmul boolS (b2z a) (b2z b) = Ok (b2z (a && b)).
Proof. destruct a, b; reflexivity. Qed.
Lemma blite z : lite boolS z = negb (iconv int32 z =? 0).
Proof. reflexivity. Qed.
