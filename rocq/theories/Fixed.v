(** * Fixed point numbers as element type

    The class used where there is no floating point unit: a number is an integer in units of
    [2^-f]; products are shifted right, [(int64_t(a) * b) >> f], so rounded down, and quotients
    are [(int64_t(a) << f) / b], so rounded towards 0.  What happens when a result does not fit is
    left to a policy: [fit z] is [Ok z] or no normal return.  Not code of the repository: a class
    a user instantiates the templates with. *)

From Coq Require Import ZArith List Lia.
From mathcomp Require Import all_ssreflect all_algebra.
From mathcomp Require Import zify ssrZ.
From Verif Require Import Base Scalar Model Spec Loops Struct Alg Exact ExactLemmas Det Sim StatExact.

Set Implicit Arguments.
Unset Strict Implicit.
Unset Printing Implicit Defensive.

Import GRing.Theory.
Local Open Scope ring_scope.
Delimit Scope Z_scope with Z.
Local Notation ltP := ssrnat.ltP (only parsing).
Local Notation leP := ssrnat.leP (only parsing).

(** ** The class *)
Section Class.
Variables (f : Z) (fit : Z -> outcome Z).

Definition x_mul (a b : Z) : outcome Z := fit (a * b / 2 ^ f)%Z.
Definition x_div (a b : Z) : outcome Z :=
  if (b =? 0)%Z then UB DivByZero else fit (Z.quot (a * 2 ^ f) b).
Definition x_sqrt (a : Z) : outcome Z :=
  if (a <? 0)%Z then Throw OverflowError else fit (Z.sqrt (a * 2 ^ f)).

Definition fixS : scalar :=
  {| elt := Z; xpr := Z; epsT := Z; ld := id; st := id;
     lit := fun z => (z * 2 ^ f)%Z;
     xadd := fun a b => fit (a + b)%Z;
     xsub := fun a b => fit (a - b)%Z;
     xmul := x_mul;
     xdiv := x_div;
     xneg := fun a => fit (- a)%Z;
     xeq := Z.eqb;
     xlt := Z.ltb;
     xabs := fun a => fit (Z.abs a);
     gteps := fun a e => (e <? a)%Z;
     xsqrt := x_sqrt;
     divsz := fun a n => bind (fit (n * 2 ^ f)%Z) (x_div a) |}.
End Class.

(** the policy never alters a number, and accepts those up to [B] *)
Definition checked (fit : Z -> outcome Z) : Prop := forall z r, fit z = Ok r -> r = z.
Definition accepts (fit : Z -> outcome Z) (B : Z) : Prop := forall z, (Z.abs z <= B)%Z -> fit z = Ok z.
(** the policy that throws *)
Definition fit_throw (B z : Z) : outcome Z := if (Z.abs z <=? B)%Z then Ok z else Throw OverflowError.

Lemma checked_throw B : checked (fit_throw B).
Proof. by move=> z r; rewrite /fit_throw; case: ifP => // _ [<-]. Qed.
Lemma accepts_throw B : accepts (fit_throw B) B.
Proof. by move=> z /Z.leb_spec0; rewrite /fit_throw => ->. Qed.

Section Runs.
Variables (f : Z) (fit : Z -> outcome Z).
Hypothesis Hf : (0 <= f)%Z.
Hypothesis Hfit : checked fit.
Notation K := (fixS f fit).
Notation u := (2 ^ f)%Z.

Lemma u_pos : (0 < u)%Z. Proof. exact: Z.pow_pos_nonneg. Qed.

Lemma fit_upon z (P : Z -> Prop) : P z -> upon (fit z) P.
Proof. by move=> H r /Hfit ->. Qed.

Lemma dot_fix m (a b : nat -> Z) :
  upon (dot K m a b) (fun v => v = \sum_(0 <= k < m) (a k * b k / u)%Z).
Proof.
move=> v; rewrite /dot => H.
apply: (for_partial (fun k c => c = \sum_(0 <= l < k) (a l * b l / u)%Z) _ _ _ _ _ _ _ _ H); first by lia.
  by rewrite big_geq.
move=> k c c' Hk -> {H}; rewrite big_nat_recr //= /x_mul.
case E1: (fit _) => [x| | | |] //=; rewrite (Hfit E1).
by case E2: (fit _) => [y| | | |] //= [<-]; rewrite (Hfit E2).
Qed.

Lemma dot_returns m (a b : nat -> Z) :
  (forall k, (k < m)%N -> fit (a k * b k / u)%Z = Ok (a k * b k / u)%Z) ->
  (forall k, (k <= m)%N -> let s := \sum_(0 <= l < k) (a l * b l / u)%Z in fit s = Ok s) ->
  dot K m a b = Ok (\sum_(0 <= k < m) (a k * b k / u)%Z).
Proof.
move=> H1 H2; rewrite /dot.
elim: m H1 H2 => [|m IH] H1 H2; first by rewrite big_geq.
rewrite for_snoc; last lia.
rewrite IH; [|by move=> k Hk; apply: H1; lia|by move=> k Hk; apply: H2; lia].
rewrite [bind _ _]/= /x_mul H1 // [bind _ _]/= big_nat_recr //=.
by have := H2 m.+1 (leqnn _); rewrite big_nat_recr //= => ->.
Qed.

(** a run over all elements *)
Lemma acc_fix n m (A : 'M[Z]_(n, m)) (g : Z -> Z) (body : Z -> Z -> outcome Z) :
  (forall a c r, body a c = Ok r -> r = c + g a) ->
  upon (for_ 0 n (fun it r => for_ 0 m (fun jt r =>
    let* a := aget (mxrows A) it jt in body a r) r) 0%Z) (fun v => v = \sum_i \sum_j g (A i j)).
Proof.
move=> Hb v H.
have -> : \sum_i \sum_j g (A i j) = \sum_(0 <= i < n) \sum_(0 <= j < m) g (mxf 0%Z A i j).
  rewrite big_mkord; apply: eq_bigr => i _; rewrite big_mkord; apply: eq_bigr => j _; by rewrite mxf_ord.
apply: (for_partial (fun k c => c = \sum_(0 <= i < k) \sum_(0 <= j < m) g (mxf 0%Z A i j)) _ _ _ _ _ _ _ _ H).
- by lia.
- by rewrite big_geq.
move=> k c c' Hk -> {H} H; rewrite big_nat_recr //=.
apply: (for_partial (fun l c => c = \sum_(0 <= i < k) \sum_(0 <= j < m) g (mxf 0%Z A i j) +
   \sum_(0 <= j < l) g (mxf 0%Z A k j)) _ _ _ _ _ _ _ _ H).
- by lia.
- by rewrite [X in _ + X]big_geq // addr0.
move=> l d d' Hl Ed; rewrite (mxrowsE 0%Z A) aget_mk; try lia.
by move=> /Hb ->; rewrite Ed big_nat_recr //= addrA.
Qed.

Lemma divsz_fix a n : (0 < n)%Z -> upon (@divsz K a n) (fun d => d = Z.quot a n).
Proof.
move=> Hn; have Hu := u_pos; apply: (upon_bind (P := eq (n * u)%Z)); first exact: fit_upon.
move=> _ <-; rewrite /x_div; case: Z.eqb_spec => // _; apply: fit_upon.
by rewrite Z.quot_mul_cancel_r //; lia.
Qed.

Lemma mean_fix n m (A : 'M[Z]_(n, m)) : (0 < n * m)%N -> (Z.of_nat (n * m) < 2 ^ 64)%Z ->
  upon (mean K n m (mxrows A)) (fun d => d = Z.quot (\sum_i \sum_j A i j) (Z.of_nat (n * m))).
Proof.
move=> H0 Hs; rewrite /mean.
apply: (upon_bind (P := eq (\sum_i \sum_j A i j))).
  move=> v /(@acc_fix n m A id (fun a r => bind (@xadd K r a) (fun v => Ok v))) -> //.
  by move=> a c r /=; case E: (fit _) => [x| | | |] //= [<-]; rewrite (Hfit E).
by move=> _ <-; rewrite size_mulE //; apply: divsz_fix; lia.
Qed.

Lemma var_fix n m (A : 'M[Z]_(n, m)) : (0 < n * m)%N -> (Z.of_nat (n * m) < 2 ^ 64)%Z ->
  upon (var K n m (mxrows A)) (fun v => exists2 d, mean K n m (mxrows A) = Ok d &
    v = Z.quot (\sum_i \sum_j ((A i j - d) * (A i j - d) / u)%Z) (Z.of_nat (n * m))).
Proof.
move=> H0 Hs; rewrite /var.
apply: (upon_bind (P := fun d => mean K n m (mxrows A) = Ok d)) => // d Ed.
apply: (upon_bind (P := eq (\sum_i \sum_j ((A i j - d) * (A i j - d) / u)%Z))).
  move=> v /(@acc_fix n m A (fun a => ((a - d) * (a - d) / u)%Z) (fun a r =>
    let* x := @xsub K a d in let* y := @xsub K a d in let* t := @xmul K x y in
    let* v := @xadd K r t in Ok v)) -> //.
  move=> a c r /=; case E: (fit _) => [x| | | |] //=; rewrite (Hfit E) /x_mul.
  case E1: (fit _) => [y| | | |] //=; rewrite (Hfit E1).
  by case E2: (fit _) => [z| | | |] //= [<-]; rewrite (Hfit E2).
move=> _ <- v; rewrite size_mulE // => /divsz_fix E; exists d => //.
by apply: E; lia.
Qed.
End Runs.
