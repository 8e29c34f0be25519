(** * Property C62: floating point is exact on integers that are small enough

    Every binary format.  [holds X A]: the floating-point matrix A has the shape of
    the integer matrix X and, at every position, a finite element whose value is
    exactly that of X.  [mx_le X a]: all entries of X have absolute value <= a. *)

From Coq Require Import ZArith List Lia.
From mathcomp Require Import all_ssreflect all_algebra.
From mathcomp Require Import zify ssrZ.
From Flocq Require Import IEEE754.BinarySingleNaN Core.Core.
From Verif Require Import Base Scalar Model CInt CFloat Spec Loops Struct Conv Exact ExactLemmas Alg Det ConvExact Pow Sim IntMx
  Param ParamInst BoundedInt.

Set Implicit Arguments.
Unset Strict Implicit.
Unset Printing Implicit Defensive.

Import GRing.Theory.
Local Open Scope ring_scope.
Delimit Scope Z_scope with Z.

Section Format.
Variables prec emax : Z.
Context {Hp : Prec_gt_0 prec} {He : Prec_lt_emax prec emax}.
Notation fl := (binary_float prec emax).
Notation K := (floatS prec emax).
Notation Bd := (2 ^ prec)%Z.

Definition value (z : Z) (x : fl) : Prop := is_finite x = true /\ B2R x = Rdefinitions.IZR z.
Definition holds n m (X : 'M[Z]_(n, m)) (A : matrix fl) : Prop := mrel value (mxrows X) A.

Lemma Bd_ge1 : (1 <= Bd)%Z.
Proof. have := Z.pow_pos_nonneg 2 prec; have : (0 < prec)%Z by []; lia. Qed.
Let HB : (1 <= Bd <= Bd)%Z. Proof. by have := Bd_ge1; lia. Qed.

Notation RB := (relB prec emax Bd).

Lemma F2_mono (T T' : Type) (R Q : T -> T' -> Prop) u v :
  (forall a b, R a b -> Q a b) -> List.Forall2 R u v -> List.Forall2 Q u v.
Proof. by move=> H F; elim: F => [|a b u' v' Hab _ IH]; constructor; auto. Qed.

Lemma holds_in n m (X : 'M[Z]_(n, m)) A a : mx_le X a -> (a <= Bd)%Z -> holds X A -> mrel RB (mxrows X) A.
Proof.
move=> HX Ha; rewrite /holds /mrel /mxrows.
have : List.Forall (List.Forall (fun z => (Z.abs z <= Bd)%Z)) (mxrows X).
  rewrite (mxrowsE Z0 X) /mk; apply/List.Forall_map/List.Forall_forall => i; rewrite List.in_seq => -[_ Hi].
  apply/List.Forall_map/List.Forall_forall => j; rewrite List.in_seq => -[_ Hj].
  have hi : (i < n)%N by lia.
  have hj : (j < m)%N by lia.
  by have := mxf_le HX hi hj; lia.
rewrite -/(mxrows X); elim: (mxrows X) A => [|r rs IH] A FA HA; inversion HA as [|? ? ? ? Hr Hrs]; subst; constructor.
  inversion FA as [|? ? Fr _]; subst.
  elim: Hr Fr => [|z x r1 r2 Hz _ IHr] Fr; constructor.
    by inversion Fr; subst; split.
  by apply: IHr; inversion Fr.
by apply: IH => //; inversion FA.
Qed.

Lemma holds_out n m (X : 'M[Z]_(n, m)) A : mrel RB (mxrows X) A -> holds X A.
Proof. by apply: F2_mono => u v; apply: F2_mono => z x [H _]. Qed.

Lemma exact_run n m (X : 'M[Z]_(n, m)) o o' : refines (mrel RB) o o' -> o = Ok (mxrows X) ->
  exists C, o' = Ok C /\ holds X C.
Proof. by move=> H E; move: H; rewrite E => -[C [-> HC]]; exists C; split=> //; exact: holds_out. Qed.

Let ldB : forall a a', RB a a' -> RB (@ld (boundedS Bd) a) (@ld K a') := fun _ _ h => h.
Let stB : forall a a', RB a a' -> RB (@st (boundedS Bd) a) (@st K a') := fun _ _ h => h.
Let l0 : RB (@lit (boundedS Bd) 0) (@lit K 0) := B_0 prec emax Bd HB.
Let l1 : RB (@lit (boundedS Bd) 1) (@lit K 1) := B_1 prec emax Bd HB.
Let addB := B_add prec emax Bd HB.
Let subB := B_sub prec emax Bd HB.
Let mulB := B_mul prec emax Bd HB.

Theorem c62_sum n m (X Y : 'M[Z]_(n, m)) A B a b : holds X A -> holds Y B -> mx_le X a -> mx_le Y b ->
  (0 <= a)%Z -> (0 <= b)%Z -> (a + b <= Bd)%Z ->
  exists C, sum K n m A B = Ok C /\ holds (X + Y) C.
Proof.
move=> HA HY Ha Hb a0 b0 H.
have hA : mrel RB (mxrows X) A by apply: holds_in Ha _ HA; lia.
have hB : mrel RB (mxrows Y) B by apply: holds_in Hb _ HY; lia.
apply: exact_run (bsum Bd_ge1 Ha Hb H).
exact: (@sum_ref (boundedS Bd) K RB RB ldB stB l0 addB).
Qed.

Theorem c62_sub n m (X Y : 'M[Z]_(n, m)) A B a b : holds X A -> holds Y B -> mx_le X a -> mx_le Y b ->
  (0 <= a)%Z -> (0 <= b)%Z -> (a + b <= Bd)%Z ->
  exists C, sub K n m A B = Ok C /\ holds (X - Y) C.
Proof.
move=> HA HY Ha Hb a0 b0 H.
have hA : mrel RB (mxrows X) A by apply: holds_in Ha _ HA; lia.
have hB : mrel RB (mxrows Y) B by apply: holds_in Hb _ HY; lia.
apply: exact_run (bsub Bd_ge1 Ha Hb H).
exact: (@sub_ref (boundedS Bd) K RB RB ldB stB l0 subB).
Qed.

Theorem c62_mult_scalar n m (X : 'M[Z]_(n, m)) A a s x : holds X A -> value s x -> mx_le X a ->
  (a <= Bd)%Z -> (Z.abs s <= Bd)%Z -> (a * Z.abs s <= Bd)%Z ->
  exists C, mult_scalar K n m A x = Ok C /\ holds (map_mx (fun z => z * s)%Z X) C.
Proof.
move=> HA Hs Ha aB sB H.
have hA : mrel RB (mxrows X) A by apply: holds_in Ha _ HA.
apply: exact_run (bmult_scalar Ha H).
exact: (@mult_scalar_ref (boundedS Bd) K RB RB ldB stB l0 mulB).
Qed.

(** a product of matrices with entries up to [a] and [b]: m*a*b <= 2^prec *)
Theorem c62_mult n m p (X : 'M[Z]_(n, m)) (Y : 'M[Z]_(m, p)) A B a b :
  holds X A -> holds Y B -> mx_le X a -> mx_le Y b -> (a <= Bd)%Z -> (b <= Bd)%Z ->
  (Z.of_nat m * (a * b) <= Bd)%Z ->
  exists C, mult K n m p A B = Ok C /\ holds (X *m Y) C.
Proof.
move=> HA HY Ha Hb aB bB H.
have hA : mrel RB (mxrows X) A by apply: holds_in Ha _ HA.
have hB : mrel RB (mxrows Y) B by apply: holds_in Hb _ HY.
case: (bmult Bd_ge1 Ha Hb H) => E _; apply: exact_run E.
exact: (@mult_ref (boundedS Bd) K RB RB ldB stB l0 addB mulB).
Qed.

(** a power: n^(q-1) * a^q <= 2^prec *)
Theorem c62_pow n w (X : 'M[Z]_n) A a q : holds X A -> mx_le X a -> (0 < n)%N -> (0 < q)%N -> (1 <= a <= Bd)%Z ->
  (Z.of_nat n ^ Z.of_nat q.-1 * a ^ Z.of_nat q <= Bd)%Z -> (Z.of_nat q < 2 ^ 32)%Z ->
  exists C, pow K n w A (Z.of_nat q) = Ok C /\ holds (mxpow X q) C.
Proof.
move=> HA Ha n0 q0 [a1 aB] H Hq.
have hA : mrel RB (mxrows X) A by apply: holds_in Ha _ HA.
have E : pow (boundedS Bd) n w (mxrows X) (Z.of_nat q) = Ok (mxrows (mxpow X q)).
  apply: (bpow Bd_ge1) Ha _ H _ => //.
  apply: Z.lt_le_trans Hq _; apply: Z.pow_le_mono_r; lia.
apply: exact_run E.
by apply: (@pow_ref (boundedS Bd) K RB RB ldB stB l0 addB mulB l1) => //; lia.
Qed.

(** strassen needs a little more room than the plain product: its intermediate
    sums are larger *)
Theorem c62_strassen (X Y : 'M[Z]_2) A B a b : holds X A -> holds Y B -> mx_le X a -> mx_le Y b ->
  (0 <= a)%Z -> (0 <= b)%Z -> (2 * a <= Bd)%Z -> (2 * b <= Bd)%Z -> (12 * (a * b) <= Bd)%Z ->
  exists C, strassen K A B = Ok C /\ holds (X *m Y) C.
Proof.
move=> HA HY Ha Hb a0 b0 a2 b2 H.
have hA : mrel RB (mxrows X) A by apply: holds_in Ha _ HA; lia.
have hB : mrel RB (mxrows Y) B by apply: holds_in Hb _ HY; lia.
apply: exact_run (bstrassen Bd_ge1 Ha Hb a0 b0 H a2 b2).
exact: (@strassen_ref (boundedS Bd) K RB RB ldB stB l0 addB mulB subB).
Qed.

Lemma exact_elt d o o' : refines RB o o' -> o = Ok d -> exists x, o' = Ok x /\ value d x.
Proof. by move=> H E; move: H; rewrite E => -[x [-> [H _]]]; exists x. Qed.

Theorem c62_det1 (X : 'M[Z]_1) A a : holds X A -> mx_le X a -> (a <= Bd)%Z ->
  exists x, det K 1 A = Ok x /\ value (\det X) x.
Proof.
move=> HA Ha aB; have hA : mrel RB (mxrows X) A by apply: holds_in Ha _ HA.
apply: exact_elt (bdet1 Bd X).
apply: (@det_small_ref (boundedS Bd) K RB RB ldB stB addB mulB subB) => //; lia.
Qed.

Theorem c62_det2 (X : 'M[Z]_2) A a : holds X A -> mx_le X a -> (0 <= a <= Bd)%Z -> (2 * (a * a) <= Bd)%Z ->
  exists x, det K 2 A = Ok x /\ value (\det X) x.
Proof.
move=> HA Ha [a0 aB] H; have hA : mrel RB (mxrows X) A by apply: holds_in Ha _ HA.
apply: exact_elt (bdet2 Bd_ge1 Ha a0 H).
apply: (@det_small_ref (boundedS Bd) K RB RB ldB stB addB mulB subB) => //; lia.
Qed.

Theorem c62_det3 (X : 'M[Z]_3) A a : holds X A -> mx_le X a -> (0 <= a <= Bd)%Z -> (6 * (a * a * a) <= Bd)%Z ->
  exists x, det K 3 A = Ok x /\ value (\det X) x.
Proof.
move=> HA Ha [a0 aB] H; have hA : mrel RB (mxrows X) A by apply: holds_in Ha _ HA.
have H2 : (a * a <= Bd)%Z.
  case: (Z.eq_dec a 0) => [->|a1]; first by lia.
  by apply: Z.le_trans H; clear -a0 a1; nia.
apply: exact_elt (bdet3 Bd_ge1 Ha a0 H H2).
apply: (@det_small_ref (boundedS Bd) K RB RB ldB stB addB mulB subB) => //; lia.
Qed.

(** the nine products of a convolution: 9*a*b <= 2^prec *)
Theorem c62_conv2 n m (X : 'M[Z]_(n, m)) (Y : 'M[Z]_3) A k a b : holds X A -> holds Y k -> mx_le X a -> mx_le Y b ->
  (Z.of_nat n <= 2 ^ 31)%Z -> (Z.of_nat m <= 2 ^ 31)%Z ->
  (0 <= a <= Bd)%Z -> (0 <= b <= Bd)%Z -> (9 * (b * a) <= Bd)%Z ->
  (exists C, conv2 K n m A k = Ok C /\ holds (\matrix_(r < n, c < m) correlation X Y (pos r) (pos c)) C) /\
  (exists C, conv2_full K n m A k = Ok C /\
    holds (\matrix_(r < n + 2, c < m + 2) correlation X Y (pos r - 1)%Z (pos c - 1)%Z) C).
Proof.
move=> HA HY Ha Hb Hn Hm [a0 aB] [b0 bB] H.
have hA : mrel RB (mxrows X) A by apply: holds_in Ha _ HA.
have hk : mrel RB (mxrows Y) k by apply: holds_in Hb _ HY.
split.
  apply: exact_run (bconv2 Bd_ge1 Hn Hm Ha Hb a0 b0 H).
  exact: (@conv2_ref (boundedS Bd) K RB RB ldB stB l0 addB mulB).
apply: exact_run (bconv2_full Bd_ge1 Hn Hm Ha Hb a0 b0 H).
exact: (@conv2_full_ref (boundedS Bd) K RB RB ldB stB l0 addB mulB).
Qed.

(** every integer matrix with entries up to 2^prec has its copy *)
Theorem c62_exists n m (X : 'M[Z]_(n, m)) : mx_le X Bd ->
  holds X (List.map (List.map (f_of_Z prec emax)) (mxrows X)).
Proof.
move=> H; rewrite /holds (mxrowsE Z0 X) /mk List.map_map; apply: Forall2_seq => i Hi.
rewrite List.map_map; apply: Forall2_seq => j Hj.
exact: (rep_lit prec emax _ (mxf_le H Hi Hj)).
Qed.
End Format.

(** the hypotheses on a concrete product in [double]: entries up to 10^5, 50 terms *)
Example c62_ex (X : 'M[Z]_(7, 50)) (Y : 'M[Z]_(50, 3)) : mx_le X 100000 -> mx_le Y 100000 ->
  exists C, mult float64S 7 50 3 (List.map (List.map (f_of_Z 53 1024)) (mxrows X))
    (List.map (List.map (f_of_Z 53 1024)) (mxrows Y)) = Ok C /\ @holds 53 1024 _ _ (X *m Y) C.
Proof.
move=> HX HY; apply: (@c62_mult 53 1024 _ _ 7 50 3 X Y _ _ 100000 100000) => //.
- by apply: c62_exists => i j; have := HX i j; lia.
- by apply: c62_exists => i j; have := HY i j; lia.
Qed.

Print Assumptions c62_mult.
Print Assumptions c62_pow.
Print Assumptions c62_strassen.
Print Assumptions c62_det3.
Print Assumptions c62_conv2.
