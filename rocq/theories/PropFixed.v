(** * Property C108: matrices of fixed point numbers *)

From Coq Require Import ZArith List Lia.
From mathcomp Require Import all_ssreflect all_algebra.
From mathcomp Require Import zify ssrZ.
From Verif Require Import Base Scalar Model Spec Loops Struct Alg Exact ExactLemmas Det ConvExact Sim StatExact Preds
  PropAlg PropTrans Fixed.

Set Implicit Arguments.
Unset Strict Implicit.
Unset Printing Implicit Defensive.

Import GRing.Theory.
Local Open Scope ring_scope.
Delimit Scope Z_scope with Z.
Local Notation ltP := ssrnat.ltP (only parsing).
Local Notation leP := ssrnat.leP (only parsing).

Section Fixed.
Variables (f : Z) (fit : Z -> outcome Z).
Hypothesis Hf : (0 <= f)%Z.
Hypothesis Hfit : checked fit.
Notation K := (fixS f fit).
(** the number 1, in units of the last place *)
Notation u := (2 ^ f)%Z.
Let Hu : (0 < u)%Z. Proof. exact: u_pos. Qed.

Lemma relM_eq n m C (X : 'M[Z]_(n, m)) : @relM K [ringType of Z] eq n m C X -> C = mxrows X.
Proof. by move=> [g [-> H]]; apply: esym; apply: mxrows_mk => i j; rewrite H. Qed.

Lemma Zsum_le m (g h : 'I_m -> Z) : (forall k, (g k <= h k)%Z) -> (\sum_k g k <= \sum_k h k)%Z.
Proof. by move=> H; elim/big_rec2: _ => // k x y _ H1; apply: Z.add_le_mono. Qed.
Lemma Zsum_const m c : \sum_(k < m) c = (Z.of_nat m * c)%Z.
Proof. by rewrite big_const_ord iter_addr_0; lia. Qed.
Lemma sum_pick k j (c : Z) : \sum_(0 <= l < k) (if Nat.eqb l j then c else 0%Z) = if (j < k)%N then c else 0%Z.
Proof.
elim: k => [|k IH]; first by rewrite big_geq.
rewrite big_nat_recr //= IH; case: (Nat.eqb_spec k j) => [->|Hj].
  by rewrite ltnn ltnSn add0r.
by rewrite addr0; have -> : (j < k.+1)%N = (j < k)%N by lia.
Qed.
Lemma div_near x a : (Z.abs x <= a)%Z -> (Z.abs (x / u) <= a / u + 1)%Z.
Proof.
move=> H; have H1 := Z.div_le_mono x a u Hu ltac:(lia); have H2 := Z.div_le_mono (- a) x u Hu ltac:(lia).
have := Z.div_mod a u ltac:(lia); have := Z.mod_pos_bound a u Hu.
have := Z.div_mod (- a) u ltac:(lia); have := Z.mod_pos_bound (- a) u Hu.
nia.
Qed.

(** ** Sums are exact if they fit *)
Theorem c108_sum n m (A B : 'M[Z]_(n, m)) C : sum K n m (mxrows A) (mxrows B) = Ok C -> C = mxrows (A + B).
Proof.
rewrite (mxrowsE 0%Z A) (mxrowsE 0%Z B) sum_tab => H; apply: relM_eq.
apply: (@tabM_sim K [ringType of Z] eq n m _ (A + B) _ _ H) => i j; rewrite !mxf_ord mxE.
by apply: upon_bind (fit_upon Hfit (P := eq (A i j + B i j)) erefl) _ => _ <- r [<-].
Qed.
Theorem c108_sub n m (A B : 'M[Z]_(n, m)) C : sub K n m (mxrows A) (mxrows B) = Ok C -> C = mxrows (A - B).
Proof.
rewrite (mxrowsE 0%Z A) (mxrowsE 0%Z B) sub_tab => H; apply: relM_eq.
apply: (@tabM_sim K [ringType of Z] eq n m _ (A - B) _ _ H) => i j; rewrite !mxf_ord !mxE.
by apply: upon_bind (fit_upon Hfit (P := eq (A i j - B i j)) erefl) _ => _ <- r [<-].
Qed.
Theorem c108_sum_returns n m (A B : 'M[Z]_(n, m)) Bd : accepts fit Bd ->
  (forall i j, (Z.abs (A i j + B i j) <= Bd)%Z) -> sum K n m (mxrows A) (mxrows B) = Ok (mxrows (A + B)).
Proof.
move=> Ha H; rewrite (mxrowsE 0%Z A) (mxrowsE 0%Z B) sum_tab.
by apply: tabM_mx => i j; rewrite !mxf_ord mxE /= Ha.
Qed.

(** ** Products: every term is rounded down *)
Lemma mult_fix n m p (A : 'M[Z]_(n, m)) (B : 'M[Z]_(m, p)) C : mult K n m p (mxrows A) (mxrows B) = Ok C ->
  C = mxrows (\matrix_(i < n, j < p) \sum_(k < m) (A i k * B k j / u)%Z).
Proof.
rewrite (mxrowsE 0%Z A) (mxrowsE 0%Z B) mult_tab => H; apply: relM_eq.
apply: (@tabM_sim K [ringType of Z] eq n p _ _ _ _ H) => i j v /(dot_fix Hfit) ->.
by rewrite mxE big_mkord; apply: eq_bigr => k _; rewrite !mxf_ord.
Qed.
Theorem c108_mult n m p (A : 'M[Z]_(n, m)) (B : 'M[Z]_(m, p)) C : mult K n m p (mxrows A) (mxrows B) = Ok C ->
  exists D : 'M[Z]_(n, p), C = mxrows D /\
    forall i j, (0 <= (A *m B) i j - D i j * u <= Z.of_nat m * (u - 1))%Z.
Proof.
move=> /mult_fix ->; eexists; split; first reflexivity.
have D x : (0 <= x - x / u * u <= u - 1)%Z.
  have := Z.div_mod x u ltac:(lia); have := Z.mod_pos_bound x u Hu; lia.
move=> i j; rewrite !mxE.
have -> : (\sum_j0 A i j0 * B j0 j - (\sum_(k < m) (A i k * B k j / u)%Z) * u)%Z =
    \sum_(k < m) (A i k * B k j - A i k * B k j / u * u)%Z.
  have G : forall x y z : Z, (x - y * z)%Z = x - y * z by [].
  by rewrite G mulr_suml -sumrB.
split; last by rewrite -Zsum_const; apply: Zsum_le => k; case: (D (A i k * B k j)%Z).
have H0 : \sum_(k < m) 0%Z = 0%Z by rewrite Zsum_const; lia.
by rewrite -{1}H0; apply: Zsum_le => k; case: (D (A i k * B k j)%Z).
Qed.
Theorem c108_mult_returns n m p (A : 'M[Z]_(n, m)) (B : 'M[Z]_(m, p)) a b Bd : accepts fit Bd ->
  (forall i j, (Z.abs (A i j) <= a)%Z) -> (forall i j, (Z.abs (B i j) <= b)%Z) ->
  (Z.of_nat m * (a * b / u + 1) <= Bd)%Z -> (0 <= a)%Z -> (0 <= b)%Z -> returns (mult K n m p (mxrows A) (mxrows B)).
Proof.
move=> Hacc HA HB H Ha Hb.
have T (i : 'I_n) (j : 'I_p) l : (l < m)%N ->
    (Z.abs (mxf 0%Z A i l * mxf 0%Z B l j / u) <= a * b / u + 1)%Z.
  move=> Hl; rewrite -[l]/(val (Ordinal Hl)) !mxf_ord; apply: div_near.
  by rewrite Z.abs_mul; apply: Z.mul_le_mono_nonneg => //; exact: Z.abs_nonneg.
have C0 : (0 <= a * b / u)%Z by apply: Z.div_pos => //; nia.
rewrite (mxrowsE 0%Z A) (mxrowsE 0%Z B) mult_tab.
exists (mk n p (fun i j => \sum_(0 <= k < m) (mxf 0%Z A i k * mxf 0%Z B k j / u)%Z)).
apply: tabM_ok => i j /ltP Hi /ltP Hj; have {}T := T (Ordinal Hi) (Ordinal Hj).
have Hq : forall k, (k <= m)%N -> (Z.of_nat k * (a * b / u + 1) <= Bd)%Z.
  by move=> k Hk; apply: Z.le_trans H; apply: Z.mul_le_mono_nonneg_r; lia.
apply: dot_returns => k Hk.
  apply: Hacc; apply: (Z.le_trans _ _ _ (T k Hk)).
  by have := Hq 1%N ltac:(lia); lia.
apply: Hacc; apply: (Z.le_trans _ (Z.of_nat k * (a * b / u + 1))); last exact: Hq.
elim: k Hk => [|k IH] Hk; first by rewrite big_geq.
rewrite big_nat_recr //; apply: (Z.le_trans _ _ _ (Z.abs_triangle _ _)).
rewrite Nat2Z.inj_succ Z.mul_succ_l; apply: Z.add_le_mono; [exact: IH (ltnW Hk)|exact: T k Hk].
Qed.

Theorem c108_eye n m (A : 'M[Z]_(n, m)) Bd : accepts fit Bd -> (forall i j, (Z.abs (A i j) <= Bd)%Z) ->
  (let* I1 := eye1 K m in mult K n m m (mxrows A) I1) = Ok (mxrows A) /\
  (let* I1 := eye1 K n in mult K n n m I1 (mxrows A)) = Ok (mxrows A).
Proof.
move=> Hacc HA.
have E i j : (if Nat.eqb i j then lite K 1 else lite K 0) = (if Nat.eqb i j then u else 0%Z).
  by rewrite -[lite K 1]/(1 * u)%Z -[lite K 0]/(0 * u)%Z Z.mul_1_l Z.mul_0_l.
have T (c : Z) l j : (c * (if Nat.eqb l j then u else 0) / u = if Nat.eqb l j then c else 0)%Z.
  by case: Nat.eqb; [rewrite Z.div_mul; lia|rewrite Z.mul_0_r Z.div_0_l; lia].
have Bd0 (i : 'I_n) (j : 'I_m) : (0 <= Bd)%Z by have := HA i j; lia.
rewrite !eye1_mk ![bind _ _]/= (mxrowsE 0%Z A) !mult_tab; split.
  rewrite -(mxrowsE 0%Z A); apply: tabM_mx => i j.
  have S k : \sum_(0 <= l < k) (mxf 0%Z A i l * (if Nat.eqb l j then lite K 1 else lite K 0) / u)%Z =
      if (j < k)%N then A i j else 0%Z.
    rewrite -(sum_pick k j (A i j)); apply: eq_bigr => l _; rewrite E T.
    by case: Nat.eqb_spec => // ->; rewrite mxf_ord.
  rewrite dot_returns ?S ?ltn_ord // => k Hk.
    rewrite E T; case: Nat.eqb_spec => [->|_]; apply: Hacc; rewrite ?mxf_ord //.
    exact: Bd0 i j.
  by rewrite S; case: ifP => _; apply: Hacc => //; exact: Bd0 i j.
rewrite -(mxrowsE 0%Z A); apply: tabM_mx => i j.
have S k : \sum_(0 <= l < k) ((if Nat.eqb i l then lite K 1 else lite K 0) * mxf 0%Z A l j / u)%Z =
    if (i < k)%N then A i j else 0%Z.
  rewrite -(sum_pick k i (A i j)); apply: eq_bigr => l _; rewrite E Z.mul_comm T Nat.eqb_sym.
  by case: Nat.eqb_spec => // ->; rewrite mxf_ord.
rewrite dot_returns ?S ?ltn_ord // => k Hk.
  rewrite E Z.mul_comm T; case: Nat.eqb_spec => [<-|_]; apply: Hacc; rewrite ?mxf_ord //.
  exact: Bd0 i j.
by rewrite S; case: ifP => _; apply: Hacc => //; exact: Bd0 i j.
Qed.

(** ** Order and symmetry of products *)
Theorem c108_trans n m p (A B : matrix Z) : shape n m A -> shape m p B ->
  forall C, (let* C := mult K n m p A B in trans K n p C) = Ok C <->
    (let* Y := trans K m p B in let* X := trans K n m A in mult K p m n Y X) = Ok C.
Proof.
by move=> HA HB C; apply: c79_mult => // a b; rewrite /= /x_mul Z.mul_comm.
Qed.
Theorem c108_gram n m (A : 'M[Z]_(n, m)) C : mult K n m n (mxrows A) (mxrows A^T) = Ok C ->
  exists D : 'M[Z]_n, C = mxrows D /\ D^T = D.
Proof.
move=> /mult_fix ->; eexists; split; first reflexivity.
by apply/matrixP => i j; rewrite !mxE; apply: eq_bigr => k _; rewrite !mxE Z.mul_comm.
Qed.

(** ** Integers: exact *)
Definition whole n m (A : 'M[Z]_(n, m)) : matrix Z := mxrows (map_mx (fun z => (z * 2 ^ f)%Z) A).
Notation rw := (fun (a x : Z) => a = (x * u)%Z).

Lemma sim_whole : @sim K [ringType of Z] rw rw.
Proof.
split=> //.
- move=> a x b y -> ->; apply: (fit_upon Hfit); exact: (esym (Z.mul_add_distr_r x y u)).
- move=> a x b y -> ->; apply: (fit_upon Hfit); exact: (esym (Z.mul_sub_distr_r x y u)).
move=> a x b y -> ->; apply: (fit_upon Hfit).
have -> : (x * u * (y * u) = (x * y * u) * u)%Z by lia.
by rewrite Z.div_mul //; lia.
Qed.
Lemma whole_in n m (A : 'M[Z]_(n, m)) : @relM K [ringType of Z] rw n m (whole A) A.
Proof.
exists (mxf 0%Z (map_mx (fun z => (z * u)%Z) A)); split; first exact: mxrowsE.
by move=> i j; rewrite mxf_ord mxE.
Qed.
Lemma whole_out n m C (A : 'M[Z]_(n, m)) : @relM K [ringType of Z] rw n m C A -> C = whole A.
Proof. by move=> [g [-> H]]; apply: esym; apply: mxrows_mk => i j; rewrite H mxE. Qed.

Theorem c108_int_mult n m p (A : 'M[Z]_(n, m)) (B : 'M[Z]_(m, p)) C :
  mult K n m p (whole A) (whole B) = Ok C -> C = whole (A *m B).
Proof. by move=> E; apply: whole_out; apply: (mult_sim sim_whole (whole_in A) (whole_in B) E). Qed.
Theorem c108_int_pow n w (A : 'M[Z]_n) q C : pow K n w (whole A) (Z.of_nat q) = Ok C -> C = whole (mxpow A q).
Proof. by move=> E; apply: whole_out; apply: (pow_sim sim_whole (whole_in A) E). Qed.
Theorem c108_int_det n (A : 'M[Z]_n) d : (0 < n <= 3)%N -> det K n (whole A) = Ok d -> d = (\det A * u)%Z.
Proof. by move=> Hn E; apply: (det_sim sim_whole Hn (whole_in A) E). Qed.
Theorem c108_int_conv2 n m (A : 'M[Z]_(n, m)) (k : 'M[Z]_3) C :
  (Z.of_nat n <= 2 ^ 31)%Z -> (Z.of_nat m <= 2 ^ 31)%Z ->
  conv2 K n m (whole A) (whole k) = Ok C -> C = whole (octave_same A (rot180 k)).
Proof.
move=> Hn Hm E.
have := conv2_sim sim_whole Hn Hm (whole_in A) (whole_in k) E => /whole_out ->.
by congr mxrows; apply/matrixP => i j; rewrite !mxE octave_correlation.
Qed.

(** ** mean, var, stddev *)
Section Stat.
Variables n m : nat.
Hypothesis H0 : (0 < n * m)%N.
Hypothesis Hs : (Z.of_nat (n * m) < 2 ^ 64)%Z.
Notation N := (Z.of_nat (n * m)).
Implicit Type A : 'M[Z]_(n, m).

Theorem c108_mean A d : mean K n m (mxrows A) = Ok d ->
  (Z.abs (N * d - \sum_i \sum_j A i j) < N)%Z /\
  forall lo hi, (forall i j, lo <= A i j <= hi)%Z -> (lo <= d <= hi)%Z.
Proof.
move=> /(mean_fix Hf Hfit H0 Hs) ->; split.
  have E := Z.quot_rem' (\sum_i \sum_j A i j) N.
  have := Z.rem_bound_abs (\sum_i \sum_j A i j) N ltac:(lia).
  by move: (Z.quot _ _) (Z.rem _ _) E => q r; lia.
move=> lo hi H; have Hl : forall z, (Z.quot (N * z) N = z)%Z by move=> z; rewrite Z.mul_comm Z.quot_mul //; lia.
have B x : \sum_(i < n) \sum_(j < m) x = (N * x)%Z.
  rewrite big_const_ord iter_addr_0 big_const_ord iter_addr_0 -mulrnA mulnC; lia.
have [L1 L2] : (N * lo <= \sum_i \sum_j A i j <= N * hi)%Z.
  rewrite -!B; split.
    by elim/big_rec2: _ => // i x y _ Hxy; rewrite -!/(_ + _)%Z; apply: Z.add_le_mono => //;
       elim/big_rec2: _ => // j x' y' _ Hxy'; apply: Z.add_le_mono => //; case: (H i j).
  by elim/big_rec2: _ => // i x y _ Hxy; rewrite -!/(_ + _)%Z; apply: Z.add_le_mono => //;
       elim/big_rec2: _ => // j x' y' _ Hxy'; apply: Z.add_le_mono => //; case: (H i j).
by split; [rewrite -(Hl lo)|rewrite -(Hl hi)]; apply: Z.quot_le_mono => //; lia.
Qed.
Theorem c108_var A v : var K n m (mxrows A) = Ok v -> (0 <= v)%Z.
Proof.
move=> /(var_fix Hf Hfit H0 Hs) [d _ ->]; apply: Z.quot_pos; last lia.
elim/big_rec: _ => // i x _ Hx; apply: Z.add_nonneg_nonneg => //.
elim/big_rec: _ => // j y _ Hy; apply: Z.add_nonneg_nonneg => //.
by apply: Z.div_pos => //; apply: Z.square_nonneg.
Qed.
(** the deviation is the root of the variance rounded down *)
Theorem c108_stddev A d : stddev K n m (mxrows A) = Ok d ->
  exists2 v, var K n m (mxrows A) = Ok v & (0 <= d /\ d * d <= v * u < (d + 1) * (d + 1))%Z.
Proof.
rewrite /stddev; case E: (var _ _ _ _) => [v| | | |] //= H; exists v => //.
have Hv := c108_var E; move: H; rewrite /x_sqrt; case: Z.ltb_spec => // _ /Hfit ->.
split; first exact: Z.sqrt_nonneg.
by have := Z.sqrt_spec (v * u)%Z ltac:(nia); lia.
Qed.
End Stat.

(** ** 2 x 2 *)
Notation mx2 a b c d := [:: [:: a; b]; [:: c; d]].
Theorem c108_det2 (a b c d e : Z) : det K 2 (mx2 a b c d) = Ok e -> (Z.abs (e * u - (a * d - b * c)) < u)%Z.
Proof.
rewrite /= /det2 /= /x_mul; case E1: (fit _) => [x| | | |] //=; case E2: (fit _) => [y| | | |] //=.
case E3: (fit _) => [z| | | |] //= [<-]; rewrite (Hfit E3) (Hfit E1) (Hfit E2).
have D1 := Z.div_mod (a * d) u ltac:(lia); have D2 := Z.div_mod (b * c) u ltac:(lia).
have M1 := Z.mod_pos_bound (a * d) u Hu; have M2 := Z.mod_pos_bound (b * c) u Hu.
by lia.
Qed.
Theorem c108_inv2_singular (a b c d : Z) : (a * d = b * c)%Z -> ~ returns (inv K 2 (mx2 a b c d)).
Proof.
move=> E [X]; rewrite /= /inv2 /= /det2 /= /x_mul E; case E1: (fit _) => [x| | | |] //=.
by case E3: (fit _) => [z| | | |] //=; rewrite (Hfit E3) Z.sub_diag.
Qed.
Theorem c108_inv2 (a b c d : Z) X : inv K 2 (mx2 a b c d) = Ok X ->
  exists e x y z w, [/\ det K 2 (mx2 a b c d) = Ok e, e <> 0%Z, X = mx2 x y z w &
    [/\ Z.abs (e * x - d * u) < Z.abs e, Z.abs (e * y + b * u) < Z.abs e,
        Z.abs (e * z + c * u) < Z.abs e & Z.abs (e * w - a * u) < Z.abs e]%Z].
Proof.
rewrite /= /inv2; case Ed: (det _ _ _) => [e| | | |] //=; case: Z.eqb_spec => // He.
case E1: (fit _) => [nb| | | |] //=; case E2: (fit _) => [nc| | | |] //=.
rewrite (Hfit E1) (Hfit E2) {E1 E2 nb nc}.
pose g i j := match i, j with 0%N, 0%N => d | 0%N, _ => (- b)%Z | _, 0%N => (- c)%Z | _, _ => a end.
rewrite -[[:: [:: d; _]; _]]/(mk 2 2 g) /op_div div_tab /=.
case: Z.eqb_spec => [//|_] H; have [h [EX Hh]] := tabM_inv 0%Z _ _ _ _ H.
have D x y : x_div f fit x e = Ok y -> (Z.abs (e * y - x * u) < Z.abs e)%Z.
  rewrite /x_div; case: Z.eqb_spec => // _ /Hfit ->.
  have Q := Z.quot_rem' (x * u) e; have := Z.rem_bound_abs (x * u) e He.
  by move: (Z.quot _ _) (Z.rem _ _) Q => q r; lia.
exists e, (h 0%N 0%N), (h 0%N 1%N), (h 1%N 0%N), (h 1%N 1%N).
have G i j : (i < 2)%N -> (j < 2)%N -> x_div f fit (g i j) e = Ok (h i j).
  move=> Hi Hj; have := Hh i j ltac:(lia) ltac:(lia); rewrite /=.
  by case: (x_div _ _ _ _) => [z| | | |] //= [->].
split=> //; have := D _ _ (G 0%N 0%N erefl erefl); have := D _ _ (G 0%N 1%N erefl erefl).
by have := D _ _ (G 1%N 0%N erefl erefl); have := D _ _ (G 1%N 1%N erefl erefl); rewrite /g; split; lia.
Qed.

(** ** compare is exact *)
Theorem c108_compare n m (A B : 'M[Z]_(n, m)) e Bd : accepts fit Bd -> (forall i j, (Z.abs (A i j - B i j) <= Bd)%Z) ->
  exists b, compare K n m (mxrows A) (mxrows B) e = Ok b /\ (b = true <-> forall i j, (Z.abs (A i j - B i j) <= e)%Z).
Proof.
move=> Hacc H; rewrite (mxrowsE 0%Z A) (mxrowsE 0%Z B).
have [|b [-> Hb]] := @compare_mk K n m (mxf 0%Z A) (mxf 0%Z B) (fun i j => Z.abs (mxf 0%Z A i j - mxf 0%Z B i j)) e.
  move=> i j /ltP Hi /ltP Hj; rewrite -[i]/(val (Ordinal Hi)) -[j]/(val (Ordinal Hj)) !mxf_ord /cmp_diff /=.
  by rewrite Hacc //= Hacc // Z.abs_eq //; exact: Z.abs_nonneg.
exists b; split=> //; rewrite Hb; split=> [G i j|G i j /ltP Hi /ltP Hj].
  have := G i j (ltP (ltn_ord i)) (ltP (ltn_ord j)); rewrite !mxf_ord /=; lia.
have := G (Ordinal Hi) (Ordinal Hj); rewrite -[i]/(val (Ordinal Hi)) -[j]/(val (Ordinal Hj)) !mxf_ord /=; lia.
Qed.
End Fixed.

(** ** What does not hold, and concrete runs: 8 binary places in 32 bits, overflow throws *)
Definition Q24_8 : scalar := fixS 8 (fit_throw 2147483647).

Theorem c108_policy : checked (fit_throw 2147483647) /\ accepts (fit_throw 2147483647) 2147483647.
Proof. by split; [exact: checked_throw|exact: accepts_throw]. Qed.

(** a 3 x 3 matrix whose third row is the sum of the others has an inverse *)
Theorem c108_singular3 : exists a b c d e g : Z,
  let A := [:: [:: a; b; c]; [:: d; e; g]; [:: (a + d); (b + e); (c + g)]]%Z in
  det Q24_8 3 A = Ok (-1)%Z /\ exists B, inv Q24_8 3 A = Ok B.
Proof.
exists (-625)%Z, 265%Z, 835%Z, 743%Z, 664%Z, (-771)%Z; split; first by vm_compute.
by eexists; vm_compute.
Qed.
(** 15/256 times the unit matrix is refused *)
Theorem c108_small : inv Q24_8 2 [:: [:: 15%Z; 0%Z]; [:: 0%Z; 15%Z]] = Throw OverflowError.
Proof. by vm_compute. Qed.
(** the sign of a factor does not come out of the product, nor can factors be regrouped *)
Theorem c108_sign : mult Q24_8 1 1 1 [:: [:: 1%Z]] [:: [:: 1%Z]] = Ok [:: [:: 0%Z]] /\
  mult Q24_8 1 1 1 [:: [:: (-1)%Z]] [:: [:: 1%Z]] = Ok [:: [:: (-1)%Z]].
Proof. by split; vm_compute. Qed.
Theorem c108_regroup : let a := [:: [:: 1%Z]] in let b := [:: [:: 128%Z]] in let c := [:: [:: 512%Z]] in
  (let* x := mult Q24_8 1 1 1 a b in mult Q24_8 1 1 1 x c) = Ok [:: [:: 0%Z]] /\
  (let* y := mult Q24_8 1 1 1 b c in mult Q24_8 1 1 1 a y) = Ok [:: [:: 1%Z]].
Proof. by split; vm_compute. Qed.

(** 1.5 2 / 0.25 3 times 2 -1 / 0.5 1; mean and deviation; an overflow *)
Theorem c108_example : [/\
  mult Q24_8 2 2 2 [:: [:: 384; 512]; [:: 64; 768]]%Z [:: [:: 512; -256]; [:: 128; 256]]%Z
    = Ok [:: [:: 1024; 128]; [:: 512; 704]]%Z,
  mean Q24_8 2 2 [:: [:: 1; 2]; [:: 3; 4]]%Z = Ok 2%Z,
  stddev Q24_8 1 2 [:: [:: 0; 1024]]%Z = Ok 512%Z &
  mult Q24_8 1 1 1 [:: [:: 2000000000]]%Z [:: [:: 512]]%Z = Throw OverflowError].
Proof. by split; vm_compute. Qed.

Print Assumptions c108_mult.
Print Assumptions c108_eye.
Print Assumptions c108_int_conv2.
Print Assumptions c108_inv2.
