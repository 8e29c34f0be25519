(** * Exact integers of bounded absolute value: when the functions return *)

From Coq Require Import ZArith List Lia.
From mathcomp Require Import all_ssreflect all_algebra.
From mathcomp Require Import zify ssrZ.
From Flocq Require Import IEEE754.BinarySingleNaN.
From Verif Require Import Base Scalar Model CInt CFloat Spec Loops Struct Conv Exact ExactLemmas Alg Det ConvExact Pow Sim IntMx
  Param ParamInst.

Set Implicit Arguments.
Unset Strict Implicit.
Unset Printing Implicit Defensive.

Import GRing.Theory.
Local Open Scope ring_scope.
Delimit Scope Z_scope with Z.

(** all entries have absolute value at most [a] *)
Definition mx_le n m (A : 'M[Z]_(n, m)) (a : Z) : Prop := forall i j, (Z.abs (A i j) <= a)%Z.

Section Bounded.
Variable B : Z.
Hypothesis HB : (1 <= B)%Z.
Notation K := (boundedS B).

Lemma chk_ok z : (Z.abs z <= B)%Z -> chk B z = Ok z.
Proof. by move=> H; rewrite /chk; case: Z.leb_spec => //; lia. Qed.
Lemma chk_inv z v : chk B z = Ok v -> v = z.
Proof. by rewrite /chk; case: ifP => // _ [->]. Qed.

Lemma sim_bounded : @sim K _ eq eq.
Proof. by split=> //= a x b y -> -> v /chk_inv. Qed.

Lemma relM_bin n m (A : 'M[Z]_(n, m)) : @relM K _ eq n m (mxrows A) A.
Proof. by exists (mxf Z0 A); split; [exact: mxrowsE | move=> i j; rewrite mxf_ord]. Qed.
Lemma relM_bout n m C (X : 'M[Z]_(n, m)) : @relM K _ eq n m C X -> C = mxrows X.
Proof. by move=> [f [-> Hf]]; symmetry; apply: mxrows_mk => i j; rewrite Hf. Qed.

(** ** element by element *)
Section Elementwise.
Variables (n m : nat) (X Y : 'M[Z]_(n, m)) (a b : Z).
Hypotheses (Ha : mx_le X a) (Hb : mx_le Y b).

Lemma bsum : (a + b <= B)%Z -> sum K n m (mxrows X) (mxrows Y) = Ok (mxrows (X + Y)).
Proof.
move=> H; rewrite (mxrowsE Z0 X) (mxrowsE Z0 Y) (mxrowsE Z0 (X + Y)) sum_tab.
apply: tabM_ok => i j /ssrnat.ltP Hi /ssrnat.ltP Hj.
rewrite -[i]/(val (Ordinal Hi)) -[j]/(val (Ordinal Hj)) !mxf_ord !mxE /= chk_ok //.
have := @Ha (Ordinal Hi) (Ordinal Hj); have := @Hb (Ordinal Hi) (Ordinal Hj); lia.
Qed.

Lemma bsub : (a + b <= B)%Z -> sub K n m (mxrows X) (mxrows Y) = Ok (mxrows (X - Y)).
Proof.
move=> H; rewrite (mxrowsE Z0 X) (mxrowsE Z0 Y) (mxrowsE Z0 (X - Y)) sub_tab.
apply: tabM_ok => i j /ssrnat.ltP Hi /ssrnat.ltP Hj.
rewrite -[i]/(val (Ordinal Hi)) -[j]/(val (Ordinal Hj)) !mxf_ord !mxE /= chk_ok //.
have := @Ha (Ordinal Hi) (Ordinal Hj); have := @Hb (Ordinal Hi) (Ordinal Hj); lia.
Qed.

Lemma bmult_scalar s : (a * Z.abs s <= B)%Z ->
  mult_scalar K n m (mxrows X) s = Ok (mxrows (map_mx (fun x => x * s)%Z X)).
Proof.
clear Hb; move=> H; rewrite (mxrowsE Z0 X) (mxrowsE Z0 (map_mx _ X)) mult_scalar_tab.
apply: tabM_ok => i j /ssrnat.ltP Hi /ssrnat.ltP Hj.
rewrite -[i]/(val (Ordinal Hi)) -[j]/(val (Ordinal Hj)) !mxf_ord !mxE /= chk_ok //.
apply: Z.le_trans H; rewrite Z.abs_mul; apply: Z.mul_le_mono_nonneg_r; first lia.
exact: Ha.
Qed.
End Elementwise.

(** ** products *)
Lemma bdot m (a b : nat -> Z) a0 b0 :
  (forall k, (k < m)%N -> Z.abs (a k) <= a0)%Z -> (forall k, (k < m)%N -> Z.abs (b k) <= b0)%Z ->
  (Z.of_nat m * (a0 * b0) <= B)%Z ->
  exists v, dot K m a b = Ok v /\ (Z.abs v <= Z.of_nat m * (a0 * b0))%Z.
Proof.
move=> Ha Hb Hm; case: (@for_inv _ (fun k (c : Z) => (Z.abs c <= Z.of_nat k * (a0 * b0))%Z) 0 m
  (fun k c => let* t0 := @xmul K (a k) (b k) in let* v := @xadd K c t0 in Ok (@st K v))
  (lite K 0)).
- lia.
- by rewrite /=; lia.
- move=> k c Hk Hc.
  have Hp : (Z.abs (a k * b k) <= a0 * b0)%Z.
    rewrite Z.abs_mul; apply: Z.mul_le_mono_nonneg; try exact: Z.abs_nonneg.
      by apply: Ha; lia.
    by apply: Hb; lia.
  have P0 : (0 <= a0 * b0)%Z by apply: Z.le_trans (Z.abs_nonneg _) Hp.
  have Hle : (Z.of_nat k * (a0 * b0) + a0 * b0 <= B)%Z.
    have -> : (Z.of_nat k * (a0 * b0) + a0 * b0 = Z.of_nat k.+1 * (a0 * b0))%Z by lia.
    by apply: Z.le_trans Hm; apply: Z.mul_le_mono_nonneg_r => //; lia.
  have P1 : (0 <= Z.of_nat k * (a0 * b0))%Z by apply: Z.mul_nonneg_nonneg; lia.
  exists (c + a k * b k)%Z; split; last by lia.
  by rewrite /= chk_ok; last lia; rewrite /= chk_ok; last lia.
by move=> c [E Hc]; exists c.
Qed.

Lemma bmult n m p (X : 'M[Z]_(n, m)) (Y : 'M[Z]_(m, p)) a b : mx_le X a -> mx_le Y b ->
  (Z.of_nat m * (a * b) <= B)%Z ->
  mult K n m p (mxrows X) (mxrows Y) = Ok (mxrows (X *m Y)) /\ mx_le (X *m Y) (Z.of_nat m * (a * b)).
Proof.
move=> Ha Hb Hm.
have D i j : (i < n)%N -> (j < p)%N ->
  exists v, dot K m (mxf Z0 X i) (fun k => mxf Z0 Y k j) = Ok v /\ (Z.abs v <= Z.of_nat m * (a * b))%Z.
  move=> Hi Hj; apply: bdot => // k Hk.
  - by rewrite -[i]/(val (Ordinal Hi)) -[k]/(val (Ordinal Hk)) mxf_ord.
  - by rewrite -[j]/(val (Ordinal Hj)) -[k]/(val (Ordinal Hk)) mxf_ord.
have [C E] : returns (mult K n m p (mxrows X) (mxrows Y)).
  rewrite (mxrowsE Z0 X) (mxrowsE Z0 Y) mult_tab; apply: returns_tabM => i j Hi Hj.
  by case: (D i j Hi Hj) => v [Ev _]; exists v.
have EC := relM_bout (mult_sim sim_bounded (relM_bin X) (relM_bin Y) E).
rewrite E EC; split=> // i j.
case: (D i j (ltn_ord i) (ltn_ord j)) => v [Ev Hv].
have := @dot_sim K _ eq eq sim_bounded m (mxf Z0 X i) (fun k => mxf Z0 Y k j) (mxf Z0 X i) (fun k => mxf Z0 Y k j)
  (fun _ _ => erefl) (fun _ _ => erefl) v Ev.
rewrite mxE big_mkord => H.
have -> : \sum_j0 X i j0 * Y j0 j = v by rewrite H; apply: eq_bigr => k _; rewrite !mxf_ord.
exact: Hv.
Qed.

(** ** powers *)
Definition pbound n (a : Z) (q : nat) : Z := (Z.of_nat n ^ Z.of_nat q.-1 * a ^ Z.of_nat q)%Z.

Lemma pboundD n a k l : (0 < k)%N -> (0 < l)%N ->
  (Z.of_nat n * (pbound n a k * pbound n a l) = pbound n a (k + l))%Z.
Proof.
case: k l => [|k] [|l] // _ _; rewrite /pbound addSn addnS !succnK.
have -> : Z.of_nat (k + l).+1 = (1 + Z.of_nat k + Z.of_nat l)%Z by lia.
have -> : Z.of_nat (k + l).+2 = (Z.of_nat k.+1 + Z.of_nat l.+1)%Z by lia.
by rewrite !Z.pow_add_r; try lia; ring.
Qed.

Lemma pbound_ge0 n a q : (0 <= a)%Z -> (0 <= pbound n a q)%Z.
Proof. by move=> H; apply: Z.mul_nonneg_nonneg; apply: Z.pow_nonneg; lia. Qed.

Lemma pbound_mono n a k l : (0 < n)%N -> (1 <= a)%Z -> (k <= l)%N -> (pbound n a k <= pbound n a l)%Z.
Proof.
move=> Hn Ha Hk; apply: Z.mul_le_mono_nonneg; try by apply: Z.pow_nonneg; lia.
- by apply: Z.pow_le_mono_r; lia.
- by apply: Z.pow_le_mono_r; lia.
Qed.

Lemma bpow_fuel fuel n w (X : 'M[Z]_n) a q : (0 < n)%N -> (1 <= a)%Z -> mx_le X a -> (0 < q)%N ->
  (pbound n a q <= B)%Z -> (Z.of_nat q < 2 ^ Z.of_nat fuel)%Z ->
  pow_fuel K fuel.+1 n w (mxrows X) (Z.of_nat q) = Ok (mxrows (mxpow X q)) /\ mx_le (mxpow X q) (pbound n a q).
Proof.
move=> Hn Ha HX; elim: fuel w q => [|fuel IH] w q Hq0 HqB Hq.
  by move: Hq => /=; lia.
rewrite [pow_fuel _ _ _ _ _ _]/=.
case: q Hq0 HqB Hq => [|[|q]] // _ HqB Hq.
  rewrite mxpow1; split=> //.
  by have -> : pbound n a 1 = a by rewrite /pbound Z.pow_0_r Z.pow_1_r Z.mul_1_l.
move: (q.+2) (isT : (1 < q.+2)%N) HqB Hq => {}q Hq1 HqB Hq.
have -> : (Z.of_nat q =? 0)%Z = false by lia.
have -> : (Z.of_nat q =? 1)%Z = false by lia.
have -> : (Z.of_nat q <? 0)%Z = false by lia.
rewrite [bind (Ok _) _]/= quot2 rem2.
have h0 : (0 < q./2)%N by lia.
have Eh : (q = odd q + q./2.*2)%N by rewrite odd_double_half.
have hB2 : (pbound n a (q./2 + q./2) <= B)%Z by apply: Z.le_trans HqB; apply: pbound_mono => //; lia.
have hB : (pbound n a q./2 <= B)%Z by apply: Z.le_trans hB2; apply: pbound_mono => //; lia.
case: (IH (Z.max w 32) q./2 h0 hB).
  by move: Hq; rewrite Nat2Z.inj_succ Z.pow_succ_r; lia.
rewrite [pow_fuel _ fuel.+1 _ _ _ _]/= => -> HP /=; rewrite /op_mult.
have [E2 L2] : mult K n n n (mxrows (mxpow X q./2)) (mxrows (mxpow X q./2)) =
    Ok (mxrows (mxpow X (q./2 + q./2)%N)) /\ mx_le (mxpow X (q./2 + q./2)%N) (pbound n a (q./2 + q./2)%N).
  by rewrite mxpowD -[X in mx_le _ X]pboundD //; apply: bmult => //; rewrite pboundD.
case Ho: (odd q) Eh => Eh /=; last first.
  have E3 : (q./2 + q./2)%N = q by lia.
  by rewrite E3 in E2 L2.
rewrite E2 /=; have E3 : (q./2 + q./2).+1 = q by lia.
have EX : pbound n a 1 = a by rewrite /pbound Z.pow_0_r Z.pow_1_r Z.mul_1_l.
have := @bmult n n n (mxpow X (q./2 + q./2)%N) X _ a L2 HX.
have -> : (Z.of_nat n * (pbound n a (q./2 + q./2)%N * a) = pbound n a q)%Z.
  by rewrite -{2}EX pboundD ?addn1 ?E3 //; lia.
by rewrite -mxpowSr E3 => H; exact: H.
Qed.

Lemma bpow n w (X : 'M[Z]_n) a q : (0 < n)%N -> (1 <= a)%Z -> mx_le X a -> (0 < q)%N ->
  (pbound n a q <= B)%Z -> (Z.of_nat q < 2 ^ (Z.max w 32))%Z ->
  pow K n w (mxrows X) (Z.of_nat q) = Ok (mxrows (mxpow X q)).
Proof.
move=> Hn Ha HX Hq0 HqB Hq; rewrite /pow.
have -> : (Z.to_nat (Z.max w 32) + 3 = (Z.to_nat (Z.max w 32) + 2).+1)%coq_nat by lia.
case: (@bpow_fuel (Z.to_nat (Z.max w 32) + 2)%coq_nat n w X a q) => //.
apply: Z.lt_le_trans Hq _; apply: Z.pow_le_mono_r; lia.
Qed.

(** ** convolution *)
Lemma bcorr n m (f k : nat -> nat -> Z) p q a b :
  (forall i j, (i < n)%N -> (j < m)%N -> (Z.abs (f i j) <= a)%Z) ->
  (forall i j, (i < 3)%N -> (j < 3)%N -> (Z.abs (k i j) <= b)%Z) ->
  (0 <= a)%Z -> (0 <= b)%Z ->
  (9 * (b * a) <= B)%Z -> returns (corr K n m f k p q).
Proof.
move=> Hf Hk a0 b0 HB9; have P0 : (0 <= b * a)%Z by apply: Z.mul_nonneg_nonneg.
have st t c ia ib : (ia < 3)%N -> (ib < 3)%N -> (0 <= t <= 8)%Z -> (Z.abs c <= t * (b * a))%Z ->
    exists v, corr_step K n m f k p q c (ia, ib) = Ok v /\ (Z.abs v <= (t + 1) * (b * a))%Z.
  move=> Hia Hib Ht Hc; rewrite /corr_step [X in exists v, X = _ /\ _]/=.
  set pa := (p + _ - 1)%Z; set qb := (q + _ - 1)%Z.
  have Hle : ((t + 1) * (b * a) <= 9 * (b * a))%Z by apply: Z.mul_le_mono_nonneg_r => //; lia.
  case: ifP => H.
    have [Hp Hq] : (Z.to_nat pa < n)%N /\ (Z.to_nat qb < m)%N by move: H; rewrite /inside; lia.
    have L : (Z.abs (k ia ib * f (Z.to_nat pa) (Z.to_nat qb)) <= b * a)%Z.
      rewrite Z.abs_mul; apply: Z.mul_le_mono_nonneg; try exact: Z.abs_nonneg; [exact: Hk|exact: Hf].
    rewrite /= chk_ok; last lia; rewrite /= chk_ok; last lia.
    by eexists; split; first reflexivity; lia.
  rewrite /= chk_ok; last lia.
  by eexists; split; first reflexivity; lia.
rewrite corr_unfold.
have step t c ia ib (F : Z -> outcome Z) : (ia < 3)%N -> (ib < 3)%N -> (0 <= t <= 8)%Z -> (Z.abs c <= t * (b * a))%Z ->
    (forall v, (Z.abs v <= (t + 1) * (b * a))%Z -> returns (F v)) ->
    returns (bind (corr_step K n m f k p q c (ia, ib)) F).
  by move=> h1 h2 h3 h4 H; case: (st t c ia ib h1 h2 h3 h4) => v [-> Hv]; exact: H.
apply: (step 0%Z) => // c0 h0.
apply: (step 1%Z) => // c1 h1.
apply: (step 2%Z) => // c2 h2.
apply: (step 3%Z) => // c3 h3.
apply: (step 4%Z) => // c4 h4.
apply: (step 5%Z) => // c5 h5.
apply: (step 6%Z) => // c6 h6.
apply: (step 7%Z) => // c7 h7.
by case: (st 8%Z c7 2%N 2%N) => // v [E _]; exists v.
Qed.

Lemma mxf_le n m (X : 'M[Z]_(n, m)) a i j : mx_le X a -> (i < n)%N -> (j < m)%N -> (Z.abs (mxf Z0 X i j) <= a)%Z.
Proof. by move=> H Hi Hj; rewrite -[i]/(val (Ordinal Hi)) -[j]/(val (Ordinal Hj)) mxf_ord; exact: H. Qed.

Lemma bconv2 n m (X : 'M[Z]_(n, m)) (Y : 'M[Z]_3) a b : (Z.of_nat n <= 2 ^ 31)%Z -> (Z.of_nat m <= 2 ^ 31)%Z ->
  mx_le X a -> mx_le Y b -> (0 <= a)%Z -> (0 <= b)%Z -> (9 * (b * a) <= B)%Z ->
  conv2 K n m (mxrows X) (mxrows Y) = Ok (mxrows (\matrix_(r < n, c < m) correlation X Y (pos r) (pos c))).
Proof.
move=> Hn Hm HX HY a0 b0 HB9; have [C E] : returns (conv2 K n m (mxrows X) (mxrows Y)).
  rewrite (mxrowsE Z0 X) (mxrowsE Z0 Y) conv2_tab //; apply: returns_tabM => i j _ _.
  by apply: (@bcorr _ _ _ _ _ _ a b) => // ? ? ? ?; exact: mxf_le.
by rewrite E (relM_bout (conv2_sim sim_bounded Hn Hm (relM_bin X) (relM_bin Y) E)).
Qed.

Lemma bconv2_full n m (X : 'M[Z]_(n, m)) (Y : 'M[Z]_3) a b : (Z.of_nat n <= 2 ^ 31)%Z -> (Z.of_nat m <= 2 ^ 31)%Z ->
  mx_le X a -> mx_le Y b -> (0 <= a)%Z -> (0 <= b)%Z -> (9 * (b * a) <= B)%Z ->
  conv2_full K n m (mxrows X) (mxrows Y) =
  Ok (mxrows (\matrix_(r < n + 2, c < m + 2) correlation X Y (pos r - 1)%Z (pos c - 1)%Z)).
Proof.
move=> Hn Hm HX HY a0 b0 HB9; have [C E] : returns (conv2_full K n m (mxrows X) (mxrows Y)).
  rewrite (mxrowsE Z0 X) (mxrowsE Z0 Y) conv2_full_tab //; apply: returns_tabM => i j _ _.
  by apply: (@bcorr _ _ _ _ _ _ a b) => // ? ? ? ?; exact: mxf_le.
by rewrite E (relM_bout (conv2_full_sim sim_bounded Hn Hm (relM_bin X) (relM_bin Y) E)).
Qed.

(** ** straight-line code: run it on the bounds *)
Definition magS : scalar :=
  {| elt := Z; xpr := Z; epsT := unit;
     ld := fun a => a; st := fun a => a; lit := fun z => z;
     xadd := fun a b => chk B (a + b);
     xsub := fun a b => chk B (a + b);
     xmul := fun a b => chk B (a * b);
     xdiv := fun _ _ => UB DivByZero;
     xneg := fun a => chk B a;
     xeq := fun _ _ => false; xlt := fun _ _ => false;
     xabs := fun a => chk B a;
     gteps := fun _ _ => false;
     xsqrt := fun _ => UB BadConversion;
     divsz := fun _ _ => UB DivByZero |}.
Definition mag (m z : Z) : Prop := (Z.abs z <= m)%Z.

Lemma mag_chk m z : mag m z -> refines mag (chk B m) (chk B z).
Proof.
rewrite /mag => H; rewrite {1}/chk; case: Z.leb_spec => // Hm.
by rewrite chk_ok; [exists z | lia].
Qed.
Lemma mag_add m z m' z' : mag m z -> mag m' z' -> refines mag (@xadd magS m m') (@xadd K z z').
Proof. by move=> H H'; apply: mag_chk; rewrite /mag in H H' *; lia. Qed.
Lemma mag_sub m z m' z' : mag m z -> mag m' z' -> refines mag (@xsub magS m m') (@xsub K z z').
Proof. by move=> H H'; apply: mag_chk; rewrite /mag in H H' *; lia. Qed.
Lemma mag_mul m z m' z' : mag m z -> mag m' z' -> refines mag (@xmul magS m m') (@xmul K z z').
Proof. by move=> H H'; apply: mag_chk; rewrite /mag Z.abs_mul; apply: Z.mul_le_mono_nonneg => //; lia. Qed.

Lemma refines_returns A A' (R : A -> A' -> Prop) o o' : refines R o o' -> returns o -> returns o'.
Proof. by move=> H [v E]; move: H; rewrite E => -[v' [-> _]]; exists v'. Qed.

Lemma Forall2_seq (T T' : Type) (R : T -> T' -> Prop) (f : nat -> T) (g : nat -> T') k :
  (forall i, (i < k)%N -> R (f i) (g i)) -> List.Forall2 R (List.map f (List.seq 0 k)) (List.map g (List.seq 0 k)).
Proof.
move=> Hk; have : forall i, List.In i (List.seq 0 k) -> R (f i) (g i).
  by move=> i; rewrite List.in_seq => -[_ Hi]; apply: Hk; lia.
elim: (List.seq 0 k) => [|x s IH] Hs; first by constructor.
by constructor; [apply: Hs; left | apply: IH => i Hi; apply: Hs; right].
Qed.

Lemma mrel_mk (T T' : Type) (R : T -> T' -> Prop) n m f g :
  (forall i j, (i < n)%N -> (j < m)%N -> R (f i j) (g i j)) -> mrel R (mk n m f) (mk n m g).
Proof. by move=> H; apply: Forall2_seq => i Hi; apply: Forall2_seq => j Hj; exact: H. Qed.

Lemma mag_mx n m (X : 'M[Z]_(n, m)) a : mx_le X a -> mrel mag (mk n m (fun _ _ => a)) (mxrows X).
Proof. by move=> H; rewrite (mxrowsE Z0 X); apply: mrel_mk => i j Hi Hj; exact: mxf_le. Qed.

Ltac magrun := repeat (rewrite chk_ok; [cbn -[chk Z.mul Z.add Z.abs] | nia]).

Lemma bstrassen (X Y : 'M[Z]_2) a b : mx_le X a -> mx_le Y b -> (0 <= a)%Z -> (0 <= b)%Z ->
  (12 * (a * b) <= B)%Z -> (2 * a <= B)%Z -> (2 * b <= B)%Z ->
  strassen K (mxrows X) (mxrows Y) = Ok (mxrows (X *m Y)).
Proof.
move=> HX HY a0 b0 H12 Ha Hb; have [C E] : returns (strassen K (mxrows X) (mxrows Y)).
  apply: refines_returns (@strassen_ref magS K mag mag (fun _ _ h => h) (fun _ _ h => h) _ mag_add mag_mul mag_sub
    _ _ _ _ (mag_mx HX) (mag_mx HY)) _ => //.
  rewrite /strassen; cbn -[chk Z.mul Z.add Z.abs returns].
  have P : (0 <= a * b)%Z by apply: Z.mul_nonneg_nonneg.
  magrun; by eexists.
by rewrite E (relM_bout (strassen_sim sim_bounded (relM_bin X) (relM_bin Y) E)).
Qed.

Lemma bdet1 (X : 'M[Z]_1) : det K 1 (mxrows X) = Ok (\det X).
Proof.
have [d E] : returns (det K 1 (mxrows X)) by rewrite (mxrowsE Z0 X); eexists.
by rewrite E (det_sim sim_bounded (isT : (0 < 1 <= 3)%N) (relM_bin X) E).
Qed.

Lemma bdet2 (X : 'M[Z]_2) a : mx_le X a -> (0 <= a)%Z -> (2 * (a * a) <= B)%Z ->
  det K 2 (mxrows X) = Ok (\det X).
Proof.
move=> HX a0 H2; have [d E] : returns (det K 2 (mxrows X)).
  apply: refines_returns (@det_small_ref magS K mag mag (fun _ _ h => h) (fun _ _ h => h) mag_add mag_mul mag_sub
    2 _ _ _ (mag_mx HX)) _; first by lia.
  have P : (0 <= a * a)%Z by apply: Z.mul_nonneg_nonneg.
  cbn -[chk Z.mul Z.add Z.abs returns]; magrun; by eexists.
by rewrite E (det_sim sim_bounded (isT : (0 < 2 <= 3)%N) (relM_bin X) E).
Qed.

Lemma bdet3 (X : 'M[Z]_3) a : mx_le X a -> (0 <= a)%Z -> (6 * (a * a * a) <= B)%Z -> (a * a <= B)%Z ->
  det K 3 (mxrows X) = Ok (\det X).
Proof.
move=> HX a0 H6 H2; have [d E] : returns (det K 3 (mxrows X)).
  apply: refines_returns (@det_small_ref magS K mag mag (fun _ _ h => h) (fun _ _ h => h) mag_add mag_mul mag_sub
    3 _ _ _ (mag_mx HX)) _; first by lia.
  have P : (0 <= a * a * a)%Z by apply: Z.mul_nonneg_nonneg => //; apply: Z.mul_nonneg_nonneg.
  have P2 : (0 <= a * a)%Z by apply: Z.mul_nonneg_nonneg.
  have M3 : mul3 magS a a a = Ok (a * a * a)%Z by rewrite /mul3; cbn -[chk Z.mul Z.add Z.abs]; magrun.
  cbn -[chk Z.mul Z.add Z.abs returns mul3]; rewrite M3; cbn -[chk Z.mul Z.add Z.abs returns]; magrun; by eexists.
by rewrite E (det_sim sim_bounded (isT : (0 < 3 <= 3)%N) (relM_bin X) E).
Qed.
End Bounded.
