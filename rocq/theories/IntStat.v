(** * Integer element types: narrow types, absolute value, mean *)

From Coq Require Import ZArith List Lia.
From mathcomp Require Import all_ssreflect all_algebra.
From mathcomp Require Import zify ssrZ.
From Verif Require Import Base Scalar Model CInt Spec Loops Struct Conv Exact ExactLemmas Alg Det StatExact Sim IntMx Int.

Set Implicit Arguments.
Unset Strict Implicit.
Unset Printing Implicit Defensive.

Import GRing.Theory.
Local Open Scope ring_scope.
Delimit Scope Z_scope with Z.

(** a table whose entries return or fail all in the same way *)
Lemma map_out_ub A B (f : A -> outcome B) r l : (forall x, In x l -> returns (f x) \/ f x = UB r) ->
  returns (map_out f l) \/ map_out f l = UB r.
Proof.
elim: l => [|x l IH] H /=; first by left; eexists.
case: (H x); [by left|move=> [y ->]|by move=> ->; right].
case: IH => [z Hz|[ys ->]|->]; [by apply: H; right|by left; eexists|by right].
Qed.

Lemma tabM_ub T n m (f : nat -> nat -> outcome T) r :
  (forall i j, (i < n)%N -> (j < m)%N -> returns (f i j) \/ f i j = UB r) ->
  (exists i j, [/\ (i < n)%N, (j < m)%N & f i j = UB r]) -> tabM n m f = UB r.
Proof.
move=> H [i0 [j0 [Hi0 Hj0 E0]]].
have [[R E]|//] : returns (tabM n m f) \/ tabM n m f = UB r.
  apply: map_out_ub => i /in_seq Hi; apply: map_out_ub => j /in_seq Hj; apply: H; lia.
suff [d _] : exists _ : T, True by case: (tabM_inv d _ _ _ _ E) => g [_ Hg]; move: (Hg i0 j0 (elimT ssrnat.ltP Hi0) (elimT ssrnat.ltP Hj0)); rewrite E0.
case: R E => [|[|d row] R] E; last by exists d.
- by move/map_out_length: E; rewrite seq_length /=; lia.
- case: n Hi0 E {H} => // n _ /= E; case: (bind_inv _ _ _ E) => row [E1 E2].
  case: (bind_inv _ _ _ E2) => rows [_ [E3 _]]; subst row.
  by move/map_out_length: E1; rewrite seq_length /=; lia.
Qed.

(** ** types narrower than int: arithmetic is done in int *)
Section Narrow.
Variable t : ityp.
Hypothesis Hw0 : (0 < width t)%Z.
Hypothesis Hw : (width t <= 16)%Z.
Notation K := (intS t).
Notation conv X := (mxrows (map_mx (iconv t) X)).

Lemma promote_narrow : promote t = int32.
Proof. by rewrite /promote; case: Z.ltb_spec => //; lia. Qed.

Lemma pow2_16 : (0 < 2 ^ (width t - 1))%Z /\ (2 ^ width t = 2 * 2 ^ (width t - 1))%Z /\ (2 ^ width t <= 65536)%Z.
Proof.
split; first by apply: pow2_gt0; lia.
split; first exact: pow2_half.
by apply: (Z.pow_le_mono_r 2 _ 16); lia.
Qed.

Lemma range_narrow a : in_range t a -> (- 32768 <= a < 65536)%Z.
Proof.
have [H1 [H2 H3]] := pow2_16; move=> /in_rangeP; rewrite /imin /imax.
by case: (sgn t); lia.
Qed.

Lemma iarith_narrow z : (- 2147483648 <= z <= 2147483647)%Z -> iarith (promote t) z = Ok z.
Proof. by move=> H; rewrite promote_narrow /iarith /=; have -> : in_range int32 z by apply/in_rangeP. Qed.

Lemma nsum_mx n m (A B : 'M[Z]_(n, m)) : mx_in t A -> mx_in t B ->
  sum K n m (mxrows A) (mxrows B) = Ok (conv (A + B)).
Proof.
move=> HA HB; have [C E] : returns (sum K n m (mxrows A) (mxrows B)).
  rewrite (mxrowsE Z0 A) (mxrowsE Z0 B) sum_tab; apply: returns_tabM => i j Hi Hj.
  rewrite -[i]/(val (Ordinal Hi)) -[j]/(val (Ordinal Hj)) !mxf_ord /= iarith_narrow; first by eexists.
  have := range_narrow (HA (Ordinal Hi) (Ordinal Hj)); have := range_narrow (HB (Ordinal Hi) (Ordinal Hj)); lia.
by rewrite E (isum_conv Hw0 HA HB E).
Qed.

Lemma nsub_mx n m (A B : 'M[Z]_(n, m)) : mx_in t A -> mx_in t B ->
  sub K n m (mxrows A) (mxrows B) = Ok (conv (A - B)).
Proof.
move=> HA HB; have [C E] : returns (sub K n m (mxrows A) (mxrows B)).
  rewrite (mxrowsE Z0 A) (mxrowsE Z0 B) sub_tab; apply: returns_tabM => i j Hi Hj.
  rewrite -[i]/(val (Ordinal Hi)) -[j]/(val (Ordinal Hj)) !mxf_ord /= iarith_narrow; first by eexists.
  have := range_narrow (HA (Ordinal Hi) (Ordinal Hj)); have := range_narrow (HB (Ordinal Hi) (Ordinal Hj)); lia.
by rewrite E (isub_conv Hw0 HA HB E).
Qed.

(** products stay within int for all narrow types but unsigned short *)
Lemma nmul_ok a b c : sgn t \/ (width t <= 15)%Z -> in_range t a -> in_range t b -> in_range t c ->
  exists p, @xmul K a b = Ok p /\ exists v, @xadd K c p = Ok v.
Proof.
move=> Hn /in_rangeP Ha /in_rangeP Hb /in_rangeP Hc.
have Hb15 x : (imin t <= x <= imax t)%Z -> (Z.abs x <= 32768)%Z.
  have [H1 [H2 H3]] := pow2_16; rewrite /imin /imax; case: Hn => [->|H15]; first lia.
  by have := Z.pow_le_mono_r 2 _ _ erefl H15; case: (sgn t); lia.
have Hp : (Z.abs (a * b) <= 32768 * 32768)%Z.
  by rewrite Z.abs_mul; apply: Z.mul_le_mono_nonneg; try exact: Z.abs_nonneg; exact: Hb15.
have := Hb15 _ Hc => Hc'.
exists (a * b)%Z; split; first by apply: iarith_narrow; lia.
by exists (c + a * b)%Z; apply: iarith_narrow; lia.
Qed.

Lemma nmult_mx n m p (A : 'M[Z]_(n, m)) (B : 'M[Z]_(m, p)) : sgn t \/ (width t <= 15)%Z ->
  mx_in t A -> mx_in t B ->
  mult K n m p (mxrows A) (mxrows B) = Ok (conv (A *m B)).
Proof.
move=> Hn HA HB; have [C E] : returns (mult K n m p (mxrows A) (mxrows B)).
  rewrite (mxrowsE Z0 A) (mxrowsE Z0 B) mult_tab; apply: returns_tabM => i j Hi Hj.
  case: (@for_inv Z (fun _ (c : Z) => in_range t c) 0 m
    (fun k c => let* t0 := @xmul K (mxf Z0 A i k) (mxf Z0 B k j) in
       let* v := @xadd K c t0 in Ok (@st K v)) (lite K 0)).
  - lia.
  - by rewrite lite0_int //; exact: in_range0.
  - move=> k c [_ /ssrnat.ltP Hk] Hc.
    have Ha := HA (Ordinal Hi) (Ordinal Hk); have Hb := HB (Ordinal Hk) (Ordinal Hj).
    rewrite -[i]/(val (Ordinal Hi)) -[k]/(val (Ordinal Hk)) -[j]/(val (Ordinal Hj)) !mxf_ord.
    case: (nmul_ok Hn Ha Hb Hc) => q [-> [v E]].
    exists (iconv t v); split; first by move: E => /= ->.
    exact: iconv_range.
  by move=> c [E _]; exists c.
by rewrite E (imult_conv Hw0 HA HB E).
Qed.
End Narrow.

(** ** accumulation over all elements *)
Section Acc.
Variables (K : scalar) (R : ringType) (rel : elt K -> R -> Prop) (relx : xpr K -> R -> Prop).
Hypothesis S : sim rel relx.

Lemma acc_sim n m A (X : 'M[R]_(n, m)) : relM rel A X ->
  upon (for_ 0 n (fun it r => for_ 0 m (fun jt r =>
      let* a := aget A it jt in
      let* v := xadd (ld r) (ld a) in Ok (st v)) r) (lite K 0))
    (fun r => rel r (msum X)).
Proof.
move=> [f [-> Hf]] v E.
have -> : msum X = \sum_(0 <= i' < n) \sum_(0 <= j < m) mxf 0 X i' j.
  rewrite /msum big_mkord; apply: eq_bigr => i _; rewrite big_mkord.
  by apply: eq_bigr => j _; rewrite mxf_ord.
apply: (@for_partial _ (fun i c => rel c (\sum_(0 <= i' < i) \sum_(0 <= j < m) mxf 0 X i' j)) 0 n
  _ _ v _ _ _ E).
- exact/ssrnat.leP.
- rewrite big_geq //; exact: sim_lite0 S.
move=> i c c' [_ /ssrnat.ltP Hi] Hc {}E; rewrite big_nat_recr //=.
apply: (@for_partial _ (fun j c0 => rel c0 (\sum_(0 <= i' < i) \sum_(0 <= j < m) mxf 0 X i' j +
  \sum_(0 <= j' < j) mxf 0 X i j')) 0 m _ _ c' _ _ _ E).
- exact/ssrnat.leP.
- by rewrite [X in _ + X]big_geq // addr0.
move=> j d d' [_ /ssrnat.ltP Hj] Hd; rewrite aget_mk; try exact/ssrnat.ltP.
move: d'; rewrite [bind (Ok _) _]/=.
match goal with |- forall a, ?o = Ok a -> @?P a => change (upon o P) end.
have Hij : rel (f i j) (mxf 0 X i j).
  by rewrite -[i]/(val (Ordinal Hi)) -[j]/(val (Ordinal Hj)) mxf_ord; exact: Hf.
apply: upon_bind (sim_add S (sim_ld S Hd) (sim_ld S Hij)) _ => w Hw.
by apply: upon_ok; rewrite [X in _ + X]big_nat_recr //= addrA; exact: sim_st S _ _ Hw.
Qed.
End Acc.

(** ** mean of signed integers *)
Section Mean.
Variable t : ityp.
Hypothesis Hs : sgn t = true.
Hypothesis Hw : (32 <= width t <= 64)%Z.
Notation K := (intS t).
Let Hw0 : (0 < width t)%Z. Proof. lia. Qed.
Let Hw32 : (32 <= width t)%Z. Proof. lia. Qed.
Let S0 : @sim K _ (relz t) (relz t). Proof. exact: sim_signed. Qed.

Variables (n m : nat).
Hypothesis Hpos : (0 < n * m)%N.
Hypothesis Hsz : (Z.of_nat (n * m) < 2 ^ 64)%Z.

(** the sum is taken modulo 2^64 before the division *)
Lemma imean_val (A : 'M[Z]_(n, m)) r : mx_in t A -> mean K n m (mxrows A) = Ok r ->
  in_range t (msum A) /\ r = iconv t ((msum A mod 2 ^ 64) / Z.of_nat (n * m)).
Proof.
move=> HA; rewrite /mean => E; case: (bind_inv _ _ _ E) => {E} c [E1 E2].
case: (acc_sim S0 (relM_zin HA) E1) => Ec Hr; split=> //.
move: E2; rewrite /= /idivsz Ec size_mulE //.
by case: Z.eqb_spec => [|_ [<-]] //; lia.
Qed.

Lemma imean_nonneg (A : 'M[Z]_(n, m)) r : mx_in t A -> mean K n m (mxrows A) = Ok r ->
  (0 <= msum A)%Z -> r = (msum A / Z.of_nat (n * m))%Z.
Proof.
move=> HA E H0; case: (imean_val HA E) => /in_rangeP Hr ->.
have H64 : (imax t < 2 ^ 64)%Z.
  rewrite /imax Hs; have := Z.pow_le_mono_r 2 (width t - 1) 64 erefl; lia.
rewrite Z.mod_small ?iconv_id //; last lia.
apply/in_rangeP; have P : (0 < Z.of_nat (n * m))%Z by lia.
have := Z.div_pos _ _ H0 P; have := Z.div_le_upper_bound (msum A) (Z.of_nat (n * m)) (imax t) P.
have : (imin t <= 0)%Z by rewrite /imin Hs; have := pow2_gt0 (_ : 0 <= width t - 1)%Z; lia.
nia.
Qed.

(** a negative sum is replaced by 2^64 + sum *)
Lemma imean_neg (A : 'M[Z]_(n, m)) r : mx_in t A -> mean K n m (mxrows A) = Ok r ->
  (msum A < 0)%Z -> r = iconv t ((2 ^ 64 + msum A) / Z.of_nat (n * m)).
Proof.
move=> HA E H0; case: (imean_val HA E) => /in_rangeP Hr ->.
congr (iconv t (_ / _)).
have : (- 2 ^ 64 <= imin t)%Z.
  rewrite /imin Hs; have := Z.pow_le_mono_r 2 (width t - 1) 64 erefl; lia.
move=> H; rewrite -(Z.mod_add _ 1) // Z.mul_1_l Z.mod_small; lia.
Qed.

(** so the mean of [long]s with a negative sum is never negative *)
Lemma imean_neg64 (A : 'M[Z]_(n, m)) r : width t = 64%Z -> (1 < n * m)%N ->
  mx_in t A -> mean K n m (mxrows A) = Ok r -> (msum A < 0)%Z ->
  r = ((2 ^ 64 + msum A) / Z.of_nat (n * m))%Z /\ (0 <= r)%Z.
Proof.
move=> H64 H1 HA E H0; have -> := imean_neg HA E H0.
have [/in_rangeP Hr _] := imean_val HA E.
have P : (0 < Z.of_nat (n * m))%Z by lia.
have Hlo : (0 <= 2 ^ 64 + msum A)%Z by move: Hr; rewrite /imin Hs H64; lia.
have Hd := Z.div_pos _ _ Hlo P.
have Hu : ((2 ^ 64 + msum A) / Z.of_nat (n * m) < 2 ^ 63)%Z.
  by apply: Z.div_lt_upper_bound => //; lia.
rewrite iconv_id //; apply/in_rangeP; rewrite /imin /imax Hs H64; lia.
Qed.

(** for [int] and a power of two elements the mean is rounded down *)
Lemma imean_pow2 (A : 'M[Z]_(n, m)) r k : Z.of_nat (n * m) = (2 ^ k)%Z ->
  (0 <= k <= 64 - width t)%Z -> mx_in t A -> mean K n m (mxrows A) = Ok r ->
  r = (msum A / Z.of_nat (n * m))%Z.
Proof.
move=> HN Hk HA E; case: (Z.le_gt_cases 0 (msum A)) => H0; first exact: imean_nonneg HA E H0.
have -> := imean_neg HA E H0; have [/in_rangeP Hr _] := imean_val HA E.
rewrite HN; have P : (0 < 2 ^ k)%Z by apply: pow2_gt0; lia.
have -> : (2 ^ 64 + msum A = msum A + 2 ^ (64 - width t - k) * 2 ^ width t * 2 ^ k)%Z.
  have -> : (2 ^ 64 = 2 ^ (64 - width t - k) * 2 ^ width t * 2 ^ k)%Z.
    by rewrite -!Z.pow_add_r; try (congr (2 ^ _)%Z); lia.
  lia.
rewrite Z.div_add; last lia.
rewrite -[RHS](@iconv_id t) //; first by apply: iconv_cong; rewrite /Zdiv.eqm Z_mod_plus_full.
apply/in_rangeP; split; last first.
  apply: Z.le_trans (_ : 0 <= _)%Z; last by rewrite /imax Hs; have := pow2_gt0 (_ : 0 <= width t - 1)%Z; lia.
  by apply: Z.lt_le_incl; apply: Z.div_lt_upper_bound; lia.
by apply: Z.div_le_lower_bound => //; nia.
Qed.

(** the mean of elements bounded by a0 returns when all partial sums fit *)
Lemma imean_returns (A : 'M[Z]_(n, m)) a0 : (forall i j, (Z.abs (A i j) <= a0)%Z) ->
  (Z.of_nat (n * m) * a0 <= imax t)%Z -> returns (mean K n m (mxrows A)).
Proof.
move=> Ha Hb; rewrite /mean (mxrowsE Z0).
have Hmin : (imin t = - imax t - 1)%Z by rewrite /imin /imax Hs; lia.
have [c [-> _]] : exists c, for_ 0 n (fun it r => for_ 0 m (fun jt r =>
      let* a := aget (mk n m (mxf Z0 A)) it jt in
      let* v := @xadd K r a in Ok (@st K v)) r) (lite K 0) = Ok c
      /\ (Z.abs c <= Z.of_nat (n * m) * a0)%Z.
  apply: (@for_inv Z (fun i (c : Z) => (Z.abs c <= Z.of_nat (i * m) * a0)%Z)); first lia.
    by rewrite lite0_int //; lia.
  move=> i c [_ /ssrnat.ltP Hi] Hc.
  have [c' [-> Hc']] : exists c', for_ 0 m (fun jt r =>
      let* a := aget (mk n m (mxf Z0 A)) i jt in
      let* v := @xadd K r a in Ok (@st K v)) c = Ok c'
      /\ (Z.abs c' <= Z.of_nat (i * m + m) * a0)%Z.
    apply: (@for_inv Z (fun j (c : Z) => (Z.abs c <= Z.of_nat (i * m + j) * a0)%Z)); first lia.
      by rewrite addn0.
    move=> j d [_ /ssrnat.ltP Hj] Hd; rewrite aget_mk; try exact/ssrnat.ltP.
    rewrite -[i]/(val (Ordinal Hi)) -[j]/(val (Ordinal Hj)) mxf_ord [bind (Ok _) _]/=.
    have Hij := Ha (Ordinal Hi) (Ordinal Hj).
    have Ha0 : (0 <= a0)%Z by have := Z.abs_nonneg (A (Ordinal Hi) (Ordinal Hj)); lia.
    have Hle : (Z.of_nat (i * m + j + 1) * a0 <= imax t)%Z.
      apply: Z.le_trans Hb; apply: Z.mul_le_mono_nonneg_r => //; apply/inj_le/ssrnat.leP.
      rewrite -addnA (leq_trans (n := i * m + m)) //; first by rewrite leq_add2l; lia.
      by rewrite -mulSnr leq_mul2r Hi orbT.
    have Hn : (Z.of_nat (i * m + j + 1) * a0 = Z.of_nat (i * m + j) * a0 + a0)%Z by lia.
    have Hr : in_range t (d + A (Ordinal Hi) (Ordinal Hj)) by apply/in_rangeP; lia.
    exists (d + A (Ordinal Hi) (Ordinal Hj))%Z; split.
      by rewrite (iarith_signed Hs Hw32 Hr) /= iconv_id.
    have -> : (Z.of_nat (i * m + j.+1) * a0 = Z.of_nat (i * m + j) * a0 + a0)%Z by lia.
    lia.
  by exists c'; split=> //; rewrite mulSnr.
rewrite [bind (Ok _) _]/= /idivsz size_mulE //; case: Z.eqb_spec; first lia.
by move=> _; eexists.
Qed.
End Mean.

(** ** absolute value *)
Section Abs.
Variable t : ityp.
Hypothesis Hs : sgn t = true.
Hypothesis Hw : (32 <= width t)%Z.
Notation K := (intS t).

Lemma iabs_mx n m junk (A : 'M[Z]_(n, m)) : mx_in t A -> (forall i j, A i j <> imin t) ->
  Model.abs K n m (mk n m junk) (mxrows A) = Ok (mxrows (map_mx Z.abs A)).
Proof.
move=> HA Hn; rewrite (mxrowsE Z0 A) (mxrowsE Z0 (map_mx _ A)) abs_tab.
apply: tabM_ok => i j /ssrnat.ltP Hi /ssrnat.ltP Hj.
rewrite -[i]/(val (Ordinal Hi)) -[j]/(val (Ordinal Hj)) !mxf_ord mxE /= /iabs.
rewrite (promote_wide Hw) Hs /iarith Hs.
have := Hn (Ordinal Hi) (Ordinal Hj); have /in_rangeP := HA (Ordinal Hi) (Ordinal Hj).
move: (A _ _) => a Ha Hna.
have Hr : in_range t (Z.abs a) by move: Ha Hna; rewrite /in_range /imin /imax Hs; lia.
by rewrite Hr /= iconv_id //; lia.
Qed.

Lemma iabs_min n m junk (A : 'M[Z]_(n, m)) : mx_in t A -> (exists i j, A i j = imin t) ->
  Model.abs K n m (mk n m junk) (mxrows A) = UB SignedOverflow.
Proof.
move=> HA [i0 [j0 E0]]; rewrite (mxrowsE Z0 A) abs_tab; apply: tabM_ub.
  move=> i j Hi Hj.
  rewrite -[i]/(val (Ordinal Hi)) -[j]/(val (Ordinal Hj)) !mxf_ord /= /iabs.
  rewrite (promote_wide Hw) Hs /iarith Hs.
  by case: ifP => _ /=; [left; eexists|right].
exists i0, j0; split=> //; rewrite !mxf_ord /= /iabs E0 (promote_wide Hw) Hs /iarith Hs.
have := pow2_gt0 (_ : 0 <= width t - 1)%Z => H.
have -> : in_range t (Z.abs (imin t)) = false; last by [].
by rewrite /in_range /imin /imax Hs; move: H; lia.
Qed.
End Abs.
