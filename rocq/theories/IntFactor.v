(** * lu and chol of int and long matrices: truncating division and square root *)

From Coq Require Import ZArith Lia Bool List Arith.
Import ListNotations.
From Verif Require Import Base Scalar CInt Model Spec Loops Struct LURec CholRec IntSqrt.
Local Open Scope Z_scope.

Lemma zsum_ext n f g : (forall k, (k < n)%nat -> f k = g k) -> zsum n f = zsum n g.
Proof.
  induction n as [|n IH]; intros H; cbn [zsum]; [reflexivity|]. rewrite IH by (intros; apply H; lia).
  rewrite (H n) by lia. reflexivity.
Qed.

Lemma zsum_cut m n f : (m <= n)%nat -> (forall k, (m <= k < n)%nat -> f k = 0) -> zsum n f = zsum m f.
Proof.
  intros L. induction n as [|n IH]; intros H; [replace m with 0%nat by lia; reflexivity|].
  destruct (Nat.eq_dec m (S n)) as [->|N]; [reflexivity|]. cbn [zsum]. rewrite IH by (try lia; intros; apply H; lia).
  rewrite (H n) by lia. lia.
Qed.

Section Signed.
Variable t : ityp.
Hypothesis Hs : sgn t = true.
Hypothesis Hw : 32 <= width t.
Notation K := (intS t).

Lemma promote_id : promote t = t.
Proof. unfold promote. destruct (Z.ltb_spec (width t) 32); [lia|reflexivity]. Qed.

Lemma arith_inv z r : iarith t z = Ok r -> r = z /\ in_range t z = true.
Proof. unfold iarith. rewrite Hs. destruct (in_range t z) eqn:E; [|discriminate]. intros H. injection H as <-. auto. Qed.

Lemma range_iff z : in_range t z = true <-> - 2 ^ (width t - 1) <= z <= 2 ^ (width t - 1) - 1.
Proof. unfold in_range, imin, imax. rewrite Hs, andb_true_iff, !Z.leb_le. tauto. Qed.

Lemma conv_id z : in_range t z = true -> iconv t z = z.
Proof.
  intros H. apply range_iff in H. unfold iconv. rewrite Hs.
  assert (E : 2 ^ width t = 2 * 2 ^ (width t - 1)).
  { replace (width t) with (Z.succ (width t - 1)) at 1 by lia. rewrite Z.pow_succ_r; lia. }
  rewrite Z.mod_small; lia.
Qed.

Lemma small_in z : -2147483648 <= z <= 2147483647 -> in_range t z = true.
Proof.
  intros H. apply range_iff. assert (2 ^ 31 <= 2 ^ (width t - 1)) by (apply Z.pow_le_mono_r; lia).
  change (2 ^ 31) with 2147483648 in *. lia.
Qed.

Lemma lite_small z : -2147483648 <= z <= 2147483647 -> lite K z = z.
Proof. intros H. unfold lite. cbn. rewrite promote_id, (conv_id z), conv_id by (apply small_in, H). reflexivity. Qed.

Lemma dot_int m a b s : dot K m a b = Ok s -> s = zsum m (fun k => a k * b k).
Proof.
  unfold dot. intros H.
  apply (for_partial (fun k c => c = zsum k (fun k => a k * b k)) _ _ _ _ _) in H; [exact H|lia|rewrite lite_small by lia; reflexivity|].
  intros k c c' Hk -> E. cbn [xmul xadd intS ld st] in E. rewrite promote_id in E.
  destruct (iarith t (a k * b k)) as [x| | | |] eqn:E1; cbn [bind] in E; try discriminate.
  apply arith_inv in E1. destruct E1 as [-> _].
  destruct (iarith t _) as [y| | | |] eqn:E1 in E; cbn [bind] in E; try discriminate.
  apply arith_inv in E1. destruct E1 as [-> R].
  injection E as <-. rewrite conv_id by exact R. reflexivity.
Qed.

Lemma sub_int a b r : @xsub K a b = Ok r -> r = a - b /\ in_range t r = true.
Proof. cbn. rewrite promote_id. intros H. apply arith_inv in H. destruct H as [-> R]. auto. Qed.

Lemma div_int a b q : @xdiv K a b = Ok q -> b <> 0 /\ q = Z.quot a b /\ in_range t q = true.
Proof.
  cbn. rewrite promote_id. unfold idiv. destruct (Z.eqb_spec b 0); [discriminate|]. intros H.
  apply arith_inv in H. destruct H as [-> R]. auto.
Qed.

(** ** lu *)
Section LU.
Variables (n : nat) (f l u : nat -> nat -> Z).
Hypothesis D : lu_done K n f l u n.

Lemma lu_int_upper i j : (i <= j < n)%nat -> f i j = zsum i (fun k => l i k * u k j) + u i j.
Proof.
  intros H. destruct D as [_ [_ [_ [HU _]]]]. destruct (HU i j ltac:(lia) ltac:(lia)) as [s [v [E [Ev Eu]]]].
  apply dot_int in E. apply sub_int in Ev. destruct Ev as [Ev R]. cbn in Eu. rewrite conv_id in Eu by exact R.
  rewrite (zsum_ext i _ (fun k => u k j * l i k)) by (intros; lia). cbn in Ev. lia.
Qed.

Lemma lu_int_lower i j : (j <= i < n)%nat -> u j j <> 0 /\
  l i j = Z.quot (f i j - zsum j (fun k => l i k * u k j)) (u j j).
Proof.
  intros H. destruct D as [_ [_ [_ [_ HL]]]]. destruct (HL i j ltac:(lia) ltac:(lia)) as [_ [s [v [q [E [Ev [Eq El]]]]]]].
  apply dot_int in E. apply sub_int in Ev. destruct Ev as [Ev R]. apply div_int in Eq. destruct Eq as [N [Eq Rq]].
  cbn in El, Ev, N, Eq. rewrite conv_id in El by exact Rq. split; [exact N|]. rewrite El, Eq, Ev, E. f_equal. f_equal.
  rewrite (zsum_cut j i); [|lia|].
  - apply zsum_ext. intros k Hk. destruct (Nat.ltb_spec k j); lia.
  - intros k Hk. destruct (Nat.ltb_spec k j); [lia|]. rewrite lite_small by lia. lia.
Qed.

Lemma lu_int_unit i : (i < n)%nat -> l i i = 1.
Proof.
  intros H. destruct (lu_int_lower i i ltac:(lia)) as [N E]. rewrite E.
  rewrite (lu_int_upper i i) by lia. replace (_ + _ - _) with (u i i) by lia. apply Z.quot_same, N.
Qed.

Lemma lu_int_zero i j : (i < j < n)%nat -> l i j = 0 /\ u j i = 0.
Proof.
  intros H. destruct D as [_ [HL [HU _]]]. rewrite HL, HU by lia. rewrite lite_small by lia. auto.
Qed.

Theorem lu_int_exact i j : (i <= j < n)%nat -> f i j = zsum n (fun k => l i k * u k j).
Proof.
  intros H. rewrite (zsum_cut (S i) n); [|lia|].
  - cbn [zsum]. rewrite lu_int_unit by lia. rewrite (lu_int_upper i j H). lia.
  - intros k Hk. destruct (lu_int_zero i k ltac:(lia)) as [-> _]. lia.
Qed.

Theorem lu_int_residual i j : (j < i < n)%nat ->
  f i j - zsum n (fun k => l i k * u k j) = Z.rem (f i j - zsum j (fun k => l i k * u k j)) (u j j).
Proof.
  intros H. destruct (lu_int_lower i j ltac:(lia)) as [N E].
  rewrite (zsum_cut (S j) n); [|lia|].
  - cbn [zsum]. rewrite E. pose proof (Z.quot_rem' (f i j - zsum j (fun k => l i k * u k j)) (u j j)). lia.
  - intros k Hk. destruct (lu_int_zero j k ltac:(lia)) as [_ ->]. lia.
Qed.
End LU.

(** ** chol *)
Section Chol.
Variables (n : nat) (f l : nat -> nat -> Z).
Hypothesis Z0 : forall i j, (i < j < n)%nat -> l i j = lite K 0.
Hypothesis DR : forall i, (i < n)%nat -> drec K f l i.
Hypothesis OR : forall i j, (j < i < n)%nat -> orec K f l i j.

Lemma chol_int_zero i j : (i < j < n)%nat -> l i j = 0.
Proof. intros H. rewrite Z0 by exact H. apply lite_small. lia. Qed.

Lemma chol_int_diag i : (i < n)%nat -> width t <= 64 ->
  let a := f i i - zsum i (fun k => l i k * l i k) in
  0 <= a < 2 ^ 63 /\ (l i i = Z.sqrt a \/ l i i = Z.sqrt a + 1) /\ (a < 2 ^ 52 -> l i i = Z.sqrt a).
Proof.
  intros H W. destruct (DR i H) as [s [v [E [Ev Er]]]]. apply dot_int in E. apply sub_int in Ev.
  destruct Ev as [Ev R]. cbn in Ev, Er. cbv zeta. rewrite <- E, <- Ev.
  apply range_iff in R. assert (2 ^ (width t - 1) <= 2 ^ 63) by (apply Z.pow_le_mono_r; lia).
  assert (V : 0 <= v < 2 ^ 63).
  { split; [|lia]. destruct (Z.lt_ge_cases v 0) as [C|C]; [|exact C]. rewrite isqrt_neg in Er by exact C. discriminate. }
  split; [exact V|]. rewrite isqrt_real in Er by lia. cbv zeta in Er.
  destruct (in_range t _) in Er; [|discriminate]. injection Er as <-.
  split; [apply trunc_sqrt_all; lia|]. intros. apply trunc_sqrt_small. lia.
Qed.

Lemma chol_int_off i j : (j < i < n)%nat -> l j j <> 0 /\
  l i j = Z.quot (f i j - zsum j (fun k => l i k * l j k)) (l j j).
Proof.
  intros H. destruct (OR i j H) as [s [v [q [E [Ev [Eq El]]]]]].
  apply dot_int in E. apply sub_int in Ev. destruct Ev as [Ev R]. apply div_int in Eq. destruct Eq as [N [Eq Rq]].
  cbn in El, Ev, N, Eq. rewrite conv_id in El by exact Rq. split; [exact N|]. rewrite El, Eq, Ev, E. f_equal. f_equal.
  rewrite (zsum_cut j i); [|lia|].
  - apply zsum_ext. intros k Hk. destruct (Nat.ltb_spec k j); lia.
  - intros k Hk. destruct (Nat.ltb_spec k j); [lia|]. rewrite lite_small by lia. lia.
Qed.

Lemma chol_sum i j : (j <= i < n)%nat ->
  zsum n (fun k => l i k * l j k) = zsum j (fun k => l i k * l j k) + l i j * l j j.
Proof.
  intros H. rewrite (zsum_cut (S j) n); [reflexivity|lia|]. intros k Hk. rewrite (chol_int_zero j k) by lia. lia.
Qed.

Theorem chol_int_residual_off i j : (j < i < n)%nat ->
  Z.abs (f i j - zsum n (fun k => l i k * l j k)) < Z.abs (l j j).
Proof.
  intros H. rewrite chol_sum by lia. destruct (chol_int_off i j H) as [N E]. rewrite E.
  pose proof (Z.quot_rem' (f i j - zsum j (fun k => l i k * l j k)) (l j j)).
  pose proof (Z.rem_bound_abs (f i j - zsum j (fun k => l i k * l j k)) (l j j) N). lia.
Qed.

Theorem chol_int_residual_diag i : (i < n)%nat -> width t <= 64 ->
  let r := f i i - zsum n (fun k => l i k * l i k) in
  0 <= l i i /\ - 2 * l i i <= r /\ r <= 2 * l i i /\ (f i i < 2 ^ 52 -> 0 <= r).
Proof.
  intros H W. cbv zeta. rewrite chol_sum by lia. destruct (chol_int_diag i H W) as [B [C S]].
  set (a := f i i - zsum i (fun k => l i k * l i k)) in *.
  replace (f i i - (_ + _)) with (a - l i i * l i i) by (unfold a; lia).
  pose proof (Z.sqrt_nonneg a). destruct (Z.sqrt_spec a ltac:(lia)) as [S1 S2].
  assert (P : 0 <= zsum i (fun k => l i k * l i k)).
  { clear. generalize (l i). intros g. induction i as [|i IH]; cbn [zsum]; [lia|]. nia. }
  assert (La : a <= f i i) by (unfold a; lia).
  clearbody a. set (r := l i i) in *. clearbody r. set (q := Z.sqrt a) in *. clearbody q. unfold Z.succ in S2.
  split; [destruct C; lia|]. split; [|split].
  - destruct C as [->| ->]; nia.
  - destruct C as [->| ->]; nia.
  - intros F. rewrite S by lia. lia.
Qed.
End Chol.
End Signed.
