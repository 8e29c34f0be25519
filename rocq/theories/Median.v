(** * The median of an even number of elements lies between the two middle ones *)

From Coq Require Import ZArith Reals Lra Lia Bool List Arith Permutation.
From Flocq Require Import IEEE754.BinarySingleNaN Core.Core Relative Plus_error.
From Verif Require Import Base Scalar Model CInt CFloat Spec Loops Struct Order Stat Float.
Import ListNotations.
Local Open Scope nat_scope.

(** at most [k] elements of [v] are below [r] and at most [k] above *)
Definition halves {T : Type} (lt : T -> T -> bool) (k : nat) (v : list T) (r : T) : Prop :=
  count (fun y => lt y r) v <= k /\ count (fun y => lt r y) v <= k.

Lemma count_le {T : Type} (p q : T -> bool) v : (forall x, In x v -> p x = true -> q x = true) ->
  count p v <= count q v.
Proof.
  unfold count. induction v as [|x v IH]; intros H; [apply le_n|].
  assert (IH' : length (filter p v) <= length (filter q v)) by (apply IH; intros; apply H; [right|]; assumption).
  simpl. destruct (p x) eqn:E.
  - rewrite (H x) by (try left; auto). simpl. lia.
  - destruct (q x); simpl; lia.
Qed.

(** ** any element type *)
Section Any.
Context (K : scalar) (sort : list (elt K) -> list (elt K)) (n m : nat) (f : nat -> nat -> elt K).
Notation lt := (less K).
Let v := elements (mk n m f).

(** the result lies between the two middle elements, so it halves the list *)
Lemma between_halves r x y : strict_weak_on lt (r :: v) -> sorts lt sort v -> (n * m) mod 2 = 0 -> 0 < n * m ->
  nth_error (sort v) (n * m / 2) = Some x -> nth_error (sort v) (n * m / 2 - 1) = Some y ->
  lt r y = false -> lt x r = false -> halves lt (n * m / 2) v r.
Proof.
  intros W So He Hpos Ex Ey L1 L2.
  assert (W' : strict_weak_on lt v).
  { destruct W as [W1 [W2 [W3 W4]]].
    split; [intros; apply W1; right; assumption|].
    split; [intros; apply W2; try right; assumption|].
    split; [intros a b c; intros; apply (W3 a b c); try right; assumption|].
    intros a b c; intros; apply (W4 a b c); try right; assumption. }
  pose proof (Nat.div_mod (n * m) 2 ltac:(lia)) as D.
  assert (Ix : In x v) by exact (sorts_in lt v sort _ x So Ex).
  assert (Iy : In y v) by exact (sorts_in lt v sort _ y So Ey).
  assert (Lv : length v = n * m) by apply elements_length.
  split.
  - eapply Nat.le_trans; [|apply (sorts_below lt v W' sort _ x So Ex)].
    apply count_le. intros z Iz Hz. apply (sw_lt_nlt lt (r :: v) W z r x); simpl; auto.
  - eapply Nat.le_trans; [|pose proof (sorts_above lt v W' sort _ y So Ey) as A; rewrite Lv in A;
      replace (n * m - S (n * m / 2 - 1)) with (n * m / 2) in A by lia; exact A].
    apply count_le. intros z Iz Hz. apply (sw_nlt_lt lt (r :: v) W y r z); simpl; auto.
Qed.

(** a result below both middle elements (or above) does not *)
Lemma outside_halves r y : strict_weak_on lt (r :: v) -> sorts lt sort v -> (n * m) mod 2 = 0 -> 0 < n * m ->
  nth_error (sort v) (n * m / 2 - 1) = Some y -> lt r y = true -> ~ halves lt (n * m / 2) v r.
Proof.
  intros W So He Hpos Ey L [_ C].
  pose proof (Nat.div_mod (n * m) 2 ltac:(lia)) as D.
  assert (Lv : length (sort v) = n * m) by (rewrite (sorts_length lt v sort So); apply elements_length).
  assert (Iy : In y v) by exact (sorts_in lt v sort _ y So Ey).
  rewrite (count_perm _ _ _ (proj1 So)) in C.
  assert (G : forall z, In z (skipn (n * m / 2 - 1) (sort v)) -> lt r z = true).
  { intros z Iz. apply In_nth_error in Iz. destruct Iz as [k Ek].
    assert (Ek' : nth_error (sort v) (n * m / 2 - 1 + k) = Some z).
    { rewrite <- Ek. clear. generalize (n * m / 2 - 1). generalize (sort v). intros l p. revert l.
      induction p as [|p IH]; intros l; [reflexivity|]. destruct l; [simpl; destruct k; reflexivity|]. apply IH. }
    destruct k as [|k].
    - rewrite Nat.add_0_r in Ek'. assert (z = y) by congruence. subst z. exact L.
    - assert (Iz : In z v) by exact (sorts_in lt v sort _ z So Ek').
      apply (sw_lt_nlt lt (r :: v) W r y z); simpl; auto.
      apply (proj2 So (n * m / 2 - 1) (n * m / 2 - 1 + S k) y z); [lia|assumption..]. }
  rewrite <- (firstn_skipn (n * m / 2 - 1) (sort v)) in C. unfold count in C. rewrite filter_app, app_length in C.
  assert (E : filter (fun z => lt r z) (skipn (n * m / 2 - 1) (sort v)) = skipn (n * m / 2 - 1) (sort v)).
  { revert G. generalize (skipn (n * m / 2 - 1) (sort v)). intros l G. induction l as [|z l IH]; [reflexivity|].
    simpl. rewrite G by (left; reflexivity). f_equal. apply IH. intros; apply G; right; assumption. }
  rewrite E, skipn_length, Lv in C. lia.
Qed.

Lemma middle_order x y : sorts lt sort v -> (n * m) mod 2 = 0 -> 0 < n * m ->
  nth_error (sort v) (n * m / 2) = Some x -> nth_error (sort v) (n * m / 2 - 1) = Some y -> lt x y = false.
Proof.
  intros So He Hpos Ex Ey. pose proof (Nat.div_mod (n * m) 2 ltac:(lia)) as D.
  apply (proj2 So (n * m / 2 - 1) (n * m / 2) y x); [lia|assumption..].
Qed.

Lemma odd_halves r : strict_weak_on lt v -> sorts lt sort v -> (n * m) mod 2 = 1 ->
  median K sort n m (mk n m f) = Ok r -> halves lt (n * m / 2) v r.
Proof.
  intros W So Ho E. destruct (median_odd K sort n m f W So Ho) as [x [E' [_ [_ H]]]].
  assert (r = x) by congruence. subst r. exact H.
Qed.
End Any.

(** ** integers *)
Section Int.
Context (t : ityp).
Notation K := (intS t).
Open Scope Z_scope.

Lemma ilit2 : iconv (promote t) 2 = 2 /\ 0 < 2 ^ (width (promote t)) .
Proof.
  unfold promote. destruct (width t <? 32) eqn:E.
  - split; reflexivity.
  - apply Z.ltb_ge in E. assert (L : 2 ^ 32 <= 2 ^ width t) by (apply Z.pow_le_mono_r; lia).
    assert (L' : 2 ^ 31 <= 2 ^ (width t - 1)) by (apply Z.pow_le_mono_r; lia).
    assert (H : 2 ^ width t = 2 * 2 ^ (width t - 1)).
    { replace (width t) with (1 + (width t - 1)) at 1 by lia. rewrite Z.pow_add_r by lia. reflexivity. }
    unfold iconv. destruct (sgn t).
    + rewrite Z.mod_small by lia. lia.
    + rewrite Z.mod_small by lia. lia.
Qed.

Lemma quot2_between x y : y <= x -> y <= Z.quot (x + y) 2 <= x.
Proof.
  intros H. pose proof (Z.quot_rem' (x + y) 2) as E.
  pose proof (Z.rem_bound_abs (x + y) 2 ltac:(lia)) as B. destruct (Z.eq_dec x y) as [->|N].
  - replace (y + y) with (y * 2) by lia. rewrite Z.quot_mul by lia. lia.
  - lia.
Qed.

Lemma in_range_iff a : in_range t a = true <-> imin t <= a <= imax t.
Proof. unfold in_range. rewrite andb_true_iff, !Z.leb_le. tauto. Qed.

Lemma iconv_keep a : 0 < width t -> in_range t a = true -> iconv t a = a.
Proof.
  intros Hw. rewrite in_range_iff. unfold imin, imax, iconv.
  assert (H : 2 ^ width t = 2 * 2 ^ (width t - 1)).
  { replace (width t) with (1 + (width t - 1)) at 1 by lia. rewrite Z.pow_add_r by lia. reflexivity. }
  destruct (sgn t); intros; rewrite Z.mod_small; lia.
Qed.

(** the operands' sum is the only operation that can leave the range *)
Lemma imiddle x y s : 0 < width t -> in_range t x = true -> in_range t y = true -> y <= x ->
  iarith (promote t) (x + y) = Ok s ->
  (let* t' := @xadd K (@ld K x) (@ld K y) in let* q := @xdiv K t' (@lit K 2) in Ok (@st K q)) = Ok (iconv t (Z.quot s 2)) /\
  (s = x + y -> iconv t (Z.quot s 2) = Z.quot (x + y) 2).
Proof.
  intros Hw Rx Ry L E. cbn [intS xadd ld xdiv lit st bind]. rewrite E. cbn [bind].
  destruct ilit2 as [-> P]. unfold idiv. change (2 =? 0) with false. cbn match.
  split.
  - unfold iarith in *. destruct (sgn (promote t)) eqn:Sg.
    + destruct (in_range (promote t) (x + y)) eqn:R; [|discriminate]. injection E as <-.
      assert (R' : in_range (promote t) (Z.quot (x + y) 2) = true).
      { unfold in_range in *. rewrite andb_true_iff, !Z.leb_le in *.
        pose proof (Z.quot_rem' (x + y) 2) as Q. pose proof (Z.rem_bound_abs (x + y) 2 ltac:(lia)) as B.
        unfold imin, imax in *. rewrite Sg in *.
        assert (0 < 2 ^ (width (promote t) - 1)).
        { apply Z.pow_pos_nonneg; [lia|]. unfold promote. destruct (Z.ltb_spec (width t) 32); simpl; lia. }
        lia. }
      rewrite R'. reflexivity.
    + injection E as <-. rewrite (Z.mod_small (Z.quot _ 2)); [reflexivity|].
      pose proof (Z.mod_pos_bound (x + y) (2 ^ width (promote t)) P) as B.
      split; [apply Z.quot_pos; lia|]. rewrite Z.quot_div_nonneg by lia. apply Z.div_lt_upper_bound; lia.
  - intros ->. apply iconv_keep; [exact Hw|]. rewrite in_range_iff in *.
    pose proof (quot2_between x y L). lia.
Qed.

(** narrow types never overflow *)
Lemma narrow_sum x y : 0 < width t <= 16 -> in_range t x = true -> in_range t y = true ->
  iarith (promote t) (x + y) = Ok (x + y).
Proof.
  intros Hw. rewrite !in_range_iff. unfold promote. rewrite (proj2 (Z.ltb_lt _ _)) by lia. unfold iarith.
  change (sgn int32) with true. cbn match. intros Rx Ry.
  assert (P : 2 ^ width t <= 2 ^ 16) by (apply Z.pow_le_mono_r; lia).
  assert (P' : 2 ^ (width t - 1) <= 2 ^ 16) by (apply Z.pow_le_mono_r; lia).
  replace (in_range int32 (x + y)) with true; [reflexivity|]. symmetry. unfold in_range.
  change (imin int32) with (- 2147483648). change (imax int32) with 2147483647.
  unfold imin, imax in *. rewrite andb_true_iff, !Z.leb_le. destruct (sgn t); lia.
Qed.
End Int.

(** ** floating point *)
Section Float.
Context (prec emax : Z) {Hp : Prec_gt_0 prec} {He : Prec_lt_emax prec emax}.
Notation fl := (binary_float prec emax).
Notation K := (floatS prec emax).
Notation fexp := (SpecFloat.fexp prec emax).
Notation rnd := (round radix2 fexp ZnearestE).
Notation "x ⊕ y" := (Bplus mode_NE x y) (at level 50, left associativity).
Notation "x ⊘ y" := (Bdiv mode_NE x y) (at level 40, left associativity).
Local Instance fexp_valid' : Valid_exp fexp.
Proof. apply FLT_exp_valid. exact Hp. Qed.

Lemma double_format (x : fl) : generic_format radix2 fexp (2 * B2R x).
Proof.
  pose proof (generic_format_B2R _ _ x) as G.
  change fexp with (FLT_exp (SpecFloat.emin prec emax) prec) in *.
  apply FLT_format_generic in G; [|exact Hp]. destruct G as [[p e] Hx Hm Hxe].
  apply generic_format_FLT. exists (Float radix2 p (e + 1)).
  - rewrite Hx. unfold F2R. cbn [Fnum Fexp]. rewrite bpow_plus. change (bpow radix2 1) with 2%R. ring.
  - exact Hm.
  - cbn [Fexp] in *. lia.
Qed.

Lemma two_fl : B2R (f_of_Z prec emax 2) = 2%R /\ is_finite (f_of_Z prec emax 2) = true.
Proof.
  destruct (f_of_Z_small prec emax 2) as [E [F _]]; [|split; assumption].
  pose proof (pow_prec_ge2 prec). simpl. lia.
Qed.

(** (x + y) / 2 is between y and x unless the sum overflows *)
Lemma half_sum_between (x y : fl) : is_finite ((x ⊕ y) ⊘ f_of_Z prec emax 2) = true -> (B2R y <= B2R x)%R ->
  (B2R y <= B2R ((x ⊕ y) ⊘ f_of_Z prec emax 2) <= B2R x)%R /\ is_finite x = true /\ is_finite y = true.
Proof.
  intros F L. destruct two_fl as [E2 F2].
  destruct (Bdiv_finite prec emax _ _ F F2) as [Fs [_ ->]]. rewrite E2.
  destruct (Bplus_finite prec emax _ _ Fs) as [Fx [Fy ->]]. split; [|split; assumption].
  assert (B : (2 * B2R y <= rnd (B2R x + B2R y) <= 2 * B2R x)%R).
  { rewrite <- (round_generic radix2 fexp ZnearestE (2 * B2R y)) at 1 by apply double_format.
    rewrite <- (round_generic radix2 fexp ZnearestE (2 * B2R x)) by apply double_format.
    split; apply round_le; try apply fexp_valid'; try apply valid_rnd_N; lra. }
  split.
  - rewrite <- (rnd_B2R prec emax y) at 1. apply round_le; [apply fexp_valid'|apply valid_rnd_N|]. lra.
  - rewrite <- (rnd_B2R prec emax x) at 2. apply round_le; [apply fexp_valid'|apply valid_rnd_N|]. lra.
Qed.

Lemma Bltb_finite (x y : fl) : is_finite x = true -> is_finite y = true ->
  (Bltb x y = true <-> (B2R x < B2R y)%R).
Proof.
  intros Fx Fy. rewrite Bltb_correct by assumption. split.
  - case Rlt_bool_spec; [auto|discriminate].
  - intros E. apply Rlt_bool_true. exact E.
Qed.

(** no overflow for elements up to a quarter of 2^emax *)
Lemma half_sum_finite (x y : fl) : is_finite x = true -> is_finite y = true ->
  (Rabs (B2R x) <= bpow radix2 (emax - 2))%R -> (Rabs (B2R y) <= bpow radix2 (emax - 2))%R ->
  is_finite ((x ⊕ y) ⊘ f_of_Z prec emax 2) = true.
Proof.
  intros Fx Fy Bx By. destruct two_fl as [E2 F2]. pose proof (prec_pos prec) as Pp. pose proof (prec_emax prec emax) as Pe.
  assert (D : (bpow radix2 (emax - 1) = 2 * bpow radix2 (emax - 2))%R).
  { replace (emax - 1)%Z with (1 + (emax - 2))%Z by lia. rewrite bpow_plus. reflexivity. }
  assert (G : forall z, (Rabs z <= bpow radix2 (emax - 1))%R -> (Rabs (rnd z) < bpow radix2 emax)%R).
  { intros z Hz. apply Rle_lt_trans with (bpow radix2 (emax - 1)); [|apply bpow_lt; lia].
    apply abs_round_le_generic; [apply fexp_valid'|apply valid_rnd_N| |exact Hz].
    apply generic_format_bpow. change (FLT_exp (SpecFloat.emin prec emax) prec (emax - 1 + 1) <= emax - 1)%Z.
    unfold FLT_exp, SpecFloat.emin. lia. }
  assert (S1 : (Rabs (B2R x + B2R y) <= bpow radix2 (emax - 1))%R).
  { eapply Rle_trans; [apply Rabs_triang|]. lra. }
  generalize (Bplus_correct _ _ Hp He mode_NE x y Fx Fy). simpl round_mode.
  rewrite Rlt_bool_true by (apply G; exact S1). intros [Es [Fs _]].
  assert (Ny : B2R (f_of_Z prec emax 2) <> 0%R) by (rewrite E2; lra).
  generalize (Bdiv_correct _ _ Hp He mode_NE (x ⊕ y) (f_of_Z prec emax 2) Ny). simpl round_mode.
  rewrite Rlt_bool_true; [intros [_ [-> _]]; exact Fs|].
  apply G. rewrite E2, Es. unfold Rdiv. rewrite Rabs_mult, (Rabs_right (/ 2)) by lra.
  assert (Rabs (rnd (B2R x + B2R y)) <= bpow radix2 (emax - 1))%R; [|pose proof (Rabs_pos (rnd (B2R x + B2R y))); lra].
  apply abs_round_le_generic; [apply fexp_valid'|apply valid_rnd_N| |exact S1].
  apply generic_format_bpow. change (FLT_exp (SpecFloat.emin prec emax) prec (emax - 1 + 1) <= emax - 1)%Z.
  unfold FLT_exp, SpecFloat.emin. lia.
Qed.
End Float.
