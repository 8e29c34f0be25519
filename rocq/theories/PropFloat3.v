(** * Properties C65-C67: rounding errors of powers, convolutions and strassen

    As in PropFloat.v: every binary format, [u] = [uro prec] = 2^-prec, [B2R x] the
    value of a finite x, [rsum m f] = f 0 + ... + f (m-1).  From FloatPoly.v:
    [rmul n f g] and [rpow n f q] are the product and the q-th power of real n x n
    matrices, [rcorr n m f k p q] the correlation of a zero-extended matrix with a
    3x3 kernel, [multiple e x] says that x is an integer times 2^e.

    The entries are assumed to be multiples of 2^-t with t small enough for the
    products to stay clear of underflow: for double t <= 1074/p allows every
    number of absolute value at least 2^(52-t), and all integers are multiples
    of 2^0. *)

From Coq Require Import ZArith Reals Lra Lia Bool List Arith.
Import ListNotations.
From Flocq Require Import IEEE754.BinarySingleNaN Core.Core Relative Plus_error.
From Verif Require Import Base Scalar CInt CFloat Model Spec Loops Struct Conv Float FloatMx FloatPoly PropFloat.

Local Open Scope nat_scope.

Section Format.
Variables prec emax : Z.
Context {Hp : Prec_gt_0 prec} {He : Prec_lt_emax prec emax}.
Notation fl := (binary_float prec emax).
Notation K := (floatS prec emax).
Notation emin := (SpecFloat.emin prec emax).
Notation u := (uro prec).
Implicit Types (f g : nat -> nat -> fl).

(** every finite entry is a multiple of 2^-t *)
Definition on_grid (n m : nat) (t : Z) (f : nat -> nat -> fl) : Prop := (0 <= t)%Z /\
  forall i j, i < n -> j < m -> is_finite (f i j) = true -> multiple (- t) (B2R (f i j)).

(** zeros, and numbers that are not too small, are on the grid *)
Theorem c65_grid n m t f : (0 <= t)%Z ->
  (forall i j, i < n -> j < m -> B2R (f i j) = 0%R \/ (bpow radix2 (prec - 1 - t) <= Rabs (B2R (f i j)))%R) -> on_grid n m t f.
Proof.
  intros Ht H. split; [exact Ht|]. intros i j Hi Hj F. destruct (H i j Hi Hj) as [->|B]; [apply multiple_0|].
  pose proof (generic_format_B2R prec emax (f i j)) as G. unfold generic_format in G. rewrite G.
  apply (multiple_le (cexp radix2 (SpecFloat.fexp prec emax) (B2R (f i j)))); [|eexists; reflexivity].
  unfold cexp, SpecFloat.fexp. pose proof (mag_ge_bpow radix2 (B2R (f i j)) (prec - t)) as M.
  replace (prec - t - 1)%Z with (prec - 1 - t)%Z in M by lia. specialize (M B). lia.
Qed.

(** ** C65 powers *)

Theorem c65_pow n w f p t C : (1 <= p)%Z -> on_grid n n t f -> (t * p <= - emin)%Z ->
  pow K n w (mk n n f) p = Ok C -> exists c, C = mk n n c /\
  forall i j, i < n -> j < n -> is_finite (c i j) = true ->
  (Rabs (B2R (c i j) - rpow n (fun i j => B2R (f i j)) (Z.to_nat p) i j) <=
   ((1 + u) ^ ((Z.to_nat p - 1) * n) - 1) * rpow n (fun i j => Rabs (B2R (f i j))) (Z.to_nat p) i j)%R.
Proof.
  intros Hp1 [Ht Hf] Hu E.
  destruct (pow_fuel_approx prec emax n f t Ht Hf _ w p C Hp1 Hu E) as [c [-> H]].
  exists c. split; [reflexivity|]. intros i j Hi Hj F. exact (proj1 (proj2 (H i j Hi Hj F))).
Qed.

(** entries that are not negative are all computed to a small relative error *)
Theorem c65_nonneg n w f p t C : (1 <= p)%Z -> on_grid n n t f -> (t * p <= - emin)%Z ->
  (forall i j, i < n -> j < n -> (0 <= B2R (f i j))%R) ->
  pow K n w (mk n n f) p = Ok C -> exists c, C = mk n n c /\
  forall i j, i < n -> j < n -> is_finite (c i j) = true ->
  (Rabs (B2R (c i j) - rpow n (fun i j => B2R (f i j)) (Z.to_nat p) i j) <=
   ((1 + u) ^ ((Z.to_nat p - 1) * n) - 1) * rpow n (fun i j => B2R (f i j)) (Z.to_nat p) i j)%R.
Proof.
  intros Hp1 Hf Hu Hpos E. destruct (c65_pow n w f p t C Hp1 Hf Hu E) as [c [-> H]].
  exists c. split; [reflexivity|]. intros i j Hi Hj F.
  eapply Rle_trans; [exact (H i j Hi Hj F)|].
  rewrite (rpow_ext n (fun i j => Rabs (B2R (f i j))) (fun i j => B2R (f i j))); [apply Rle_refl| |exact Hi].
  intros; apply Rabs_pos_eq; auto.
Qed.

(** the same for one product *)
Theorem c65_mult n f g t t' C : on_grid n n t f -> on_grid n n t' g -> (t + t' <= - emin)%Z ->
  mult K n n n (mk n n f) (mk n n g) = Ok C -> exists c, C = mk n n c /\
  forall i j, i < n -> j < n -> is_finite (c i j) = true ->
  (Rabs (B2R (c i j) - rmul n (fun i j => B2R (f i j)) (fun i j => B2R (g i j)) i j) <=
   ((1 + u) ^ n - 1) * rmul n (fun i j => Rabs (B2R (f i j))) (fun i j => Rabs (B2R (g i j))) i j)%R.
Proof.
  intros [Ht Hf] [Ht' Hg] Hu E. rewrite mult_float in E. injection E as <-.
  eexists. split; [reflexivity|]. intros i j Hi Hj F.
  refine (proj1 (proj2 (approx_fdot prec emax n 0 0 (- t) (- t') (fun k => f i k) (fun k => g k j)
    (fun k => B2R (f i k)) (fun k => Rabs (B2R (f i k))) (fun k => B2R (g k j)) (fun k => Rabs (B2R (g k j))) _ _ _ F))).
  - lia.
  - intros k Hk Fk. apply approx_exact; [|exact Fk]. apply Hf; assumption.
  - intros k Hk Fk. apply approx_exact; [|exact Fk]. apply Hg; assumption.
Qed.

(** ** C66 convolution *)

Theorem c66_conv2 n m f k t t' C : (Z.of_nat n <= 2 ^ 31)%Z -> (Z.of_nat m <= 2 ^ 31)%Z ->
  on_grid n m t f -> on_grid 3 3 t' k -> (t + t' <= - emin)%Z ->
  conv2 K n m (mk n m f) (mk 3 3 k) = Ok C -> exists c, C = mk n m c /\
  forall i j, i < n -> j < m -> is_finite (c i j) = true ->
  (Rabs (B2R (c i j) - rcorr n m (fun i j => B2R (f i j)) (fun i j => B2R (k i j)) (Z.of_nat i) (Z.of_nat j)) <=
   ((1 + u) ^ 9 - 1) *
   rcorr n m (fun i j => Rabs (B2R (f i j))) (fun i j => Rabs (B2R (k i j))) (Z.of_nat i) (Z.of_nat j))%R.
Proof.
  intros Hn Hm [Ht Hf] [Ht' Hk] Hu E. rewrite conv2_tab in E by assumption.
  destruct (tabM_inv (lite K 0) _ _ _ _ E) as [c [-> H]]. exists c. split; [reflexivity|]. intros i j Hi Hj F.
  exact (proj1 (proj2 (approx_corr prec emax n m f k _ _ t t' _ Ht Ht' Hu Hf Hk (H i j Hi Hj) F))).
Qed.

Theorem c66_full n m f k t t' C : (Z.of_nat n <= 2 ^ 31)%Z -> (Z.of_nat m <= 2 ^ 31)%Z ->
  on_grid n m t f -> on_grid 3 3 t' k -> (t + t' <= - emin)%Z ->
  conv2_full K n m (mk n m f) (mk 3 3 k) = Ok C -> exists c, C = mk (n + 2) (m + 2) c /\
  forall i j, i < n + 2 -> j < m + 2 -> is_finite (c i j) = true ->
  (Rabs (B2R (c i j) - rcorr n m (fun i j => B2R (f i j)) (fun i j => B2R (k i j)) (Z.of_nat i - 1) (Z.of_nat j - 1)) <=
   ((1 + u) ^ 9 - 1) *
   rcorr n m (fun i j => Rabs (B2R (f i j))) (fun i j => Rabs (B2R (k i j))) (Z.of_nat i - 1) (Z.of_nat j - 1))%R.
Proof.
  intros Hn Hm [Ht Hf] [Ht' Hk] Hu E. rewrite conv2_full_tab in E by assumption.
  destruct (tabM_inv (lite K 0) _ _ _ _ E) as [c [-> H]]. exists c. split; [reflexivity|]. intros i j Hi Hj F.
  exact (proj1 (proj2 (approx_corr prec emax n m f k _ _ t t' _ Ht Ht' Hu Hf Hk (H i j Hi Hj) F))).
Qed.

(** ** C67 strassen: accurate relative to the largest entries only *)

Theorem c67_strassen f g t t' a b : on_grid 2 2 t f -> on_grid 2 2 t' g -> (t + t' <= - emin)%Z ->
  (forall i j, i < 2 -> j < 2 -> (Rabs (B2R (f i j)) <= a)%R) ->
  (forall i j, i < 2 -> j < 2 -> (Rabs (B2R (g i j)) <= b)%R) ->
  exists c, strassen K (mk 2 2 f) (mk 2 2 g) = Ok (mk 2 2 c) /\
  forall i j, i < 2 -> j < 2 -> is_finite (c i j) = true ->
  (Rabs (B2R (c i j) - rmul 2 (fun i j => B2R (f i j)) (fun i j => B2R (g i j)) i j) <=
   12 * ((1 + u) ^ 6 - 1) * (a * b))%R.
Proof.
  intros [Ht Hf] [Ht' Hg] Hu Ha Hb.
  destruct (approx_strassen prec emax f g t t' a b Ht Ht' Hu) as [c [E H]].
  - intros i j Hi Hj. split; [apply Ha; assumption|]. intros F. apply Hf; assumption.
  - intros i j Hi Hj. split; [apply Hb; assumption|]. intros F. apply Hg; assumption.
  - exists c. split; [exact E|]. intros i j Hi Hj F. destruct (H i j Hi Hj F) as [_ [R _]].
    eapply Rle_trans; [exact R|]. lra.
Qed.
End Format.

(** ** C67: the small entries of the product can be lost entirely *)

(** the entries i/2^40 (double), i/2^20 (float) *)
Definition st_e64 : elt float64S := Bldexp mode_NE (fz64 1) (-40).
Definition st_e32 : elt float32S := Bldexp mode_NE (fz32 1) (-20).
Definition st_ee64 : elt float64S := Bldexp mode_NE (fz64 1) (-80).
Definition st_ee32 : elt float32S := Bldexp mode_NE (fz32 1) (-40).


(** the last entry of a 2x2 result *)
Definition last2 {T} (r : outcome (matrix T)) : option T :=
  match r with Ok [[_; _]; [_; x]] => Some x | _ => None end.

Definition lost (K : scalar) (e ee : elt K) : bool :=
  let A := [[lite K 1; lite K 0]; [lite K 0; lite K 1]] in
  let B := [[lite K 1; e]; [e; ee]] in
  match last2 (strassen K A B), last2 (mult K 2 2 2 A B) with
  | Some x, Some y => xeq (ld x) (@lit K 0) && xeq (ld y) (ld ee) && less K (lite K 0) ee && less K (lite K 0) e
  | _, _ => false
  end.

Lemma c67_check : lost float32S st_e32 st_ee32 && lost float64S st_e64 st_ee64 = true.
Proof. vm_compute. reflexivity. Qed.

(** the product of the identity and the nonnegative matrix B: mult returns the
    last entry of B, strassen returns 0 *)
Definition loses (K : scalar) : Prop := exists e ee x y : elt K,
  let A := [[lite K 1; lite K 0]; [lite K 0; lite K 1]] in
  let B := [[lite K 1; e]; [e; ee]] in
  less K (lite K 0) e = true /\ less K (lite K 0) ee = true /\
  last2 (mult K 2 2 2 A B) = Some y /\ xeq (ld y) (ld ee) = true /\
  last2 (strassen K A B) = Some x /\ xeq (ld x) (@lit K 0) = true.

Lemma lost_inv K e ee : lost K e ee = true -> loses K.
Proof.
  unfold lost. cbv zeta. intros H. exists e, ee.
  destruct (last2 (strassen K _ _)) as [x|] eqn:E1; [|discriminate].
  destruct (last2 (mult K 2 2 2 _ _)) as [y|] eqn:E2; [|discriminate].
  apply andb_prop in H. destruct H as [H H4]. apply andb_prop in H. destruct H as [H H3].
  apply andb_prop in H. destruct H as [H1 H2]. exists x, y. cbv zeta. tauto.
Qed.

Theorem c67_small_entries_lost : loses float32S /\ loses float64S.
Proof.
  pose proof c67_check as H. apply andb_prop in H. destruct H as [H1 H2].
  split; eapply lost_inv; eassumption.
Qed.

(** the hypotheses above on concrete matrices *)
Lemma grid_of_Z prec emax {Hp : Prec_gt_0 prec} {He : Prec_lt_emax prec emax} n m (f : nat -> nat -> binary_float prec emax) (F : nat -> nat -> Z) :
  (forall i j, i < n -> j < m -> B2R (f i j) = IZR (F i j)) -> on_grid prec emax n m 0 f.
Proof.
  intros H. split; [lia|]. intros i j Hi Hj _. exists (F i j). rewrite H by assumption. simpl. ring.
Qed.

Example c65_ex : on_grid 24 128 2 2 0 (fun i j => f_of_Z 24 128 (if i =? j then 3 else -2)) /\
  match pow float32S 2 32 (mk 2 2 (fun i j => fz32 (if i =? j then 3 else -2))) 20 with
  | Ok C => forallb (forallb (fun x => is_finite x)) C | _ => false end = true /\
  match conv2 float32S 2 2 (mk 2 2 (fun i j => fz32 (if i =? j then 3 else -2))) (mk 3 3 (fun i j => fz32 (Z.of_nat i - 1))) with
  | Ok C => forallb (forallb (fun x => is_finite x)) C | _ => false end = true.
Proof.
  split; [|split; vm_compute; reflexivity].
  apply (grid_of_Z 24 128 2 2 _ (fun i j => if (i =? j)%nat then 3 else -2)%Z). intros i j Hi Hj.
  apply (f_of_Z_small 24 128); destruct (i =? j); simpl; lia.
Qed.

Print Assumptions c65_pow.
Print Assumptions c65_nonneg.
Print Assumptions c65_grid.
Print Assumptions c65_mult.
Print Assumptions c66_conv2.
Print Assumptions c66_full.
Print Assumptions c67_strassen.
Print Assumptions c67_small_entries_lost.
