(** * Property C76: infinities and NaNs are not lost

    Every binary format.  [fin x] says that x is neither an infinity nor a NaN.
    Each theorem says: where a result is finite, the elements it depends on are
    finite, so a single infinity or NaN in an argument shows in the result. *)

From Coq Require Import ZArith Reals Lra Lia Bool List Arith.
Import ListNotations.
From Flocq Require Import IEEE754.BinarySingleNaN Core.Core.
From Verif Require Import Base Scalar CFloat Model Spec Loops Struct Order Stat Elim LURec CholRec Conv
  Float FloatMx FloatErr FloatStat FloatDet FloatElim PropFloat PropFloat2.

Local Open Scope nat_scope.

Section Format.
Variables prec emax : Z.
Context {Hp : Prec_gt_0 prec} {He : Prec_lt_emax prec emax}.
Notation fl := (binary_float prec emax).
Notation K := (floatS prec emax).
Notation "x ⊕ y" := (Bplus mode_NE x y) (at level 50, left associativity).
Notation "x ⊖ y" := (Bminus mode_NE x y) (at level 50, left associativity).
Notation "x ⊗ y" := (Bmult mode_NE x y) (at level 40, left associativity).
Notation "x ⊘ y" := (Bdiv mode_NE x y) (at level 40, left associativity).
Implicit Types (f g : nat -> nat -> fl).

Definition fin (x : fl) : Prop := is_finite x = true.
(** all elements of an n x m array *)
Definition all_fin (n m : nat) f : Prop := forall i j, i < n -> j < m -> fin (f i j).

Lemma fin_add x y : fin (x ⊕ y) -> fin x /\ fin y.
Proof. intros H. destruct (Bplus_finite prec emax _ _ H) as [F1 [F2 _]]. split; assumption. Qed.
Lemma fin_sub x y : fin (x ⊖ y) -> fin x /\ fin y.
Proof. intros H. destruct (Bminus_finite prec emax _ _ H) as [F1 [F2 _]]. split; assumption. Qed.
Lemma fin_mul x y : fin (x ⊗ y) -> fin x /\ fin y.
Proof. intros H. destruct (Bmult_finite prec emax _ _ H) as [F1 [F2 _]]. split; assumption. Qed.
(** a quotient is finite only if the dividend is: inf / inf is a NaN *)
Lemma fin_div x y : fin (x ⊘ y) -> fin x.
Proof.
  unfold fin. destruct (is_finite y) eqn:Fy.
  - intros H. apply (Bdiv_finite prec emax x y H Fy).
  - destruct y as [|[]| |]; try discriminate; destruct x as [|[]| |[]]; try discriminate; reflexivity.
Qed.
Lemma fin_opp x : fin (Bopp x) -> fin x.
Proof. unfold fin. rewrite is_finite_Bopp. auto. Qed.

(** ** elementwise operations *)
Theorem c76_elementwise n m f g s : exists a b c d e q,
  sum K n m (mk n m f) (mk n m g) = Ok (mk n m a) /\ sub K n m (mk n m f) (mk n m g) = Ok (mk n m b) /\
  sum_scalar K n m (mk n m f) s = Ok (mk n m c) /\ sub_scalar K n m (mk n m f) s = Ok (mk n m d) /\
  mult_scalar K n m (mk n m f) s = Ok (mk n m e) /\
  (forall Q, div K n m (mk n m f) s = Ok Q -> Q = mk n m q) /\
  forall i j, i < n -> j < m ->
    (fin (a i j) -> fin (f i j) /\ fin (g i j)) /\ (fin (b i j) -> fin (f i j) /\ fin (g i j)) /\
    (fin (c i j) -> fin (f i j) /\ fin s) /\ (fin (d i j) -> fin (f i j) /\ fin s) /\
    (fin (e i j) -> fin (f i j) /\ fin s) /\ (fin (q i j) -> fin (f i j)).
Proof.
  exists (fun i j => f i j ⊕ g i j), (fun i j => f i j ⊖ g i j), (fun i j => f i j ⊕ s), (fun i j => f i j ⊖ s),
    (fun i j => f i j ⊗ s), (fun i j => f i j ⊘ s).
  split; [rewrite sum_tab; apply tabM_ok; reflexivity|].
  split; [rewrite sub_tab; apply tabM_ok; reflexivity|].
  split; [rewrite sum_scalar_tab; apply tabM_ok; reflexivity|].
  split; [rewrite sub_scalar_tab; apply tabM_ok; reflexivity|].
  split; [rewrite mult_scalar_tab; apply tabM_ok; reflexivity|].
  split.
  { intros Q E. rewrite div_tab in E. destruct (xeq (ld s) (lit 0)); [discriminate|].
    rewrite (tabM_ok n m _ (fun i j => f i j ⊘ s)) in E by reflexivity. injection E as <-. reflexivity. }
  intros i j _ _. split; [apply fin_add|]. split; [apply fin_sub|]. split; [apply fin_add|]. split; [apply fin_sub|].
  split; [apply fin_mul|apply fin_div].
Qed.

(** ** products and powers *)
Theorem c76_mult n m p f g : exists c, mult K n m p (mk n m f) (mk m p g) = Ok (mk n p c) /\
  forall i j, i < n -> j < p -> fin (c i j) -> forall q, q < m -> fin (f i q) /\ fin (g q j).
Proof.
  eexists. split; [apply mult_float|]. intros i j _ _ H k Hk.
  destruct (fdot_finite prec emax m _ _ H k Hk) as [F1 [F2 _]]. split; assumption.
Qed.

Theorem c76_strassen f g : exists c, strassen K (mk 2 2 f) (mk 2 2 g) = Ok (mk 2 2 c) /\
  (all_fin 2 2 c -> all_fin 2 2 f /\ all_fin 2 2 g).
Proof.
  pose (M1 := f 0 0 ⊗ (g 0 1 ⊖ g 1 1)). pose (M2 := (f 0 0 ⊕ f 0 1) ⊗ g 1 1). pose (M3 := (f 1 0 ⊕ f 1 1) ⊗ g 0 0).
  pose (M4 := f 1 1 ⊗ (g 1 0 ⊖ g 0 0)). pose (M5 := (f 0 0 ⊕ f 1 1) ⊗ (g 0 0 ⊕ g 1 1)).
  pose (M6 := (f 0 1 ⊖ f 1 1) ⊗ (g 1 0 ⊕ g 1 1)). pose (M7 := (f 0 0 ⊖ f 1 0) ⊗ (g 0 0 ⊕ g 0 1)).
  exists (fun i j => match i, j with
    | 0, 0 => M5 ⊕ M4 ⊖ M2 ⊕ M6 | 0, _ => M1 ⊕ M2 | _, 0 => M3 ⊕ M4 | _, _ => M1 ⊕ M5 ⊖ (M3 ⊕ M7) end).
  split; [reflexivity|]. intros H.
  pose proof (H 0 1 ltac:(lia) ltac:(lia)) as H1. pose proof (H 1 0 ltac:(lia) ltac:(lia)) as H2.
  pose proof (H 0 0 ltac:(lia) ltac:(lia)) as H3. cbv beta iota in H1, H2, H3. clear H.
  apply fin_add in H1. destruct H1 as [F1 F2]. apply fin_add in H2. destruct H2 as [F3 F4].
  apply fin_mul in F1, F2, F3, F4. destruct F1 as [A1 A2], F2 as [A3 A4], F3 as [A5 A6], F4 as [A7 A8].
  apply fin_sub in A2, A8. apply fin_add in A3, A5. 
  assert (G : fin (g 0 0) /\ fin (g 0 1) /\ fin (g 1 0) /\ fin (g 1 1)) by tauto.
  assert (F : fin (f 0 0) /\ fin (f 0 1) /\ fin (f 1 0) /\ fin (f 1 1)) by tauto.
  split; intros [|[|i]] [|[|j]] Hi Hj; try lia; tauto.
Qed.

Theorem c76_pow n w f p C : (1 <= p)%Z -> pow K n w (mk n n f) p = Ok C ->
  exists c, C = mk n n c /\ (all_fin n n c -> all_fin n n f).
Proof.
  unfold pow. match goal with |- context [pow_fuel K ?x n w] => generalize x end. intros fuel. revert w p C.
  induction fuel as [|fuel IH]; intros w p C Hp1 E; [discriminate|]. cbn [pow_fuel] in E.
  destruct (Z.eqb_spec p 0) as [|_]; [lia|]. destruct (Z.eqb_spec p 1) as [->|N].
  - injection E as <-. exists f. auto.
  - destruct (Z.ltb_spec p 0) as [|_]; [lia|]. cbn [bind] in E.
    assert (Q : Z.quot p 2 = (p / 2)%Z) by (apply Z.quot_div_nonneg; lia).
    rewrite Q in E. pose proof (Z.div_mod p 2 ltac:(lia)) as D. pose proof (Z.mod_pos_bound p 2 ltac:(lia)) as B.
    destruct (pow_fuel K fuel n (Z.max w 32) (mk n n f) (p / 2)) as [P| | | |] eqn:EP; try discriminate.
    assert (H1 : (1 <= p / 2)%Z) by (clear - N Hp1 D B; lia).
    destruct (IH _ _ _ H1 EP) as [q [-> Hq]]. cbn [bind] in E. unfold op_mult in E.
    rewrite !mult_float in E. cbn [bind] in E.
    assert (T : forall a b, all_fin n n (fun i j => fdot prec emax n (fun k => a i k) (fun k => b k j)) ->
      all_fin n n a /\ all_fin n n b).
    { intros a b H. split; intros i j Hi Hj.
      - apply (fdot_finite prec emax n _ _ (H i i Hi Hi) j Hj).
      - apply (fdot_finite prec emax n _ _ (H j j Hj Hj) i Hi). }
    destruct (_ =? _)%Z.
    + injection E as <-. eexists. split; [reflexivity|]. intros H. apply Hq. apply (T _ _ H).
    + rewrite mult_float in E. injection E as <-. eexists. split; [reflexivity|]. intros H. apply (T _ _ H).
Qed.

(** ** statistics *)
Lemma fsum_elements n m f : fin (fsum prec emax (elements (mk n m f))) -> all_fin n m f.
Proof.
  intros H i j Hi Hj. apply (fsum_finite prec emax _ H). unfold elements, mk. apply in_concat.
  eexists. split; [apply in_map_iff; exists i; split; [reflexivity|apply in_seq; lia]|].
  apply in_map_iff. exists j. split; [reflexivity|apply in_seq; lia].
Qed.

Theorem c76_mean n m f r : mean K n m (mk n m f) = Ok r -> fin r -> all_fin n m f.
Proof. rewrite mean_fsum. intros E. injection E as <-. intros H. apply fsum_elements. apply (fin_div _ _ H). Qed.

Theorem c76_var n m f r : var K n m (mk n m f) = Ok r -> fin r -> all_fin n m f.
Proof.
  intros E H.
  assert (M : exists mu, mean K n m (mk n m f) = Ok mu).
  { unfold var in E. destruct (mean K n m (mk n m f)); try discriminate. eexists. reflexivity. }
  destruct M as [mu Em]. rewrite (var_fsum prec emax n m f mu Em) in E. injection E as <-.
  apply fin_div in H. intros i j Hi Hj.
  assert (F : fin (fsq prec emax mu (f i j))).
  { apply (fsum_finite prec emax _ H). apply in_map. unfold elements, mk. apply in_concat.
    eexists. split; [apply in_map_iff; exists i; split; [reflexivity|apply in_seq; lia]|].
    apply in_map_iff. exists j. split; [reflexivity|apply in_seq; lia]. }
  apply fin_mul in F. destruct F as [F _]. apply fin_sub in F. tauto.
Qed.

Theorem c76_stddev n m f r : stddev K n m (mk n m f) = Ok r -> fin r -> all_fin n m f.
Proof.
  unfold stddev. intros E H. destruct (var K n m (mk n m f)) as [v| | | |] eqn:Ev; try discriminate.
  injection E as <-. apply (c76_var n m f v Ev). revert H. unfold fin. clear.
  destruct v as [s|[]| |[]]; try discriminate; reflexivity.
Qed.

(** ** convolution: the kernel and the 3x3 neighbourhood, as far as it lies inside the array *)
Lemma fin_corr n m f k p q c : corr K n m f k p q = Ok c -> fin c ->
  forall a b, a < 3 -> b < 3 -> inside n m (p + Z.of_nat a - 1) (q + Z.of_nat b - 1) = true ->
  fin (k a b) /\ fin (f (Z.to_nat (p + Z.of_nat a - 1)) (Z.to_nat (q + Z.of_nat b - 1))).
Proof.
  intros E Fc. rewrite corr_unfold in E. cbv zeta in E.
  pose (ok := fun a b => inside n m (p + Z.of_nat a - 1) (q + Z.of_nat b - 1) = true ->
    fin (k a b) /\ fin (f (Z.to_nat (p + Z.of_nat a - 1)) (Z.to_nat (q + Z.of_nat b - 1)))).
  assert (ST : forall c0 a b c', corr_step K n m f k p q c0 (a, b) = Ok c' -> fin c' -> fin c0 /\ ok a b).
  { intros c0 a b c' Es Fc'. unfold corr_step in Es. cbv zeta in Es. cbn [fst snd] in Es. unfold ok.
    destruct (inside n m _ _) eqn:Ei.
    - cbn [bind xmul xadd ld st floatS] in Es. injection Es as <-. apply fin_add in Fc'. destruct Fc' as [F1 F2].
      split; [exact F1|]. intros _. apply fin_mul. exact F2.
    - cbn [bind xmul xadd ld st lit floatS] in Es. injection Es as <-. apply fin_add in Fc'. split; [tauto|discriminate]. }
  do 8 (match type of E with bind ?o _ = Ok _ => destruct o as [?c| | | |] eqn:?E; try discriminate; cbn [bind] in E end).
  repeat match goal with H : corr_step _ _ _ _ _ _ _ ?x (?a, ?b) = Ok ?y, G : fin ?y |- _ =>
    let N := fresh in let O := fresh "O" in destruct (ST _ _ _ _ H G) as [N O]; clear H end.
  intros [|[|[|a]]] [|[|[|b]]] Ha Hb; try lia; assumption.
Qed.

Lemma inside_nat n m x y : x < n -> y < m -> inside n m (Z.of_nat x) (Z.of_nat y) = true.
Proof. intros Hx Hy. unfold inside. rewrite !andb_true_iff, !Z.leb_le, !Z.ltb_lt. lia. Qed.

Lemma fin_corr_nat n m f k p q c : corr K n m f k p q = Ok c -> fin c ->
  forall a b (x y : nat), a < 3 -> b < 3 -> x < n -> y < m ->
  (p + Z.of_nat a = Z.of_nat x + 1)%Z -> (q + Z.of_nat b = Z.of_nat y + 1)%Z -> fin (k a b) /\ fin (f x y).
Proof.
  intros E F a b x y Ha Hb Hx Hy E1 E2. pose proof (fin_corr n m f k p q c E F a b Ha Hb) as H.
  replace (p + Z.of_nat a - 1)%Z with (Z.of_nat x) in H by lia.
  replace (q + Z.of_nat b - 1)%Z with (Z.of_nat y) in H by lia.
  rewrite !Nat2Z.id in H. apply H. apply inside_nat; assumption.
Qed.

Lemma corr_float n m f k p q : exists c, corr K n m f k p q = Ok c.
Proof.
  assert (ST : forall c ab, exists c', corr_step K n m f k p q c ab = Ok c').
  { intros c ab. unfold corr_step. cbv zeta. destruct (inside n m _ _); eexists; reflexivity. }
  rewrite corr_unfold. cbv zeta.
  do 8 (match goal with |- context [bind (corr_step _ _ _ _ _ _ _ ?c ?ab) _] =>
    let x := fresh in let E := fresh in destruct (ST c ab) as [x E]; rewrite E; cbn [bind]; clear E end).
  apply ST.
Qed.

Lemma corr_tab n m f k (p q : nat -> Z) : exists c, forall i j, corr K n m f k (p i) (q j) = Ok (c i j).
Proof.
  exists (fun i j => match corr K n m f k (p i) (q j) with Ok x => x | _ => B754_nan end). intros i j.
  destruct (corr_float n m f k (p i) (q j)) as [c ->]. reflexivity.
Qed.

Theorem c76_conv n m f k : (Z.of_nat n <= 2 ^ 31)%Z -> (Z.of_nat m <= 2 ^ 31)%Z -> exists c,
  conv2 K n m (mk n m f) (mk 3 3 k) = Ok (mk n m c) /\
  forall r s, r < n -> s < m -> fin (c r s) ->
  forall a b (x y : nat), a < 3 -> b < 3 -> x < n -> y < m -> r + a = x + 1 -> s + b = y + 1 -> fin (k a b) /\ fin (f x y).
Proof.
  intros Hn Hm. destruct (corr_tab n m f k Z.of_nat Z.of_nat) as [c Hc]. exists c.
  split; [rewrite conv2_tab by assumption; apply tabM_ok; intros; apply Hc|].
  intros r s _ _ F a b x y Ha Hb Hx Hy E1 E2.
  apply (fin_corr_nat n m f k _ _ _ (Hc r s) F a b x y Ha Hb Hx Hy); lia.
Qed.

Theorem c76_conv_full n m f k : (Z.of_nat n <= 2 ^ 31)%Z -> (Z.of_nat m <= 2 ^ 31)%Z -> exists c,
  conv2_full K n m (mk n m f) (mk 3 3 k) = Ok (mk (n + 2) (m + 2) c) /\
  forall r s, r < n + 2 -> s < m + 2 -> fin (c r s) ->
  forall a b (x y : nat), a < 3 -> b < 3 -> x < n -> y < m -> r + a = x + 2 -> s + b = y + 2 -> fin (k a b) /\ fin (f x y).
Proof.
  intros Hn Hm. destruct (corr_tab n m f k (fun i => Z.of_nat i - 1)%Z (fun i => Z.of_nat i - 1)%Z) as [c Hc]. exists c.
  split; [rewrite conv2_full_tab by assumption; apply tabM_ok; intros; apply Hc|].
  intros r s _ _ F a b x y Ha Hb Hx Hy E1 E2.
  apply (fin_corr_nat n m f k _ _ _ (Hc r s) F a b x y Ha Hb Hx Hy); lia.
Qed.

Theorem c76_conv_valid n f k : 2 <= n -> (Z.of_nat n <= 2 ^ 31)%Z -> exists c,
  conv2_valid K n (mk n n f) (mk 3 3 k) = Ok (mk (n - 2) (n - 2) c) /\
  forall r s, r < n - 2 -> s < n - 2 -> fin (c r s) ->
  forall a b, a < 3 -> b < 3 -> fin (k a b) /\ fin (f (r + a) (s + b)).
Proof.
  intros H2 Hn. destruct (c76_conv n n f k Hn Hn) as [c [E H]]. exists (fun r s => c (r + 1) (s + 1)).
  split; [apply (conv2_valid_tab K n f k H2 Hn c E)|]. intros r s Hr Hs F a b Ha Hb.
  apply (H (r + 1) (s + 1) ltac:(lia) ltac:(lia) F a b (r + a) (s + b)); lia.
Qed.

(** ** determinants *)
Lemma fin_minor2 x y z w : fin (x ⊗ y ⊖ z ⊗ w) -> fin x /\ fin y /\ fin z /\ fin w.
Proof. intros H. apply fin_sub in H. destruct H as [H1 H2]. apply fin_mul in H1, H2. tauto. Qed.

Theorem c76_det_small n f d : n = 1 \/ n = 2 \/ n = 3 -> det K n (mk n n f) = Ok d -> fin d -> all_fin n n f.
Proof.
  intros [->|[->| ->]].
  - intros E F i j Hi Hj. replace i with 0 by lia. replace j with 0 by lia.
    change (Ok (f 0 0) = Ok d) in E. injection E as ->. exact F.
  - change (mk 2 2 f) with [[f 0 0; f 0 1]; [f 1 0; f 1 1]]. rewrite det2_fl. intros E F. injection E as <-.
    apply fin_minor2 in F. intros [|[|i]] [|[|j]] Hi Hj; try lia; tauto.
  - change (mk 3 3 f) with [[f 0 0; f 0 1; f 0 2]; [f 1 0; f 1 1; f 1 2]; [f 2 0; f 2 1; f 2 2]].
    rewrite det3_fl. intros E F. injection E as <-.
    apply fin_sub in F. destruct F as [F F6]. apply fin_sub in F. destruct F as [F F5]. apply fin_sub in F. destruct F as [F F4].
    apply fin_add in F. destruct F as [F F3]. apply fin_add in F. destruct F as [F1 F2].
    apply fin_mul in F1, F2, F3, F4, F5, F6. destruct F1 as [G1 ?], F2 as [G2 ?], F3 as [G3 ?], F4 as [G4 ?], F5 as [G5 ?], F6 as [G6 ?].
    apply fin_mul in G1, G2, G3, G4, G5, G6.
    intros [|[|[|i]]] [|[|[|j]]] Hi Hj; try lia; tauto.
Qed.

Lemma swap1_invol p k : swap1 p (swap1 p k) = k.
Proof.
  unfold swap1. destruct (Nat.eqb_spec k (fst p)); [destruct (Nat.eqb_spec (snd p) (fst p)); [congruence|]; rewrite Nat.eqb_refl; congruence|].
  destruct (Nat.eqb_spec k (snd p)); [rewrite Nat.eqb_refl; congruence|].
  destruct (Nat.eqb_spec k (fst p)); [congruence|]. destruct (Nat.eqb_spec k (snd p)); congruence.
Qed.
Lemma swaps_app s t k : swaps (s ++ t) k = swaps s (swaps t k).
Proof. unfold swaps. apply fold_right_app. Qed.
Lemma swaps_rev s k : swaps s (swaps (rev s) k) = k.
Proof.
  revert k. induction s as [|p s IH]; intros k; [reflexivity|]. cbn [rev]. rewrite swaps_app.
  change (swap1 p (swaps s (swaps (rev s) (swap1 p k))) = k).
  rewrite IH. apply swap1_invol.
Qed.

(** from 4x4 on: a finite result other than 0 *)
Theorem c76_det n f d : 3 < n -> det K n (mk n n f) = Ok d -> fin d -> B2R d <> 0%R -> all_fin n n f.
Proof.
  intros Hn E Fd Nd i j Hi Hj.
  assert (E' : det_general K n (mk n n f) = Ok d) by (destruct n as [|[|[|[|n]]]]; try lia; exact E).
  rewrite det_general_drun in E'.
  destruct (f_of_Z_1 prec emax) as [E1 [E2 _]].
  destruct (drun_back prec emax n (n - 0) 0 f _ d eq_refl ltac:(lia) (conj E2 (or_introl E1)) E' Fd Nd)
    as [sw [m [v [Hsw [_ [_ [_ HF]]]]]]].
  destruct (HF (swaps (rev sw) i) j) as [H _]; [|lia|rewrite swaps_rev in H; exact H].
  apply (swaps_range 0 n); [|lia]. intros p Hp1. apply in_rev in Hp1. apply (Hsw p Hp1).
Qed.

(** ** inverses *)
Notation zero := (f_of_Z prec emax 0).
Theorem c76_inv_small n f Y : n = 2 \/ n = 3 -> inv K n (mk n n f) = Ok Y -> exists y, Y = mk n n y /\
  (all_fin n n y -> all_fin n n f).
Proof.
  intros [->| ->].
  - change (mk 2 2 f) with [[f 0 0; f 0 1]; [f 1 0; f 1 1]]. rewrite inv2_fl.
    destruct (Beqb _ zero); [discriminate|]. set (r := f 0 0 ⊗ f 1 1 ⊖ f 0 1 ⊗ f 1 0). intros E. injection E as <-.
    exists (fun i j => match i, j with 0, 0 => f 1 1 ⊘ r | 0, _ => Bopp (f 0 1) ⊘ r | _, 0 => Bopp (f 1 0) ⊘ r | _, _ => f 0 0 ⊘ r end).
    split; [reflexivity|]. intros H.
    pose proof (fin_div _ _ (H 0 0 ltac:(lia) ltac:(lia))). pose proof (fin_opp _ (fin_div _ _ (H 0 1 ltac:(lia) ltac:(lia)))).
    pose proof (fin_opp _ (fin_div _ _ (H 1 0 ltac:(lia) ltac:(lia)))). pose proof (fin_div _ _ (H 1 1 ltac:(lia) ltac:(lia))).
    intros [|[|i]] [|[|j]] Hi Hj; try lia; assumption.
  - change (mk 3 3 f) with [[f 0 0; f 0 1; f 0 2]; [f 1 0; f 1 1; f 1 2]; [f 2 0; f 2 1; f 2 2]].
    intros E. rewrite (inv3_fl prec emax _ _ _ _ _ _ _ _ _ _ (det3_fl prec emax _ _ _ _ _ _ _ _ _)) in E.
    match type of E with context [Beqb ?x zero] => set (r := x) in * end.
    destruct (Beqb r zero); [discriminate|]. clearbody r.
    injection E as <-.
    pose (t := fun a b c d e f g h k : fl => fun i j => match i, j with
      | 0, 0 => a | 0, 1 => b | 0, _ => c | 1, 0 => d | 1, 1 => e | 1, _ => f | _, 0 => g | _, 1 => h | _, _ => k end).
    match goal with |- exists y, [[?a; ?b; ?c]; [?d; ?e; ?f]; [?g; ?h; ?k]] = _ /\ _ => exists (t a b c d e f g h k) end.
    split; [reflexivity|]. intros H.
    pose proof (fin_minor2 _ _ _ _ (fin_div _ _ (H 0 0 ltac:(lia) ltac:(lia)))).
    pose proof (fin_minor2 _ _ _ _ (fin_div _ _ (H 0 1 ltac:(lia) ltac:(lia)))).
    pose proof (fin_minor2 _ _ _ _ (fin_div _ _ (H 1 0 ltac:(lia) ltac:(lia)))).
    pose proof (fin_minor2 _ _ _ _ (fin_div _ _ (H 1 1 ltac:(lia) ltac:(lia)))).
    clear H. intros [|[|[|i]]] [|[|[|j]]] Hi Hj; try lia; tauto.
Qed.

(** from 4x4 on, unless the determinant itself overflowed *)
Theorem c76_inv n f Y : 3 < n -> inv K n (mk n n f) = Ok Y -> exists y d, Y = mk n n y /\
  det K n (mk n n f) = Ok d /\ (all_fin n n y -> all_fin n n f \/ exists b, d = B754_infinity b).
Proof.
  intros Hn E. assert (E' : inv_general K n (mk n n f) = Ok Y) by (destruct n as [|[|[|[|n]]]]; try lia; exact E). clear E.
  rewrite inv_general_tab in E'.
  match type of E' with bind ?o _ = _ => destruct o as [d| | | |] eqn:Ed; try discriminate end. cbn [bind] in E'.
  match type of E' with bind ?o _ = _ => destruct o as [C| | | |] eqn:EC; try discriminate end. cbn [bind] in E'.
  destruct (tabM_inv (B754_nan : fl) n n _ _ EC) as [c [-> _]]. clear EC.
  rewrite trans_mk in E'. cbn [bind] in E'. unfold op_div in E'. rewrite div_tab in E'.
  change (xeq (ld d) (lit 0)) with (Beqb d zero) in E'. destruct (Beqb d zero) eqn:Eb; [discriminate|].
  rewrite (tabM_ok n n _ (fun i j => c j i ⊘ d)) in E' by reflexivity. injection E' as <-.
  exists (fun i j => c j i ⊘ d), d. split; [reflexivity|]. split; [exact Ed|]. intros H.
  pose proof (H 0 0 ltac:(lia) ltac:(lia)) as H0. cbv beta in H0.
  destruct d as [s|s| |s m e B] eqn:D.
  - exfalso. rewrite (f_of_Z_0 prec emax) in Eb. destruct s; discriminate.
  - right. exists s. reflexivity.
  - exfalso. destruct (c 0 0); discriminate.
  - left. apply (c76_det n f d Hn).
    + rewrite D. exact Ed.
    + rewrite D. reflexivity.
    + intros Z. rewrite <- D in Eb. rewrite (f_of_Z_0 prec emax) in Eb.
      enough (Beqb d (B754_zero false) = true) by congruence.
      apply (Beqb_finite prec emax d (B754_zero false)); [rewrite D; reflexivity|reflexivity|exact Z].
Qed.

(** ** factorisations *)
Theorem c76_lu n f L U : lu K n (mk n n f) = Ok (L, U) -> exists l v, L = mk n n l /\ U = mk n n v /\
  (all_fin n n l -> all_fin n n v -> all_fin n n f).
Proof.
  intros H. destruct (lu_recurrence K n f L U H) as [l [v [-> [-> [_ [_ [_ [H3 H4]]]]]]]].
  exists l, v. split; [reflexivity|]. split; [reflexivity|]. intros Fl Fv i j Hi Hj.
  destruct (Nat.le_gt_cases i j) as [Hij|Hij].
  - destruct (H3 i j Hj Hij) as [s [w [E1 [E2 E3]]]]. cbn [floatS st ld xsub] in *. injection E2 as <-.
    pose proof (Fv i j Hi Hj) as F. rewrite E3 in F. apply fin_sub in F. tauto.
  - destruct (H4 i j Hj ltac:(lia)) as [_ [s [w [q [G1 [G2 [G3 G4]]]]]]]. cbn [floatS st ld xsub xdiv] in *.
    injection G2 as <-. injection G3 as <-. pose proof (Fl i j Hi Hj) as F. rewrite G4 in F.
    apply fin_div in F. apply fin_sub in F. tauto.
Qed.

(** chol reads the lower triangle only *)
Theorem c76_chol n f L : chol K n (mk n n f) = Ok L -> exists l, L = mk n n l /\
  (all_fin n n l -> forall i j, j <= i -> i < n -> fin (f i j)).
Proof.
  intros H. destruct (chol_recurrence K n f L H) as [l [-> [_ [H1 H2]]]]. exists l. split; [reflexivity|].
  intros F i j Hj Hi. destruct (Nat.eq_dec j i) as [->|N].
  - destruct (H1 i Hi) as [s [w [E1 [E2 E3]]]]. cbn [floatS st ld xsub xsqrt] in *. injection E2 as <-.
    injection E3 as E3. pose proof (F i i Hi Hi) as G. rewrite <- E3 in G.
    assert (G' : fin (f i i ⊖ s)).
    { revert G. generalize (f i i ⊖ s). unfold fin. intros [sg|[]| |[]]; try discriminate; reflexivity. }
    apply fin_sub in G'. tauto.
  - destruct (H2 i j ltac:(lia)) as [s [w [q [G1 [G2 [G3 G4]]]]]]. cbn [floatS st ld xsub xdiv] in *.
    injection G2 as <-. injection G3 as <-. pose proof (F i j Hi ltac:(lia)) as G. rewrite G4 in G.
    apply fin_div in G. apply fin_sub in G. tauto.
Qed.
End Format.

(** ** Where they are lost *)
Definition fin_outb (o : outcome (matrix (elt float32S))) : bool :=
  match o with Ok X => forallb (forallb (fun x => is_finite x)) X | _ => false end.
Lemma fin_outb_inv o : fin_outb o = true -> exists X, o = Ok X /\ Forall (Forall (fun x => is_finite x = true)) X.
Proof.
  destruct o as [X| | | |]; try discriminate. intros H. exists X. split; [reflexivity|]. apply Forall_forall. intros row I.
  apply Forall_forall. intros x J. exact (proj1 (forallb_forall _ _) (proj1 (forallb_forall _ _) H row I) x J).
Qed.
Definition finb (o : outcome (elt float32S)) : bool := match o with Ok x => is_finite x | _ => false end.
Lemma finb_inv o : finb o = true -> exists x, o = Ok x /\ is_finite x = true.
Proof. destruct o as [x| | | |]; try discriminate. intros H. exists x. split; [reflexivity|exact H]. Qed.

Notation inf32 := (B754_infinity false : elt float32S).
Notation nan32 := (B754_nan : elt float32S).
(** three columns of zeros, a NaN in the first row of the last one *)
Definition nan4 : matrix (elt float32S) := mk 4 4 (fun i j => if (i =? 0) && (j =? 3) then nan32 else B754_zero false).

Lemma c76_check : fin_outb (div float32S 1 1 [[fz32 1]] inf32) && fin_outb (inv float32S 1 [[inf32]]) &&
  finb (det float32S 4 nan4) = true.
Proof. vm_compute. reflexivity. Qed.

(** dividing by an infinity, inverting the 1x1 array [[inf]], and the
    determinant of a 4x4 array whose first columns are zero *)
Theorem c76_lost :
  (exists X, div float32S 1 1 [[fz32 1]] inf32 = Ok X /\ Forall (Forall (fun x => is_finite x = true)) X) /\
  (exists X, inv float32S 1 [[inf32]] = Ok X /\ Forall (Forall (fun x => is_finite x = true)) X) /\
  (In nan32 (elements nan4) /\ exists d, det float32S 4 nan4 = Ok d /\ is_finite d = true).
Proof.
  pose proof c76_check as H. apply andb_prop in H. destruct H as [H H3]. apply andb_prop in H. destruct H as [H1 H2].
  split; [exact (fin_outb_inv _ H1)|]. split; [exact (fin_outb_inv _ H2)|].
  split; [|exact (finb_inv _ H3)]. unfold nan4, mk, elements. simpl. tauto.
Qed.

(** finite results exist: the hypotheses on concrete matrices *)
Example c76_ex :
  fin_outb (inv float32S 4 (mz32 [[2; 1; 0; 0]; [1; 3; 1; 0]; [0; 1; 4; 1]; [0; 0; 1; 5]]%Z)) &&
  fin_outb (inv float32S 3 (mz32 [[2; 1; 0]; [1; 3; 1]; [0; 1; 4]]%Z)) &&
  fin_outb (chol float32S 2 (mz32 [[4; 2]; [2; 3]]%Z)) && fin_outb (pow float32S 2 32 (mz32 [[1; 1]; [1; 0]]%Z) 10) &&
  fin_outb (match lu float32S 2 (mz32 [[4; 2]; [2; 3]]%Z) with Ok (L, U) => Ok L | _ => Terminate end) &&
  finb (stddev float32S 2 2 (mz32 [[4; 2]; [2; 3]]%Z)) = true.
Proof. vm_compute. reflexivity. Qed.

Print Assumptions c76_elementwise.
Print Assumptions c76_mult.
Print Assumptions c76_strassen.
Print Assumptions c76_pow.
Print Assumptions c76_mean.
Print Assumptions c76_var.
Print Assumptions c76_stddev.
Print Assumptions c76_conv.
Print Assumptions c76_conv_full.
Print Assumptions c76_conv_valid.
Print Assumptions c76_det_small.
Print Assumptions c76_det.
Print Assumptions c76_inv_small.
Print Assumptions c76_inv.
Print Assumptions c76_lu.
Print Assumptions c76_chol.
Print Assumptions c76_lost.
