(** * Rounding errors of polynomial programs with contraction

    The calculus of FloatPoly.v for expressions that may be a product not yet
    rounded. *)

From Coq Require Import ZArith Reals Lra Lia Bool List Arith.
Import ListNotations.
From Flocq Require Import IEEE754.BinarySingleNaN Core.Core Relative Plus_error.
From Verif Require Import Base Scalar CFloat CFma Model Spec Loops Struct Conv LURec Float FloatMx FloatPoly Fma.

Local Open Scope nat_scope.

Section FmaPoly.
Variables prec emax : Z.
Context {Hp : Prec_gt_0 prec} {He : Prec_lt_emax prec emax}.
Variable pol : policy.
Notation fl := (binary_float prec emax).
Notation K := (fmaS prec emax pol).
Notation emin := (SpecFloat.emin prec emax).
Notation u := (uro prec).
Notation approx := (approx prec emax).
Notation "x ⊗ y" := (Bmult mode_NE x y) (at level 40, left associativity).
Notation fma x y z := (Bfma mode_NE x y z).

(** a value as in FloatPoly.v; of a product the exact value counts, one factor
    (1+u) being left for its rounding *)
Definition vapprox (k : nat) (g : Z) (r b : R) (v : fval prec emax) : Prop :=
  match v with
  | Val x => approx k g r b x
  | Prd x y => is_finite x = true -> is_finite y = true ->
      exists k', k' + 1 <= k /\ (Rabs r <= b)%R /\
        (Rabs (B2R x * B2R y - r) <= ((1 + u) ^ k' - 1) * b)%R /\ multiple g (B2R x * B2R y)
  end.

Lemma vapprox_ev k g r b v : (emin <= g)%Z -> vapprox k g r b v -> approx k g r b (ev v).
Proof.
  destruct v as [x|x y]; intros Hg H; [exact H|]. intros F. cbn [ev] in *.
  destruct (Bmult_finite prec emax x y F) as [Fx [Fy E]]. destruct (H Fx Fy) as [k' [Hk [R1 [R2 R3]]]].
  assert (A : approx (k' + 1) g r b (x ⊗ y)).
  { intros _. rewrite E. split; [exact R1|]. split; [|apply (multiple_rnd prec emax), R3].
    apply (approx_round prec emax k' g); assumption. }
  exact (approx_mono prec emax (k' + 1) k g g r b _ Hk (Z.le_refl g) A F).
Qed.

Lemma vapprox_mono k k' g r b v : k <= k' -> vapprox k g r b v -> vapprox k' g r b v.
Proof.
  destruct v as [x|x y]; intros Hk H.
  - exact (approx_mono prec emax k k' g g r b x Hk (Z.le_refl g) H).
  - intros Fx Fy. destruct (H Fx Fy) as [k1 [H1 H2]]. exists k1. split; [lia|exact H2].
Qed.

Lemma Rabs_minus_le p q : (Rabs (p - q) <= Rabs p + Rabs q)%R.
Proof. unfold Rminus. rewrite <- (Rabs_Ropp q). apply Rabs_triang. Qed.

(** one rounding of p + q *)
Lemma fused k k' g r b r' b' (p q : R) : (emin <= g)%Z -> k' <= k ->
  (Rabs r <= b)%R -> (Rabs (p - r) <= ((1 + u) ^ k' - 1) * b)%R -> multiple g p ->
  (Rabs r' <= b')%R -> (Rabs (q - r') <= ((1 + u) ^ k - 1) * b')%R -> multiple g q ->
  let z := round radix2 (SpecFloat.fexp prec emax) ZnearestE (p + q) in
  (Rabs (r + r') <= b + b')%R /\ (Rabs (z - (r + r')) <= ((1 + u) ^ (k + 1) - 1) * (b + b'))%R /\ multiple g z.
Proof.
  intros Hg Hk R1 R2 R3 S1 S2 S3 z.
  assert (A : (Rabs (r + r') <= b + b')%R) by (eapply Rle_trans; [apply Rabs_triang|lra]).
  pose proof (multiple_add g _ _ R3 S3) as M.
  split; [exact A|]. split; [|apply (multiple_rnd prec emax), M].
  apply (approx_round prec emax k g); [exact Hg|exact M|exact A|].
  replace (p + q - (r + r'))%R with ((p - r) + (q - r'))%R by ring.
  eapply Rle_trans; [apply Rabs_triang|].
  assert (((1 + u) ^ k' - 1) * b <= ((1 + u) ^ k - 1) * b)%R; [|lra].
  apply Rmult_le_compat_r; [pose proof (Rabs_pos r); lra|]. pose proof (pow1u_mono prec k' k Hk). lra.
Qed.

Lemma multiple_opp g x : multiple g x -> multiple g (- x).
Proof. intros [m ->]. exists (- m)%Z. rewrite opp_IZR. ring. Qed.

Lemma approx_opp k g r b x : approx k g r b x -> approx k g (- r) b (Bopp x).
Proof.
  intros H F. rewrite is_finite_Bopp in F. destruct (H F) as [H1 [H2 H3]]. rewrite B2R_Bopp, Rabs_Ropp.
  split; [exact H1|]. split; [|apply multiple_opp, H3].
  replace (- B2R x - - r)%R with (- (B2R x - r))%R by ring. rewrite Rabs_Ropp. exact H2.
Qed.

(** a product fused with a value *)
Lemma approx_fma k g r b r' b' x y z : (emin <= g)%Z ->
  vapprox k g r b (Prd x y) -> approx k g r' b' z -> approx (k + 1) g (r + r') (b + b') (fma x y z).
Proof.
  intros Hg H Hz F. destruct (Bfma_finite prec emax x y z F) as [Fx [Fy [Fz E]]]. rewrite E.
  destruct (H Fx Fy) as [k' [Hk [R1 [R2 R3]]]]. destruct (Hz Fz) as [Z1 [Z2 Z3]].
  apply (fused k k' g); try assumption. lia.
Qed.

Lemma vapprox_opp k g r b x y : vapprox k g r b (Prd x y) -> vapprox k g (- r) b (Prd (Bopp x) y).
Proof.
  intros H Fx Fy. rewrite is_finite_Bopp in Fx. destruct (H Fx Fy) as [k' [Hk [R1 [R2 R3]]]].
  exists k'. rewrite B2R_Bopp, Rabs_Ropp. repeat split; try assumption.
  - replace (- B2R x * B2R y - - r)%R with (- (B2R x * B2R y - r))%R by ring. rewrite Rabs_Ropp. exact R2.
  - replace (- B2R x * B2R y)%R with (- (B2R x * B2R y))%R by ring. apply multiple_opp, R3.
Qed.

Lemma vapprox_add k g r b r' b' v w : (emin <= g)%Z ->
  vapprox k g r b v -> vapprox k g r' b' w -> approx (k + 1) g (r + r') (b + b') (fadd prec emax pol v w).
Proof.
  intros Hg Hv Hw. pose proof (vapprox_ev k g r b v Hg Hv) as Ev. pose proof (vapprox_ev k g r' b' w Hg Hw) as Ew.
  pose proof (approx_add prec emax k g r b r' b' _ _ Hg Ev Ew) as P.
  unfold fadd. destruct (pol false (is_prd v) (is_prd w)); [exact P| |].
  - destruct v as [x|x y]; [destruct w; exact P|]. apply approx_fma; assumption.
  - destruct w as [x|x y]; [destruct v; exact P|].
    assert (Q := approx_fma k g r' b' r b x y (ev v) Hg Hw Ev). rewrite (Rplus_comm r), (Rplus_comm b). exact Q.
Qed.

Lemma vapprox_sub k g r b r' b' v w : (emin <= g)%Z ->
  vapprox k g r b v -> vapprox k g r' b' w -> approx (k + 1) g (r - r') (b + b') (fsub prec emax pol v w).
Proof.
  intros Hg Hv Hw. pose proof (vapprox_ev k g r b v Hg Hv) as Ev. pose proof (vapprox_ev k g r' b' w Hg Hw) as Ew.
  pose proof (approx_sub prec emax k g r b r' b' _ _ Hg Ev Ew) as P.
  unfold fsub. destruct (pol true (is_prd v) (is_prd w)); [exact P| |].
  - destruct v as [x|x y]; [destruct w; exact P|]. unfold Rminus. apply approx_fma; [exact Hg|exact Hv|].
    apply approx_opp, Ew.
  - destruct w as [x|x y]; [destruct v; exact P|].
    assert (Q := approx_fma k g (- r') b' r b (Bopp x) y (ev v) Hg (vapprox_opp _ _ _ _ _ _ Hw) Ev).
    unfold Rminus. rewrite (Rplus_comm r), (Rplus_comm b). exact Q.
Qed.

(** the product of two values *)
Lemma vapprox_mul k k' g g' r b r' b' x y : 
  approx k g r b x -> approx k' g' r' b' y -> vapprox (k + k' + 1) (g + g') (r * r') (b * b') (Prd x y).
Proof.
  intros Hx Hy Fx Fy. exists (k + k'). split; [lia|].
  destruct (Hx Fx) as [X1 [X2 X3]], (Hy Fy) as [Y1 [Y2 Y3]].
  split; [rewrite Rabs_mult; apply Rmult_le_compat; auto using Rabs_pos|].
  split; [|exact (multiple_mul g g' _ _ X3 Y3)].
  replace (B2R x * B2R y - r * r')%R with ((B2R x - r) * B2R y + r * (B2R y - r'))%R by ring.
  eapply Rle_trans; [apply Rabs_triang|]. rewrite !Rabs_mult.
  pose proof (approx_size prec k' r' b' (B2R y) Y1 Y2) as S.
  assert (P1 : (Rabs (B2R x - r) * Rabs (B2R y) <= (((1 + u) ^ k - 1) * b) * ((1 + u) ^ k' * b'))%R)
    by (apply Rmult_le_compat; auto using Rabs_pos).
  assert (P2 : (Rabs r * Rabs (B2R y - r') <= b * (((1 + u) ^ k' - 1) * b'))%R)
    by (apply Rmult_le_compat; auto using Rabs_pos).
  rewrite pow_add. lra.
Qed.

(** an accumulation that starts from zero: one rounding *)
Lemma approx_acc0 k g r b x y : (emin <= g)%Z -> vapprox k g r b (Prd x y) ->
  approx k g r b (acc prec emax pol (B754_zero false) x y).
Proof.
  intros Hg H F. destruct (acc_finite prec emax pol _ _ _ F) as [_ [Fx Fy]].
  rewrite (acc_0 prec emax pol x y F). destruct (H Fx Fy) as [k' [Hk [R1 [R2 R3]]]].
  pose proof (approx_round prec emax k' g r b _ Hg R3 R1 R2) as Q.
  split; [exact R1|]. split; [|apply (multiple_rnd prec emax), R3].
  eapply Rle_trans; [exact Q|]. apply Rmult_le_compat_r; [pose proof (Rabs_pos r); lra|].
  pose proof (pow1u_mono prec (k' + 1) k Hk). lra.
Qed.

Lemma approx_fadd0 k g r b v : (emin <= g)%Z -> vapprox k g r b v ->
  approx k g r b (fadd prec emax pol (Val (B754_zero false)) v).
Proof.
  destruct v as [x|x y]; intros Hg H; [|exact (approx_acc0 k g r b x y Hg H)].
  unfold fadd. cbn [is_prd ev].
  assert (P : approx k g r b (Bplus mode_NE (B754_zero false) x)).
  { intros F. destruct (Bplus_finite prec emax _ _ F) as [_ [Fy _]].
    destruct (Bplus_zero_l prec emax (B754_zero false) _ eq_refl Fy eq_refl) as [_ Ey]. rewrite Ey. exact (H Fy). }
  destruct (pol false false false); exact P.
Qed.

Lemma approx_adot m k k' g g' (a b : nat -> fl) ra ba rb bb : (emin <= g + g')%Z ->
  (forall i, i < m -> approx k g (ra i) (ba i) (a i)) ->
  (forall i, i < m -> approx k' g' (rb i) (bb i) (b i)) ->
  approx (k + k' + m) (g + g') (rsum m (fun i => ra i * rb i)%R) (rsum m (fun i => ba i * bb i)%R)
    (adot prec emax pol m a b).
Proof.
  intros Hg Ha Hb. induction m as [|m IH].
  - rewrite !rsum_0. apply approx_0. reflexivity.
  - rewrite !rsum_S. cbn [adot].
    assert (P : vapprox (k + k' + 1) (g + g') (ra m * rb m) (ba m * bb m) (Prd (a m) (b m))).
    { apply vapprox_mul; [apply Ha; lia|apply Hb; lia]. }
    destruct m as [|m].
    + cbn [adot]. rewrite !rsum_0, !Rplus_0_l. apply approx_acc0; assumption.
    + replace (k + k' + S (S m)) with (k + k' + S m + 1) by lia. apply vapprox_add; [exact Hg| |].
      * apply IH; intros; [apply Ha|apply Hb]; lia.
      * eapply vapprox_mono; [|exact P]. lia.
Qed.

(** ** powers *)
Section Pow.
Variables (n : nat) (f : nat -> nat -> fl) (t : Z).
Hypothesis Ht : (0 <= t)%Z.
Hypothesis Hf : forall i j, i < n -> j < n -> is_finite (f i j) = true -> multiple (- t) (B2R (f i j)).
Notation A i j := (B2R (f i j)).
Notation Aabs i j := (Rabs (B2R (f i j))).
Definition pow_ok (q : nat) (C : matrix fl) : Prop := exists c, C = mk n n c /\
  forall i j, i < n -> j < n ->
    approx ((q - 1) * n) (- t * Z.of_nat q) (rpow n (fun i j => A i j) q i j) (rpow n (fun i j => Aabs i j) q i j) (c i j).

Lemma pow_ok_mult q q' C D X : 0 < q -> 0 < q' -> (t * Z.of_nat (q + q') <= - emin)%Z ->
  pow_ok q C -> pow_ok q' D -> mult K n n n C D = Ok X -> pow_ok (q + q') X.
Proof.
  intros Hq Hq' Hu [c [-> Hc]] [d [-> Hd]] E. rewrite mult_fma in E. injection E as <-.
  eexists. split; [reflexivity|]. intros i j Hi Hj. cbv beta.
  eapply (approx_mono prec emax); [| |eapply (approx_ext prec emax); [| |apply (approx_adot n ((q - 1) * n) ((q' - 1) * n) (- t * Z.of_nat q) (- t * Z.of_nat q')
    _ _ (fun k => rpow n (fun i j => A i j) q i k) (fun k => rpow n (fun i j => Aabs i j) q i k)
    (fun k => rpow n (fun i j => A i j) q' k j) (fun k => rpow n (fun i j => Aabs i j) q' k j))]].
  - nia.
  - lia.
  - symmetry. apply (rpow_add n (fun i j => A i j)). exact Hi.
  - symmetry. apply (rpow_add n (fun i j => Aabs i j)). exact Hi.
  - lia.
  - intros k Hk. apply Hc; assumption.
  - intros k Hk. apply Hd; assumption.
Qed.

Lemma pow_fuel_approx fuel : forall w p C, (1 <= p)%Z -> (t * p <= - emin)%Z ->
  pow_fuel K fuel n w (mk n n f) p = Ok C -> pow_ok (Z.to_nat p) C.
Proof.
  induction fuel as [|fuel IH]; intros w p C Hp1 Hu E; [discriminate|]. cbn [pow_fuel] in E.
  destruct (Z.eqb_spec p 0) as [|_]; [lia|]. destruct (Z.eqb_spec p 1) as [->|N].
  - injection E as <-. exists f. split; [reflexivity|]. intros i j Hi Hj.
    rewrite !rpow_1 by assumption. change (Z.to_nat 1) with 1. rewrite Nat.sub_diag, Nat.mul_0_l. intros Fin.
    apply (approx_exact prec emax); [|exact Fin]. replace (- t * Z.of_nat 1)%Z with (- t)%Z by lia. apply Hf; assumption.
  - destruct (Z.ltb_spec p 0) as [|_]; [lia|]. cbn [bind] in E.
    assert (Q : Z.quot p 2 = (p / 2)%Z) by (apply Z.quot_div_nonneg; lia).
    assert (M : Z.rem p 2 = (p mod 2)%Z) by (apply Z.rem_mod_nonneg; lia).
    rewrite Q, M in E. pose proof (Z.div_mod p 2 ltac:(lia)) as D. pose proof (Z.mod_pos_bound p 2 ltac:(lia)) as B.
    assert (H1 : (1 <= p / 2)%Z) by lia.
    destruct (pow_fuel K fuel n (Z.max w 32) (mk n n f) (p / 2)) as [P| | | |] eqn:EP; try discriminate.
    apply IH in EP; [|exact H1|nia]. cbn [bind] in E. unfold op_mult in E.
    destruct (Z.eqb_spec (p mod 2) 0) as [E0|E0].
    + replace (Z.to_nat p) with (Z.to_nat (p / 2) + Z.to_nat (p / 2)) by lia.
      eapply pow_ok_mult; [| | |exact EP|exact EP|exact E]; lia.
    + destruct (mult K n n n P P) as [P2| | | |] eqn:E2; try discriminate. cbn [bind] in E.
      assert (HP2 : pow_ok (Z.to_nat (p / 2) + Z.to_nat (p / 2)) P2).
      { eapply pow_ok_mult; [| | |exact EP|exact EP|exact E2]; nia. }
      replace (Z.to_nat p) with (Z.to_nat (p / 2) + Z.to_nat (p / 2) + 1) by lia.
      eapply pow_ok_mult; [| | |exact HP2| |exact E]; [lia|lia|nia|].
      exists f. split; [reflexivity|]. intros i j Hi Hj.
      rewrite !rpow_1 by assumption. rewrite Nat.sub_diag, Nat.mul_0_l. intros Fin.
      apply (approx_exact prec emax); [|exact Fin]. replace (- t * Z.of_nat 1)%Z with (- t)%Z by lia. apply Hf; assumption.
Qed.
End Pow.

(** ** convolution *)
Lemma approx_corr n m (f k : nat -> nat -> fl) p q t t' c :
  (0 <= t)%Z -> (0 <= t')%Z -> (t + t' <= - emin)%Z ->
  (forall i j, i < n -> j < m -> is_finite (f i j) = true -> multiple (- t) (B2R (f i j))) ->
  (forall i j, i < 3 -> j < 3 -> is_finite (k i j) = true -> multiple (- t') (B2R (k i j))) ->
  corr K n m f k p q = Ok c ->
  approx 9 (- (t + t')) (rcorr n m (fun i j => B2R (f i j)) (fun i j => B2R (k i j)) p q)
    (rcorr n m (fun i j => Rabs (B2R (f i j))) (fun i j => Rabs (B2R (k i j))) p q) c.
Proof.
  intros Ht Ht' Hu Hf Hk E. rewrite corr_unfold in E. cbv zeta in E.
  pose (T1 := fun ab : nat * nat => (B2R (k (fst ab) (snd ab)) *
    rext n m (fun i j => B2R (f i j)) (p + Z.of_nat (fst ab) - 1) (q + Z.of_nat (snd ab) - 1))%R).
  pose (T2 := fun ab : nat * nat => (Rabs (B2R (k (fst ab) (snd ab))) *
    rext n m (fun i j => Rabs (B2R (f i j))) (p + Z.of_nat (fst ab) - 1) (q + Z.of_nat (snd ab) - 1))%R).
  assert (ST : forall c ab c', fst ab < 3 -> snd ab < 3 -> corr_step K n m f k p q c ab = Ok c' ->
    exists v, c' = fadd prec emax pol (Val c) v /\ vapprox 1 (- (t + t')) (T1 ab) (T2 ab) v).
  { intros c0 [a1 b1] c' Ha Hb Es. simpl fst in *. simpl snd in *. unfold corr_step in Es. cbv zeta in Es.
    unfold T1, T2. simpl fst. simpl snd. unfold rext. simpl fst in Es. simpl snd in Es.
    set (pa := (p + Z.of_nat a1 - 1)%Z) in *. set (qb := (q + Z.of_nat b1 - 1)%Z) in *.
    destruct (inside n m pa qb) eqn:Ei.
    - assert (I : Z.to_nat pa < n /\ Z.to_nat qb < m).
      { unfold inside in Ei. rewrite !andb_true_iff in Ei. destruct Ei as [[[E1 E2] E3] E4].
        apply Z.leb_le in E1, E3. apply Z.ltb_lt in E2, E4. lia. }
      cbn [bind xmul xadd ld st fmaS ev] in Es. injection Es as <-. eexists. split; [reflexivity|].
      replace (- (t + t'))%Z with (- t' + - t)%Z by lia. apply (vapprox_mul 0 0).
      + intros F. apply (approx_exact prec emax); [|exact F]. apply Hk; assumption.
      + intros F. apply (approx_exact prec emax); [|exact F]. apply Hf; tauto.
    - cbn [bind xmul xadd ld st lit fmaS ev] in Es. injection Es as <-. eexists. split; [reflexivity|].
      rewrite !Rmult_0_r. apply (approx_0 prec emax). reflexivity. }
  assert (SN : forall kk r b c ab c', fst ab < 3 -> snd ab < 3 -> 1 <= kk -> approx kk (- (t + t')) r b c ->
    corr_step K n m f k p q c ab = Ok c' -> approx (kk + 1) (- (t + t')) (r + T1 ab) (b + T2 ab) c').
  { intros kk r b c0 ab c' Ha Hb Hkk Hc Es. destruct (ST c0 ab c' Ha Hb Es) as [y [-> Hy]].
    apply vapprox_add; [lia|exact Hc|]. eapply vapprox_mono; [|exact Hy]; lia. }
  assert (S0 : forall ab c', fst ab < 3 -> snd ab < 3 ->
    corr_step K n m f k p q (lite K 0) ab = Ok c' -> approx 1 (- (t + t')) (T1 ab) (T2 ab) c').
  { intros ab c' Ha Hb Es. destruct (ST _ ab c' Ha Hb Es) as [y [-> Hy]]. apply approx_fadd0; [lia|exact Hy]. }
  do 8 (match type of E with bind ?o _ = Ok _ => destruct o as [?c| | | |] eqn:?E; try discriminate; cbn [bind] in E end).
  assert (A0 : approx 1 (- (t + t')) (T1 (0, 0)) (T2 (0, 0)) c0) by (apply S0; [cbn; lia|cbn; lia|assumption]).
  assert (A1 := SN 1 _ _ c0 (0, 1) c1 ltac:(cbn; lia) ltac:(cbn; lia) ltac:(lia) A0 ltac:(assumption)).
  assert (A2 := SN 2 _ _ c1 (0, 2) c2 ltac:(cbn; lia) ltac:(cbn; lia) ltac:(lia) A1 ltac:(assumption)).
  assert (A3 := SN 3 _ _ c2 (1, 0) c3 ltac:(cbn; lia) ltac:(cbn; lia) ltac:(lia) A2 ltac:(assumption)).
  assert (A4 := SN 4 _ _ c3 (1, 1) c4 ltac:(cbn; lia) ltac:(cbn; lia) ltac:(lia) A3 ltac:(assumption)).
  assert (A5 := SN 5 _ _ c4 (1, 2) c5 ltac:(cbn; lia) ltac:(cbn; lia) ltac:(lia) A4 ltac:(assumption)).
  assert (A6 := SN 6 _ _ c5 (2, 0) c6 ltac:(cbn; lia) ltac:(cbn; lia) ltac:(lia) A5 ltac:(assumption)).
  assert (A7 := SN 7 _ _ c6 (2, 1) c7 ltac:(cbn; lia) ltac:(cbn; lia) ltac:(lia) A6 ltac:(assumption)).
  assert (A8 := SN 8 _ _ c7 (2, 2) c ltac:(cbn; lia) ltac:(cbn; lia) ltac:(lia) A7 ltac:(assumption)).
  eapply (approx_ext prec emax); [| |exact A8]; unfold rcorr; rewrite !rsum_S, !rsum_0; unfold T1, T2; simpl fst; simpl snd; ring.
Qed.

(** ** determinants *)
Lemma approx_det2 (a b c d r : fl) t : (0 <= t)%Z -> (2 * t <= - emin)%Z ->
  (forall x, In x [a; b; c; d] -> is_finite x = true -> multiple (- t) (B2R x)) ->
  det K 2 [[a; b]; [c; d]] = Ok r ->
  approx 2 (- t + - t) (B2R a * B2R d - B2R b * B2R c)
    (Rabs (B2R a) * Rabs (B2R d) + Rabs (B2R b) * Rabs (B2R c)) r.
Proof.
  intros Ht Hu H E. cbn in E. injection E as <-.
  assert (X : forall x, In x [a; b; c; d] -> approx 0 (- t) (B2R x) (Rabs (B2R x)) x).
  { intros x Hx F. apply (approx_exact prec emax); [exact (H x Hx F)|exact F]. }
  apply (vapprox_sub 1); [lia| |]; apply (vapprox_mul 0 0); apply X; cbn; tauto.
Qed.

Lemma approx_det3 (a b c d e f g p i r : fl) t : (0 <= t)%Z -> (3 * t <= - emin)%Z ->
  (forall x, In x [a; b; c; d; e; f; g; p; i] -> is_finite x = true -> multiple (- t) (B2R x)) ->
  det K 3 [[a; b; c]; [d; e; f]; [g; p; i]] = Ok r ->
  let A := B2R a in let B := B2R b in let C := B2R c in
  let D := B2R d in let E := B2R e in let F := B2R f in
  let G := B2R g in let P := B2R p in let I := B2R i in
  approx 7 (- t + - t + - t) (A * E * I + B * F * G + C * D * P - C * E * G - B * D * I - A * F * P)
   (Rabs A * Rabs E * Rabs I + Rabs B * Rabs F * Rabs G + Rabs C * Rabs D * Rabs P
    + Rabs C * Rabs E * Rabs G + Rabs B * Rabs D * Rabs I + Rabs A * Rabs F * Rabs P) r.
Proof.
  intros Ht Hu H E0 A B C D E F G P I. cbn in E0. injection E0 as <-.
  assert (X : forall x, In x [a; b; c; d; e; f; g; p; i] -> approx 0 (- t) (B2R x) (Rabs (B2R x)) x).
  { intros x Hx Fx. apply (approx_exact prec emax); [exact (H x Hx Fx)|exact Fx]. }
  assert (Y : forall x y z k, In x [a; b; c; d; e; f; g; p; i] -> In y [a; b; c; d; e; f; g; p; i] ->
    In z [a; b; c; d; e; f; g; p; i] -> 2 <= k ->
    vapprox k (- t + - t + - t) (B2R x * B2R y * B2R z) (Rabs (B2R x) * Rabs (B2R y) * Rabs (B2R z)) (Prd (x ⊗ y) z)).
  { intros x y z k Hx Hy Hz Hk. apply (vapprox_mono 2); [exact Hk|]. apply (vapprox_mul 1 0); [|apply X; exact Hz].
    apply (approx_mul prec emax 0 0); [lia|apply X; exact Hx|apply X; exact Hy]. }
  apply (vapprox_sub 6); [lia| |apply Y; cbn; tauto || lia].
  apply (vapprox_sub 5); [lia| |apply Y; cbn; tauto || lia].
  apply (vapprox_sub 4); [lia| |apply Y; cbn; tauto || lia].
  apply (vapprox_add 3); [lia| |apply Y; cbn; tauto || lia].
  apply (vapprox_add 2); [lia| |]; apply Y; cbn; tauto || lia.
Qed.

End FmaPoly.
