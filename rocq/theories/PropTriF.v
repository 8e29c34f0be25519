(** * Property C96 (first part): triangular matrices in floating point

    [fprod n a] = ((1*a 0)*a 1)*...*a (n-1), every product rounded;
    [is_zero] and [same] as in C95: zeros of either sign. *)

From Coq Require Import ZArith Reals Lra Lia Bool List Arith.
Import ListNotations.
From Flocq Require Import IEEE754.BinarySingleNaN Core.Core.
From Verif Require Import Base Scalar CInt CFloat Model Spec Loops Struct Elim LURec
  Float FloatMx FloatErr FloatElim PropClassF.

Local Open Scope nat_scope.

Section Format.
Variables prec emax : Z.
Context {Hp : Prec_gt_0 prec} {He : Prec_lt_emax prec emax}.
Notation fl := (binary_float prec emax).
Notation K := (floatS prec emax).
Notation u := (uro prec).
Notation h := (eta prec emax).
Notation one := (f_of_Z prec emax 1).
Notation "x ⊕ y" := (Bplus mode_NE x y) (at level 50, left associativity).
Notation "x ⊖ y" := (Bminus mode_NE x y) (at level 50, left associativity).
Notation "x ⊗ y" := (Bmult mode_NE x y) (at level 40, left associativity).
Notation "x ⊘ y" := (Bdiv mode_NE x y) (at level 40, left associativity).
Notation is_zero := (PropClassF.is_zero prec emax).
Notation same := (PropClassF.same prec emax).
Notation fprod := (FloatElim.fprod prec emax).
Notation drun := (FloatElim.drun prec emax).
Notation dstep := (FloatElim.dstep prec emax).
Notation elimg := (FloatElim.elimg prec emax).
Notation swapg := (FloatElim.swapg prec emax).
Notation sgnf := (FloatElim.sgnf prec emax).
Notation isz := (FloatElim.isz prec emax).
Implicit Types (x y : fl) (f g : nat -> nat -> fl).

(** ** single operations *)
Lemma isz_zero x : isz x <-> is_zero x.
Proof.
  split.
  - intros [F E]. destruct x as [s|s| |s m e B]; try discriminate; [exact I|]. exfalso. cbn in E.
    apply (F2R_neq_0 radix2) in E; [exact E|]. cbn. destruct s; discriminate.
  - destruct x; intros []. split; reflexivity.
Qed.

Lemma one_val : is_finite one = true /\ B2R one = 1%R /\ Bsign one = false.
Proof.
  destruct (f_of_Z_small prec emax 1) as [E [F G]]; [pose proof (pow_prec_ge2 prec); simpl; lia|].
  split; [exact F|]. split; [exact E|exact G].
Qed.

Lemma sgnf_one : sgnf one.
Proof. destruct one_val as [F [E _]]. split; [exact F|left; exact E]. Qed.

Lemma nonzero_finite x : is_finite x = true -> ~ is_zero x -> exists s m e B, x = B754_finite s m e B.
Proof. destruct x; try discriminate; intros _ H; [exfalso; apply H; exact I|eauto]. Qed.

Lemma div_one x : x ⊘ one = x.
Proof.
  destruct one_val as [F [E G]].
  destruct one as [s|s| |s m e B] eqn:D; try discriminate; [cbn in E; lra|].
  destruct x as [s'|s'| |s' m' e' B'] eqn:X; cbn in G; subst s.
  - cbn. rewrite xorb_false_r. reflexivity.
  - cbn. rewrite xorb_false_r. reflexivity.
  - reflexivity.
  - rewrite <- X, <- D.
    assert (N : B2R one <> 0%R) by (rewrite D, E; lra).
    pose proof (Bdiv_correct prec emax Hp He mode_NE x one N) as H.
    assert (Q : (B2R x / B2R one = B2R x)%R) by (rewrite D, E; field). rewrite Q in H.
    change (round_mode mode_NE) with ZnearestE in H. rewrite (rnd_B2R prec emax) in H.
    rewrite Rlt_bool_true in H by apply abs_lt_emax. destruct H as [H1 [H2 H3]].
    apply B2R_Bsign_inj; [rewrite H2, X; reflexivity|rewrite X; reflexivity|exact H1|].
    rewrite H3; [|destruct (x ⊘ one); try reflexivity; rewrite X in H2; discriminate]. rewrite D, X. cbn. rewrite xorb_false_r. reflexivity.
Qed.

Lemma zero_div x y : is_zero x -> is_finite y = true -> ~ is_zero y -> is_zero (x ⊘ y).
Proof. destruct x; intros []; destruct y; intros F N; try discriminate; [exfalso; apply N|]; exact I. Qed.

Lemma zero_minus_r x y : is_zero y -> same (x ⊖ y) x.
Proof.
  destruct y; intros []; destruct x as [s'|s'| |s' m e E]; try (left; reflexivity).
  right. split; [|exact I]. cbn. destruct (Bool.eqb s' (negb s)); exact I.
Qed.

Lemma same_nonzero x y : same x y -> ~ is_zero y -> x = y.
Proof. intros [->|[_ B]] H; [reflexivity|contradiction]. Qed.
Lemma same_finite x y : same x y -> is_finite x = is_finite y.
Proof. intros [->|[A B]]; [reflexivity|]. destruct x, y; try contradiction; reflexivity. Qed.

(** ** the search for a pivot *)
Lemma search_here n g r p fuel : r < n -> p < n -> ~ is_zero (g r p) ->
  det_search K (S fuel) n (mk n n g) r r p = Ok (Cont (r, p)).
Proof.
  intros Hr Hp' N. cbn [det_search]. rewrite aget_mk by lia. cbn [bind xeq ld lit floatS].
  destruct (Beqb (g r p) (f_of_Z prec emax 0)) eqn:E; [|reflexivity].
  exfalso. apply N, isz_zero. exact (Beqb_isz prec emax _ E).
Qed.

Lemma search_pivot n g r fuel : forall i p i' p', r <= i < n -> p < n ->
  det_search K fuel n (mk n n g) r i p = Ok (Cont (i', p')) -> ~ is_zero (g i' p').
Proof.
  induction fuel as [|fuel IH]; intros i p i' p' Hi Hpn E; [discriminate|]. cbn [det_search] in E.
  rewrite aget_mk in E by lia. cbn [bind xeq ld lit floatS] in E.
  destruct (Beqb (g i p) (f_of_Z prec emax 0)) eqn:Ez.
  - destruct (Nat.eqb_spec n (i + 1)) as [En|Nn].
    + destruct (Nat.eqb_spec n (p + 1)) as [Ep|Np]; [discriminate|]. apply (IH r (p + 1) i' p'); [lia|lia|exact E].
    + apply (IH (i + 1) p i' p'); [lia|lia|exact E].
  - injection E as <- <-. intros Z. rewrite (f_of_Z_0 prec emax) in Ez.
    destruct (g i p) as [s| | |]; try contradiction. destruct s; discriminate.
Qed.

(** ** while the diagonal is non-zero *)
(** in row r or in column r all elements beyond the diagonal are zero *)
Definition cross n f r : Prop := forall i j, r < i < n -> r < j < n -> is_zero (f i r) \/ is_zero (f r j).
(** g is what the elimination of f looks like before step r *)
Definition untouched n r f g : Prop :=
  (forall i j, r <= i < n -> r <= j < n -> same (g i j) (f i j)) /\ (forall i, i < n -> same (g i i) (f i i)).

Lemma tri_step n f r g fac : r < n -> finite_fl prec emax n n f -> cross n f r -> ~ is_zero (f r r) ->
  untouched n r f g -> exists g', dstep n r (mk n n g, fac, r) = Ok (Cont (mk n n g', fac, S r)) /\ untouched n (S r) f g'.
Proof.
  intros Hr Ff C N [U D]. assert (Nr : g r r = f r r) by (apply same_nonzero; [apply D, Hr|exact N]).
  exists (elimg g r r). split.
  - unfold FloatElim.dstep. destruct (Nat.leb_spec n r); [lia|].
    replace (n * n + 1) with (S (n * n)) by lia. rewrite search_here by (try lia; rewrite Nr; exact N).
    cbn [bind]. rewrite Nat.eqb_refl. cbn [bind].
    change (@mk fl n n g) with (@mk (elt K) n n g).
    rewrite (det_eliminate_mk K n g (fun i j => g i j ⊖ (g i r ⊗ g r j) ⊘ g r r) r r) by (try lia; intros; apply elim_float).
    cbn [bind]. rewrite Nat.add_1_r. reflexivity.
  - assert (X : forall i j, r < i < n -> r < j < n -> same (elimg g r r i j) (f i j)).
    { intros i j Hi Hj. unfold FloatElim.elimg.
      rewrite (proj2 (Nat.ltb_lt r i)), (proj2 (Nat.eqb_neq i r)), (proj2 (Nat.leb_le r j)) by lia. cbn [andb negb].
      assert (Z : is_zero ((g i r ⊗ g r j) ⊘ g r r)).
      { apply zero_div; [|rewrite Nr; apply Ff; lia|rewrite Nr; exact N].
        assert (F1 : is_finite (g i r) = true) by (rewrite (same_finite (g i r) (f i r)); [apply Ff; lia|apply U; lia]).
        assert (F2 : is_finite (g r j) = true) by (rewrite (same_finite (g r j) (f r j)); [apply Ff; lia|apply U; lia]).
        destruct (C i j Hi Hj) as [A|A].
        - apply zero_mult_l; [|exact F2]. apply (same_zero _ _ _ _ (U i r ltac:(lia) ltac:(lia)) A).
        - apply zero_mult_r; [|exact F1]. apply (same_zero _ _ _ _ (U r j ltac:(lia) ltac:(lia)) A). }
      apply (same_trans _ _ _ _ _ (zero_minus_r _ _ Z)). apply U; lia. }
    split.
    + intros i j Hi Hj. apply X; lia.
    + intros i Hi. destruct (Nat.le_gt_cases i r) as [L|L]; [|apply X; lia].
      unfold FloatElim.elimg. rewrite (proj2 (Nat.ltb_ge r i)) by lia. cbn [andb]. apply D, Hi.
Qed.

Lemma tri_steps n f fac : finite_fl prec emax n n f -> forall c z r g, z - r = c -> r <= z <= n ->
  (forall k, k < z -> cross n f k) -> (forall k, k < z -> ~ is_zero (f k k)) ->
  untouched n r f g -> exists g', drun n r (mk n n g, fac, r) = drun n z (mk n n g', fac, z) /\ untouched n z f g'.
Proof.
  intros Ff. induction c as [|c IH]; intros z r g Hc Hrz C N U.
  - assert (r = z) as -> by lia. exists g. split; [reflexivity|exact U].
  - destruct (tri_step n f r g fac ltac:(lia) Ff (C r ltac:(lia)) (N r ltac:(lia)) U) as [g1 [E1 U1]].
    destruct (IH z (S r) g1 ltac:(lia) ltac:(lia) C N U1) as [g2 [E2 U2]].
    exists g2. split; [|exact U2]. rewrite drun_first by lia. rewrite E1. cbn [bind]. exact E2.
Qed.

Lemma untouched_refl n f : untouched n 0 f f.
Proof. split; intros; apply same_refl. Qed.

Lemma tri_general n f : finite_fl prec emax n n f -> (forall k, k < n -> cross n f k) -> (forall k, k < n -> ~ is_zero (f k k)) ->
  det_general K n (mk n n f) = Ok (fprod n (fun k => f k k)).
Proof.
  intros Ff C N. rewrite det_general_drun.
  destruct (tri_steps n f one Ff n n 0 f ltac:(lia) ltac:(lia) C N (untouched_refl n f)) as [g [E [_ D]]].
  etransitivity; [exact E|]. rewrite drun_end by lia. rewrite det_prod_float, div_one. f_equal. apply fprod_ext. intros k Hk.
  apply same_nonzero; [apply D, Hk|apply N, Hk].
Qed.

(** ** a zero on the diagonal *)
(** a row of zeros stays a row of zeros and NaNs *)
Definition dead x : Prop := is_zero x \/ x = B754_nan.
Lemma dead_mult x y : dead x -> dead (x ⊗ y).
Proof.
  intros [A| ->]; [|right; destruct y; reflexivity]. destruct x; try contradiction. destruct y; cbn; try (left; exact I); right; reflexivity.
Qed.
Lemma dead_div x y : dead x -> dead (x ⊘ y).
Proof.
  intros [A| ->]; [|right; destruct y; reflexivity]. destruct x; try contradiction. destruct y; cbn; try (left; exact I); right; reflexivity.
Qed.
Lemma dead_minus x y : dead x -> dead y -> dead (x ⊖ y).
Proof.
  intros [A| ->]; [|right; destruct y; reflexivity]. destruct x as [s| | |]; try contradiction.
  intros [B| ->]; [|right; reflexivity]. destruct y as [s'| | |]; try contradiction. left. cbn. destruct (Bool.eqb s (negb s')); exact I.
Qed.

Lemma dead_mult_r x y : dead y -> dead (x ⊗ y).
Proof.
  intros [A| ->]; [|right; destruct x; reflexivity]. destruct y; try contradiction. destruct x; cbn; try (left; exact I); right; reflexivity.
Qed.
Lemma dead_zero x : dead x -> is_finite x = true -> is_zero x.
Proof. intros [A| ->]; [auto|discriminate]. Qed.

Lemma dead_prod n g fac q : q < n -> sgnf fac -> dead (g q q) -> is_finite (fprod n (fun k => g k k) ⊘ fac) = true ->
  is_zero (fprod n (fun k => g k k) ⊘ fac).
Proof.
  intros Hq [Fs Hs] Hd Fd. apply isz_zero. split; [exact Fd|].
  destruct (div_sign prec emax _ _ Fs Hs Fd) as [Fx _].
  apply (det_prod_zero prec emax n g fac q (conj Fs Hs) Hq); [|exact Fd]. apply isz_zero.
  pose proof (fprod_finite prec emax n _ Fx q Hq) as Fq. apply dead_zero; assumption.
Qed.

(** so does a column, in the rows that are still to be eliminated *)
Lemma drun_col n z q : z <= q < n -> forall c r g fac p d, n - r = c -> z <= r <= n -> r <= p -> sgnf fac ->
  (forall k, z <= k < n -> dead (g k q)) ->
  drun n r (mk n n g, fac, p) = Ok d -> is_finite d = true -> is_zero d.
Proof.
  intros Hq. induction c as [|c IH]; intros r g fac p d Hc Hr Hrp Hs R E Fd.
  - rewrite drun_end in E by lia. rewrite det_prod_float in E. injection E as <-. apply (dead_prod n g fac q); [lia|exact Hs|apply R; lia|exact Fd].
  - rewrite drun_first in E by lia. apply bind_inv in E. destruct E as [ct [E1 E]].
    destruct (dstep_inv prec emax n r g fac p ct ltac:(lia) E1) as [[-> _]|[i0 [p' [Hpn [Hi0 [Hp' [_ ->]]]]]]].
    + injection E as <-. apply (dead_prod n g fac q); [lia|exact Hs|apply R; lia|exact Fd].
    + assert (SW : forall k, z <= k < n -> dead (swapg g i0 r k q)).
      { intros k Hk. unfold FloatElim.swapg, swap1. cbn [fst snd].
        destruct (Nat.eqb_spec k i0); [apply R; lia|]. destruct (Nat.eqb_spec k r); apply R; lia. }
      refine (IH (S r) _ _ _ d ltac:(lia) ltac:(lia) _ _ _ E Fd); [lia|apply sgnf_step, Hs|].
      intros k Hk. unfold FloatElim.elimg. destruct ((p' <? k) && negb (k =? r) && (p' <=? q)); [|apply SW, Hk].
      apply dead_minus; [apply SW, Hk|]. apply dead_div, dead_mult_r, SW. lia.
Qed.

Lemma drun_row n : forall c r g fac p d q, n - r = c -> r <= n -> r <= p -> q < n -> sgnf fac ->
  (r <= q -> forall j, r <= j < n -> dead (g q j)) -> (q < r -> dead (g q q)) ->
  drun n r (mk n n g, fac, p) = Ok d -> is_finite d = true -> is_zero d.
Proof.
  induction c as [|c IH]; intros r g fac p d q Hc Hrn Hrp Hq Hs R1 R2 E Fd.
  - rewrite drun_end in E by lia. rewrite det_prod_float in E. injection E as <-. apply (dead_prod n g fac q Hq Hs); [|exact Fd]. apply R2. lia.
  - rewrite drun_first in E by lia. apply bind_inv in E. destruct E as [ct [E1 E]].
    destruct (dstep_inv prec emax n r g fac p ct ltac:(lia) E1) as [[-> _]|[i0 [p' [Hpn [Hi0 [Hp' [_ ->]]]]]]].
    + injection E as <-. apply (dead_prod n g fac q Hq Hs); [|exact Fd]. destruct (Nat.lt_ge_cases q r) as [L|L]; [apply R2, L|apply R1; lia].
    + set (q' := if q <? r then q else swap1 (i0, r) q).
      assert (Q' : q' < n).
      { unfold q'. destruct (q <? r); [exact Hq|]. unfold swap1. cbn [fst snd]. destruct (q =? i0), (q =? r); lia. }
      assert (SW : forall j, q < r -> swapg g i0 r q j = g q j).
      { intros j L. unfold FloatElim.swapg, swap1. cbn [fst snd]. rewrite !(proj2 (Nat.eqb_neq _ _)) by lia. reflexivity. }
      assert (SG : forall j, r <= q -> swapg g i0 r (swap1 (i0, r) q) j = g q j).
      { intros j L. unfold FloatElim.swapg, swap1. cbn [fst snd]. nat_cases; try reflexivity; subst; try lia; reflexivity. }
      refine (IH (S r) _ _ _ d q' ltac:(lia) ltac:(lia) _ Q' _ _ _ E Fd); [lia|apply sgnf_step, Hs| |].
      * intros L j Hj. unfold q' in *. destruct (Nat.ltb_spec q r) as [B|B]; [lia|].
        assert (DR : forall j', r <= j' < n -> dead (swapg g i0 r (swap1 (i0, r) q) j')) by (intros j' Hj'; rewrite SG by exact B; apply R1; assumption).
        unfold FloatElim.elimg. destruct ((p' <? _) && negb (_ =? r) && (p' <=? j)) eqn:CB; [|apply DR; lia].
        apply dead_minus; [apply DR; lia|]. apply dead_div, dead_mult, DR. lia.
      * intros L. unfold q' in *. destruct (Nat.ltb_spec q r) as [B|B].
        -- unfold FloatElim.elimg. rewrite (proj2 (Nat.ltb_ge p' q)) by lia. cbn [andb]. rewrite SW by exact B. apply R2, B.
        -- assert (EQ : swap1 (i0, r) q = r).
           { unfold swap1 in *. cbn [fst snd] in *. destruct (q =? i0); [reflexivity|]. destruct (Nat.eqb_spec q r); lia. }
           rewrite EQ. unfold FloatElim.elimg. rewrite (proj2 (Nat.ltb_ge p' r)) by lia. cbn [andb].
           pose proof (SG r B) as T. rewrite EQ in T. rewrite T. apply R1; lia.
Qed.

(** ** the determinant of a triangular matrix *)
Definition tri_fl n f : Prop := upper_fl prec emax n f \/ lower_fl prec emax n f.

Lemma tri_cross n f k : tri_fl n f -> cross n f k.
Proof. intros [H|H] i j Hi Hj; [left|right]; apply H; lia. Qed.

Lemma det2_fl f : det K 2 (mk 2 2 f) = Ok ((f 0 0 ⊗ f 1 1) ⊖ (f 0 1 ⊗ f 1 0)).
Proof. reflexivity. Qed.
Lemma det3_fl f : det K 3 (mk 3 3 f) = Ok
  ((((((f 0 0 ⊗ f 1 1) ⊗ f 2 2) ⊕ ((f 0 1 ⊗ f 1 2) ⊗ f 2 0)) ⊕ ((f 0 2 ⊗ f 1 0) ⊗ f 2 1))
    ⊖ ((f 0 2 ⊗ f 1 1) ⊗ f 2 0)) ⊖ ((f 0 1 ⊗ f 1 0) ⊗ f 2 2) ⊖ ((f 0 0 ⊗ f 1 2) ⊗ f 2 1)).
Proof. reflexivity. Qed.
Lemma det_fl n (A : matrix fl) : n = 0 \/ 3 < n -> det K n A = det_general K n A.
Proof. intros [->|H]; [reflexivity|]. destruct n as [|[|[|[|n]]]]; try lia; reflexivity. Qed.

Lemma mul_one x : one ⊗ x = x.
Proof.
  destruct one_val as [F [E G]].
  destruct one as [s|s| |s m e B] eqn:D; try discriminate; [cbn in E; lra|].
  destruct x as [s'|s'| |s' m' e' B'] eqn:X; cbn in G; subst s; try (destruct s'; reflexivity); try reflexivity.
  rewrite <- X, <- D. pose proof (Bmult_correct prec emax Hp He mode_NE one x) as H.
  assert (Q : (B2R one * B2R x = B2R x)%R) by (rewrite D, E; ring). rewrite Q in H.
  change (round_mode mode_NE) with ZnearestE in H. rewrite (rnd_B2R prec emax) in H.
  rewrite Rlt_bool_true in H by apply abs_lt_emax. destruct H as [H1 [H2 H3]].
  rewrite D, X in H2. cbn [is_finite andb] in H2. rewrite <- D, <- X in H2.
  apply B2R_Bsign_inj; [exact H2|rewrite X; reflexivity|exact H1|].
  rewrite H3; [|destruct (one ⊗ x); try reflexivity; discriminate]. rewrite D, X. cbn. destruct s'; reflexivity.
Qed.

Lemma same_plus_dead x y z : same x z -> dead y -> is_finite (x ⊕ y) = true -> same (x ⊕ y) z.
Proof.
  intros H D F. destruct (Bplus_finite prec emax _ _ F) as [_ [Fy _]].
  apply (same_trans _ _ _ _ _ (zero_plus_r _ _ _ _ (dead_zero _ D Fy)) H).
Qed.
Lemma same_minus_dead x y z : same x z -> dead y -> is_finite (x ⊖ y) = true -> same (x ⊖ y) z.
Proof.
  intros H D F. destruct (Bminus_finite prec emax _ _ F) as [_ [Fy _]].
  apply (same_trans _ _ _ _ _ (zero_minus_r _ _ (dead_zero _ D Fy)) H).
Qed.

(** 3x3: five of the six terms contain a zero *)
Lemma det3_tri f d : tri_fl 3 f -> det K 3 (mk 3 3 f) = Ok d -> is_finite d = true -> same d ((f 0 0 ⊗ f 1 1) ⊗ f 2 2).
Proof.
  intros T E Fd. rewrite det3_fl in E. injection E as <-.
  assert (D5 : dead ((f 0 0 ⊗ f 1 2) ⊗ f 2 1)).
  { destruct T as [T|T]; [apply dead_mult_r; left; apply T; lia|apply dead_mult, dead_mult_r; left; apply T; lia]. }
  assert (D4 : dead ((f 0 1 ⊗ f 1 0) ⊗ f 2 2)).
  { apply dead_mult. destruct T as [T|T]; [apply dead_mult_r|apply dead_mult]; left; apply T; lia. }
  assert (D3 : dead ((f 0 2 ⊗ f 1 1) ⊗ f 2 0)).
  { destruct T as [T|T]; [apply dead_mult_r; left; apply T; lia|apply dead_mult, dead_mult; left; apply T; lia]. }
  assert (D2 : dead ((f 0 2 ⊗ f 1 0) ⊗ f 2 1)).
  { destruct T as [T|T]; [apply dead_mult_r; left; apply T; lia|apply dead_mult, dead_mult; left; apply T; lia]. }
  assert (D1 : dead ((f 0 1 ⊗ f 1 2) ⊗ f 2 0)).
  { destruct T as [T|T]; [apply dead_mult_r; left; apply T; lia|apply dead_mult, dead_mult; left; apply T; lia]. }
  pose proof (proj1 (Bminus_finite prec emax _ _ Fd)) as F1. pose proof (proj1 (Bminus_finite prec emax _ _ F1)) as F2.
  pose proof (proj1 (Bminus_finite prec emax _ _ F2)) as F3. pose proof (proj1 (Bplus_finite prec emax _ _ F3)) as F4.
  repeat first [apply same_minus_dead; [|assumption|assumption] | apply same_plus_dead; [|assumption|assumption]].
  apply same_refl.
Qed.

(** det is the rounded product of the diagonal, in order: for every size except 3 always *)
Theorem c96_det n f : n <> 3 -> finite_fl prec emax n n f -> tri_fl n f -> (forall k, k < n -> ~ is_zero (f k k)) ->
  exists d, det K n (mk n n f) = Ok d /\ same d (fprod n (fun k => f k k)) /\ (3 < n -> d = fprod n (fun k => f k k)).
Proof.
  intros N3 Ff T N. destruct (Nat.eq_dec n 1) as [->|N1].
  - exists (f 0 0). split; [reflexivity|]. split; [|lia]. left. symmetry. apply mul_one.
  - destruct (Nat.eq_dec n 2) as [->|N2].
    + rewrite det2_fl. eexists. split; [reflexivity|]. split; [|lia]. cbn [FloatElim.fprod]. rewrite mul_one.
      apply zero_minus_r. destruct T as [T|T]; [apply zero_mult_r|apply zero_mult_l]; try (apply T; lia); apply Ff; lia.
    + exists (fprod n (fun k => f k k)). split; [|split; [apply same_refl|reflexivity]].
      rewrite det_fl by lia. apply tri_general; [exact Ff| |exact N]. intros k _. apply tri_cross, T.
Qed.

(** for 3x3 when the result is finite *)
Theorem c96_det3 f d : tri_fl 3 f -> det K 3 (mk 3 3 f) = Ok d -> is_finite d = true ->
  same d (fprod 3 (fun k => f k k)).
Proof. intros T E Fd. cbn [FloatElim.fprod]. rewrite mul_one. apply det3_tri; assumption. Qed.

Lemma same_B2R x y : same x y -> B2R x = B2R y.
Proof. intros [->|[A B]]; [reflexivity|]. destruct x, y; try contradiction; reflexivity. Qed.

(** its distance from the exact product *)
Theorem c96_error n f d : finite_fl prec emax n n f -> tri_fl n f -> (forall k, k < n -> ~ is_zero (f k k)) ->
  det K n (mk n n f) = Ok d -> is_finite d = true ->
  (Rabs (B2R d - rprodf 0 n (fun k => B2R (f k k))) <=
   ((1 + u) ^ n - 1) * Rabs (rprodf 0 n (fun k => B2R (f k k))) +
   h * (1 + u) ^ n * rsum n (fun k => rprodf (S k) n (fun j => Rabs (B2R (f j j)))))%R.
Proof.
  intros Ff T N E Fd.
  assert (Sd : same d (fprod n (fun k => f k k))).
  { destruct (Nat.eq_dec n 3) as [->|N3]; [apply c96_det3; assumption|].
    destruct (c96_det n f N3 Ff T N) as [d' [E' [H _]]]. rewrite E in E'. injection E' as <-. exact H. }
  rewrite (same_B2R _ _ Sd). apply (fprod_error prec emax n (fun k => f k k)).
  rewrite <- (same_finite _ _ Sd). exact Fd.
Qed.

(** with a zero on the diagonal det is zero, unless something overflowed *)
Theorem c96_zero n f d k : finite_fl prec emax n n f -> tri_fl n f -> k < n -> is_zero (f k k) ->
  det K n (mk n n f) = Ok d -> is_finite d = true -> is_zero d.
Proof.
  intros Ff T Hk Zk E Fd.
  assert (C : n = 1 \/ n = 2 \/ n = 3 \/ 3 < n) by lia. destruct C as [->|[->|[->|Hn]]].
  - injection E as <-. destruct k; [exact Zk|lia].
  - rewrite det2_fl in E. injection E as <-. apply dead_zero; [|exact Fd].
    apply dead_minus; [destruct k as [|[|k]]; [apply dead_mult|apply dead_mult_r|lia]; left; exact Zk|].
    destruct T as [T|T]; [apply dead_mult_r|apply dead_mult]; left; apply T; lia.
  - pose proof (det3_tri f d T E Fd) as Sd. apply (same_zero _ _ _ _ Sd). apply dead_zero; [|rewrite <- (same_finite _ _ Sd); exact Fd].
    destruct k as [|[|[|k]]]; [apply dead_mult, dead_mult|apply dead_mult, dead_mult_r|apply dead_mult_r|lia]; left; exact Zk.
  - (* the first zero *)
    assert (X : exists z, z < n /\ is_zero (f z z) /\ forall i, i < z -> ~ is_zero (f i i)).
    { clear - Hk Zk. assert (D : forall x, is_zero x \/ ~ is_zero x) by (intros [| | |]; cbn; auto).
      revert Hk Zk. induction k as [k IH] using lt_wf_ind. intros Hk Zk.
      assert (W : (exists i, i < k /\ is_zero (f i i)) \/ forall i, i < k -> ~ is_zero (f i i)).
      { clear - D. induction k as [|k [[i [H1 H2]]|IH]]; [right; lia|left; exists i; split; [lia|exact H2]|].
        destruct (D (f k k)) as [Z|Z]; [left; exists k; split; [lia|exact Z]|]. right. intros i Hi.
        destruct (Nat.eq_dec i k) as [->|]; [exact Z|apply IH; lia]. }
      destruct W as [[i [H1 H2]]|W]; [apply (IH i H1); [lia|exact H2]|]. exists k. auto. }
    destruct X as [z [Hz [Zz Nz]]]. rewrite det_fl, det_general_drun in E by lia.
    destruct (tri_steps n f one Ff z z 0 f ltac:(lia) ltac:(lia) (fun k _ => tri_cross n f k T) Nz (untouched_refl n f)) as [g [Eg [U _]]].
    assert (E' : drun n z (mk n n g, one, z) = Ok d) by (etransitivity; [symmetry; exact Eg|exact E]).
    destruct T as [T|T].
    + refine (drun_col n z z ltac:(lia) (n - z) z g one z d eq_refl ltac:(lia) ltac:(lia) sgnf_one _ E' Fd).
      intros i Hi. left. apply (same_zero _ _ _ _ (U i z ltac:(lia) ltac:(lia))). destruct (Nat.eq_dec i z) as [->|]; [exact Zz|apply T; lia].
    + refine (drun_row n (n - z) z g one z d z eq_refl ltac:(lia) ltac:(lia) Hz sgnf_one _ ltac:(lia) E' Fd).
      intros _ j Hj. left. apply (same_zero _ _ _ _ (U z j ltac:(lia) ltac:(lia))). destruct (Nat.eq_dec j z) as [->|]; [exact Zz|apply T; lia].
Qed.

(** a zero row or a zero column, whatever the other elements *)
Theorem c96_zero_row n f d q : q < n -> (forall j, j < n -> is_zero (f q j)) ->
  det K n (mk n n f) = Ok d -> is_finite d = true -> is_zero d.
Proof.
  intros Hq Z E Fd. assert (D : forall j, j < n -> dead (f q j)) by (intros j Hj; left; apply Z, Hj).
  assert (C : n = 1 \/ n = 2 \/ n = 3 \/ 3 < n) by lia. destruct C as [->|[->|[->|Hn]]].
  - injection E as <-. destruct q; [apply Z; lia|lia].
  - rewrite det2_fl in E. injection E as <-. apply dead_zero; [|exact Fd].
    destruct q as [|[|q]]; [| |lia]; apply dead_minus; first [apply dead_mult, D; lia|apply dead_mult_r, D; lia].
  - rewrite det3_fl in E. injection E as <-. apply dead_zero; [|exact Fd].
    assert (DP : forall x y, dead x -> dead y -> dead (x ⊕ y)).
    { intros x y [A| ->] B; [|right; destruct y; reflexivity]. destruct x as [s| | |]; try contradiction.
      destruct B as [B| ->]; [|right; reflexivity]. destruct y as [s'| | |]; try contradiction. left. cbn. destruct (Bool.eqb s s'); exact I. }
    destruct q as [|[|[|q]]]; [| | |lia]; repeat first [apply DP | apply dead_minus];
      first [apply dead_mult, dead_mult, D; lia | apply dead_mult, dead_mult_r, D; lia | apply dead_mult_r, D; lia].
  - rewrite det_fl, det_general_drun in E by lia.
    refine (drun_row n n 0 f one 0 d q ltac:(lia) ltac:(lia) ltac:(lia) Hq sgnf_one _ ltac:(lia) E Fd). intros _ j Hj. apply D. lia.
Qed.

Theorem c96_zero_col n f d q : q < n -> (forall i, i < n -> is_zero (f i q)) ->
  det K n (mk n n f) = Ok d -> is_finite d = true -> is_zero d.
Proof.
  intros Hq Z E Fd. assert (D : forall j, j < n -> dead (f j q)) by (intros j Hj; left; apply Z, Hj).
  assert (C : n = 1 \/ n = 2 \/ n = 3 \/ 3 < n) by lia. destruct C as [->|[->|[->|Hn]]].
  - injection E as <-. destruct q; [apply Z; lia|lia].
  - rewrite det2_fl in E. injection E as <-. apply dead_zero; [|exact Fd].
    destruct q as [|[|q]]; [| |lia]; apply dead_minus; first [apply dead_mult, D; lia|apply dead_mult_r, D; lia].
  - rewrite det3_fl in E. injection E as <-. apply dead_zero; [|exact Fd].
    assert (DP : forall x y, dead x -> dead y -> dead (x ⊕ y)).
    { intros x y [A| ->] B; [|right; destruct y; reflexivity]. destruct x as [s| | |]; try contradiction.
      destruct B as [B| ->]; [|right; reflexivity]. destruct y as [s'| | |]; try contradiction. left. cbn. destruct (Bool.eqb s s'); exact I. }
    destruct q as [|[|[|q]]]; [| | |lia]; repeat first [apply DP | apply dead_minus];
      first [apply dead_mult, dead_mult, D; lia | apply dead_mult, dead_mult_r, D; lia | apply dead_mult_r, D; lia].
  - rewrite det_fl, det_general_drun in E by lia.
    refine (drun_col n 0 q ltac:(lia) n 0 f one 0 d ltac:(lia) ltac:(lia) ltac:(lia) sgnf_one _ E Fd). intros j Hj. apply D. lia.
Qed.

(** ** the inverse *)
Lemma inv_entries n f Y : 3 < n -> inv K n (mk n n f) = Ok Y -> exists (y : nat -> nat -> fl) (d : fl), Y = mk n n y /\ det K n (mk n n f) = Ok d /\
  ~ is_zero d /\ forall i j, i < n -> j < n ->
    exists e, det K (n - 1) (mk (n - 1) (n - 1) (fun a b => f (skip i a) (skip j b))) = Ok e /\
      y j i = (f_of_Z prec emax (cof_sign i j) ⊗ e) ⊘ d.
Proof.
  intros Hn E. assert (E' : inv_general K n (mk n n f) = Ok Y) by (destruct n as [|[|[|[|n]]]]; try lia; exact E). clear E.
  rewrite inv_general_tab in E'.
  match type of E' with bind ?o _ = _ => destruct o as [d| | | |] eqn:Ed; try discriminate end. cbn [bind] in E'.
  match type of E' with bind ?o _ = _ => destruct o as [C| | | |] eqn:EC; try discriminate end. cbn [bind] in E'.
  destruct (tabM_inv (B754_nan : fl) n n _ _ EC) as [c [-> Hc]]. clear EC.
  rewrite trans_mk in E'. cbn [bind] in E'. unfold op_div in E'. rewrite div_tab in E'.
  change (xeq (ld d) (lit 0)) with (Beqb d (f_of_Z prec emax 0)) in E'. destruct (Beqb d (f_of_Z prec emax 0)) eqn:Eb; [discriminate|].
  rewrite (tabM_ok n n _ (fun i j => c j i ⊘ d)) in E' by reflexivity. injection E' as <-.
  exists (fun i j => c j i ⊘ d), d. split; [reflexivity|]. split; [exact Ed|]. split.
  - intros Z. rewrite (f_of_Z_0 prec emax) in Eb. destruct d as [s| | |]; try contradiction. destruct s; discriminate.
  - intros i j Hi Hj. specialize (Hc i j Hi Hj). cbv beta in Hc. apply bind_inv in Hc. destruct Hc as [e [E1 E2]].
    exists e. split; [exact E1|]. cbn [xmul ld lit st floatS bind] in E2. injection E2 as E2. rewrite <- E2. reflexivity.
Qed.

Lemma div_num_finite x y : is_finite (x ⊘ y) = true -> is_finite x = true.
Proof. destruct x, y; intros F; try discriminate; reflexivity. Qed.

Lemma skip_lt n i a : a < n - 1 -> skip i a < n.
Proof. unfold skip. destruct (a <? i); lia. Qed.


Lemma zero_div_fin x y : is_zero x -> is_finite (x ⊘ y) = true -> is_zero (x ⊘ y).
Proof. intros Z F. apply dead_zero; [apply dead_div; left; exact Z|exact F]. Qed.

Lemma same_div x x' y : same x x' -> ~ is_zero y -> same (x ⊘ y) (x' ⊘ y).
Proof.
  intros [->|[A B]] N; [left; reflexivity|]. destruct x, x'; try contradiction.
  destruct y as [sy|sy| |sy my ey By]; [exfalso; apply N; exact I|right; split; exact I|left; reflexivity|right; split; exact I].
Qed.

Lemma det_tri_finite n f d : finite_fl prec emax n n f -> tri_fl n f -> (forall k, k < n -> ~ is_zero (f k k)) ->
  det K n (mk n n f) = Ok d -> is_finite d = true -> same d (fprod n (fun k => f k k)).
Proof.
  intros Ff T N E Fd. destruct (Nat.eq_dec n 3) as [->|N3]; [apply c96_det3; assumption|].
  destruct (c96_det n f N3 Ff T N) as [d' [E' [H _]]]. rewrite E in E'. injection E' as <-. exact H.
Qed.

(** inv of a triangular matrix is triangular on the same side, element by
    element unless an element is not finite; its diagonal is the quotient of two rounded products *)
Theorem c96_inv n f Y : 3 < n -> finite_fl prec emax n n f -> (forall k, k < n -> ~ is_zero (f k k)) ->
  tri_fl n f -> inv K n (mk n n f) = Ok Y ->
  exists y : nat -> nat -> fl, Y = mk n n y /\
  (upper_fl prec emax n f -> forall i j, j < i < n -> is_finite (y i j) = true -> is_zero (y i j)) /\
  (lower_fl prec emax n f -> forall i j, i < j < n -> is_finite (y i j) = true -> is_zero (y i j)) /\
  (forall i, i < n -> is_finite (y i i) = true ->
     same (y i i) (fprod (n - 1) (fun k => f (skip i k) (skip i k)) ⊘ fprod n (fun k => f k k))).
Proof.
  intros Hn Ff N T E. destruct (inv_entries n f Y Hn E) as [y [d [-> [Ed [Nd H]]]]]. exists y. split; [reflexivity|].
  assert (Fm : forall i j, i < n -> j < n -> finite_fl prec emax (n - 1) (n - 1) (fun a b => f (skip i a) (skip j b))).
  { intros i j _ _ a b Ha Hb. apply Ff; apply skip_lt; assumption. }
  assert (Off : forall i j k, i < n -> j < n -> tri_fl (n - 1) (fun a b => f (skip j a) (skip i b)) -> k < n - 1 ->
    is_zero (f (skip j k) (skip i k)) -> is_finite (y i j) = true -> is_zero (y i j)).
  { intros i j k Hi Hj Tm Hk Zk Fy. destruct (H j i Hj Hi) as [e [E1 E2]]. rewrite E2 in Fy |- *.
    pose proof (div_num_finite _ _ Fy) as F1. pose proof (proj1 (proj2 (Bmult_finite prec emax _ _ F1))) as Fe.
    apply zero_div_fin; [|exact Fy]. apply dead_zero; [|exact F1]. apply dead_mult_r. left.
    apply (c96_zero (n - 1) _ e k (Fm j i Hj Hi) Tm Hk Zk E1 Fe). }
  split; [|split].
  - intros U i j Hij. apply (Off i j j); try lia.
    + left. intros a b Hab. apply U. unfold skip. nat_cases; lia.
    + apply U. unfold skip. nat_cases; lia.
  - intros U i j Hij. apply (Off i j i); try lia.
    + right. intros a b Hab. apply U. unfold skip. nat_cases; lia.
    + apply U. unfold skip. nat_cases; lia.
  - intros i Hi Fy. destruct (H i i Hi Hi) as [e [E1 E2]].
    assert (CS : cof_sign i i = 1%Z).
    { unfold cof_sign. replace (i + i) with (i * 2) by lia. rewrite Nat.mod_mul by lia. reflexivity. }
    rewrite CS, mul_one in E2. rewrite E2 in Fy |- *. pose proof (div_num_finite _ _ Fy) as Fe.
    destruct (c96_det n f ltac:(lia) Ff T N) as [d' [Ed' [_ Dd]]]. rewrite Ed in Ed'. injection Ed' as <-. rewrite <- (Dd Hn).
    apply same_div; [|exact Nd].
    apply (det_tri_finite (n - 1) (fun a b => f (skip i a) (skip i b))); [apply Fm; assumption| | |exact E1|exact Fe].
    + destruct T as [U|U]; [left|right]; intros a b Hab; apply U; unfold skip; nat_cases; lia.
    + intros k Hk. apply N. apply skip_lt, Hk.
Qed.

(** exactly 1 on the diagonal if the matrix has 1 there *)
Corollary c96_unit n f Y : 3 < n -> finite_fl prec emax n n f -> (forall k, k < n -> f k k = one) ->
  tri_fl n f -> inv K n (mk n n f) = Ok Y -> exists y : nat -> nat -> fl, Y = mk n n y /\
  forall i, i < n -> is_finite (y i i) = true -> y i i = one.
Proof.
  intros Hn Ff D T E.
  assert (N1 : ~ is_zero one).
  { intros Z. destruct one_val as [_ [V _]]. destruct one; try contradiction. cbn in V. lra. }
  assert (P : forall m a, (forall k, k < m -> a k = one) -> fprod m a = one).
  { intros m a Ha. induction m as [|m IH]; [reflexivity|]. cbn [FloatElim.fprod]. rewrite IH by (intros; apply Ha; lia). rewrite Ha by lia. apply mul_one. }
  destruct (c96_inv n f Y Hn Ff ltac:(intros k Hk; rewrite D by exact Hk; exact N1) T E) as [y [-> [_ [_ H]]]].
  exists y. split; [reflexivity|]. intros i Hi Fy. specialize (H i Hi Fy).
  rewrite (P n (fun k => f k k)), (P (n - 1) (fun k => f (skip i k) (skip i k))), div_one in H
    by (intros; apply D; try apply skip_lt; assumption).
  apply same_nonzero; assumption.
Qed.
End Format.

(** ** witnesses *)
(** 3x3: the products of elements above the diagonal may overflow although they are multiplied by 0 *)
Definition big_tri (i j : nat) : Z := if i =? j then 1%Z else if i <? j then (2 ^ 600)%Z else 0%Z.
Definition bt n : matrix (elt float64S) := mk n n (fun i j => f_of_Z 53 1024 (big_tri i j)).
Definition nan_out {A} {prec emax} (o : outcome A) (p : A -> binary_float prec emax) : bool :=
  match o with Ok x => is_nan (p x) | _ => false end.
Lemma c96_nan_check : nan_out (det float64S 3 (bt 3)) (fun x => x) &&
  match det float64S 4 (bt 4) with Ok d => Beqb d (f_of_Z 53 1024 1) | _ => false end = true.
Proof. vm_compute. reflexivity. Qed.

Theorem c96_det3_nan : exists f, finite_fl 53 1024 3 3 f /\ upper_fl 53 1024 3 f /\ (forall k, f k k = f_of_Z 53 1024 1) /\
  det float64S 3 (mk 3 3 f) = Ok B754_nan.
Proof.
  exists (fun i j => f_of_Z 53 1024 (big_tri i j)). split; [|split; [|split]].
  - intros i j Hi Hj. unfold big_tri. destruct (i =? j); [vm_compute; reflexivity|]. destruct (i <? j); vm_compute; reflexivity.
  - intros i j Hij. unfold big_tri. destruct (Nat.eqb_spec i j); [lia|]. destruct (Nat.ltb_spec i j); [lia|]. vm_compute. exact I.
  - intros k. unfold big_tri. rewrite Nat.eqb_refl. reflexivity.
  - pose proof c96_nan_check as H. apply andb_prop in H. destruct H as [H _]. unfold bt, nan_out in H.
    destruct (det float64S 3 _) as [x| | | |]; try discriminate. destruct x; try discriminate. reflexivity.
Qed.

(** the hypotheses of the theorems on a concrete matrix *)
Definition tri_ex (i j : nat) : Z := if i <=? j then Z.of_nat (i + 2 * j + 1) else 0%Z.
Example c96_ex : exists Y, inv float32S 5 (mk 5 5 (fun i j => f_of_Z 24 128 (tri_ex i j))) = Ok Y /\
  finite_fl 24 128 5 5 (fun i j => f_of_Z 24 128 (tri_ex i j)) /\ upper_fl 24 128 5 (fun i j => f_of_Z 24 128 (tri_ex i j)) /\
  forallb (forallb (fun x => is_finite x)) Y = true.
Proof.
  assert (H : match inv float32S 5 (mk 5 5 (fun i j => f_of_Z 24 128 (tri_ex i j))) with
    Ok Y => forallb (forallb (fun x => is_finite x)) Y | _ => false end = true) by (vm_compute; reflexivity).
  destruct (inv float32S 5 _) as [Y| | | |]; try discriminate. exists Y. split; [reflexivity|]. split; [|split; [|exact H]].
  - assert (B : forallb (fun i => forallb (fun j => is_finite (f_of_Z 24 128 (tri_ex i j))) (seq 0 5)) (seq 0 5) = true) by (vm_compute; reflexivity).
    intros i j Hi Hj. rewrite forallb_forall in B. specialize (B i ltac:(apply in_seq; lia)). rewrite forallb_forall in B. apply (B j). apply in_seq. lia.
  - intros i j Hij. unfold tri_ex. destruct (Nat.leb_spec i j); [lia|]. vm_compute. exact I.
Qed.

Print Assumptions c96_det.
Print Assumptions c96_error.
Print Assumptions c96_zero.
Print Assumptions c96_zero_row.
Print Assumptions c96_zero_col.
Print Assumptions c96_inv.
Print Assumptions c96_unit.
Print Assumptions c96_det3_nan.
