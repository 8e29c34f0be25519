(** * Properties C35, C48-C53: IEEE-754 matrices

    Proved for every binary format (precision [prec], largest exponent [emax]);
    [float] is (24, 128) and [double] is (53, 1024).  [B2R x] is the real number
    denoted by a finite x.  [uro prec] is the unit roundoff 2^-prec and
    [eta prec emax] half the smallest positive number. *)

From Coq Require Import ZArith Reals Lra Lia Bool List Arith.
Import ListNotations.
From Flocq Require Import IEEE754.BinarySingleNaN Core.Core Relative Plus_error.
From Verif Require Import Base Scalar CInt CFloat Model Spec Loops Struct Preds Order Stat LURec Float FloatMx.

Section Format.
Variables prec emax : Z.
Context {Hp : Prec_gt_0 prec} {He : Prec_lt_emax prec emax}.
Notation fl := (binary_float prec emax).
Notation K := (floatS prec emax).
Notation u := (uro prec).
Notation h := (eta prec emax).
Notation one := (f_of_Z prec emax 1).
Notation "x ⊕ y" := (Bplus mode_NE x y) (at level 50, left associativity).
Notation "x ⊖ y" := (Bminus mode_NE x y) (at level 50, left associativity).
Notation "x ⊗ y" := (Bmult mode_NE x y) (at level 40, left associativity).
Implicit Types (f g : nat -> nat -> fl) (e : fl).

(** ** C35 compare *)

Theorem c35_compare n m f g e : exists b,
  compare K n m (mk n m f) (mk n m g) e = Ok b /\
  (b = true <-> forall i j, i < n -> j < m -> Bltb e (Babs (f i j ⊖ g i j)) = false).
Proof.
  apply (compare_mk K n m f g (fun i j => Babs (f i j ⊖ g i j))). intros. reflexivity.
Qed.

(** a NaN anywhere is accepted *)
Theorem c35_nan n m f g e :
  (forall i j, i < n -> j < m -> is_nan (f i j) = true \/ is_nan (g i j) = true) ->
  compare K n m (mk n m f) (mk n m g) e = Ok true.
Proof.
  intros H. destruct (c35_compare n m f g e) as [b [-> Hb]]. f_equal. apply Hb.
  intros i j Hi Hj. destruct (H i j Hi Hj) as [N|N].
  - destruct (f i j); try discriminate. destruct (g i j), e as [| [] | |[]]; reflexivity.
  - destruct (g i j); try discriminate. destruct (f i j), e as [| [] | |[]]; reflexivity.
Qed.

Theorem c35_equal n m f e : (forall i j, i < n -> j < m -> is_finite (f i j) = true) ->
  Bltb e (B754_zero false) = false ->
  compare K n m (mk n m f) (mk n m f) e = Ok true.
Proof.
  intros Hf Hn. destruct (c35_compare n m f f e) as [b [-> Hb]]. f_equal. apply Hb.
  intros i j Hi Hj. rewrite Bminus_diag by auto. exact Hn.
Qed.

Lemma minus_rel (x y : fl) : exists d, (Rabs d <= u)%R /\
  round radix2 (SpecFloat.fexp prec emax) ZnearestE (B2R x - B2R y) = ((B2R x - B2R y) * (1 + d))%R.
Proof.
  destruct (rnd_plus prec emax x (Bopp y)) as [d [H1 H2]]. rewrite B2R_Bopp in H2.
  exists d. split; [exact H1|exact H2].
Qed.

(** finite matrices within the tolerance are accepted ... *)
Theorem c35_within n m f g e :
  (forall i j, i < n -> j < m -> is_finite (f i j) = true /\ is_finite (g i j) = true) ->
  is_finite e = true ->
  (forall i j, i < n -> j < m -> (Rabs (B2R (f i j) - B2R (g i j)) <= B2R e)%R) ->
  compare K n m (mk n m f) (mk n m g) e = Ok true.
Proof.
  intros Hf Fe Hd. destruct (c35_compare n m f g e) as [b [-> Hb]]. f_equal. apply Hb.
  intros i j Hi Hj. destruct (Hf i j Hi Hj) as [F1 F2]. specialize (Hd i j Hi Hj).
  assert (Rn : (Rabs (round radix2 (SpecFloat.fexp prec emax) ZnearestE (B2R (f i j) - B2R (g i j))) <= B2R e)%R).
  { apply abs_round_le_generic; [apply fexp_correct; exact Hp|apply valid_rnd_N|apply generic_format_B2R|exact Hd]. }
  generalize (Bminus_correct _ _ Hp He mode_NE _ _ F1 F2). simpl round_mode. rewrite Rlt_bool_true.
  - intros [E1 [E2 _]]. rewrite Bltb_correct by (rewrite ?is_finite_Babs; assumption).
    apply Rlt_bool_false. rewrite B2R_Babs, E1. exact Rn.
  - eapply Rle_lt_trans; [exact Rn|]. eapply Rle_lt_trans; [apply Rle_abs|]. apply abs_B2R_lt_emax.
Qed.

(** ... and accepted finite matrices are within the tolerance up to rounding *)
Theorem c35_accepted n m f g e :
  (forall i j, i < n -> j < m -> is_finite (f i j) = true /\ is_finite (g i j) = true) ->
  is_finite e = true ->
  compare K n m (mk n m f) (mk n m g) e = Ok true ->
  forall i j, i < n -> j < m -> (Rabs (B2R (f i j) - B2R (g i j)) * (1 - u) <= B2R e)%R.
Proof.
  intros Hf Fe Hc i j Hi Hj. destruct (Hf i j Hi Hj) as [F1 F2].
  destruct (c35_compare n m f g e) as [b [Eb Hb]]. rewrite Eb in Hc. injection Hc as ->.
  pose proof (proj1 Hb eq_refl i j Hi Hj) as L.
  generalize (Bminus_correct _ _ Hp He mode_NE _ _ F1 F2). simpl round_mode.
  destruct (Rlt_bool _ _).
  - intros [E1 [E2 _]]. rewrite Bltb_correct in L by (rewrite ?is_finite_Babs; assumption).
    rewrite B2R_Babs, E1 in L.
    destruct (minus_rel (f i j) (g i j)) as [d [Hd Ed]]. rewrite Ed in L.
    destruct (Rlt_bool_spec (B2R e) (Rabs ((B2R (f i j) - B2R (g i j)) * (1 + d)))) as [|Le]; [discriminate|].
    eapply Rle_trans; [|exact Le]. rewrite Rabs_mult. apply Rmult_le_compat_l; [apply Rabs_pos|].
    eapply Rle_trans; [|apply Rle_abs]. apply Rabs_le_inv in Hd. lra.
  - (* the difference overflows: infinity > e *)
    intros [E _]. exfalso.
    destruct (f i j ⊖ g i j) as [s|s| |s mm ee B]; try discriminate.
    destruct e as [se|se| |[] me xe Be]; try discriminate.
Qed.

(** ** C48 multiplying by eye *)

Theorem c48_mult_eye n m f : (forall i j, i < n -> j < m -> is_finite (f i j) = true) ->
  exists C, (let* E := eye1 K m in mult K n m m (mk n m f) E) = Ok C /\ mat_eqb K C (mk n m f) = true.
Proof.
  intros H. rewrite eye1_mk. cbn [bind]. rewrite mult_float. eexists. split; [reflexivity|].
  apply mat_eqb_mk. intros i j Hi Hj. cbn [ld floatS xeq].
  destruct (fdot_unit prec emax m (fun k => f i k) j) as [F V]; [auto|].
  destruct (Nat.ltb_spec j m); [|lia].
  apply Beqb_finite; auto.
Qed.

Theorem c48_eye_mult n m f : (forall i j, i < n -> j < m -> is_finite (f i j) = true) ->
  exists C, (let* E := eye1 K n in mult K n n m E (mk n m f)) = Ok C /\ mat_eqb K C (mk n m f) = true.
Proof.
  intros H. rewrite eye1_mk. cbn [bind]. rewrite mult_float. eexists. split; [reflexivity|].
  apply mat_eqb_mk. intros i j Hi Hj. cbn [ld floatS xeq]. rewrite fdot_comm.
  destruct (fdot_unit prec emax n (fun k => f k j) i) as [F V]; [auto|].
  rewrite (fdot_ext prec emax n _ _ (fun k => f k j) (fun k => if k =? i then one else B754_zero false)).
  - destruct (Nat.ltb_spec i n); [|lia]. apply Beqb_finite; auto.
  - intros k Hk. split; [reflexivity|]. rewrite (Nat.eqb_sym i k). reflexivity.
Qed.

(** with at least two columns, only for finite matrices *)
Theorem c48_only_finite n m f C : 2 <= m ->
  (let* E := eye1 K m in mult K n m m (mk n m f) E) = Ok C ->
  (mat_eqb K C (mk n m f) = true <-> forall i j, i < n -> j < m -> is_finite (f i j) = true).
Proof.
  intros Hm. rewrite eye1_mk. cbn [bind]. rewrite mult_float. intros [= <-]. split.
  - intros H i k Hi Hk. destruct (is_finite (f i k)) eqn:F; [reflexivity|exfalso].
    set (j := if k =? 0 then 1 else 0).
    assert (Hj : j < m) by (unfold j; destruct (k =? 0); lia).
    assert (Hjk : (k =? j) = false) by (unfold j; destruct k; reflexivity).
    pose proof (proj1 (mat_eqb_mk K n m _ _) H i j Hi Hj) as E. cbn [ld floatS xeq] in E.
    rewrite (fdot_nan prec emax m _ _ k Hk) in E; [rewrite Beqb_nan_l in E; discriminate|].
    rewrite Hjk. apply Bmult_notfin_zero. exact F.
  - intros H. destruct (c48_mult_eye n m f H) as [C [E HC]]. rewrite eye1_mk in E. cbn [bind] in E.
    rewrite mult_float in E. injection E as <-. exact HC.
Qed.

(** ** C49 laws that survive rounding *)

Theorem c49_sum_comm n m f g : sum K n m (mk n m f) (mk n m g) = sum K n m (mk n m g) (mk n m f).
Proof.
  rewrite !sum_tab. apply tabM_ext. intros i j _ _. cbn [floatS xadd ld st bind].
  rewrite (Bplus_comm prec emax). reflexivity.
Qed.

Theorem c49_sub_self n m f : (forall i j, i < n -> j < m -> is_finite (f i j) = true) ->
  sub K n m (mk n m f) (mk n m f) = Ok (zeros K n m).
Proof.
  intros H. rewrite sub_tab, zeros_mk. apply tabM_ok. intros i j Hi Hj. cbn [floatS xsub ld st bind].
  rewrite Bminus_diag by auto. reflexivity.
Qed.

Theorem c49_mult_one n m f : mult_scalar K n m (mk n m f) one = Ok (mk n m f).
Proof.
  rewrite mult_scalar_tab. apply tabM_ok. intros i j _ _. cbn [floatS xmul ld st bind].
  rewrite (Bmult_1_r prec emax). reflexivity.
Qed.

Theorem c49_trans_trans n m f : (let* B := trans K n m (mk n m f) in trans K m n B) = Ok (mk n m f).
Proof. rewrite trans_mk. cbn [bind]. rewrite trans_mk. reflexivity. Qed.

(** ** C51 error of the product *)

Theorem c51_mult n m p f g : exists c,
  mult K n m p (mk n m f) (mk m p g) = Ok (mk n p c) /\
  forall i j, i < n -> j < p -> is_finite (c i j) = true ->
  (Rabs (B2R (c i j) - rsum m (fun k => B2R (f i k) * B2R (g k j))) <=
   ((1 + u) ^ m - 1) * rsum m (fun k => Rabs (B2R (f i k) * B2R (g k j))) +
   INR m * h * (1 + u) ^ (m - 1))%R.
Proof.
  eexists. split; [apply mult_float|]. intros i j Hi Hj F. apply (fdot_error prec emax). exact F.
Qed.

(** no element of the product overflows if the operands are finite and ... *)
Theorem c51_finite n m p f g :
  (forall i j, i < n -> j < m -> is_finite (f i j) = true) ->
  (forall i j, i < m -> j < p -> is_finite (g i j) = true) ->
  (forall i j, i < n -> j < p ->
    ((1 + u) ^ m * (rsum m (fun k => Rabs (B2R (f i k) * B2R (g k j))) + INR m * h) < bpow radix2 emax)%R) ->
  exists c, mult K n m p (mk n m f) (mk m p g) = Ok (mk n p c) /\
  forall i j, i < n -> j < p -> is_finite (c i j) = true.
Proof.
  intros Hf Hg Hb. eexists. split; [apply mult_float|]. intros i j Hi Hj.
  apply fdot_no_overflow; auto.
Qed.

(** ** C52 lu *)

Theorem c52_lu n f L U : lu K n (mk n n f) = Ok (L, U) -> exists l v,
  L = mk n n l /\ U = mk n n v /\
  (forall i j, i < j < n -> l i j = B754_zero false) /\
  (forall i j, j < i < n -> v i j = B754_zero false) /\
  (forall j, j < n -> is_finite (v j j) = true -> l j j = one).
Proof.
  intros H. destruct (lu_recurrence K n f L U H) as [l [v [-> [-> [_ [H1 [H2 [H3 H4]]]]]]]].
  exists l, v. split; [reflexivity|]. split; [reflexivity|].
  split; [intros i j Hij; apply H1; lia|]. split; [intros i j Hij; apply H2; lia|].
  intros j Hj Fj. destruct (H3 j j Hj (le_n j)) as [s [w [E1 [E2 E3]]]].
  destruct (H4 j j Hj ltac:(lia)) as [Nz [s' [w' [q [G1 [G2 [G3 G4]]]]]]].
  assert (s' = s).
  { rewrite (dot_ext K j _ _ (fun p => v p j) (fun p => l j p)) in G1; [congruence|].
    intros k Hk. split; [reflexivity|]. destruct (Nat.ltb_spec k j); [reflexivity|lia]. }
  subst s'. assert (w' = w) by congruence. subst w'.
  cbn [floatS st ld xdiv] in *. injection G3 as <-. rewrite G4, <- E3. apply (Bdiv_diag prec emax); [exact Fj|].
  intros Z. cbn [floatS xeq lit] in Nz.
  assert (B : Beqb (v j j) (f_of_Z prec emax 0) = true); [|congruence].
  apply Beqb_finite; [exact Fj|reflexivity|]. exact Z.
Qed.

(** ** C53 median and histogram with NaNs *)

(** elements ordered by < : no NaN, or no two elements comparable *)
Theorem c53_order (v : list fl) : strict_weak_on (less K) v <->
  (forall x, In x v -> is_nan x = false) \/ (forall x y, In x v -> In y v -> Bltb x y = false).
Proof.
  change (less K) with (@Bltb prec emax). split.
  - intros [_ [_ [_ H]]].
    destruct (existsb (fun x => is_nan x) v) eqn:E.
    + right. apply existsb_exists in E. destruct E as [z [Iz Nz]].
      assert (A : forall x : fl, Bltb x z = false /\ Bltb z x = false).
      { intros x. destruct z; try discriminate. destruct x as [|[]| |[]]; split; reflexivity. }
      intros x y Ix Iy. apply (H x z y Ix Iz Iy); apply A.
    + left. intros x Ix. destruct (is_nan x) eqn:N; [|reflexivity].
      assert (existsb (fun x => is_nan x) v = true); [|congruence].
      apply existsb_exists. exists x. auto.
  - intros [H|H].
    + assert (F : forall x y : fl, In x v -> In y v -> (Bltb x y = false <-> ~ klt (key prec emax x) (key prec emax y))).
      { intros x y Ix Iy. rewrite <- (Bltb_key prec emax x y) by auto. destruct (Bltb x y); split; congruence. }
      assert (T : forall x y : fl, In x v -> In y v -> (Bltb x y = true <-> klt (key prec emax x) (key prec emax y))).
      { intros x y Ix Iy. apply Bltb_key; auto. }
      split; [intros a Ia; apply F; auto; apply klt_irrefl|].
      split.
      { intros a b Ia Ib. rewrite T, F by auto. intros G1 G2. apply (klt_irrefl (key prec emax a)).
        apply klt_trans with (1 := G1). exact G2. }
      split.
      { intros a b c Ia Ib Ic. rewrite !T by auto. apply klt_trans. }
      intros a b c Ia Ib Ic. rewrite !F by auto. intros A1 A2 A3 A4.
      assert (E1 : key prec emax a = key prec emax b) by (destruct (klt_total (key prec emax a) (key prec emax b)) as [?|[?|?]]; tauto).
      assert (E2 : key prec emax b = key prec emax c) by (destruct (klt_total (key prec emax b) (key prec emax c)) as [?|[?|?]]; tauto).
      rewrite E1, E2. split; apply klt_irrefl.
    + split; [auto|]. split; [intros a b Ia Ib E; rewrite H in E by auto; discriminate|].
      split; [intros a b c Ia Ib Ic E; rewrite H in E by auto; discriminate|].
      intros. split; auto.
Qed.

Theorem c53_undefined sort n m f x y z :
  In x (elements (mk n m f)) -> In y (elements (mk n m f)) -> In z (elements (mk n m f)) ->
  is_nan z = true -> Bltb x y = true ->
  median K sort n m (mk n m f) = UB BadOrder /\ histogram K n m (mk n m f) = UB BadOrder.
Proof.
  intros Ix Iy Iz Nz L.
  assert (B : ~ strict_weak_on (less K) (elements (mk n m f))).
  { intros W. apply c53_order in W. destruct W as [W|W].
    - rewrite W in Nz by exact Iz. discriminate.
    - rewrite W in L by assumption. discriminate. }
  split; [apply median_bad|apply histogram_bad]; exact B.
Qed.

Theorem c53_defined sort n m f : 0 < n * m -> (Z.of_nat (n * m) < 2 ^ 64)%Z ->
  (forall x, In x (elements (mk n m f)) -> is_nan x = false) ->
  sorts (less K) sort (elements (mk n m f)) ->
  returns (median K sort n m (mk n m f)) /\ returns (histogram K n m (mk n m f)).
Proof.
  intros Hpos Hs Hn So.
  assert (W : strict_weak_on (less K) (elements (mk n m f))) by (apply c53_order; auto).
  split.
  - pose proof (Nat.mod_upper_bound (n * m) 2 ltac:(lia)).
    destruct ((n * m) mod 2) as [|[|]] eqn:E; [| |lia].
    + destruct (median_even K sort n m f W So E Hpos) as [x [y [_ [_ Em]]]].
      eexists. etransitivity; [exact Em|reflexivity].
    + destruct (median_odd K sort n m f W So E) as [x [Em _]]. eexists. etransitivity; [exact Em|reflexivity].
  - destruct (histogram_mk K n m f W Hs) as [hh [Em _]]. eexists. etransitivity; [exact Em|reflexivity].
Qed.

End Format.
Print Assumptions c35_compare.
Print Assumptions c35_nan.
Print Assumptions c35_equal.
Print Assumptions c35_within.
Print Assumptions c35_accepted.
Print Assumptions c48_mult_eye.
Print Assumptions c48_eye_mult.
Print Assumptions c48_only_finite.
Print Assumptions c49_sum_comm.
Print Assumptions c49_sub_self.
Print Assumptions c49_mult_one.
Print Assumptions c49_trans_trans.
Print Assumptions c51_mult.
Print Assumptions c51_finite.
Print Assumptions c52_lu.
Print Assumptions c53_order.
Print Assumptions c53_undefined.
Print Assumptions c53_defined.

(** ** C50 A * trans(A) is symmetric, for every element type whose product commutes *)

Theorem c50_symmetric (K : scalar) n m (f : nat -> nat -> elt K) C :
  (forall a b : elt K, xmul (ld a) (ld b) = xmul (ld b) (ld a)) ->
  (let* B := trans K n m (mk n m f) in mult K n m n (mk n m f) B) = Ok C ->
  exists c, C = mk n n c /\ forall i j, i < n -> j < n -> c i j = c j i.
Proof.
  intros Hc. rewrite trans_mk. cbn [bind]. rewrite mult_tab. intros H.
  destruct (tabM_inv (lite K 0) _ _ _ _ H) as [c [-> Hd]]. exists c. split; [reflexivity|].
  intros i j Hi Hj. assert (Ok (c i j) = Ok (c j i)); [|congruence].
  rewrite <- !Hd by assumption. unfold dot. apply for_ext. intros k s Hk. cbn beta. rewrite Hc. reflexivity.
Qed.
Print Assumptions c50_symmetric.

Theorem c50_accepted (K : scalar) n m (f : nat -> nat -> elt K) C :
  (forall a b : elt K, xmul (ld a) (ld b) = xmul (ld b) (ld a)) ->
  (let* B := trans K n m (mk n m f) in mult K n m n (mk n m f) B) = Ok C ->
  all_elts (fun x => xeq (ld x) (ld x) = true) C ->
  isSymetric K n C = Ok true.
Proof.
  intros Hc H Hr. destruct (c50_symmetric K n m f C Hc H) as [c [-> Hs]].
  destruct (isSymetric_mk K n c) as [b [-> Hb]]. f_equal. apply Hb. intros i j Hij.
  rewrite (Hs j i) by lia. apply (Hr (map (fun j => c i j) (seq 0 n))).
  - unfold mk. apply in_map_iff. exists i. split; [reflexivity|]. apply in_seq. lia.
  - apply in_map_iff. exists j. split; [reflexivity|]. apply in_seq. lia.
Qed.
Print Assumptions c50_accepted.

Theorem c50_int t n m f C :
  (let* B := trans (intS t) n m (mk n m f) in mult (intS t) n m n (mk n m f) B) = Ok C ->
  isSymetric (intS t) n C = Ok true.
Proof.
  intros H. apply (c50_accepted (intS t) n m f C); [|exact H|].
  - intros a b. cbn. rewrite Z.mul_comm. reflexivity.
  - intros row x _ _. apply Z.eqb_refl.
Qed.
Print Assumptions c50_int.

Theorem c50_float prec emax {Hp : Prec_gt_0 prec} {He : Prec_lt_emax prec emax} n m f : exists C,
  (let* B := trans (floatS prec emax) n m (mk n m f) in mult (floatS prec emax) n m n (mk n m f) B) = Ok C /\
  (all_elts (fun x => is_nan x = false) C -> isSymetric (floatS prec emax) n C = Ok true).
Proof.
  rewrite trans_mk. cbn [bind]. rewrite mult_float. eexists. split; [reflexivity|]. intros Hn.
  apply (c50_accepted (floatS prec emax) n m f).
  - intros a b. cbn. rewrite (Bmult_comm prec emax). reflexivity.
  - rewrite trans_mk. cbn [bind]. apply mult_float.
  - intros row x I1 I2. cbn. rewrite Beqb_refl, (Hn row x I1 I2). reflexivity.
Qed.
Print Assumptions c50_float.

(** ** Witnesses *)

(** C35: int elements 0 and 2^24 + 1, epsilon = 2^24 as a float *)
Theorem c35_int_rounds : exists (e : epsT (intS int32)),
  e = to_float32 16777216 /\
  compare (intS int32) 1 1 [[0%Z]] [[16777217%Z]] e = Ok true /\
  (Z.abs (0 - 16777217) > 16777216)%Z.
Proof. exists (to_float32 16777216). split; [reflexivity|]. split; [vm_compute; reflexivity|]. lia. Qed.
Print Assumptions c35_int_rounds.

Definition fz32 (z : Z) : elt float32S := f_of_Z 24 128 z.
Definition fz64 (z : Z) : elt float64S := f_of_Z 53 1024 z.

(** C49: (1 + 2^24) + -2^24 and 1 + (2^24 + -2^24) in float, 2^53 in double *)
Definition differ {K : scalar} (a b : outcome (matrix (elt K))) : bool :=
  match a, b with Ok A, Ok B => negb (mat_eqb K A B) | _, _ => false end.

Lemma c49_check32 : let A := [[fz32 1]] in let B := [[fz32 16777216]] in let C := [[fz32 (-16777216)]] in
  differ (K := float32S) (let* X := sum float32S 1 1 A B in sum float32S 1 1 X C)
         (let* Y := sum float32S 1 1 B C in sum float32S 1 1 A Y)
  && differ (K := float32S) (let* X := sum float32S 1 1 A B in sub float32S 1 1 X B) (Ok A) = true.
Proof. vm_compute. reflexivity. Qed.

Lemma c49_check64 : let A := [[fz64 1]] in let B := [[fz64 (2 ^ 53)]] in let C := [[fz64 (- 2 ^ 53)]] in
  differ (K := float64S) (let* X := sum float64S 1 1 A B in sum float64S 1 1 X C)
         (let* Y := sum float64S 1 1 B C in sum float64S 1 1 A Y)
  && differ (K := float64S) (let* X := sum float64S 1 1 A B in sub float64S 1 1 X B) (Ok A) = true.
Proof. vm_compute. reflexivity. Qed.

Theorem c49_not_associative :
  (exists A B C, differ (K := float32S) (let* X := sum float32S 1 1 A B in sum float32S 1 1 X C)
         (let* Y := sum float32S 1 1 B C in sum float32S 1 1 A Y) = true) /\
  (exists A B C, differ (K := float64S) (let* X := sum float64S 1 1 A B in sum float64S 1 1 X C)
         (let* Y := sum float64S 1 1 B C in sum float64S 1 1 A Y) = true).
Proof.
  pose proof c49_check32 as H. pose proof c49_check64 as H'. cbv zeta in H, H'.
  apply andb_prop in H. apply andb_prop in H'.
  split; [exists [[fz32 1]], [[fz32 16777216]], [[fz32 (-16777216)]]; apply H|
          exists [[fz64 1]], [[fz64 (2 ^ 53)]], [[fz64 (- 2 ^ 53)]]; apply H'].
Qed.
Print Assumptions c49_not_associative.

Theorem c49_add_sub :
  (exists A B, differ (K := float32S) (let* X := sum float32S 1 1 A B in sub float32S 1 1 X B) (Ok A) = true) /\
  (exists A B, differ (K := float64S) (let* X := sum float64S 1 1 A B in sub float64S 1 1 X B) (Ok A) = true).
Proof.
  pose proof c49_check32 as H. pose proof c49_check64 as H'. cbv zeta in H, H'.
  apply andb_prop in H. apply andb_prop in H'.
  split; [exists [[fz32 1]], [[fz32 16777216]]; apply H|
          exists [[fz64 1]], [[fz64 (2 ^ 53)]]; apply H'].
Qed.
Print Assumptions c49_add_sub.

(** the hypotheses of the theorems above on concrete matrices *)
Example c48_ex : forall i j, i < 2 -> j < 2 -> is_finite (fz32 (Z.of_nat i + 3)) = true.
Proof. intros [|[|i]] j Hi Hj; try lia; vm_compute; reflexivity. Qed.

Example c52_ex : match lu float32S 2 [[fz32 3; fz32 1]; [fz32 1; fz32 2]] with
  | Ok (L, U) => forallb (forallb (fun x => is_finite x)) U && mat_eqb float32S [[fz32 1]] [[nth 1 (nth 1 L []) (fz32 0)]]
  | _ => false
  end = true.
Proof. vm_compute. reflexivity. Qed.

Example c53_ex : In (B754_nan : elt float32S) (elements [[B754_nan; fz32 1; fz32 2]]) /\
  Bltb (fz32 1) (fz32 2) = true.
Proof. split; [left; reflexivity|vm_compute; reflexivity]. Qed.
