(** * C99: matrices of std::complex<float> and std::complex<double>

    [K] is the real element type, [C] the complex one (CComplex.v), both in any
    binary format.  [ns] is the sign a NaN shows to copysign and [o] the
    operations no theorem depends on: both arbitrary. *)

From Coq Require Import ZArith Reals Lra Lia Bool List Arith.
Import ListNotations.
From Flocq Require Import IEEE754.BinarySingleNaN Core.Core.
From Verif Require Import Base Scalar Model Spec Loops Struct CFloat CComplex Float FloatMx FloatDet FloatSign Param ParamInst.

Section Complex.
Variables prec emax : Z.
Context {Hp : Prec_gt_0 prec} {He : Prec_lt_emax prec emax}.
Variables (ns : bool) (o : rest (floatS prec emax)).
Notation fl := (binary_float prec emax).
Notation K := (floatS prec emax).
Notation C := (cfloatS prec emax ns o).
Notation u := (uro prec).
Notation h := (eta prec emax).
Notation rnd := (round radix2 (SpecFloat.fexp prec emax) ZnearestE).
Notation "x ⊕ y" := (Bplus mode_NE x y) (at level 50, left associativity).
Notation "x ⊖ y" := (Bminus mode_NE x y) (at level 50, left associativity).
Notation "x ⊗ y" := (Bmult mode_NE x y) (at level 40, left associativity).

Local Instance fexp_valid_c : Valid_exp (SpecFloat.fexp prec emax).
Proof. apply FLT.FLT_exp_valid, Hp. Qed.

(** ** one product *)
Definition plain (z w : fl * fl) : fl * fl :=
  (fst z ⊗ fst w ⊖ snd z ⊗ snd w, fst z ⊗ snd w ⊕ snd z ⊗ fst w).
Definition cprod (z w : fl * fl) : fl * fl := annex_g prec emax ns z w (plain z w).

Lemma mul_cprod (z w : fl * fl) : @xmul C (@ld C z) (@ld C w) = Ok (cprod z w).
Proof. destruct z, w. reflexivity. Qed.

Lemma inf_mul_nf (x : fl) : is_finite (B754_infinity false ⊗ x) = false.
Proof. destruct x as [s|s| |s m e B]; try reflexivity; destruct s; reflexivity. Qed.

(** the recovery never produces a finite part and never touches one *)
Lemma annex_cases z w r : annex_g prec emax ns z w r = r \/
  (is_nan (fst r) = true /\ is_nan (snd r) = true /\
   is_finite (fst (annex_g prec emax ns z w r)) = false /\ is_finite (snd (annex_g prec emax ns z w r)) = false).
Proof.
  unfold annex_g. destruct (is_nan (fst r)) eqn:N1, (is_nan (snd r)) eqn:N2; cbn [andb]; auto.
  destruct z as [a b], w as [c d]. cbn [fst snd andb].
  destruct (if is_inf prec emax a || is_inf prec emax b then _ else _) as [[[a1 b1] c1] d1].
  destruct (if is_inf prec emax c1 || is_inf prec emax d1 then _ else _) as [[[a2 b2] c2] d2].
  match goal with |- context [let '(_, _) := (if ?b then _ else _) in _] => generalize b end. intros i3.
  destruct (if i3 then _ else _) as [[[a3 b3] c3] d3].
  match goal with |- context [if ?b then (_, _) else r] => destruct b end; [right|left; reflexivity].
  cbn [fst snd]. rewrite !inf_mul_nf. auto.
Qed.

Lemma cprod_re z w : is_finite (fst (cprod z w)) = true -> cprod z w = plain z w.
Proof. unfold cprod. intros F. destruct (annex_cases z w (plain z w)) as [E|[_ [_ [E _]]]]; [exact E|congruence]. Qed.
Lemma cprod_im z w : is_finite (snd (cprod z w)) = true -> cprod z w = plain z w.
Proof. unfold cprod. intros F. destruct (annex_cases z w (plain z w)) as [E|[_ [_ [_ E]]]]; [exact E|congruence]. Qed.
Lemma cprod_plain_re z w : is_finite (fst (plain z w)) = true -> cprod z w = plain z w.
Proof.
  unfold cprod. intros F. destruct (annex_cases z w (plain z w)) as [E|[N _]]; [exact E|].
  destruct (fst (plain z w)); discriminate.
Qed.

(** *** Annex G: an infinity times anything but zero is an infinity *)
(** an infinite part; a part that is a number other than zero (the other may be NaN) *)
Definition infinite (z : fl * fl) : Prop := is_inf prec emax (fst z) = true \/ is_inf prec emax (snd z) = true.
Definition nonzero (z : fl * fl) : Prop :=
  (is_finite (fst z) = true /\ B2R (fst z) <> 0%R) \/ (is_finite (snd z) = true /\ B2R (snd z) <> 0%R).

Lemma inf_add_nf (x y : fl) : is_finite x = false -> is_finite (x ⊕ y) = false.
Proof. intros F. destruct (is_finite (x ⊕ y)) eqn:G; [|reflexivity]. apply (Bplus_finite prec emax) in G. destruct G. congruence. Qed.
Lemma inf_add_nf_r (x y : fl) : is_finite y = false -> is_finite (x ⊕ y) = false.
Proof. intros F. destruct (is_finite (x ⊕ y)) eqn:G; [|reflexivity]. apply (Bplus_finite prec emax) in G. destruct G as [_ [G _]]. congruence. Qed.
Lemma mul_nf_l (x y : fl) : is_finite x = false -> is_finite (x ⊗ y) = false.
Proof. intros F. destruct (is_finite (x ⊗ y)) eqn:G; [|reflexivity]. apply (Bmult_finite prec emax) in G. destruct G. congruence. Qed.
Lemma mul_nf_r (x y : fl) : is_finite y = false -> is_finite (x ⊗ y) = false.
Proof. intros F. destruct (is_finite (x ⊗ y)) eqn:G; [|reflexivity]. apply (Bmult_finite prec emax) in G. destruct G as [_ [G _]]. congruence. Qed.
Lemma sub_nf_l (x y : fl) : is_finite x = false -> is_finite (x ⊖ y) = false.
Proof. intros F. destruct (is_finite (x ⊖ y)) eqn:G; [|reflexivity]. apply (Bminus_finite prec emax) in G. destruct G. congruence. Qed.
Lemma sub_nf_r (x y : fl) : is_finite y = false -> is_finite (x ⊖ y) = false.
Proof. intros F. destruct (is_finite (x ⊖ y)) eqn:G; [|reflexivity]. apply (Bminus_finite prec emax) in G. destruct G as [_ [G _]]. congruence. Qed.
Lemma inf_nf (x : fl) : is_inf prec emax x = true -> is_finite x = false.
Proof. destruct x; try discriminate; reflexivity. Qed.
Lemma inf_nnan (x : fl) : is_inf prec emax x = true -> is_nan x = false.
Proof. destruct x; try discriminate; reflexivity. Qed.
Lemma nf_cases (x : fl) : is_finite x = false -> is_inf prec emax x = true \/ is_nan x = true.
Proof. destruct x; try discriminate; auto. Qed.

(** both parts of the plain product of an infinity are infinities or NaNs *)
Lemma plain_nf z w : infinite z -> is_finite (fst (plain z w)) = false /\ is_finite (snd (plain z w)) = false.
Proof.
  intros [I|I]; apply inf_nf in I; unfold plain; cbn [fst snd]; split.
  - apply sub_nf_l, mul_nf_l, I.
  - apply inf_add_nf, mul_nf_l, I.
  - apply sub_nf_r, mul_nf_l, I.
  - apply inf_add_nf_r, mul_nf_l, I.
Qed.

(** the boxed values *)
Definition unitary (x : fl) (b : bool) : Prop := is_finite x = true /\ (Rabs (B2R x) = if b then 1 else 0)%R.
Lemma boxed_val b (x : fl) : unitary (boxed prec emax ns b x) b.
Proof.
  unfold boxed, unitary. destruct (f_of_Z_1 prec emax) as [E [F _]].
  destruct (if is_nan x then ns else Bsign x), b; rewrite ?is_finite_Bopp, ?B2R_Bopp, ?E; split; try assumption; try reflexivity;
    simpl; rewrite ?Rabs_Ropp, ?Rabs_R1, ?Rabs_R0; reflexivity.
Qed.

Lemma inf_mul_inf (x : fl) : (is_finite x = true -> B2R x <> 0%R) -> is_nan x = false ->
  is_inf prec emax (B754_infinity false ⊗ x) = true.
Proof.
  intros H N. destruct x as [s|s| |s m e B]; try reflexivity; try discriminate. exfalso. apply (H eq_refl). reflexivity.
Qed.

(** a*c - b*d and a*d + b*c for a, b in {0, 1, -1} and finite c, d that are not all zero *)
Lemma rnd_neq0 (x y : fl) : (B2R x + B2R y <> 0)%R -> (rnd (B2R x + B2R y) <> 0)%R.
Proof.
  intros H E. destruct (rnd_plus prec emax x y) as [d [Hd Ed]]. rewrite Ed in E.
  apply Rmult_integral in E. destruct E as [E|E]; [contradiction|].
  pose proof (uro_pos prec) as U.
  assert (L : (u < 1)%R).
  { unfold uro. apply (bpow_lt radix2 (- prec) 0). pose proof (prec_pos prec). lia. }
  revert Hd. unfold Rabs. destruct (Rcase_abs d); lra.
Qed.

Lemma add_nn (x y : fl) : is_finite x = true -> is_finite y = true -> is_nan (x ⊕ y) = false /\
  ((B2R x + B2R y <> 0)%R -> is_finite (x ⊕ y) = true -> B2R (x ⊕ y) <> 0%R).
Proof.
  intros Fx Fy. pose proof (Bplus_correct prec emax Hp He mode_NE x y Fx Fy) as H. split.
  - destruct (Rlt_bool _ _) in H.
    + destruct H as [_ [H _]]. destruct (x ⊕ y); try discriminate; reflexivity.
    + destruct H as [H _]. destruct (x ⊕ y); try reflexivity. simpl in H. destruct (Bsign x); discriminate.
  - intros N F. destruct (Bplus_finite prec emax x y F) as [_ [_ E]]. rewrite E. apply rnd_neq0, N.
Qed.

Lemma unit_mul (x y : fl) b : unitary x b -> is_finite y = true ->
  is_finite (x ⊗ y) = true /\ B2R (x ⊗ y) = (B2R x * B2R y)%R.
Proof.
  intros [Fx Ux] Fy. destruct (Bmult_exact prec emax x y Fx Fy) as [F [E _]]; [| |auto].
  - destruct b.
    + assert (D : B2R x = 1%R \/ B2R x = (-1)%R) by (revert Ux; unfold Rabs; destruct (Rcase_abs (B2R x)); lra).
      destruct D as [-> | ->].
      * rewrite Rmult_1_l. apply generic_format_B2R.
      * replace (-1 * B2R y)%R with (- B2R y)%R by ring. apply generic_format_opp, generic_format_B2R.
    + assert (D : B2R x = 0%R) by (revert Ux; unfold Rabs; destruct (Rcase_abs (B2R x)); lra). rewrite D, Rmult_0_l. apply generic_format_0.
  - rewrite Rabs_mult, Ux. destruct b; [rewrite Rmult_1_l; apply (abs_lt_emax prec emax)|].
    rewrite Rmult_0_l. apply bpow_gt_0.
Qed.

Definition exact_mul (x y : fl) : Prop := is_finite (x ⊗ y) = true /\ B2R (x ⊗ y) = (B2R x * B2R y)%R.

Lemma sub_nn (x y : fl) : is_finite x = true -> is_finite y = true -> is_nan (x ⊖ y) = false /\
  ((B2R x - B2R y <> 0)%R -> is_finite (x ⊖ y) = true -> B2R (x ⊖ y) <> 0%R).
Proof.
  intros Fx Fy. rewrite (sub_add_opp prec emax). destruct (add_nn x (Bopp y) Fx) as [A B]; [rewrite is_finite_Bopp; exact Fy|].
  split; [exact A|]. rewrite B2R_Bopp in B. exact B.
Qed.

Lemma one_infinite (a b c d : fl) : exact_mul a c -> exact_mul b d -> exact_mul a d -> exact_mul b c ->
  (B2R a <> 0 \/ B2R b <> 0)%R -> (B2R c <> 0 \/ B2R d <> 0)%R ->
  infinite (B754_infinity false ⊗ (a ⊗ c ⊖ b ⊗ d), B754_infinity false ⊗ (a ⊗ d ⊕ b ⊗ c)).
Proof.
  intros [F1 E1] [F2 E2] [F3 E3] [F4 E4] Nz Nw. unfold infinite. cbn [fst snd].
  destruct (sub_nn _ _ F1 F2) as [N1 V1]. destruct (add_nn _ _ F3 F4) as [N2 V2]. rewrite E1, E2 in V1. rewrite E3, E4 in V2.
  destruct (Req_dec (B2R a * B2R c - B2R b * B2R d) 0) as [Z1|Z1]; [|left; apply inf_mul_inf; auto].
  right. apply inf_mul_inf; [|exact N2]. apply V2. intros Z2.
  assert (Q : ((B2R a * B2R a + B2R b * B2R b) * (B2R c * B2R c + B2R d * B2R d) = 0)%R).
  { replace ((B2R a * B2R a + B2R b * B2R b) * (B2R c * B2R c + B2R d * B2R d))%R with
      ((B2R a * B2R c - B2R b * B2R d) * (B2R a * B2R c - B2R b * B2R d) + (B2R a * B2R d + B2R b * B2R c) * (B2R a * B2R d + B2R b * B2R c))%R by ring.
    rewrite Z1, Z2. ring. }
  assert (SQ : forall x y : R, (x <> 0 \/ y <> 0 -> 0 < x * x + y * y)%R).
  { intros x y [N|N]; [pose proof (Rsqr_pos_lt x N)|pose proof (Rsqr_pos_lt y N)]; unfold Rsqr in *; nra. }
  pose proof (SQ _ _ Nz). pose proof (SQ _ _ Nw). nra.
Qed.

Lemma boxed_nan b (x : fl) : is_nan (boxed prec emax ns b x) = false.
Proof. destruct (boxed_val b x) as [F _]. destruct (boxed prec emax ns b x); try discriminate; reflexivity. Qed.
Lemma boxed_inf b (x : fl) : is_inf prec emax (boxed prec emax ns b x) = false.
Proof. destruct (boxed_val b x) as [F _]. destruct (boxed prec emax ns b x); try discriminate; reflexivity. Qed.
Lemma nan0_boxed b (x : fl) : nan0 prec emax ns (boxed prec emax ns b x) = boxed prec emax ns b x.
Proof. unfold nan0. rewrite boxed_nan. reflexivity. Qed.
Lemma nan0_inf (x : fl) : is_inf prec emax (nan0 prec emax ns x) = is_inf prec emax x.
Proof. unfold nan0. destruct (is_nan x) eqn:N; [|reflexivity]. rewrite boxed_inf. destruct x; try discriminate; reflexivity. Qed.
Lemma nan0_fin (x : fl) : is_finite x = true -> nan0 prec emax ns x = x.
Proof. unfold nan0. destruct x; try discriminate; reflexivity. Qed.
Lemma nan0_val (x : fl) : is_inf prec emax x = false -> is_finite (nan0 prec emax ns x) = true /\ B2R (nan0 prec emax ns x) = B2R x.
Proof.
  destruct x; try discriminate; intros _; unfold nan0; cbn [is_nan]; auto.
  destruct (boxed_val false (B754_nan : fl)) as [F E]. split; [exact F|]. simpl. revert E. unfold Rabs. destruct (Rcase_abs _); lra.
Qed.
Lemma unit_nz (x : fl) : unitary x true -> B2R x <> 0%R.
Proof. intros [_ U] E. rewrite E, Rabs_R0 in U. lra. Qed.
Lemma fin_ninf (x : fl) : is_finite x = true -> is_inf prec emax x = false.
Proof. destruct x; try discriminate; reflexivity. Qed.
Lemma exact_unit_l x y b : unitary x b -> is_finite y = true -> exact_mul x y.
Proof. apply unit_mul. Qed.
Lemma exact_unit_r x y b : is_finite x = true -> unitary y b -> exact_mul x y.
Proof.
  intros F U. destruct (unit_mul y x b U F) as [F1 E1]. unfold exact_mul. destruct U as [Fy _].
  destruct (Bmult_exact prec emax x y F Fy) as [A [B _]]; [| |auto].
  - rewrite Rmult_comm, <- E1. apply generic_format_B2R.
  - rewrite Rmult_comm, <- E1. apply abs_lt_emax.
Qed.

Definition inf_or_nonzero (w : fl * fl) : Prop :=
  infinite w \/ nonzero w.

Lemma orb_infinite z : infinite z <-> is_inf prec emax (fst z) || is_inf prec emax (snd z) = true.
Proof. unfold infinite. rewrite orb_true_iff. reflexivity. Qed.

Lemma boxed_pair_nz (a b : fl) : is_inf prec emax a || is_inf prec emax b = true ->
  (B2R (boxed prec emax ns (is_inf prec emax a) a) <> 0 \/ B2R (boxed prec emax ns (is_inf prec emax b) b) <> 0)%R.
Proof.
  intros H. apply orb_true_iff in H. destruct H as [H|H]; [left|right]; apply unit_nz; rewrite H; apply boxed_val.
Qed.

Lemma cprod_infinite_l z w : infinite z -> inf_or_nonzero w -> infinite (cprod z w).
Proof.
  intros Iz Nw. destruct (plain_nf z w Iz) as [P1 P2]. unfold cprod, annex_g.
  destruct (nf_cases _ P1) as [I1|N1].
  { rewrite (inf_nnan _ I1). left. exact I1. }
  destruct (nf_cases _ P2) as [I2|N2].
  { rewrite (inf_nnan _ I2), andb_false_r. right. exact I2. }
  rewrite N1, N2. cbn [andb]. clear P1 P2 N1 N2. destruct z as [a b], w as [c d]. apply orb_infinite in Iz. cbn [fst snd] in Iz |- *.
  rewrite Iz. cbn [orb negb andb]. rewrite !nan0_inf.
  pose proof (boxed_pair_nz a b Iz) as NZ.
  pose proof (boxed_val (is_inf prec emax a) a) as Ua. pose proof (boxed_val (is_inf prec emax b) b) as Ub.
  destruct (is_inf prec emax c || is_inf prec emax d) eqn:Iw.
  - rewrite !nan0_boxed. 
    assert (IW : is_inf prec emax (nan0 prec emax ns c) || is_inf prec emax (nan0 prec emax ns d) = true) by (rewrite !nan0_inf; exact Iw).
    pose proof (boxed_pair_nz _ _ IW) as NW. rewrite !nan0_inf in NW.
    pose proof (boxed_val (is_inf prec emax c) (nan0 prec emax ns c)) as Uc. pose proof (boxed_val (is_inf prec emax d) (nan0 prec emax ns d)) as Ud.
    apply one_infinite; try assumption; eapply exact_unit_l; try eassumption; first [apply Uc | apply Ud].
  - destruct Nw as [Nw|Nw]; [apply orb_infinite in Nw; cbn [fst snd] in Nw; congruence|]. apply orb_false_iff in Iw. destruct Iw as [Ic Id].
    destruct (nan0_val c Ic) as [Fc Ec]. destruct (nan0_val d Id) as [Fd Ed].
    apply one_infinite; try assumption; try (eapply exact_unit_l; eassumption).
    rewrite Ec, Ed. destruct Nw as [[_ N]|[_ N]]; cbn [fst snd] in N; auto.
Qed.

Lemma plain_nf_r z w : infinite w -> is_finite (fst (plain z w)) = false /\ is_finite (snd (plain z w)) = false.
Proof.
  intros [I|I]; apply inf_nf in I; unfold plain; cbn [fst snd]; split;
  match goal with
  | |- is_finite (_ ⊖ _) = false => first [apply sub_nf_l; apply mul_nf_r; exact I | apply sub_nf_r; apply mul_nf_r; exact I]
  | |- is_finite (_ ⊕ _) = false => first [apply inf_add_nf; apply mul_nf_r; exact I | apply inf_add_nf_r; apply mul_nf_r; exact I]
  end.
Qed.

Lemma cprod_infinite_r z w : inf_or_nonzero z -> infinite w -> infinite (cprod z w).
Proof.
  intros Nz Iw. destruct (is_inf prec emax (fst z) || is_inf prec emax (snd z)) eqn:Iz.
  { apply cprod_infinite_l; [apply orb_infinite, Iz|left; exact Iw]. }
  destruct Nz as [Nz|Nz]; [apply orb_infinite in Nz; congruence|]. apply orb_false_iff in Iz. destruct Iz as [Ia Ib].
  destruct (plain_nf_r z w Iw) as [P1 P2]. unfold cprod, annex_g.
  destruct (nf_cases _ P1) as [I1|N1].
  { rewrite (inf_nnan _ I1). left. exact I1. }
  destruct (nf_cases _ P2) as [I2|N2].
  { rewrite (inf_nnan _ I2), andb_false_r. right. exact I2. }
  rewrite N1, N2. cbn [andb]. clear P1 P2 N1 N2. destruct z as [a b], w as [c d]. apply orb_infinite in Iw. cbn [fst snd] in *.
  rewrite Ia, Ib. cbn [orb negb andb]. rewrite Iw. cbn [orb negb andb].
  destruct (nan0_val a Ia) as [Fa Ea]. destruct (nan0_val b Ib) as [Fb Eb].
  pose proof (boxed_pair_nz c d Iw) as NW.
  pose proof (boxed_val (is_inf prec emax c) c) as Uc. pose proof (boxed_val (is_inf prec emax d) d) as Ud.
  apply one_infinite; try assumption; try (eapply exact_unit_r; eassumption).
  rewrite Ea, Eb. destruct Nz as [[_ N]|[_ N]]; cbn [fst snd] in N; auto.
Qed.

(** a product of two parts that overflows, while another part is NaN *)
Lemma nan_mul_l (x y : fl) : is_nan x = true -> x ⊗ y = B754_nan.
Proof. destruct x; try discriminate. destruct y; reflexivity. Qed.
Lemma nan_mul_r (x y : fl) : is_nan y = true -> x ⊗ y = B754_nan.
Proof. destruct y; try discriminate. destruct x; reflexivity. Qed.
Lemma inf_sub_fin (x y : fl) : is_inf prec emax x = true -> is_finite y = true -> is_inf prec emax (x ⊖ y) = true.
Proof. destruct x, y; try discriminate; reflexivity. Qed.
Lemma fin_sub_inf (x y : fl) : is_finite x = true -> is_inf prec emax y = true -> is_inf prec emax (x ⊖ y) = true.
Proof. destruct x, y; try discriminate; reflexivity. Qed.
Lemma inf_add_fin (x y : fl) : is_inf prec emax x = true -> is_finite y = true -> is_inf prec emax (x ⊕ y) = true.
Proof. destruct x, y; try discriminate; reflexivity. Qed.
Lemma fin_add_inf (x y : fl) : is_finite x = true -> is_inf prec emax y = true -> is_inf prec emax (x ⊕ y) = true.
Proof. destruct x, y; try discriminate; reflexivity. Qed.
Lemma inf_mul_of_inf (x : fl) : is_inf prec emax x = true -> is_inf prec emax (B754_infinity false ⊗ x) = true.
Proof. destruct x; try discriminate; reflexivity. Qed.
Lemma nan0_nan (x : fl) : is_nan x = true -> exists s, nan0 prec emax ns x = B754_zero s.
Proof. intros N. unfold nan0, boxed. rewrite N. destruct ns; cbn; eauto. Qed.
Lemma zero_mul_fin (x y : fl) : is_finite x = true -> is_finite y = true -> B2R x = 0%R \/ B2R y = 0%R -> is_finite (x ⊗ y) = true.
Proof.
  intros Fx Fy [Z|Z]; [apply (Bmult_zero_l prec emax x y)|apply (Bmult_zero_r prec emax x y)]; assumption.
Qed.

Lemma nan0_prod_fin (x y : fl) : is_inf prec emax x = false -> is_inf prec emax y = false -> is_nan x || is_nan y = true ->
  is_finite (nan0 prec emax ns x ⊗ nan0 prec emax ns y) = true.
Proof.
  intros Ix Iy N. destruct (nan0_val x Ix) as [Fx Ex]. destruct (nan0_val y Iy) as [Fy Ey].
  apply zero_mul_fin; try assumption. apply orb_true_iff in N.
  destruct N as [N|N]; [left; rewrite Ex; destruct x|right; rewrite Ey; destruct y]; try discriminate; reflexivity.
Qed.
Lemma inf_prod_nn (x y : fl) : is_inf prec emax (x ⊗ y) = true ->
  is_nan x = false /\ is_nan y = false /\ nan0 prec emax ns x = x /\ nan0 prec emax ns y = y.
Proof.
  intros I. assert (is_nan x = false) by (destruct x, y; try reflexivity; discriminate).
  assert (is_nan y = false) by (destruct x, y; try reflexivity; discriminate).
  unfold nan0. rewrite H, H0. auto.
Qed.

Lemma cprod_overflow z w :
  is_inf prec emax (fst z) || is_inf prec emax (snd z) || (is_inf prec emax (fst w) || is_inf prec emax (snd w)) = false ->
  is_nan (fst z) || is_nan (snd z) || (is_nan (fst w) || is_nan (snd w)) = true ->
  is_inf prec emax (fst z ⊗ fst w) || is_inf prec emax (snd z ⊗ snd w) || is_inf prec emax (fst z ⊗ snd w) || is_inf prec emax (snd z ⊗ fst w) = true ->
  infinite (cprod z w).
Proof.
  destruct z as [a b], w as [c d]. cbn [fst snd]. intros HI HN HP.
  apply orb_false_iff in HI. destruct HI as [H1 H2]. pose proof H1 as H1'. pose proof H2 as H2'.
  apply orb_false_iff in H1', H2'. destruct H1' as [Ia Ib], H2' as [Ic Id].
  assert (PN : is_nan (fst (plain (a, b) (c, d))) = true /\ is_nan (snd (plain (a, b) (c, d))) = true).
  { unfold plain. cbn [fst snd].
    assert (X : forall x : fl, is_nan (x ⊖ B754_nan) = true /\ is_nan (B754_nan ⊖ x) = true /\ is_nan (x ⊕ B754_nan) = true /\ is_nan (B754_nan ⊕ x) = true).
    { intros x. destruct x; repeat split. }
    destruct (is_nan a) eqn:Na; [rewrite !(nan_mul_l a) by exact Na; split; apply X|].
    destruct (is_nan b) eqn:Nb; [rewrite !(nan_mul_l b) by exact Nb; split; apply X|].
    destruct (is_nan c) eqn:Nc; [rewrite !(nan_mul_r _ c) by exact Nc; split; apply X|].
    destruct (is_nan d) eqn:Nd; [rewrite !(nan_mul_r _ d) by exact Nd; split; apply X|]. discriminate. }
  unfold cprod, annex_g. destruct PN as [P1 P2]. rewrite P1, P2. cbn [andb]. rewrite H1. rewrite H2. cbn [orb negb andb fst snd]. rewrite HP.
  rewrite !orb_true_iff in HP. destruct HP as [[[HP|HP]|HP]|HP]; destruct (inf_prod_nn _ _ HP) as [Nx [Ny [Zx Zy]]]; unfold infinite; cbn [fst snd].
  - left. apply inf_mul_of_inf, inf_sub_fin; [rewrite Zx, Zy; exact HP|]. apply nan0_prod_fin; try assumption.
    rewrite Nx, Ny in HN. cbn [orb] in HN. exact HN.
  - left. apply inf_mul_of_inf, fin_sub_inf; [|rewrite Zx, Zy; exact HP]. apply nan0_prod_fin; try assumption.
    rewrite Nx, Ny, !orb_false_r in HN. exact HN.
  - right. apply inf_mul_of_inf, inf_add_fin; [rewrite Zx, Zy; exact HP|]. apply nan0_prod_fin; try assumption.
    rewrite Nx, Ny, !orb_false_r in HN. exact HN.
  - right. apply inf_mul_of_inf, fin_add_inf; [|rewrite Zx, Zy; exact HP]. apply nan0_prod_fin; try assumption.
    rewrite Nx, Ny, !orb_false_r in HN. exact HN.
Qed.

(** Annex G: an infinity times an infinity or a number other than zero is an infinity,
    even where the formula (a*c - b*d, a*d + b*c) gives NaN; and so is a product with a
    NaN in it where the product of two parts overflows *)
Definition nan_overflow (z w : fl * fl) : Prop :=
  is_inf prec emax (fst z) || is_inf prec emax (snd z) || (is_inf prec emax (fst w) || is_inf prec emax (snd w)) = false /\
  is_nan (fst z) || is_nan (snd z) || (is_nan (fst w) || is_nan (snd w)) = true /\
  is_inf prec emax (fst z ⊗ fst w) || is_inf prec emax (snd z ⊗ snd w) || is_inf prec emax (fst z ⊗ snd w) ||
    is_inf prec emax (snd z ⊗ fst w) = true.
Theorem c99_infinity n m (f : nat -> nat -> fl * fl) (s : fl * fl) : exists c,
  mult_scalar C n m (mk n m f) s = Ok (mk n m c) /\
  forall i j, i < n -> j < m ->
    (infinite (f i j) /\ inf_or_nonzero s) \/ (inf_or_nonzero (f i j) /\ infinite s) \/ nan_overflow (f i j) s ->
    infinite (c i j).
Proof.
  exists (fun i j => cprod (f i j) s). split.
  - etransitivity; [exact (@mult_scalar_tab C n m f s)|]. apply tabM_ok. intros i j _ _.
    rewrite mul_cprod. cbn [bind]. destruct (cprod (f i j) s). reflexivity.
  - intros i j _ _ [[A B]|[[A B]|[A [B D]]]]; [apply cprod_infinite_l|apply cprod_infinite_r|apply cprod_overflow]; assumption.
Qed.

(** *** dot products *)
Fixpoint cdot (m : nat) (a b : nat -> fl * fl) : fl * fl :=
  match m with
  | O => (B754_zero false, B754_zero false)
  | S m => (fst (cdot m a b) ⊕ fst (cprod (a m) (b m)), snd (cdot m a b) ⊕ snd (cprod (a m) (b m)))
  end.

Lemma dot_cdot m (a b : nat -> fl * fl) : dot C m a b = Ok (cdot m a b).
Proof.
  induction m as [|m IH].
  - reflexivity.
  - unfold dot. rewrite for_snoc by lia. unfold dot in IH. rewrite IH.
    cbn [bind]. rewrite mul_cprod. reflexivity.
Qed.

Lemma mult_complex n m p (f g : nat -> nat -> fl * fl) :
  mult C n m p (mk n m f) (mk m p g) = Ok (mk n p (fun i j => cdot m (fun k => f i k) (fun k => g k j))).
Proof.
  etransitivity; [exact (@mult_tab C n m p f g)|]. apply tabM_ok. intros i j _ _. apply dot_cdot.
Qed.

(** ** accuracy of the product *)
Section Sum.
Variables (t : nat -> fl) (x y : nat -> R).
Fixpoint acc (m : nat) : fl := match m with O => B754_zero false | S m => acc m ⊕ t m end.

Lemma acc_error m :
  (forall k, k < m -> is_finite (t k) = true ->
     (Rabs (B2R (t k) - x k) <= ((1 + u) ^ 2 - 1) * y k + 2 * h * (1 + u) /\ Rabs (x k) <= y k)%R) ->
  is_finite (acc m) = true ->
  (Rabs (B2R (acc m) - rsum m x) <= ((1 + u) ^ (m + 2) - 1) * rsum m y + 2 * INR m * h * (1 + u) ^ (m + 1) /\
   Rabs (rsum m x) <= rsum m y)%R.
Proof.
  pose proof (uro_pos prec) as U. pose proof (eta_pos prec emax) as H0.
  induction m as [|m IH]; intros Ht F.
  - rewrite !rsum_0. simpl. rewrite Rminus_0_r, Rabs_R0. split; [|lra]. nra.
  - simpl acc in *. destruct (Bplus_finite prec emax _ _ F) as [F1 [F2 E]].
    destruct (IH (fun k Hk => Ht k ltac:(lia)) F1) as [I1 I2]. destruct (Ht m ltac:(lia) F2) as [T1 T2].
    rewrite !rsum_S. split; [|eapply Rle_trans; [apply Rabs_triang|lra]].
    destruct (rnd_plus prec emax (acc m) (t m)) as [d [Hd Ed]]. rewrite E, Ed.
    set (P := ((1 + u) ^ (m + 2))%R) in *. set (Q := ((1 + u) ^ (m + 1))%R) in *.
    assert (EP : ((1 + u) ^ (S m + 2) = (1 + u) * P)%R) by reflexivity.
    assert (EQ : ((1 + u) ^ (S m + 1) = (1 + u) * Q)%R) by reflexivity.
    assert (P2 : ((1 + u) ^ 2 <= P)%R) by (apply (pow1u_mono prec); lia).
    assert (Q1 : ((1 + u) <= Q)%R).
    { rewrite <- (pow_1 (1 + u)) at 1. apply (pow1u_mono prec). lia. }
    rewrite EP, EQ, S_INR.
    set (am := B2R (acc m)) in *. set (tm := B2R (t m)) in *. set (X := rsum m x) in *. set (Y := rsum m y) in *.
    set (xm := x m) in *. set (ym := y m) in *.
    replace ((am + tm) * (1 + d) - (X + xm))%R with (((am - X) + (tm - xm)) * (1 + d) + d * (X + xm))%R by ring.
    eapply Rle_trans; [apply Rabs_triang|]. rewrite !Rabs_mult.
    assert (D1 : (Rabs (1 + d) <= 1 + u)%R) by (eapply Rle_trans; [apply Rabs_triang|rewrite Rabs_R1; lra]).
    pose proof (Rabs_triang (am - X) (tm - xm)) as T3. pose proof (Rabs_triang X xm) as T4.
    assert (Y0 : (0 <= Y)%R) by (pose proof (Rabs_pos X); lra). assert (y0 : (0 <= ym)%R) by (pose proof (Rabs_pos xm); lra).
    assert (S1 : (Rabs (am - X + (tm - xm)) * Rabs (1 + d) <=
       (((P - 1) * Y + 2 * INR m * h * Q) + (((1 + u) ^ 2 - 1) * ym + 2 * h * (1 + u))) * (1 + u))%R).
    { apply Rmult_le_compat; try apply Rabs_pos; lra. }
    assert (S2 : (Rabs d * Rabs (X + xm) <= u * (Y + ym))%R).
    { apply Rmult_le_compat; try apply Rabs_pos; lra. }
    assert (S3 : (((1 + u) ^ 2 - 1) * ym <= (P - 1) * ym)%R) by (apply Rmult_le_compat_r; lra).
    assert (S4 : (2 * h * (1 + u) <= 2 * h * Q)%R) by (apply Rmult_le_compat_l; lra).
    assert (S5 : ((((1 + u) ^ 2 - 1) * ym + 2 * h * (1 + u)) * (1 + u) <= ((P - 1) * ym + 2 * h * Q) * (1 + u))%R)
      by (apply Rmult_le_compat_r; lra).
    replace (((1 + u) * P - 1) * (Y + ym))%R with (((P - 1) * Y + (P - 1) * ym) * (1 + u) + u * (Y + ym))%R by ring.
    replace (2 * (INR m + 1) * h * ((1 + u) * Q))%R with ((2 * INR m * h * Q + 2 * h * Q) * (1 + u))%R by ring.
    lra.
Qed.
End Sum.

Lemma diff_error (a b c d : fl) : is_finite (a ⊗ c ⊖ b ⊗ d) = true ->
  (Rabs (B2R (a ⊗ c ⊖ b ⊗ d) - (B2R a * B2R c - B2R b * B2R d)) <=
   ((1 + u) ^ 2 - 1) * (Rabs (B2R a * B2R c) + Rabs (B2R b * B2R d)) + 2 * h * (1 + u))%R.
Proof.
  intros F. apply (det2_error prec emax a b d c); [apply (det2_fl prec emax)|exact F].
Qed.

Lemma plus_error (a b c d : fl) : is_finite (a ⊗ d ⊕ b ⊗ c) = true ->
  (Rabs (B2R (a ⊗ d ⊕ b ⊗ c) - (B2R a * B2R d + B2R b * B2R c)) <=
   ((1 + u) ^ 2 - 1) * (Rabs (B2R a * B2R d) + Rabs (B2R b * B2R c)) + 2 * h * (1 + u))%R.
Proof.
  intros F. assert (E : a ⊗ d ⊕ b ⊗ c = a ⊗ d ⊖ Bopp b ⊗ c).
  { rewrite (mul_opp_l prec emax), (sub_add_opp prec emax), Bopp_involutive. reflexivity. }
  rewrite E in *. pose proof (diff_error a (Bopp b) d c F) as D. rewrite B2R_Bopp in D.
  replace (B2R a * B2R d + B2R b * B2R c)%R with (B2R a * B2R d - - B2R b * B2R c)%R by ring.
  rewrite <- (Rabs_Ropp (B2R b * B2R c)). replace (- (B2R b * B2R c))%R with (- B2R b * B2R c)%R by ring. exact D.
Qed.

(** real and imaginary part of an exact product, and the sizes of its terms *)
Definition re_of (z w : fl * fl) : R := (B2R (fst z) * B2R (fst w) - B2R (snd z) * B2R (snd w))%R.
Definition im_of (z w : fl * fl) : R := (B2R (fst z) * B2R (snd w) + B2R (snd z) * B2R (fst w))%R.
Definition re_size (z w : fl * fl) : R := (Rabs (B2R (fst z) * B2R (fst w)) + Rabs (B2R (snd z) * B2R (snd w)))%R.
Definition im_size (z w : fl * fl) : R := (Rabs (B2R (fst z) * B2R (snd w)) + Rabs (B2R (snd z) * B2R (fst w)))%R.

Lemma cdot_re m a b : fst (cdot m a b) = acc (fun k => fst (cprod (a k) (b k))) m.
Proof. induction m as [|m IH]; [reflexivity|]. cbn [cdot fst acc]. rewrite IH. reflexivity. Qed.
Lemma cdot_im m a b : snd (cdot m a b) = acc (fun k => snd (cprod (a k) (b k))) m.
Proof. induction m as [|m IH]; [reflexivity|]. cbn [cdot snd acc]. rewrite IH. reflexivity. Qed.

Theorem c99_mult_error n m p (f g : nat -> nat -> fl * fl) : exists c,
  mult C n m p (mk n m f) (mk m p g) = Ok (mk n p c) /\
  forall i j, i < n -> j < p ->
  (is_finite (fst (c i j)) = true ->
   (Rabs (B2R (fst (c i j)) - rsum m (fun k => re_of (f i k) (g k j))) <=
    ((1 + u) ^ (m + 2) - 1) * rsum m (fun k => re_size (f i k) (g k j)) + 2 * INR m * h * (1 + u) ^ (m + 1))%R) /\
  (is_finite (snd (c i j)) = true ->
   (Rabs (B2R (snd (c i j)) - rsum m (fun k => im_of (f i k) (g k j))) <=
    ((1 + u) ^ (m + 2) - 1) * rsum m (fun k => im_size (f i k) (g k j)) + 2 * INR m * h * (1 + u) ^ (m + 1))%R).
Proof.
  eexists. split; [apply mult_complex|]. intros i j Hi Hj. cbv beta. rewrite cdot_re, cdot_im. split; intros F.
  - refine (proj1 (acc_error _ _ _ m _ F)). intros k Hk Fk. cbv beta in *. pose proof (cprod_re _ _ Fk) as E. rewrite E in Fk |- *.
    split; [apply diff_error; exact Fk|].
    unfold re_of, re_size, Rminus. eapply Rle_trans; [apply Rabs_triang|]. rewrite Rabs_Ropp. lra.
  - refine (proj1 (acc_error _ _ _ m _ F)). intros k Hk Fk. cbv beta in *. pose proof (cprod_im _ _ Fk) as E. rewrite E in Fk |- *.
    split; [apply plus_error; exact Fk|]. unfold im_of, im_size. apply Rabs_triang.
Qed.
End Complex.

Print Assumptions c99_infinity.
Print Assumptions c99_mult_error.
