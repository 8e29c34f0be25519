(** * C99: complex matrices with real, integer and conjugate elements *)

From Coq Require Import ZArith Reals Lra Lia Bool List Arith.
Import ListNotations.
From Flocq Require Import IEEE754.BinarySingleNaN Core.Core.
From Verif Require Import Base Scalar Model Spec Loops Struct CFloat CComplex Float FloatMx FloatDet FloatSign Param ParamInst RingOps PropComplexF.

Section Complex.
Variables prec emax : Z.
Context {Hp : Prec_gt_0 prec} {He : Prec_lt_emax prec emax}.
Variables (ns : bool) (o : rest (floatS prec emax)).
Notation fl := (binary_float prec emax).
Notation K := (floatS prec emax).
Notation C := (cfloatS prec emax ns o).
Notation "x ⊕ y" := (Bplus mode_NE x y) (at level 50, left associativity).
Notation "x ⊖ y" := (Bminus mode_NE x y) (at level 50, left associativity).
Notation "x ⊗ y" := (Bmult mode_NE x y) (at level 40, left associativity).
Notation eqz := (eqz prec emax).
Notation zero s := (@B754_zero prec emax s).
Notation plain := (plain prec emax).
Notation cprod := (cprod prec emax ns).

Lemma add_zero_z (x : fl) s : eqz (x ⊕ zero s) x.
Proof. destruct x as [t|t| |t m e B]; try (left; reflexivity). right. destruct s, t; simpl; eauto. Qed.
Lemma sub_zero_z (x : fl) s : eqz (x ⊖ zero s) x.
Proof. destruct x as [t|t| |t m e B]; try (left; reflexivity). right. destruct s, t; simpl; eauto. Qed.
Lemma mul_zero_z (x : fl) s : is_finite x = true -> eqz (x ⊗ zero s) (zero false).
Proof. destruct x; try discriminate; right; simpl; eauto. Qed.
Lemma mul_zero_zl (x : fl) s : is_finite x = true -> eqz (zero s ⊗ x) (zero false).
Proof. destruct x; try discriminate; right; simpl; eauto. Qed.

(** ** real elements *)
(** [z] is the real number [x], unless [x] is infinite or NaN (zeros may differ in sign) *)
Definition realz (x : fl) (z : fl * fl) : Prop :=
  is_finite x = true -> eqz x (fst z) /\ eqz (zero false) (snd z).

Lemma realz_embed x s : realz x (x, zero s).
Proof. intros _. split; [apply eqz_refl|right; exists false, s; split; reflexivity]. Qed.

Lemma realz_mul x y z w : realz x z -> realz y w -> realz (x ⊗ y) (cprod z w).
Proof.
  intros Hx Hy F. destruct (Bmult_finite prec emax _ _ F) as [Fx [Fy _]].
  destruct (Hx Fx) as [X1 X2], (Hy Fy) as [Y1 Y2]. destruct z as [a b], w as [c d]. cbn [fst snd] in *.
  assert (E1 : eqz (x ⊗ y) (a ⊗ c ⊖ b ⊗ d)).
  { eapply eqz_trans; [|apply eqz_sub; [apply eqz_mul; eassumption|apply eqz_mul; eassumption]].
    apply eqz_sym. apply (sub_zero_z (x ⊗ y) false). }
  assert (P : cprod (a, b) (c, d) = plain (a, b) (c, d)).
  { apply cprod_plain_re. unfold PropComplexF.plain. cbn [fst snd]. rewrite <- (proj1 (eqz_finite prec emax _ _ E1)). exact F. }
  rewrite P. unfold PropComplexF.plain. cbn [fst snd]. split; [exact E1|].
  eapply eqz_trans; [|apply eqz_add; [apply eqz_mul; [exact X1|exact Y2]|apply eqz_mul; [exact X2|exact Y1]]].
  eapply eqz_trans; [|apply eqz_sym, eqz_add; [apply mul_zero_z, Fx|apply mul_zero_zl, Fy]]. apply eqz_refl.
Qed.

(** computing with complex numbers that are real gives, where the real computation
    stays finite, the real result (and imaginary parts that are zero) *)
Theorem c99_real : preserved K C realz.
Proof.
  apply (preserved_intro K C realz realz).
  - intros a [a1 a2] H. exact H.
  - intros a [a1 a2] H. exact H.
  - intros _. split; left; reflexivity.
  - intros _. split; left; reflexivity.
  - intros x z y w Hx Hy. apply ref_ok. intros F. destruct (Bplus_finite prec emax _ _ F) as [Fx [Fy _]].
    destruct (Hx Fx), (Hy Fy). split; cbn [fst snd]; [apply eqz_add; assumption|].
    eapply eqz_trans; [|apply eqz_add; eassumption]. apply eqz_refl.
  - intros x z y w Hx Hy. apply ref_ok. intros F. destruct (Bminus_finite prec emax _ _ F) as [Fx [Fy _]].
    destruct (Hx Fx), (Hy Fy). split; cbn [fst snd]; [apply eqz_sub; assumption|].
    eapply eqz_trans; [|apply eqz_sub; eassumption]. apply eqz_refl.
  - intros x z y w Hx Hy. apply ref_ok. apply realz_mul; assumption.
Qed.

(** ** the conjugate *)
(** [w] is the conjugate of [z] (zeros may differ in sign) *)
Definition conjz (z w : fl * fl) : Prop := eqz (fst z) (fst w) /\ eqz (snd z) (Bopp (snd w)).

Lemma conjz_conj z : conjz z (fst z, Bopp (snd z)).
Proof. split; cbn [fst snd]; rewrite ?Bopp_involutive; apply eqz_refl. Qed.

Lemma eqz_inf x y : eqz x y -> is_inf prec emax x = is_inf prec emax y.
Proof. intros [->|[s [s' [-> ->]]]]; reflexivity. Qed.
Lemma eqz_nan x y : eqz x y -> is_nan x = is_nan y.
Proof. intros [->|[s [s' [-> ->]]]]; reflexivity. Qed.
Lemma opp_inf (x : fl) : is_inf prec emax (Bopp x) = is_inf prec emax x.
Proof. destruct x; reflexivity. Qed.
Lemma opp_nan (x : fl) : is_nan (Bopp x) = is_nan x.
Proof. destruct x; reflexivity. Qed.
Lemma eqz_boxed x y : eqz x y -> eqz (boxed prec emax ns (is_inf prec emax x) x) (boxed prec emax ns (is_inf prec emax y) y).
Proof.
  intros [->|[s [s' [-> ->]]]]; [apply eqz_refl|]. right. destruct s, s'; cbn; eauto.
Qed.
Lemma opp_boxed x : eqz (boxed prec emax ns (is_inf prec emax (Bopp x)) (Bopp x)) (Bopp (boxed prec emax ns (is_inf prec emax x) x)).
Proof.
  destruct x as [s|s| |s m e B]; unfold boxed; cbn [is_inf Bopp is_nan Bsign].
  - right. destruct s; cbn; eauto.
  - left. destruct s; cbn [negb]; rewrite ?Bopp_involutive; reflexivity.
  - right. destruct ns; cbn; eauto.
  - right. destruct s; cbn; eauto.
Qed.
Lemma eqz_nan0 x y : eqz x y -> eqz (nan0 prec emax ns x) (nan0 prec emax ns y).
Proof.
  intros [->|[s [s' [-> ->]]]]; [apply eqz_refl|]. right. cbn. eauto.
Qed.
Lemma opp_nan0 x : eqz (nan0 prec emax ns (Bopp x)) (Bopp (nan0 prec emax ns x)).
Proof.
  destruct x as [s|s| |s m e B]; unfold nan0, boxed; cbn [is_inf Bopp is_nan Bsign]; try (left; reflexivity).
  right. destruct ns; cbn; eauto.
Qed.
Lemma mul_inf_opp (x : fl) : B754_infinity false ⊗ Bopp x = Bopp (B754_infinity false ⊗ x).
Proof. apply mul_opp_r. Qed.

Definition conj4 (p q : fl * fl * fl * fl) : Prop :=
  let '(a, b, c, d) := p in let '(a', b', c', d') := q in
  eqz a a' /\ eqz b (Bopp b') /\ eqz c c' /\ eqz d (Bopp d').

Lemma box_opp b b' : eqz b (Bopp b') ->
  eqz (boxed prec emax ns (is_inf prec emax b) b) (Bopp (boxed prec emax ns (is_inf prec emax b') b')).
Proof. intros H. eapply eqz_trans; [apply eqz_boxed, H|apply opp_boxed]. Qed.
Lemma nan0_opp b b' : eqz b (Bopp b') -> eqz (nan0 prec emax ns b) (Bopp (nan0 prec emax ns b')).
Proof. intros H. eapply eqz_trans; [apply eqz_nan0, H|apply opp_nan0]. Qed.
Lemma inf_opp b b' : eqz b (Bopp b') -> is_inf prec emax b = is_inf prec emax b'.
Proof. intros H. rewrite (eqz_inf _ _ H). apply opp_inf. Qed.

Lemma conjz_plain z w z' w' : conjz z z' -> conjz w w' -> conjz (plain z w) (plain z' w').
Proof.
  intros [A B] [D E]. destruct z as [a b], w as [c d], z' as [a' b'], w' as [c' d'].
  unfold conjz, PropComplexF.plain. cbn [fst snd] in *. split.
  - eapply eqz_trans; [apply eqz_sub; apply eqz_mul; eassumption|].
    rewrite (mul_opp_opp prec emax). apply eqz_refl.
  - eapply eqz_trans; [apply eqz_add; apply eqz_mul; eassumption|].
    rewrite (mul_opp_r prec emax), (mul_opp_l prec emax). apply add_opp_opp.
Qed.

Lemma conjz_prod z w z' w' : conjz z z' -> conjz w w' -> conjz (cprod z w) (cprod z' w').
Proof.
  intros HZ HW. pose proof (conjz_plain _ _ _ _ HZ HW) as HP. unfold PropComplexF.cprod, annex_g.
  destruct HP as [P1 P2]. rewrite (eqz_nan _ _ P1), (eqz_nan _ _ P2), opp_nan.
  destruct (is_nan (fst (plain z' w')) && is_nan (snd (plain z' w'))); [|split; assumption].
  destruct z as [a b], w as [c d], z' as [a' b'], w' as [c' d']. destruct HZ as [A B], HW as [D E]. cbn [fst snd] in A, B, D, E |- *.
  rewrite (eqz_inf _ _ A), (inf_opp _ _ B).
  set (i1 := (is_inf prec emax a' || is_inf prec emax b')%bool).
  assert (S1 : conj4 (if i1 then (boxed prec emax ns (is_inf prec emax a') a, boxed prec emax ns (is_inf prec emax b') b, nan0 prec emax ns c, nan0 prec emax ns d) else (a, b, c, d))
                     (if i1 then (boxed prec emax ns (is_inf prec emax a') a', boxed prec emax ns (is_inf prec emax b') b', nan0 prec emax ns c', nan0 prec emax ns d') else (a', b', c', d'))).
  { destruct i1; [|repeat split; assumption]. rewrite <- (eqz_inf _ _ A) at 1. rewrite <- (inf_opp _ _ B) at 1.
    split; [apply eqz_boxed, A|]. split; [apply box_opp, B|]. split; [apply eqz_nan0, D|apply nan0_opp, E]. }
  destruct (if i1 then (boxed _ _ _ _ a, _, _, _) else _) as [[[a1 b1] c1] d1].
  destruct (if i1 then (boxed _ _ _ _ a', _, _, _) else _) as [[[a1' b1'] c1'] d1'].
  destruct S1 as [A1 [B1 [D1 E1]]].
  rewrite (eqz_inf _ _ D1), (inf_opp _ _ E1).
  set (i2 := (is_inf prec emax c1' || is_inf prec emax d1')%bool).
  assert (S2 : conj4 (if i2 then (nan0 prec emax ns a1, nan0 prec emax ns b1, boxed prec emax ns (is_inf prec emax c1') c1, boxed prec emax ns (is_inf prec emax d1') d1) else (a1, b1, c1, d1))
                     (if i2 then (nan0 prec emax ns a1', nan0 prec emax ns b1', boxed prec emax ns (is_inf prec emax c1') c1', boxed prec emax ns (is_inf prec emax d1') d1') else (a1', b1', c1', d1'))).
  { destruct i2; [|repeat split; assumption]. rewrite <- (eqz_inf _ _ D1) at 1. rewrite <- (inf_opp _ _ E1) at 1.
    split; [apply eqz_nan0, A1|]. split; [apply nan0_opp, B1|]. split; [apply eqz_boxed, D1|apply box_opp, E1]. }
  destruct (if i2 then (_, _, _, boxed _ _ _ _ d1) else _) as [[[a2 b2] c2] d2].
  destruct (if i2 then (_, _, _, boxed _ _ _ _ d1') else _) as [[[a2' b2'] c2'] d2'].
  destruct S2 as [A2 [B2 [D2 E2]]].
  assert (J1 : is_inf prec emax (a ⊗ c) = is_inf prec emax (a' ⊗ c')) by (apply eqz_inf, eqz_mul; assumption).
  assert (J2 : is_inf prec emax (b ⊗ d) = is_inf prec emax (b' ⊗ d')).
  { rewrite (eqz_inf _ _ (eqz_mul prec emax _ _ _ _ B E)), (mul_opp_opp prec emax). reflexivity. }
  assert (J3 : is_inf prec emax (a ⊗ d) = is_inf prec emax (a' ⊗ d')).
  { rewrite (eqz_inf _ _ (eqz_mul prec emax _ _ _ _ A E)), (mul_opp_r prec emax). apply opp_inf. }
  assert (J4 : is_inf prec emax (b ⊗ c) = is_inf prec emax (b' ⊗ c')).
  { rewrite (eqz_inf _ _ (eqz_mul prec emax _ _ _ _ B D)), (mul_opp_l prec emax). apply opp_inf. }
  rewrite J1, J2, J3, J4.
  set (i3 := (negb (i1 || i2) && _)%bool).
  assert (S3 : conj4 (if i3 then (nan0 prec emax ns a2, nan0 prec emax ns b2, nan0 prec emax ns c2, nan0 prec emax ns d2) else (a2, b2, c2, d2))
                     (if i3 then (nan0 prec emax ns a2', nan0 prec emax ns b2', nan0 prec emax ns c2', nan0 prec emax ns d2') else (a2', b2', c2', d2'))).
  { destruct i3; [|repeat split; assumption].
    split; [apply eqz_nan0, A2|]. split; [apply nan0_opp, B2|]. split; [apply eqz_nan0, D2|apply nan0_opp, E2]. }
  destruct (if i3 then (nan0 _ _ _ a2, _, _, _) else _) as [[[a3 b3] c3] d3].
  destruct (if i3 then (nan0 _ _ _ a2', _, _, _) else _) as [[[a3' b3'] c3'] d3'].
  destruct S3 as [A3 [B3 [D3 E3]]].
  destruct (i1 || i2 || i3)%bool; [|split; assumption].
  destruct (conjz_plain (a3, b3) (c3, d3) (a3', b3') (c3', d3')) as [Q1 Q2]; [split; assumption|split; assumption|].
  unfold PropComplexF.plain in Q1, Q2. cbn [fst snd] in Q1, Q2. split; cbn [fst snd].
  - apply eqz_mul; [apply eqz_refl|exact Q1].
  - eapply eqz_trans; [apply eqz_mul; [apply eqz_refl|exact Q2]|]. rewrite mul_inf_opp. apply eqz_refl.
Qed.

(** the functions commute with conjugation, infinities and NaNs included *)
Theorem c99_conj : preserved C C conjz.
Proof.
  apply (preserved_intro C C conjz conjz).
  - intros [a b] [c d] H. exact H.
  - intros [a b] [c d] H. exact H.
  - split; [left; reflexivity|right; cbn; eauto].
  - split; [left; reflexivity|right; cbn; eauto].
  - intros [a b] [a' b'] [c d] [c' d'] [A B] [D E]. apply ref_ok. split; cbn [fst snd] in *; [apply eqz_add; assumption|].
    eapply eqz_trans; [apply eqz_add; eassumption|apply add_opp_opp].
  - intros [a b] [a' b'] [c d] [c' d'] [A B] [D E]. apply ref_ok. split; cbn [fst snd] in *; [apply eqz_sub; assumption|].
    eapply eqz_trans; [apply eqz_sub; eassumption|apply sub_opp_opp].
  - intros z z' w w' HZ HW. apply ref_ok. apply conjz_prod; assumption.
Qed.

(** ** Gaussian integers *)
(** exact integers as parts, undefined as soon as one exceeds [B] *)
Section Gauss.
Variables (B : Z) (og : rest (boundedS B)).
Hypothesis HB : (1 <= B <= 2 ^ prec)%Z.
Notation G := (complexS (boundedS B) no_fix og).

(** [w] is the Gaussian integer [z], parts of absolute value at most [B] *)
Definition gaussz (z : Z * Z) (w : fl * fl) : Prop :=
  relB prec emax B (fst z) (fst w) /\ relB prec emax B (snd z) (snd w).

Lemma relB_fin a x : relB prec emax B a x -> is_finite x = true.
Proof. intros [[F _] _]. exact F. Qed.

Lemma gauss_mul z w z' w' : gaussz z z' -> gaussz w w' -> refines gaussz (c_mul (boundedS B) no_fix z w) (Ok (cprod z' w')).
Proof.
  intros [A1 A2] [B1 B2]. destruct z as [a b], w as [c d], z' as [a' b'], w' as [c' d']. cbn [fst snd] in *. unfold c_mul.
  pose proof (B_mul prec emax B HB _ _ _ _ A1 B1) as M1. pose proof (B_mul prec emax B HB _ _ _ _ A2 B2) as M2.
  pose proof (B_mul prec emax B HB _ _ _ _ A1 B2) as M3. pose proof (B_mul prec emax B HB _ _ _ _ A2 B1) as M4.
  cbn [fst snd].
  destruct (@xmul (boundedS B) a c) as [m1|e| |v|]; try discriminate; try exact Logic.I. destruct M1 as [x1 [E1 R1]]. injection E1 as <-.
  destruct (@xmul (boundedS B) b d) as [m2|e| |v|]; try discriminate; try exact Logic.I. destruct M2 as [x2 [E2 R2]]. injection E2 as <-.
  destruct (@xmul (boundedS B) a d) as [m3|e| |v|]; try discriminate; try exact Logic.I. destruct M3 as [x3 [E3 R3]]. injection E3 as <-.
  destruct (@xmul (boundedS B) b c) as [m4|e| |v|]; try discriminate; try exact Logic.I. destruct M4 as [x4 [E4 R4]]. injection E4 as <-.
  cbn [bind].
  pose proof (B_sub prec emax B HB _ _ _ _ R1 R2) as S1. pose proof (B_add prec emax B HB _ _ _ _ R3 R4) as S2.
  destruct (@xsub (boundedS B) m1 m2) as [r|e| |v|]; try discriminate; try exact Logic.I. destruct S1 as [y1 [E1 T1]]. injection E1 as <-.
  destruct (@xadd (boundedS B) m3 m4) as [i|e| |v|]; try discriminate; try exact Logic.I. destruct S2 as [y2 [E2 T2]]. injection E2 as <-.
  cbn [bind]. apply ref_ok. rewrite cprod_plain_re; [split; assumption|]. exact (relB_fin _ _ T1).
Qed.

(** as long as the parts of every intermediate result stay within 2^prec,
    floating point computes with Gaussian integers exactly *)
Theorem c99_gauss : preserved G C gaussz.
Proof.
  apply (preserved_intro G C gaussz gaussz).
  - intros [a b] [c d] H. exact H.
  - intros [a b] [c d] H. exact H.
  - split; cbn [fst snd]; apply (B_0 prec emax B HB).
  - split; cbn [fst snd]; [apply (B_1 prec emax B HB)|apply (B_0 prec emax B HB)].
  - intros [a b] [a' b'] [c d] [c' d'] [A1 A2] [B1 B2]. cbn [fst snd] in *.
    eapply ref_bind; [exact (B_add prec emax B HB _ _ _ _ A1 B1)|]. intros.
    eapply ref_bind; [exact (B_add prec emax B HB _ _ _ _ A2 B2)|]. intros. apply ref_ok. split; assumption.
  - intros [a b] [a' b'] [c d] [c' d'] [A1 A2] [B1 B2]. cbn [fst snd] in *.
    eapply ref_bind; [exact (B_sub prec emax B HB _ _ _ _ A1 B1)|]. intros.
    eapply ref_bind; [exact (B_sub prec emax B HB _ _ _ _ A2 B2)|]. intros. apply ref_ok. split; assumption.
  - intros. apply gauss_mul; assumption.
Qed.
End Gauss.

Lemma abs_step_sub (s x y A c : Z) : (Z.abs s <= A -> Z.abs x <= c -> Z.abs y <= c -> Z.abs (s + (x - y)) <= A + 2 * c)%Z.
Proof. lia. Qed.
Lemma abs_step_add (s x y A c : Z) : (Z.abs s <= A -> Z.abs x <= c -> Z.abs y <= c -> Z.abs (s + (x + y)) <= A + 2 * c)%Z.
Proof. lia. Qed.
Lemma abs_sub2 (x y c : Z) : (Z.abs x <= c -> Z.abs y <= c -> Z.abs (x - y) <= 2 * c)%Z.
Proof. lia. Qed.
Lemma abs_add2 (x y c : Z) : (Z.abs x <= c -> Z.abs y <= c -> Z.abs (x + y) <= 2 * c)%Z.
Proof. lia. Qed.

(** a bound on the elements under which that is the case for a product *)
Theorem c99_gauss_mult n m p (fr fi gr gi : nat -> nat -> Z) (f g : nat -> nat -> fl * fl) a b :
  (forall i k, i < n -> k < m -> (Z.abs (fr i k) <= a)%Z /\ (Z.abs (fi i k) <= a)%Z /\
     rep prec emax (fr i k) (fst (f i k)) /\ rep prec emax (fi i k) (snd (f i k))) ->
  (forall k j, k < m -> j < p -> (Z.abs (gr k j) <= b)%Z /\ (Z.abs (gi k j) <= b)%Z /\
     rep prec emax (gr k j) (fst (g k j)) /\ rep prec emax (gi k j) (snd (g k j))) ->
  (2 * Z.of_nat m * a * b <= 2 ^ prec)%Z ->
  exists c, mult C n m p (mk n m f) (mk m p g) = Ok (mk n p c) /\
  forall i j, i < n -> j < p ->
    rep prec emax (zsum m (fun k => fr i k * gr k j - fi i k * gi k j)%Z) (fst (c i j)) /\
    rep prec emax (zsum m (fun k => fr i k * gi k j + fi i k * gr k j)%Z) (snd (c i j)).
Proof.
  intros Hf Hg HB. eexists. split; [apply mult_complex|]. intros i j Hi Hj. cbv beta.
  assert (G : forall q, q <= m ->
    rep prec emax (zsum q (fun k => fr i k * gr k j - fi i k * gi k j)%Z) (fst (cdot prec emax ns q (fun k => f i k) (fun k => g k j))) /\
    rep prec emax (zsum q (fun k => fr i k * gi k j + fi i k * gr k j)%Z) (snd (cdot prec emax ns q (fun k => f i k) (fun k => g k j))) /\
    (Z.abs (zsum q (fun k => fr i k * gr k j - fi i k * gi k j)) <= 2 * Z.of_nat q * a * b)%Z /\
    (Z.abs (zsum q (fun k => fr i k * gi k j + fi i k * gr k j)) <= 2 * Z.of_nat q * a * b)%Z).
  { induction q as [|q IH]; intros Hq.
    - cbn [zsum cdot fst snd]. repeat split; cbn; lia.
    - destruct IH as [I1 [I2 [I3 I4]]]; [lia|]. cbn [zsum cdot fst snd].
      destruct (Hf i q Hi ltac:(lia)) as [F1 [F2 [F3 F4]]]. destruct (Hg q j ltac:(lia) Hj) as [G1 [G2 [G3 G4]]].
      assert (M : forall x y, (Z.abs x <= a -> Z.abs y <= b -> Z.abs (x * y) <= a * b)%Z) by (intros; rewrite Z.abs_mul; nia).
      pose proof (M _ _ F1 G1) as M1. pose proof (M _ _ F2 G2) as M2. pose proof (M _ _ F1 G2) as M3. pose proof (M _ _ F2 G1) as M4.
      clear M. assert (AB : (0 <= a * b)%Z) by lia.
      assert (Q1 : (2 * Z.of_nat (S q) * a * b <= 2 * Z.of_nat m * a * b)%Z).
      { rewrite <- !Z.mul_assoc. apply Z.mul_le_mono_nonneg_l; [lia|]. apply Z.mul_le_mono_nonneg_r; lia. }
      assert (Q2 : (2 * Z.of_nat (S q) * a * b = 2 * Z.of_nat q * a * b + 2 * (a * b))%Z) by (rewrite Nat2Z.inj_succ; ring).
      assert (Q3 : (0 <= 2 * Z.of_nat q * a * b)%Z) by (rewrite <- Z.mul_assoc; apply Z.mul_nonneg_nonneg; lia).
      pose proof (abs_step_sub _ _ _ _ _ I3 M1 M2) as T1. pose proof (abs_step_add _ _ _ _ _ I4 M3 M4) as T2.
      pose proof (abs_sub2 _ _ _ M1 M2) as T3. pose proof (abs_add2 _ _ _ M3 M4) as T4.
      rewrite <- Q2 in T1, T2. assert (L2 : (2 * (a * b) <= 2 ^ prec)%Z) by (clear - Q1 Q2 Q3 HB; lia).
      assert (L1 : (a * b <= 2 ^ prec)%Z) by (clear - L2 AB; lia).
      pose proof (Z.le_trans _ _ _ Q1 HB) as L3. clear Q1 Q2 Q3.
      assert (R1 : rep prec emax (fr i q * gr q j - fi i q * gi q j) (fst (plain (f i q) (g q j)))).
      { unfold PropComplexF.plain. cbn [fst].
        apply rep_sub; [apply rep_mul|apply rep_mul|]; try assumption; eapply Z.le_trans; eassumption. }
      assert (R2 : rep prec emax (fr i q * gi q j + fi i q * gr q j) (snd (plain (f i q) (g q j)))).
      { unfold PropComplexF.plain. cbn [snd].
        apply rep_add; [apply rep_mul|apply rep_mul|]; try assumption; eapply Z.le_trans; eassumption. }
      rewrite (cprod_plain_re prec emax ns _ _ (proj1 R1)).
      split; [apply rep_add; try assumption; eapply Z.le_trans; eassumption|].
      split; [apply rep_add; try assumption; eapply Z.le_trans; eassumption|]. split; assumption. }
  destruct (G m (le_n m)) as [G1 [G2 _]]. split; assumption.
Qed.

(** ** the identity matrix *)
Definition eqzz (z w : fl * fl) : Prop := eqz (fst z) (fst w) /\ eqz (snd z) (snd w).
Definition cfinite (z : fl * fl) : Prop := is_finite (fst z) = true /\ is_finite (snd z) = true.
Notation one := (f_of_Z prec emax 1).

Lemma eqzz_zero_add x y : eqz x (zero false) -> eqz y (zero false) -> eqz (x ⊕ y) (zero false).
Proof. intros Hx Hy. eapply eqz_trans; [apply eqz_add; eassumption|]. apply eqz_refl. Qed.
Lemma eqzz_zero_sub x y : eqz x (zero false) -> eqz y (zero false) -> eqz (x ⊖ y) (zero false).
Proof. intros Hx Hy. eapply eqz_trans; [apply eqz_sub; eassumption|]. apply eqz_refl. Qed.

Lemma cprod_plain z w r : eqzz (plain z w) r -> cfinite r -> eqzz (cprod z w) r.
Proof.
  intros H [F _]. rewrite cprod_plain_re; [exact H|]. rewrite (proj1 (eqz_finite prec emax _ _ (proj1 H))). exact F.
Qed.

Lemma one_l z : cfinite z -> eqzz (cprod (one, zero false) z) z.
Proof.
  intros F. apply cprod_plain; [|exact F]. destruct z as [c d], F as [Fc Fd]. cbn [fst snd] in Fc, Fd. unfold PropComplexF.plain, eqzz. cbn [fst snd].
  rewrite !(Bmult_comm prec emax one), !Bmult_1_r. split.
  - eapply eqz_trans; [apply eqz_sub; [apply eqz_refl|apply mul_zero_zl, Fd]|]. apply sub_zero_z.
  - eapply eqz_trans; [apply eqz_add; [apply eqz_refl|apply mul_zero_zl, Fc]|]. apply add_zero_z.
Qed.
Lemma one_r z : cfinite z -> eqzz (cprod z (one, zero false)) z.
Proof.
  intros F. apply cprod_plain; [|exact F]. destruct z as [c d], F as [Fc Fd]. cbn [fst snd] in Fc, Fd. unfold PropComplexF.plain, eqzz. cbn [fst snd].
  rewrite !Bmult_1_r. split.
  - eapply eqz_trans; [apply eqz_sub; [apply eqz_refl|apply mul_zero_z, Fd]|]. apply sub_zero_z.
  - eapply eqz_trans; [apply eqz_add; [apply mul_zero_z, Fc|apply eqz_refl]|].
    destruct d as [s|s| |s m e B]; try discriminate; try (left; reflexivity). right. destruct s; cbn; eauto.
Qed.
Lemma zero_l z : cfinite z -> eqzz (cprod (zero false, zero false) z) (zero false, zero false).
Proof.
  intros F. apply cprod_plain; [|split; reflexivity]. destruct z as [c d], F as [Fc Fd]. cbn [fst snd] in Fc, Fd. unfold PropComplexF.plain, eqzz. cbn [fst snd].
  split; [apply eqzz_zero_sub|apply eqzz_zero_add]; apply mul_zero_zl; assumption.
Qed.
Lemma zero_r z : cfinite z -> eqzz (cprod z (zero false, zero false)) (zero false, zero false).
Proof.
  intros F. apply cprod_plain; [|split; reflexivity]. destruct z as [c d], F as [Fc Fd]. cbn [fst snd] in Fc, Fd. unfold PropComplexF.plain, eqzz. cbn [fst snd].
  split; [apply eqzz_zero_sub|apply eqzz_zero_add]; apply mul_zero_z; assumption.
Qed.

(** a sum with one term that is not zero *)
Lemma cdot_single m a b i0 v : 
  (forall k, k < m -> k <> i0 -> eqzz (cprod (a k) (b k)) (zero false, zero false)) ->
  (i0 < m -> eqzz (cprod (a i0) (b i0)) v) ->
  eqzz (cdot prec emax ns m a b) (if i0 <? m then v else (zero false, zero false)).
Proof.
  intros Hz Hv. induction m as [|m IH]; [split; apply eqz_refl|]. cbn [cdot].
  destruct IH as [I1 I2]; [intros; apply Hz; lia|intros; apply Hv; lia|].
  destruct (Nat.eq_dec i0 m) as [->|N].
  - rewrite Nat.ltb_irrefl in I1, I2. rewrite (proj2 (Nat.ltb_lt m (S m))) by lia.
    destruct (Hv ltac:(lia)) as [V1 V2]. cbn [fst snd] in *.
    split; cbn [fst snd]; (eapply eqz_trans; [apply eqz_add; eassumption|]);
      match goal with |- eqz (_ ⊕ ?x) _ => destruct x as [s|s| |s mm e B]; try (left; reflexivity); right; destruct s; cbn; eauto end.
  - destruct (Hz m ltac:(lia) ltac:(congruence)) as [V1 V2]. cbn [fst snd] in V1, V2.
    assert (E : (i0 <? S m) = (i0 <? m)) by (destruct (Nat.ltb_spec i0 m), (Nat.ltb_spec i0 (S m)); lia || reflexivity).
    rewrite E. split; cbn [fst snd]; (eapply eqz_trans; [apply eqz_add; eassumption|apply add_zero_z]).
Qed.

Theorem c99_eye n m (f : nat -> nat -> fl * fl) :
  (forall i j, i < n -> j < m -> cfinite (f i j)) ->
  (exists c, (let* E := eye1 C n in mult C n n m E (mk n m f)) = Ok (mk n m c) /\ forall i j, i < n -> j < m -> eqzz (c i j) (f i j)) /\
  (exists c, (let* E := eye1 C m in mult C n m m (mk n m f) E) = Ok (mk n m c) /\ forall i j, i < n -> j < m -> eqzz (c i j) (f i j)).
Proof.
  intros F. split.
  - eexists. split; [rewrite eye1_mk; apply mult_complex|]. intros i j Hi Hj. cbv beta.
    assert (H : eqzz (f i j) (if i <? n then f i j else (zero false, zero false))).
    { rewrite (proj2 (Nat.ltb_lt i n) Hi). split; apply eqz_refl. }
    rewrite (proj2 (Nat.ltb_lt i n) Hi) in H.
    pose proof (cdot_single n (fun k => if i =? k then (one, zero false) else (zero false, zero false)) (fun k => f k j) i (f i j)) as D.
    rewrite (proj2 (Nat.ltb_lt i n) Hi) in D. apply D.
    + intros k Hk N. rewrite (proj2 (Nat.eqb_neq i k)) by congruence. apply zero_l, F; assumption.
    + intros _. rewrite Nat.eqb_refl. apply one_l, F; assumption.
  - eexists. split; [rewrite eye1_mk; apply mult_complex|]. intros i j Hi Hj. cbv beta.
    pose proof (cdot_single m (fun k => f i k) (fun k => if k =? j then (one, zero false) else (zero false, zero false)) j (f i j)) as D.
    rewrite (proj2 (Nat.ltb_lt j m) Hj) in D. apply D.
    + intros k Hk N. rewrite (proj2 (Nat.eqb_neq k j)) by congruence. apply zero_r, F; assumption.
    + intros _. rewrite Nat.eqb_refl. apply one_r, F; assumption.
Qed.
End Complex.

(** ** examples in double precision *)
Section Examples.
Variables (ns : bool) (o : rest (floatS 53 1024)).
Notation C := (cfloatS 53 1024 ns o).
Notation d := (f_of_Z 53 1024).
Notation inf := (@B754_infinity 53 1024 false).
Notation nan := (@B754_nan 53 1024).
Notation zero := (@B754_zero 53 1024 false).

(** a real infinity does not stay real: (inf, 0) * (2, 0) = (inf, NaN) *)
Example c99_real_infinity_example :
  mult_scalar C 1 1 [[(inf, zero)]] (d 2, zero) = Ok [[(inf, nan)]].
Proof. vm_compute. reflexivity. Qed.
(** (inf, inf) * (1, 1): the formula gives (NaN, inf), which already is an infinity *)
Example c99_infinity_kept_example :
  mult_scalar C 1 1 [[(inf, inf)]] (d 1, d 1) = Ok [[(nan, inf)]].
Proof. vm_compute. reflexivity. Qed.
(** (inf, inf) * (inf, inf): likewise; (inf, NaN) * (1, 1): both parts NaN, recovered *)
Example c99_infinity_recovered_example :
  plain 53 1024 (inf, nan) (d 1, d 1) = (nan, nan) /\
  mult_scalar C 1 1 [[(inf, nan)]] (d 1, d 1) = Ok [[(inf, inf)]].
Proof. destruct ns; vm_compute; split; reflexivity. Qed.
(** (NaN, 2^1000) * (1, 2^100): 2^1000 * 2^100 overflows *)
Example c99_overflow_example :
  mult_scalar C 1 1 [[(nan, d (2 ^ 1000))]] (d 1, d (2 ^ 100)) = Ok [[(@B754_infinity 53 1024 true, inf)]].
Proof. destruct ns; vm_compute; reflexivity. Qed.
(** the parts of a 1x1 result *)
Definition is11 (r : outcome (matrix (binary_float 53 1024 * binary_float 53 1024))) x y : bool :=
  match r with Ok [[(a, b)]] => Beqb a x && Beqb b y | _ => false end.
(** Gaussian integers: (3 + 4i) * (5 - 2i) = 23 + 14i *)
Example c99_gauss_example : is11 (mult C 1 1 1 [[(d 3, d 4)]] [[(d 5, d (-2))]]) (d 23) (d 14) = true.
Proof. vm_compute. reflexivity. Qed.
(** rounding: (1 + 2^-30 i)^2 loses 2^-60 in the real part *)
Example c99_round_example :
  let e := Bdiv mode_NE (d 1) (d (2 ^ 30)) in
  is11 (mult C 1 1 1 [[(d 1, e)]] [[(d 1, e)]]) (d 1) (Bdiv mode_NE (d 1) (d (2 ^ 29))) = true.
Proof. vm_compute. reflexivity. Qed.
End Examples.

Print Assumptions c99_real.
Print Assumptions c99_conj.
Print Assumptions c99_gauss.
Print Assumptions c99_gauss_mult.
Print Assumptions c99_eye.
