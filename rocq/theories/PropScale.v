(** * C78, floating point: changing the unit, changing the sign *)

From Coq Require Import ZArith Reals Lra Lia Bool List Arith.
Import ListNotations.
From Flocq Require Import IEEE754.BinarySingleNaN Core.Core.
From Verif Require Import Base Scalar CFloat Model Spec Loops Struct Float FloatSign Param Graded FloatScale PropFloat.
Local Open Scope nat_scope.

(** the run is defined *)
Definition defined {A} (o : outcome A) : Prop := match o with UB _ | OutOfFuel => False | _ => True end.

(** both return, with related results, or both throw the same, or both terminate *)
Definition same_outcome {A B} (R : A -> B -> Prop) (o : outcome A) (o' : outcome B) : Prop :=
  match o, o' with
  | Ok a, Ok b => R a b
  | Throw e, Throw e' => e = e'
  | Terminate, Terminate => True
  | _, _ => False
  end.

Section Props.
Variables prec emax : Z.
Context {Hp : Prec_gt_0 prec} {He : Prec_lt_emax prec emax}.
Notation fl := (binary_float prec emax).
Notation F := (floatS prec emax).
Notation G := (rangeS prec emax).

(** ** powers of two *)

(** [x'] is exactly 2^d times [x] *)
Notation times2 d := (scaled prec emax d).
Definition mtimes2 (d : Z) : matrix fl -> matrix fl -> Prop := Forall2 (Forall2 (times2 d)).

Lemma sc_ld d a a' : times2 d a a' -> times2 d (@ld G a) (@ld G a'). Proof. exact (fun H => H). Qed.
Lemma sc_st d a a' : times2 d a a' -> times2 d (@st G a) (@st G a'). Proof. exact (fun H => H). Qed.
Lemma sc_H0 d : times2 d (@lit G 0) (@lit G 0). Proof. apply sc_lit0. Qed.
Lemma sc_H1 : times2 0 (@lit G 1) (@lit G 1). Proof. apply sc_lit. cbn; lia. Qed.
Lemma sc_Hm1 : times2 0 (@lit G (-1)) (@lit G (-1)). Proof. apply sc_lit. cbn; lia. Qed.
Lemma sc_Hdiv d e a a' b b' : times2 d a a' -> times2 e b b' -> @xeq G b (lit 0) = false ->
  simg true (times2 (d - e)) (@xdiv G a b) (@xdiv G a' b').
Proof. intros. apply sc_div; assumption. Qed.
Lemma sc_Heq0 d a a' : times2 d a a' -> @xeq G a (lit 0) = @xeq G a' (lit 0). Proof. apply sc_eq0. Qed.
Lemma sc_Hone : @xeq G (ld (lite G 1)) (lit 0) = false. Proof. apply sc_one. Qed.
Lemma sc_Hflip f v : @xeq G (ld f) (lit 0) = false -> @xmul G (ld f) (lit (-1)) = Ok v -> @xeq G (ld (st v)) (lit 0) = false.
Proof.
  intros N E. cbn [xmul rangeS ld] in E. apply in_normal_inv in E. destruct E as [-> _].
  apply flip_nonzero, N.
Qed.

Ltac sc L := eapply (L true G G (fun d => times2 d) (fun d => times2 d));
  first [exact sc_ld|exact sc_st|exact sc_H0|exact sc_H1|exact sc_Hm1|exact (sc_add prec emax)|exact (sc_sub prec emax)
    |exact (sc_mul prec emax)|exact sc_Hdiv|exact (sc_neg prec emax)|exact sc_Heq0|exact (sc_divsz prec emax)
    |exact sc_Hone|exact sc_Hflip|exact (sc_div prec emax)|exact (sc_sqrt prec emax)|idtac].


(** *** without a range error floating point computes the same *)
Lemma mrel_eq_refl {T} (A : matrix T) : mrel (@eq T) A A.
Proof. induction A as [|r A IH]; constructor; [|exact IH]. induction r; constructor; auto. Qed.
Lemma vrel_eq {T} (v w : list T) : Forall2 (@eq T) v w -> v = w.
Proof. intros H. induction H; congruence. Qed.
Lemma mrel_eq {T} (A B : matrix T) : mrel (@eq T) A B -> A = B.
Proof. intros H. induction H as [|r r' A A' Hr H IH]; [reflexivity|]. rewrite IH, (vrel_eq _ _ Hr). reflexivity. Qed.

Notation E := (@eq fl).
Lemma e_ld (a a' : fl) : a = a' -> @ld G a = @ld F a'. Proof. exact (fun H => H). Qed.
Lemma e_st (a a' : fl) : a = a' -> @st G a = @st F a'. Proof. exact (fun H => H). Qed.
Lemma e_lit z : @lit G z = @lit F z. Proof. reflexivity. Qed.
Lemma e_add a a' b b' : a = a' -> b = b' -> refines E (@xadd G a b) (@xadd F a' b').
Proof. intros -> ->. apply ref_range. Qed.
Lemma e_sub a a' b b' : a = a' -> b = b' -> refines E (@xsub G a b) (@xsub F a' b').
Proof. intros -> ->. apply ref_range. Qed.
Lemma e_mul a a' b b' : a = a' -> b = b' -> refines E (@xmul G a b) (@xmul F a' b').
Proof. intros -> ->. apply ref_range. Qed.
Lemma e_div a a' b b' : a = a' -> b = b' -> refines E (@xdiv G a b) (@xdiv F a' b').
Proof. intros -> ->. apply ref_range. Qed.
Lemma e_neg a a' : a = a' -> refines E (@xneg G a) (@xneg F a').
Proof. intros ->. cbn. eauto. Qed.
Lemma e_eq a a' b b' : a = a' -> b = b' -> @xeq G a b = @xeq F a' b'.
Proof. intros -> ->. reflexivity. Qed.
Lemma e_sqrt a a' : a = a' -> refines E (@xsqrt G a) (@xsqrt F a').
Proof. intros ->. apply ref_range. Qed.
Lemma e_divsz a a' n : a = a' -> refines E (@divsz G a n) (@divsz F a' n).
Proof. intros ->. apply ref_range. Qed.

Ltac ee L := eapply (L G F E E);
  first [exact e_ld|exact e_st|exact (e_lit 0)|exact (e_lit 1)|exact (e_lit (-1))|exact e_add|exact e_sub|exact e_mul
    |exact e_div|exact e_neg|exact e_eq|exact e_sqrt|exact e_divsz|apply mrel_eq_refl|reflexivity|idtac].
Ltac em L := eapply ref_mono; [ee L|apply mrel_eq].

(** a run without range error, and the same with every element multiplied *)
Lemma combine {A A' : Type} (R : A -> A' -> Prop) (o : outcome A) (f : outcome A) (o' f' : outcome A') :
  refines eq o f -> refines eq o' f' -> simg true R o o' -> defined o -> defined o' -> same_outcome R f f'.
Proof.
  intros Hf Hf' HS D D'. destruct o as [a|e| |u|]; try contradiction; cbn in Hf;
    [destruct Hf as [b [-> <-]]|subst f|subst f];
  destruct o' as [a'|e'| |u'|]; try contradiction; cbn in Hf';
    first [subst f'|destruct Hf' as [b' [-> <-]]]; exact HS.
Qed.

Ltac go L P := eapply combine; [em P|em P|sc L; try eassumption|assumption|assumption].
Ltac gov L P := eapply combine; [ee P|ee P|sc L; try eassumption|assumption|assumption].

Theorem c78_scale_elementwise d e n m (A A' B B' : matrix fl) (s s' t t' : fl) :
  mtimes2 d A A' -> mtimes2 d B B' -> times2 d s s' -> times2 e t t' ->
  (defined (sum G n m A B) -> defined (sum G n m A' B') ->
   same_outcome (mtimes2 d) (sum F n m A B) (sum F n m A' B')) /\
  (defined (sub G n m A B) -> defined (sub G n m A' B') ->
   same_outcome (mtimes2 d) (sub F n m A B) (sub F n m A' B')) /\
  (defined (sum_scalar G n m A s) -> defined (sum_scalar G n m A' s') ->
   same_outcome (mtimes2 d) (sum_scalar F n m A s) (sum_scalar F n m A' s')) /\
  (defined (sub_scalar G n m A s) -> defined (sub_scalar G n m A' s') ->
   same_outcome (mtimes2 d) (sub_scalar F n m A s) (sub_scalar F n m A' s')) /\
  (defined (mult_scalar G n m A t) -> defined (mult_scalar G n m A' t') ->
   same_outcome (mtimes2 (d + e)) (mult_scalar F n m A t) (mult_scalar F n m A' t')) /\
  (defined (div G n m A t) -> defined (div G n m A' t') ->
   same_outcome (mtimes2 (d - e)) (div F n m A t) (div F n m A' t')).
Proof.
  intros HA HB Hs Ht. split; [|split; [|split; [|split; [|split]]]]; intros D D'.
  - go G_sum sum_ref.
  - go G_sub sub_ref.
  - go G_sum_scalar sum_scalar_ref.
  - go G_sub_scalar sub_scalar_ref.
  - go G_mult_scalar mult_scalar_ref.
  - go G_div div_ref.
Qed.

Theorem c78_scale_mult d e n m p (A A' B B' : matrix fl) : mtimes2 d A A' -> mtimes2 e B B' ->
  (defined (mult G n m p A B) -> defined (mult G n m p A' B') ->
   same_outcome (mtimes2 (d + e)) (mult F n m p A B) (mult F n m p A' B')) /\
  (defined (strassen G A B) -> defined (strassen G A' B') ->
   same_outcome (mtimes2 (d + e)) (strassen F A B) (strassen F A' B')).
Proof.
  intros HA HB. split; intros D D'; [go G_mult mult_ref|go G_strassen strassen_ref].
Qed.

Theorem c78_scale_conv d e n m (A A' k k' : matrix fl) : mtimes2 d A A' -> mtimes2 e k k' ->
  (defined (conv2 G n m A k) -> defined (conv2 G n m A' k') ->
   same_outcome (mtimes2 (e + d)) (conv2 F n m A k) (conv2 F n m A' k')) /\
  (defined (conv2_full G n m A k) -> defined (conv2_full G n m A' k') ->
   same_outcome (mtimes2 (e + d)) (conv2_full F n m A k) (conv2_full F n m A' k')) /\
  (defined (conv2_valid G n A k) -> defined (conv2_valid G n A' k') ->
   same_outcome (mtimes2 (e + d)) (conv2_valid F n A k) (conv2_valid F n A' k')).
Proof.
  intros HA HB. split; [|split]; intros D D'; [go G_conv2 conv2_ref|go G_conv2_full conv2_full_ref|go G_conv2_valid conv2_valid_ref].
Qed.

Theorem c78_scale_det d n (A A' : matrix fl) : shape n n A -> mtimes2 d A A' ->
  defined (det G n A) -> defined (det G n A') ->
  same_outcome (times2 (Z.of_nat n * d)) (det F n A) (det F n A').
Proof. intros SA HA D D'. gov G_det det_ref. Qed.

Theorem c78_scale_inv d n (A A' : matrix fl) : 0 < n -> shape n n A -> mtimes2 d A A' ->
  defined (inv G n A) -> defined (inv G n A') ->
  same_outcome (mtimes2 (- d)) (inv F n A) (inv F n A').
Proof. intros Hn SA HA D D'. go G_inv_all inv_ref. Qed.

Theorem c78_scale_pow d n w p (A A' : matrix fl) : 0 < n -> shape n n A -> mtimes2 d A A' ->
  (1 <= w)%Z -> (- 2 ^ (w - 1) < p)%Z ->
  defined (pow G n w A p) -> defined (pow G n w A' p) ->
  same_outcome (mtimes2 (p * d)) (pow F n w A p) (pow F n w A' p).
Proof.
  intros Hn SA HA Hw Hpp D D'. go G_pow pow_ref_all. sc G_inv_all; assumption.
Qed.

Theorem c78_scale_lu d n (A A' : matrix fl) : mtimes2 d A A' ->
  defined (lu G n A) -> defined (lu G n A') ->
  same_outcome (fun LU LU' => mtimes2 0 (fst LU) (fst LU') /\ mtimes2 d (snd LU) (snd LU')) (lu F n A) (lu F n A').
Proof.
  intros HA D D'.
  assert (Q : forall X, refines eq (lu G n X) (lu F n X)).
  { intros X. eapply ref_mono; [ee lu_ref|]. intros [x y] [x' y'] [H1 H2]. cbn in H1, H2.
    apply mrel_eq in H1. apply mrel_eq in H2. congruence. }
  apply (combine _ (lu G n A) _ (lu G n A') _ (Q A) (Q A')); [|exact D|exact D']. sc G_lu. exact HA.
Qed.

(** the factor of A in units of 2^2d is in units of 2^d *)
Theorem c78_scale_chol d n (A A' : matrix fl) : mtimes2 (2 * d) A A' ->
  defined (chol G n A) -> defined (chol G n A') ->
  same_outcome (mtimes2 d) (chol F n A) (chol F n A').
Proof. intros HA D D'. go G_chol chol_ref. Qed.

Theorem c78_scale_stat d n m (A A' : matrix fl) : mtimes2 d A A' ->
  (defined (mean G n m A) -> defined (mean G n m A') ->
   same_outcome (times2 d) (mean F n m A) (mean F n m A')) /\
  (defined (var G n m A) -> defined (var G n m A') ->
   same_outcome (times2 (2 * d)) (var F n m A) (var F n m A')) /\
  (defined (stddev G n m A) -> defined (stddev G n m A') ->
   same_outcome (times2 d) (stddev F n m A) (stddev F n m A')).
Proof.
  intros HA. split; [|split]; intros D D'; [gov G_mean mean_ref|gov G_var var_ref|gov G_stddev stddev_ref].
Qed.
End Props.

(** ** Examples *)
Definition mz64 (A : list (list Z)) : matrix (elt float64S) := map (map fz64) A.

Lemma mz64_scaled d A : (0 <= d)%Z -> forallb (forallb (fun z => (Z.abs (z * 2 ^ d) <=? 2 ^ 53)%Z)) A = true ->
  mtimes2 53 1024 d (mz64 A) (mz64 (map (map (fun z => z * 2 ^ d)%Z) A)).
Proof.
  intros Hd H. unfold mz64, mtimes2. induction A as [|r A IH]; [constructor|]. cbn [forallb] in H. apply andb_prop in H.
  destruct H as [Hr HA]. cbn [map]. constructor; [|apply IH, HA]. clear - Hr Hd. induction r as [|z r IH]; [constructor|].
  cbn [forallb] in Hr. apply andb_prop in Hr. destruct Hr as [Hz Hr]. cbn [map]. constructor; [|apply IH, Hr].
  apply Z.leb_le in Hz. assert (P : (0 < 2 ^ d)%Z) by (apply Z.pow_pos_nonneg; lia).
  destruct (f_of_Z_small 53 1024 (z * 2 ^ d) Hz) as [E1 [F1 _]].
  assert (Hz' : (Z.abs z <= 2 ^ 53)%Z) by (rewrite Z.abs_mul in Hz; nia).
  destruct (f_of_Z_small 53 1024 z Hz') as [E2 [F2 _]].
  split; [exact F2|]. split; [exact F1|]. unfold fz64. rewrite E1, E2, mult_IZR. f_equal. rewrite (IZR_Zpower radix2) by exact Hd. reflexivity.
Qed.

Definition c78_A : list (list Z) := [[4; 2; 0; 1]; [2; 5; 1; 0]; [0; 1; 6; 2]; [1; 0; 2; 7]]%Z.
Definition c78_A' : list (list Z) := map (map (fun z => z * 2 ^ 10)%Z) c78_A.
Definition okb {T} (o : outcome T) : bool := match o with Ok _ => true | _ => false end.
Lemma okb_defined {T} (o : outcome T) : okb o = true -> defined o.
Proof. destruct o; [intros; exact I|discriminate..]. Qed.

Lemma c78_ex_check : forallb (fun A => let A := mz64 A in let K := rangeS 53 1024 in
  okb (sum K 4 4 A A) && okb (mult K 4 4 4 A A) && okb (conv2 K 4 4 A [[fz64 1; fz64 0; fz64 (-1)]; [fz64 2; fz64 0; fz64 (-2)]; [fz64 1; fz64 0; fz64 (-1)]]) &&
  okb (det K 4 A) && okb (inv K 4 A) && okb (pow K 4 32 A 3) && okb (pow K 4 32 A (-2)) && okb (lu K 4 A) && okb (chol K 4 A) && okb (mean K 4 4 A) && okb (var K 4 4 A) &&
  okb (stddev K 4 4 A)) [c78_A; c78_A'] = true.
Proof. vm_compute. reflexivity. Qed.

(** the hypotheses hold of a 4x4 array of doubles in units 1 and 1/1024 *)
Example c78_ex : mtimes2 53 1024 10 (mz64 c78_A) (mz64 c78_A') /\
  forall A, In A [c78_A; c78_A'] -> defined (inv (rangeS 53 1024) 4 (mz64 A)) /\ defined (pow (rangeS 53 1024) 4 32 (mz64 A) (-2)) /\
    defined (lu (rangeS 53 1024) 4 (mz64 A)) /\ defined (chol (rangeS 53 1024) 4 (mz64 A)) /\
    defined (stddev (rangeS 53 1024) 4 4 (mz64 A)).
Proof.
  split; [apply mz64_scaled; [lia|vm_compute; reflexivity]|]. intros A HA.
  pose proof (proj1 (forallb_forall _ _) c78_ex_check A HA) as H. cbv zeta in H. rewrite !andb_true_iff in H.
  decompose [and] H. clear H. repeat split; apply okb_defined; assumption.
Qed.

(** without the hypothesis on the range it fails: the identity in units of 2^-600
    has a determinant that underflows, and is reported singular *)
Definition c78_small : matrix (elt float64S) :=
  let u := Bldexp mode_NE (fz64 1) (-600) in [[u; fz64 0]; [fz64 0; u]].
Definition c78_overflow (o : outcome (matrix (elt float64S))) : bool := match o with Throw OverflowError => true | _ => false end.
Lemma c78_small_check : okb (inv float64S 2 (mz64 [[1; 0]; [0; 1]]%Z)) && c78_overflow (inv float64S 2 c78_small) = true.
Proof. vm_compute. reflexivity. Qed.
Lemma overflow_inv o : c78_overflow o = true -> o = Throw OverflowError.
Proof. destruct o as [|[]| | |]; try discriminate; reflexivity. Qed.
Lemma okb_inv {T} (o : outcome T) : okb o = true -> exists X, o = Ok X.
Proof. destruct o as [X| | | |]; try discriminate. intros _. exists X. reflexivity. Qed.

Theorem c78_range_needed : (exists X, inv float64S 2 (mz64 [[1; 0]; [0; 1]]%Z) = Ok X) /\
  mtimes2 53 1024 (-600) (mz64 [[1; 0]; [0; 1]]%Z) c78_small /\ inv float64S 2 c78_small = Throw OverflowError.
Proof.
  pose proof c78_small_check as H. apply andb_prop in H. destruct H as [H1 H2].
  split; [exact (okb_inv _ H1)|]. split; [|exact (overflow_inv _ H2)].
  assert (U : scaled 53 1024 (-600) (fz64 1) (Bldexp mode_NE (fz64 1) (-600))).
  { destruct (f_of_Z_1 53 1024) as [E1 [F1 _]]. unfold fz64.
    pose proof (Bldexp_correct 53 1024 _ _ mode_NE (f_of_Z 53 1024 1) (-600)) as B. rewrite E1, Rmult_1_l in B.
    assert (FB : generic_format radix2 (SpecFloat.fexp 53 1024) (bpow radix2 (-600))).
    { apply generic_format_bpow. unfold SpecFloat.fexp, SpecFloat.emin. lia. }
    rewrite round_generic in B by (try apply valid_rnd_N; exact FB).
    rewrite Rlt_bool_true in B; [|rewrite Rabs_pos_eq by apply bpow_ge_0; apply bpow_lt; lia].
    destruct B as [B1 [B2 _]]. split; [exact F1|]. split; [rewrite B2; exact F1|]. rewrite B1, E1. ring. }
  assert (Z0 : scaled 53 1024 (-600) (fz64 0) (fz64 0)) by apply sc_lit0.
  assert (V : forall x y x' y', scaled 53 1024 (-600) x x' -> scaled 53 1024 (-600) y y' ->
    Forall2 (scaled 53 1024 (-600)) [x; y] [x'; y']) by (intros; constructor; [assumption|constructor; [assumption|constructor]]).
  constructor; [apply V; assumption|]. constructor; [apply V; assumption|constructor].
Qed.
Print Assumptions c78_scale_elementwise.
Print Assumptions c78_scale_mult.
Print Assumptions c78_scale_conv.
Print Assumptions c78_scale_det.
Print Assumptions c78_scale_inv.
Print Assumptions c78_scale_pow.
Print Assumptions c78_scale_lu.
Print Assumptions c78_scale_chol.
Print Assumptions c78_scale_stat.
Print Assumptions c78_range_needed.
