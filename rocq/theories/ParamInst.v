(** * Instances of parametricity: integers in floating point, order of floats *)

From Coq Require Import ZArith Reals Lra Lia Bool List Arith.
From Flocq Require Import IEEE754.BinarySingleNaN Core.Core Relative Plus_error.
From Verif Require Import Base Scalar Model CInt CFloat Float Param.

(** exact integers that fail when their absolute value exceeds [B] *)
Definition chk (B z : Z) : outcome Z := if (Z.abs z <=? B)%Z then Ok z else UB SignedOverflow.
Definition boundedS (B : Z) : scalar :=
  {| elt := Z; xpr := Z; epsT := unit;
     ld := fun a => a; st := fun a => a; lit := fun z => z;
     xadd := fun a b => chk B (a + b);
     xsub := fun a b => chk B (a - b);
     xmul := fun a b => chk B (a * b);
     xdiv := fun _ _ => UB DivByZero;
     xneg := fun a => chk B (- a);
     xeq := Z.eqb; xlt := Z.ltb;
     xabs := fun a => chk B (Z.abs a);
     gteps := fun _ _ => false;
     xsqrt := fun _ => UB BadConversion;
     divsz := fun _ _ => UB DivByZero |}.

Section Float.
Variables prec emax : Z.
Context {Hp : Prec_gt_0 prec} {He : Prec_lt_emax prec emax}.
Notation fl := (binary_float prec emax).
Notation fexp := (SpecFloat.fexp prec emax).
Notation rnd := (round radix2 fexp ZnearestE).
Notation "x ⊕ y" := (Bplus mode_NE x y) (at level 50, left associativity).
Notation "x ⊖ y" := (Bminus mode_NE x y) (at level 50, left associativity).
Notation "x ⊗ y" := (Bmult mode_NE x y) (at level 40, left associativity).
Notation "x ⊘ y" := (Bdiv mode_NE x y) (at level 40, left associativity).
Notation K := (floatS prec emax).

(** the float [x] has the integer value [z] *)
Definition rep (z : Z) (x : fl) : Prop := is_finite x = true /\ B2R x = IZR z.

Local Instance fexp_valid' : Valid_exp fexp.
Proof. apply FLT_exp_valid. exact Hp. Qed.

Lemma small_lt_emax z : (Z.abs z <= 2 ^ prec)%Z -> (Rabs (IZR z) < bpow radix2 emax)%R.
Proof.
  intros H. pose proof (prec_pos prec). pose proof (prec_emax prec emax).
  rewrite <- abs_IZR. apply Rle_lt_trans with (IZR (2 ^ prec)); [apply IZR_le, H|].
  change (2 ^ prec)%Z with (Zpower radix2 prec). rewrite IZR_Zpower by lia. apply bpow_lt. assumption.
Qed.

Lemma rep_add a b x y : rep a x -> rep b y -> (Z.abs (a + b) <= 2 ^ prec)%Z -> rep (a + b) (x ⊕ y).
Proof.
  intros [Fx Ex] [Fy Ey] H. unfold rep. rewrite plus_IZR, <- Ex, <- Ey.
  apply (Bplus_exact prec emax); try assumption; rewrite Ex, Ey, <- plus_IZR; [apply (small_format prec emax), H|apply small_lt_emax, H].
Qed.

Lemma rep_sub a b x y : rep a x -> rep b y -> (Z.abs (a - b) <= 2 ^ prec)%Z -> rep (a - b) (x ⊖ y).
Proof.
  intros [Fx Ex] [Fy Ey] H. unfold rep. rewrite minus_IZR.
  generalize (Bminus_correct _ _ Hp He mode_NE x y Fx Fy). simpl round_mode.
  rewrite Ex, Ey, <- minus_IZR. rewrite (round_generic radix2 fexp ZnearestE _ (small_format prec emax _ H)).
  rewrite Rlt_bool_true by (apply small_lt_emax, H). intros [E [F _]]. split; [exact F|]. rewrite E. reflexivity.
Qed.

Lemma rep_mul a b x y : rep a x -> rep b y -> (Z.abs (a * b) <= 2 ^ prec)%Z -> rep (a * b) (x ⊗ y).
Proof.
  intros [Fx Ex] [Fy Ey] H. unfold rep.
  destruct (Bmult_exact prec emax x y Fx Fy) as [F [E _]].
  - rewrite Ex, Ey, <- mult_IZR. apply (small_format prec emax), H.
  - rewrite Ex, Ey, <- mult_IZR. apply small_lt_emax, H.
  - split; [exact F|]. rewrite E, Ex, Ey, mult_IZR. reflexivity.
Qed.

Lemma rep_neg a x : rep a x -> rep (- a) (Bopp x).
Proof. intros [F E]. split; [rewrite is_finite_Bopp; exact F|]. rewrite B2R_Bopp, E, opp_IZR. reflexivity. Qed.

Lemma rep_abs a x : rep a x -> rep (Z.abs a) (Babs x).
Proof. intros [F E]. split; [rewrite is_finite_Babs; exact F|]. rewrite B2R_Babs, E, abs_IZR. reflexivity. Qed.

Lemma rep_eq a b x y : rep a x -> rep b y -> (a =? b)%Z = Beqb x y.
Proof.
  intros [Fx Ex] [Fy Ey]. rewrite Beqb_correct by assumption. rewrite Ex, Ey.
  destruct (Z.eqb_spec a b) as [->|N]; symmetry; [apply Req_bool_true; reflexivity|].
  apply Req_bool_false. intros E. apply N, eq_IZR, E.
Qed.

Lemma rep_lt a b x y : rep a x -> rep b y -> (a <? b)%Z = Bltb x y.
Proof.
  intros [Fx Ex] [Fy Ey]. rewrite Bltb_correct by assumption. rewrite Ex, Ey.
  destruct (Z.ltb_spec a b) as [L|N]; symmetry; [apply Rlt_bool_true, IZR_lt, L|].
  apply Rlt_bool_false, IZR_le, N.
Qed.

Lemma rep_lit z : (Z.abs z <= 2 ^ prec)%Z -> rep z (f_of_Z prec emax z).
Proof. intros H. destruct (f_of_Z_small prec emax z H) as [E [F _]]. split; assumption. Qed.

(** *** bounded exact integers *)
Section Bounded.
Variable B : Z.
Hypothesis HB : (1 <= B <= 2 ^ prec)%Z.
Definition relB (z : Z) (x : fl) : Prop := rep z x /\ (Z.abs z <= B)%Z.

Lemma relB_chk z x : rep z x \/ (2 ^ prec < Z.abs z)%Z -> refines relB (chk B z) (Ok x).
Proof.
  intros H. unfold chk. destruct (Z.leb_spec (Z.abs z) B); [|exact I].
  apply ref_ok. split; [|assumption]. destruct H; [assumption|lia].
Qed.

Lemma relB_case (z : Z) (P : Prop) : ((Z.abs z <= 2 ^ prec)%Z -> P) -> P \/ (2 ^ prec < Z.abs z)%Z.
Proof. intros H. destruct (Z.le_gt_cases (Z.abs z) (2 ^ prec)); [left; auto|right; assumption]. Qed.

Lemma B_add a x b y : relB a x -> relB b y -> refines relB (@xadd (boundedS B) a b) (@xadd K x y).
Proof. intros [Hx _] [Hy _]. apply relB_chk, relB_case, rep_add; assumption. Qed.
Lemma B_sub a x b y : relB a x -> relB b y -> refines relB (@xsub (boundedS B) a b) (@xsub K x y).
Proof. intros [Hx _] [Hy _]. apply relB_chk, relB_case, rep_sub; assumption. Qed.
Lemma B_mul a x b y : relB a x -> relB b y -> refines relB (@xmul (boundedS B) a b) (@xmul K x y).
Proof. intros [Hx _] [Hy _]. apply relB_chk, relB_case, rep_mul; assumption. Qed.
Lemma B_abs a x : relB a x -> refines relB (@xabs (boundedS B) a) (@xabs K x).
Proof. intros [Hx _]. apply relB_chk. left. apply rep_abs, Hx. Qed.
Lemma B_0 : relB 0 (@lit K 0).
Proof. split; [apply rep_lit|]; simpl; lia. Qed.
Lemma B_1 : relB 1 (@lit K 1).
Proof. split; [apply rep_lit|]; simpl; lia. Qed.
End Bounded.

(** *** C++ signed integers of at most prec+1 bits *)
Section CInt.
Variable t : ityp.
Hypothesis Hs : sgn t = true.
Hypothesis Hw : (32 <= width t <= prec + 1)%Z.
Definition relI (z : Z) (x : fl) : Prop := rep z x /\ in_range t z = true.

Lemma promote_t : promote t = t.
Proof. unfold promote. destruct (Z.ltb_spec (width t) 32); [lia|reflexivity]. Qed.

Lemma range_small z : in_range t z = true -> (Z.abs z <= 2 ^ prec)%Z.
Proof.
  unfold in_range, imin, imax. rewrite Hs. intros H. apply andb_prop in H. destruct H as [H1 H2].
  apply Z.leb_le in H1, H2.
  assert (2 ^ (width t - 1) <= 2 ^ prec)%Z by (apply Z.pow_le_mono_r; lia). lia.
Qed.

Lemma relI_arith z x : (in_range t z = true -> rep z x) -> refines relI (iarith t z) (Ok x).
Proof.
  intros H. unfold iarith. rewrite Hs. destruct (in_range t z) eqn:E; [|exact I].
  apply ref_ok. split; [apply H; reflexivity|exact E].
Qed.

Lemma I_st z : in_range t z = true -> iconv t z = z.
Proof.
  intros H. unfold iconv. rewrite Hs. unfold in_range, imin, imax in H. rewrite Hs in H.
  apply andb_prop in H. destruct H as [H1 H2]. apply Z.leb_le in H1, H2.
  assert (E : (2 ^ width t = 2 * 2 ^ (width t - 1))%Z).
  { replace (width t) with (Z.succ (width t - 1)) at 1 by lia. rewrite Z.pow_succ_r; lia. }
  rewrite Z.mod_small; lia.
Qed.

Lemma I_in z : (Z.abs z <= 1)%Z -> in_range t z = true.
Proof.
  intros H. unfold in_range, imin, imax. rewrite Hs.
  assert (2 ^ 31 <= 2 ^ (width t - 1))%Z by (apply Z.pow_le_mono_r; lia). apply andb_true_intro.
  split; apply Z.leb_le; lia.
Qed.

Lemma I_ld a x : relI a x -> relI (@ld (intS t) a) (@ld K x). Proof. exact (fun H => H). Qed.
Lemma I_stR a x : relI a x -> relI (@st (intS t) a) (@st K x).
Proof. intros [H E]. cbn [st intS floatS]. rewrite I_st by exact E. split; assumption. Qed.
Lemma I_lit z : (Z.abs z <= 1)%Z -> relI (@lit (intS t) z) (@lit K z).
Proof.
  intros H. cbn [lit intS floatS]. rewrite promote_t, I_st by (apply I_in, H). split; [|apply I_in, H].
  apply rep_lit, range_small, I_in, H.
Qed.
Lemma I_add a x b y : relI a x -> relI b y -> refines relI (@xadd (intS t) a b) (@xadd K x y).
Proof. intros [Hx _] [Hy _]. cbn [xadd intS floatS]. rewrite promote_t. apply relI_arith. intros. apply rep_add; auto using range_small. Qed.
Lemma I_sub a x b y : relI a x -> relI b y -> refines relI (@xsub (intS t) a b) (@xsub K x y).
Proof. intros [Hx _] [Hy _]. cbn [xsub intS floatS]. rewrite promote_t. apply relI_arith. intros. apply rep_sub; auto using range_small. Qed.
Lemma I_mul a x b y : relI a x -> relI b y -> refines relI (@xmul (intS t) a b) (@xmul K x y).
Proof. intros [Hx _] [Hy _]. cbn [xmul intS floatS]. rewrite promote_t. apply relI_arith. intros. apply rep_mul; auto using range_small. Qed.
Lemma I_abs a x : relI a x -> refines relI (@xabs (intS t) a) (@xabs K x).
Proof.
  intros [Hx _]. cbn [xabs intS floatS]. rewrite promote_t. unfold iabs. rewrite Hs. apply relI_arith. intros. apply rep_abs, Hx.
Qed.
Lemma I_eq a x b y : relI a x -> relI b y -> @xeq (intS t) a b = @xeq K x y.
Proof. intros [Hx _] [Hy _]. apply rep_eq; assumption. Qed.
Lemma I_lt a x b y : relI a x -> relI b y -> @xlt (intS t) a b = @xlt K x y.
Proof. intros [Hx _] [Hy _]. apply rep_lt; assumption. Qed.
End CInt.

(** *** absolute values: [x] is dominated by [y] *)
Definition dom (x y : fl) : Prop :=
  is_finite y = true -> is_finite x = true /\ (Rabs (B2R x) <= B2R y)%R.

Lemma rnd_abs_le x y : (Rabs x <= y)%R -> (Rabs (rnd x) <= rnd y)%R.
Proof.
  intros H. apply Rabs_le. apply Rabs_le_inv in H. destruct H as [H1 H2].
  split.
  - rewrite <- round_NE_opp. apply round_le; [apply fexp_valid'|apply valid_rnd_N|]. exact H1.
  - apply round_le; [apply fexp_valid'|apply valid_rnd_N|exact H2].
Qed.

Lemma dom_no_overflow x (y : fl) : (Rabs (rnd x) <= B2R y)%R -> (Rabs (rnd x) < bpow radix2 emax)%R.
Proof.
  intros H. eapply Rle_lt_trans; [exact H|]. eapply Rle_lt_trans; [apply Rle_abs|]. apply abs_B2R_lt_emax.
Qed.

Lemma dom_add x y x' y' : dom x x' -> dom y y' -> refines dom (@xadd K x y) (@xadd K x' y').
Proof.
  intros Hx Hy. apply ref_ok. intros F. destruct (Bplus_finite prec emax x' y' F) as [Fx [Fy E]].
  destruct (Hx Fx) as [Gx Lx], (Hy Fy) as [Gy Ly].
  assert (L : (Rabs (rnd (B2R x + B2R y)) <= B2R (x' ⊕ y'))%R).
  { rewrite E. apply rnd_abs_le. eapply Rle_trans; [apply Rabs_triang|lra]. }
  generalize (Bplus_correct _ _ Hp He mode_NE x y Gx Gy). simpl round_mode.
  rewrite Rlt_bool_true by (eapply dom_no_overflow, L). intros [E' [F' _]]. split; [exact F'|]. rewrite E'. exact L.
Qed.

Lemma dom_mul x y x' y' : dom x x' -> dom y y' -> refines dom (@xmul K x y) (@xmul K x' y').
Proof.
  intros Hx Hy. apply ref_ok. intros F. destruct (Bmult_finite prec emax x' y' F) as [Fx [Fy E]].
  destruct (Hx Fx) as [Gx Lx], (Hy Fy) as [Gy Ly].
  assert (L : (Rabs (rnd (B2R x * B2R y)) <= B2R (x' ⊗ y'))%R).
  { rewrite E. apply rnd_abs_le. rewrite Rabs_mult. apply Rmult_le_compat; auto using Rabs_pos. }
  generalize (Bmult_correct _ _ Hp He mode_NE x y). simpl round_mode.
  rewrite Rlt_bool_true by (eapply dom_no_overflow, L). rewrite Gx, Gy. intros [E' [F' _]].
  split; [exact F'|]. rewrite E'. exact L.
Qed.

Lemma dom_lit z : (0 <= z <= 1)%Z -> dom (f_of_Z prec emax z) (f_of_Z prec emax z).
Proof.
  intros H F. split; [exact F|]. pose proof (pow_prec_ge2 prec).
  destruct (f_of_Z_small prec emax z) as [E _]; [lia|]. rewrite E. rewrite Rabs_pos_eq; [lra|].
  apply IZR_le. lia.
Qed.

(** *** order of non-negative floats *)
Definition below (x y : fl) : Prop :=
  is_finite y = true -> is_finite x = true /\ (0 <= B2R x <= B2R y)%R.

Lemma below_dom x y : below x y -> dom x y.
Proof. intros H F. destruct (H F) as [G L]. split; [exact G|]. rewrite Rabs_pos_eq; lra. Qed.

Lemma rnd_nonneg x : (0 <= x)%R -> (0 <= rnd x)%R.
Proof. intros H. rewrite <- (rnd0 prec emax). apply round_le; [apply fexp_valid'|apply valid_rnd_N|exact H]. Qed.

Lemma below_add x y x' y' : below x x' -> below y y' -> refines below (@xadd K x y) (@xadd K x' y').
Proof.
  intros Hx Hy. apply ref_ok. intros F. destruct (Bplus_finite prec emax x' y' F) as [Fx [Fy E]].
  destruct (Hx Fx) as [Gx Lx], (Hy Fy) as [Gy Ly].
  destruct (dom_add x y x' y' (below_dom _ _ Hx) (below_dom _ _ Hy)) as [b [Eb D]]. injection Eb as <-.
  destruct (D F) as [G L]. split; [exact G|]. destruct (Bplus_finite prec emax x y G) as [_ [_ E']].
  assert (P : (0 <= B2R (x ⊕ y))%R) by (rewrite E'; apply rnd_nonneg; lra).
  rewrite Rabs_pos_eq in L by exact P. lra.
Qed.

Lemma below_mul x y x' y' : below x x' -> below y y' -> refines below (@xmul K x y) (@xmul K x' y').
Proof.
  intros Hx Hy. apply ref_ok. intros F. destruct (Bmult_finite prec emax x' y' F) as [Fx [Fy E]].
  destruct (Hx Fx) as [Gx Lx], (Hy Fy) as [Gy Ly].
  destruct (dom_mul x y x' y' (below_dom _ _ Hx) (below_dom _ _ Hy)) as [b [Eb D]]. injection Eb as <-.
  destruct (D F) as [G L]. split; [exact G|]. destruct (Bmult_finite prec emax x y G) as [_ [_ E']].
  assert (P : (0 <= B2R (x ⊗ y))%R) by (rewrite E'; apply rnd_nonneg, Rmult_le_pos; lra).
  rewrite Rabs_pos_eq in L by exact P. lra.
Qed.

Lemma below_lit z : (0 <= z <= 1)%Z -> below (f_of_Z prec emax z) (f_of_Z prec emax z).
Proof.
  intros H F. split; [exact F|]. pose proof (pow_prec_ge2 prec).
  destruct (f_of_Z_small prec emax z) as [E _]; [lia|]. rewrite E. split; [apply IZR_le; lia|lra].
Qed.

(** *** order of all floats, for sums and means *)
Definition leq (x y : fl) : Prop :=
  is_finite x = true -> is_finite y = true -> (B2R x <= B2R y)%R.

Lemma leq_add x y x' y' : leq x x' -> leq y y' -> refines leq (@xadd K x y) (@xadd K x' y').
Proof.
  intros Hx Hy. apply ref_ok. intros F F'. destruct (Bplus_finite prec emax x y F) as [Fx [Fy E]].
  destruct (Bplus_finite prec emax x' y' F') as [Fx' [Fy' E']]. rewrite E, E'.
  apply round_le; [apply fexp_valid'|apply valid_rnd_N|]. specialize (Hx Fx Fx'). specialize (Hy Fy Fy'). lra.
Qed.

Lemma leq_divsz x x' n : (0 <= n <= 2 ^ prec)%Z -> leq x x' -> refines leq (@divsz K x n) (@divsz K x' n).
Proof.
  intros Hn Hx. apply ref_ok. intros F F'.
  destruct (f_of_Z_small prec emax n) as [E [Fn _]]; [lia|].
  destruct (Bdiv_finite prec emax x _ F Fn) as [Fx [Nz Ex]]. destruct (Bdiv_finite prec emax x' _ F' Fn) as [Fx' [_ Ex']].
  rewrite Ex, Ex', E. apply round_le; [apply fexp_valid'|apply valid_rnd_N|].
  rewrite E in Nz. apply Rmult_le_compat_r; [|exact (Hx Fx Fx')].
  left. apply Rinv_0_lt_compat. assert (IZR 0 <= IZR n)%R by (apply IZR_le; lia). lra.
Qed.
End Float.
