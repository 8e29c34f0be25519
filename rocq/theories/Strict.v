(** * Integers that never round and never exceed a bound

    [strictS B] computes with integers and refuses (undefined) every operation
    whose exact result is not an integer of absolute value at most [B]: a division
    that leaves a remainder, the square root of a non-square.  A function that
    returns on [strictS B] needs no rounding at all, so it returns the same
    numbers on int, long, float and double. *)

From Coq Require Import ZArith Reals Lra Lia Bool List Arith.
From Flocq Require Import IEEE754.BinarySingleNaN Core.Core Relative Plus_error.
From Verif Require Import Base Scalar Model CInt CFloat Float Param ParamInst IntSqrt.

Definition strictS (B : Z) : scalar :=
  {| elt := Z; xpr := Z; epsT := unit;
     ld := fun a => a; st := fun a => a; lit := fun z => z;
     xadd := fun a b => chk B (a + b);
     xsub := fun a b => chk B (a - b);
     xmul := fun a b => chk B (a * b);
     xdiv := fun a b => if (b =? 0)%Z then UB DivByZero else
                        if (a mod b =? 0)%Z then chk B (a / b) else UB BadConversion;
     xneg := fun a => chk B (- a);
     xeq := Z.eqb; xlt := Z.ltb;
     xabs := fun a => chk B (Z.abs a);
     gteps := fun _ _ => false;
     xsqrt := fun a => if (Z.sqrt a * Z.sqrt a =? a)%Z then Ok (Z.sqrt a) else UB BadConversion;
     divsz := fun a n => if ((0 <=? a) && (0 <? n) && (n <=? B) && (a mod n =? 0))%Z
                         then Ok (a / n)%Z else UB DivByZero |}.

(** An element type [K] agrees with the integers on every operation whose exact
    result is an integer of absolute value at most [B]; [rel z x] says that the
    element x of K stands for the integer z. *)
Record tracks (B : Z) (K : scalar) (rel : Z -> elt K -> Prop) (relx : Z -> xpr K -> Prop) : Prop := Tracks {
  tr_ld : forall a x, rel a x -> relx a (ld x);
  tr_st : forall a x, relx a x -> rel a (st x);
  tr_lit : forall z, (Z.abs z <= 1)%Z -> relx z (lit z);
  tr_add : forall a x b y, relx a x -> relx b y -> refines relx (@xadd (strictS B) a b) (xadd x y);
  tr_sub : forall a x b y, relx a x -> relx b y -> refines relx (@xsub (strictS B) a b) (xsub x y);
  tr_mul : forall a x b y, relx a x -> relx b y -> refines relx (@xmul (strictS B) a b) (xmul x y);
  tr_div : forall a x b y, relx a x -> relx b y -> refines relx (@xdiv (strictS B) a b) (xdiv x y);
  tr_neg : forall a x, relx a x -> refines relx (@xneg (strictS B) a) (xneg x);
  tr_abs : forall a x, relx a x -> refines relx (@xabs (strictS B) a) (xabs x);
  tr_eq : forall a x b y, relx a x -> relx b y -> @xeq (strictS B) a b = xeq x y;
  tr_lt : forall a x b y, relx a x -> relx b y -> @xlt (strictS B) a b = xlt x y;
  tr_sqrt : forall a x, relx a x -> refines rel (@xsqrt (strictS B) a) (xsqrt x);
  tr_divsz : forall a x n, relx a x -> refines rel (@divsz (strictS B) a n) (divsz x n)
}.

Lemma chk_inv B z r : chk B z = Ok r -> r = z /\ (Z.abs z <= B)%Z.
Proof. unfold chk. destruct (Z.leb_spec (Z.abs z) B); [|discriminate]. intros E. injection E as <-. auto. Qed.

Lemma ref_chk {A} (R : Z -> A -> Prop) B z o : ((Z.abs z <= B)%Z -> exists x, o = Ok x /\ R z x) -> refines R (chk B z) o.
Proof. intros H. unfold chk. destruct (Z.leb_spec (Z.abs z) B); [|exact I]. apply H. assumption. Qed.

Lemma exact_div_eq a b : b <> 0%Z -> (a mod b = 0)%Z -> a = (b * (a / b))%Z.
Proof. intros H E. pose proof (Z.div_mod a b H). lia. Qed.

Lemma div_le a n : (0 <= a)%Z -> (0 < n)%Z -> (0 <= a / n <= a)%Z.
Proof. intros. split; [apply Z.div_pos; lia|]. apply Z.div_le_upper_bound; nia. Qed.

Lemma sqrt_self_le a : (Z.sqrt a * Z.sqrt a = a -> 0 <= Z.sqrt a <= a)%Z.
Proof. intros E. pose proof (Z.sqrt_nonneg a). nia. Qed.

(** ** integer types *)
Section Int.
Variable t : ityp.
Variable B : Z.
Hypothesis Hs : sgn t = true.
Hypothesis Hw : (0 < width t <= 64)%Z.
Hypothesis HB : (1 <= B <= imax t)%Z.
Notation S := (strictS B).
Notation K := (intS t).

Definition relSI (z x : Z) : Prop := x = z /\ (Z.abs z <= B)%Z.

Lemma imax_promote : (imax t <= imax (promote t))%Z /\ sgn (promote t) = true /\ (0 < width (promote t))%Z.
Proof.
  unfold promote. destruct (Z.ltb_spec (width t) 32); [|repeat split; try assumption; lia].
  repeat split. unfold imax. rewrite Hs. cbn [sgn width int32].
  assert (2 ^ (width t - 1) <= 2 ^ 31)%Z by (apply Z.pow_le_mono_r; lia). change (32 - 1)%Z with 31%Z. lia.
Qed.

Lemma imax63 : (imax t < 2 ^ 63)%Z.
Proof.
  unfold imax. rewrite Hs. assert (2 ^ (width t - 1) <= 2 ^ 63)%Z by (apply Z.pow_le_mono_r; lia). lia.
Qed.

Lemma in_small p z : sgn p = true -> (Z.abs z <= imax p)%Z -> in_range p z = true.
Proof.
  intros Hp. unfold in_range, imin, imax. rewrite Hp. intros H. apply andb_true_intro. rewrite !Z.leb_le. lia.
Qed.

Lemma conv_small p z : sgn p = true -> (0 < width p)%Z -> (Z.abs z <= imax p)%Z -> iconv p z = z.
Proof.
  unfold iconv, imax. intros Hp Hw' H. rewrite Hp in *.
  assert (E : (2 ^ width p = 2 * 2 ^ (width p - 1))%Z).
  { replace (width p) with (Z.succ (width p - 1)) at 1 by lia. rewrite Z.pow_succ_r; lia. }
  rewrite Z.mod_small; lia.
Qed.

Lemma arith_small z : (Z.abs z <= B)%Z -> iarith (promote t) z = Ok z.
Proof.
  intros H. destruct imax_promote as [H1 [H2 _]]. unfold iarith. rewrite H2, in_small; [reflexivity|exact H2|lia].
Qed.

Lemma SI_arith z : refines relSI (chk B z) (iarith (promote t) z).
Proof. apply ref_chk. intros H. exists z. rewrite arith_small by exact H. split; [reflexivity|]. split; [reflexivity|exact H]. Qed.

Lemma SI_ld a x : relSI a x -> relSI (@ld S a) (@ld K x). Proof. exact (fun H => H). Qed.
Lemma SI_st a x : relSI a x -> relSI (@st S a) (@st K x).
Proof. intros [-> H]. cbn [st strictS intS]. rewrite conv_small by (auto; lia). split; [reflexivity|exact H]. Qed.
Lemma SI_lit z : (Z.abs z <= 1)%Z -> relSI (@lit S z) (@lit K z).
Proof.
  intros H. destruct imax_promote as [H1 [H2 H3]]. cbn [lit strictS intS].
  rewrite conv_small by (auto; lia). split; [reflexivity|lia].
Qed.
Lemma SI_add a x b y : relSI a x -> relSI b y -> refines relSI (@xadd S a b) (@xadd K x y).
Proof. intros [-> _] [-> _]. apply SI_arith. Qed.
Lemma SI_sub a x b y : relSI a x -> relSI b y -> refines relSI (@xsub S a b) (@xsub K x y).
Proof. intros [-> _] [-> _]. apply SI_arith. Qed.
Lemma SI_mul a x b y : relSI a x -> relSI b y -> refines relSI (@xmul S a b) (@xmul K x y).
Proof. intros [-> _] [-> _]. apply SI_arith. Qed.
Lemma SI_neg a x : relSI a x -> refines relSI (@xneg S a) (@xneg K x).
Proof. intros [-> _]. apply SI_arith. Qed.
Lemma SI_abs a x : relSI a x -> refines relSI (@xabs S a) (@xabs K x).
Proof. intros [-> _]. cbn [xabs strictS intS]. unfold iabs. destruct imax_promote as [_ [-> _]]. apply SI_arith. Qed.
Lemma SI_div a x b y : relSI a x -> relSI b y -> refines relSI (@xdiv S a b) (@xdiv K x y).
Proof.
  intros [-> _] [-> _]. cbn [xdiv strictS intS]. unfold idiv. destruct (Z.eqb_spec b 0) as [|N]; [exact I|].
  destruct (Z.eqb_spec (a mod b) 0) as [E|]; [|exact I].
  replace (Z.quot a b) with (a / b)%Z; [apply SI_arith|].
  rewrite (exact_div_eq a b N E) at 2. rewrite Z.mul_comm, Z.quot_mul by exact N. reflexivity.
Qed.
Lemma SI_eq a x b y : relSI a x -> relSI b y -> @xeq S a b = @xeq K x y.
Proof. intros [-> _] [-> _]. reflexivity. Qed.
Lemma SI_lt a x b y : relSI a x -> relSI b y -> @xlt S a b = @xlt K x y.
Proof. intros [-> _] [-> _]. reflexivity. Qed.
Lemma SI_sqrt a x : relSI a x -> refines relSI (@xsqrt S a) (@xsqrt K x).
Proof.
  intros [-> H]. cbn [xsqrt strictS intS]. destruct (Z.eqb_spec (Z.sqrt a * Z.sqrt a) a) as [E|]; [|exact I].
  pose proof (sqrt_self_le a E) as L. rewrite <- E at 2. rewrite isqrt_square.
  - apply ref_ok. split; [reflexivity|lia].
  - pose proof imax63. split; [lia|]. apply Z.sqrt_lt_square; lia.
  - apply in_small; [exact Hs|lia].
Qed.
Lemma SI_divsz a x n : relSI a x -> refines relSI (@divsz S a n) (@divsz K x n).
Proof.
  intros [-> H]. cbn [divsz strictS intS]. unfold idivsz.
  destruct (Z.leb_spec 0 a); [|exact I]. destruct (Z.ltb_spec 0 n); [|exact I]. destruct (Z.leb_spec n B); [|exact I].
  destruct (Z.eqb_spec (a mod n) 0); [|exact I]. cbn [andb].
  destruct (Z.eqb_spec n 0); [lia|]. rewrite (Z.mod_small a) by (pose proof imax63; lia).
  pose proof (div_le a n ltac:(lia) ltac:(lia)). rewrite conv_small by (auto; lia).
  apply ref_ok. split; [reflexivity|lia].
Qed.

Theorem tracks_int : tracks B K relSI relSI.
Proof.
  exact (Tracks B K relSI relSI SI_ld SI_st SI_lit SI_add SI_sub SI_mul SI_div SI_neg SI_abs SI_eq SI_lt SI_sqrt SI_divsz).
Qed.
End Int.

(** ** floating point *)
Section Float.
Variables prec emax : Z.
Context {Hp : Prec_gt_0 prec} {He : Prec_lt_emax prec emax}.
Notation fl := (binary_float prec emax).
Notation fexp := (SpecFloat.fexp prec emax).
Notation rnd := (round radix2 fexp ZnearestE).
Variable B : Z.
Hypothesis HB : (1 <= B <= 2 ^ prec)%Z.
Notation S := (strictS B).
Notation K := (floatS prec emax).
Notation rep := (rep prec emax).
Notation RB := (relB prec emax B).

Lemma rep_div a b x y : rep a x -> rep b y -> b <> 0%Z -> (a mod b = 0)%Z -> (Z.abs (a / b) <= 2 ^ prec)%Z ->
  rep (a / b) (Bdiv mode_NE x y).
Proof.
  intros [Fx Ex] [Fy Ey] N E H.
  assert (Nb : IZR b <> 0%R) by (intros C; apply N, eq_IZR, C).
  assert (Q : (IZR a / IZR b = IZR (a / b))%R).
  { rewrite (exact_div_eq a b N E) at 1. rewrite mult_IZR. field. exact Nb. }
  generalize (Bdiv_correct prec emax Hp He mode_NE x y). simpl round_mode. rewrite Ex, Ey, Q.
  intros G. specialize (G Nb). rewrite (round_generic radix2 fexp ZnearestE _ (small_format prec emax _ H)) in G.
  rewrite Rlt_bool_true in G by (apply (small_lt_emax prec emax), H). destruct G as [E' [F' _]].
  split; [rewrite F'; exact Fx|exact E'].
Qed.

Lemma rep_sqrt a x : rep a x -> (Z.sqrt a * Z.sqrt a = a)%Z -> (Z.abs a <= 2 ^ prec)%Z -> rep (Z.sqrt a) (Bsqrt mode_NE x).
Proof.
  intros [Fx Ex] E H. pose proof (sqrt_self_le a E) as L.
  destruct (Bsqrt_correct prec emax Hp He mode_NE x) as [E' [F' _]]. simpl round_mode in E'.
  assert (Q : sqrt (B2R x) = IZR (Z.sqrt a)).
  { rewrite Ex, <- E, mult_IZR. rewrite sqrt_square by (apply IZR_le; apply Z.sqrt_nonneg).
    rewrite E. reflexivity. }
  split.
  - rewrite F'. destruct x as [s|s| |s m e Bx]; try discriminate; [reflexivity|]. destruct s; [|reflexivity].
    exfalso. assert (0 <= IZR a)%R by (apply IZR_le; nia). rewrite <- Ex in H0.
    assert (B2R (B754_finite true m e Bx : fl) < 0)%R by (apply F2R_lt_0; reflexivity). lra.
  - rewrite E', Q. apply round_generic; [apply valid_rnd_N|]. apply (small_format prec emax). lia.
Qed.

Lemma SF_ld a x : RB a x -> RB (@ld S a) (@ld K x). Proof. exact (fun H => H). Qed.
Lemma SF_st a x : RB a x -> RB (@st S a) (@st K x). Proof. exact (fun H => H). Qed.
Lemma SF_lit z : (Z.abs z <= 1)%Z -> RB (@lit S z) (@lit K z).
Proof. intros H. split; [apply (rep_lit prec emax)|]; cbn [lit strictS]; lia. Qed.
Lemma SF_add a x b y : RB a x -> RB b y -> refines RB (@xadd S a b) (@xadd K x y).
Proof. exact (B_add prec emax B HB a x b y). Qed.
Lemma SF_sub a x b y : RB a x -> RB b y -> refines RB (@xsub S a b) (@xsub K x y).
Proof. exact (B_sub prec emax B HB a x b y). Qed.
Lemma SF_mul a x b y : RB a x -> RB b y -> refines RB (@xmul S a b) (@xmul K x y).
Proof. exact (B_mul prec emax B HB a x b y). Qed.
Lemma SF_abs a x : RB a x -> refines RB (@xabs S a) (@xabs K x).
Proof. exact (B_abs prec emax B HB a x). Qed.
Lemma SF_neg a x : RB a x -> refines RB (@xneg S a) (@xneg K x).
Proof. intros [Hx _]. apply ref_chk. intros H. eexists. split; [reflexivity|]. split; [apply rep_neg, Hx|exact H]. Qed.
Lemma SF_div a x b y : RB a x -> RB b y -> refines RB (@xdiv S a b) (@xdiv K x y).
Proof.
  intros [Hx _] [Hy _]. cbn [xdiv strictS floatS]. destruct (Z.eqb_spec b 0) as [|N]; [exact I|].
  destruct (Z.eqb_spec (a mod b) 0) as [E|]; [|exact I]. apply ref_chk. intros H. eexists. split; [reflexivity|].
  split; [|exact H]. apply rep_div; auto; lia.
Qed.
Lemma SF_eq a x b y : RB a x -> RB b y -> @xeq S a b = @xeq K x y.
Proof. intros [Hx _] [Hy _]. apply (rep_eq prec emax a b x y Hx Hy). Qed.
Lemma SF_lt a x b y : RB a x -> RB b y -> @xlt S a b = @xlt K x y.
Proof. intros [Hx _] [Hy _]. apply (rep_lt prec emax a b x y Hx Hy). Qed.
Lemma SF_sqrt a x : RB a x -> refines RB (@xsqrt S a) (@xsqrt K x).
Proof.
  intros [Hx H]. cbn [xsqrt strictS floatS]. destruct (Z.eqb_spec (Z.sqrt a * Z.sqrt a) a) as [E|]; [|exact I].
  apply ref_ok. split; [apply rep_sqrt; auto; lia|]. apply sqrt_self_le in E. lia.
Qed.
Lemma SF_divsz a x n : RB a x -> refines RB (@divsz S a n) (@divsz K x n).
Proof.
  intros [Hx H]. cbn [divsz strictS floatS].
  destruct (Z.leb_spec 0 a); [|exact I]. destruct (Z.ltb_spec 0 n); [|exact I]. destruct (Z.leb_spec n B); [|exact I].
  destruct (Z.eqb_spec (a mod n) 0) as [E|]; [|exact I]. cbn [andb]. pose proof (div_le a n ltac:(lia) ltac:(lia)).
  apply ref_ok. split; [|lia]. apply rep_div; auto; try lia. apply (rep_lit prec emax). lia.
Qed.

Theorem tracks_float : tracks B K RB RB.
Proof.
  exact (Tracks B K RB RB SF_ld SF_st SF_lit SF_add SF_sub SF_mul SF_div SF_neg SF_abs SF_eq SF_lt SF_sqrt SF_divsz).
Qed.
End Float.

(** ** the functions that divide *)
Section Functions.
Context (B : Z) (K : scalar) (rel : Z -> elt K -> Prop) (relx : Z -> xpr K -> Prop).
Hypothesis T : tracks B K rel relx.
Notation S := (strictS B).
Notation RM := (mrel rel).

Let h_ld : forall a a', rel a a' -> relx (@ld S a) (ld a') := tr_ld _ _ _ _ T.
Let h_st : forall v v', relx v v' -> rel (@st S v) (st v') := tr_st _ _ _ _ T.
Let h_0 : relx (@lit S 0) (lit 0) := tr_lit _ _ _ _ T 0%Z ltac:(cbn; lia).
Let h_1 : relx (@lit S 1) (lit 1) := tr_lit _ _ _ _ T 1%Z ltac:(cbn; lia).
Let h_m1 : relx (@lit S (-1)) (lit (-1)) := tr_lit _ _ _ _ T (-1)%Z ltac:(cbn; lia).
Let h_add := fun a x b y => tr_add _ _ _ _ T a x b y.
Let h_sub := fun a x b y => tr_sub _ _ _ _ T a x b y.
Let h_mul := fun a x b y => tr_mul _ _ _ _ T a x b y.
Let h_div := fun a x b y => tr_div _ _ _ _ T a x b y.
Let h_neg := tr_neg _ _ _ _ T.
Let h_eq := fun a x b y => tr_eq _ _ _ _ T a x b y.
Let h_sqrt := tr_sqrt _ _ _ _ T.
Let h_divsz := tr_divsz _ _ _ _ T.

Lemma track_sum n m A A' C C' : RM A A' -> RM C C' -> refines RM (sum S n m A C) (sum K n m A' C').
Proof. eapply (sum_ref S K rel relx); eauto. Qed.
Lemma track_sub n m A A' C C' : RM A A' -> RM C C' -> refines RM (sub S n m A C) (sub K n m A' C').
Proof. eapply (sub_ref S K rel relx); eauto. Qed.
Lemma track_mult n m p A A' C C' : RM A A' -> RM C C' -> refines RM (mult S n m p A C) (mult K n m p A' C').
Proof. eapply (mult_ref S K rel relx); eauto. Qed.
Lemma track_div n m A A' s s' : RM A A' -> rel s s' -> refines RM (div S n m A s) (div K n m A' s').
Proof. eapply (div_ref S K rel relx); eauto. Qed.
Lemma track_det n A A' : RM A A' -> refines rel (det S n A) (det K n A').
Proof. eapply (det_ref S K rel relx); eauto. Qed.
Lemma track_inv n A A' : RM A A' -> refines RM (inv S n A) (inv K n A').
Proof. eapply (inv_ref S K rel relx); eauto. Qed.
Lemma track_pow n w A A' p : RM A A' -> refines RM (pow S n w A p) (pow K n w A' p).
Proof. eapply (pow_ref_all S K rel relx); eauto. Qed.
Lemma track_lu n A A' : RM A A' -> refines (relP RM RM) (lu S n A) (lu K n A').
Proof. eapply (lu_ref S K rel relx); eauto. Qed.
Lemma track_chol n A A' : RM A A' -> refines RM (chol S n A) (chol K n A').
Proof. eapply (chol_ref S K rel relx); eauto. Qed.
Lemma track_mean n m A A' : RM A A' -> refines rel (mean S n m A) (mean K n m A').
Proof. eapply (mean_ref S K rel relx); eauto. Qed.
Lemma track_var n m A A' : RM A A' -> refines rel (var S n m A) (var K n m A').
Proof. eapply (var_ref S K rel relx); eauto. Qed.
Lemma track_stddev n m A A' : RM A A' -> refines rel (stddev S n m A) (stddev K n m A').
Proof. eapply (stddev_ref S K rel relx); eauto. Qed.
End Functions.
