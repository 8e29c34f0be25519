(** * inv of small integer matrices with bounded entries does not overflow *)
From Coq Require Import ZArith List Lia Bool.
Import ListNotations.
From Verif Require Import Base Scalar CInt Model Spec Loops Struct IntSqrt IntFactor.
Local Open Scope Z_scope.

Section Signed.
Variable t : ityp.
Hypothesis Hs : sgn t = true.
Hypothesis Hw : 32 <= width t.
Notation K := (intS t).

Lemma abs_in z : Z.abs z <= imax t -> in_range t z = true.
Proof. intros H. unfold imax in H. rewrite Hs in H. apply range_iff; [exact Hs|]. lia. Qed.

Lemma ar z : Z.abs z <= imax t -> iarith (promote t) z = Ok z.
Proof. intros H. rewrite promote_id by exact Hw. unfold iarith. rewrite Hs, abs_in by exact H. reflexivity. Qed.

Lemma conv_abs z : Z.abs z <= imax t -> iconv t z = z.
Proof. intros H. apply conv_id; try assumption. apply abs_in. exact H. Qed.

Lemma lit_zero : iconv (promote t) 0 = 0.
Proof. rewrite promote_id by exact Hw. apply conv_id; try assumption. apply small_in; try assumption. lia. Qed.

Lemma quot_abs a b : Z.abs (Z.quot a b) <= Z.abs a.
Proof.
  destruct (Z.eq_dec b 0) as [->|Hb]; [rewrite Z.quot_0_r_ext by reflexivity; lia|].
  rewrite <- Z.quot_abs by exact Hb. apply Z.quot_le_upper_bound; nia.
Qed.

Lemma dv a b : b <> 0 -> Z.abs a <= imax t -> idiv (promote t) a b = Ok (Z.quot a b).
Proof.
  intros Hb Ha. unfold idiv. destruct (Z.eqb_spec b 0); [contradiction|]. apply ar.
  pose proof (quot_abs a b). lia.
Qed.

Lemma div_ret n m (f : nat -> nat -> Z) d b : d <> 0 -> (forall i j, (i < n)%nat -> (j < m)%nat -> Z.abs (f i j) <= b) ->
  b <= imax t -> op_div K n m (mk n m f) d = Ok (mk n m (fun i j => Z.quot (f i j) d)).
Proof.
  intros Hd Hf Hb. unfold op_div. rewrite div_tab. cbn [xeq ld lit intS]. rewrite lit_zero.
  destruct (Z.eqb_spec d 0); [contradiction|]. apply tabM_ok. intros i j Hi Hj.
  specialize (Hf i j Hi Hj). cbn [xdiv ld intS]. rewrite dv by (assumption || lia).
  cbn [bind]. f_equal. cbn [st intS]. apply conv_abs. pose proof (quot_abs (f i j) d). lia.
Qed.

Section Bounded.
Variable a0 : Z.

Lemma mul_abs x y p q : Z.abs x <= p -> Z.abs y <= q -> Z.abs (x * y) <= p * q.
Proof. intros Hx Hy. rewrite Z.abs_mul. apply Z.mul_le_mono_nonneg; lia. Qed.

Lemma inv2_ret (f : nat -> nat -> Z) : (forall i j, (i < 2)%nat -> (j < 2)%nat -> Z.abs (f i j) <= a0) ->
  2 * (a0 * a0) <= imax t ->
  let d := f 0%nat 0%nat * f 1%nat 1%nat - f 0%nat 1%nat * f 1%nat 0%nat in
  det K 2 (mk 2 2 f) = Ok d /\ (d <> 0 -> exists Y, inv K 2 (mk 2 2 f) = Ok Y).
Proof.
  intros Hf HM d.
  assert (H00 : Z.abs (f 0%nat 0%nat) <= a0) by (apply Hf; lia).
  assert (H01 : Z.abs (f 0%nat 1%nat) <= a0) by (apply Hf; lia).
  assert (H10 : Z.abs (f 1%nat 0%nat) <= a0) by (apply Hf; lia).
  assert (H11 : Z.abs (f 1%nat 1%nat) <= a0) by (apply Hf; lia).
  assert (P1 := mul_abs _ _ _ _ H00 H11). assert (P2 := mul_abs _ _ _ _ H01 H10).
  assert (a0 <= a0 * a0) by nia.
  assert (Ed : det K 2 (mk 2 2 f) = Ok d).
  { change (det K 2 (mk 2 2 f)) with (let* x := iarith (promote t) (f 0%nat 0%nat * f 1%nat 1%nat) in
     let* y := iarith (promote t) (f 0%nat 1%nat * f 1%nat 0%nat) in
     let* r := iarith (promote t) (x - y) in Ok (iconv t r)).
    rewrite ar by lia. cbn [bind]. rewrite ar by lia. cbn [bind]. rewrite ar by lia. cbn [bind].
    rewrite conv_abs by lia. reflexivity. }
  split; [exact Ed|]. intros Hd.
  change (inv K 2 (mk 2 2 f)) with (let* d := det K 2 (mk 2 2 f) in
    if d =? iconv (promote t) 0 then Throw OverflowError else
    let* n01 := iarith (promote t) (- f 0%nat 1%nat) in
    let* n10 := iarith (promote t) (- f 1%nat 0%nat) in
    op_div K 2 2 [[f 1%nat 1%nat; iconv t n01]; [iconv t n10; f 0%nat 0%nat]] d).
  rewrite Ed, lit_zero. cbn [bind]. destruct (Z.eqb_spec d 0); [contradiction|].
  rewrite ar by lia. cbn [bind]. rewrite ar by lia. cbn [bind]. rewrite !conv_abs by lia.
  set (N := [[_; _]; _]).
  change N with (mk 2 2 (fun i j => nth j (nth i N []) 0)).
  rewrite (div_ret 2 2 _ d a0); [eexists; reflexivity|exact Hd| |lia].
  intros [|[|i]] [|[|j]] Hi Hj; try (exfalso; lia); unfold N; cbn [nth]; lia.
Qed.

Lemma mul3_ret q : a0 * a0 <= q -> a0 * a0 * a0 <= q -> q <= imax t ->
  forall x y z, Z.abs x <= a0 -> Z.abs y <= a0 -> Z.abs z <= a0 ->
  mul3 K x y z = Ok (x * y * z) /\ Z.abs (x * y * z) <= q.
Proof.
  intros Q1 Q2 Q3 x y z Hx Hy Hz. pose proof (mul_abs _ _ _ _ Hx Hy) as E1.
  pose proof (mul_abs _ _ _ _ E1 Hz) as E2. split; [|lia].
  unfold mul3. cbn [xmul intS]. rewrite ar by lia. cbn [bind]. apply ar. lia.
Qed.

Lemma mul_sub_ret : 2 * (a0 * a0) <= imax t ->
  forall x y z w, Z.abs x <= a0 -> Z.abs y <= a0 -> Z.abs z <= a0 -> Z.abs w <= a0 ->
  mul_sub K x y z w = Ok (x * y - z * w) /\ Z.abs (x * y - z * w) <= 2 * (a0 * a0).
Proof.
  intros Q x y z w Hx Hy Hz Hw'. pose proof (mul_abs _ _ _ _ Hx Hy) as E1.
  pose proof (mul_abs _ _ _ _ Hz Hw') as E2. split; [|lia].
  unfold mul_sub. cbn [xmul xsub ld st intS]. rewrite ar by lia. cbn [bind].
  rewrite ar by lia. cbn [bind]. rewrite ar by lia. cbn [bind]. f_equal. apply conv_abs. lia.
Qed.

Lemma sum6_ret q t1 t2 t3 t4 t5 t6 : 6 * q <= imax t ->
  Z.abs t1 <= q -> Z.abs t2 <= q -> Z.abs t3 <= q -> Z.abs t4 <= q -> Z.abs t5 <= q -> Z.abs t6 <= q ->
  (let* r := iarith (promote t) (t1 + t2) in
   let* r := iarith (promote t) (r + t3) in
   let* r := iarith (promote t) (r - t4) in
   let* r := iarith (promote t) (r - t5) in
   let* r := iarith (promote t) (r - t6) in
   Ok (iconv t r)) = Ok (t1 + t2 + t3 - t4 - t5 - t6).
Proof.
  intros. do 5 (rewrite ar by lia; cbn [bind]). rewrite conv_abs by lia. reflexivity.
Qed.

Lemma inv3_ret (f : nat -> nat -> Z) : (forall i j, (i < 3)%nat -> (j < 3)%nat -> Z.abs (f i j) <= a0) ->
  6 * (a0 * a0 * a0) <= imax t ->
  let d := f 0%nat 0%nat * f 1%nat 1%nat * f 2%nat 2%nat + f 0%nat 1%nat * f 1%nat 2%nat * f 2%nat 0%nat
    + f 0%nat 2%nat * f 1%nat 0%nat * f 2%nat 1%nat - f 0%nat 2%nat * f 1%nat 1%nat * f 2%nat 0%nat
    - f 0%nat 1%nat * f 1%nat 0%nat * f 2%nat 2%nat - f 0%nat 0%nat * f 1%nat 2%nat * f 2%nat 1%nat in
  det K 3 (mk 3 3 f) = Ok d /\ (d <> 0 -> exists Y, inv K 3 (mk 3 3 f) = Ok Y).
Proof.
  intros Hf HM.
  set (a := f 0%nat 0%nat). set (b := f 0%nat 1%nat). set (c := f 0%nat 2%nat).
  set (d := f 1%nat 0%nat). set (e := f 1%nat 1%nat). set (g := f 1%nat 2%nat).
  set (h := f 2%nat 0%nat). set (k := f 2%nat 1%nat). set (l := f 2%nat 2%nat). intros D.
  assert (Ha : Z.abs a <= a0) by (apply Hf; lia). assert (Hb : Z.abs b <= a0) by (apply Hf; lia).
  assert (Hc : Z.abs c <= a0) by (apply Hf; lia). assert (Hdd : Z.abs d <= a0) by (apply Hf; lia).
  assert (He : Z.abs e <= a0) by (apply Hf; lia). assert (Hg : Z.abs g <= a0) by (apply Hf; lia).
  assert (Hh : Z.abs h <= a0) by (apply Hf; lia). assert (Hk : Z.abs k <= a0) by (apply Hf; lia).
  assert (Hl : Z.abs l <= a0) by (apply Hf; lia).
  assert (P0 : 0 <= a0) by (clear - Ha; lia). assert (P1 : a0 <= a0 * a0) by (clear - P0; nia).
  assert (P2 : a0 * a0 <= a0 * a0 * a0) by (clear - P0 P1; nia).
  assert (M3 := mul3_ret (a0 * a0 * a0) P2 (Z.le_refl _) ltac:(clear - HM P0 P1 P2; lia)).
  assert (MS := mul_sub_ret ltac:(clear - HM P0 P1 P2; lia)).
  assert (Ed : det K 3 (mk 3 3 f) = Ok D).
  { change (det K 3 (mk 3 3 f)) with (let* t1 := mul3 K a e l in
    let* t2 := mul3 K b g h in
    let* r := iarith (promote t) (t1 + t2) in
    let* t3 := mul3 K c d k in
    let* r := iarith (promote t) (r + t3) in
    let* t4 := mul3 K c e h in
    let* r := iarith (promote t) (r - t4) in
    let* t5 := mul3 K b d l in
    let* r := iarith (promote t) (r - t5) in
    let* t6 := mul3 K a g k in
    let* r := iarith (promote t) (r - t6) in
    Ok (iconv t r)).
    destruct (M3 a e l) as [-> B1]; try assumption. destruct (M3 b g h) as [-> B2]; try assumption.
    destruct (M3 c d k) as [-> B3]; try assumption. destruct (M3 c e h) as [-> B4]; try assumption.
    destruct (M3 b d l) as [-> B5]; try assumption. destruct (M3 a g k) as [-> B6]; try assumption.
    apply (sum6_ret (a0 * a0 * a0)); assumption. }
  split; [exact Ed|]. intros Hd.
  change (inv K 3 (mk 3 3 f)) with (let* D := det K 3 (mk 3 3 f) in
    if D =? iconv (promote t) 0 then Throw OverflowError else
    let* i00 := mul_sub K e l g k in let* i01 := mul_sub K c k b l in let* i02 := mul_sub K b g c e in
    let* i10 := mul_sub K g h d l in let* i11 := mul_sub K a l c h in let* i12 := mul_sub K c d a g in
    let* i20 := mul_sub K d k e h in let* i21 := mul_sub K b h a k in let* i22 := mul_sub K a e b d in
    op_div K 3 3 [[i00; i01; i02]; [i10; i11; i12]; [i20; i21; i22]] D).
  rewrite Ed, lit_zero. cbn [bind]. destruct (Z.eqb_spec D 0); [contradiction|].
  clearbody a b c d e g h k l. clear Ed.
  destruct (MS e l g k) as [-> ?]; try assumption. cbn [bind].
  destruct (MS c k b l) as [-> ?]; try assumption. cbn [bind].
  destruct (MS b g c e) as [-> ?]; try assumption. cbn [bind].
  destruct (MS g h d l) as [-> ?]; try assumption. cbn [bind].
  destruct (MS a l c h) as [-> ?]; try assumption. cbn [bind].
  destruct (MS c d a g) as [-> ?]; try assumption. cbn [bind].
  destruct (MS d k e h) as [-> ?]; try assumption. cbn [bind].
  destruct (MS b h a k) as [-> ?]; try assumption. cbn [bind].
  destruct (MS a e b d) as [-> ?]; try assumption. cbn [bind].
  set (N := [[_; _; _]; _; _]).
  change N with (mk 3 3 (fun i j => nth j (nth i N []) 0)).
  rewrite (div_ret 3 3 _ D (2 * (a0 * a0))); [eexists; reflexivity|exact Hd| |clear - HM P0 P1 P2; lia].
  intros [|[|[|i]]] [|[|[|j]]] Hi Hj; try (exfalso; clear - Hi Hj; lia); unfold N; cbn [nth]; assumption.
Qed.
End Bounded.
End Signed.
