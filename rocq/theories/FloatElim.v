(** * Backward error of the determinant of larger matrices in floating point *)

From Coq Require Import ZArith Reals Lra Lia Bool List Arith.
Import ListNotations.
From Flocq Require Import IEEE754.BinarySingleNaN Core.Core.
From Verif Require Import Base Scalar CFloat Model Spec Loops Struct Elim LURec Float FloatMx FloatErr FloatLU.
Local Open Scope nat_scope.

(** sums and products f lo, ..., f (hi-1) *)
Definition rsumf (lo hi : nat) (f : nat -> R) : R := fold_right Rplus 0%R (map f (seq lo (hi - lo))).
Definition rprodf (lo hi : nat) (f : nat -> R) : R := fold_right Rmult 1%R (map f (seq lo (hi - lo))).

Lemma rsumf_first lo hi f : lo < hi -> rsumf lo hi f = (f lo + rsumf (S lo) hi f)%R.
Proof. intros H. unfold rsumf. replace (hi - lo) with (S (hi - S lo)) by lia. reflexivity. Qed.

Lemma rsumf_empty lo hi f : hi <= lo -> rsumf lo hi f = 0%R.
Proof. intros H. unfold rsumf. replace (hi - lo) with 0 by lia. reflexivity. Qed.

Lemma rsumf_ext lo hi f g : (forall k, lo <= k < hi -> f k = g k) -> rsumf lo hi f = rsumf lo hi g.
Proof. intros H. unfold rsumf. rewrite (map_seq_ext f g lo (hi - lo)); [reflexivity|]. intros. apply H. lia. Qed.

Lemma rsumf_0 lo hi f : (forall k, lo <= k < hi -> f k = 0%R) -> rsumf lo hi f = 0%R.
Proof.
  intros H. rewrite (rsumf_ext lo hi f (fun _ => 0%R) H). unfold rsumf. generalize (seq lo (hi - lo)).
  induction l as [|x l IH]; [reflexivity|]. simpl. rewrite IH. ring.
Qed.

Lemma rsumf_abs lo hi f : (Rabs (rsumf lo hi f) <= rsumf lo hi (fun k => Rabs (f k)))%R.
Proof.
  unfold rsumf. generalize (seq lo (hi - lo)). induction l as [|x l IH]; simpl; [rewrite Rabs_R0; lra|].
  eapply Rle_trans; [apply Rabs_triang|]. lra.
Qed.

Lemma rsumf_nonneg lo hi f : (forall k, lo <= k < hi -> (0 <= f k)%R) -> (0 <= rsumf lo hi f)%R.
Proof.
  intros H. unfold rsumf. assert (X : forall k, In k (seq lo (hi - lo)) -> (0 <= f k)%R)
    by (intros k Hk; apply in_seq in Hk; apply H; lia). revert X.
  generalize (seq lo (hi - lo)). induction l as [|x l IH]; intros X; simpl; [lra|].
  pose proof (X x (or_introl eq_refl)). specialize (IH (fun k Hk => X k (or_intror Hk))). lra.
Qed.

Lemma rsumf_rsum n f : rsumf 0 n f = rsum n f.
Proof. unfold rsumf, rsum. rewrite Nat.sub_0_r. reflexivity. Qed.

Lemma rprodf_last lo hi f : lo <= hi -> rprodf lo (S hi) f = (rprodf lo hi f * f hi)%R.
Proof.
  intros H. unfold rprodf. replace (S hi - lo) with (S (hi - lo)) by lia. rewrite seq_S, map_app.
  replace (lo + (hi - lo)) with hi by lia. generalize (map f (seq lo (hi - lo))). simpl.
  induction l as [|x l IH]; simpl; [ring|]. rewrite IH. ring.
Qed.

Lemma rprodf_empty lo hi f : hi <= lo -> rprodf lo hi f = 1%R.
Proof. intros H. unfold rprodf. replace (hi - lo) with 0 by lia. reflexivity. Qed.

Lemma rprodf_abs lo hi f : Rabs (rprodf lo hi f) = rprodf lo hi (fun k => Rabs (f k)).
Proof.
  unfold rprodf. generalize (seq lo (hi - lo)). induction l as [|x l IH]; simpl; [apply Rabs_R1|].
  rewrite Rabs_mult, IH. reflexivity.
Qed.

(** row exchanges, the first one in the list done first *)
Definition swap1 (p : nat * nat) (k : nat) : nat :=
  if k =? fst p then snd p else if k =? snd p then fst p else k.
Definition swaps (sw : list (nat * nat)) (k : nat) : nat := fold_right swap1 k sw.

Section FloatElim.
Variables prec emax : Z.
Context {Hp : Prec_gt_0 prec} {He : Prec_lt_emax prec emax}.
Notation fl := (binary_float prec emax).
Notation K := (floatS prec emax).
Notation rnd := (round radix2 (SpecFloat.fexp prec emax) ZnearestE).
Notation u := (uro prec).
Notation h := (eta prec emax).
Notation one := (f_of_Z prec emax 1).
Notation "x ⊕ y" := (Bplus mode_NE x y) (at level 50, left associativity).
Notation "x ⊖ y" := (Bminus mode_NE x y) (at level 50, left associativity).
Notation "x ⊗ y" := (Bmult mode_NE x y) (at level 40, left associativity).
Notation "x ⊘ y" := (Bdiv mode_NE x y) (at level 40, left associativity).
Notation zero := (B754_zero false : fl).

(** ** the product of the diagonal *)
Fixpoint fprod (m : nat) (a : nat -> fl) : fl :=
  match m with O => one | S m => fprod m a ⊗ a m end.

Lemma fprod_ext m a b : (forall k, k < m -> a k = b k) -> fprod m a = fprod m b.
Proof. induction m as [|m IH]; intros H; [reflexivity|]. simpl. rewrite IH, H by (intros; try apply H; lia). reflexivity. Qed.

Lemma det_prod_float n (g : nat -> nat -> fl) (fac : fl) :
  det_prod K n (mk n n g) fac = Ok (fprod n (fun k => g k k) ⊘ fac).
Proof.
  unfold det_prod. rewrite (for_states 0 n _ (fun k => fprod k (fun k => g k k))); [reflexivity|lia|reflexivity|].
  intros k Hk. rewrite aget_mk by lia. reflexivity.
Qed.

Lemma fprod_finite m a : is_finite (fprod m a) = true -> forall k, k < m -> is_finite (a k) = true.
Proof.
  induction m as [|m IH]; intros H k Hk; [lia|]. simpl in H. destruct (Bmult_finite prec emax _ _ H) as [F1 [F2 _]].
  destruct (Nat.eq_dec k m) as [->|]; [exact F2|]. apply IH; [exact F1|lia].
Qed.

Lemma fprod_zero m a c : is_finite (fprod m a) = true -> c < m -> B2R (a c) = 0%R -> B2R (fprod m a) = 0%R.
Proof.
  induction m as [|m IH]; intros H Hc Z; [lia|]. simpl in *. destruct (Bmult_finite prec emax _ _ H) as [F1 [F2 ->]].
  destruct (Nat.eq_dec c m) as [<-|]; [rewrite Z, Rmult_0_r|rewrite IH, Rmult_0_l by (try assumption; lia)];
    apply (rnd0 prec emax).
Qed.

(** the sum over k of the product of what follows k *)
Definition tails (m : nat) (a : nat -> R) : R := rsum m (fun k => rprodf (S k) m (fun j => Rabs (a j))).

Lemma tails_S m a : tails (S m) a = (tails m a * Rabs (a m) + 1)%R.
Proof.
  unfold tails. rewrite rsum_S, (rprodf_empty (S m) (S m)) by lia. f_equal.
  rewrite (rsum_ext m _ (fun k => rprodf (S k) m (fun j => Rabs (a j)) * Rabs (a m))%R).
  - unfold rsum. generalize (seq 0 m). induction l as [|x l IH]; simpl; [ring|]. rewrite IH. ring.
  - intros k Hk. apply rprodf_last. lia.
Qed.

Lemma tails_nonneg m a : (0 <= tails m a)%R.
Proof.
  induction m as [|m IH]; [apply Rle_refl|]. rewrite tails_S. pose proof (Rmult_le_pos _ _ IH (Rabs_pos (a m))). lra.
Qed.

Lemma fprod_error m a : is_finite (fprod m a) = true ->
  (Rabs (B2R (fprod m a) - rprodf 0 m (fun k => B2R (a k))) <=
   ((1 + u) ^ m - 1) * Rabs (rprodf 0 m (fun k => B2R (a k))) + h * (1 + u) ^ m * tails m (fun k => B2R (a k)))%R.
Proof.
  induction m as [|m IH]; intros H.
  - cbn [fprod]. rewrite (proj1 (f_of_Z_1 prec emax)). unfold rprodf, tails, rsum. simpl.
    replace (1 - 1)%R with 0%R by ring. rewrite Rabs_R0. lra.
  - simpl fprod in *. destruct (Bmult_finite prec emax _ _ H) as [F1 [F2 _]]. specialize (IH F1).
    destruct (prod_error prec emax _ _ H) as [d [e [Hd [Hh E]]]]. rewrite E, rprodf_last, tails_S by lia.
    set (P := B2R (fprod m a)) in *. set (Q := rprodf 0 m (fun k => B2R (a k))) in *. set (x := B2R (a m)) in *.
    pose proof (tails_nonneg m (fun k => B2R (a k))) as T0.
    set (T := tails m (fun k => B2R (a k))) in *.
    pose proof (uro_pos prec) as Pu. pose proof (eta_pos prec emax) as Ph. pose proof (pow1u_ge1 prec (S m)) as Pg.
    replace (P * x * (1 + d) + e - Q * x)%R with ((P - Q) * (x * (1 + d)) + Q * x * d + e)%R by ring.
    eapply Rle_trans; [apply Rabs3|]. rewrite !Rabs_mult.
    assert (B1 : (Rabs (1 + d) <= 1 + u)%R).
    { eapply Rle_trans; [apply Rabs_triang|]. rewrite Rabs_R1. lra. }
    pose proof (Rabs_pos x) as Px. pose proof (Rabs_pos Q) as PQ.
    assert (T1 : (Rabs (P - Q) * (Rabs x * Rabs (1 + d)) <=
      (((1 + u) ^ m - 1) * Rabs Q + h * (1 + u) ^ m * T) * (Rabs x * (1 + u)))%R).
    { apply Rmult_le_compat; [apply Rabs_pos|apply Rmult_le_pos; apply Rabs_pos|exact IH|].
      apply Rmult_le_compat_l; [exact Px|exact B1]. }
    assert (T2 : (Rabs Q * Rabs x * Rabs d <= Rabs Q * Rabs x * u)%R).
    { apply Rmult_le_compat_l; [apply Rmult_le_pos; assumption|exact Hd]. }
    assert (T3 : (h <= h * (1 + u) ^ S m)%R).
    { rewrite <- (Rmult_1_r h) at 1. apply Rmult_le_compat_l; assumption. }
    replace (((1 + u) ^ S m - 1) * (Rabs Q * Rabs x) + h * (1 + u) ^ S m * (T * Rabs x + 1))%R with
      ((((1 + u) ^ m - 1) * Rabs Q + h * (1 + u) ^ m * T) * (Rabs x * (1 + u)) + Rabs Q * Rabs x * u + h * (1 + u) ^ S m)%R
      by (simpl; ring).
    lra.
Qed.

(** dividing by 1 or -1 is exact *)
Lemma div_sign (x s : fl) : is_finite s = true -> (B2R s = 1 \/ B2R s = -1)%R -> is_finite (x ⊘ s) = true ->
  is_finite x = true /\ B2R (x ⊘ s) = (B2R x * B2R s)%R.
Proof.
  intros Fs Hs F. destruct (Bdiv_finite prec emax _ _ F Fs) as [Fx [_ E]]. split; [exact Fx|]. rewrite E.
  destruct Hs as [-> | ->].
  - unfold Rdiv. rewrite Rinv_1, Rmult_1_r. apply rnd_B2R.
  - replace (B2R x / -1)%R with (B2R (Bopp x)) by (rewrite B2R_Bopp; field). rewrite (rnd_B2R prec emax), B2R_Bopp. ring.
Qed.

Lemma mult_m1 (s : fl) : is_finite s = true -> (B2R s = 1 \/ B2R s = -1)%R ->
  is_finite (s ⊗ f_of_Z prec emax (-1)) = true /\ B2R (s ⊗ f_of_Z prec emax (-1)) = (- B2R s)%R.
Proof.
  intros Fs Hs. destruct (f_of_Z_small prec emax (-1)) as [E [F _]].
  { pose proof (pow_prec_ge2 prec). simpl. lia. }
  assert (X : (B2R s * B2R (f_of_Z prec emax (-1)) = B2R (Bopp s))%R) by (rewrite E, B2R_Bopp; simpl; ring).
  destruct (Bmult_exact prec emax s (f_of_Z prec emax (-1)) Fs F) as [G1 [G2 _]].
  - rewrite X. apply generic_format_B2R.
  - rewrite X. apply abs_lt_emax.
  - split; [exact G1|]. rewrite G2, X. apply B2R_Bopp.
Qed.

(** ** one elimination step on one entry *)
Lemma elim_float (f : nat -> nat -> fl) r p i j :
  elim_val K f r p i j = Ok (f i j ⊖ (f i p ⊗ f r j) ⊘ f r p).
Proof. reflexivity. Qed.

Lemma elim_step (x v a p : fl) : is_finite p = true -> is_finite (x ⊖ (v ⊗ a) ⊘ p) = true ->
  is_finite x = true /\ is_finite v = true /\ is_finite a = true /\ B2R p <> 0%R /\
  exists d th e, (Rabs d <= u /\ Rabs th <= (1 + u) ^ 2 - 1 /\ Rabs e <= h * (1 + u) * (1 + / Rabs (B2R p)) /\
    B2R x = B2R v / B2R p * B2R a * (1 + th) + e + B2R (x ⊖ (v ⊗ a) ⊘ p) * (1 + d))%R.
Proof.
  intros Fp F. destruct (Bminus_finite prec emax _ _ F) as [Fx [Fq _]].
  destruct (Bdiv_finite prec emax _ _ Fq Fp) as [Fm [Np Eq]]. destruct (Bmult_finite prec emax _ _ Fm) as [Fv [Fa _]].
  repeat (split; [assumption|]).
  destruct (sub_back prec emax _ _ F) as [d [Hd Ed]].
  destruct (prod_error prec emax _ _ Fm) as [d1 [e1 [Hd1 [He1 E1]]]].
  destruct (rnd_any prec emax (B2R (v ⊗ a) / B2R p)) as [d2 [e2 [Hd2 [He2 E2]]]].
  rewrite <- Eq in E2.
  exists d, (d1 + d2 + d1 * d2)%R, (e1 / B2R p * (1 + d2) + e2)%R.
  pose proof (uro_pos prec) as Pu. pose proof (eta_pos prec emax) as Ph.
  assert (Pp : (0 < / Rabs (B2R p))%R) by (apply Rinv_0_lt_compat, Rabs_pos_lt, Np).
  assert (B2 : (Rabs (1 + d2) <= 1 + u)%R).
  { eapply Rle_trans; [apply Rabs_triang|]. rewrite Rabs_R1. lra. }
  split; [exact Hd|]. split; [|split].
  - eapply Rle_trans; [apply Rabs3|]. rewrite Rabs_mult.
    pose proof (Rmult_le_compat (Rabs d1) u (Rabs d2) u (Rabs_pos _) (Rabs_pos _) Hd1 Hd2).
    replace ((1 + u) ^ 2 - 1)%R with (u + u + u * u)%R by ring. lra.
  - eapply Rle_trans; [apply Rabs_triang|]. unfold Rdiv. rewrite !Rabs_mult, Rabs_Rinv by exact Np.
    assert (T : (Rabs e1 * / Rabs (B2R p) * Rabs (1 + d2) <= h * / Rabs (B2R p) * (1 + u))%R).
    { apply Rmult_le_compat; [apply Rmult_le_pos; [apply Rabs_pos|lra]|apply Rabs_pos| |exact B2].
      apply Rmult_le_compat_r; [lra|exact He1]. }
    pose proof (Rmult_le_pos h u Ph ltac:(lra)). nra.
  - assert (X : B2R x = (B2R (v ⊗ a ⊘ p) + B2R (x ⊖ v ⊗ a ⊘ p) * (1 + d))%R) by lra.
    rewrite X, E2, E1. field. exact Np.
Qed.

Lemma back_bound c x0 x1 w S SA d th e H : (1 <= c)%nat ->
  (Rabs d <= u)%R -> (Rabs th <= (1 + u) ^ 2 - 1)%R ->
  x0 = (w * (1 + th) + e + x1 * (1 + d))%R ->
  (Rabs S <= SA)%R -> (Rabs (x1 - S) <= ((1 + u) ^ c - 1) * SA + H)%R ->
  (Rabs (x0 - (w + S)) <= ((1 + u) ^ (c + 1) - 1) * (Rabs w + SA) + (Rabs e + (1 + u) * H))%R.
Proof.
  intros Hc Hd Ht -> HS HX. pose proof (uro_pos prec) as Pu.
  replace (w * (1 + th) + e + x1 * (1 + d) - (w + S))%R with (w * th + e + ((x1 - S) * (1 + d) + S * d))%R by ring.
  eapply Rle_trans; [apply Rabs3|]. rewrite Rabs_mult.
  assert (B1 : (Rabs (1 + d) <= 1 + u)%R).
  { eapply Rle_trans; [apply Rabs_triang|]. rewrite Rabs_R1. lra. }
  assert (T1 : (Rabs ((x1 - S) * (1 + d) + S * d) <= (((1 + u) ^ c - 1) * SA + H) * (1 + u) + SA * u)%R).
  { eapply Rle_trans; [apply Rabs_triang|]. rewrite !Rabs_mult. apply Rplus_le_compat.
    - apply Rmult_le_compat; auto using Rabs_pos.
    - apply Rmult_le_compat; auto using Rabs_pos. }
  assert (T2 : (Rabs w * Rabs th <= Rabs w * ((1 + u) ^ (c + 1) - 1))%R).
  { apply Rmult_le_compat_l; [apply Rabs_pos|]. pose proof (pow1u_mono prec 2 (c + 1) ltac:(lia)). lra. }
  rewrite (Nat.add_1_r c) in *.
  replace ((((1 + u) ^ c - 1) * SA + H) * (1 + u) + SA * u)%R with
    (((1 + u) ^ Datatypes.S c - 1) * SA + (1 + u) * H)%R in T1 by (simpl; ring).
  lra.
Qed.

(** ** the run of the elimination from row r on *)
Definition dstep (n r : nat) (s : matrix fl * fl * nat) : outcome (ctrl (matrix fl * fl * nat) fl) :=
  let '(A, factor, pivot) := s in
  if n <=? pivot then let* d := det_prod K n A factor in Ok (Ret d)
  else
    let* found := det_search K (n * n + 1) n A r r pivot in
    match found with
    | Ret _ => let* d := det_prod K n A factor in Ok (Ret d)
    | Cont (i, pivot) =>
        let* s2 := (if i =? r then Ok (A, factor)
                    else let* A := swap_rows K n n A i r in Ok (A, factor ⊗ f_of_Z prec emax (-1))) in
        let '(A, factor) := s2 in
        let* A := det_eliminate K n A r pivot in
        Ok (Cont (A, factor, pivot + 1))
    end.

Definition drun (n r : nat) (s : matrix fl * fl * nat) : outcome fl :=
  let* res := for_ret r n (dstep n) s in
  match res with
  | Ret d => Ok d
  | Cont (A, factor, _) => det_prod K n A factor
  end.

Lemma det_general_drun n A : det_general K n A = drun n 0 (A, one, 0).
Proof. reflexivity. Qed.

Lemma drun_end n r A fac p : n <= r -> drun n r (A, fac, p) = det_prod K n A fac.
Proof. intros H. unfold drun. rewrite for_ret_empty by exact H. reflexivity. Qed.

Lemma drun_first n r s : r < n -> drun n r s =
  let* c := dstep n r s in match c with Ret d => Ok d | Cont s' => drun n (S r) s' end.
Proof.
  intros H. unfold drun, for_ret. replace (n - r) with (S (n - S r)) by lia. cbn [iter_ret]. rewrite bind_assoc.
  apply bind_ext. intros [s'|d] _; reflexivity.
Qed.

Definition isz (x : fl) : Prop := is_finite x = true /\ B2R x = 0%R.

Lemma Beqb_isz (x : fl) : Beqb x (f_of_Z prec emax 0) = true -> isz x.
Proof.
  rewrite (f_of_Z_0 prec emax). intros H. assert (F : is_finite x = true) by (destruct x as [|[]| |[]]; try discriminate; reflexivity).
  split; [exact F|]. apply (Beqb_finite prec emax x (B754_zero false) F eq_refl) in H. exact H.
Qed.

Lemma det_search_inv n (g : nat -> nat -> fl) r fuel : forall i p c, r <= i < n -> p < n ->
  det_search K fuel n (mk n n g) r i p = Ok c -> (forall k, r <= k < i -> isz (g k p)) ->
  match c with
  | Ret _ => forall k, r <= k < n -> isz (g k p)
  | Cont (i', p') => r <= i' < n /\ p <= p' < n /\ (p < p' -> forall k, r <= k < n -> isz (g k p))
  end.
Proof.
  induction fuel as [|fuel IH]; intros i p c Hi Hpn E H0; [discriminate|]. cbn [det_search] in E.
  rewrite aget_mk in E by lia. cbn [bind] in E. cbn [xeq ld lit floatS] in E.
  destruct (Beqb (g i p) (f_of_Z prec emax 0)) eqn:Ez.
  - apply Beqb_isz in Ez.
    assert (H1 : forall k, r <= k < i + 1 -> isz (g k p)).
    { intros k Hk. destruct (Nat.eq_dec k i) as [->|]; [exact Ez|apply H0; lia]. }
    destruct (Nat.eqb_spec n (i + 1)) as [En|Nn].
    + rewrite <- En in H1. destruct (Nat.eqb_spec n (p + 1)) as [Ep|Np].
      * injection E as <-. exact H1.
      * specialize (IH r (p + 1) c ltac:(lia) ltac:(lia) E ltac:(lia)). destruct c as [[i' p']|]; [|exact H1].
        destruct IH as [A1 [A2 A3]]. split; [exact A1|]. split; [lia|]. intros _. exact H1.
    + exact (IH (i + 1) p c ltac:(lia) Hpn E H1).
  - injection E as <-. split; [lia|]. split; [lia|]. lia.
Qed.

(** the matrix after the row exchange and the elimination *)
Definition swapg (g : nat -> nat -> fl) i0 r (i j : nat) : fl := g (swap1 (i0, r) i) j.
Definition elimg (g : nat -> nat -> fl) r p (i j : nat) : fl :=
  if (p <? i) && negb (i =? r) && (p <=? j) then g i j ⊖ (g i p ⊗ g r j) ⊘ g r p else g i j.

Lemma dstep_inv n r g fac p c : r < n -> dstep n r (mk n n g, fac, p) = Ok c ->
  (c = Ret (fprod n (fun k => g k k) ⊘ fac) /\ (p < n -> forall k, r <= k < n -> isz (g k p))) \/
  (exists i0 p', p < n /\ r <= i0 < n /\ p <= p' < n /\ (p < p' -> forall k, r <= k < n -> isz (g k p)) /\
     c = Cont (mk n n (elimg (swapg g i0 r) r p'), (if i0 =? r then fac else fac ⊗ f_of_Z prec emax (-1)), p' + 1)).
Proof.
  intros Hr E. unfold dstep in E. destruct (Nat.leb_spec n p) as [Hn|Hn].
  { rewrite det_prod_float in E. injection E as <-. left. split; [reflexivity|lia]. }
  apply bind_inv in E. destruct E as [fd [E1 E]].
  pose proof (det_search_inv n g r _ r p fd ltac:(lia) Hn E1 ltac:(lia)) as HS. destruct fd as [[i0 p']|[]].
  - right. exists i0, p'. destruct HS as [A1 [A2 A3]]. split; [exact Hn|]. split; [exact A1|]. split; [exact A2|]. split; [exact A3|].
    assert (X : (if i0 =? r then Ok (mk n n g, fac)
      else let* A := swap_rows K n n (mk n n g) i0 r in Ok (A, fac ⊗ f_of_Z prec emax (-1))) =
      Ok (mk n n (swapg g i0 r), if i0 =? r then fac else fac ⊗ f_of_Z prec emax (-1))).
    { destruct (Nat.eqb_spec i0 r) as [->|Ne].
      - do 2 f_equal. apply mk_ext. intros i j Hi Hj. unfold swapg, swap1. cbn [fst snd].
        destruct (Nat.eqb_spec i r) as [->|]; reflexivity.
      - change (@mk fl n n g) with (@mk (elt K) n n g). rewrite (swap_rows_mk K) by lia. cbn [bind]. do 2 f_equal.
        apply mk_ext. intros i j Hi Hj. unfold swapg, swap1. cbn [fst snd].
        destruct (i =? i0), (i =? r); reflexivity. }
    rewrite X in E. cbn [bind] in E. change (@mk fl n n (swapg g i0 r)) with (@mk (elt K) n n (swapg g i0 r)) in E.
    rewrite (det_eliminate_mk K n (swapg g i0 r) (fun i j =>
      swapg g i0 r i j ⊖ (swapg g i0 r i p' ⊗ swapg g i0 r r j) ⊘ swapg g i0 r r p') r p') in E
      by (try lia; intros; apply elim_float).
    injection E as <-. reflexivity.
  - rewrite det_prod_float in E. injection E as <-. left. split; [reflexivity|]. intros _. exact HS.
Qed.

Definition sgnf (fac : fl) : Prop := is_finite fac = true /\ (B2R fac = 1 \/ B2R fac = -1)%R.

Lemma sgnf_step fac (b : bool) : sgnf fac -> sgnf (if b then fac else fac ⊗ f_of_Z prec emax (-1)).
Proof.
  intros [F H]. destruct b; [split; assumption|]. destruct (mult_m1 fac F H) as [G1 G2]. split; [exact G1|].
  rewrite G2. lra.
Qed.

Lemma det_prod_zero n g fac c : sgnf fac -> c < n -> isz (g c c) ->
  is_finite (fprod n (fun k => g k k) ⊘ fac) = true -> B2R (fprod n (fun k => g k k) ⊘ fac) = 0%R.
Proof.
  intros [F H] Hc [_ Z] Fd. destruct (div_sign _ _ F H Fd) as [Fx ->].
  rewrite (fprod_zero n _ c Fx Hc Z). ring.
Qed.

(** once a column is skipped the result is 0 *)
Lemma drun_skipped n col : forall c r g fac p d, n - r = c -> col <= r -> r <= n -> col < p -> col < n ->
  (forall k, col <= k < n -> isz (g k col)) -> sgnf fac ->
  drun n r (mk n n g, fac, p) = Ok d -> is_finite d = true -> B2R d = 0%R.
Proof.
  induction c as [|c IH]; intros r g fac p d Hc Hcr Hrn Hcp Hcn Hz Hs E Fd.
  - rewrite drun_end in E by lia. rewrite det_prod_float in E. injection E as <-.
    apply (det_prod_zero n g fac col Hs Hcn); [apply Hz; lia|exact Fd].
  - rewrite drun_first in E by lia. apply bind_inv in E. destruct E as [ct [E1 E]].
    destruct (dstep_inv n r g fac p ct ltac:(lia) E1) as [[-> _]|[i0 [p' [Hpn [Hi0 [Hp' [_ ->]]]]]]].
    + injection E as <-. apply (det_prod_zero n g fac col Hs Hcn); [apply Hz; lia|exact Fd].
    + refine (IH (S r) _ _ _ d ltac:(lia) ltac:(lia) ltac:(lia) _ Hcn _ _ E Fd); [lia| |apply sgnf_step, Hs].
      intros k Hk. unfold elimg. destruct (Nat.leb_spec p' col); [lia|]. rewrite andb_false_r.
      unfold swapg, swap1. cbn [fst snd].
      destruct (Nat.eqb_spec k i0); [apply Hz; lia|]. destruct (Nat.eqb_spec k r); apply Hz; lia.
Qed.

(** ** the computed factors *)
Definition Lf (m : nat -> nat -> R) (i k : nat) : R := if k <? i then m i k else if k =? i then 1%R else 0%R.
Definition Uf (v : nat -> nat -> fl) (k j : nat) : R := if k <=? j then B2R (v k j) else 0%R.

Definition factored (n r : nat) (g : nat -> nat -> fl) (sw : list (nat * nat)) (m : nat -> nat -> R) (v : nat -> nat -> fl) : Prop :=
  forall i j, r <= i < n -> r <= j < n ->
    is_finite (g (swaps sw i) j) = true /\
    (Rabs (B2R (g (swaps sw i) j) - rsumf r n (fun k => Lf m i k * Uf v k j)) <=
     ((1 + u) ^ (n - r + 1) - 1) * rsumf r n (fun k => Rabs (Lf m i k * Uf v k j)) +
     h * (1 + u) ^ (n - r) * rsumf r n (fun k => 1 + / Rabs (B2R (v k k))))%R.

Lemma swaps_range r n sw k : (forall p, In p sw -> r <= fst p < n /\ r <= snd p < n) -> r <= k < n -> r <= swaps sw k < n.
Proof.
  intros H Hk. induction sw as [|p sw IH]; [exact Hk|]. simpl. destruct (H p (or_introl eq_refl)).
  specialize (IH (fun p Hp => H p (or_intror Hp))). unfold swap1.
  destruct (swaps sw k =? fst p); [lia|]. destruct (swaps sw k =? snd p); lia.
Qed.

Lemma swaps_low r n sw k : (forall p, In p sw -> r <= fst p < n /\ r <= snd p < n) -> k < r -> swaps sw k = k.
Proof.
  intros H Hk. induction sw as [|p sw IH]; [reflexivity|]. simpl. destruct (H p (or_introl eq_refl)).
  rewrite IH by (intros; apply H; right; assumption). unfold swap1.
  destruct (Nat.eqb_spec k (fst p)); [lia|]. destruct (Nat.eqb_spec k (snd p)); lia.
Qed.

Lemma swap1_same r k : swap1 (r, r) k = k.
Proof. unfold swap1. cbn [fst snd]. destruct (Nat.eqb_spec k r); lia. Qed.

Lemma drun_back n : forall c r g fac d, n - r = c -> r <= n -> sgnf fac ->
  drun n r (mk n n g, fac, r) = Ok d -> is_finite d = true -> B2R d <> 0%R ->
  exists sw m v,
    (forall p, In p sw -> (r <= fst p < n /\ r <= snd p < n) /\ fst p <> snd p) /\
    (forall k, r <= k < n -> B2R (v k k) <> 0%R) /\
    (forall i j, r <= i -> i <= j -> j < n -> is_finite (v i j) = true) /\
    (exists fac', sgnf fac' /\ B2R fac' = (B2R fac * (-1) ^ length sw)%R /\
       d = fprod n (fun k => if k <? r then g k k else v k k) ⊘ fac') /\
    factored n r g sw m v.
Proof.
  induction c as [|c IH]; intros r g fac d Hc Hr Hs E Fd Nd.
  - rewrite drun_end in E by lia. rewrite det_prod_float in E. injection E as <-.
    exists [], (fun _ _ => 0%R), (fun _ _ => zero). split; [intros p []|]. split; [intros; lia|]. split; [intros; lia|].
    split; [|intros i j Hi; lia]. exists fac. split; [exact Hs|]. split; [simpl; ring|]. f_equal.
    apply fprod_ext. intros k Hk. destruct (Nat.ltb_spec k r); [reflexivity|lia].
  - rewrite drun_first in E by lia. apply bind_inv in E. destruct E as [ct [E1 E]].
    destruct (dstep_inv n r g fac r ct ltac:(lia) E1) as [[-> Z]|[i0 [p' [Hpn [Hi0 [Hp' [Z ->]]]]]]].
    { injection E as <-. exfalso. apply Nd. apply (det_prod_zero n g fac r Hs); [lia|apply Z; lia|exact Fd]. }
    set (fac1 := if i0 =? r then fac else fac ⊗ f_of_Z prec emax (-1)) in *.
    assert (Hs1 : sgnf fac1) by (apply sgnf_step, Hs).
    set (g1 := swapg g i0 r) in *.
    destruct (Nat.eq_dec p' r) as [->|Np].
    2:{ exfalso. apply Nd. eapply (drun_skipped n r _ (S r)); [reflexivity|lia|lia| |lia| |exact Hs1|exact E|exact Fd]; [lia|].
        intros k Hk. unfold elimg. destruct (Nat.leb_spec p' r); [lia|]. rewrite andb_false_r.
        unfold g1, swapg, swap1. cbn [fst snd].
        destruct (Nat.eqb_spec k i0); [apply Z; lia|]. destruct (Nat.eqb_spec k r); apply Z; lia. }
    rewrite Nat.add_1_r in E.
    destruct (IH (S r) _ _ _ ltac:(lia) ltac:(lia) Hs1 E Fd Nd) as [sw [m [v [Hsw [Nv [Fv [[fac2 [Hs2 [Ef Ed]]] HF]]]]]]].
    clear IH E E1 Z.
    set (g2 := elimg g1 r r) in *.
    (* finiteness of the diagonal *)
    destruct Hs2 as [Ff Hf]. rewrite Ed in Fd, Nd. destruct (div_sign _ _ Ff Hf Fd) as [FP EP].
    assert (Dg : forall k, k < n -> is_finite (if k <? S r then g2 k k else v k k) = true) by (apply fprod_finite, FP).
    assert (G2r : g2 r r = g1 r r).
    { unfold g2, elimg. rewrite Nat.ltb_irrefl. reflexivity. }
    assert (Fp : is_finite (g1 r r) = true).
    { specialize (Dg r ltac:(lia)). destruct (Nat.ltb_spec r (S r)); [|lia]. rewrite G2r in Dg. exact Dg. }
    assert (Np : B2R (g1 r r) <> 0%R).
    { intros Z0. apply Nd. rewrite EP. rewrite (fprod_zero n _ r FP); [ring|lia|].
      destruct (Nat.ltb_spec r (S r)); [|lia]. rewrite G2r. exact Z0. }
    assert (Hsw' : forall p, In p sw -> S r <= fst p < n /\ S r <= snd p < n) by (intros p Hpp; apply (Hsw p Hpp)).
    set (q := swaps sw) in *.
    assert (Hq : forall i, S r <= i < n -> S r <= q i < n) by (intros; apply swaps_range; assumption).
    assert (Qr : q r = r) by (apply (swaps_low (S r) n); [exact Hsw'|lia]).
    assert (G2 : forall i j, r < i -> r < j -> g2 i j = g1 i j ⊖ (g1 i r ⊗ g1 r j) ⊘ g1 r r).
    { intros i j Hi Hj. unfold g2, elimg. destruct (Nat.ltb_spec r i); [|lia]. destruct (Nat.eqb_spec i r); [lia|].
      destruct (Nat.leb_spec r j); [reflexivity|lia]. }
    assert (ST : forall i j, S r <= i < n -> S r <= j < n -> is_finite (g2 (q i) j) = true /\
       is_finite (g1 (q i) j) = true /\ is_finite (g1 (q i) r) = true /\ is_finite (g1 r j) = true).
    { intros i j Hi Hj. destruct (HF i j Hi Hj) as [F2 _]. fold q in F2. split; [exact F2|].
      pose proof (Hq i Hi). rewrite G2 in F2 by lia.
      destruct (elim_step _ _ _ _ Fp F2) as [A1 [A2 [A3 _]]]. auto. }
    assert (Frow : forall j, r <= j < n -> is_finite (g1 r j) = true).
    { intros j Hj. destruct (Nat.eq_dec j r) as [->|]; [exact Fp|]. apply (ST (n - 1) j); lia. }
    assert (Fcol : forall i, r <= i < n -> is_finite (g1 (q i) r) = true).
    { intros i Hi. destruct (Nat.eq_dec i r) as [->|]; [rewrite Qr; exact Fp|]. apply (ST i (n - 1)); lia. }
    exists (if i0 =? r then sw else (i0, r) :: sw),
      (fun i k => if k =? r then (B2R (g1 (q i) r) / B2R (g1 r r))%R else m i k),
      (fun i j => if i =? r then g1 r j else v i j).
    split; [|split; [|split; [|split]]].
    + intros p Hpp. destruct (Nat.eqb_spec i0 r) as [|Ne].
      * destruct (Hsw p Hpp). split; [lia|assumption].
      * destruct Hpp as [<-|Hpp]; [cbn [fst snd]; lia|]. destruct (Hsw p Hpp). split; [lia|assumption].
    + intros k Hk. destruct (Nat.eqb_spec k r) as [->|]; [exact Np|]. apply Nv. lia.
    + intros i j H1 H2 H3. destruct (Nat.eqb_spec i r) as [->|]; [apply Frow; lia|]. apply Fv; lia.
    + exists fac2. split; [split; assumption|]. split.
      * rewrite Ef. unfold fac1. destruct (Nat.eqb_spec i0 r); [reflexivity|].
        destruct Hs as [Fs Hs]. rewrite (proj2 (mult_m1 fac Fs Hs)). simpl. ring.
      * rewrite Ed. f_equal. apply fprod_ext. intros k Hk.
        destruct (Nat.ltb_spec k (S r)); destruct (Nat.ltb_spec k r); destruct (Nat.eqb_spec k r); try lia; try reflexivity.
        -- unfold g2, elimg. destruct (Nat.ltb_spec r k); [lia|]. cbn [andb].
           unfold g1, swapg, swap1. cbn [fst snd]. destruct (Nat.eqb_spec k i0); [lia|].
           destruct (Nat.eqb_spec k r); [lia|reflexivity].
        -- subst k. exact G2r.
    + assert (QQ : forall i j, g (swaps (if i0 =? r then sw else (i0, r) :: sw) i) j = g1 (q i) j).
      { intros i j. unfold g1, swapg. destruct (Nat.eqb_spec i0 r) as [Q|]; [rewrite Q, swap1_same|]; reflexivity. }
      intros i j Hi Hj. rewrite !QQ.
      set (V := fun i j => if i =? r then g1 r j else v i j).
      set (M := fun i k => if k =? r then (B2R (g1 (q i) r) / B2R (g1 r r))%R else m i k).
      assert (UV : forall k, S r <= k < n -> Uf V k j = Uf v k j).
      { intros k Hk. unfold Uf, V. destruct (Nat.eqb_spec k r); [lia|reflexivity]. }
      assert (LM : forall k, S r <= k < n -> Lf M i k = Lf m i k).
      { intros k Hk. unfold Lf, M. destruct (Nat.eqb_spec k r); [lia|reflexivity]. }
      assert (U0 : Uf V r j = B2R (g1 r j)).
      { unfold Uf, V. rewrite Nat.eqb_refl. destruct (Nat.leb_spec r j); [reflexivity|lia]. }
      rewrite !(rsumf_first r n) by lia.
      rewrite (rsumf_ext (S r) n (fun k => Lf M i k * Uf V k j)%R (fun k => Lf m i k * Uf v k j)%R)
        by (intros; rewrite UV, LM by assumption; reflexivity).
      rewrite (rsumf_ext (S r) n (fun k => Rabs (Lf M i k * Uf V k j))%R (fun k => Rabs (Lf m i k * Uf v k j))%R)
        by (intros; rewrite UV, LM by assumption; reflexivity).
      rewrite (rsumf_ext (S r) n (fun k => 1 + / Rabs (B2R (if k =? r then g1 r k else v k k)))%R (fun k => 1 + / Rabs (B2R (v k k)))%R).
      2:{ intros k Hk. destruct (Nat.eqb_spec k r); [lia|reflexivity]. }
      rewrite U0, Nat.eqb_refl.
      pose proof (uro_pos prec) as Pu. pose proof (eta_pos prec emax) as Ph.
      assert (Pp : (0 < / Rabs (B2R (g1 r r)))%R) by (apply Rinv_0_lt_compat, Rabs_pos_lt, Np).
      assert (PT : (0 <= rsumf (S r) n (fun k => 1 + / Rabs (B2R (v k k))))%R).
      { apply rsumf_nonneg. intros k Hk. assert (0 < / Rabs (B2R (v k k)))%R; [|lra].
        apply Rinv_0_lt_compat, Rabs_pos_lt, Nv. exact Hk. }
      set (T := rsumf (S r) n (fun k => 1 + / Rabs (B2R (v k k)))%R) in *.
      pose proof (rsumf_abs (S r) n (fun k => Lf m i k * Uf v k j)%R) as SA.
      pose proof (pow1u_ge1 prec (n - r)) as Pg.
      assert (Triv : forall x S1 S2, x = S1 -> (0 <= S2)%R ->
        (Rabs (x - S1) <= ((1 + u) ^ (n - r + 1) - 1) * S2 + h * (1 + u) ^ (n - r) * (1 + / Rabs (B2R (g1 r r)) + T))%R).
      { intros x S1 S2 -> H2. rewrite Rminus_diag_eq by reflexivity. rewrite Rabs_R0.
        apply Rplus_le_le_0_compat; apply Rmult_le_pos; try lra.
        - apply gam_nonneg.
        - apply Rmult_le_pos; lra. }
      destruct (Nat.eq_dec i r) as [->|Ni]; [|destruct (Nat.eq_dec j r) as [->|Nj]].
      * rewrite Qr. split; [apply Frow; lia|]. apply Triv.
        -- rewrite rsumf_0; [unfold Lf; rewrite Nat.ltb_irrefl, Nat.eqb_refl; ring|].
           intros k Hk. unfold Lf. destruct (Nat.ltb_spec k r); [lia|]. destruct (Nat.eqb_spec k r); [lia|ring].
        -- apply Rplus_le_le_0_compat; [apply Rabs_pos|]. apply rsumf_nonneg. intros. apply Rabs_pos.
      * split; [apply Fcol; lia|]. apply Triv.
        -- rewrite rsumf_0; [unfold Lf, M; destruct (Nat.ltb_spec r i); [|lia]; rewrite Nat.eqb_refl; field; exact Np|].
           intros k Hk. unfold Uf. destruct (Nat.leb_spec k r); [lia|ring].
        -- apply Rplus_le_le_0_compat; [apply Rabs_pos|]. apply rsumf_nonneg. intros. apply Rabs_pos.
      * destruct (ST i j ltac:(lia) ltac:(lia)) as [F2 [F1 _]]. split; [exact F1|].
        destruct (HF i j ltac:(lia) ltac:(lia)) as [_ B]. fold q in B. fold T in B.
        pose proof (Hq i ltac:(lia)) as Hqi. rewrite G2 in F2, B by lia.
        destruct (elim_step _ _ _ _ Fp F2) as [_ [_ [_ [_ [dd [th [e [D1 [D2 [D3 D4]]]]]]]]]].
        assert (LL : Lf M i r = (B2R (g1 (q i) r) / B2R (g1 r r))%R).
        { unfold Lf, M. destruct (Nat.ltb_spec r i); [|lia]. rewrite Nat.eqb_refl. reflexivity. }
        rewrite LL.
        pose proof (back_bound (n - S r + 1) _ _ _ _ _ _ _ _ _ ltac:(lia) D1 D2 D4 SA B) as BB.
        replace (n - S r + 1 + 1) with (n - r + 1) in BB by lia.
        eapply Rle_trans; [exact BB|]. apply Rplus_le_compat_l.
        replace (n - r) with (S (n - S r)) by lia. change ((1 + u) ^ S (n - S r))%R with ((1 + u) * (1 + u) ^ (n - S r))%R.
        assert (Q1 : (h * (1 + u) * (1 + / Rabs (B2R (g1 r r))) <= h * ((1 + u) * (1 + u) ^ (n - S r)) * (1 + / Rabs (B2R (g1 r r))))%R).
        { apply Rmult_le_compat_r; [lra|]. apply Rmult_le_compat_l; [lra|].
          pose proof (pow1u_ge1 prec (n - S r)). rewrite <- (Rmult_1_r (1 + u)) at 1. apply Rmult_le_compat_l; lra. }
        replace (h * ((1 + u) * (1 + u) ^ (n - S r)) * (1 + / Rabs (B2R (g1 r r)) + T))%R with
          (h * ((1 + u) * (1 + u) ^ (n - S r)) * (1 + / Rabs (B2R (g1 r r))) + (1 + u) * (h * (1 + u) ^ (n - S r) * T))%R by ring.
        apply Rplus_le_compat; [|apply Rle_refl]. lra.
Qed.

End FloatElim.
