(** * No out-of-bounds access, no endless loop: every function, every element
    type *)

From Coq Require Import List ZArith Lia Bool Arith Permutation.
Import ListNotations.
From Verif Require Import Base Scalar Model CInt CFloat Spec Loops Struct.

Section Safety.
Context (K : scalar) (HK : scalar_safe K).
Notation T := (elt K).
Notation tr := (fun _ => True).

Lemma op_safe_safe {A} (o : outcome A) : op_safe o -> safe tr o.
Proof.
  intros [H1 H2]. destruct o as [| | |[]|]; simpl; auto.
Qed.

Lemma safe_xadd (a b : xpr K) : safe tr (xadd a b). Proof. apply op_safe_safe, HK. Qed.
Lemma safe_xsub (a b : xpr K) : safe tr (xsub a b). Proof. apply op_safe_safe, HK. Qed.
Lemma safe_xmul (a b : xpr K) : safe tr (xmul a b). Proof. apply op_safe_safe, HK. Qed.
Lemma safe_xdiv (a b : xpr K) : safe tr (xdiv a b). Proof. apply op_safe_safe, HK. Qed.
Lemma safe_xneg (a : xpr K) : safe tr (xneg a). Proof. apply op_safe_safe, HK. Qed.
Lemma safe_xabs (a : xpr K) : safe tr (xabs a). Proof. apply op_safe_safe, HK. Qed.
Lemma safe_xsqrt (a : xpr K) : safe tr (xsqrt a). Proof. apply op_safe_safe, HK. Qed.
Lemma safe_divsz (a : xpr K) z : safe tr (divsz a z). Proof. apply op_safe_safe, HK. Qed.

Lemma shape_init n m (z : T) : shape n m (init n m z).
Proof. rewrite init_mk. apply shape_of_mk. Qed.

Lemma shape_fill n m (z : T) : shape n m (fill K n m z).
Proof. rewrite fill_mk. apply shape_of_mk. Qed.

(** one elementary step of a program *)
Ltac safe_step :=
  match goal with
  | |- safe _ (bind (aget ?A ?i ?j) _) =>
      eapply safe_bind; [eapply (safe_aget _ _ A i j); [eassumption|lia|lia]|]; intros ? _
  | |- safe _ (bind (xadd _ _) _) => eapply safe_bind; [apply safe_xadd|]; intros ? _
  | |- safe _ (bind (xsub _ _) _) => eapply safe_bind; [apply safe_xsub|]; intros ? _
  | |- safe _ (bind (xmul _ _) _) => eapply safe_bind; [apply safe_xmul|]; intros ? _
  | |- safe _ (bind (xdiv _ _) _) => eapply safe_bind; [apply safe_xdiv|]; intros ? _
  | |- safe _ (bind (xneg _) _) => eapply safe_bind; [apply safe_xneg|]; intros ? _
  | |- safe _ (bind (xabs _) _) => eapply safe_bind; [apply safe_xabs|]; intros ? _
  | |- safe _ (bind (xsqrt _) _) => eapply safe_bind; [apply safe_xsqrt|]; intros ? _
  | |- safe _ (bind (divsz _ _) _) => eapply safe_bind; [apply safe_divsz|]; intros ? _
  | |- safe _ (aset ?A ?i ?j ?x) => eapply (safe_aset _ _ A i j x); [eassumption|lia|lia]
  | |- safe _ (bind (aset ?A ?i ?j ?x) _) =>
      eapply safe_bind; [eapply (safe_aset _ _ A i j x); [eassumption|lia|lia]|]; intros ? ?
  | |- safe tr (xadd _ _) => apply safe_xadd
  | |- safe tr (xsub _ _) => apply safe_xsub
  | |- safe tr (xmul _ _) => apply safe_xmul
  | |- safe tr (xdiv _ _) => apply safe_xdiv
  | |- safe tr (xsqrt _) => apply safe_xsqrt
  | |- safe tr (divsz _ _) => apply safe_divsz
  | |- safe tr (Ok _) => exact I
  | |- safe _ Terminate => exact I
  | |- safe _ (Throw _) => exact I
  end.
Ltac steps := repeat safe_step.
(** loops with a matrix of fixed shape as state *)
Ltac loop n m :=
  apply (safe_for_const (shape n m)); [first [assumption|apply shape_init|apply shape_fill]|
    intros ? ? ? ?; cbv beta].

Lemma safe_sum n m A B : shape n m A -> shape n m B -> safe (shape n m) (sum K n m A B).
Proof. intros HA HB. unfold sum. loop n m. loop n m. steps. Qed.

Lemma safe_sum_scalar n m A s : shape n m A -> safe (shape n m) (sum_scalar K n m A s).
Proof. intros HA. unfold sum_scalar. loop n m. loop n m. steps. Qed.

Lemma safe_sub n m A B : shape n m A -> shape n m B -> safe (shape n m) (sub K n m A B).
Proof. intros HA HB. unfold sub. loop n m. loop n m. steps. Qed.

Lemma safe_sub_scalar n m A s : shape n m A -> safe (shape n m) (sub_scalar K n m A s).
Proof. intros HA. unfold sub_scalar. loop n m. loop n m. steps. Qed.

Lemma safe_mult_scalar n m A s : shape n m A -> safe (shape n m) (mult_scalar K n m A s).
Proof. intros HA. unfold mult_scalar. loop n m. loop n m. steps. Qed.

Lemma safe_abs n m junk A :
  shape n m junk -> shape n m A -> safe (shape n m) (abs K n m junk A).
Proof. intros HJ HA. unfold abs. loop n m. loop n m. steps. Qed.

Lemma safe_div n m A s : shape n m A -> safe (shape n m) (div K n m A s).
Proof.
  intros HA. unfold div. destruct (xeq _ _); [exact I|]. loop n m. loop n m. steps.
Qed.

Lemma safe_mult n m p A B :
  shape n m A -> shape m p B -> safe (shape n p) (mult K n m p A B).
Proof. intros HA HB. unfold mult, zeros. loop n p. loop n p. loop n p. steps. Qed.

Lemma safe_strassen A B : shape 2 2 A -> shape 2 2 B -> safe (shape 2 2) (strassen K A B).
Proof.
  intros HA HB. unfold strassen. cbv zeta. pose proof (shape_init 2 2 (lite K 0)). steps.
Qed.

Lemma safe_trans n m A : shape n m A -> safe (shape m n) (trans K n m A).
Proof. intros HA. unfold trans. loop m n. loop m n. steps. Qed.

Lemma safe_eye n d : safe (shape n n) (eye K n d).
Proof. rewrite eye_mk. apply shape_of_mk. Qed.

Lemma safe_swap_rows n m A r1 r2 :
  shape n m A -> r1 < n -> r2 < n -> safe (shape n m) (swap_rows K n m A r1 r2).
Proof.
  intros HA H1 H2. destruct (proj1 (shape_mk (lite K 0) n m A) HA) as [f ->].
  rewrite swap_rows_mk by assumption. apply shape_of_mk.
Qed.

Lemma safe_swap_cols n m A c1 c2 :
  shape n m A -> c1 < m -> c2 < m -> safe (shape n m) (swap_cols K n m A c1 c2).
Proof.
  intros HA H1 H2. destruct (proj1 (shape_mk (lite K 0) n m A) HA) as [f ->].
  rewrite swap_cols_mk by assumption. apply shape_of_mk.
Qed.

Lemma safe_concatenate_v n1 n2 m A B :
  shape n1 m A -> shape n2 m B -> safe (shape (n1 + n2) m) (concatenate_v K n1 n2 m A B).
Proof.
  intros HA HB. destruct (proj1 (shape_mk (lite K 0) _ _ A) HA) as [f ->].
  destruct (proj1 (shape_mk (lite K 0) _ _ B) HB) as [g ->].
  rewrite concatenate_v_mk. apply shape_of_mk.
Qed.

Lemma safe_concatenate_h n m1 m2 A B :
  shape n m1 A -> shape n m2 B -> safe (shape n (m1 + m2)) (concatenate_h K n m1 m2 A B).
Proof.
  intros HA HB. destruct (proj1 (shape_mk (lite K 0) _ _ A) HA) as [f ->].
  destruct (proj1 (shape_mk (lite K 0) _ _ B) HB) as [g ->].
  rewrite concatenate_h_mk. apply shape_of_mk.
Qed.

Lemma safe_concatenate_sq n A B :
  shape n n A -> shape n n B ->
  safe (fun p => shape (n + n) n (fst p) /\ shape n (n + n) (snd p)) (concatenate_sq K n A B).
Proof.
  intros HA HB. destruct (proj1 (shape_mk (lite K 0) _ _ A) HA) as [f ->].
  destruct (proj1 (shape_mk (lite K 0) _ _ B) HB) as [g ->].
  rewrite concatenate_sq_mk. split; apply shape_of_mk.
Qed.

Lemma safe_getminor n A i j :
  shape n n A -> i < n -> j < n -> safe (shape (n - 1) (n - 1)) (getminor K n A i j).
Proof.
  intros HA Hi Hj. destruct (proj1 (shape_mk (lite K 0) _ _ A) HA) as [f ->].
  rewrite getminor_mk by assumption. apply shape_of_mk.
Qed.

(** ** det *)

Lemma safe_det1 A : shape 1 1 A -> safe tr (det1 K A).
Proof. intros HA. unfold det1. eapply safe_aget; [eassumption|lia|lia]. Qed.

Lemma safe_det2 A : shape 2 2 A -> safe tr (det2 K A).
Proof. intros HA. unfold det2. steps. Qed.

Lemma safe_mul3 x y z : safe tr (mul3 K x y z).
Proof. unfold mul3. steps. Qed.

Lemma safe_det3 A : shape 3 3 A -> safe tr (det3 K A).
Proof.
  intros HA. unfold det3.
  repeat (steps; try (eapply safe_bind; [apply safe_mul3|]; intros ? _)).
Qed.

Lemma safe_det_prod n A (factor : T) : shape n n A -> safe tr (det_prod K n A factor).
Proof.
  intros HA. unfold det_prod. eapply safe_bind; [|intros ? _; steps].
  apply (safe_for_const tr); [exact I|]. intros k s Hk _. steps.
Qed.

Lemma safe_det_search fuel n A r i pivot :
  shape n n A -> r <= i < n -> pivot < n ->
  (n - pivot - 1) * (n - r) + (n - i) <= fuel ->
  safe (fun c => match c with
                 | Ret _ => True
                 | Cont (i', p') => r <= i' < n /\ pivot <= p' < n end)
    (det_search K fuel n A r i pivot).
Proof.
  revert i pivot. induction fuel as [|fuel IH]; intros i pivot HA Hi Hp Hf.
  - remember ((n - pivot - 1) * (n - r)) as q. lia.
  - cbn [det_search]. eapply safe_bind; [eapply safe_aget; [eassumption|lia|lia]|]. intros a _.
    destruct (xeq _ _); [|simpl; lia].
    destruct (Nat.eqb_spec n (i + 1)) as [E|E].
    + destruct (Nat.eqb_spec n (pivot + 1)) as [E'|E']; [exact I|].
      eapply safe_weaken; [apply IH; [assumption|lia|lia|]|].
      * replace (n - (pivot + 1) - 1) with (n - pivot - 2) by lia.
        replace (n - pivot - 1) with (S (n - pivot - 2)) in Hf by lia. simpl in Hf. lia.
      * intros [[i' p']|]; [lia|auto].
    + apply IH; [assumption|lia|lia|lia].
Qed.

Lemma safe_det_eliminate n A r pivot :
  shape n n A -> r < n -> pivot < n -> safe (shape n n) (det_eliminate K n A r pivot).
Proof.
  intros HA Hr Hp. unfold det_eliminate. loop n n. destruct (_ =? _); [assumption|]. steps.
  loop n n. steps.
Qed.

Lemma safe_for_ret {St R} (P : St -> Prop) (Q : R -> Prop) lo hi
  (body : nat -> St -> outcome (ctrl St R)) s :
  P s ->
  (forall k s, lo <= k < hi -> P s ->
     safe (fun c => match c with Cont s' => P s' | Ret r => Q r end) (body k s)) ->
  safe (fun c => match c with Cont s' => P s' | Ret r => Q r end) (for_ret lo hi body s).
Proof.
  intros H0 H. destruct (le_lt_dec hi lo); [rewrite for_ret_empty by lia; exact H0|].
  assert (E : forall h, lo <= h <= hi ->
    safe (fun c => match c with Cont s' => P s' | Ret r => Q r end) (for_ret lo h body s));
    [|apply E; lia].
  induction h as [|h IH]; intros Hh; [rewrite for_ret_empty by lia; exact H0|].
  destruct (Nat.eq_dec lo (S h)) as [->|]; [rewrite for_ret_empty by lia; exact H0|].
  rewrite for_ret_snoc by lia. eapply safe_bind; [apply IH; lia|].
  intros [s'|r] Hc; [apply H; [lia|assumption]|exact Hc].
Qed.

Lemma safe_det_general n A : shape n n A -> safe tr (det_general K n A).
Proof.
  intros HA. unfold det_general. eapply safe_bind.
  - apply (safe_for_ret (fun s : matrix T * T * nat => shape n n (fst (fst s))) tr).
    + exact HA.
    + intros r [[B factor] pivot] Hr HB. simpl in HB.
      destruct (Nat.leb_spec n pivot).
      { eapply safe_bind; [apply safe_det_prod; assumption|]. intros; exact I. }
      eapply safe_bind.
      { apply safe_det_search; [assumption|lia|lia|]. nia. }
      intros [[i p]|] Hc.
      2:{ eapply safe_bind; [apply safe_det_prod; assumption|]. intros; exact I. }
      eapply (safe_bind (fun s2 : matrix T * T => shape n n (fst s2))).
      { destruct (i =? r); [exact HB|].
        eapply safe_bind; [apply safe_swap_rows; [exact HB|lia|lia]|]. intros B' HB'.
        steps. exact HB'. }
      intros [B' f'] HB'. simpl in HB'.
      eapply safe_bind; [apply safe_det_eliminate; [exact HB'|lia|lia]|].
      intros B'' HB''. exact HB''.
  - intros [[[B factor] pivot]|d] Hc; [|exact I]. apply safe_det_prod. exact Hc.
Qed.

Lemma safe_det n A : shape n n A -> safe tr (det K n A).
Proof.
  intros HA. destruct n as [|[|[|[|n]]]]; cbn [det].
  - apply safe_det_general; assumption.
  - apply safe_det1; assumption.
  - apply safe_det2; assumption.
  - apply safe_det3; assumption.
  - apply safe_det_general; assumption.
Qed.

(** ** inv *)

Lemma shape_lit2 (a b c d : T) : shape 2 2 [[a; b]; [c; d]].
Proof. split; [reflexivity|]. intros row [<-|[<-|[]]]; reflexivity. Qed.

Lemma shape_lit3 (a b c d e f g h i : T) : shape 3 3 [[a; b; c]; [d; e; f]; [g; h; i]].
Proof. split; [reflexivity|]. intros row [<-|[<-|[<-|[]]]]; reflexivity. Qed.

Lemma safe_mul_sub x y z w : safe tr (mul_sub K x y z w).
Proof. unfold mul_sub. steps. Qed.

Lemma safe_inv n A : shape n n A -> safe (shape n n) (inv K n A).
Proof.
  intros HA.
  assert (G : safe (shape n n) (inv_general K n A)).
  { unfold inv_general. eapply safe_bind; [apply safe_det; assumption|]. intros detA _.
    eapply (safe_bind (shape n n)).
    - loop n n. loop n n. eapply safe_bind; [apply safe_getminor; [exact HA|lia|lia]|].
      intros mn Hmn. eapply safe_bind; [apply safe_det; exact Hmn|]. intros d _. steps.
    - intros R HR. eapply safe_bind; [apply safe_trans; exact HR|]. intros R' HR'.
      apply safe_div. exact HR'. }
  destruct n as [|[|[|[|n]]]]; cbn [inv]; try exact G; clear G.
  - unfold inv1. eapply safe_bind; [apply safe_det; assumption|]. intros d _. steps.
    split; [reflexivity|]. intros row [<-|[]]. reflexivity.
  - unfold inv2. eapply safe_bind; [apply safe_det; assumption|]. intros d _.
    destruct (xeq _ _); [exact I|]. steps. apply safe_div. apply shape_lit2.
  - unfold inv3. eapply safe_bind; [apply safe_det; assumption|]. intros d _.
    destruct (xeq _ _); [exact I|]. steps.
    do 9 (eapply safe_bind; [apply safe_mul_sub|]; intros ? _).
    apply safe_div. apply shape_lit3.
Qed.

(** ** pow *)

Lemma safe_pow_fuel_pos fuel n w A p :
  shape n n A -> (0 <= p < 2 ^ Z.of_nat fuel)%Z ->
  safe (shape n n) (pow_fuel K (S fuel) n w A p).
Proof.
  revert w A p. induction fuel as [|fuel IH]; intros w A p HA Hp.
  - assert (p = 0)%Z as -> by (simpl in Hp; lia). cbn. apply safe_eye.
  - remember (S fuel) as fu. cbn [pow_fuel].
    destruct (Z.eqb_spec p 0); [apply safe_eye|].
    destruct (Z.eqb_spec p 1); [exact HA|].
    destruct (Z.ltb_spec p 0); [lia|]. simpl bind.
    eapply (safe_bind (shape n n)).
    { subst fu. apply IH; [assumption|]. rewrite Z.quot_div_nonneg by lia.
      split; [apply Z.div_pos; lia|]. apply Z.div_lt_upper_bound; [lia|].
      rewrite Nat2Z.inj_succ, Z.pow_succ_r in Hp by lia. lia. }
    intros B HB. unfold op_mult. destruct (_ =? _)%Z; [apply safe_mult; assumption|].
    eapply safe_bind; [apply safe_mult; eassumption|]. intros C HC. apply safe_mult; assumption.
Qed.

(** every exponent a signed integer of [w] bits can hold, including the least *)
Lemma safe_pow n w A p :
  shape n n A -> (1 <= w)%Z -> (- 2 ^ (w - 1) <= p < 2 ^ (w - 1))%Z ->
  safe (shape n n) (pow K n w A p).
Proof.
  intros HA Hw Hp. unfold pow.
  assert (Hbig : (2 ^ (w - 1) < 2 ^ Z.of_nat (Z.to_nat (Z.max w 32)))%Z).
  { apply Z.pow_lt_mono_r; lia. }
  assert (Hpow : forall q, (0 <= q <= 2 ^ (w - 1))%Z -> forall w' A', shape n n A' ->
    safe (shape n n) (pow_fuel K (S (Z.to_nat (Z.max w 32))) n w' A' (Z.quot q 2))).
  { intros q Hq w' A' HA'. apply safe_pow_fuel_pos; [assumption|].
    rewrite Z.quot_div_nonneg by lia. split; [apply Z.div_pos; lia|].
    apply Z.div_lt_upper_bound; lia. }
  (* a wrapped exponent may be negative once: one more level *)
  assert (Hneg : forall fuel w' A' q, (32 <= w')%Z -> (- 2 ^ (w - 1) <= q < 2 ^ (w - 1))%Z ->
    w' = Z.max w 32 -> shape n n A' -> fuel = S (Z.to_nat (Z.max w 32)) ->
    safe (shape n n) (pow_fuel K (S fuel) n w' A' q)).
  { intros fuel w' A' q Hw' Hq Ew HA' ->. remember (S (Z.to_nat (Z.max w 32))) as fu. cbn [pow_fuel].
    destruct (Z.eqb_spec q 0); [apply safe_eye|].
    destruct (Z.eqb_spec q 1); [exact HA'|].
    assert (Hstep : forall A'' q', shape n n A'' -> (0 <= q' <= 2 ^ (w - 1))%Z ->
      safe (shape n n) (let* powA := pow_fuel K fu n (Z.max w' 32) A'' (Z.quot q' 2) in
        if (Z.rem q' 2 =? 0)%Z then op_mult K n n n powA powA
        else let* q0 := op_mult K n n n powA powA in op_mult K n n n q0 A'')).
    { intros A'' q' HA'' Hq'. eapply (safe_bind (shape n n)); [subst fu; apply Hpow; assumption|].
      intros B HB. unfold op_mult. destruct (_ =? _)%Z; [apply safe_mult; assumption|].
      eapply safe_bind; [apply safe_mult; eassumption|]. intros C HC. apply safe_mult; assumption. }
    destruct (Z.ltb_spec q 0).
    - rewrite bind_assoc. eapply safe_bind; [apply safe_inv; exact HA'|]. intros B HB.
      rewrite bind_assoc. unfold abs_assign. destruct (Z.ltb_spec w' 32); [lia|].
      destruct (_ =? _)%Z; [exact I|]. simpl bind. apply Hstep; [assumption|lia].
    - simpl bind. apply Hstep; [assumption|lia]. }
  replace (Z.to_nat (Z.max w 32) + 3) with (S (S (S (Z.to_nat (Z.max w 32))))) by lia.
  destruct (Z.ltb_spec w 32) as [Hw32|Hw32].
  - remember (S (S (Z.to_nat (Z.max w 32)))) as fu. cbn [pow_fuel].
    destruct (Z.eqb_spec p 0); [apply safe_eye|].
    destruct (Z.eqb_spec p 1); [exact HA|].
    assert (Hstep : forall A'' q', shape n n A'' -> (- 2 ^ (w - 1) <= q' < 2 ^ (w - 1))%Z ->
      safe (shape n n) (let* powA := pow_fuel K fu n (Z.max w 32) A'' (Z.quot q' 2) in
        if (Z.rem q' 2 =? 0)%Z then op_mult K n n n powA powA
        else let* q0 := op_mult K n n n powA powA in op_mult K n n n q0 A'')).
    { intros A'' q' HA'' Hq'. eapply (safe_bind (shape n n)).
      - subst fu. apply Hneg; [lia| |reflexivity|assumption|reflexivity].
        pose proof (Z.quot_rem' q' 2). pose proof (Z.rem_bound_abs q' 2).
        assert (0 < 2 ^ (w - 1))%Z by (apply Z.pow_pos_nonneg; lia). 
        destruct (Z.le_gt_cases 0 q').
        + rewrite Z.quot_div_nonneg by lia. pose proof (Z.div_pos q' 2). 
          assert (q' / 2 <= q')%Z by (apply Z.div_le_upper_bound; lia). lia.
        + pose proof (Z.quot_opp_l q' 2). rewrite Z.quot_div_nonneg in H3 by lia.
          assert (0 <= - q' / 2)%Z by (apply Z.div_pos; lia).
          assert (- q' / 2 <= - q')%Z by (apply Z.div_le_upper_bound; lia). lia.
      - intros B HB. unfold op_mult. destruct (_ =? _)%Z; [apply safe_mult; assumption|].
        eapply safe_bind; [apply safe_mult; eassumption|]. intros C HC. apply safe_mult; assumption. }
    destruct (Z.ltb_spec p 0).
    + rewrite bind_assoc. eapply safe_bind; [apply safe_inv; exact HA|]. intros B HB.
      rewrite bind_assoc. unfold abs_assign. destruct (Z.ltb_spec w 32); [|lia].
      simpl bind. apply Hstep; [assumption|].
      assert (E2 : (2 ^ w = 2 * 2 ^ (w - 1))%Z).
      { replace w with (Z.succ (w - 1)) at 1 by lia. apply Z.pow_succ_r. lia. }
      pose proof (Z.mod_pos_bound (Z.abs p + 2 ^ (w - 1)) (2 ^ w)).
      assert (0 < 2 ^ (w - 1))%Z by (apply Z.pow_pos_nonneg; lia). lia.
    + simpl bind. apply Hstep; [assumption|lia].
  - replace w with (Z.max w 32) at 2 by lia.
    remember (S (Z.to_nat (Z.max w 32))) as fu.
    (* one level more fuel than needed *)
    cbn [pow_fuel].
    destruct (Z.eqb_spec p 0); [apply safe_eye|].
    destruct (Z.eqb_spec p 1); [exact HA|].
    assert (Hstep : forall A'' q', shape n n A'' -> (0 <= q' <= 2 ^ (w - 1))%Z ->
      safe (shape n n) (let* powA := pow_fuel K (S fu) n (Z.max (Z.max w 32) 32) A'' (Z.quot q' 2) in
        if (Z.rem q' 2 =? 0)%Z then op_mult K n n n powA powA
        else let* q0 := op_mult K n n n powA powA in op_mult K n n n q0 A'')).
    { intros A'' q' HA'' Hq'. eapply (safe_bind (shape n n)).
      - apply safe_pow_fuel_pos; [assumption|]. subst fu.
        rewrite Z.quot_div_nonneg by lia. split; [apply Z.div_pos; lia|].
        apply Z.div_lt_upper_bound; [lia|]. rewrite Nat2Z.inj_succ, Z.pow_succ_r by lia. lia.
      - intros B HB. unfold op_mult. destruct (_ =? _)%Z; [apply safe_mult; assumption|].
        eapply safe_bind; [apply safe_mult; eassumption|]. intros C HC. apply safe_mult; assumption. }
    destruct (Z.ltb_spec p 0).
    + rewrite bind_assoc. eapply safe_bind; [apply safe_inv; exact HA|]. intros B HB.
      rewrite bind_assoc. unfold abs_assign. destruct (Z.ltb_spec (Z.max w 32) 32); [lia|].
      destruct (_ =? _)%Z; [exact I|]. simpl bind. apply Hstep; [assumption|lia].
    + simpl bind. apply Hstep; [assumption|lia].
Qed.

(** ** decompositions *)

Lemma safe_lu n A : shape n n A ->
  safe (fun p => shape n n (fst p) /\ shape n n (snd p)) (lu K n A).
Proof.
  intros HA. unfold lu. eapply safe_bind; [apply safe_eye|]. intros L HL. cbv zeta.
  apply (safe_for_const (fun p : matrix T * matrix T => shape n n (fst p) /\ shape n n (snd p))).
  { split; [exact HL|]. unfold zeros. apply shape_fill. }
  intros j [L' U'] Hj [HL' HU']. simpl in HL', HU'.
  eapply (safe_bind (shape n n)).
  { loop n n. eapply (safe_bind tr).
    - apply (safe_for_const tr); [exact I|]. intros. steps.
    - intros ? _. steps. }
  intros U'' HU''.
  eapply (safe_bind (shape n n)).
  { loop n n. eapply (safe_bind tr).
    - apply (safe_for_const tr); [exact I|]. intros. steps.
    - intros ? _. steps. destruct (xeq _ _); [exact I|]. steps. }
  intros L'' HL''. split; assumption.
Qed.

Lemma safe_chol n A : shape n n A -> safe (shape n n) (chol K n A).
Proof.
  intros HA. unfold chol. loop n n. loop n n. destruct (Nat.eqb_spec k0 k) as [->|].
  - eapply (safe_bind tr).
    + apply (safe_for_const tr); [exact I|]. intros. steps.
    + intros ? _. steps.
  - eapply (safe_bind tr).
    + apply (safe_for_const tr); [exact I|]. intros. steps.
    + intros ? _. steps.
Qed.

(** ** predicates *)

Lemma safe_isSymetric n A : shape n n A -> safe tr (isSymetric K n A).
Proof.
  intros HA. unfold isSymetric. eapply safe_bind.
  - apply (safe_for_ret (fun _ : unit => True) (fun _ : bool => True)); [exact I|].
    intros i s Hi _. apply (safe_for_ret (fun _ : unit => True) (fun _ : bool => True)); [exact I|].
    intros j s' Hj _. steps. destruct (negb _); exact I.
  - intros [|] _; exact I.
Qed.

Lemma safe_isIdentity n A : safe tr (isIdentity K n A).
Proof. unfold isIdentity, eye1. rewrite eye_mk. exact I. Qed.

Lemma safe_compare n m A B e : shape n m A -> shape n m B -> safe tr (compare K n m A B e).
Proof.
  intros HA HB. unfold compare. eapply safe_bind.
  - apply (safe_for_ret (fun _ : unit => True) (fun _ : bool => True)); [exact I|].
    intros i s Hi _. apply (safe_for_ret (fun _ : unit => True) (fun _ : bool => True)); [exact I|].
    intros j s' Hj _. steps. destruct (gteps _ _); exact I.
  - intros [|] _; exact I.
Qed.

(** ** statistics *)

Lemma safe_mean n m A : shape n m A -> safe tr (mean K n m A).
Proof.
  intros HA. unfold mean. eapply (safe_bind tr); [|intros; apply safe_divsz].
  apply (safe_for_const tr); [exact I|]. intros i s Hi _.
  apply (safe_for_const tr); [exact I|]. intros j s' Hj _. steps.
Qed.

Lemma safe_var n m A : shape n m A -> safe tr (var K n m A).
Proof.
  intros HA. unfold var. eapply safe_bind; [apply safe_mean; exact HA|]. intros mu _.
  eapply (safe_bind tr); [|intros; apply safe_divsz].
  apply (safe_for_const tr); [exact I|]. intros i s Hi _.
  apply (safe_for_const tr); [exact I|]. intros j s' Hj _. steps.
Qed.

Lemma safe_stddev n m A : shape n m A -> safe tr (stddev K n m A).
Proof.
  intros HA. unfold stddev. eapply safe_bind; [apply safe_var; exact HA|]. intros; apply safe_xsqrt.
Qed.

Lemma safe_flatten n m A : shape n m A ->
  safe (fun v => length v = n * m) (flatten K n m A).
Proof.
  intros HA. unfold flatten.
  apply (safe_for (fun i v => length v = i * m)); [lia|reflexivity|].
  intros i v Hi Hv. 
  eapply safe_weaken.
  - apply (safe_for (fun j v => length v = i * m + j)); [lia|lia|].
    intros j v' Hj Hv'. steps. simpl. rewrite app_length. simpl. lia.
  - intros v'. simpl. lia.
Qed.

Lemma safe_median sort n m A :
  (forall v, length (sort v) = length v) -> 0 < n -> 0 < m -> shape n m A ->
  safe tr (median K sort n m A).
Proof.
  intros Hs Hn Hm HA. unfold median. cbv zeta.
  eapply safe_bind; [apply safe_flatten; exact HA|]. intros v Hv. cbv beta in Hv.
  destruct (negb _); [exact I|].
  assert (Hpos : 0 < n * m) by nia.
  assert (Hget : forall k, k < n * m -> safe tr (vget (sort v) k)).
  { intros k Hk. unfold vget. destruct (nth_error (sort v) k) eqn:E; [exact I|].
    apply nth_error_None in E. rewrite Hs in E. lia. }
  assert (Hdiv : n * m / 2 < n * m) by (apply Nat.div_lt; lia).
  destruct (Nat.eqb_spec ((n * m) mod 2) 0) as [E|E].
  - eapply safe_bind; [apply Hget; exact Hdiv|]. intros x _.
    assert (n * m / 2 <> 0).
    { intros E0. pose proof (Nat.div_mod (n * m) 2 ltac:(lia)). lia. }
    destruct (Nat.eqb_spec (n * m / 2) 0); [contradiction|].
    eapply safe_bind; [apply Hget; lia|]. intros y _. steps.
  - apply Hget. exact Hdiv.
Qed.

Lemma safe_histogram n m A : shape n m A -> safe tr (histogram K n m A).
Proof.
  intros HA. unfold histogram. eapply safe_bind; [apply safe_flatten; exact HA|]. intros v _.
  destruct (negb _); [exact I|].
  apply (safe_for_const tr); [exact I|]. intros i s Hi _.
  apply (safe_for_const tr); [exact I|]. intros j s' Hj _. steps.
Qed.

Lemma safe_cumulative_histogram n m A : shape n m A -> safe tr (cumulative_histogram K n m A).
Proof.
  intros HA. unfold cumulative_histogram. eapply safe_bind; [apply safe_histogram; exact HA|].
  intros h _. destruct (fold_left _ _ _). exact I.
Qed.

Lemma safe_print show n m A : shape n m A -> safe tr (print K show n m A).
Proof.
  intros HA. unfold print. apply (safe_for_const tr); [exact I|]. intros i s Hi _.
  eapply (safe_bind tr); [|intros; exact I].
  apply (safe_for_const tr); [exact I|]. intros j s' Hj _. steps.
Qed.

End Safety.
