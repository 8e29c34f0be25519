(** * C86: how many operations on elements the library executes

    [count (f_c ...) o] is the number of operations of kind [o] executed by a
    run of [f] (Cost.v; [c86_same_runs] ties the counted functions to the
    model).  The theorems give the counts for every element type, size and
    argument, exactly for runs that return and as a bound for runs that do
    not. *)

From Coq Require Import List ZArith Lia Bool Arith.
Import ListNotations.
From Verif Require Import Base Scalar CInt Model Loops Cost.

(** ** Specification *)

(** [counts m f]: the run [m] executes at most [f o] operations of every
    kind [o], and exactly [f o] if it returns normally. *)
Definition counts {A} (m : counted A) (f : op -> nat) : Prop :=
  (forall o, count m o <= f o) /\
  (forall a, result m = Ok a -> forall o, count m o = f o).

(** Counts by name. *)
Definition ops (mul add dv sq cmp : nat) : op -> nat := fun o =>
  match o with Mul => mul | Add => add | Div => dv | Sqrt => sq | Cmp => cmp end.

(** The number of ones in the binary expansion. *)
Fixpoint ones (p : positive) : nat :=
  match p with xH => 1 | xO q => ones q | xI q => S (ones q) end.

(** The number of matrix products binary exponentiation needs. *)
Definition products (p : positive) : nat := Nat.log2 (Pos.to_nat p) + ones p - 1.

(** ** Rules *)

Lemma counts_eq {A} (m : counted A) f g : counts m f -> (forall o, f o = g o) -> counts m g.
Proof. intros [H1 H2] E. split; intros; rewrite <- E; eauto. Qed.

Lemma counts_bind {A B} (m : counted A) (k : A -> counted B) f g :
  counts m f -> (forall a, result m = Ok a -> counts (k a) g) ->
  counts (cbind m k) (fun o => f o + g o).
Proof.
  intros [H1 H2] Hk. unfold cbind. destruct (result m) as [a|e| |u|] eqn:E; split; cbn [count result];
    try discriminate; try (intros o; specialize (H1 o); lia).
  - intros o. destruct (Hk a eq_refl) as [K _]. specialize (K o). specialize (H1 o). lia.
  - intros b Eb o. destruct (Hk a eq_refl) as [_ K]. rewrite (H2 a eq_refl), (K b Eb). reflexivity.
Qed.

Lemma counts_quiet {A} (o : outcome A) : counts (quiet o) none.
Proof. split; reflexivity. Qed.

Lemma counts_once {A} k (o : outcome A) : counts (Counted (once k) o) (once k).
Proof. split; reflexivity. Qed.

Fixpoint total (lo cnt : nat) (f : nat -> nat) : nat :=
  match cnt with O => 0 | S c => f lo + total (S lo) c f end.

Lemma counts_iter {S : Type} c lo (body : nat -> S -> counted S) s (f : nat -> op -> nat) :
  (forall i s, lo <= i < lo + c -> counts (body i s) (f i)) ->
  counts (citer c lo body s) (fun o => total lo c (fun i => f i o)).
Proof.
  revert lo s. induction c as [|c IH]; intros lo s H; [apply counts_quiet|]. cbn [citer total].
  apply (counts_bind (body lo s) _ (f lo)); [apply H; lia|]. intros s' _. apply IH. intros; apply H; lia.
Qed.

Lemma counts_for {S : Type} lo hi (body : nat -> S -> counted S) s (f : nat -> op -> nat) :
  (forall i s, lo <= i < hi -> counts (body i s) (f i)) ->
  counts (cfor lo hi body s) (fun o => total lo (hi - lo) (fun i => f i o)).
Proof. intros H. apply counts_iter. intros; apply H; lia. Qed.

Lemma total_const lo c k : total lo c (fun _ => k) = c * k.
Proof. revert lo; induction c as [|c IH]; intros lo; cbn [total]; [reflexivity|]. rewrite IH. reflexivity. Qed.

Lemma total_ext lo c f g : (forall i, lo <= i < lo + c -> f i = g i) -> total lo c f = total lo c g.
Proof.
  revert lo; induction c as [|c IH]; intros lo H; cbn [total]; [reflexivity|].
  rewrite H by lia. rewrite (IH (S lo)) by (intros; apply H; lia). reflexivity.
Qed.

Lemma total_snoc lo c f : total lo (S c) f = total lo c f + f (lo + c).
Proof.
  revert lo; induction c as [|c IH]; intros lo.
  - cbn. rewrite !Nat.add_0_r. reflexivity.
  - change (total lo (S (S c)) f) with (f lo + total (S lo) (S c) f). rewrite IH. cbn [total].
    replace (S lo + c) with (lo + S c) by lia. lia.
Qed.

Lemma counts_for_const {S : Type} lo hi (body : nat -> S -> counted S) s f :
  (forall i s, lo <= i < hi -> counts (body i s) f) ->
  counts (cfor lo hi body s) (fun o => (hi - lo) * f o).
Proof.
  intros H. eapply counts_eq; [apply (counts_for lo hi body s (fun _ => f) H)|].
  intros o. cbn beta. apply total_const.
Qed.

(** Straight-line code. *)
Ltac straight :=
  repeat first
    [ apply counts_quiet
    | apply counts_once
    | eapply counts_bind; [|intros ? _] ].

Ltac kinds := let q := fresh "o" in intros q; destruct q; cbn; unfold none; try lia.

Section S.
Context (S : scalar).
Notation Mat := (matrix (elt S)).

(** ** Products *)

Lemma counts_mult n m p (A B : Mat) :
  counts (mult_c S n m p A B) (ops (n * m * p) (n * m * p) 0 0 0).
Proof.
  unfold mult_c. eapply counts_eq.
  - apply counts_for_const with (f := fun o => (p - 0) * ((m - 0) * ops 1 1 0 0 0 o)). intros i P _.
    apply counts_for_const with (f := fun o => (m - 0) * ops 1 1 0 0 0 o). intros j P' _.
    apply counts_for_const. intros k P'' _. eapply counts_eq; [straight|kinds].
  - intros o; destruct o; cbn [ops]; nia.
Qed.

Lemma counts_strassen (A B : Mat) : counts (strassen_c S A B) (ops 7 18 0 0 0).
Proof. unfold strassen_c. eapply counts_eq; [straight|kinds]. Qed.

Lemma counts_div n m (A : Mat) s : counts (div_c S n m A s) (ops 0 0 (n * m) 0 1).
Proof.
  unfold div_c. eapply counts_eq.
  - apply counts_bind with (g := fun o => (n - 0) * ((m - 0) * ops 0 0 1 0 0 o)); [apply counts_once|].
    intros z _. destruct z; [split; [intros; apply Nat.le_0_l|discriminate]|].
    apply counts_for_const with (f := fun o => (m - 0) * ops 0 0 1 0 0 o). intros i R _.
    apply counts_for_const. intros j R' _. eapply counts_eq; [straight|kinds].
  - intros o; destruct o; cbn [ops once op_eqb]; nia.
Qed.

(** ** Statistics *)

Lemma counts_mean n m (A : Mat) : counts (mean_c S n m A) (ops 0 (n * m) 1 0 0).
Proof.
  unfold mean_c. eapply counts_eq.
  - apply counts_bind with (f := fun o => (n - 0) * ((m - 0) * ops 0 1 0 0 0 o)); [|intros; apply counts_once].
    apply counts_for_const with (f := fun o => (m - 0) * ops 0 1 0 0 0 o). intros i R _.
    apply counts_for_const. intros j R' _. eapply counts_eq; [straight|kinds].
  - intros o; destruct o; cbn [ops once op_eqb]; nia.
Qed.

Lemma counts_var n m (A : Mat) : counts (var_c S n m A) (ops (n * m) (4 * (n * m)) 2 0 0).
Proof.
  unfold var_c. eapply counts_eq.
  - eapply counts_bind; [apply counts_mean|]. intros mu _.
    apply counts_bind with (f := fun o => (n - 0) * ((m - 0) * ops 1 3 0 0 0 o)); [|intros; apply counts_once].
    apply counts_for_const with (f := fun o => (m - 0) * ops 1 3 0 0 0 o). intros i R _.
    apply counts_for_const. intros j R' _. eapply counts_eq; [straight|kinds].
  - intros o; destruct o; cbn [ops once op_eqb]; nia.
Qed.

(** ** Small determinants and inverses *)

Lemma counts_det2 (A : Mat) : counts (det_c S 2 A) (ops 2 1 0 0 0).
Proof. cbn [det_c]. unfold det2_c. eapply counts_eq; [straight|kinds]. Qed.

Lemma counts_det3 (A : Mat) : counts (det_c S 3 A) (ops 12 5 0 0 0).
Proof. cbn [det_c]. unfold det3_c, mul3_c. eapply counts_eq; [straight|kinds]. Qed.

Lemma counts_fail {A} (o : outcome A) f : (forall a, o <> Ok a) -> counts (quiet o) f.
Proof. intros H. split; [intros; apply Nat.le_0_l|]. intros a E. destruct (H a E). Qed.

Lemma counts_inv1 (A : Mat) : counts (inv_c S 1 A) (ops 0 0 1 0 0).
Proof. cbn [inv_c det_c]. unfold inv1_c. eapply counts_eq; [straight|kinds]. Qed.

Lemma counts_inv2 (A : Mat) : counts (inv_c S 2 A) (ops 2 1 4 0 2).
Proof.
  cbn [inv_c]. unfold inv2_c. eapply counts_eq.
  - eapply counts_bind; [apply counts_det2|]. intros d _.
    eapply counts_bind; [apply counts_once|]. intros z _.
    instantiate (1 := ops 0 0 4 0 1).
    destruct z; [apply counts_fail; discriminate|].
    eapply counts_eq.
    + do 6 (eapply counts_bind; [apply counts_quiet|intros ? _]). apply counts_div.
    + kinds.
  - kinds.
Qed.

Lemma counts_mul_sub x y z w : counts (mul_sub_c S x y z w) (ops 2 1 0 0 0).
Proof. unfold mul_sub_c. eapply counts_eq; [straight|kinds]. Qed.

Lemma counts_inv3 (A : Mat) : counts (inv_c S 3 A) (ops 30 14 9 0 2).
Proof.
  cbn [inv_c]. unfold inv3_c. eapply counts_eq.
  - eapply counts_bind; [apply counts_det3|]. intros d _.
    eapply counts_bind; [apply counts_once|]. intros z _.
    instantiate (1 := ops 18 9 9 0 1).
    destruct z; [apply counts_fail; discriminate|].
    eapply counts_eq.
    + do 9 (eapply counts_bind; [apply counts_quiet|intros ? _]).
      do 9 (eapply counts_bind; [apply counts_mul_sub|intros ? _]). apply counts_div.
    + kinds.
  - kinds.
Qed.

(** ** Decompositions *)

Lemma counts_lu_sum (L U : Mat) i j : counts (lu_sum_c S L U i j) (ops i i 0 0 0).
Proof.
  unfold lu_sum_c. eapply counts_eq.
  - apply counts_for_const with (f := ops 1 1 0 0 0). intros. eapply counts_eq; [straight|kinds].
  - intros o; destruct o; cbn [ops]; lia.
Qed.

(** Column [j]: rows [0..j] of [U], rows [j..n-1] of [L]. *)
Lemma counts_lu n (A : Mat) :
  counts (lu_c S n A) (fun o =>
    total 0 (n - 0) (fun j =>
      total 0 (j + 1 - 0) (fun i => ops i (i + 1) 0 0 0 o) +
      total j (n - j) (fun i => ops i (i + 1) 1 0 1 o))).
Proof.
  unfold lu_c. eapply counts_eq.
  - eapply counts_bind; [apply counts_quiet|]. intros L _. cbv zeta.
    apply counts_for with (f := fun j o =>
      total 0 (j + 1 - 0) (fun i => ops i (i + 1) 0 0 0 o) +
      total j (n - j) (fun i => ops i (i + 1) 1 0 1 o)).
    intros j [L' U'] Hj. eapply counts_eq.
    + eapply counts_bind.
      * apply counts_for with (f := fun i => ops i (i + 1) 0 0 0). intros i U _.
        eapply counts_eq; [eapply counts_bind; [apply counts_lu_sum|intros ? _; straight]|kinds].
      * intros U _. eapply counts_bind; [|intros; apply counts_quiet].
        apply counts_for with (f := fun i => ops i (i + 1) 1 0 1). intros i L2 _.
        eapply counts_eq.
        -- eapply counts_bind; [apply counts_lu_sum|]. intros s _.
           eapply counts_bind; [apply counts_quiet|]. intros u _.
           eapply counts_bind; [apply counts_once|]. intros z _.
           instantiate (1 := ops 0 1 1 0 0). destruct z; [apply counts_fail; discriminate|].
           eapply counts_eq; [straight|kinds].
        -- kinds.
    + intros o. unfold none. lia.
  - intros o. reflexivity.
Qed.

Lemma counts_chol n (A : Mat) :
  counts (chol_c S n A) (fun o =>
    total 0 (n - 0) (fun i => total 0 (i + 1 - 0) (fun j =>
      if j =? i then ops i (i + 1) 0 1 0 o else ops i (i + 1) 1 0 0 o))).
Proof.
  unfold chol_c. apply counts_for with (f := fun i o => total 0 (i + 1 - 0) (fun j =>
      if j =? i then ops i (i + 1) 0 1 0 o else ops i (i + 1) 1 0 0 o)).
  intros i L _.
  apply counts_for with (f := fun j o => if j =? i then ops i (i + 1) 0 1 0 o else ops i (i + 1) 1 0 0 o).
  intros j L' _. destruct (j =? i).
  - eapply counts_eq; [eapply counts_bind|].
    + apply counts_for_const with (f := ops 1 1 0 0 0). intros; eapply counts_eq; [straight|kinds].
    + intros s _. straight.
    + kinds.
  - eapply counts_eq; [eapply counts_bind|].
    + apply counts_for_const with (f := ops 1 1 0 0 0). intros; eapply counts_eq; [straight|kinds].
    + intros s _. straight.
    + kinds.
Qed.

(** ** Power *)

Lemma products_O q : products (xO q) = products q + 1.
Proof.
  unfold products. rewrite Pos2Nat.inj_xO. rewrite Nat.log2_double by lia. cbn [ones].
  assert (1 <= ones q) by (induction q; cbn; lia). lia.
Qed.

Lemma products_I q : products (xI q) = products q + 2.
Proof.
  unfold products. rewrite Pos2Nat.inj_xI, <- (Nat.add_1_r (2 * Pos.to_nat q)). rewrite Nat.log2_succ_double by lia. cbn [ones].
  assert (1 <= ones q) by (induction q; cbn; lia). lia.
Qed.

Lemma products_log2 p : products p <= 2 * Nat.log2 (Pos.to_nat p).
Proof.
  induction p as [q IH|q IH|]; [rewrite products_I|rewrite products_O|apply Nat.leb_le; vm_compute; reflexivity].
  - rewrite Pos2Nat.inj_xI, <- (Nat.add_1_r (2 * Pos.to_nat q)), Nat.log2_succ_double by lia. lia.
  - rewrite Pos2Nat.inj_xO, Nat.log2_double by lia. lia.
Qed.

Lemma counts_pow_step fuel n w (A : Mat) q k :
  counts (pow_fuel_c S fuel n w A (Z.quot (Zpos q) 2)) (ops (k * (n * n * n)) (k * (n * n * n)) 0 0 0) ->
  counts (let^ powA := pow_fuel_c S fuel n w A (Z.quot (Zpos q) 2) in
          if (Z.rem (Zpos q) 2 =? 0)%Z then mult_c S n n n powA powA
          else let^ r := mult_c S n n n powA powA in mult_c S n n n r A)
    (let k' := k + match q with xO _ => 1 | _ => 2 end in ops (k' * (n * n * n)) (k' * (n * n * n)) 0 0 0).
Proof.
  intros H. cbv zeta. destruct q as [q|q|].
  - replace (Z.rem (Zpos q~1) 2 =? 0)%Z with false
      by (symmetry; apply Z.eqb_neq; rewrite Z.rem_mod_nonneg by lia;
          rewrite Pos2Z.inj_xI, Z.add_comm, Z.mul_comm, Z.mod_add by lia; discriminate).
    eapply counts_eq; [eapply counts_bind; [exact H|intros; eapply counts_bind; [apply counts_mult|intros; apply counts_mult]]|].
    kinds.
  - replace (Z.rem (Zpos q~0) 2 =? 0)%Z with true
      by (symmetry; apply Z.eqb_eq; rewrite Z.rem_mod_nonneg by lia;
          rewrite Pos2Z.inj_xO, Z.mul_comm, Z.mod_mul by lia; reflexivity).
    eapply counts_eq; [eapply counts_bind; [exact H|intros; apply counts_mult]|].
    kinds.
  - eapply counts_eq; [eapply counts_bind; [exact H|intros; eapply counts_bind; [apply counts_mult|intros; apply counts_mult]]|].
    kinds.
Qed.

Lemma quot2_O q : Z.quot (Zpos q~0) 2 = Zpos q.
Proof. rewrite Z.quot_div_nonneg by lia. rewrite Pos2Z.inj_xO, Z.mul_comm, Z.div_mul by lia. reflexivity. Qed.

Lemma quot2_I q : Z.quot (Zpos q~1) 2 = Zpos q.
Proof.
  rewrite Z.quot_div_nonneg by lia.
  rewrite Pos2Z.inj_xI, Z.add_comm, Z.mul_comm, Z.div_add by lia. reflexivity.
Qed.

Lemma counts_pow_pos fuel n w (A : Mat) p :
  counts (pow_fuel_c S fuel n w A (Zpos p)) (ops (products p * (n * n * n)) (products p * (n * n * n)) 0 0 0).
Proof.
  revert w A p. induction fuel as [|fuel IH]; intros w A p; [apply counts_fail; discriminate|].
  cbn [pow_fuel_c]. change (Zpos p =? 0)%Z with false. cbv iota.
  destruct (Z.eqb_spec (Zpos p) 1) as [E|E].
  - injection E as ->. change (products 1) with 0. eapply counts_eq; [apply counts_quiet|kinds].
  - change (Zpos p <? 0)%Z with false. cbv iota.
    destruct p as [q|q|]; [rewrite products_I|rewrite products_O|congruence];
      (eapply counts_eq; [eapply counts_bind; [apply counts_quiet|]|]).
    + intros [A' p'] E'. injection E' as <- <-.
      apply (counts_pow_step fuel n (Z.max w 32) A q~1 (products q)). rewrite quot2_I. apply IH.
    + kinds.
    + intros [A' p'] E'. injection E' as <- <-.
      apply (counts_pow_step fuel n (Z.max w 32) A q~0 (products q)). rewrite quot2_O. apply IH.
    + kinds.
Qed.

Lemma abs_assign_ok w p : (1 <= w)%Z -> (- 2 ^ (w - 1) < p < 0)%Z -> abs_assign w p = Ok (- p)%Z.
Proof.
  intros Hw Hp. unfold abs_assign. destruct (w <? 32)%Z.
  - rewrite Z.abs_neq by lia. f_equal.
    rewrite Z.mod_small; [lia|].
    replace (2 ^ w)%Z with (2 * 2 ^ (w - 1))%Z by (rewrite <- Z.pow_succ_r by lia; f_equal; lia). lia.
  - destruct (Z.eqb_spec p (- 2 ^ (w - 1))); [lia|]. rewrite Z.abs_neq by lia. reflexivity.
Qed.

Lemma counts_pow_neg n w (A : Mat) q f :
  (1 <= w)%Z -> (- 2 ^ (w - 1) < Zneg q)%Z -> counts (inv_c S n A) f ->
  counts (pow_c S n w A (Zneg q))
    (fun o => f o + let k := match q with xH => 2 | _ => products q end in
                    ops (k * (n * n * n)) (k * (n * n * n)) 0 0 0 o).
Proof.
  intros Hw Hq Hf. unfold pow_c. replace (Z.to_nat (Z.max w 32) + 3) with (Datatypes.S (Z.to_nat (Z.max w 32) + 2)) by lia.
  set (fuel := Z.to_nat (Z.max w 32) + 2). cbn [pow_fuel_c].
  change (Zneg q =? 0)%Z with false. change (Zneg q =? 1)%Z with false. change (Zneg q <? 0)%Z with true.
  cbv iota. eapply counts_eq; [eapply counts_bind; [|]|].
  - rewrite abs_assign_ok by lia. eapply counts_bind; [exact Hf|intros; straight].
  - intros [A' p'] E.
    assert (p' = Zpos q).
    { revert E. rewrite abs_assign_ok by lia. unfold cbind at 1.
      destruct (result (inv_c S n A)); cbn; try discriminate. intros E. injection E as _ <-. reflexivity. }
    subst p'. clear E.
    instantiate (1 := let k := match q with xH => 2 | _ => products q end in
                    ops (k * (n * n * n)) (k * (n * n * n)) 0 0 0).
    destruct q as [q|q|].
    + rewrite products_I. apply (counts_pow_step fuel n (Z.max w 32) A' q~1 (products q)).
      rewrite quot2_I. apply counts_pow_pos.
    + rewrite products_O. apply (counts_pow_step fuel n (Z.max w 32) A' q~0 (products q)).
      rewrite quot2_O. apply counts_pow_pos.
    + apply (counts_pow_step fuel n (Z.max w 32) A' 1 0). unfold fuel.
      replace (Z.to_nat (Z.max w 32) + 2) with (Datatypes.S (Z.to_nat (Z.max w 32) + 1)) by lia.
      change (Z.quot 1 2) with 0%Z. cbn [pow_fuel_c]. change (0 =? 0)%Z with true. cbv iota.
      eapply counts_eq; [apply counts_quiet|kinds].
  - intros o. unfold none. cbn beta. lia.
Qed.

(** ** The determinant by elimination: bounds *)

Lemma counts_det_prod n (A : Mat) f : counts (det_prod_c S n A f) (ops n 0 1 0 0).
Proof.
  unfold det_prod_c. eapply counts_eq.
  - apply counts_bind with (f := fun o => (n - 0) * ops 1 0 0 0 0 o).
    + apply counts_for_const. intros. eapply counts_eq; [straight|kinds].
    + intros; straight.
  - intros o; destruct o; cbn; unfold none; lia.
Qed.

Lemma bind_count {A B} (m : counted A) (k : A -> counted B) o x y :
  count m o <= x -> (forall a, result m = Ok a -> count m o + count (k a) o <= y) -> x <= y ->
  count (cbind m k) o <= y.
Proof.
  intros H1 H2 Hxy. unfold cbind. destruct (result m) eqn:E; cbn [count]; try lia. apply H2; reflexivity.
Qed.

Lemma bind_result {A B} (m : counted A) (k : A -> counted B) b :
  result (cbind m k) = Ok b -> exists a, result m = Ok a /\ result (k a) = Ok b /\
    forall o, count (cbind m k) o = count m o + count (k a) o.
Proof.
  unfold cbind. destruct (result m) eqn:E; cbn [count result]; try discriminate. eauto.
Qed.

Lemma total_le lo c f b : (forall i, lo <= i < lo + c -> f i <= b) -> total lo c f <= c * b.
Proof.
  revert lo; induction c as [|c IH]; intros lo H; cbn [total]; [lia|].
  specialize (H lo) as H0. specialize (IH (Datatypes.S lo)).
  assert (total (Datatypes.S lo) c f <= c * b) by (apply IH; intros; apply H; lia). nia.
Qed.

Lemma count_eliminate n (A : Mat) r p o :
  count (det_eliminate_c S n A r p) o <=
  (n - p - 1) * (n - p) * ops 1 1 1 0 0 o.
Proof.
  unfold det_eliminate_c.
  assert (H : counts (cfor (p + 1) n (fun i A =>
    if i =? r then quiet (Ok A)
    else
      let^ val := quiet (aget A i p) in
      cfor p n (fun j A =>
        let^ aij := quiet (aget A i j) in
        let^ arj := quiet (aget A r j) in
        let^ arp := quiet (aget A r p) in
        let^ t := cmul S (ld val) (ld arj) in
        let^ t := cdiv S t (ld arp) in
        let^ v := csub S (ld aij) t in
        quiet (aset A i j (st v))) A) A)
    (fun o => total (p + 1) (n - (p + 1)) (fun i => if i =? r then 0 else (n - p) * ops 1 1 1 0 0 o))).
  { apply counts_for with (f := fun i o => if i =? r then 0 else (n - p) * ops 1 1 1 0 0 o).
    intros i B _. destruct (i =? r); [eapply counts_eq; [apply counts_quiet|reflexivity]|].
    eapply counts_eq; [eapply counts_bind; [apply counts_quiet|]|].
    - intros v _. apply counts_for_const with (f := ops 1 1 1 0 0). intros; eapply counts_eq; [straight|kinds].
    - intros; cbn; reflexivity. }
  destruct H as [H _]. etransitivity; [apply H|].
  etransitivity; [apply total_le with (b := (n - p) * ops 1 1 1 0 0 o)|].
  - intros i _. cbn beta. destruct (i =? r); [apply Nat.le_0_l|apply le_n].
  - rewrite Nat.mul_assoc. replace (n - (p + 1)) with (n - p - 1) by lia. lia.
Qed.

(** The pivot search tests each remaining cell at most once. *)
Lemma count_search n (A : Mat) r fuel : forall i p, r <= i < n -> p < n ->
  count (det_search_c S fuel n A r i p) Cmp + (i - r) <= (n - p) * (n - r) /\
  (forall o, o <> Cmp -> count (det_search_c S fuel n A r i p) o = 0) /\
  (forall i' p', result (det_search_c S fuel n A r i p) = Ok (Cont (i', p')) ->
     r <= i' < n /\ p <= p' < n /\
     count (det_search_c S fuel n A r i p) Cmp + (i - r) = (p' - p) * (n - r) + (i' - r) + 1).
Proof.
  induction fuel as [|fuel IH]; intros i p Hi Hp;
    assert (K : n - r <= (n - p) * (n - r)) by (destruct (n - p) eqn:E; [lia|nia]).
  - cbn [det_search_c quiet count result]. split; [unfold none; lia|split; [reflexivity|discriminate]].
  - cbn [det_search_c]. destruct (aget A i p) as [a|e| |u|]; unfold cbind; cbn [quiet ceq0 result count];
      try (split; [unfold none; lia|split; [reflexivity|discriminate]]).
    cbv zeta. destruct (xeq (ld a) (lit 0)); cbn [quiet result count].
    + destruct (Nat.eqb_spec n (i + 1)) as [En|En].
      * destruct (Nat.eqb_spec n (p + 1)) as [Ep|Ep].
        -- cbn [quiet count result once op_eqb]. unfold none. split; [lia|]. split; [intros [] Ho; cbn; congruence|discriminate].
        -- destruct (IH r (p + 1) ltac:(lia) ltac:(lia)) as (H1 & H2 & H3).
           assert (Hs : (n - p) * (n - r) = (n - (p + 1)) * (n - r) + (n - r)) by nia.
           split; [cbn [once op_eqb]; unfold none; lia|]. split.
           ++ intros o Ho. rewrite (H2 o Ho). destruct o; cbn; congruence.
           ++ intros i' p' E. destruct (H3 _ _ E) as (h1 & h2 & h3). split; [lia|]. split; [lia|].
              assert ((p' - p) * (n - r) = (p' - (p + 1)) * (n - r) + (n - r)) by nia.
              cbn [once op_eqb]; unfold none; lia.
      * destruct (IH (i + 1) p ltac:(lia) ltac:(lia)) as (H1 & H2 & H3).
        split; [cbn [once op_eqb]; unfold none; lia|]. split.
        -- intros o Ho. rewrite (H2 o Ho). destruct o; cbn; congruence.
        -- intros i' p' E. destruct (H3 _ _ E) as (h1 & h2 & h3). split; [lia|]. split; [lia|].
           cbn [once op_eqb]; unfold none; lia.
    + cbn [quiet count result once op_eqb]. unfold none. split; [lia|]. split; [intros [] Ho; cbn; congruence|].
      intros i' p' E. injection E as <- <-. split; [lia|]. split; [lia|]. rewrite Nat.sub_diag. lia.
Qed.

(** Cost of all eliminations with pivot column [p] or later. *)
Definition elim (n p : nat) : nat := total p (n - p) (fun q => (n - q - 1) * (n - q)).

Lemma elim_step n p : p < n -> elim n p = (n - p - 1) * (n - p) + elim n (p + 1).
Proof.
  intros H. unfold elim. replace (n - p) with (Datatypes.S (n - (p + 1))) at 1 by lia.
  cbn [total]. replace (Datatypes.S p) with (p + 1) by lia. reflexivity.
Qed.

Lemma elim_mono n p q : p <= q -> elim n q <= elim n p.
Proof.
  intros H. induction H as [|q H IH]; [lia|].
  destruct (le_lt_dec n q).
  - unfold elim at 1. replace (n - Datatypes.S q) with 0 by lia. cbn. lia.
  - rewrite (elim_step n q) in IH by lia. replace (Datatypes.S q) with (q + 1) by lia. eapply Nat.le_trans; [|exact IH]. apply Nat.le_add_l.
Qed.

Lemma elim_closed n : 3 * elim n 0 = n * (n * n - 1).
Proof.
  assert (H : forall k, k <= n -> 3 * elim n (n - k) = k * (k * k - 1)).
  { induction k as [|k IH]; intros Hk.
    - unfold elim. replace (n - (n - 0)) with 0 by lia. reflexivity.
    - rewrite elim_step by lia. replace (n - Datatypes.S k + 1) with (n - k) by lia.
      replace (n - (n - Datatypes.S k)) with (k + 1) by lia.
      rewrite Nat.mul_add_distr_l, IH by lia.
      destruct k as [|k]; [reflexivity|].
      replace (Datatypes.S k + 1 - 1) with (Datatypes.S k) by lia.
      replace (Datatypes.S k * Datatypes.S k - 1) with (k * (k + 2)) by lia.
      replace (Datatypes.S (Datatypes.S k) * Datatypes.S (Datatypes.S k) - 1) with ((k + 1) * (k + 3)) by lia.
      lia. }
  rewrite <- (H n (le_n n)). replace (n - n) with 0 by lia. reflexivity.
Qed.

Definition det_room (n c p : nat) : op -> nat :=
  ops (elim n p + c) (elim n p) (elim n p) 0 ((n - p) * n + c * n).

Lemma count_det_general n (A : Mat) o :
  count (det_general_c S n A) o <= det_room n n 0 o + ops n 0 1 0 0 o.
Proof.
  unfold det_general_c. unfold cfor_ret. rewrite Nat.sub_0_r.
  set (body := fun (r : nat) (s : Mat * elt S * nat) => _).
  assert (Hb : forall c r (B : Mat) f p, c + r = n -> r <= p <= n ->
    count (citer_ret c r body (B, f, p)) o <= det_room n c p o + ops n 0 1 0 0 o /\
    (forall s, result (citer_ret c r body (B, f, p)) = Ok (Cont s) ->
       count (citer_ret c r body (B, f, p)) o <= det_room n c p o)).
  { induction c as [|c IH]; intros r B f p Hr Hp.
    - cbn. unfold none. split; [lia|]. intros; lia.
    - cbn [citer_ret].
      assert (Hstep : (count (body r (B, f, p)) o <= det_room n (Datatypes.S c) p o + ops n 0 1 0 0 o) /\
        forall s', result (body r (B, f, p)) = Ok (Cont s') -> exists B' f' p',
          s' = (B', f', p' + 1) /\ p <= p' < n /\ 
          count (body r (B, f, p)) o + det_room n c (p' + 1) o <= det_room n (Datatypes.S c) p o).
      { unfold body. destruct (Nat.leb_spec n p) as [Hn|Hn].
        - assert (E : counts (let^ d := det_prod_c S n B f in quiet (Ok (@Ret (Mat * elt S * nat) _ d))) (ops n 0 1 0 0)).
          { eapply counts_eq; [eapply counts_bind; [apply counts_det_prod|intros; apply counts_quiet]|kinds]. }
          split; [etransitivity; [apply E|lia]|].
          intros s' Es. apply bind_result in Es. destruct Es as (d & _ & Es & _). discriminate.
        - destruct (count_search n B r (n * n + 1) r p ltac:(lia) ltac:(lia)) as (S1 & S2 & S3).
          set (se := det_search_c S (n * n + 1) n B r r p) in *.
          assert (Sc : count se o <= ops 0 0 0 0 ((n - p) * n) o).
          { destruct o; try (rewrite S2 by discriminate; apply Nat.le_0_l). cbn. nia. }
          set (tail := fun (i p' : nat) =>
            let^ s2 :=
              (if i =? r then quiet (Ok (B, f))
               else
                 let^ A := quiet (swap_rows S n n B i r) in
                 let^ f := cmul S (ld f) (lit (-1)) in
                 quiet (Ok (A, st f))) in
            let '(A, factor) := s2 in
            let^ A := det_eliminate_c S n A r p' in
            quiet (Ok (@Cont (Mat * elt S * nat) (elt S) (A, factor, p' + 1)))).
          assert (Htail : forall i p',
            count (tail i p') o <= ops 1 0 0 0 0 o + (n - p' - 1) * (n - p') * ops 1 1 1 0 0 o /\
            forall s', result (tail i p') = Ok (Cont s') -> exists B' f', s' = (B', f', p' + 1)).
          { intros i p'. split.
            - apply bind_count with (x := ops 1 0 0 0 0 o); [| |apply Nat.le_add_r].
              + destruct (i =? r); [cbn; unfold none; lia|].
                assert (E : counts (let^ A := quiet (swap_rows S n n B i r) in
                  let^ f := cmul S (ld f) (lit (-1)) in quiet (Ok (A, st f))) (ops 1 0 0 0 0)).
                { eapply counts_eq; [straight|kinds]. }
                apply E.
              + intros [B' f'] _.
                assert (L1 : count (if i =? r then quiet (Ok (B, f))
                  else let^ A := quiet (swap_rows S n n B i r) in
                       let^ f := cmul S (ld f) (lit (-1)) in quiet (Ok (A, st f))) o <= ops 1 0 0 0 0 o).
                { destruct (i =? r); [cbn; unfold none; lia|].
                  assert (E : counts (let^ A := quiet (swap_rows S n n B i r) in
                    let^ f := cmul S (ld f) (lit (-1)) in quiet (Ok (A, st f))) (ops 1 0 0 0 0)).
                  { eapply counts_eq; [straight|kinds]. }
                  apply E. }
                apply Nat.add_le_mono; [exact L1|].
                pose proof (count_eliminate n B' r p' o) as L2.
                apply bind_count with (x := (n - p' - 1) * (n - p') * ops 1 1 1 0 0 o); [exact L2| |lia].
                intros B2 _. cbn [quiet count]. unfold none. lia.
            - intros s' Es. apply bind_result in Es. destruct Es as ([B' f'] & _ & Es & _).
              apply bind_result in Es. destruct Es as (B2 & _ & Es & _). injection Es as <-. eauto. }
          assert (Hroom : forall i p', result se = Ok (Cont (i, p')) -> p <= p' < n /\
            count se o + (ops 1 0 0 0 0 o + (n - p' - 1) * (n - p') * ops 1 1 1 0 0 o) + det_room n c (p' + 1) o
              <= det_room n (Datatypes.S c) p o).
          { intros i p' Es. destruct (S3 i p' Es) as (h1 & h2 & h3). split; [exact h2|].
            pose proof (elim_mono n p p' ltac:(lia)) as M. rewrite (elim_step n p') in M by lia.
            unfold det_room. destruct o; try (rewrite S2 by discriminate; cbn [ops]; lia).
            cbn [ops].
            assert (Q1 : (p' - p) * (n - r) <= (p' - p) * n) by nia.
            assert (Q2 : (n - p) * n = (p' - p) * n + (n - p') * n) by nia.
            assert (Q3 : (n - (p' + 1)) * n <= (n - p') * n) by nia.
            lia. }
          split.
          + apply bind_count with (x := det_room n (Datatypes.S c) p o); [| |lia].
            { etransitivity; [exact Sc|]. unfold det_room. destruct o; cbn; lia. }
            intros [[i p']|v] Es.
            * destruct (Htail i p') as [T1 _]. destruct (Hroom i p' Es) as [_ R].
              match goal with |- _ + count ?t o <= _ => change t with (tail i p') end.
              clearbody tail. generalize dependent (count (tail i p') o). generalize dependent ((n - p' - 1) * (n - p') * ops 1 1 1 0 0 o).
              intros. lia.
            * assert (E : counts (let^ d := det_prod_c S n B f in quiet (Ok (@Ret (Mat * elt S * nat) _ d))) (ops n 0 1 0 0)).
              { eapply counts_eq; [eapply counts_bind; [apply counts_det_prod|intros; apply counts_quiet]|kinds]. }
              destruct E as [E _]. specialize (E o). clear - E Sc. unfold det_room. destruct o; cbn in *; lia.
          + intros s' Es. apply bind_result in Es. destruct Es as (fd & Es1 & Es2 & Ec).
            destruct fd as [[i p']|v].
            * destruct (Htail i p') as [T1 T2]. destruct (Hroom i p' Es1) as [h R].
              destruct (T2 _ Es2) as (B' & f' & ->). exists B', f', p'. split; [reflexivity|].
              split; [exact h|]. rewrite Ec.
              match goal with |- _ + count ?t o + _ <= _ => change t with (tail i p') end. lia.
            * apply bind_result in Es2. destruct Es2 as (d & _ & Es2 & _). discriminate. }
      destruct Hstep as [Hs1 Hs2]. split.
      + apply bind_count with (x := det_room n (Datatypes.S c) p o + ops n 0 1 0 0 o); [exact Hs1| |lia].
        intros [s'|v] Es.
        * destruct (Hs2 s' Es) as (B' & f' & p' & -> & Hp' & Hc).
          destruct (IH (Datatypes.S r) B' f' (p' + 1) ltac:(lia) ltac:(lia)) as [I1 _]. lia.
        * cbn [quiet count]. unfold none. lia.
      + intros s Es. apply bind_result in Es. destruct Es as ([s'|v] & E1 & E2 & Ec); [|discriminate].
        destruct (Hs2 s' E1) as (B' & f' & p' & -> & Hp' & Hc).
        destruct (IH (Datatypes.S r) B' f' (p' + 1) ltac:(lia) ltac:(lia)) as [_ I2].
        specialize (I2 s E2). rewrite Ec. lia. }
  destruct (Hb n 0 A (lite S 1) 0 ltac:(lia) ltac:(lia)) as [H1 H2].
  apply bind_count with (x := det_room n n 0 o + ops n 0 1 0 0 o); [exact H1| |lia].
  intros [[[B f] p]|d] Es.
  - specialize (H2 _ Es). destruct (counts_det_prod n B f) as [P _]. specialize (P o). lia.
  - cbn [quiet count]. unfold none. lia.
Qed.


(** [det] of any size, the closed formulas included. *)
Lemma count_det n (A : Mat) :
  3 * count (det_c S n A) Mul <= n * (n * n - 1) + 6 * n /\
  3 * count (det_c S n A) Add <= n * (n * n - 1) /\
  3 * count (det_c S n A) Div <= n * (n * n - 1) + 3 /\
  count (det_c S n A) Sqrt = 0 /\
  count (det_c S n A) Cmp <= 2 * (n * n).
Proof.
  assert (G : 3 * count (det_general_c S n A) Mul <= n * (n * n - 1) + 6 * n /\
    3 * count (det_general_c S n A) Add <= n * (n * n - 1) /\
    3 * count (det_general_c S n A) Div <= n * (n * n - 1) + 3 /\
    count (det_general_c S n A) Sqrt = 0 /\
    count (det_general_c S n A) Cmp <= 2 * (n * n)).
  { pose proof (elim_closed n) as E. pose proof (fun o => count_det_general n A o) as H.
    pose proof (H Mul) as h1. pose proof (H Add) as h2. pose proof (H Div) as h3.
    pose proof (H Sqrt) as h4. pose proof (H Cmp) as h5. clear H. unfold det_room in *. cbn [ops] in *.
    rewrite Nat.sub_0_r in h5. generalize dependent (n * (n * n - 1)). generalize dependent (n * n).
    intros. repeat split; lia. }
  destruct n as [|[|[|[|n]]]]; cbn [det_c]; try exact G; clear G.
  - cbn. unfold none. lia.
  - destruct (counts_det2 A) as [H _]. cbn [det_c] in H.
    pose proof (H Mul). pose proof (H Add). pose proof (H Div). pose proof (H Sqrt). pose proof (H Cmp).
    clear H. generalize dependent (det2_c S A). cbn. intros. lia.
  - destruct (counts_det3 A) as [H _]. cbn [det_c] in H.
    pose proof (H Mul). pose proof (H Add). pose proof (H Div). pose proof (H Sqrt). pose proof (H Cmp).
    clear H. generalize dependent (det3_c S A). cbn. intros. lia.
Qed.

Lemma iter_count {X : Type} o c lo (body : nat -> X -> counted X) b s :
  (forall i s, lo <= i < lo + c -> count (body i s) o <= b) ->
  count (citer c lo body s) o <= c * b.
Proof.
  revert lo s. induction c as [|c IH]; intros lo s H; [cbn; unfold none; lia|].
  cbn [citer]. apply bind_count with (x := b); [apply H; lia| |].
  - intros s' _. assert (h1 : count (body lo s) o <= b) by (apply H; lia).
    assert (h2 : count (citer c (Datatypes.S lo) body s') o <= c * b) by (apply IH; intros; apply H; lia).
    cbn. lia.
  - cbn. apply Nat.le_add_r.
Qed.

Lemma count_inv_general n (A : Mat) o d d' :
  (forall B : Mat, count (det_c S n B) o <= d) ->
  (forall B : Mat, count (det_c S (n - 1) B) o <= d') ->
  count (inv_general_c S n A) o <= d + n * (n * (d' + ops 1 0 0 0 0 o)) + ops 0 0 (n * n) 0 1 o.
Proof.
  intros Hd Hd'. unfold inv_general_c.
  apply bind_count with (x := d); [apply Hd| |lia]. intros dA _. specialize (Hd A).
  match goal with |- _ + count (cbind ?m ?k) o <= _ =>
    assert (Hm : count m o <= n * (n * (d' + ops 1 0 0 0 0 o))) end.
  { unfold cfor at 1. rewrite Nat.sub_0_r. apply iter_count. intros i R _.
    unfold cfor. rewrite Nat.sub_0_r. apply iter_count. intros j R' _.
    match goal with |- count (cbind (quiet ?q) ?k) o <= _ =>
      apply bind_count with (x := 0); [apply le_n| |apply Nat.le_0_l] end.
    intros mn _. cbn [quiet count]. unfold none at 1. rewrite Nat.add_0_l.
    apply bind_count with (x := d'); [apply Hd'| |lia]. intros dm _. specialize (Hd' mn).
    assert (E : counts (let^ v := cmul S (lit (if (i + j) mod 2 =? 0 then 1 else -1)) (ld dm) in
      quiet (aset R' i j (st v))) (ops 1 0 0 0 0)) by (eapply counts_eq; [straight|kinds]).
    destruct E as [E _]. specialize (E o). lia. }
  match goal with |- _ + ?c <= _ => assert (c <= n * (n * (d' + ops 1 0 0 0 0 o)) + ops 0 0 (n * n) 0 1 o) end; [|lia].
  apply bind_count with (x := n * (n * (d' + ops 1 0 0 0 0 o))); [exact Hm| |lia].
  intros iA _. apply Nat.add_le_mono; [exact Hm|].
  apply bind_count with (x := 0); [apply le_n| |apply Nat.le_0_l].
  intros t _. cbn [quiet count]. unfold none at 1. rewrite Nat.add_0_l.
  destruct (counts_div n n t dA) as [E _]. apply E.
Qed.

End S.

(** ** C86 *)

(** The counted functions run exactly as the model does. *)
Theorem c86_same_runs (S : scalar) :
  (forall n m p A B, result (mult_c S n m p A B) = mult S n m p A B) /\
  (forall A B, result (strassen_c S A B) = strassen S A B) /\
  (forall n m A k, result (conv2_c S n m A k) = conv2 S n m A k) /\
  (forall n m A, result (mean_c S n m A) = mean S n m A) /\
  (forall n m A, result (var_c S n m A) = var S n m A) /\
  (forall n A, result (det_c S n A) = det S n A) /\
  (forall n A, result (inv_c S n A) = inv S n A) /\
  (forall n w A p, result (pow_c S n w A p) = pow S n w A p) /\
  (forall n A, result (lu_c S n A) = lu S n A) /\
  (forall n A, result (chol_c S n A) = chol S n A).
Proof.
  repeat split; intros; [apply erase_mult|apply erase_strassen|apply erase_conv2|apply erase_mean|apply erase_var|apply erase_det|
    apply erase_inv|apply erase_pow|apply erase_lu|apply erase_chol].
Qed.

(** [mult]: one multiplication and one addition per (i, j, k). *)
Theorem c86_mult (S : scalar) n m p A B :
  counts (mult_c S n m p A B) (ops (n * m * p) (n * m * p) 0 0 0).
Proof. apply counts_mult. Qed.

(** [strassen]: 7 multiplications and 18 additions where [mult] has 8 and 8. *)
Theorem c86_strassen (S : scalar) A B :
  counts (strassen_c S A B) (ops 7 18 0 0 0) /\ counts (mult_c S 2 2 2 A B) (ops 8 8 0 0 0).
Proof. split; [apply counts_strassen|apply (counts_mult S 2 2 2)]. Qed.

(** [mean] and [var]. *)
Theorem c86_statistics (S : scalar) n m A :
  counts (mean_c S n m A) (ops 0 (n * m) 1 0 0) /\
  counts (var_c S n m A) (ops (n * m) (4 * (n * m)) 2 0 0).
Proof. split; [apply counts_mean|apply counts_var]. Qed.

(** [conv2]: nine taps per element, whatever the kernel. *)
Lemma count_conv_line (S : scalar) i j A k off it jt ka kb di dj R o :
  count (conv_line_c S i j A k off it jt ka kb di dj R) o <= ops 1 1 0 0 0 o.
Proof.
  unfold conv_line_c.
  destruct (isOutOfRange i j (size_to_int (conv_index it di off)) (size_to_int (conv_index jt dj off)) =? 0).
  - match goal with |- count ?m o <= _ => assert (E : counts m (ops 1 1 0 0 0)) end; [|apply E].
    eapply counts_eq; [straight|kinds].
  - match goal with |- count ?m o <= _ => assert (E : counts m (ops 0 1 0 0 0)) end.
    + eapply counts_eq; [straight|kinds].
    + destruct E as [E _]. etransitivity; [apply E|]. destruct o; cbn; lia.
Qed.

Lemma count_lines {X : Type} (m : counted X) (k : X -> counted X) o a b :
  count m o <= a -> (forall x, count (k x) o <= b) -> count (cbind m k) o <= a + b.
Proof.
  intros H1 H2. apply bind_count with (x := a); [exact H1| |lia]. intros x _. specialize (H2 x). lia.
Qed.

Theorem c86_conv2 (S : scalar) n m A k o :
  count (conv2_c S n m A k) o <= ops (9 * (n * m)) (9 * (n * m)) 0 0 0 o.
Proof.
  transitivity (n * (m * (9 * ops 1 1 0 0 0 o))).
  - unfold conv2_c, cfor. rewrite Nat.sub_0_r. apply iter_count. intros it R _.
    rewrite Nat.sub_0_r. apply iter_count. intros jt R' _.
    unfold conv_cell_c. cbv zeta.
    transitivity (0 + (ops 1 1 0 0 0 o + (ops 1 1 0 0 0 o + (ops 1 1 0 0 0 o + (ops 1 1 0 0 0 o +
      (ops 1 1 0 0 0 o + (ops 1 1 0 0 0 o + (ops 1 1 0 0 0 o + (ops 1 1 0 0 0 o + ops 1 1 0 0 0 o)))))))));
      [|lia].
    apply count_lines; [apply le_n|]. intros.
    do 8 (apply count_lines; [apply count_conv_line|]; intros). apply count_conv_line.
  - destruct o; cbn [ops]; lia.
Qed.

(** Small sizes of [det] and [inv]. *)
Theorem c86_closed_formulas (S : scalar) A :
  counts (det_c S 2 A) (ops 2 1 0 0 0) /\ counts (det_c S 3 A) (ops 12 5 0 0 0) /\
  counts (inv_c S 1 A) (ops 0 0 1 0 0) /\ counts (inv_c S 2 A) (ops 2 1 4 0 2) /\
  counts (inv_c S 3 A) (ops 30 14 9 0 2).
Proof.
  split; [apply counts_det2|]. split; [apply counts_det3|]. split; [apply counts_inv1|].
  split; [apply counts_inv2|apply counts_inv3].
Qed.

(** [det] of any size: cubic, not factorial. *)
Theorem c86_det (S : scalar) n A :
  3 * count (det_c S n A) Mul <= n * (n * n - 1) + 6 * n /\
  3 * count (det_c S n A) Add <= n * (n * n - 1) /\
  3 * count (det_c S n A) Div <= n * (n * n - 1) + 3 /\
  count (det_c S n A) Sqrt = 0 /\
  count (det_c S n A) Cmp <= 2 * (n * n).
Proof. apply count_det. Qed.

(** [inv] of size 4 and more: one determinant and one minor per element. *)
Theorem c86_inv (S : scalar) n A : 4 <= n ->
  3 * count (inv_c S n A) Mul <=
    n * (n * n - 1) + 6 * n + n * n * ((n - 1) * ((n - 1) * (n - 1) - 1) + 6 * (n - 1) + 3) /\
  3 * count (inv_c S n A) Div <=
    n * (n * n - 1) + 3 + n * n * ((n - 1) * ((n - 1) * (n - 1) - 1) + 6).
Proof.
  intros Hn. destruct n as [|[|[|[|k]]]]; try lia. clear Hn. cbn [inv_c]. set (n := Datatypes.S (Datatypes.S (Datatypes.S (Datatypes.S k)))).
  set (e := n * (n * n - 1)). set (e' := (n - 1) * ((n - 1) * (n - 1) - 1)).
  assert (Dm : forall B, 3 * count (det_c S n B) Mul <= e + 6 * n) by (intros; apply (count_det S n B)).
  assert (Dd : forall B, 3 * count (det_c S n B) Div <= e + 3) by (intros; apply (count_det S n B)).
  assert (Dm' : forall B, 3 * count (det_c S (n - 1) B) Mul <= e' + 6 * (n - 1)) by (intros; apply (count_det S (n - 1) B)).
  assert (Dd' : forall B, 3 * count (det_c S (n - 1) B) Div <= e' + 3) by (intros; apply (count_det S (n - 1) B)).
  assert (V : forall B x y, 3 * count B x <= y -> @count (elt S) B x <= y / 3).
  { intros B x y H. apply Nat.div_le_lower_bound; lia. }
  pose proof (count_inv_general S n A Mul _ _ (fun B => V _ _ _ (Dm B)) (fun B => V _ _ _ (Dm' B))) as H1.
  pose proof (count_inv_general S n A Div _ _ (fun B => V _ _ _ (Dd B)) (fun B => V _ _ _ (Dd' B))) as H2.
  cbn [ops] in H1, H2.
  pose proof (Nat.mul_div_le (e + 6 * n) 3 ltac:(lia)) as q1.
  pose proof (Nat.mul_div_le (e' + 6 * (n - 1)) 3 ltac:(lia)) as q2.
  pose proof (Nat.mul_div_le (e + 3) 3 ltac:(lia)) as q3.
  pose proof (Nat.mul_div_le (e' + 3) 3 ltac:(lia)) as q4.
  clearbody e e' n. clear - H1 H2 q1 q2 q3 q4.
  set (a := (e + 6 * n) / 3) in *. set (b := (e' + 6 * (n - 1)) / 3) in *.
  set (c := (e + 3) / 3) in *. set (d := (e' + 3) / 3) in *. clearbody a b c d.
  assert (n * n * (3 * b) <= n * n * (e' + 6 * (n - 1))) by (apply Nat.mul_le_mono_l; exact q2).
  assert (n * n * (3 * d) <= n * n * (e' + 3)) by (apply Nat.mul_le_mono_l; exact q4).
  split; nia.
Qed.

(** [pow] with a positive exponent: [log2 p + ones p - 1] matrix products, at
    most twice the binary logarithm. *)
Theorem c86_pow (S : scalar) n w A p :
  counts (pow_c S n w A (Zpos p)) (ops (products p * (n * n * n)) (products p * (n * n * n)) 0 0 0) /\
  products p <= 2 * Nat.log2 (Pos.to_nat p).
Proof. split; [apply counts_pow_pos|apply products_log2]. Qed.

(** With a negative exponent: one inverse and the products for [-p]; [pow(A, -1)]
    multiplies by the identity twice. *)
Theorem c86_pow_negative (S : scalar) n w A q f :
  (1 <= w)%Z -> (- 2 ^ (w - 1) < Zneg q)%Z -> counts (inv_c S n A) f ->
  counts (pow_c S n w A (Zneg q))
    (fun o => f o + let k := match q with xH => 2 | _ => products q end in
                    ops (k * (n * n * n)) (k * (n * n * n)) 0 0 0 o).
Proof. apply counts_pow_neg. Qed.

(** [lu]. *)
Lemma lu_sums n j : j <= n -> 
  2 * (total 0 (j + 1) (fun i => i) + total j (n - j) (fun i => i)) = n * (n - 1) + 2 * j.
Proof.
  intros Hj.
  assert (T : forall c, 2 * total 0 c (fun i => i) = c * (c - 1)).
  { induction c as [|c IH]; [reflexivity|]. rewrite total_snoc. destruct c; [reflexivity|]. 
    replace (Datatypes.S (Datatypes.S c) - 1) with (Datatypes.S c) by lia.
    replace (Datatypes.S c - 1) with c in IH by lia. lia. }
  assert (U : forall c lo (f : nat -> nat), total 0 (lo + c) f = total 0 lo f + total lo c f).
  { induction c as [|c IH]; intros lo f; [rewrite Nat.add_0_r; cbn; lia|].
    rewrite Nat.add_succ_r, !total_snoc, IH, Nat.add_0_l. lia. }
  specialize (U (n - j) j (fun i => i)). replace (j + (n - j)) with n in U by lia.
  pose proof (T n). replace (j + 1) with (Datatypes.S j) by lia. rewrite total_snoc, Nat.add_0_l. lia.
Qed.

Lemma total_add lo c f g : total lo c (fun i => f i + g i) = total lo c f + total lo c g.
Proof. revert lo; induction c as [|c IH]; intros lo; cbn [total]; [reflexivity|]. rewrite IH. lia. Qed.

Lemma total_id c : 2 * total 0 c (fun i => i) = c * (c - 1).
Proof.
  induction c as [|c IH]; [reflexivity|]. rewrite total_snoc. destruct c; [reflexivity|].
  replace (S (S c) - 1) with (S c) by lia. replace (S c - 1) with c in IH by lia. lia.
Qed.

Lemma total_twice lo c f g : (forall i, lo <= i < lo + c -> 2 * f i = g i) -> 2 * total lo c f = total lo c g.
Proof.
  revert lo; induction c as [|c IH]; intros lo H; cbn [total]; [reflexivity|].
  rewrite Nat.mul_add_distr_l, H by lia. rewrite (IH (S lo)) by (intros; apply H; lia). reflexivity.
Qed.

Theorem c86_lu (S : scalar) n A : exists mul half,
  2 * mul = n * (n * n - 1) /\ 2 * half = n * (n + 1) /\
  counts (lu_c S n A) (ops mul (mul + n * (n + 1)) half 0 half).
Proof.
  set (mul := total 0 n (fun j => total 0 (j + 1) (fun i => i) + total j (n - j) (fun i => i))).
  set (half := total 0 n (fun j => n - j)).
  assert (Hm : 2 * mul = n * (n * n - 1)).
  { unfold mul. rewrite (total_twice 0 n _ (fun j => n * (n - 1) + 2 * j)) by (intros; apply lu_sums; lia).
    rewrite (total_add 0 n (fun _ => n * (n - 1)) (fun j => 2 * j)), total_const.
    assert (E2 : total 0 n (fun j => 2 * j) = n * (n - 1)).
    { rewrite <- total_id. symmetry. apply total_twice. reflexivity. }
    rewrite E2. destruct n as [|k]; [reflexivity|]. replace (Datatypes.S k - 1) with k by lia.
    replace (Datatypes.S k * Datatypes.S k - 1) with (k * (k + 2)) by lia. lia. }
  assert (Hh : 2 * half = n * (n + 1)).
  { assert (half + total 0 n (fun j => j) = n * n).
    { unfold half. rewrite <- total_add, <- (total_const 0 n n). apply total_ext. intros; lia. }
    pose proof (total_id n). destruct n as [|k]; [cbn in *; lia|]. replace (Datatypes.S k - 1) with k in * by lia. lia. }
  exists mul, half. split; [exact Hm|]. split; [exact Hh|].
  eapply counts_eq; [apply counts_lu|]. intros o. rewrite Nat.sub_0_r.
  destruct o; cbn [ops].
  - unfold mul. apply total_ext. intros j _. rewrite Nat.sub_0_r. reflexivity.
  - transitivity (total 0 n (fun j => (total 0 (j + 1) (fun i => i) + total j (n - j) (fun i => i)) + (n + 1))).
    + apply total_ext. intros j Hj. rewrite Nat.sub_0_r, !total_add, !total_const. lia.
    + rewrite total_add, total_const. reflexivity.
  - unfold half. apply total_ext. intros j _. rewrite !total_const. lia.
  - rewrite (total_ext 0 n _ (fun _ => 0)) by (intros; rewrite !total_const; lia). rewrite total_const. lia.
  - unfold half. apply total_ext. intros j _. rewrite !total_const. lia.
Qed.

(** [chol]. *)
Theorem c86_chol (S : scalar) n A : exists mul half,
  3 * mul = n * (n * n - 1) /\ 2 * half = n * (n - 1) /\
  counts (chol_c S n A) (ops mul (mul + half + n) half n 0).
Proof.
  set (mul := total 0 n (fun i => (i + 1) * i)). set (half := total 0 n (fun i => i)).
  assert (Hm : 3 * mul = n * (n * n - 1)).
  { unfold mul. clear. induction n as [|n IH]; [reflexivity|]. rewrite total_snoc, Nat.mul_add_distr_l, IH, Nat.add_0_l.
    destruct n as [|k]; [reflexivity|].
    replace (Datatypes.S k * Datatypes.S k - 1) with (k * (k + 2)) by lia.
    replace (Datatypes.S (Datatypes.S k) * Datatypes.S (Datatypes.S k) - 1) with ((k + 1) * (k + 3)) by lia. lia. }
  exists mul, half. split; [exact Hm|]. split; [apply total_id|].
  assert (R : forall i a b, total 0 (i + 1 - 0) (fun j => if j =? i then a else b) = a + i * b).
  { intros i a b. replace (i + 1 - 0) with (Datatypes.S i) by lia. rewrite total_snoc, Nat.add_0_l, Nat.eqb_refl.
    rewrite (total_ext 0 i _ (fun _ => b)), total_const; [lia|]. intros j Hj.
    destruct (Nat.eqb_spec j i); [lia|reflexivity]. }
  eapply counts_eq; [apply counts_chol|]. intros o. rewrite Nat.sub_0_r.
  rewrite (total_ext 0 n _ (fun i => ops i (i + 1) 0 1 0 o + i * ops i (i + 1) 1 0 0 o)) by (intros; apply R).
  destruct o; cbn [ops].
  - unfold mul. apply total_ext. intros; lia.
  - unfold mul, half. rewrite <- total_add. replace n with (n * 1) at 3 by lia.
    rewrite <- (total_const 0 n 1), <- total_add. apply total_ext. intros; lia.
  - unfold half. apply total_ext. intros; lia.
  - rewrite (total_ext 0 n _ (fun _ => 1)), total_const; [lia|]. intros; lia.
  - rewrite (total_ext 0 n _ (fun _ => 0)), total_const; [lia|]. intros; lia.
Qed.

(** *** Concrete runs: the bounds of [det] and [inv] are met up to the row
    exchanges, and [pow(A, 13)] takes 5 products. *)
Notation II := (intS int32).
Definition four : matrix Z := [[1; 1; 1; 1]; [1; 2; 1; 1]; [1; 1; 2; 1]; [1; 1; 1; 2]]%Z.

Theorem c86_example :
  result (det_c II 4 four) = Ok 1%Z /\
  map (count (det_c II 4 four)) [Mul; Add; Div; Sqrt; Cmp] = [24; 20; 21; 0; 4] /\
  (exists B, result (inv_c II 4 four) = Ok B) /\
  count (inv_c II 4 four) Mul = 232 /\
  (exists L U, result (lu_c II 4 four) = Ok (L, U)) /\
  map (count (lu_c II 4 four)) [Mul; Add; Div; Sqrt; Cmp] = [30; 50; 10; 0; 10] /\
  products 13 = 5.
Proof.
  repeat split; try (vm_compute; reflexivity).
  - destruct (result (inv_c II 4 four)) eqn:E; [eauto|vm_compute in E; discriminate..].
  - destruct (result (lu_c II 4 four)) as [[L U]| | | |] eqn:E; [eauto|vm_compute in E; discriminate..].
Qed.

Print Assumptions c86_same_runs.
Print Assumptions c86_inv.
Print Assumptions c86_lu.
