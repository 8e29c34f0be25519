(** * lu and chol of a product of integer factors, on strict integers *)

From Coq Require Import ZArith Lia Bool List Arith.
From Verif Require Import Base Scalar Model Spec Loops Struct LURec CholRec Factor Param ParamInst Strict IntFactor Elim.
Local Open Scope Z_scope.

Section Strict.
Variable B : Z.
Hypothesis HB : 1 <= B.
Notation S := (strictS B).

Lemma chk_ok z : Z.abs z <= B -> chk B z = Ok z.
Proof. intros H. unfold chk. destruct (Z.leb_spec (Z.abs z) B); [reflexivity|lia]. Qed.

Lemma zsum_abs m f c : (forall k, (k < m)%nat -> Z.abs (f k) <= c) -> Z.abs (zsum m f) <= Z.of_nat m * c.
Proof.
  induction m as [|m IH]; intros H; cbn [zsum]; [lia|]. specialize (IH ltac:(intros; apply H; lia)).
  specialize (H m ltac:(lia)). lia.
Qed.

Lemma strict_dot m a b c : 0 <= c -> (forall k, (k < m)%nat -> Z.abs (a k * b k) <= c) -> Z.of_nat m * c <= B ->
  dot S m a b = Ok (zsum m (fun k => a k * b k)).
Proof.
  intros Hc H Hm. unfold dot.
  rewrite (for_states 0 m _ (fun k => zsum k (fun k => a k * b k))); [reflexivity|lia|reflexivity|].
  intros k Hk. cbn [xmul xadd strictS ld st]. pose proof (H k ltac:(lia)).
  pose proof (zsum_abs (Datatypes.S k) (fun k => a k * b k) c ltac:(intros; apply H; lia)) as P. cbn [zsum] in P.
  rewrite chk_ok by nia. cbn [bind]. rewrite chk_ok by nia. reflexivity.
Qed.

Lemma strict_div v d q : d <> 0 -> v = q * d -> Z.abs q <= B -> @xdiv S v d = Ok q.
Proof.
  intros Hd -> Hq. cbn [xdiv strictS]. destruct (Z.eqb_spec d 0); [contradiction|].
  rewrite Z.mod_mul by exact Hd. rewrite Z.div_mul by exact Hd. cbn. apply chk_ok, Hq.
Qed.

(** ** lu *)
Section LU.
Variables (n : nat) (l u : nat -> nat -> Z) (a b : Z).
Hypothesis L1 : forall i, (i < n)%nat -> l i i = 1.
Hypothesis L0 : forall i j, (i < j < n)%nat -> l i j = 0.
Hypothesis U0 : forall i j, (j < i < n)%nat -> u i j = 0.
Hypothesis Ud : forall i, (i < n)%nat -> u i i <> 0.
Hypothesis La : forall i j, (i < n)%nat -> (j < n)%nat -> Z.abs (l i j) <= a.
Hypothesis Ub : forall i j, (i < n)%nat -> (j < n)%nat -> Z.abs (u i j) <= b.
Hypothesis Hab : Z.of_nat n * (a * b) <= B.
Notation f := (fun i j => zsum n (fun k => l i k * u k j)).

Lemma bounds : (0 < n)%nat -> 1 <= a /\ 1 <= b /\ a * b <= B /\ a <= B /\ b <= B.
Proof.
  intros Hn. pose proof (La 0 0 Hn Hn) as Ha. rewrite (L1 0 Hn) in Ha. pose proof (Ub 0 0 Hn Hn) as Hb.
  pose proof (Ud 0 Hn). assert (1 <= a) by lia. assert (1 <= b) by lia.
  assert (1 * (a * b) <= Z.of_nat n * (a * b)) by (apply Z.mul_le_mono_nonneg_r; nia). repeat split; nia.
Qed.

Lemma prod_le i j k : (i < n)%nat -> (j < n)%nat -> (k < n)%nat -> Z.abs (l i k * u k j) <= a * b.
Proof. intros. rewrite Z.abs_mul. apply Z.mul_le_mono_nonneg; auto using Z.abs_nonneg. Qed.

Lemma split_upper i j : (i <= j < n)%nat -> f i j = zsum i (fun k => l i k * u k j) + u i j.
Proof.
  intros H. cbv beta. rewrite (zsum_cut (Datatypes.S i) n); [|lia|].
  - cbn [zsum]. rewrite L1 by lia. lia.
  - intros k Hk. rewrite L0 by lia. lia.
Qed.

Lemma split_lower i j : (j <= i < n)%nat -> f i j = zsum j (fun k => l i k * u k j) + l i j * u j j.
Proof.
  intros H. cbv beta. rewrite (zsum_cut (Datatypes.S j) n); [reflexivity|lia|].
  intros k Hk. rewrite U0 by lia. lia.
Qed.

Theorem lu_strict : lu S n (mk n n f) = Ok (mk n n l, mk n n u).
Proof.
  apply (lu_forward S n f l u).
  - intros. apply L0. assumption.
  - intros. apply U0. assumption.
  - intros i j H. destruct bounds as [Ha [Hb [Hab' [HaB HbB]]]]; [lia|].
    exists (zsum i (fun k => u k j * l i k)), (u i j). split; [|split; [|reflexivity]].
    + apply (strict_dot i (fun p => u p j) (fun p => l i p) (a * b)); [nia| |nia].
      intros k Hk. rewrite Z.mul_comm. apply prod_le; lia.
    + cbn [xsub strictS ld]. rewrite (split_upper i j H). rewrite (zsum_ext i (fun k => u k j * l i k) (fun k => l i k * u k j)) by (intros; lia).
      pose proof (Ub i j ltac:(lia) ltac:(lia)). replace (_ + _ - _) with (u i j) by lia. apply chk_ok. lia.
  - intros i j H. destruct bounds as [Ha [Hb [Hab' [HaB HbB]]]]; [lia|].
    pose proof (La i j ltac:(lia) ltac:(lia)) as Lij. pose proof (prod_le i j j ltac:(lia) ltac:(lia) ltac:(lia)) as Pij.
    split; [cbn; apply Z.eqb_neq, Ud; lia|].
    exists (zsum j (fun k => l i k * u k j)), (l i j * u j j), (l i j).
    split; [|split; [|split; [|reflexivity]]].
    + transitivity (@Ok Z (zsum i (fun p => u p j * if (p <? j)%nat then l i p else lite S 0))).
      * apply (strict_dot i (fun p => u p j) (fun p => if (p <? j)%nat then l i p else lite S 0) (a * b)); [nia| |nia].
        intros k Hk. destruct (Nat.ltb_spec k j); [rewrite Z.mul_comm; apply prod_le; lia|].
        change (lite S 0) with 0. rewrite Z.mul_0_r. cbn. nia.
      * rewrite (zsum_cut j i); [|lia|].
        -- apply (f_equal (@Ok Z)), zsum_ext. intros k Hk. destruct (Nat.ltb_spec k j); lia.
        -- intros k Hk. destruct (Nat.ltb_spec k j); [lia|]. change (lite S 0) with 0. lia.
    + cbn [xsub strictS ld]. rewrite (split_lower i j H). replace (_ + _ - _) with (l i j * u j j) by lia. apply chk_ok. lia.
    + cbn [ld strictS]. apply strict_div; [apply Ud; lia|reflexivity|lia].
Qed.
(** ** det: the elimination reproduces u *)
Hypothesis Hc : a * (b * b) <= B.
Hypothesis Hd : b ^ Z.of_nat n <= B.

(** row i, before step r *)
Definition rest (r i j : nat) : Z := f i j - zsum (Nat.min i r) (fun k => l i k * u k j).

Lemma zsum_shift m i j : (m <= n)%nat -> f i j - zsum m (fun k => l i k * u k j) =
  zsum (n - m) (fun k => l i (m + k)%nat * u (m + k)%nat j).
Proof.
  intros H. cbv beta.
  assert (G : forall q, zsum (m + q) (fun k => l i k * u k j) = zsum m (fun k => l i k * u k j) +
     zsum q (fun k => l i (m + k)%nat * u (m + k)%nat j)).
  { induction q as [|q IH]; [rewrite Nat.add_0_r; cbn [zsum]; lia|].
    rewrite Nat.add_succ_r. cbn [zsum]. rewrite IH. lia. }
  specialize (G (n - m)%nat). replace (m + (n - m))%nat with n in G by lia. lia.
Qed.

Lemma rest_le r i j : (i < n)%nat -> (j < n)%nat -> Z.abs (rest r i j) <= B.
Proof.
  intros Hi Hj. destruct bounds as [Ha [Hb _]]; [lia|]. unfold rest. rewrite zsum_shift by lia.
  pose proof (zsum_abs (n - Nat.min i r) (fun k => l i (Nat.min i r + k)%nat * u (Nat.min i r + k)%nat j) (a * b)) as P.
  eapply Z.le_trans; [apply P|].
  - intros k Hk. apply prod_le; lia.
  - eapply Z.le_trans; [|exact Hab]. apply Z.mul_le_mono_nonneg_r; [nia|lia].
Qed.

Lemma rest_pivot r j : (r < n)%nat -> (r <= j < n)%nat -> rest r r j = u r j.
Proof. intros H Hj. unfold rest. rewrite Nat.min_id. rewrite (split_upper r j) by lia. lia. Qed.

Lemma rest_col r i : (r < i < n)%nat -> rest r i r = l i r * u r r.
Proof. intros H. unfold rest. rewrite Nat.min_r by lia. rewrite (split_lower i r) by lia. lia. Qed.

Lemma rest_zero r i j : (j < r)%nat -> (j < i < n)%nat -> rest r i j = 0.
Proof.
  intros Hr H. unfold rest. rewrite (split_lower i j) by lia.
  rewrite (zsum_cut (Datatypes.S j) (Nat.min i r)); [cbn [zsum]; lia|lia|].
  intros k Hk. rewrite (U0 k j) by lia. lia.
Qed.

Lemma strict_elim r i j : (r < i < n)%nat -> (r <= j < n)%nat ->
  elim_val S (rest r) r r i j = Ok (rest (Datatypes.S r) i j).
Proof.
  intros Hi Hj. destruct bounds as [Ha [Hb _]]; [lia|].
  unfold elim_val. rewrite !rest_pivot by lia. rewrite rest_col by lia. cbn [xmul xdiv xsub strictS ld st].
  pose proof (La i r ltac:(lia) ltac:(lia)) as Lb. pose proof (Ub r r ltac:(lia) ltac:(lia)) as Ur.
  pose proof (Ub r j ltac:(lia) ltac:(lia)) as Uj.
  rewrite (chk_ok (_ * _ * _)).
  2: { eapply Z.le_trans; [|exact Hc]. rewrite !Z.abs_mul, <- Z.mul_assoc.
       apply Z.mul_le_mono_nonneg; [lia|exact Lb|nia|]. apply Z.mul_le_mono_nonneg; lia. }
  cbn [bind]. destruct (Z.eqb_spec (u r r) 0) as [E|N]; [exfalso; apply (Ud r); [lia|exact E]|].
  replace (l i r * u r r * u r j) with (l i r * u r j * u r r) by lia.
  rewrite Z.mod_mul, Z.div_mul by exact N. cbn [Z.eqb].
  rewrite chk_ok. 2: { eapply Z.le_trans; [apply prod_le; lia|]. nia. }
  cbn [bind].
  assert (E : rest r i j - l i r * u r j = rest (Datatypes.S r) i j).
  { unfold rest. rewrite !Nat.min_r by lia. cbn [zsum]. lia. }
  rewrite E, chk_ok by (apply rest_le; lia). reflexivity.
Qed.

Fixpoint zprod (m : nat) (g : nat -> Z) : Z := match m with O => 1 | Datatypes.S m => zprod m g * g m end.

Lemma zprod_le m : (m <= n)%nat -> Z.abs (zprod m (fun i => u i i)) <= b ^ Z.of_nat m.
Proof.
  induction m as [|m IH]; intros H; [cbn; lia|]. cbn [zprod]. rewrite Nat2Z.inj_succ, Z.pow_succ_r by lia.
  rewrite Z.abs_mul, Z.mul_comm. apply Z.mul_le_mono_nonneg; [lia|apply Ub; lia|lia|apply IH; lia].
Qed.

Theorem det_general_strict : (0 < n)%nat -> det_general S n (mk n n f) = Ok (zprod n (fun i => u i i)).
Proof.
  intros Hn. destruct (bounds Hn) as [Ha [Hb _]]. unfold det_general.
  match goal with |- context [for_ret 0 n ?body ?s] => set (bd := body);
    assert (E : forall r, (r <= n)%nat -> for_ret 0 r bd s = Ok (Cont (mk n n (rest r), 1, r))) end.
  { induction r as [|r IH]; intros Hr.
    - rewrite for_ret_empty by lia. do 4 f_equal. apply mk_ext. intros. unfold rest. rewrite Nat.min_0_r. cbn [zsum]. lia.
    - rewrite for_ret_snoc by lia. rewrite IH by lia. cbn [bind]. unfold bd.
      destruct (Nat.leb_spec n r) as [|_]; [lia|].
      rewrite Nat.add_1_r. cbn [det_search]. rewrite aget_mk by lia. cbn [bind].
      rewrite rest_pivot by lia. cbn [xeq strictS ld lit].
      destruct (Z.eqb_spec (u r r) 0) as [E|N]; [exfalso; apply (Ud r); [lia|exact E]|].
      cbn [bind]. rewrite Nat.eqb_refl. cbn [bind].
      change (@mk Z n n (rest r)) with (@mk (elt S) n n (rest r)).
      rewrite (det_eliminate_mk S n (rest r) (rest (Datatypes.S r)) r r) by (try lia; intros; apply strict_elim; lia).
      cbn [bind]. rewrite Nat.add_1_r. do 4 f_equal. apply mk_ext. intros i j Hi Hj.
      destruct (Nat.ltb_spec r i); destruct (Nat.eqb_spec i r); destruct (Nat.leb_spec r j); cbn [andb negb]; try lia; try reflexivity.
      + rewrite !rest_zero by lia. reflexivity.
      + unfold rest. rewrite !Nat.min_l by lia. reflexivity.
      + unfold rest. rewrite !Nat.min_l by lia. reflexivity.
      + unfold rest. rewrite !Nat.min_l by lia. reflexivity.
      + unfold rest. rewrite !Nat.min_l by lia. reflexivity. }
  rewrite E by lia. cbn [bind]. unfold det_prod.
  rewrite (for_states 0 n _ (fun k => zprod k (fun i => u i i))); [|lia|reflexivity|].
  - cbn [bind xdiv strictS ld]. cbn [Z.eqb]. rewrite Z.mod_1_r, Z.div_1_r. cbn [Z.eqb]. rewrite chk_ok; [reflexivity|].
    eapply Z.le_trans; [apply zprod_le; lia|exact Hd].
  - intros k Hk. rewrite aget_mk by lia. cbn [bind xmul strictS ld st].
    assert (R : rest n k k = u k k).
    { unfold rest. rewrite Nat.min_l by lia. rewrite (split_upper k k) by lia. lia. }
    rewrite R, chk_ok; [reflexivity|].
    pose proof (zprod_le (Datatypes.S k) ltac:(lia)) as P. cbn [zprod] in P. eapply Z.le_trans; [exact P|].
    eapply Z.le_trans; [|exact Hd]. apply Z.pow_le_mono_r; lia.
Qed.
End LU.

(** ** chol *)
Section Chol.
Variables (n : nat) (l : nat -> nat -> Z) (a : Z).
Hypothesis L0 : forall i j, (i < j < n)%nat -> l i j = 0.
Hypothesis Ld : forall i, (i < n)%nat -> 0 < l i i.
Hypothesis La : forall i j, (i < n)%nat -> (j < n)%nat -> Z.abs (l i j) <= a.
Hypothesis Haa : Z.of_nat n * (a * a) <= B.
Notation f := (fun i j => zsum n (fun k => l i k * l j k)).

Lemma cbounds : (0 < n)%nat -> 1 <= a /\ a * a <= B /\ a <= B.
Proof.
  intros Hn. pose proof (La 0 0 Hn Hn) as Ha. pose proof (Ld 0 Hn). assert (1 <= a) by lia.
  assert (1 * (a * a) <= Z.of_nat n * (a * a)) by (apply Z.mul_le_mono_nonneg_r; nia). repeat split; nia.
Qed.

Lemma cprod_le i j k : (i < n)%nat -> (j < n)%nat -> (k < n)%nat -> Z.abs (l i k * l j k) <= a * a.
Proof. intros. rewrite Z.abs_mul. apply Z.mul_le_mono_nonneg; auto using Z.abs_nonneg. Qed.

Lemma csplit i j : (j <= i < n)%nat -> f i j = zsum j (fun k => l i k * l j k) + l i j * l j j.
Proof.
  intros H. cbv beta. rewrite (zsum_cut (Datatypes.S j) n); [reflexivity|lia|].
  intros k Hk. rewrite (L0 j k) by lia. lia.
Qed.

Theorem chol_strict : chol S n (mk n n f) = Ok (mk n n l).
Proof.
  apply (chol_forward S n f l).
  - intros. apply L0. assumption.
  - intros i H. destruct cbounds as [Ha [Haa' HaB]]; [lia|].
    exists (zsum i (fun k => l i k * l i k)), (l i i * l i i). split; [|split].
    + apply (strict_dot i (fun k => l i k) (fun k => l i k) (a * a)); [nia| |nia].
      intros k Hk. apply cprod_le; lia.
    + cbn [xsub strictS ld]. rewrite (csplit i i) by lia. replace (_ + _ - _) with (l i i * l i i) by lia.
      apply chk_ok. pose proof (cprod_le i i i). lia.
    + cbn [xsqrt strictS]. pose proof (Ld i H). rewrite Z.sqrt_square by lia. rewrite Z.eqb_refl. reflexivity.
  - intros i j H. destruct cbounds as [Ha [Haa' HaB]]; [lia|].
    pose proof (La i j ltac:(lia) ltac:(lia)) as Lij. pose proof (cprod_le i j j ltac:(lia) ltac:(lia) ltac:(lia)) as Pij.
    exists (zsum j (fun k => l i k * l j k)), (l i j * l j j), (l i j).
    split; [|split; [|split; [|reflexivity]]].
    + transitivity (@Ok Z (zsum i (fun k => (if (k <? j)%nat then l i k else lite S 0) * l j k))).
      * apply (strict_dot i (fun k => if (k <? j)%nat then l i k else lite S 0) (fun k => l j k) (a * a)); [nia| |nia].
        intros k Hk. destruct (Nat.ltb_spec k j); [apply cprod_le; lia|]. change (lite S 0) with 0. cbn. nia.
      * rewrite (zsum_cut j i); [|lia|].
        -- apply (f_equal (@Ok Z)), zsum_ext. intros k Hk. destruct (Nat.ltb_spec k j); lia.
        -- intros k Hk. destruct (Nat.ltb_spec k j); [lia|]. change (lite S 0) with 0. lia.
    + cbn [xsub strictS ld]. rewrite (csplit i j) by lia. replace (_ + _ - _) with (l i j * l j j) by lia. apply chk_ok. lia.
    + cbn [ld strictS]. pose proof (Ld j ltac:(lia)). apply strict_div; [lia|reflexivity|lia].
Qed.
End Chol.
End Strict.
