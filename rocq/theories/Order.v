(** * Strict weak orders, sorted lists, counting *)

From Coq Require Import List ZArith Lia Bool Arith Permutation Sorted.
Import ListNotations.
From Verif Require Import Base Scalar Model Spec Loops.

Section Count.
Context {T : Type}.
Implicit Types (p q : T -> bool) (v : list T).

Lemma count_cons p x v : count p (x :: v) = (if p x then 1 else 0) + count p v.
Proof. unfold count. simpl. destruct (p x); reflexivity. Qed.

Lemma count_app p v w : count p (v ++ w) = count p v + count p w.
Proof. unfold count. rewrite filter_app, app_length. reflexivity. Qed.

Lemma count_perm p v w : Permutation v w -> count p v = count p w.
Proof.
  induction 1; rewrite ?count_cons; try lia; try reflexivity.
Qed.

Lemma count_le_length p v : count p v <= length v.
Proof. unfold count. induction v as [|x v IH]; simpl; [lia|]. destruct (p x); simpl; lia. Qed.

Lemma count_zero p v : (forall x, In x v -> p x = false) -> count p v = 0.
Proof.
  intros H. induction v as [|x v IH]; [reflexivity|]. rewrite count_cons, H by (left; reflexivity).
  rewrite IH by (intros; apply H; right; assumption). reflexivity.
Qed.

Lemma count_full p v : (forall x, In x v -> p x = true) -> count p v = length v.
Proof.
  intros H. induction v as [|x v IH]; [reflexivity|]. rewrite count_cons, H by (left; reflexivity).
  rewrite IH by (intros; apply H; right; assumption). reflexivity.
Qed.

Lemma count_ext p q v : (forall x, In x v -> p x = q x) -> count p v = count q v.
Proof.
  intros H. induction v as [|x v IH]; [reflexivity|]. rewrite !count_cons.
  rewrite H by (left; reflexivity). rewrite IH by (intros; apply H; right; assumption). reflexivity.
Qed.

Lemma count_negb p v : count (fun x => negb (p x)) v = length v - count p v.
Proof.
  induction v as [|x v IH]; [reflexivity|]. rewrite !count_cons, IH. cbn [length].
  pose proof (count_le_length p v). destruct (p x); cbn [negb]; lia.
Qed.

Lemma In_nth_error_ex v (x : T) : In x v -> exists i, i < length v /\ nth_error v i = Some x.
Proof.
  intros H. apply In_nth_error in H. destruct H as [i E]. exists i. split; [|assumption].
  apply nth_error_Some. congruence.
Qed.

(** no hit from position k on: at most k hits *)
Lemma count_suffix p v k :
  (forall j x, k <= j -> nth_error v j = Some x -> p x = false) -> count p v <= k.
Proof.
  intros H. rewrite <- (firstn_skipn k v), count_app.
  rewrite (count_zero p (skipn k v)).
  - pose proof (count_le_length p (firstn k v)). rewrite firstn_length in *. lia.
  - intros x Hx. apply In_nth_error in Hx. destruct Hx as [i E].
    apply (H (k + i)); [lia|]. rewrite <- E. clear. revert v. induction k as [|k IH]; intros v; [reflexivity|].
    destruct v as [|a v]; simpl; [destruct i; reflexivity|apply IH].
Qed.

(** no hit before position k: at most length - k hits *)
Lemma count_prefix p v k : k <= length v ->
  (forall j x, j < k -> nth_error v j = Some x -> p x = false) -> count p v <= length v - k.
Proof.
  intros Hk H. rewrite <- (firstn_skipn k v) at 1. rewrite count_app.
  rewrite (count_zero p (firstn k v)).
  - pose proof (count_le_length p (skipn k v)). rewrite skipn_length in *. lia.
  - intros x Hx. apply In_nth_error_ex in Hx. destruct Hx as [i [Hi E]].
    rewrite firstn_length in Hi. apply (H i); [lia|]. rewrite <- E. clear -Hi.
    assert (Hi' : i < k) by lia. clear Hi. revert i v Hi'. induction k as [|k IH]; intros i v Hi; [lia|].
    destruct v as [|a v]; simpl; [destruct i; reflexivity|]. destruct i; simpl; [reflexivity|apply IH; lia].
Qed.

(** hits on all positions <= k: at least k+1 hits *)
Lemma count_prefix_all p v k : k < length v ->
  (forall j x, j <= k -> nth_error v j = Some x -> p x = true) -> k < count p v.
Proof.
  intros Hk H.
  assert (count (fun x => negb (p x)) v <= length v - S k).
  { apply count_prefix; [lia|]. intros j x Hj E. rewrite (H j x); [reflexivity|lia|assumption]. }
  rewrite count_negb in H0. pose proof (count_le_length p v). lia.
Qed.
End Count.

Section SWO.
Context {T : Type} (lt : T -> T -> bool).

Lemma strict_weak_iff (K : scalar) (v : list (elt K)) :
  strict_weak K v = true <-> strict_weak_on (elt_lt K) v.
Proof.
  unfold strict_weak, strict_weak_on. rewrite forallb_forall. split.
  - intros H.
    assert (H1 : forall a b, In a v -> In b v -> negb (elt_lt K a b && elt_lt K b a) = true /\
       forall c, In c v -> (negb (elt_lt K a b && elt_lt K b c) || elt_lt K a c) = true /\
        (elt_lt K a b || elt_lt K b a || elt_lt K b c || elt_lt K c b
         || negb (elt_lt K a c || elt_lt K c a)) = true).
    { intros a b Ha Hb. specialize (H a Ha). apply andb_true_iff in H. destruct H as [_ H].
      rewrite forallb_forall in H. specialize (H b Hb). apply andb_true_iff in H.
      destruct H as [H1 H2]. split; [assumption|]. intros c Hc. rewrite forallb_forall in H2.
      specialize (H2 c Hc). apply andb_true_iff in H2. assumption. }
    repeat split.
    + intros a Ha. specialize (H a Ha). apply andb_true_iff in H. destruct H as [H _].
      apply negb_true_iff. assumption.
    + intros a b Ha Hb E. destruct (H1 a b Ha Hb) as [H2 _]. rewrite E in H2. simpl in H2.
      apply negb_true_iff. assumption.
    + intros a b c Ha Hb Hc E1 E2. destruct (H1 a b Ha Hb) as [_ H2].
      destruct (H2 c Hc) as [H3 _]. rewrite E1, E2 in H3. assumption.
    + rename H0 into E1. rename H2 into E2. rename H3 into E3. rename H4 into E4. rename H5 into E5. rename H6 into E6.
      destruct (H1 a b E1 E2) as [_ G]. destruct (G c E3) as [_ G']. rewrite E4, E5, E6, H7 in G'.
      simpl in G'. apply negb_true_iff, orb_false_iff in G'. tauto.
    + rename H0 into E1. rename H2 into E2. rename H3 into E3. rename H4 into E4. rename H5 into E5. rename H6 into E6.
      destruct (H1 a b E1 E2) as [_ G]. destruct (G c E3) as [_ G']. rewrite E4, E5, E6, H7 in G'.
      simpl in G'. apply negb_true_iff, orb_false_iff in G'. tauto.
  - intros [H1 [H2 [H3 H4]]] a Ha. apply andb_true_iff. split; [rewrite H1 by assumption; reflexivity|].
    apply forallb_forall. intros b Hb. apply andb_true_iff. split.
    + destruct (elt_lt K a b) eqn:E; [|reflexivity]. rewrite (H2 a b Ha Hb E). reflexivity.
    + apply forallb_forall. intros c Hc. apply andb_true_iff. split.
      * destruct (elt_lt K a b) eqn:E1; [|reflexivity]. destruct (elt_lt K b c) eqn:E2; [|reflexivity].
        simpl. rewrite (H3 a b c Ha Hb Hc E1 E2). reflexivity.
      * destruct (elt_lt K a b) eqn:E1; [reflexivity|]. destruct (elt_lt K b a) eqn:E2; [reflexivity|].
        destruct (elt_lt K b c) eqn:E3; [reflexivity|]. destruct (elt_lt K c b) eqn:E4; [reflexivity|].
        simpl. destruct (H4 a b c Ha Hb Hc E1 E2 E3 E4) as [-> ->]. reflexivity.
Qed.

Context (v : list T) (W : strict_weak_on lt v).

Lemma sw_irrefl a : In a v -> lt a a = false.
Proof. apply W. Qed.
Lemma sw_asym a b : In a v -> In b v -> lt a b = true -> lt b a = false.
Proof. apply W. Qed.
Lemma sw_trans a b c : In a v -> In b v -> In c v -> lt a b = true -> lt b c = true -> lt a c = true.
Proof. apply W. Qed.
(** not less is transitive *)
Lemma sw_ntrans a b c : In a v -> In b v -> In c v -> lt a b = false -> lt b c = false -> lt a c = false.
Proof.
  intros Ha Hb Hc E1 E2. destruct W as [_ [Has [Htr Heq]]].
  destruct (lt a c) eqn:E; [|reflexivity]. exfalso.
  destruct (lt b a) eqn:Eb.
  { rewrite (Htr b a c) in E2 by assumption. discriminate. }
  destruct (lt c b) eqn:Ec.
  { rewrite (Htr a c b) in E1 by assumption. discriminate. }
  destruct (Heq a b c Ha Hb Hc E1 Eb E2 Ec) as [H _]. congruence.
Qed.
Lemma sw_lt_nlt a b c : In a v -> In b v -> In c v -> lt a b = true -> lt c b = false -> lt a c = true.
Proof.
  intros Ha Hb Hc E1 E2. destruct (lt a c) eqn:E; [reflexivity|].
  rewrite (sw_ntrans a c b) in E1 by assumption. discriminate.
Qed.
Lemma sw_nlt_lt a b c : In a v -> In b v -> In c v -> lt b a = false -> lt b c = true -> lt a c = true.
Proof.
  intros Ha Hb Hc E1 E2. destruct (lt a c) eqn:E; [reflexivity|].
  rewrite (sw_ntrans b a c) in E2 by assumption. discriminate.
Qed.
End SWO.

(** ** sorted permutations *)
Section Sorts.
Context {T : Type} (lt : T -> T -> bool) (v : list T) (W : strict_weak_on lt v).

Lemma sorts_in sort k x : sorts lt sort v -> nth_error (sort v) k = Some x -> In x v.
Proof.
  intros [P _] E. apply (Permutation_in x (Permutation_sym P)). apply nth_error_In in E. assumption.
Qed.

Lemma sorts_length sort : sorts lt sort v -> length (sort v) = length v.
Proof. intros [P _]. symmetry. apply Permutation_length. assumption. Qed.

(** at most k elements are less than the one at position k of the sorted list *)
Lemma sorts_below sort k x : sorts lt sort v -> nth_error (sort v) k = Some x ->
  count (fun y => lt y x) v <= k.
Proof.
  intros S E. rewrite (count_perm _ _ _ (proj1 S)). apply count_suffix. intros j y Hj Ey.
  destruct (Nat.eq_dec k j) as [<-|].
  - assert (x = y) by congruence. subst y. apply (sw_irrefl lt v W). eapply sorts_in; eassumption.
  - eapply (proj2 S k j); [lia|eassumption..].
Qed.

Lemma sorts_above sort k x : sorts lt sort v -> nth_error (sort v) k = Some x ->
  count (fun y => lt x y) v <= length v - S k.
Proof.
  intros S E. rewrite (count_perm _ _ _ (proj1 S)). rewrite <- (sorts_length sort S).
  apply count_prefix.
  - apply nth_error_Some. congruence.
  - intros j y Hj Ey. destruct (Nat.eq_dec j k) as [->|].
    + assert (x = y) by congruence. subst y. apply (sw_irrefl lt v W). eapply sorts_in; eassumption.
    + eapply (proj2 S j k); [lia|eassumption..].
Qed.

(** two sorted permutations agree up to equivalence, position by position *)
Lemma sorts_equiv_half s1 s2 w k x y : Permutation v w ->
  sorts lt s1 v -> sorts lt s2 w ->
  nth_error (s1 v) k = Some x -> nth_error (s2 w) k = Some y -> lt x y = false.
Proof.
  intros P S1 S2 Ex Ey. destruct (lt x y) eqn:E; [exfalso|reflexivity].
  assert (Hx : In x v) by (eapply sorts_in; eassumption).
  assert (Hyw : In y w).
  { apply (Permutation_in y (Permutation_sym (proj1 S2))). apply nth_error_In in Ey. assumption. }
  assert (Hy : In y v) by (apply (Permutation_in y (Permutation_sym P)); assumption).
  assert (L : k < count (fun z => negb (lt x z)) v).
  { rewrite (count_perm _ _ _ (proj1 S1)). apply count_prefix_all.
    - apply nth_error_Some. congruence.
    - intros j z Hj Ez. destruct (Nat.eq_dec j k) as [->|].
      + assert (x = z) by congruence. subst z. rewrite (sw_irrefl lt v W) by assumption. reflexivity.
      + rewrite (proj2 S1 j k z x); [reflexivity|lia|assumption..]. }
  assert (G : count (fun z => negb (lt x z)) v <= k).
  { rewrite (count_perm _ _ _ P), (count_perm _ _ _ (proj1 S2)). apply count_suffix.
    intros j z Hj Ez.
    assert (Hz : In z v).
    { apply (Permutation_in z (Permutation_sym P)), (Permutation_in z (Permutation_sym (proj1 S2))).
      apply nth_error_In in Ez. assumption. }
    apply negb_false_iff. apply (sw_lt_nlt lt v W x y z); [assumption..|].
    destruct (Nat.eq_dec j k) as [->|].
    - assert (y = z) by congruence. subst z. apply (sw_irrefl lt v W). assumption.
    - eapply (proj2 S2 k j); [lia|eassumption..]. }
  lia.
Qed.
End Sorts.
