(** * The k-th smallest element is the first key whose cumulative count exceeds k *)

From Coq Require Import List ZArith Lia Bool Arith Permutation.
Import ListNotations.
From Verif Require Import Base Scalar Model Spec Loops Struct Order Stat Median.
Local Open Scope nat_scope.

(** [key] is the first key of the cumulative histogram r whose number exceeds k. *)
Definition first_over {T : Type} (lt : T -> T -> bool) (r : list (T * Z)) (k : nat) (key : T) : Prop :=
  exists c, In (key, c) r /\ (Z.of_nat k < c)%Z /\
  forall key' c', In (key', c') r -> lt key' key = true -> (c' <= Z.of_nat k)%Z.

Section Rank.
Context (K : scalar).
Notation T := (elt K).
Notation lt := (less K).
Variables (n m : nat) (A : matrix T) (sort : list T -> list T).
Hypothesis HA : shape n m A.
Hypothesis W : strict_weak_on lt (elements A).
Hypothesis So : sorts lt sort (elements A).
Hypothesis Hs : (Z.of_nat (n * m) < 2 ^ 64)%Z.

Lemma rank_key : exists r, cumulative_histogram K n m A = Ok r /\
  forall k x, nth_error (sort (elements A)) k = Some x ->
  exists key, equivalent lt x key = true /\ first_over lt r k key.
Proof.
  revert W So. destruct (proj1 (shape_mk (lite K 0) n m A) HA) as [f ->]. intros W So.
  destruct (histogram_mk K n m f W Hs) as [h [E Hh]].
  destruct (cumulative_mk K n m f W Hs) as [h' [r [E' [Er [Ek Ec]]]]].
  assert (h' = h) by congruence. subst h'. exists r. split; [exact Er|]. intros k x Ex.
  set (v := elements (mk n m f)) in *.
  destruct Hh as [_ [Hkey Hex]].
  assert (Ix : In x v) by (eapply sorts_in; eassumption).
  destruct (Hex x Ix) as [key [c0 [Ikc Eq]]]. exists key. split; [exact Eq|].
  assert (Iv : In key v) by (apply (Hkey key c0 Ikc)).
  assert (Kr : forall key c, In (key, c) r -> In key v).
  { intros a c I. apply (in_map fst) in I. rewrite Ek in I. apply in_map_iff in I.
    destruct I as [[a' c'] [Ea I]]. cbn in Ea. subst a'. apply (Hkey a c' I). }
  assert (Ir : exists c, In (key, c) r).
  { apply (in_map fst) in Ikc. rewrite <- Ek in Ikc. apply in_map_iff in Ikc.
    destruct Ikc as [[a c] [Ea I]]. cbn in Ea. subst a. now exists c. }
  destruct Ir as [c Ir]. exists c. split; [exact Ir|].
  unfold equivalent in Eq. apply andb_true_iff in Eq. destruct Eq as [Q1 Q2].
  apply negb_true_iff in Q1, Q2.
  split.
  - rewrite (Ec key c Ir), (count_ext _ (fun y => negb (lt x y))).
    2:{ intros y Iy. f_equal. change (elt_lt K key y) with (lt key y). destruct (lt key y) eqn:L1.
        - symmetry. exact (sw_nlt_lt lt v W x key y Ix Iv Iy Q2 L1).
        - symmetry. exact (sw_ntrans lt v W x key y Ix Iv Iy Q1 L1). }
    assert (Hk : k < length v).
    { rewrite <- (sorts_length lt v sort So). apply nth_error_Some. congruence. }
    pose proof (sorts_above lt v W sort k x So Ex) as Hc.
    rewrite (count_negb (fun y => lt x y)). lia.
  - intros key' c' I' L.
    rewrite (Ec key' c' I').
    pose proof (sorts_below lt v W sort k x So Ex) as Hc.
    assert (Le : count (fun y => negb (lt key' y)) v <= count (fun y => lt y x) v).
    { apply count_le. intros y Iy Ny. apply negb_true_iff in Ny.
      pose proof (Kr key' c' I') as I2.
      assert (L2 : lt y key = true) by exact (sw_nlt_lt lt v W y key' key Iy I2 Iv Ny L).
      exact (sw_lt_nlt lt v W y key x Iy Iv Ix L2 Q1). }
    apply Nat2Z.inj_le. exact (Nat.le_trans _ _ _ Le Hc).
Qed.

End Rank.
