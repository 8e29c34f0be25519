(** * Functions that only add, subtract and multiply *)

From Coq Require Import List ZArith Lia Bool Arith.
From Verif Require Import Base Scalar Model Param.

(** [preserved K K' rel]: the functions below, run on operands of type [K] and on
    related operands of type [K'], return, throw or terminate alike, with related
    results ([refines], Param.v; nothing is said where the run on [K] is undefined).
    [mrel rel A A']: same shape, elements related one by one. *)
Section Ops.
Context (K K' : scalar) (rel : elt K -> elt K' -> Prop).
Notation RM := (mrel rel).

Definition preserved : Prop :=
  (forall n m A A' B B', RM A A' -> RM B B' -> refines RM (sum K n m A B) (sum K' n m A' B')) /\
  (forall n m A A' B B', RM A A' -> RM B B' -> refines RM (sub K n m A B) (sub K' n m A' B')) /\
  (forall n m A A' s s', RM A A' -> rel s s' -> refines RM (mult_scalar K n m A s) (mult_scalar K' n m A' s')) /\
  (forall n m p A A' B B', RM A A' -> RM B B' -> refines RM (mult K n m p A B) (mult K' n m p A' B')) /\
  (forall A A' B B', RM A A' -> RM B B' -> refines RM (strassen K A B) (strassen K' A' B')) /\
  (forall n m A A', RM A A' -> refines RM (trans K n m A) (trans K' n m A')) /\
  (forall n A A', 0 < n <= 3 -> RM A A' -> refines rel (det K n A) (det K' n A')) /\
  (forall i j A A' k k', RM A A' -> RM k k' -> refines RM (conv2 K i j A k) (conv2 K' i j A' k')) /\
  (forall i j A A' k k', RM A A' -> RM k k' -> refines RM (conv2_full K i j A k) (conv2_full K' i j A' k')) /\
  (forall n A A' k k', RM A A' -> RM k k' -> refines RM (conv2_valid K n A k) (conv2_valid K' n A' k')) /\
  (forall n, refines RM (eye1 K n) (eye1 K' n)).

Lemma preserved_intro (relx : xpr K -> xpr K' -> Prop) :
  (forall a a', rel a a' -> relx (ld a) (ld a')) ->
  (forall v v', relx v v' -> rel (st v) (st v')) ->
  relx (lit 0) (lit 0) -> relx (lit 1) (lit 1) ->
  (forall a a' b b', relx a a' -> relx b b' -> refines relx (xadd a b) (xadd a' b')) ->
  (forall a a' b b', relx a a' -> relx b b' -> refines relx (xsub a b) (xsub a' b')) ->
  (forall a a' b b', relx a a' -> relx b b' -> refines relx (xmul a b) (xmul a' b')) ->
  preserved.
Proof.
  intros Hld Hst H0 H1 Ha Hs Hm. unfold preserved. repeat split; intros.
  - eapply sum_ref; eauto.
  - eapply sub_ref; eauto.
  - eapply mult_scalar_ref; eauto.
  - eapply mult_ref; eauto.
  - eapply strassen_ref; eauto.
  - eapply trans_ref; eauto.
  - eapply det_small_ref; eauto.
  - eapply conv2_ref; eauto.
  - eapply conv2_full_ref; eauto.
  - eapply conv2_valid_ref; eauto.
  - eapply eye1_ref; eauto.
Qed.
End Ops.
