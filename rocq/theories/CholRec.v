(** * The recurrence computed by chol, for an arbitrary element type *)

From Coq Require Import List ZArith Lia Bool Arith.
Import ListNotations.
From Verif Require Import Base Scalar Model Spec Loops Struct LURec.

Section CholRec.
Context (K : scalar).
Notation T := (elt K).
Context (n : nat) (f : nat -> nat -> T).

(** L[i][i] = T(sqrt(A[i][i] - sum)) *)
Definition drec (l : nat -> nat -> T) (i : nat) : Prop :=
  exists s v, dot K i (fun k => l i k) (fun k => l i k) = Ok s /\
    xsub (ld (f i i)) (ld s) = Ok v /\ xsqrt v = Ok (l i i).

(** L[i][j] = T((A[i][j] - sum) / L[j][j]); the sum runs over k < i, the terms
    with k >= j have L[i][k] = 0 at that time *)
Definition orec (l : nat -> nat -> T) (i j : nat) : Prop :=
  exists s v q, dot K i (fun k => if k <? j then l i k else lite K 0) (fun k => l j k) = Ok s /\
    xsub (ld (f i j)) (ld s) = Ok v /\ xdiv v (ld (l j j)) = Ok q /\ l i j = st q.

Lemma drec_ext l l' i : (forall k, k <= i -> l i k = l' i k) -> drec l i -> drec l' i.
Proof.
  intros H [s [v [H1 [H2 H3]]]]. exists s, v. split; [|split; [exact H2|]].
  - rewrite <- H1. apply dot_ext. intros k Hk. rewrite H by lia. auto.
  - rewrite <- (H i) by lia. exact H3.
Qed.

Lemma orec_ext l l' i j : (forall k, k <= j -> l i k = l' i k) -> (forall k, k < i -> l j k = l' j k) ->
  j < i -> orec l i j -> orec l' i j.
Proof.
  intros Hi Hj L [s [v [q [H1 [H2 [H3 H4]]]]]]. exists s, v, q.
  split; [|split; [exact H2|split; [rewrite <- Hj by lia; exact H3|rewrite <- Hi by lia; exact H4]]].
  rewrite <- H1. apply dot_ext. intros k Hk. split; [|symmetry; apply Hj; lia].
  destruct (Nat.ltb_spec k j); [symmetry; apply Hi; lia|reflexivity].
Qed.

(** rows before i, and the first j elements of row i, are final *)
Definition cinv (i j : nat) (X : matrix T) : Prop := exists l, X = mk n n l /\
  (forall a b, a < b < n -> l a b = lite K 0) /\
  (forall a b, i < a \/ (a = i /\ j <= b) -> a < n -> b < n -> l a b = lite K 0) /\
  (forall a, a < i \/ (a = i /\ i < j) -> drec l a) /\
  (forall a b, b < a -> a < i \/ (a = i /\ b < j) -> orec l a b).

Theorem chol_recurrence L : chol K n (mk n n f) = Ok L -> exists l, L = mk n n l /\
  (forall i j, i < j < n -> l i j = lite K 0) /\
  (forall i, i < n -> drec l i) /\
  (forall i j, j < i < n -> orec l i j).
Proof.
  intros H. assert (G : cinv n 0 L).
  2:{ destruct G as [l [-> [H1 [_ [H3 H4]]]]]. exists l. split; [reflexivity|]. split; [exact H1|].
      split; [intros; apply H3; lia|]. intros; apply H4; lia. }
  revert H. unfold chol. rewrite init_mk.
  apply (for_partial (fun i => cinv i 0)); [lia| |].
  { exists (fun _ _ => lite K 0). split; [reflexivity|]. split; [reflexivity|]. split; [reflexivity|].
    split; intros; lia. }
  intros i X X' Hi I0 H.
  assert (G : cinv i (i + 1) X').
  2:{ destruct G as [l [-> [H1 [H2 [H3 H4]]]]]. exists l. split; [reflexivity|]. split; [exact H1|].
      split; [intros a b Hab Ha Hb; apply H2; lia|].
      split; [intros; apply H3; lia|]. intros; apply H4; lia. }
  revert H. apply (for_partial (fun j => cinv i j)); [lia|exact I0|].
  clear X X' I0. intros j X X' Hj [l [-> [H1 [H2 [H3 H4]]]]] H.
  destruct (Nat.eqb_spec j i) as [->|Nj].
  - rewrite (for_ext 0 i _ (fun k sum => let* t := xmul (ld (l i k)) (ld (l i k)) in
      let* v := xadd (ld sum) t in Ok (@st K v))) in H.
    2:{ intros k s Hk. rewrite aget_mk by lia. reflexivity. }
    apply bind_inv in H. destruct H as [s [Es H]]. rewrite aget_mk in H by lia. cbn [bind] in H.
    apply bind_inv in H. destruct H as [v [Ev H]].
    apply bind_inv in H. destruct H as [r [Er H]].
    rewrite aset_mk in H by lia. injection H as <-. eexists. split; [reflexivity|].
    set (l2 := fun a b => if (a =? i) && (b =? i) then r else l a b).
    assert (Eo : forall a b, a <> i \/ b <> i -> l2 a b = l a b).
    { intros a b Hab. unfold l2. destruct (Nat.eqb_spec a i), (Nat.eqb_spec b i); try reflexivity. lia. }
    split; [intros a b Hab; rewrite Eo by lia; apply H1; lia|].
    split; [intros a b Hab Ha Hb; rewrite Eo by lia; apply H2; lia|].
    split.
    + intros a Ha. destruct (Nat.eq_dec a i) as [->|Na].
      * exists s, v. split; [|split; [exact Ev|]].
        -- rewrite <- Es. unfold dot. apply for_ext. intros k c Hk. rewrite !Eo by lia. reflexivity.
        -- unfold l2. rewrite !Nat.eqb_refl. exact Er.
      * apply (drec_ext l); [intros; rewrite Eo by lia; reflexivity|]. apply H3. lia.
    + intros a b Hb Ha. apply (orec_ext l).
      * intros k Hk. rewrite Eo by lia. reflexivity.
      * intros k Hk. rewrite Eo by lia. reflexivity.
      * exact Hb.
      * apply H4; lia.
  - rewrite (for_ext 0 i _ (fun k sum => let* t := xmul (ld (l i k)) (ld (l j k)) in
      let* v := xadd (ld sum) t in Ok (@st K v))) in H.
    2:{ intros k s Hk. rewrite !aget_mk by lia. reflexivity. }
    apply bind_inv in H. destruct H as [s [Es H]]. rewrite aget_mk in H by lia. cbn [bind] in H.
    apply bind_inv in H. destruct H as [v [Ev H]]. rewrite aget_mk in H by lia. cbn [bind] in H.
    apply bind_inv in H. destruct H as [q [Eq H]].
    rewrite aset_mk in H by lia. injection H as <-. eexists. split; [reflexivity|].
    set (l2 := fun a b => if (a =? i) && (b =? j) then st q else l a b).
    assert (Eo : forall a b, a <> i \/ b <> j -> l2 a b = l a b).
    { intros a b Hab. unfold l2. destruct (Nat.eqb_spec a i), (Nat.eqb_spec b j); try reflexivity. lia. }
    split; [intros a b Hab; rewrite Eo by lia; apply H1; lia|].
    split; [intros a b Hab Ha Hb; rewrite Eo by lia; apply H2; lia|].
    split.
    + intros a Ha. apply (drec_ext l); [intros; rewrite Eo by lia; reflexivity|]. apply H3. lia.
    + intros a b Hb Ha. destruct (Nat.eq_dec a i) as [->|Na].
      * destruct (Nat.eq_dec b j) as [->|Nb].
        -- exists s, v, q. split; [|split; [exact Ev|split; [rewrite Eo by lia; exact Eq|]]].
           ++ rewrite <- Es. unfold dot. apply for_ext. intros k c Hk. rewrite (Eo j k) by lia.
              destruct (Nat.ltb_spec k j); [rewrite Eo by lia; reflexivity|].
              rewrite <- (H2 i k) by lia. reflexivity.
           ++ unfold l2. rewrite !Nat.eqb_refl. reflexivity.
        -- apply (orec_ext l); [intros; rewrite Eo by lia; reflexivity|
             intros; rewrite Eo by lia; reflexivity|exact Hb|apply H4; lia].
      * apply (orec_ext l); [intros; rewrite Eo by lia; reflexivity|
             intros; rewrite Eo by lia; reflexivity|exact Hb|apply H4; lia].
Qed.
End CholRec.
