(** * The recurrence computed by lu, for an arbitrary element type *)

From Coq Require Import List ZArith Lia Bool Arith.
Import ListNotations.
From Verif Require Import Base Scalar Model Spec Loops Struct.

Section LURec.
Context (K : scalar).
Notation T := (elt K).

Lemma dot_ext m (a b a' b' : nat -> T) :
  (forall k, k < m -> a k = a' k /\ b k = b' k) -> dot K m a b = dot K m a' b'.
Proof.
  intros H. unfold dot. apply for_ext. intros k s Hk. destruct (H k) as [-> ->]; [lia|]. reflexivity.
Qed.

Context (n : nat) (f : nat -> nat -> T).

(** U[i][c] = T(A[i][c] - sum) *)
Definition urec (l u : nat -> nat -> T) (i c : nat) : Prop :=
  exists s v, dot K i (fun p => u p c) (fun p => l i p) = Ok s /\
    xsub (ld (f i c)) (ld s) = Ok v /\ u i c = st v.

(** L[i][c] = T((A[i][c] - sum) / U[c][c]); the sum runs over p < i, the terms
    with p >= c have L[i][p] = 0 at that time *)
Definition lrec (l u : nat -> nat -> T) (i c : nat) : Prop :=
  xeq (ld (u c c)) (lit 0) = false /\
  exists s v q, dot K i (fun p => u p c) (fun p => if p <? c then l i p else lite K 0) = Ok s /\
    xsub (ld (f i c)) (ld s) = Ok v /\ xdiv v (ld (u c c)) = Ok q /\ l i c = st q.

Lemma urec_ext l u l' u' i c :
  (forall p, p <= i -> u p c = u' p c) -> (forall p, p < i -> l i p = l' i p) ->
  urec l u i c -> urec l' u' i c.
Proof.
  intros Hu Hl [s [v [H1 [H2 H3]]]]. exists s, v. split; [|split; [exact H2|]].
  - rewrite <- H1. apply dot_ext. intros k Hk. rewrite Hu, Hl by lia. auto.
  - rewrite <- H3. symmetry. apply Hu. lia.
Qed.

Lemma lrec_ext l u l' u' i c : c <= i ->
  (forall p, p <= i -> u p c = u' p c) -> (forall p, p <= c -> l i p = l' i p) ->
  lrec l u i c -> lrec l' u' i c.
Proof.
  intros Hci Hu Hl [H0 [s [v [q [H1 [H2 [H3 H4]]]]]]]. split; [rewrite <- Hu by lia; exact H0|].
  exists s, v, q. split; [|split; [exact H2|split]].
  - rewrite <- H1. apply dot_ext. intros k Hk. rewrite Hu by lia. split; [reflexivity|].
    destruct (k <? c) eqn:E; [|reflexivity]. apply Nat.ltb_lt in E. symmetry. apply Hl. lia.
  - rewrite <- Hu by lia. exact H3.
  - rewrite <- H4. symmetry. apply Hl. lia.
Qed.

Definition lu_done (l u : nat -> nat -> T) (j : nat) : Prop :=
  (forall i c, i < n -> j <= c < n -> l i c = (if i =? c then lite K 1 else lite K 0) /\ u i c = lite K 0) /\
  (forall i c, i < c < j -> l i c = lite K 0) /\
  (forall i c, c < j -> c < i < n -> u i c = lite K 0) /\
  (forall i c, c < j -> i <= c -> urec l u i c) /\
  (forall i c, c < j -> c <= i < n -> lrec l u i c).

Lemma lu_sum_dot l u i j : i < n -> j < n ->
  for_ 0 i (fun p sum =>
      let* x := aget (mk n n u) p j in
      let* y := aget (mk n n l) i p in
      let* t := xmul (ld x) (ld y) in
      let* v := xadd (ld sum) t in
      Ok (@st K v)) (lite K 0) = dot K i (fun p => u p j) (fun p => l i p).
Proof.
  intros Hi Hj. unfold dot. apply for_ext. intros k s Hk. rewrite !aget_mk by lia. reflexivity.
Qed.

Theorem lu_recurrence L U : lu K n (mk n n f) = Ok (L, U) ->
  exists l u, L = mk n n l /\ U = mk n n u /\ lu_done l u n.
Proof.
  unfold lu. rewrite eye1_mk, zeros_mk. cbn [bind].
  set (P := fun j (s : matrix T * matrix T) =>
    exists l u, s = (mk n n l, mk n n u) /\ lu_done l u j).
  intros H.
  assert (G : P n (L, U)).
  2:{ destruct G as [l [u [E HP]]]. injection E as -> ->. exists l, u. auto. }
  revert H. apply for_partial; [lia| |].
  - eexists _, _. split; [reflexivity|]. split; [intros; split; reflexivity|].
    split; [intros; lia|]. split; [intros; lia|]. split; intros; lia.
  - intros j s s' Hj [l [u [-> [HA [HB [HC [HD HE]]]]]]] H.
    apply bind_inv in H. destruct H as [U1 [HU H]].
    apply bind_inv in H. destruct H as [L1 [HL H]]. injection H as <-.
    (* column j of U *)
    assert (PU : exists u', U1 = mk n n u' /\
      (forall a b, b <> j -> u' a b = u a b) /\
      (forall a, j + 1 <= a < n -> u' a j = lite K 0) /\
      (forall a, a < j + 1 -> urec l u' a j)).
    { revert HU. apply (for_partial (fun k X => exists u', X = mk n n u' /\
        (forall a b, b <> j -> u' a b = u a b) /\
        (forall a, k <= a < n -> u' a j = lite K 0) /\
        (forall a, a < k -> urec l u' a j))); [lia| |].
      - exists u. split; [reflexivity|]. split; [reflexivity|]. split; [|intros; lia].
        intros a Ha. apply (HA a j); lia.
      - intros i X X' Hi [u' [-> [H1 [H2 H3]]]] H. rewrite lu_sum_dot in H by lia.
        apply bind_inv in H. destruct H as [s [Es H]]. rewrite aget_mk in H by lia. cbn [bind] in H.
        apply bind_inv in H. destruct H as [v [Ev H]]. rewrite aset_mk in H by lia. injection H as <-.
        eexists. split; [reflexivity|].
        set (u2 := fun a b => if (a =? i) && (b =? j) then st v else u' a b).
        assert (Eo : forall a b, a <> i \/ b <> j -> u2 a b = u' a b).
        { intros a b Hab. unfold u2. destruct (Nat.eqb_spec a i), (Nat.eqb_spec b j); try reflexivity. lia. }
        split; [intros a b Hb; rewrite Eo by lia; apply H1; exact Hb|].
        split; [intros a Ha; rewrite Eo by lia; apply H2; lia|].
        intros a Ha. destruct (Nat.eq_dec a i) as [->|Na].
        + exists s, v. split; [|split; [exact Ev|]].
          * rewrite <- Es. apply dot_ext. intros k Hk. rewrite Eo by lia. auto.
          * unfold u2. rewrite !Nat.eqb_refl. reflexivity.
        + apply (urec_ext l u'); [|reflexivity|apply H3; lia].
          intros p Hp. rewrite Eo by lia. reflexivity. }
    destruct PU as [u' [-> [U1' [U2' U3']]]].
    assert (PL : exists l', L1 = mk n n l' /\
      (forall a b, b <> j -> l' a b = l a b) /\
      (forall a, a < j -> l' a j = l a j) /\
      (forall a, j <= a < n -> lrec l' u' a j)).
    { revert HL. intros HL.
      assert (Q : exists l', L1 = mk n n l' /\
        (forall a b, b <> j -> l' a b = l a b) /\
        (forall a, a < j \/ n <= a -> l' a j = l a j) /\
        (forall a, j <= a < n -> lrec l' u' a j)).
      2:{ destruct Q as [l' [Q1 [Q2 [Q3 Q4]]]]. exists l'. split; [exact Q1|]. split; [exact Q2|]. split; [intros; apply Q3; lia|exact Q4]. }
      revert HL. apply (for_partial (fun k X => exists l', X = mk n n l' /\
        (forall a b, b <> j -> l' a b = l a b) /\
        (forall a, a < j \/ k <= a -> l' a j = l a j) /\
        (forall a, j <= a < k -> lrec l' u' a j))); [lia| |].
      - exists l. split; [reflexivity|]. split; [reflexivity|]. split; [reflexivity|]. intros; lia.
      - intros i X X' Hi [l' [-> [H1 [H2 H3]]]] H. rewrite lu_sum_dot in H by lia.
        apply bind_inv in H. destruct H as [s [Es H]]. rewrite aget_mk in H by lia. cbn [bind] in H.
        destruct (xeq (ld (u' j j)) (lit 0)) eqn:Ez; [discriminate|].
        rewrite aget_mk in H by lia. cbn [bind] in H.
        apply bind_inv in H. destruct H as [v [Ev H]].
        apply bind_inv in H. destruct H as [q [Eq H]].
        rewrite aset_mk in H by lia. injection H as <-.
        eexists. split; [reflexivity|].
        set (l2 := fun a b => if (a =? i) && (b =? j) then st q else l' a b).
        assert (Eo : forall a b, a <> i \/ b <> j -> l2 a b = l' a b).
        { intros a b Hab. unfold l2. destruct (Nat.eqb_spec a i), (Nat.eqb_spec b j); try reflexivity. lia. }
        split; [intros a b Hb; rewrite Eo by lia; apply H1; exact Hb|].
        split; [intros a Ha; rewrite Eo by lia; apply H2; lia|].
        intros a Ha. destruct (Nat.eq_dec a i) as [->|Na].
        + split; [exact Ez|]. exists s, v, q. split; [|split; [exact Ev|split; [exact Eq|]]].
          * rewrite <- Es. apply dot_ext. intros k Hk. split; [reflexivity|].
            destruct (Nat.ltb_spec k j) as [Lk|Lk].
            -- apply Eo. lia.
            -- destruct (Nat.eq_dec k j) as [->|Nk].
               ++ rewrite H2 by lia. rewrite (proj1 (HA i j ltac:(lia) ltac:(lia))).
                  destruct (Nat.eqb_spec i j); [lia|reflexivity].
               ++ rewrite H1 by lia. rewrite (proj1 (HA i k ltac:(lia) ltac:(lia))).
                  destruct (Nat.eqb_spec i k); [lia|reflexivity].
          * unfold l2. rewrite !Nat.eqb_refl. reflexivity.
        + apply (lrec_ext l' u'); [lia|reflexivity| |apply H3; lia].
          intros p Hp. rewrite Eo by lia. reflexivity. }
    destruct PL as [l' [-> [L1' [L2' L3']]]].
    exists l', u'. split; [reflexivity|].
    split; [intros i c Hi Hc; rewrite L1', U1' by lia; apply HA; lia|].
    split.
    { intros i c Hc. destruct (Nat.eq_dec c j) as [->|Nc].
      - rewrite L2' by lia. rewrite (proj1 (HA i j ltac:(lia) ltac:(lia))).
        destruct (Nat.eqb_spec i j); [lia|reflexivity].
      - rewrite L1' by lia. apply HB. lia. }
    split.
    { intros i c Hc Hi. destruct (Nat.eq_dec c j) as [->|Nc].
      - apply U2'. lia.
      - rewrite U1' by lia. apply HC; lia. }
    split.
    { intros i c Hc Hi. destruct (Nat.eq_dec c j) as [->|Nc].
      - apply (urec_ext l u'); [reflexivity| |apply U3'; lia].
        intros p Hp. symmetry. apply L1'. lia.
      - apply (urec_ext l u); [| |apply HD; lia].
        + intros p Hp. symmetry. apply U1'. lia.
        + intros p Hp. symmetry. apply L1'. lia. }
    intros i c Hc Hi. destruct (Nat.eq_dec c j) as [->|Nc].
    + apply L3'. lia.
    + apply (lrec_ext l u); [lia| | |apply HE; lia].
      * intros p Hp. symmetry. apply U1'. lia.
      * intros p Hp. symmetry. apply L1'. lia.
Qed.
End LURec.
