(** * The general determinant, related step by step

    As det_general_ref of Param.v, for element types whose arithmetic agrees only
    on the expressions the elimination evaluates, not operation by operation. *)

From Coq Require Import List ZArith Lia Bool Arith.
Import ListNotations.
From Verif Require Import Base Scalar Model Param.

Section Det.
Context (K K' : scalar) (rel : elt K -> elt K' -> Prop).
Notation RM := (mrel rel).

(** a[i][j] - val * a[r][j] / a[r][pivot], stored *)
Definition elim1 (S : scalar) (c v a p : elt S) : outcome (elt S) :=
  let* t := xmul (ld v) (ld a) in let* t := xdiv t (ld p) in let* x := xsub (ld c) t in Ok (st x).
Definition mul1 (S : scalar) (a b : elt S) : outcome (elt S) := let* v := xmul (ld a) (ld b) in Ok (st v).
Definition div1 (S : scalar) (a b : elt S) : outcome (elt S) := let* v := xdiv (ld a) (ld b) in Ok (st v).
Definition flip1 (S : scalar) (a : elt S) : outcome (elt S) := let* v := xmul (ld a) (lit (-1)) in Ok (st v).

Hypothesis H1 : rel (lite K 1) (lite K' 1).
Hypothesis Hz : forall a a', rel a a' -> xeq (ld a) (lit 0) = xeq (ld a') (lit 0).
Hypothesis Helim : forall c c' v v' a a' p p', rel c c' -> rel v v' -> rel a a' -> rel p p' ->
  refines rel (elim1 K c v a p) (elim1 K' c' v' a' p').
Hypothesis Hmul : forall a a' b b', rel a a' -> rel b b' -> refines rel (mul1 K a b) (mul1 K' a' b').
Hypothesis Hdiv : forall a a' b b', rel a a' -> rel b b' -> refines rel (div1 K a b) (div1 K' a' b').
Hypothesis Hflip : forall a a', rel a a' -> refines rel (flip1 K a) (flip1 K' a').

Lemma prod_rel n A A' f f' : RM A A' -> rel f f' -> refines rel (det_prod K n A f) (det_prod K' n A' f').
Proof.
  intros HA Hf. unfold det_prod. eapply (ref_bind rel).
  - apply ref_for; [exact H1|]. intros k s s' _ Hs. cbv beta. eapply ref_bind; [apply ref_aget, HA|]. intros a a' Ha.
    exact (Hmul _ _ _ _ Hs Ha).
  - intros a a' Ha. exact (Hdiv _ _ _ _ Ha Hf).
Qed.

Lemma search_rel fuel n A A' r : RM A A' -> forall i pivot,
  refines (relC eq eq) (det_search K fuel n A r i pivot) (det_search K' fuel n A' r i pivot).
Proof.
  intros HA. induction fuel as [|f IH]; intros i pivot; cbn [det_search]; [exact I|].
  eapply ref_bind; [apply ref_aget, HA|]. intros a a' Ha. rewrite (Hz _ _ Ha). destruct (xeq _ _).
  - destruct (n =? i + 1); [|apply IH]. destruct (n =? pivot + 1); [|apply IH]. apply ref_ok. constructor. reflexivity.
  - apply ref_ok. constructor. reflexivity.
Qed.

Lemma elim1_bind (S : scalar) (A : matrix (elt S)) i j c v a p :
  (let* t := xmul (ld v) (ld a) in let* t := xdiv t (ld p) in let* x := xsub (ld c) t in aset A i j (st x)) =
  bind (elim1 S c v a p) (fun x => aset A i j x).
Proof.
  unfold elim1. destruct (xmul _ _); cbn [bind]; try reflexivity. destruct (xdiv _ _); cbn [bind]; try reflexivity.
  destruct (xsub _ _); reflexivity.
Qed.

Lemma eliminate_rel n A A' r p : RM A A' -> refines RM (det_eliminate K n A r p) (det_eliminate K' n A' r p).
Proof.
  intros HA. unfold det_eliminate. apply ref_for; [exact HA|]. intros i s s' _ Hs. cbv beta.
  destruct (i =? r); [apply ref_ok, Hs|]. eapply ref_bind; [apply ref_aget, Hs|]. intros v v' Hv.
  apply ref_for; [exact Hs|]. intros j t t' _ Ht. cbv beta.
  eapply ref_bind; [apply ref_aget, Ht|]. intros c c' Hc. eapply ref_bind; [apply ref_aget, Ht|]. intros a a' Ha.
  eapply ref_bind; [apply ref_aget, Ht|]. intros q q' Hq. rewrite !elim1_bind.
  eapply ref_bind; [apply Helim; eassumption|]. intros x x' Hx. apply ref_aset; assumption.
Qed.

Lemma flip_bind (S : scalar) (A : matrix (elt S)) f :
  (let* f := xmul (ld f) (lit (-1)) in Ok (A, st f)) = bind (flip1 S f) (fun f => Ok (A, f)).
Proof. unfold flip1. destruct (xmul _ _); reflexivity. Qed.

Lemma general_rel n A A' : RM A A' -> refines rel (det_general K n A) (det_general K' n A').
Proof.
  intros HA. unfold det_general.
  set (Q := fun (s : matrix (elt K) * elt K * nat) (s' : matrix (elt K') * elt K' * nat) =>
    RM (fst (fst s)) (fst (fst s')) /\ rel (snd (fst s)) (snd (fst s')) /\ snd s = snd s').
  eapply (ref_bind (relC Q rel)).
  2:{ intros ? ? [[[a b] c] [[a' b'] c'] [Ha [Hb Hc]]|? ? H]; cbn in *; [apply prod_rel; assumption|apply ref_ok, H]. }
  apply ref_for_ret; [cbn; split; [exact HA|split; [exact H1|reflexivity]]|].
  intros r [[a b] c] [[a' b'] c'] _ [Ha [Hb Hc]]. cbn in Ha, Hb, Hc. subst c'.
  destruct (n <=? c).
  { eapply ref_bind; [apply prod_rel; eassumption|]. intros. apply ref_ok. constructor. assumption. }
  eapply ref_bind; [apply search_rel, Ha|]. intros ? ? [[i p] ? <-|? ? <-].
  2:{ eapply ref_bind; [apply prod_rel; eassumption|]. intros. apply ref_ok. constructor. assumption. }
  eapply (ref_bind (relP RM rel)).
  { destruct (i =? r); [apply ref_ok; split; assumption|].
    eapply ref_bind; [apply swap_rows_ref, Ha|]. intros x x' Hx. rewrite !flip_bind.
    eapply ref_bind; [apply Hflip, Hb|]. intros. apply ref_ok. split; assumption. }
  intros [x y] [x' y'] [Hx Hy]. cbn in Hx, Hy.
  eapply ref_bind; [apply eliminate_rel, Hx|]. intros. apply ref_ok. constructor. unfold Q. cbn. auto.
Qed.
End Det.
