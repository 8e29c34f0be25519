(** * lu and chol return whatever satisfies their recurrences, for any element type *)

From Coq Require Import List ZArith Lia Bool Arith.
Import ListNotations.
From Verif Require Import Base Scalar Model Spec Loops Struct LURec CholRec.

Section Forward.
Context (K : scalar).
Notation T := (elt K).
Context (n : nat) (f : nat -> nat -> T).

Ltac cases := repeat match goal with
  | |- context [?a =? ?b] => destruct (Nat.eqb_spec a b)
  | |- context [?a <? ?b] => destruct (Nat.ltb_spec a b)
  | |- context [?a <=? ?b] => destruct (Nat.leb_spec a b)
  end; cbn [andb orb]; try reflexivity; try lia; subst; try lia; try reflexivity.

Theorem lu_forward l u :
  (forall i c, i < c < n -> l i c = lite K 0) ->
  (forall i c, c < i < n -> u i c = lite K 0) ->
  (forall i c, i <= c < n -> urec K f l u i c) ->
  (forall i c, c <= i < n -> lrec K f l u i c) ->
  lu K n (mk n n f) = Ok (mk n n l, mk n n u).
Proof.
  intros HL HU HD HE. unfold lu. rewrite eye1_mk, zeros_mk. cbn [bind].
  set (Lj := fun j i c => if c <? j then l i c else if i =? c then lite K 1 else lite K 0).
  set (Uj := fun j i c => if c <? j then u i c else lite K 0).
  rewrite (for_states 0 n _ (fun j => (mk n n (Lj j), mk n n (Uj j)))).
  - do 2 f_equal; apply mk_ext; intros; unfold Lj, Uj; cases.
  - lia.
  - f_equal; apply mk_ext; intros; unfold Lj, Uj; cases.
  - intros j Hj.
    rewrite (for_states 0 (j + 1) _ (fun k => mk n n (fun i c => if (c =? j) && (i <? k) then u i c else Uj j i c))).
    2: lia.
    2: { apply mk_ext. intros i c Hi Hc. cases. }
    2: { intros i Hi. rewrite lu_sum_dot by lia.
      destruct (HD i j ltac:(lia)) as [s [v [Es [Ev Eu]]]].
      rewrite (dot_ext K i _ _ (fun p => u p j) (fun p => l i p)).
      2: { intros p Hp. unfold Lj. cases. split; reflexivity. }
      rewrite Es. cbn [bind]. rewrite aget_mk by lia. cbn [bind]. rewrite Ev. cbn [bind].
      rewrite aset_mk by lia. f_equal. apply mk_ext. intros a b Ha Hb. rewrite <- Eu. cases. }
    cbn [bind].
    replace (mk n n (fun i c => if (c =? j) && (i <? j + 1) then u i c else Uj j i c)) with (mk n n (Uj (S j))).
    2: { apply mk_ext. intros i c Hi Hc. unfold Uj. cases. rewrite HU by lia. reflexivity. }
    rewrite (for_states j n _ (fun k => mk n n (fun i c => if (c =? j) && ((j <=? i) && (i <? k)) then l i c else Lj j i c))).
    2: lia.
    2: { apply mk_ext. intros i c Hi Hc. cases. }
    2: { intros i Hi. rewrite lu_sum_dot by lia.
      destruct (HE i j ltac:(lia)) as [Ez [s [v [q [Es [Ev [Eq El]]]]]]].
      rewrite (dot_ext K i _ _ (fun p => u p j) (fun p => if p <? j then l i p else lite K 0)).
      2: { intros p Hp. unfold Lj, Uj. cases; split; reflexivity. }
      rewrite Es. cbn [bind]. rewrite aget_mk by lia. cbn [bind].
      replace (Uj (S j) j j) with (u j j) by (unfold Uj; cases). rewrite Ez.
      rewrite aget_mk by lia. cbn [bind]. rewrite Ev. cbn [bind]. rewrite Eq. cbn [bind].
      rewrite aset_mk by lia. f_equal. apply mk_ext. intros a b Ha Hb. rewrite <- El. cases. }
    cbn [bind]. do 2 f_equal. apply mk_ext. intros i c Hi Hc. unfold Lj. cases.
    rewrite HL by lia. reflexivity.
Qed.

Theorem chol_forward l :
  (forall i j, i < j < n -> l i j = lite K 0) ->
  (forall i, i < n -> drec K f l i) ->
  (forall i j, j < i < n -> orec K f l i j) ->
  chol K n (mk n n f) = Ok (mk n n l).
Proof.
  intros H0 HD HO. unfold chol. rewrite init_mk.
  rewrite (for_states 0 n _ (fun i => mk n n (fun a b => if a <? i then l a b else lite K 0))).
  - f_equal. apply mk_ext. intros; cases.
  - lia.
  - apply mk_ext. intros; cases.
  - intros i Hi.
    rewrite (for_states 0 (i + 1) _ (fun j => mk n n (fun a b => if (a <? i) || ((a =? i) && (b <? j)) then l a b else lite K 0))).
    + f_equal. apply mk_ext. intros a b Ha Hb. cases. symmetry. apply H0. lia.
    + lia.
    + apply mk_ext. intros a b Ha Hb. cases.
    + intros j Hj. destruct (Nat.eqb_spec j i) as [->|Nj].
      * destruct (HD i ltac:(lia)) as [s [v [Es [Ev Er]]]].
        rewrite (for_ext 0 i _ (fun k sum => let* t := xmul (ld (l i k)) (ld (l i k)) in
          let* v := xadd (ld sum) t in Ok (@st K v))).
        2: { intros k c Hk. rewrite aget_mk by lia. cbn [bind]. cases. }
        unfold dot in Es. rewrite Es. cbn [bind]. rewrite aget_mk by lia. cbn [bind].
        rewrite Ev. cbn [bind]. rewrite Er. cbn [bind]. rewrite aset_mk by lia. f_equal. apply mk_ext.
        intros a b Ha Hb. cases.
      * destruct (HO i j ltac:(lia)) as [s [v [q [Es [Ev [Eq El]]]]]].
        rewrite (for_ext 0 i _ (fun k sum => let* t := xmul (ld (if k <? j then l i k else lite K 0)) (ld (l j k)) in
          let* v := xadd (ld sum) t in Ok (@st K v))).
        2: { intros k c Hk. rewrite !aget_mk by lia. cbn [bind]. cases. }
        unfold dot in Es. rewrite Es. cbn [bind]. rewrite aget_mk by lia. cbn [bind].
        rewrite Ev. cbn [bind]. rewrite aget_mk by lia. cbn [bind].
        replace (if (j <? i) || ((j =? i) && (j <? j)) then l j j else lite K 0) with (l j j) by cases.
        rewrite Eq. cbn [bind]. rewrite aset_mk by lia. f_equal. apply mk_ext.
        intros a b Ha Hb. rewrite <- El. cases.
Qed.
End Forward.
