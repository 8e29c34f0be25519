(** * Gaussian elimination: the effect of the elimination loops, any element type *)

From Coq Require Import List ZArith Lia Bool Arith.
Import ListNotations.
From Verif Require Import Base Scalar Model Spec Loops Struct.

Section Elim.
Context (K : scalar).
Notation T := (elt K).

(** the value stored by one elementary step of the elimination *)
Definition elim_val (f : nat -> nat -> T) r p i j : outcome T :=
  let* t := xmul (ld (f i p)) (ld (f r j)) in
  let* t := xdiv t (ld (f r p)) in
  let* v := xsub (ld (f i j)) t in
  Ok (st v).

Lemma det_eliminate_mk n (f g : nat -> nat -> T) r p :
  r < n -> p < n ->
  (forall i j, p < i -> i < n -> i <> r -> p <= j -> j < n -> elim_val f r p i j = Ok (g i j)) ->
  det_eliminate K n (mk n n f) r p =
  Ok (mk n n (fun i j => if (p <? i) && negb (i =? r) && (p <=? j) then g i j else f i j)).
Proof.
  intros Hr Hp Hg. unfold det_eliminate.
  rewrite (for_states (p + 1) n _ (fun k => mk n n (fun i j =>
    if (p <? i) && (i <? k) && negb (i =? r) && (p <=? j) then g i j else f i j))).
  - f_equal. apply mk_ext. intros. nat_cases; reflexivity.
  - lia.
  - apply mk_ext. intros. nat_cases; reflexivity.
  - intros i Hi. destruct (Nat.eqb_spec i r) as [->|Hir].
    { f_equal. apply mk_ext. intros. nat_cases; reflexivity. }
    rewrite aget_mk by lia. cbn [bind].
    rewrite (for_states p n _ (fun l => mk n n (fun a b =>
      if (p <? a) && (a <? i) && negb (a =? r) && (p <=? b) || (a =? i) && (p <=? b) && (b <? l)
      then g a b else f a b))).
    + f_equal. apply mk_ext. intros. nat_cases; reflexivity.
    + lia.
    + apply mk_ext. intros. nat_cases; reflexivity.
    + intros j Hj. rewrite !aget_mk by lia. cbn [bind].
      assert (E : elim_val f r p i j = Ok (g i j)) by (apply Hg; lia).
      unfold elim_val in E.
      replace ((p <? i) && (i <? i)) with false by (rewrite Nat.ltb_irrefl, andb_false_r; reflexivity).
      cbn [andb]. rewrite !Nat.eqb_refl, Nat.ltb_irrefl. cbn [andb orb negb].
      replace (r =? i) with false by (symmetry; apply Nat.eqb_neq; lia).
      replace ((p <=? j) && (j <? j)) with false by (rewrite Nat.ltb_irrefl, andb_false_r; reflexivity).
      rewrite !andb_false_r. cbn [andb orb].
      apply bind_inv in E. destruct E as [t1 [-> E]]. cbn [bind].
      apply bind_inv in E. destruct E as [t2 [-> E]]. cbn [bind].
      apply bind_inv in E. destruct E as [t3 [-> E]]. cbn [bind].
      injection E as ->. rewrite aset_mk by lia. f_equal. apply mk_ext. intros.
      nat_cases; reflexivity.
Qed.

End Elim.

(** ** The cofactor loop of inv, any element type *)
Section Cofactor.
Context (K : scalar).
Notation T := (elt K).

Definition cof_sign (i j : nat) : Z := if (i + j) mod 2 =? 0 then 1%Z else (-1)%Z.

Lemma inv_general_tab n (f : nat -> nat -> T) :
  inv_general K n (mk n n f) =
  let* detA := det K n (mk n n f) in
  let* C := tabM n n (fun i j =>
    let* d := det K (n - 1) (mk (n - 1) (n - 1) (fun a b => f (skip i a) (skip j b))) in
    let* v := xmul (lit (cof_sign i j)) (ld d) in
    Ok (st v)) in
  let* t := trans K n n C in
  op_div K n n t detA.
Proof.
  unfold inv_general. apply bind_ext. intros detA _. rewrite init_mk.
  match goal with |- (let* _ := ?a in _) = (let* _ := ?b in _) => assert (E : a = b) end;
    [|rewrite E; reflexivity].
  etransitivity; [|apply (tab_loop n n (fun _ _ => lite K 0))].
  apply for_ext. intros i R Hi. apply for_ext. intros j R' Hj.
  rewrite getminor_mk by lia. cbn [bind]. rewrite !bind_assoc. apply bind_ext. intros d _.
  rewrite !bind_assoc. reflexivity.
Qed.
End Cofactor.

(** ** chol reads only the lower triangle, any element type *)
Section CholLower.
Context (K : scalar).
Notation T := (elt K).

Lemma chol_lower_only n (f g : nat -> nat -> T) :
  (forall i j, j <= i -> i < n -> f i j = g i j) ->
  chol K n (mk n n f) = chol K n (mk n n g).
Proof.
  intros H. unfold chol. apply for_ext. intros i L Hi. apply for_ext. intros j L' Hj.
  destruct (Nat.eqb_spec j i) as [->|Hne].
  - apply bind_ext. intros s _. rewrite !aget_mk by lia. rewrite H by lia. reflexivity.
  - apply bind_ext. intros s _. rewrite !aget_mk by lia. rewrite H by lia. reflexivity.
Qed.
End CholLower.
