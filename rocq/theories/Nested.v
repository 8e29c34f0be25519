(** * lu and chol compute the factors of the leading blocks first

    The recurrences of LURec.v and CholRec.v determine the outcome, so the
    factors of a leading block are the leading blocks of the factors, for an
    arbitrary element type. *)

From Coq Require Import List ZArith Lia Bool Arith.
Import ListNotations.
From Verif Require Import Base Scalar Model Spec Loops Struct LURec CholRec.

Section Nested.
Context (K : scalar).
Notation T := (elt K).

Lemma for_run {St} (s : nat -> St) lo hi (body : nat -> St -> outcome St) : lo <= hi ->
  (forall i, lo <= i < hi -> body i (s i) = Ok (s (S i))) -> for_ lo hi body (s lo) = Ok (s hi).
Proof.
  intros Hl H. destruct (for_inv (fun i X => X = s i) lo hi body (s lo)) as [X [E ->]]; auto.
  intros i X Hi ->. exists (s (S i)). split; [apply H; exact Hi|reflexivity].
Qed.

Section Lu.
Variables (n : nat) (f l u : nat -> nat -> T).
Hypothesis Done : lu_done K n f l u n.

(** the factors after j columns *)
Definition lpart j i c := if c <? j then l i c else if i =? c then lite K 1 else lite K 0.
Definition upart j i c := if c <? j then u i c else lite K 0.

Lemma lu_complete : lu K n (mk n n f) = Ok (mk n n l, mk n n u).
Proof.
  destruct Done as [_ [HB [HC [HD HE]]]].
  unfold lu. rewrite eye1_mk, zeros_mk. cbn [bind].
  transitivity (Ok (mk n n (lpart n), mk n n (upart n))).
  2:{ do 2 f_equal; apply mk_ext; intros i j Hi Hj; unfold lpart, upart; destruct (Nat.ltb_spec j n); [reflexivity|lia|reflexivity|lia]. }
  match goal with |- for_ 0 n ?b ?s = _ => 
    replace s with (mk n n (lpart 0), mk n n (upart 0)) by reflexivity;
    apply (for_run (fun j => (mk n n (lpart j), mk n n (upart j))) 0 n b); [lia|] end.
  intros j Hj.
  (* column j of U *)
  pose (uk := fun k a b => if b <? j then u a b else if (b =? j) && (a <? k) then u a b else lite K 0).
  assert (EU : for_ 0 (j + 1) (fun i U =>
      let* sum := for_ 0 i (fun p sum =>
        let* x := aget U p j in
        let* y := aget (mk n n (lpart j)) i p in
        let* t := xmul (ld x) (ld y) in
        let* v := xadd (ld sum) t in
        Ok (@st K v)) (lite K 0) in
      let* a := aget (mk n n f) i j in
      let* v := xsub (ld a) (ld sum) in
      aset U i j (st v)) (mk n n (upart j)) = Ok (mk n n (upart (S j)))).
  { transitivity (for_ 0 (j + 1) (fun i U =>
      let* sum := for_ 0 i (fun p sum =>
        let* x := aget U p j in
        let* y := aget (mk n n (lpart j)) i p in
        let* t := xmul (ld x) (ld y) in
        let* v := xadd (ld sum) t in
        Ok (@st K v)) (lite K 0) in
      let* a := aget (mk n n f) i j in
      let* v := xsub (ld a) (ld sum) in
      aset U i j (st v)) (mk n n (uk 0))).
    { f_equal. apply mk_ext. intros a b Ha Hb. unfold upart, uk. nat_cases; reflexivity. }
    rewrite (for_run (fun k => mk n n (uk k))); [|lia|].
    - f_equal. apply mk_ext. intros a b Ha Hb. unfold upart, uk. nat_cases; try reflexivity.
      symmetry. apply HC; lia.
    - intros i Hi. rewrite lu_sum_dot by lia.
      destruct (HD i j ltac:(lia) ltac:(lia)) as [s [v [E1 [E2 E3]]]].
      rewrite (dot_ext K i _ _ (fun p => u p j) (fun p => l i p)).
      2:{ intros p Hp. unfold uk, lpart. nat_cases. auto. }
      rewrite E1. cbn [bind]. rewrite aget_mk by lia. cbn [bind]. rewrite E2. cbn [bind].
      rewrite aset_mk by lia. f_equal. apply mk_ext. intros a b Ha Hb. unfold uk. nat_cases; try reflexivity.
      symmetry. exact E3. }
  cbv beta iota. rewrite EU. cbn [bind].
  pose (lk := fun k a b => if b <? j then l a b else if (b =? j) && (a <? k) then l a b else if a =? b then lite K 1 else lite K 0).
  match goal with |- (let* L := for_ j n ?b _ in _) = _ => 
    assert (EL : for_ j n b (mk n n (lpart j)) = Ok (mk n n (lpart (S j)))) end.
  { transitivity (for_ j n (fun i L =>
      let* sum := for_ 0 i (fun p sum =>
        let* x := aget (mk n n (upart (S j))) p j in
        let* y := aget L i p in
        let* t := xmul (ld x) (ld y) in
        let* v := xadd (ld sum) t in
        Ok (@st K v)) (lite K 0) in
      let* ujj := aget (mk n n (upart (S j))) j j in
      if xeq (ld ujj) (lit 0) then Throw OverflowError
      else
        let* a := aget (mk n n f) i j in
        let* v := xsub (ld a) (ld sum) in
        let* q := xdiv v (ld ujj) in
        aset L i j (st q)) (mk n n (lk j))).
    { f_equal. apply mk_ext. intros a b Ha Hb. unfold lpart, lk. nat_cases; try reflexivity. apply eq_sym, HB. lia. }
    rewrite (for_run (fun k => mk n n (lk k))); [|lia|].
    - f_equal. apply mk_ext. intros a b Ha Hb. unfold lpart, lk. nat_cases; reflexivity.
    - intros i Hi. rewrite lu_sum_dot by lia.
      destruct (HE i j ltac:(lia) ltac:(lia)) as [Ez [s [v [q [E1 [E2 [E3 E4]]]]]]].
      rewrite (dot_ext K i _ _ (fun p => u p j) (fun p => if p <? j then l i p else lite K 0)).
      2:{ intros p Hp. unfold upart, lk. nat_cases; auto. }
      rewrite E1. cbn [bind]. rewrite aget_mk by lia. cbn [bind].
      replace (upart (S j) j j) with (u j j) by (unfold upart; nat_cases; reflexivity).
      rewrite Ez, aget_mk by lia. cbn [bind]. rewrite E2. cbn [bind]. rewrite E3. cbn [bind].
      rewrite aset_mk by lia. f_equal. apply mk_ext. intros a b Ha Hb. unfold lk. nat_cases; try reflexivity.
      all: symmetry; exact E4. }
  rewrite EL. reflexivity.
Qed.
End Lu.

Lemma lu_done_less n m f l u : m <= n -> lu_done K n f l u n -> lu_done K m f l u m.
Proof.
  intros Hm [_ [HB [HC [HD HE]]]]. split; [intros; lia|].
  split; [intros; apply HB; lia|]. split; [intros; apply HC; lia|]. split; intros.
  - apply HD; lia.
  - apply HE; lia.
Qed.

Section Chol.
Variables (n : nat) (f l : nat -> nat -> T).
Hypothesis Zr : forall i j, i < j < n -> l i j = lite K 0.
Hypothesis Hd : forall i, i < n -> drec K f l i.
Hypothesis Ho : forall i j, j < i < n -> orec K f l i j.

(** the factor after i rows, and j elements of row i *)
Definition cpart i j a b := if a <? i then l a b else if (a =? i) && (b <? j) then l a b else lite K 0.

Lemma chol_complete : chol K n (mk n n f) = Ok (mk n n l).
Proof.
  unfold chol. rewrite init_mk.
  transitivity (Ok (mk n n (cpart n 0))).
  2:{ f_equal. apply mk_ext. intros a b Ha Hb. unfold cpart. nat_cases. reflexivity. }
  match goal with |- for_ 0 n ?b ?s = _ =>
    replace s with (mk n n (cpart 0 0)) by (apply mk_ext; intros a b' Ha Hb; unfold cpart; nat_cases; reflexivity);
    apply (for_run (fun i => mk n n (cpart i 0)) 0 n b); [lia|] end.
  intros i Hi.
  transitivity (Ok (mk n n (cpart i (i + 1)))).
  2:{ f_equal. apply mk_ext. intros a b Ha Hb. unfold cpart. nat_cases; try reflexivity.
      symmetry. apply Zr. lia. }
  apply (for_run (fun j => mk n n (cpart i j))); [lia|].
  intros j Hj. destruct (Nat.eqb_spec j i) as [->|Nj].
  - rewrite (for_ext 0 i _ (fun k sum => let* t := xmul (ld (l i k)) (ld (l i k)) in
      let* v := xadd (ld sum) t in Ok (@st K v))).
    2:{ intros k s Hk. rewrite aget_mk by lia. cbn [bind]. unfold cpart. nat_cases. reflexivity. }
    destruct (Hd i ltac:(lia)) as [s [v [E1 [E2 E3]]]]. unfold dot in E1. rewrite E1. cbn [bind].
    rewrite aget_mk by lia. cbn [bind]. rewrite E2. cbn [bind]. rewrite E3. cbn [bind].
    rewrite aset_mk by lia. f_equal. apply mk_ext. intros a b Ha Hb. unfold cpart. nat_cases; reflexivity.
  - destruct (Ho i j ltac:(lia)) as [s [v [q [E1 [E2 [E3 E4]]]]]].
    rewrite (for_ext 0 i _ (fun k sum => let* t := xmul (ld (if k <? j then l i k else lite K 0)) (ld (l j k)) in
      let* v := xadd (ld sum) t in Ok (@st K v))).
    2:{ intros k c Hk. rewrite !aget_mk by lia. cbn [bind]. unfold cpart. nat_cases; reflexivity. }
    unfold dot in E1. rewrite E1. cbn [bind]. rewrite aget_mk by lia. cbn [bind]. rewrite E2. cbn [bind].
    rewrite aget_mk by lia. cbn [bind].
    replace (cpart i j j j) with (l j j) by (unfold cpart; nat_cases; reflexivity).
    rewrite E3. cbn [bind]. rewrite aset_mk by lia. f_equal. apply mk_ext. intros a b Ha Hb.
    unfold cpart. nat_cases; try reflexivity. all: symmetry; exact E4.
Qed.
End Chol.
End Nested.
