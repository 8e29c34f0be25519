(** * The benchmark loops *)

From Coq Require Import List ZArith Lia Bool Arith.
Import ListNotations.
From Verif Require Import Base Scalar Model Spec Loops Struct LURec Bench.

Section Acc.
Context (K : scalar).
Notation T := (elt K).
(** the additions of the element type always return *)
Context (Add : forall a b : xpr K, exists c, xadd a b = Ok c).

(** one read that may fail, then an addition *)
Lemma acc_loops n m (rd : nat -> nat -> outcome T) :
  (forall i j, i < n -> j < m -> (exists x, rd i j = Ok x) \/ rd i j = UB OutOfBounds) ->
  forall s, let o := for_ 0 n (fun i sum => for_ 0 m (fun j sum =>
    let* a := rd i j in let* v := xadd (ld sum) (ld a) in Ok (@st K v)) sum) s in
  ((forall i j, i < n -> j < m -> exists x, rd i j = Ok x) /\ (exists r, o = Ok r)) \/
  ((exists i j, i < n /\ j < m /\ rd i j = UB OutOfBounds) /\ o = UB OutOfBounds).
Proof.
  intros H s. cbv zeta.
  assert (Row : forall i, i < n -> forall s, let o := for_ 0 m (fun j sum =>
    let* a := rd i j in let* v := xadd (ld sum) (ld a) in Ok (@st K v)) s in
    ((forall j, j < m -> exists x, rd i j = Ok x) /\ (exists r, o = Ok r)) \/
    ((exists j, j < m /\ rd i j = UB OutOfBounds) /\ o = UB OutOfBounds)).
  { intros i Hi s0. cbv zeta. specialize (fun j => H i j Hi). clear s.
    induction m as [|p IH].
    - left. split; [lia|]. eexists. apply for_empty. lia.
    - rewrite for_snoc by lia. destruct IH as [[A [r E]]|[[j [Hj B]] E]]; [intros; apply H; lia| |].
      + rewrite E. cbn [bind]. destruct (H p ltac:(lia)) as [[x Ex]|Ex]; rewrite Ex; cbn [bind].
        * left. split.
          -- intros j Hj. destruct (Nat.eq_dec j p) as [->|]; [eauto|apply A; lia].
          -- destruct (Add (ld r) (ld x)) as [c ->]. eexists. reflexivity.
        * right. split; [exists p; split; [lia|exact Ex]|reflexivity].
      + right. split; [exists j; split; [lia|exact B]|]. rewrite E. reflexivity. }
  clear H. induction n as [|p IH].
  - left. split; [lia|]. eexists. apply for_empty. lia.
  - rewrite for_snoc by lia. destruct IH as [[A [r E]]|[[i [j [Hi [Hj B]]]] E]]; [intros; apply Row; lia| |].
    + rewrite E. cbn [bind]. destruct (Row p ltac:(lia) r) as [[A' [r' E']]|[[j [Hj B]] E']]; rewrite E'.
      * left. split; [|eexists; reflexivity].
        intros i j Hi Hj. destruct (Nat.eq_dec i p) as [->|]; [apply A'; exact Hj|apply A; lia].
      * right. split; [exists p, j; repeat split; [lia|lia|exact B]|reflexivity].
    + right. split; [exists i, j; repeat split; [lia|lia|exact B]|]. rewrite E. reflexivity.
Qed.

Lemma aget_or row col (f : nat -> nat -> T) i j :
  (exists x, aget (mk row col f) i j = Ok x) \/ aget (mk row col f) i j = UB OutOfBounds.
Proof.
  destruct (le_lt_dec row i); [right; apply aget_mk_row_oob; assumption|].
  destruct (le_lt_dec col j); [right; apply aget_mk_col_oob; assumption|].
  left. eexists. apply aget_mk; assumption.
Qed.

Lemma aget_oob row col (f : nat -> nat -> T) i j :
  aget (mk row col f) i j = UB OutOfBounds <-> row <= i \/ col <= j.
Proof.
  split.
  - intros H. destruct (le_lt_dec row i); [left; assumption|]. destruct (le_lt_dec col j); [right; assumption|].
    rewrite aget_mk in H by assumption. discriminate.
  - intros [H|H]; [apply aget_mk_row_oob|apply aget_mk_col_oob]; exact H.
Qed.

Lemma row_major_returns row col (f : nat -> nat -> T) : returns (bench_row_major K row col (mk row col f)).
Proof.
  destruct (acc_loops row col (fun i j => aget (mk row col f) i j) ltac:(intros; apply aget_or) (lite K 0))
    as [[_ H]|[[i [j [Hi [Hj H]]]] _]]; [exact H|]. apply aget_oob in H. lia.
Qed.

Lemma col_major_spec row col (f : nat -> nat -> T) :
  if (row =? col) || (row =? 0) || (col =? 0)
  then returns (bench_col_major K row col (mk row col f))
  else bench_col_major K row col (mk row col f) = UB OutOfBounds.
Proof.
  destruct (acc_loops col row (fun i j => aget (mk row col f) i j) ltac:(intros; apply aget_or) (lite K 0))
    as [[A H]|[[i [j [Hi [Hj B]]]] H]].
  - destruct (Nat.eqb_spec row col), (Nat.eqb_spec row 0), (Nat.eqb_spec col 0); cbn [orb]; try exact H.
    exfalso. destruct (le_lt_dec row col) as [L|L].
    + destruct (A row 0) as [x Hx]; [lia|lia|]. rewrite aget_mk_row_oob in Hx by lia. discriminate.
    + destruct (A 0 col) as [x Hx]; [lia|lia|]. rewrite aget_mk_col_oob in Hx by lia. discriminate.
  - apply aget_oob in B.
    destruct (Nat.eqb_spec row col), (Nat.eqb_spec row 0), (Nat.eqb_spec col 0); cbn [orb]; try lia. exact H.
Qed.

Lemma rand_major_spec row col rand (f : nat -> nat -> T) : rand_draws col rand ->
  (In col rand /\ 0 < row -> bench_rand_major K row col rand (mk row col f) = UB OutOfBounds) /\
  (~ (In col rand /\ 0 < row) -> returns (bench_rand_major K row col rand (mk row col f))).
Proof.
  intros [Lr Hr].
  assert (R : forall j, j < col -> exists r, vget rand j = Ok r /\ In r rand).
  { intros j Hj. unfold vget. destruct (nth_error rand j) as [r|] eqn:E.
    - exists r. split; [reflexivity|]. exact (nth_error_In _ _ E).
    - apply nth_error_None in E. lia. }
  pose proof (acc_loops row col (fun i j => let* r := vget rand j in aget (mk row col f) i r)) as A.
  assert (E : bench_rand_major K row col rand (mk row col f) =
    for_ 0 row (fun i sum => for_ 0 col (fun j sum =>
      let* a := (let* r := vget rand j in aget (mk row col f) i r) in
      let* v := xadd (ld sum) (ld a) in Ok (@st K v)) sum) (lite K 0)).
  { unfold bench_rand_major. apply for_ext. intros i s Hi. apply for_ext. intros j s' Hj.
    rewrite bind_assoc. reflexivity. }
  rewrite E. clear E.
  destruct (A ltac:(intros i j Hi Hj; destruct (R j Hj) as [r [-> _]]; cbn [bind]; apply aget_or) (lite K 0))
    as [[B H]|[[i [j [Hi [Hj B]]]] H]].
  - split; [|intros _; exact H]. intros [I P]. exfalso.
    apply In_nth_error in I. destruct I as [j Ej].
    assert (Hj : j < col) by (rewrite <- Lr; apply nth_error_Some; congruence).
    destruct (B 0 j P Hj) as [x Hx]. unfold vget in Hx. rewrite Ej in Hx. cbn [bind] in Hx.
    rewrite aget_mk_col_oob in Hx by lia. discriminate.
  - split; [intros _; exact H|]. intros N. exfalso. apply N. destruct (R j Hj) as [r [Er Ir]].
    rewrite Er in B. cbn [bind] in B. apply aget_oob in B. pose proof (Hr r Ir).
    split; [|lia]. replace col with r by lia. exact Ir.
Qed.
End Acc.

Section SetRand.
Context (K : scalar).
Notation T := (elt K).

Lemma setRand_mk n m (draw : nat -> T) (g : nat -> nat -> T) :
  setRand K n m draw (mk n m g) = Ok (mk n m (fun i j => draw (i * m + j)), n * m).
Proof.
  unfold setRand.
  rewrite (for_states 0 n _ (fun i => (mk n m (fun a b => if a <? i then draw (a * m + b) else g a b), i * m))).
  - f_equal. f_equal. apply mk_ext. intros i j Hi Hj. destruct (Nat.ltb_spec i n); [reflexivity|lia].
  - lia.
  - f_equal.
  - intros i Hi.
    rewrite (for_states 0 m _ (fun j => (mk n m (fun a b =>
      if (a <? i) || ((a =? i) && (b <? j)) then draw (a * m + b) else g a b), i * m + j))).
    + f_equal. f_equal; [|lia]. apply mk_ext. intros a b Ha Hb.
      destruct (Nat.ltb_spec a i), (Nat.eqb_spec a i), (Nat.ltb_spec b m), (Nat.ltb_spec a (S i)); cbn [orb andb];
        try reflexivity; lia.
    + lia.
    + f_equal; [|lia]. apply mk_ext. intros a b Ha Hb.
      destruct (Nat.ltb_spec a i), (Nat.eqb_spec a i), (Nat.ltb_spec b 0); cbn [orb andb]; try reflexivity; lia.
    + intros j Hj. rewrite aset_mk by lia. cbn [bind]. f_equal. f_equal; [|lia].
      apply mk_ext. intros a b Ha Hb.
      destruct (Nat.eqb_spec a i), (Nat.eqb_spec b j), (Nat.ltb_spec a i), (Nat.ltb_spec b j), (Nat.ltb_spec b (S j));
        cbn [orb andb]; try reflexivity; try lia. subst. reflexivity.
Qed.

(** an operation that fails on the first product makes mult fail *)
Lemma mult_fails n (f g : nat -> nat -> T) e : 0 < n ->
  xmul (ld (f 0 0)) (ld (g 0 0)) = UB e -> mult K n n n (mk n n f) (mk n n g) = UB e.
Proof.
  intros Hn H. rewrite mult_tab. unfold tabM. destruct n as [|p]; [lia|]. cbn [seq map_out].
  assert (D : dot K (S p) (fun k => f 0 k) (fun k => g k 0) = UB e).
  { unfold dot. rewrite for_first by lia. rewrite H. reflexivity. }
  rewrite D. reflexivity.
Qed.
End SetRand.
