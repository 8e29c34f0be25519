(** * isSymetric, compare, isIdentity, any element type *)

From Coq Require Import List ZArith Lia Bool Arith.
Import ListNotations.
From Verif Require Import Base Scalar Model Spec Loops Struct.

Lemma for_ret_nested n lo (hi : nat -> nat) (test : nat -> nat -> bool)
  (body : nat -> nat -> unit -> outcome (ctrl unit bool)) :
  (forall i j, lo <= i < n -> 0 <= j < hi i ->
     body i j tt = if test i j then Ok (Cont tt) else Ok (Ret false)) ->
  (let* r := for_ret lo n (fun i _ => for_ret 0 (hi i) (body i) tt) tt in
   match r with Ret b => Ok b | Cont _ => Ok true end) =
  Ok (forallb (fun i => forallb (test i) (seq 0 (hi i))) (seq lo (n - lo))).
Proof.
  intros H. rewrite (for_ret_all _ _ _ (fun i => forallb (test i) (seq 0 (hi i)))).
  - destruct (forallb _ _); reflexivity.
  - intros i Hi. rewrite (for_ret_all _ _ _ (test i)).
    + rewrite Nat.sub_0_r. reflexivity.
    + intros j Hj. apply H; lia.
Qed.

Lemma forallb_seq lo cnt (p : nat -> bool) :
  forallb p (seq lo cnt) = true <-> forall i, lo <= i < lo + cnt -> p i = true.
Proof.
  rewrite forallb_forall. split; intros H i Hi; apply H; [apply in_seq|apply in_seq in Hi]; lia.
Qed.

Section Preds.
Context (K : scalar).
Notation T := (elt K).

Lemma isSymetric_mk n (f : nat -> nat -> T) :
  exists b, isSymetric K n (mk n n f) = Ok b /\
  (b = true <-> forall i j, j < i < n -> xeq (ld (f i j)) (ld (f j i)) = true).
Proof.
  unfold isSymetric.
  rewrite (for_ret_nested n 1 (fun i => i) (fun i j => xeq (ld (f i j)) (ld (f j i)))
    (fun i j _ => let* a := aget (mk n n f) i j in let* b := aget (mk n n f) j i in
      if negb (xeq (ld a) (ld b)) then Ok (Ret false) else Ok (Cont tt))).
  2:{ intros i j Hi Hj. rewrite !aget_mk by lia. cbn [bind]. destruct (xeq _ _); reflexivity. }
  eexists. split; [reflexivity|]. rewrite forallb_seq. split.
  - intros H i j Hij. specialize (H i). rewrite forallb_seq in H. apply H; lia.
  - intros H i Hi. rewrite forallb_seq. intros j Hj. apply H. lia.
Qed.

(** the difference tested by compare *)
Definition cmp_diff (a b : T) : outcome (xpr K) := let* d := xsub (ld a) (ld b) in xabs d.

Lemma compare_mk n m (f g : nat -> nat -> T) (d : nat -> nat -> xpr K) e :
  (forall i j, i < n -> j < m -> cmp_diff (f i j) (g i j) = Ok (d i j)) ->
  exists b, compare K n m (mk n m f) (mk n m g) e = Ok b /\
  (b = true <-> forall i j, i < n -> j < m -> gteps (d i j) e = false).
Proof.
  intros H. unfold compare.
  rewrite (for_ret_nested n 0 (fun _ => m) (fun i j => negb (gteps (d i j) e))
    (fun i j _ => let* a := aget (mk n m f) i j in let* b := aget (mk n m g) i j in
      let* d := xsub (ld a) (ld b) in let* d := xabs d in
      if gteps d e then Ok (Ret false) else Ok (Cont tt))).
  2:{ intros i j Hi Hj. rewrite !aget_mk by lia. cbn [bind].
      specialize (H i j ltac:(lia) ltac:(lia)). unfold cmp_diff in H.
      destruct (bind_inv _ _ _ H) as [t [E1 E2]]. rewrite E1. cbn [bind]. rewrite E2. cbn [bind].
      destruct (gteps _ _); reflexivity. }
  eexists. split; [reflexivity|]. rewrite forallb_seq. split.
  - intros G i j Hi Hj. specialize (G i). rewrite forallb_seq in G.
    apply negb_true_iff. apply G; lia.
  - intros G i Hi. rewrite forallb_seq. intros j Hj. rewrite G by lia. reflexivity.
Qed.

(** operator== of std::array *)
Lemma vec_eqb_iff (u v : list T) :
  vec_eqb K u v = true <->
  length u = length v /\ forall i x y, nth_error u i = Some x -> nth_error v i = Some y ->
    xeq (ld x) (ld y) = true.
Proof.
  revert v; induction u as [|a u IH]; intros [|b v]; simpl.
  - split; [|reflexivity]. intros _. split; [reflexivity|]. intros [|i]; discriminate.
  - split; [discriminate|]. intros [H _]; discriminate.
  - split; [discriminate|]. intros [H _]; discriminate.
  - rewrite andb_true_iff, IH. split.
    + intros [H1 [H2 H3]]. split; [lia|]. intros [|i] x y; simpl.
      * intros [= <-] [= <-]. assumption.
      * apply H3.
    + intros [H1 H2]. split; [apply (H2 0); reflexivity|]. split; [lia|].
      intros i. apply (H2 (S i)).
Qed.

Lemma mat_eqb_mk n m (f g : nat -> nat -> T) :
  mat_eqb K (mk n m f) (mk n m g) = true <->
  forall i j, i < n -> j < m -> xeq (ld (f i j)) (ld (g i j)) = true.
Proof.
  unfold mk.
  assert (E : forall l, mat_eqb K (map (fun i => map (fun j => f i j) (seq 0 m)) l)
     (map (fun i => map (fun j => g i j) (seq 0 m)) l) =
     forallb (fun i => forallb (fun j => xeq (ld (f i j)) (ld (g i j))) (seq 0 m)) l).
  { induction l as [|i l IH]; [reflexivity|]. simpl. rewrite IH. f_equal.
    generalize (seq 0 m). intros q. induction q as [|j q IHq]; [reflexivity|].
    simpl. rewrite IHq. reflexivity. }
  rewrite E, forallb_seq. split.
  - intros H i j Hi Hj. specialize (H i ltac:(lia)). rewrite forallb_seq in H. apply H. lia.
  - intros H i Hi. rewrite forallb_seq. intros j Hj. apply H; lia.
Qed.

Lemma isIdentity_mk n (f : nat -> nat -> T) :
  exists b, isIdentity K n (mk n n f) = Ok b /\
  (b = true <-> forall i j, i < n -> j < n ->
     xeq (ld (f i j)) (ld (if i =? j then lite K 1 else lite K 0)) = true).
Proof.
  unfold isIdentity. rewrite eye1_mk. cbn [bind]. eexists. split; [reflexivity|].
  apply mat_eqb_mk.
Qed.
End Preds.

(** chol reads only the lower triangle *)
Lemma chol_lower_only (K : scalar) n (f g : nat -> nat -> elt K) :
  (forall i j, j <= i < n -> f i j = g i j) ->
  chol K n (mk n n f) = chol K n (mk n n g).
Proof.
  intros H. unfold chol. apply for_ext. intros i L Hi. apply for_ext. intros j L' Hj.
  rewrite !aget_mk by lia. rewrite !H by lia. reflexivity.
Qed.
