(** * C80: any history of row and column exchanges *)

From Coq Require Import ZArith Lia Bool List Arith Permutation.
Import ListNotations.
From Verif Require Import Base Scalar CInt CFloat Model Spec Loops Struct Float PropTrans.
Local Open Scope nat_scope.

(** one call of swap_rows or swap_cols on a variable; they are the only functions of
    the library that change their argument *)
Inductive swap := Rows (a b : nat) | Cols (a b : nat).
(** a program that calls them any number of times, in any order *)
Definition history := list swap.

(** the subscripts exist *)
Definition valid (n m : nat) (s : swap) : Prop :=
  match s with Rows a b => a < n /\ b < n | Cols a b => a < m /\ b < m end.

(** where index i comes from *)
Definition sw (a b i : nat) : nat := if i =? a then b else if i =? b then a else i.
Fixpoint row_of (h : history) (i : nat) : nat :=
  match h with [] => i | Rows a b :: h => sw a b (row_of h i) | Cols _ _ :: h => row_of h i end.
Fixpoint col_of (h : history) (j : nat) : nat :=
  match h with [] => j | Cols a b :: h => sw a b (col_of h j) | Rows _ _ :: h => col_of h j end.
(** the exchanges of rows and of columns of a history, in their order *)
Definition is_row (s : swap) : bool := match s with Rows _ _ => true | _ => false end.
Definition rows_part (h : history) : history := filter is_row h.
Definition cols_part (h : history) : history := filter (fun s => negb (is_row s)) h.
(** rows for columns *)
Definition flip (s : swap) : swap := match s with Rows a b => Cols a b | Cols a b => Rows a b end.

Lemma sw_lt a b i n : a < n -> b < n -> i < n -> sw a b i < n.
Proof. unfold sw. destruct (i =? a), (i =? b); auto. Qed.
Lemma sw_sw a b i : sw a b (sw a b i) = i.
Proof.
  unfold sw. destruct (Nat.eqb_spec i a), (Nat.eqb_spec i b); subst; rewrite ?Nat.eqb_refl; try reflexivity;
  repeat match goal with |- context [?x =? ?y] => destruct (Nat.eqb_spec x y) end; subst; congruence.
Qed.

Lemma row_of_lt n m h i : Forall (valid n m) h -> i < n -> row_of h i < n.
Proof.
  intros H Hi. induction H as [|s h Hs H IH]; [exact Hi|]. destruct s as [a b|a b]; cbn in *; [|exact IH]. apply sw_lt; tauto.
Qed.
Lemma col_of_lt n m h j : Forall (valid n m) h -> j < m -> col_of h j < m.
Proof.
  intros H Hi. induction H as [|s h Hs H IH]; [exact Hi|]. destruct s as [a b|a b]; cbn in *; [exact IH|]. apply sw_lt; tauto.
Qed.
Lemma row_of_app h h' i : row_of (h ++ h') i = row_of h (row_of h' i).
Proof. induction h as [|[a b|a b] h IH]; cbn; [reflexivity|rewrite IH; reflexivity|exact IH]. Qed.
Lemma col_of_app h h' i : col_of (h ++ h') i = col_of h (col_of h' i).
Proof. induction h as [|[a b|a b] h IH]; cbn; [reflexivity|exact IH|rewrite IH; reflexivity]. Qed.
Lemma row_of_rev h i : row_of h (row_of (rev h) i) = i.
Proof.
  revert i. induction h as [|[a b|a b] h IH]; intros i; cbn; [reflexivity| |];
  rewrite row_of_app; cbn; rewrite IH; [apply sw_sw|reflexivity].
Qed.
Lemma col_of_rev h i : col_of h (col_of (rev h) i) = i.
Proof.
  revert i. induction h as [|[a b|a b] h IH]; intros i; cbn; [reflexivity| |];
  rewrite col_of_app; cbn; rewrite IH; [reflexivity|apply sw_sw].
Qed.
Lemma row_of_rows h i : row_of (rows_part h) i = row_of h i.
Proof. unfold rows_part, cols_part. induction h as [|[a b|a b] h IH]; cbn; [reflexivity|rewrite IH; reflexivity|exact IH]. Qed.
Lemma row_of_cols h i : row_of (cols_part h) i = i.
Proof. unfold rows_part, cols_part. induction h as [|[a b|a b] h IH]; cbn; [reflexivity|exact IH|exact IH]. Qed.
Lemma col_of_rows h i : col_of (rows_part h) i = i.
Proof. unfold rows_part, cols_part. induction h as [|[a b|a b] h IH]; cbn; [reflexivity|exact IH|exact IH]. Qed.
Lemma col_of_cols h i : col_of (cols_part h) i = col_of h i.
Proof. unfold rows_part, cols_part. induction h as [|[a b|a b] h IH]; cbn; [reflexivity|exact IH|rewrite IH; reflexivity]. Qed.
Lemma row_of_flip h i : row_of (map flip h) i = col_of h i.
Proof. induction h as [|[a b|a b] h IH]; cbn; [reflexivity|exact IH|rewrite IH; reflexivity]. Qed.
Lemma col_of_flip h i : col_of (map flip h) i = row_of h i.
Proof. induction h as [|[a b|a b] h IH]; cbn; [reflexivity|rewrite IH; reflexivity|exact IH]. Qed.

(** an index map with an inverse permutes the indices *)
Lemma perm_seq n (r s : nat -> nat) : (forall i, i < n -> r i < n) -> (forall i, i < n -> s i < n) ->
  (forall i, r (s i) = i) -> Permutation (map r (seq 0 n)) (seq 0 n).
Proof.
  intros Hr Hs H. apply Permutation_sym, NoDup_Permutation_bis.
  - apply seq_NoDup.
  - rewrite map_length. reflexivity.
  - intros i Hi. apply in_map_iff. exists (s i). split; [apply H|]. apply in_seq in Hi. apply in_seq. specialize (Hs i). lia.
Qed.

Section Play.
Context (K : scalar) (n m : nat).
Notation T := (elt K).

Definition do_swap (s : swap) (A : matrix T) : outcome (matrix T) :=
  match s with Rows a b => swap_rows K n m A a b | Cols a b => swap_cols K n m A a b end.
Fixpoint play (h : history) (A : matrix T) : outcome (matrix T) :=
  match h with [] => Ok A | s :: h => let* B := do_swap s A in play h B end.

Lemma play_mk h f : Forall (valid n m) h ->
  play h (mk n m f) = Ok (mk n m (fun i j => f (row_of h i) (col_of h j))).
Proof.
  intros H. revert f. induction H as [|s h Hs H IH]; intros f; [reflexivity|].
  destruct s as [a b|a b]; cbn [play do_swap row_of col_of]; destruct Hs as [Ha Hb].
  - rewrite swap_rows_mk by assumption. cbn [bind]. rewrite IH. f_equal. apply mk_ext. intros i j _ _.
    unfold sw. destruct (row_of h i =? a), (row_of h i =? b); reflexivity.
  - rewrite swap_cols_mk by assumption. cbn [bind]. rewrite IH. f_equal. apply mk_ext. intros i j _ _.
    unfold sw. destruct (col_of h j =? a), (col_of h j =? b); reflexivity.
Qed.

(** the rows are permuted and the columns are permuted, by permutations that do not
    depend on the contents *)
Theorem c80_permutes h : Forall (valid n m) h -> exists r c,
  Permutation (map r (seq 0 n)) (seq 0 n) /\ Permutation (map c (seq 0 m)) (seq 0 m) /\
  forall A, shape n m A -> exists B, play h A = Ok B /\ shape n m B /\
    forall i j, i < n -> j < m -> aget B i j = aget A (r i) (c j).
Proof.
  intros H. exists (row_of h), (col_of h).
  assert (H' : Forall (valid n m) (rev h)) by (apply Forall_rev, H).
  split; [apply (perm_seq n _ (row_of (rev h))); intros; eauto using row_of_lt, row_of_rev|].
  split; [apply (perm_seq m _ (col_of (rev h))); intros; eauto using col_of_lt, col_of_rev|].
  intros A HA. destruct (proj1 (shape_mk (lite K 0) n m A) HA) as [f ->]. rewrite play_mk by exact H.
  eexists. split; [reflexivity|]. split; [apply shape_of_mk|]. intros i j Hi Hj.
  rewrite !aget_mk; eauto using row_of_lt, col_of_lt.
Qed.

(** played backwards, the same calls undo it *)
Theorem c80_undo h A : shape n m A -> Forall (valid n m) h ->
  (let* B := play h A in play (rev h) B) = Ok A /\ (let* B := play (rev h) A in play h B) = Ok A.
Proof.
  intros HA H. destruct (proj1 (shape_mk (lite K 0) n m A) HA) as [f ->].
  assert (H' : Forall (valid n m) (rev h)) by (apply Forall_rev, H).
  split; rewrite play_mk by assumption; cbn [bind]; rewrite play_mk by assumption; f_equal; apply mk_ext; intros i j _ _.
  - rewrite row_of_rev, col_of_rev. reflexivity.
  - pose proof (row_of_rev (rev h) i) as E1. pose proof (col_of_rev (rev h) j) as E2. rewrite rev_involutive in E1, E2.
    rewrite E1, E2. reflexivity.
Qed.

Lemma filter_valid p h : Forall (valid n m) h -> Forall (valid n m) (filter p h).
Proof. intros H. apply Forall_forall. intros s Hs. apply filter_In in Hs. exact (proj1 (Forall_forall _ _) H s (proj1 Hs)). Qed.

(** exchanges of rows do not interfere with exchanges of columns *)
Theorem c80_independent h A : shape n m A -> Forall (valid n m) h ->
  play h A = (let* B := play (rows_part h) A in play (cols_part h) B) /\
  play h A = (let* B := play (cols_part h) A in play (rows_part h) B).
Proof.
  intros HA H. destruct (proj1 (shape_mk (lite K 0) n m A) HA) as [f ->].
  split; rewrite !play_mk by (try apply filter_valid; exact H); cbn [bind]; rewrite play_mk by (apply filter_valid, H);
  f_equal; apply mk_ext; intros i j _ _; rewrite ?row_of_rows, ?row_of_cols, ?col_of_rows, ?col_of_cols,
    ?row_of_rows, ?row_of_cols, ?col_of_rows, ?col_of_cols; reflexivity.
Qed.
End Play.

(** the transposed matrix *)
Theorem c80_trans (K : scalar) n m h (A : matrix (elt K)) : shape n m A -> Forall (valid n m) h ->
  (let* B := play K n m h A in trans K n m B) = (let* X := trans K n m A in play K m n (map flip h) X).
Proof.
  intros HA H. destruct (proj1 (shape_mk (lite K 0) n m A) HA) as [f ->].
  assert (H' : Forall (valid m n) (map flip h)).
  { apply Forall_forall. intros s Hs. apply in_map_iff in Hs. destruct Hs as [s' [<- Hs]].
    pose proof (proj1 (Forall_forall _ _) H s' Hs) as V. destruct s'; exact V. }
  rewrite play_mk by exact H. cbn [bind]. rewrite !trans_mk. cbn [bind]. rewrite play_mk by exact H'. f_equal.
  apply mk_ext. intros i j _ _. rewrite row_of_flip, col_of_flip. reflexivity.
Qed.

(** *** products, for every element type: exchanging rows of A exchanges rows of A*B,
    exchanging columns of B exchanges columns of A*B; bit for bit in floating point *)
Section Product.
Context (K : scalar).
Notation T := (elt K).
Lemma tabM_pick n m (f : nat -> nat -> outcome T) (r c r' c' : nat -> nat) :
  (forall i, i < n -> r i < n /\ r' i < n /\ r (r' i) = i) -> (forall j, j < m -> c j < m /\ c' j < m /\ c (c' j) = j) ->
  forall R, tabM n m (fun i j => f (r i) (c j)) = Ok R <-> exists C, tabM n m f = Ok (mk n m C) /\ R = mk n m (fun i j => C (r i) (c j)).
Proof.
  intros Hr Hc R. split.
  - intros H. destruct (tabM_inv (lite K 0) _ _ _ _ H) as [g [-> Hg]].
    exists (fun i j => g (r' i) (c' j)). assert (V : forall i j, i < n -> j < m -> f i j = Ok (g (r' i) (c' j))).
    { intros i j Hi Hj. destruct (Hr i Hi) as [_ [H1 H2]], (Hc j Hj) as [_ [H3 H4]]. rewrite <- (Hg (r' i) (c' j)) by assumption.
      rewrite H2, H4. reflexivity. }
    split; [apply tabM_ok; exact V|]. apply mk_ext. intros i j Hi Hj. destruct (Hr i Hi) as [H1 _], (Hc j Hj) as [H2 _].
    pose proof (Hg i j Hi Hj) as E. rewrite (V _ _ H1 H2) in E. congruence.
  - intros [C [H ->]]. destruct (tabM_inv (lite K 0) _ _ _ _ H) as [g [E Hg]]. apply tabM_ok. intros i j Hi Hj.
    destruct (Hr i Hi) as [H1 _], (Hc j Hj) as [H2 _]. rewrite Hg by assumption. f_equal. symmetry. apply (mk_inj _ _ _ _ E); assumption.
Qed.

Theorem c80_product n m p (A B : matrix T) g h : shape n m A -> shape m p B ->
  Forall (valid n m) g -> Forall (valid m p) h -> forallb is_row g = true -> forallb (fun s => negb (is_row s)) h = true ->
  agree (let* X := play K n m g A in let* Y := play K m p h B in mult K n m p X Y)
        (let* C := mult K n m p A B in play K n p (g ++ h) C).
Proof.
  intros HA HB Hg Hh Gr Hc.
  destruct (proj1 (shape_mk (lite K 0) n m A) HA) as [f ->]. destruct (proj1 (shape_mk (lite K 0) m p B) HB) as [f' ->].
  rewrite !play_mk by assumption. cbn [bind]. rewrite !mult_tab.
  assert (Cg : forall j, col_of g j = j).
  { clear - Gr. induction g as [|[a b|a b] g IH]; intros j; cbn in *; [reflexivity|apply IH, Gr|discriminate]. }
  assert (Rh : forall j, row_of h j = j).
  { clear - Hc. induction h as [|[a b|a b] h IH]; intros j; cbn in *; [reflexivity|discriminate|apply IH, Hc]. }
  assert (Hgh : Forall (valid n p) (g ++ h)).
  { apply Forall_app. split; apply Forall_forall; intros s Hs.
    - pose proof (proj1 (Forall_forall _ _) Hg s Hs). pose proof (proj1 (forallb_forall _ _) Gr s Hs). destruct s; [assumption|discriminate].
    - pose proof (proj1 (Forall_forall _ _) Hh s Hs). pose proof (proj1 (forallb_forall _ _) Hc s Hs). destruct s; [discriminate|assumption]. }
  intros R.
  assert (E : tabM n p (fun i j => dot K m (fun k => f (row_of g i) (col_of g k)) (fun k => f' (row_of h k) (col_of h j))) =
    tabM n p (fun i j => (fun i j => dot K m (fun k => f i k) (fun k => f' k j)) (row_of g i) (col_of h j))).
  { apply tabM_ext. intros i j _ _. unfold dot. apply for_ext. intros k s Hk. rewrite Cg, Rh. reflexivity. }
  cbv beta in E. rewrite E. rewrite (tabM_pick n p (fun i j => dot K m (fun k => f i k) (fun k => f' k j))
    (row_of g) (col_of h) (row_of (rev g)) (col_of (rev h))).
  - split.
    + intros [C [EC ->]]. rewrite EC. cbn [bind]. rewrite play_mk by exact Hgh. f_equal. apply mk_ext. intros i j _ _.
      rewrite row_of_app, col_of_app, Rh, Cg. reflexivity.
    + intros H. apply bind_inv in H. destruct H as [C [EC H]]. destruct (tabM_inv (lite K 0) _ _ _ _ EC) as [c [-> Hc']].
      exists c. split; [exact EC|]. rewrite play_mk in H by exact Hgh. injection H as <-. apply mk_ext. intros i j _ _.
      rewrite row_of_app, col_of_app, Rh, Cg. reflexivity.
  - intros i Hi. split; [eapply row_of_lt; eassumption|]. split; [eapply row_of_lt; [apply Forall_rev; eassumption|exact Hi]|apply row_of_rev].
  - intros i Hi. split; [eapply col_of_lt; eassumption|]. split; [eapply col_of_lt; [apply Forall_rev; eassumption|exact Hi]|apply col_of_rev].
Qed.
End Product.

(** three calls *)
Example c80_ex : let h := [Rows 0 2; Cols 1 2; Rows 1 2] in
  Forall (valid 3 3) h /\
  play (intS int32) 3 3 h [[1; 2; 3]; [4; 5; 6]; [7; 8; 9]]%Z = Ok [[7; 9; 8]; [1; 3; 2]; [4; 6; 5]]%Z /\
  play (intS int32) 3 3 (rev h) [[7; 9; 8]; [1; 3; 2]; [4; 6; 5]]%Z = Ok [[1; 2; 3]; [4; 5; 6]; [7; 8; 9]]%Z.
Proof. split; [repeat constructor; lia|]. split; vm_compute; reflexivity. Qed.

Print Assumptions c80_permutes.
Print Assumptions c80_undo.
Print Assumptions c80_independent.
Print Assumptions c80_trans.
Print Assumptions c80_product.
