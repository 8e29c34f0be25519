(** * Loops and arrays: the proof rules used everywhere *)

From Coq Require Import List ZArith Lia Bool Arith.
Import ListNotations.
From Verif Require Import Base Scalar Spec.

(** ** bind *)

Lemma bind_assoc {A B C} (o : outcome A) (f : A -> outcome B) (g : B -> outcome C) :
  bind (bind o f) g = bind o (fun a => bind (f a) g).
Proof. destruct o; reflexivity. Qed.

Lemma bind_ext {A B} (o : outcome A) (f g : A -> outcome B) :
  (forall a, o = Ok a -> f a = g a) -> bind o f = bind o g.
Proof. destruct o; simpl; intros H; try reflexivity. apply H; reflexivity. Qed.

Lemma bind_Ok_r {A} (o : outcome A) : bind o (@Ok A) = o.
Proof. destruct o; reflexivity. Qed.

Lemma bind_inv {A B} (o : outcome A) (f : A -> outcome B) b :
  bind o f = Ok b -> exists a, o = Ok a /\ f a = Ok b.
Proof. destruct o; simpl; intros H; try discriminate. eauto. Qed.

(** ** Arrays as functions *)

Lemma nth_error_map_seq {T} (f : nat -> T) lo n i :
  nth_error (map f (seq lo n)) i = if i <? n then Some (f (lo + i)) else None.
Proof.
  destruct (Nat.ltb_spec i n) as [H|H].
  - rewrite nth_error_map.
    assert (E : nth_error (seq lo n) i = Some (lo + i)).
    { rewrite (nth_error_nth' _ 0) by (rewrite seq_length; lia).
      rewrite seq_nth by lia. reflexivity. }
    rewrite E. reflexivity.
  - apply nth_error_None. rewrite map_length, seq_length. lia.
Qed.

Lemma vget_map_seq {T} (f : nat -> T) n i :
  i < n -> vget (map f (seq 0 n)) i = Ok (f i).
Proof.
  intros H. unfold vget. rewrite nth_error_map_seq.
  destruct (Nat.ltb_spec i n); [reflexivity|lia].
Qed.

Lemma vget_map_seq_oob {T} (f : nat -> T) n i :
  n <= i -> vget (map f (seq 0 n)) i = UB OutOfBounds.
Proof.
  intros H. unfold vget. rewrite nth_error_map_seq.
  destruct (Nat.ltb_spec i n); [lia|reflexivity].
Qed.

Lemma map_seq_ext {T} (f g : nat -> T) lo n :
  (forall k, lo <= k < lo + n -> f k = g k) -> map f (seq lo n) = map g (seq lo n).
Proof.
  intros H. apply map_ext_in. intros a Ha. apply in_seq in Ha. apply H. lia.
Qed.

Lemma upd_map_seq {T} (f : nat -> T) lo n i x :
  upd (map f (seq lo n)) i x =
  map (fun k => if k =? lo + i then x else f k) (seq lo n).
Proof.
  revert lo i. induction n as [|n IH]; intros lo i; simpl; [reflexivity|].
  destruct i as [|i]; simpl.
  - rewrite Nat.add_0_r, Nat.eqb_refl. f_equal. apply map_seq_ext. intros k Hk.
    destruct (Nat.eqb_spec k lo); [lia|reflexivity].
  - replace (lo =? lo + S i) with false by (symmetry; apply Nat.eqb_neq; lia).
    f_equal. rewrite IH. apply map_seq_ext. intros k Hk.
    replace (S lo + i) with (lo + S i) by lia. reflexivity.
Qed.

Lemma vset_map_seq {T} (f : nat -> T) n i x :
  i < n -> vset (map f (seq 0 n)) i x = Ok (map (fun k => if k =? i then x else f k) (seq 0 n)).
Proof.
  intros H. unfold vset. rewrite map_length, seq_length.
  destruct (Nat.ltb_spec i n); [|lia]. rewrite upd_map_seq. reflexivity.
Qed.

Lemma vset_map_seq_oob {T} (f : nat -> T) n i x :
  n <= i -> vset (map f (seq 0 n)) i x = UB OutOfBounds.
Proof.
  intros H. unfold vset. rewrite map_length, seq_length.
  destruct (Nat.ltb_spec i n); [lia|reflexivity].
Qed.

Lemma mk_ext {T} n m (f g : nat -> nat -> T) :
  (forall i j, i < n -> j < m -> f i j = g i j) -> mk n m f = mk n m g.
Proof.
  intros H. unfold mk. apply map_seq_ext. intros i Hi. apply map_seq_ext. intros j Hj.
  apply H; lia.
Qed.

Lemma mk_inj {T} n m (f g : nat -> nat -> T) :
  mk n m f = mk n m g -> forall i j, i < n -> j < m -> f i j = g i j.
Proof.
  intros H i j Hi Hj.
  assert (E : nth_error (mk n m f) i = nth_error (mk n m g) i) by (rewrite H; reflexivity).
  unfold mk in E. rewrite !nth_error_map_seq in E.
  destruct (Nat.ltb_spec i n); [|lia]. simpl in E. injection E as E.
  assert (E2 : nth_error (map (fun j => f i j) (seq 0 m)) j
             = nth_error (map (fun j => g i j) (seq 0 m)) j) by (rewrite E; reflexivity).
  rewrite !nth_error_map_seq in E2.
  destruct (Nat.ltb_spec j m); [|lia]. simpl in E2. congruence.
Qed.

Lemma aget_mk {T} n m (f : nat -> nat -> T) i j :
  i < n -> j < m -> aget (mk n m f) i j = Ok (f i j).
Proof.
  intros Hi Hj. unfold aget, mk. rewrite vget_map_seq by lia. simpl.
  rewrite vget_map_seq by lia. reflexivity.
Qed.

Lemma aget_mk_row_oob {T} n m (f : nat -> nat -> T) i j :
  n <= i -> aget (mk n m f) i j = UB OutOfBounds.
Proof. intros Hi. unfold aget, mk. rewrite vget_map_seq_oob by lia. reflexivity. Qed.

Lemma aget_mk_col_oob {T} n m (f : nat -> nat -> T) i j :
  m <= j -> aget (mk n m f) i j = UB OutOfBounds.
Proof.
  intros Hj. destruct (le_lt_dec n i) as [H|H].
  - apply aget_mk_row_oob; assumption.
  - unfold aget, mk. rewrite vget_map_seq by lia. simpl.
    rewrite vget_map_seq_oob by lia. reflexivity.
Qed.

Lemma aset_mk {T} n m (f : nat -> nat -> T) i j x :
  i < n -> j < m ->
  aset (mk n m f) i j x = Ok (mk n m (fun a b => if (a =? i) && (b =? j) then x else f a b)).
Proof.
  intros Hi Hj. unfold aset, mk. rewrite vget_map_seq by lia. simpl.
  rewrite vset_map_seq by lia. simpl. rewrite vset_map_seq by lia.
  f_equal. apply map_seq_ext. intros a Ha.
  destruct (Nat.eqb_spec a i) as [->|]; simpl; reflexivity.
Qed.

Lemma aset_mk_row_oob {T} n m (f : nat -> nat -> T) i j x :
  n <= i -> aset (mk n m f) i j x = UB OutOfBounds.
Proof. intros Hi. unfold aset, mk. rewrite vget_map_seq_oob by lia. reflexivity. Qed.

Lemma aset_mk_col_oob {T} n m (f : nat -> nat -> T) i j x :
  m <= j -> aset (mk n m f) i j x = UB OutOfBounds.
Proof.
  intros Hj. destruct (le_lt_dec n i) as [H|H].
  - apply aset_mk_row_oob; assumption.
  - unfold aset, mk. rewrite vget_map_seq by lia. simpl.
    rewrite vset_map_seq_oob by lia. reflexivity.
Qed.

Lemma repeat_map_seq {T} (x : T) lo n : repeat x n = map (fun _ => x) (seq lo n).
Proof. revert lo. induction n; intros lo; simpl; [reflexivity|]. f_equal. apply IHn. Qed.

Lemma init_mk {T} n m (z : T) : init n m z = mk n m (fun _ _ => z).
Proof. unfold init, mk. rewrite (repeat_map_seq _ 0). f_equal. rewrite (repeat_map_seq _ 0). reflexivity. Qed.

Lemma agetz_mk {T} n m (f : nat -> nat -> T) i j :
  (0 <= i < Z.of_nat n)%Z -> (0 <= j < Z.of_nat m)%Z ->
  agetz (mk n m f) i j = Ok (f (Z.to_nat i) (Z.to_nat j)).
Proof.
  intros Hi Hj. unfold agetz.
  assert (E : length (mk n m f) = n) by (unfold mk; rewrite map_length, seq_length; reflexivity).
  rewrite E.
  destruct (Z.leb_spec 0 i); [|lia]. destruct (Z.ltb_spec i (Z.of_nat n)); [|lia].
  destruct (Z.leb_spec 0 j); [|lia]. simpl.
  unfold mk. rewrite vget_map_seq by lia. simpl. rewrite map_length, seq_length.
  destruct (Z.ltb_spec j (Z.of_nat m)); [|lia].
  rewrite vget_map_seq by lia. reflexivity.
Qed.

(** ** shape *)

Lemma length_mk {T} n m (f : nat -> nat -> T) : length (mk n m f) = n.
Proof. unfold mk. rewrite map_length, seq_length. reflexivity. Qed.

Lemma shape_of_mk {T} n m (f : nat -> nat -> T) : shape n m (mk n m f).
Proof.
  split; [apply length_mk|]. unfold mk. intros row H. apply in_map_iff in H.
  destruct H as [i [<- _]]. rewrite map_length, seq_length. reflexivity.
Qed.

Lemma list_as_map_seq {T} (d : T) (l : list T) :
  l = map (fun i => nth i l d) (seq 0 (length l)).
Proof.
  induction l as [|x l IH]; simpl; [reflexivity|]. f_equal.
  rewrite <- seq_shift, map_map. exact IH.
Qed.

Lemma shape_mk {T} (d : T) n m (A : matrix T) :
  shape n m A <-> exists f, A = mk n m f.
Proof.
  split.
  - intros [HA HR]. exists (fun i j => nth j (nth i A []) d). unfold mk.
    rewrite (list_as_map_seq [] A) at 1. rewrite HA. apply map_seq_ext. intros i Hi.
    assert (L : length (nth i A []) = m).
    { apply HR. apply nth_In. lia. }
    rewrite (list_as_map_seq d (nth i A [])) at 1. rewrite L. reflexivity.
  - intros [f ->]. apply shape_of_mk.
Qed.

Lemma aset_shape {T} n m (A A' : matrix T) i j x :
  shape n m A -> aset A i j x = Ok A' -> shape n m A'.
Proof.
  intros H E. destruct (proj1 (shape_mk x n m A) H) as [f ->].
  destruct (le_lt_dec n i); [rewrite aset_mk_row_oob in E by lia; discriminate|].
  destruct (le_lt_dec m j); [rewrite aset_mk_col_oob in E by lia; discriminate|].
  rewrite aset_mk in E by lia. injection E as <-. apply shape_of_mk.
Qed.

(** ** for_ *)

Lemma iter_snoc {St} c lo (body : nat -> St -> outcome St) s :
  iter (S c) lo body s = let* s' := iter c lo body s in body (lo + c) s'.
Proof.
  revert lo s. induction c as [|c IH]; intros lo s.
  - simpl. rewrite Nat.add_0_r. destruct (body lo s); reflexivity.
  - change (iter (S (S c)) lo body s) with (let* s' := body lo s in iter (S c) (S lo) body s').
    change (iter (S c) lo body s) with (let* s' := body lo s in iter c (S lo) body s').
    rewrite bind_assoc. apply bind_ext. intros a _. rewrite IH.
    replace (S lo + c) with (lo + S c) by lia. reflexivity.
Qed.

Lemma for_empty {St} lo hi (body : nat -> St -> outcome St) s :
  hi <= lo -> for_ lo hi body s = Ok s.
Proof. intros H. unfold for_. replace (hi - lo) with 0 by lia. reflexivity. Qed.

Lemma for_snoc {St} lo hi (body : nat -> St -> outcome St) s :
  lo <= hi -> for_ lo (S hi) body s = let* s' := for_ lo hi body s in body hi s'.
Proof.
  intros H. unfold for_. replace (S hi - lo) with (S (hi - lo)) by lia.
  rewrite iter_snoc. replace (lo + (hi - lo)) with hi by lia. reflexivity.
Qed.

Lemma for_last {St} lo hi (body : nat -> St -> outcome St) s :
  lo < hi -> for_ lo hi body s = let* s' := for_ lo (hi - 1) body s in body (hi - 1) s'.
Proof.
  intros H. rewrite <- for_snoc by lia. f_equal. lia.
Qed.

Lemma for_first {St} lo hi (body : nat -> St -> outcome St) s :
  lo < hi -> for_ lo hi body s = let* s' := body lo s in for_ (S lo) hi body s'.
Proof.
  intros H. unfold for_. replace (hi - lo) with (S (hi - S lo)) by lia. reflexivity.
Qed.

(** the state at the start of iteration k is [st k] *)
Lemma for_states {St} lo hi (body : nat -> St -> outcome St) (st : nat -> St) s :
  lo <= hi -> s = st lo ->
  (forall k, lo <= k < hi -> body k (st k) = Ok (st (S k))) ->
  for_ lo hi body s = Ok (st hi).
Proof.
  intros Hle -> H. induction hi as [|hi IH].
  - replace lo with 0 by lia. apply for_empty. lia.
  - destruct (Nat.eq_dec lo (S hi)) as [->|Hne]; [apply for_empty; lia|].
    rewrite for_snoc by lia. rewrite IH by (try lia; intros; apply H; lia). simpl.
    apply H. lia.
Qed.

(** invariant rule: normal return *)
Lemma for_inv {St} (P : nat -> St -> Prop) lo hi (body : nat -> St -> outcome St) s :
  lo <= hi -> P lo s ->
  (forall k s, lo <= k < hi -> P k s -> exists s', body k s = Ok s' /\ P (S k) s') ->
  exists s', for_ lo hi body s = Ok s' /\ P hi s'.
Proof.
  intros Hle H0 H. induction hi as [|hi IH].
  - exists s. rewrite for_empty by lia. replace 0 with lo by lia. auto.
  - destruct (Nat.eq_dec lo (S hi)) as [->|Hne]; [exists s; rewrite for_empty by lia; auto|].
    destruct IH as [s' [E P']]; [lia|intros; apply H; [lia|assumption]|].
    destruct (H hi s') as [s'' [E' P'']]; [lia|assumption|].
    exists s''. rewrite for_snoc by lia. rewrite E. simpl. auto.
Qed.

(** invariant rule: whatever is returned satisfies the invariant *)
Lemma for_partial {St} (P : nat -> St -> Prop) lo hi (body : nat -> St -> outcome St) s s' :
  lo <= hi -> P lo s ->
  (forall k s s', lo <= k < hi -> P k s -> body k s = Ok s' -> P (S k) s') ->
  for_ lo hi body s = Ok s' -> P hi s'.
Proof.
  intros Hle H0 H. revert s'. induction hi as [|hi IH]; intros s' E.
  - rewrite for_empty in E by lia. injection E as <-. replace 0 with lo by lia. assumption.
  - destruct (Nat.eq_dec lo (S hi)) as [->|Hne].
    { rewrite for_empty in E by lia. injection E as <-. assumption. }
    rewrite for_snoc in E by lia. apply bind_inv in E. destruct E as [a [E1 E2]].
    eapply H; [|apply IH|exact E2]; try lia; [|exact E1].
    intros k s1 s2 Hk. apply H. lia.
Qed.

Lemma for_ext {St} lo hi (body body' : nat -> St -> outcome St) s :
  (forall k s, lo <= k < hi -> body k s = body' k s) ->
  for_ lo hi body s = for_ lo hi body' s.
Proof.
  intros H. destruct (le_lt_dec hi lo); [rewrite !for_empty by lia; reflexivity|].
  induction hi as [|hi IH]; [lia|].
  rewrite !for_snoc by lia. destruct (Nat.eq_dec lo hi) as [->|].
  - rewrite !for_empty by lia. simpl. apply H. lia.
  - rewrite IH by (try lia; intros; apply H; lia). apply bind_ext. intros; apply H; lia.
Qed.

Lemma for_ext_inv {St} (P : nat -> St -> Prop) lo hi (body body' : nat -> St -> outcome St) s :
  P lo s ->
  (forall k s, lo <= k < hi -> P k s -> body k s = body' k s) ->
  (forall k s s', lo <= k < hi -> P k s -> body k s = Ok s' -> P (S k) s') ->
  for_ lo hi body s = for_ lo hi body' s.
Proof.
  intros H0 H1 H2. destruct (le_lt_dec hi lo); [rewrite !for_empty by lia; reflexivity|].
  assert (E : forall h, lo <= h <= hi -> for_ lo h body s = for_ lo h body' s); [|apply E; lia].
  induction h as [|h IH]; intros Hh.
  - rewrite !for_empty by lia; reflexivity.
  - destruct (Nat.eq_dec lo (S h)) as [->|]; [rewrite !for_empty by lia; reflexivity|].
    rewrite !for_snoc by lia. rewrite IH by lia. apply bind_ext. intros a Ha.
    rewrite <- IH in Ha by lia. apply H1; [lia|].
    eapply for_partial; [| |  |exact Ha]; [lia|assumption|].
    intros k s1 s2 Hk. apply H2. lia.
Qed.

(** two loops in lock step *)
Lemma for_rel {S1 S2} (Q : nat -> S1 -> S2 -> Prop) lo hi
  (b1 : nat -> S1 -> outcome S1) (b2 : nat -> S2 -> outcome S2) s1 s2 :
  lo <= hi -> Q lo s1 s2 ->
  (forall k s1 s2 s1', lo <= k < hi -> Q k s1 s2 -> b1 k s1 = Ok s1' ->
     exists s2', b2 k s2 = Ok s2' /\ Q (S k) s1' s2') ->
  forall s1', for_ lo hi b1 s1 = Ok s1' ->
  exists s2', for_ lo hi b2 s2 = Ok s2' /\ Q hi s1' s2'.
Proof.
  intros Hle H0 H. induction hi as [|hi IH]; intros s1' E.
  - rewrite for_empty in E by lia. injection E as <-. exists s2. rewrite for_empty by lia.
    replace 0 with lo by lia. auto.
  - destruct (Nat.eq_dec lo (S hi)) as [->|Hne].
    { rewrite for_empty in E by lia. injection E as <-. exists s2. rewrite for_empty by lia. auto. }
    rewrite for_snoc in E by lia. apply bind_inv in E. destruct E as [a [E1 E2]].
    destruct (IH ltac:(lia)) with (s1' := a) as [b [F1 F2]]; [|exact E1|].
    { intros k x1 x2 x1' Hk. apply H. lia. }
    destruct (H hi a b s1') as [c [G1 G2]]; [lia|exact F2|exact E2|].
    exists c. rewrite for_snoc by lia. rewrite F1. simpl. auto.
Qed.

(** ** for_ret *)

Lemma iter_ret_snoc {St R} c lo (body : nat -> St -> outcome (ctrl St R)) s :
  iter_ret (S c) lo body s =
  let* r := iter_ret c lo body s in
  match r with Cont s' => body (lo + c) s' | Ret v => Ok (Ret v) end.
Proof.
  revert lo s. induction c as [|c IH]; intros lo s.
  - simpl. rewrite Nat.add_0_r. destruct (body lo s) as [[|]| | | |]; reflexivity.
  - change (iter_ret (S (S c)) lo body s) with
      (let* r := body lo s in match r with Cont s' => iter_ret (S c) (S lo) body s' | Ret v => Ok (Ret v) end).
    change (iter_ret (S c) lo body s) with
      (let* r := body lo s in match r with Cont s' => iter_ret c (S lo) body s' | Ret v => Ok (Ret v) end).
    rewrite bind_assoc. apply bind_ext. intros a _. destruct a as [s'|r]; [|reflexivity].
    rewrite IH. replace (S lo + c) with (lo + S c) by lia. reflexivity.
Qed.

Lemma for_ret_empty {St R} lo hi (body : nat -> St -> outcome (ctrl St R)) s :
  hi <= lo -> for_ret lo hi body s = Ok (Cont s).
Proof. intros H. unfold for_ret. replace (hi - lo) with 0 by lia. reflexivity. Qed.

Lemma for_ret_snoc {St R} lo hi (body : nat -> St -> outcome (ctrl St R)) s :
  lo <= hi -> for_ret lo (S hi) body s =
  let* r := for_ret lo hi body s in
  match r with Cont s' => body hi s' | Ret v => Ok (Ret v) end.
Proof.
  intros H. unfold for_ret. replace (S hi - lo) with (S (hi - lo)) by lia.
  rewrite iter_ret_snoc. replace (lo + (hi - lo)) with hi by lia. reflexivity.
Qed.

(** A loop without state that tests [test k] and returns [false] on the first
    failure. *)
Lemma for_ret_all lo hi (body : nat -> unit -> outcome (ctrl unit bool)) (test : nat -> bool) :
  (forall k, lo <= k < hi -> body k tt = if test k then Ok (Cont tt) else Ok (Ret false)) ->
  for_ret lo hi body tt =
  if forallb test (seq lo (hi - lo)) then Ok (Cont tt) else Ok (Ret false).
Proof.
  intros H. destruct (le_lt_dec hi lo).
  { rewrite for_ret_empty by lia. replace (hi - lo) with 0 by lia. reflexivity. }
  induction hi as [|hi IH]; [lia|].
  rewrite for_ret_snoc by lia.
  replace (S hi - lo) with (hi - lo + 1) by lia. rewrite seq_app, forallb_app. simpl.
  replace (lo + (hi - lo)) with hi by lia.
  destruct (Nat.eq_dec lo hi) as [->|].
  - rewrite for_ret_empty by lia. simpl. rewrite H by lia.
    replace (hi - hi) with 0 by lia. simpl. destruct (test hi); reflexivity.
  - rewrite IH by (try lia; intros; apply H; lia).
    destruct (forallb test (seq lo (hi - lo))); simpl; [|reflexivity].
    rewrite H by lia. destruct (test hi); reflexivity.
Qed.

(** ** map_out, tabM *)

Lemma map_out_ext {A B} (f g : A -> outcome B) l :
  (forall x, In x l -> f x = g x) -> map_out f l = map_out g l.
Proof.
  intros H. induction l as [|x l IH]; simpl; [reflexivity|].
  rewrite H by (left; reflexivity). rewrite IH by (intros; apply H; right; assumption).
  reflexivity.
Qed.

Lemma map_out_ok {A B} (f : A -> outcome B) (g : A -> B) l :
  (forall x, In x l -> f x = Ok (g x)) -> map_out f l = Ok (map g l).
Proof.
  intros H. induction l as [|x l IH]; simpl; [reflexivity|].
  rewrite H by (left; reflexivity). simpl.
  rewrite IH by (intros; apply H; right; assumption). reflexivity.
Qed.

Lemma map_out_app {A B} (f : A -> outcome B) l1 l2 :
  map_out f (l1 ++ l2) =
  let* a := map_out f l1 in let* b := map_out f l2 in Ok (a ++ b).
Proof.
  induction l1 as [|x l1 IH]; simpl.
  - rewrite bind_Ok_r. reflexivity.
  - rewrite bind_assoc. apply bind_ext. intros y _. rewrite IH. rewrite !bind_assoc.
    apply bind_ext. intros ys _. simpl. rewrite bind_assoc. apply bind_ext. reflexivity.
Qed.

Lemma map_out_length {A B} (f : A -> outcome B) l r :
  map_out f l = Ok r -> length r = length l.
Proof.
  revert r. induction l as [|x l IH]; simpl; intros r H.
  - injection H as <-. reflexivity.
  - apply bind_inv in H. destruct H as [y [_ H]]. apply bind_inv in H.
    destruct H as [ys [H1 H2]]. injection H2 as <-. simpl. f_equal. apply IH. assumption.
Qed.

Lemma map_out_nth {A B} (f : A -> outcome B) l r i x :
  map_out f l = Ok r -> nth_error l i = Some x ->
  exists y, nth_error r i = Some y /\ f x = Ok y.
Proof.
  revert r i. induction l as [|x' l IH]; simpl; intros r i H Hi.
  - destruct i; discriminate.
  - apply bind_inv in H. destruct H as [y [H0 H]]. apply bind_inv in H.
    destruct H as [ys [H1 H2]]. injection H2 as <-. destruct i as [|i]; simpl in *.
    + injection Hi as <-. eauto.
    + eapply IH; eassumption.
Qed.

Lemma tabM_ext {T} n m (f g : nat -> nat -> outcome T) :
  (forall i j, i < n -> j < m -> f i j = g i j) -> tabM n m f = tabM n m g.
Proof.
  intros H. unfold tabM. apply map_out_ext. intros i Hi. apply in_seq in Hi.
  apply map_out_ext. intros j Hj. apply in_seq in Hj. apply H; lia.
Qed.

Lemma tabM_ok {T} n m (f : nat -> nat -> outcome T) g :
  (forall i j, i < n -> j < m -> f i j = Ok (g i j)) -> tabM n m f = Ok (mk n m g).
Proof.
  intros H. unfold tabM, mk. rewrite (map_out_ok _ (fun i => map (fun j => g i j) (seq 0 m))).
  - reflexivity.
  - intros i Hi. apply in_seq in Hi. apply map_out_ok. intros j Hj. apply in_seq in Hj.
    apply H; lia.
Qed.

Lemma map_out_seq_inv {T} (d : T) m (f : nat -> outcome T) r :
  map_out f (seq 0 m) = Ok r ->
  r = map (fun j => nth j r d) (seq 0 m) /\ forall j, j < m -> f j = Ok (nth j r d).
Proof.
  intros H. pose proof (map_out_length _ _ _ H) as L. rewrite seq_length in L.
  split.
  - rewrite <- L. apply list_as_map_seq.
  - intros j Hj. destruct (map_out_nth _ _ _ j j H) as [y [H1 H2]].
    + rewrite (nth_error_nth' _ 0) by (rewrite seq_length; lia). rewrite seq_nth by lia. reflexivity.
    + rewrite H2. f_equal. symmetry. apply nth_error_nth with (d := d) in H1. assumption.
Qed.

Lemma tabM_inv {T} (d : T) n m (f : nat -> nat -> outcome T) R :
  tabM n m f = Ok R ->
  exists g, R = mk n m g /\ forall i j, i < n -> j < m -> f i j = Ok (g i j).
Proof.
  intros H. exists (fun i j => nth j (nth i R []) d). unfold tabM in H.
  destruct (map_out_seq_inv [] n (fun i => map_out (fun j => f i j) (seq 0 m)) R H) as [E1 E2].
  split.
  - unfold mk. rewrite E1 at 1. apply map_seq_ext. intros i Hi.
    destruct (map_out_seq_inv d m (fun j => f i j) (nth i R [])) as [E3 _]; [apply E2; lia|].
    exact E3.
  - intros i j Hi Hj.
    destruct (map_out_seq_inv d m (fun j => f i j) (nth i R [])) as [_ E3]; [apply E2; lia|].
    apply E3; assumption.
Qed.

(** ** The entrywise double loop

    [for i < n: for j < m: R[i][j] = f(i, j, R[i][j])] computes, starting from
    the array with elements [z i j], the table of [f i j (z i j)]. *)

Lemma row_loop {T} n m (z : nat -> nat -> T) i (f : nat -> T -> outcome T) h :
  i < n -> h <= m ->
  for_ 0 h (fun j R => let* c := aget R i j in let* v := f j c in aset R i j v) (mk n m z) =
  let* vs := map_out (fun j => f j (z i j)) (seq 0 h) in
  Ok (mk n m (fun a b => if (a =? i) && (b <? h) then nth b vs (z 0 0) else z a b)).
Proof.
  intros Hi. induction h as [|h IH]; intros Hh.
  - rewrite for_empty by lia. simpl. f_equal. apply mk_ext. intros a b _ _.
    rewrite andb_false_r. reflexivity.
  - rewrite for_snoc by lia. rewrite IH by lia.
    rewrite seq_S, map_out_app, !bind_assoc. simpl. apply bind_ext. intros vs Hvs.
    apply map_out_length in Hvs. rewrite seq_length in Hvs. simpl.
    rewrite aget_mk by lia. rewrite Nat.eqb_refl, Nat.ltb_irrefl. simpl.
    rewrite !bind_assoc. apply bind_ext. intros v _. simpl.
    rewrite aset_mk by lia. f_equal. apply mk_ext. intros a b Ha Hb.
    destruct (Nat.eqb_spec a i) as [->|]; simpl; [|reflexivity].
    destruct (Nat.eqb_spec b h) as [->|].
    + destruct (Nat.ltb_spec h (S h)); [|lia].
      rewrite app_nth2 by lia. rewrite Hvs, Nat.sub_diag. reflexivity.
    + destruct (Nat.ltb_spec b h), (Nat.ltb_spec b (S h)); try lia; try reflexivity.
      rewrite app_nth1 by lia. reflexivity.
Qed.

Lemma tab_loop_prefix {T} n m (z : nat -> nat -> T) (f : nat -> nat -> T -> outcome T) h :
  h <= n ->
  for_ 0 h (fun i R =>
    for_ 0 m (fun j R => let* c := aget R i j in let* v := f i j c in aset R i j v) R) (mk n m z) =
  let* rows := map_out (fun i => map_out (fun j => f i j (z i j)) (seq 0 m)) (seq 0 h) in
  Ok (mk n m (fun a b => if a <? h then nth b (nth a rows []) (z 0 0) else z a b)).
Proof.
  induction h as [|h IH]; intros Hh.
  - rewrite for_empty by lia. simpl. f_equal.
  - rewrite for_snoc by lia. rewrite IH by lia.
    rewrite seq_S, map_out_app, !bind_assoc. simpl. apply bind_ext. intros rows Hr.
    apply map_out_length in Hr. rewrite seq_length in Hr. simpl.
    rewrite row_loop by lia. rewrite !bind_assoc.
    rewrite (map_out_ext (fun j => f h j (if h <? h then nth j (nth h rows []) (z 0 0) else z h j))
                         (fun j => f h j (z h j))).
    2:{ intros j _. rewrite Nat.ltb_irrefl. reflexivity. }
    apply bind_ext. intros vs Hvs. simpl. f_equal. apply mk_ext. intros a b Ha Hb.
    destruct (Nat.eqb_spec a h) as [->|]; simpl.
    + destruct (Nat.ltb_spec h (S h)); [|lia]. destruct (Nat.ltb_spec b m); [|lia].
      rewrite app_nth2 by lia. rewrite Hr, Nat.sub_diag. simpl.
      apply nth_indep. apply map_out_length in Hvs. rewrite seq_length in Hvs. lia.
    + destruct (Nat.ltb_spec a h), (Nat.ltb_spec a (S h)); try lia; try reflexivity.
      rewrite app_nth1 by lia. reflexivity.
Qed.

Lemma tab_loop_own {T} n m (z : nat -> nat -> T) (f : nat -> nat -> T -> outcome T) :
  for_ 0 n (fun i R =>
    for_ 0 m (fun j R => let* c := aget R i j in let* v := f i j c in aset R i j v) R) (mk n m z) =
  tabM n m (fun i j => f i j (z i j)).
Proof.
  rewrite tab_loop_prefix by lia. unfold tabM.
  destruct (map_out _ _) as [rows| | | |] eqn:E; simpl; try reflexivity. f_equal.
  destruct (tabM_inv (z 0 0) n m (fun i j => f i j (z i j)) rows E) as [g [-> _]].
  apply mk_ext. intros a b Ha Hb. destruct (Nat.ltb_spec a n); [|lia].
  unfold mk. rewrite (nth_indep _ [] (map (fun j => g 0 j) (seq 0 m)))
    by (rewrite map_length, seq_length; lia).
  rewrite (map_nth (fun i => map (fun j => g i j) (seq 0 m)) (seq 0 n) 0 a).
  rewrite seq_nth by lia. simpl.
  rewrite (nth_indep _ (z 0 0) (g a 0)) by (rewrite map_length, seq_length; lia).
  rewrite (map_nth (fun j => g a j) (seq 0 m) 0 b). rewrite seq_nth by lia. reflexivity.
Qed.

Lemma tab_loop {T} n m (z : nat -> nat -> T) (f : nat -> nat -> outcome T) :
  for_ 0 n (fun i R =>
    for_ 0 m (fun j R => let* v := f i j in aset R i j v) R) (mk n m z) = tabM n m f.
Proof.
  etransitivity; [|exact (tab_loop_own n m z (fun i j _ => f i j))].
  apply (for_ext_inv (fun _ R => shape n m R)).
  - apply shape_of_mk.
  - intros i R Hi HR. apply (for_ext_inv (fun _ R => shape n m R)); [assumption| |].
    + intros j R' Hj HR'. destruct (proj1 (shape_mk (z 0 0) n m R') HR') as [g ->].
      rewrite aget_mk by lia. reflexivity.
    + intros j R1 R2 Hj HR1 E. apply bind_inv in E. destruct E as [v [_ E]].
      eapply aset_shape; eassumption.
  - intros i R1 R2 Hi HR1 E.
    refine (for_partial (fun _ R => shape n m R) _ _ _ _ _ _ HR1 _ E); [lia|].
    intros j R3 R4 Hj HR3 E'. apply bind_inv in E'. destruct E' as [v [_ E']].
    eapply aset_shape; eassumption.
Qed.

(** The accumulation loop [for k: R[i][j] = g(k, R[i][j])] *)
Lemma acc_loop {T} n m (z : nat -> nat -> T) i j (g : nat -> T -> outcome T) lo hi :
  i < n -> j < m ->
  for_ lo hi (fun k R => let* c := aget R i j in let* v := g k c in aset R i j v) (mk n m z) =
  let* c := for_ lo hi g (z i j) in
  Ok (mk n m (fun a b => if (a =? i) && (b =? j) then c else z a b)).
Proof.
  intros Hi Hj. destruct (le_lt_dec hi lo).
  { rewrite !for_empty by lia. simpl. f_equal. apply mk_ext. intros a b _ _.
    destruct (Nat.eqb_spec a i) as [->|], (Nat.eqb_spec b j) as [->|]; reflexivity. }
  assert (E : forall h, lo <= h <= hi ->
    for_ lo h (fun k R => let* c := aget R i j in let* v := g k c in aset R i j v) (mk n m z) =
    let* c := for_ lo h g (z i j) in
    Ok (mk n m (fun a b => if (a =? i) && (b =? j) then c else z a b))); [|apply E; lia].
  induction h as [|h IH]; intros Hh; [|destruct (Nat.eq_dec lo (S h)) as [->|]].
  1,2: rewrite !for_empty by lia; simpl; f_equal; apply mk_ext; intros a b _ _;
    destruct (Nat.eqb_spec a i) as [->|], (Nat.eqb_spec b j) as [->|]; reflexivity.
  rewrite !for_snoc by lia. rewrite IH by lia. rewrite !bind_assoc. apply bind_ext. intros c _.
  simpl. rewrite aget_mk by lia. rewrite !Nat.eqb_refl. simpl. apply bind_ext. intros v _.
  rewrite aset_mk by lia. f_equal. apply mk_ext. intros a b _ _.
  destruct ((a =? i) && (b =? j)); reflexivity.
Qed.

(** ** safe *)

Lemma safe_bind {A B} (P : A -> Prop) (Q : B -> Prop) o (f : A -> outcome B) :
  safe P o -> (forall a, P a -> safe Q (f a)) -> safe Q (bind o f).
Proof. destruct o; simpl; auto. Qed.

Lemma safe_weaken {A} (P Q : A -> Prop) o :
  safe P o -> (forall a, P a -> Q a) -> safe Q o.
Proof. destruct o; simpl; auto. Qed.

Lemma safe_for {St} (P : nat -> St -> Prop) lo hi (body : nat -> St -> outcome St) s :
  lo <= hi -> P lo s ->
  (forall k s, lo <= k < hi -> P k s -> safe (P (S k)) (body k s)) ->
  safe (P hi) (for_ lo hi body s).
Proof.
  intros Hle H0 H. induction hi as [|hi IH].
  - rewrite for_empty by lia. replace 0 with lo by lia. assumption.
  - destruct (Nat.eq_dec lo (S hi)) as [->|]; [rewrite for_empty by lia; assumption|].
    rewrite for_snoc by lia. eapply safe_bind; [apply IH; try lia|].
    + intros k s1 Hk. apply H. lia.
    + intros a Ha. apply H; [lia|assumption].
Qed.

Lemma safe_for_const {St} (P : St -> Prop) lo hi (body : nat -> St -> outcome St) s :
  P s -> (forall k s, lo <= k < hi -> P s -> safe P (body k s)) ->
  safe P (for_ lo hi body s).
Proof.
  intros H0 H. destruct (le_lt_dec hi lo); [rewrite for_empty by lia; assumption|].
  apply (safe_for (fun _ => P)); [lia|assumption|assumption].
Qed.

Lemma safe_aget {T} n m (A : matrix T) i j :
  shape n m A -> i < n -> j < m -> safe (fun _ => True) (aget A i j).
Proof.
  intros H Hi Hj. destruct H as [HA HR]. unfold aget, vget.
  destruct (nth_error A i) as [row|] eqn:E.
  - simpl. destruct (nth_error row j) eqn:E2; simpl; [trivial|].
    apply nth_error_None in E2. apply nth_error_In in E. apply HR in E. lia.
  - apply nth_error_None in E. lia.
Qed.

Lemma safe_aset {T} n m (A : matrix T) i j x :
  shape n m A -> i < n -> j < m -> safe (shape n m) (aset A i j x).
Proof.
  intros H Hi Hj. destruct (proj1 (shape_mk x n m A) H) as [f ->].
  rewrite aset_mk by lia. apply shape_of_mk.
Qed.

Lemma safe_tabM {T} n m (f : nat -> nat -> outcome T) :
  (forall i j, i < n -> j < m -> safe (fun _ => True) (f i j)) ->
  safe (shape n m) (tabM n m f).
Proof.
  intros H. unfold tabM.
  assert (Hrow : forall i, i < n -> forall h, h <= m ->
     safe (fun r => length r = h) (map_out (fun j => f i j) (seq 0 h))).
  { intros i Hi. induction h as [|h IH]; intros Hh; [reflexivity|].
    rewrite seq_S, map_out_app. eapply safe_bind; [apply IH; lia|].
    intros a Ha. simpl. rewrite bind_assoc. eapply safe_bind; [apply H; lia|].
    intros v _. simpl. rewrite app_length. simpl in *. lia. }
  assert (E : forall h, h <= n ->
     safe (fun R => length R = h /\ forall row, In row R -> length row = m)
       (map_out (fun i => map_out (fun j => f i j) (seq 0 m)) (seq 0 h))).
  { induction h as [|h IH]; intros Hh; [simpl; split; [reflexivity|intros ? []]|].
    rewrite seq_S, map_out_app. eapply safe_bind; [apply IH; lia|].
    intros a [Ha1 Ha2]. simpl. rewrite bind_assoc. eapply safe_bind; [apply Hrow; lia|].
    intros r Hr. simpl. rewrite app_length. simpl. split; [lia|].
    intros row Hin. apply in_app_or in Hin. destruct Hin as [Hin|[<-|[]]]; auto. }
  apply E. lia.
Qed.
