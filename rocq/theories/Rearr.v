(** * Rearranged matrices: same elements in another order *)
From Coq Require Import List ZArith Lia Bool Arith Permutation Sorted.
Import ListNotations.
From Verif Require Import Base Scalar Model Spec Loops Struct Order Stat.

Lemma concat_perm {T} (a b : list (list T)) : Permutation a b -> Permutation (concat a) (concat b).
Proof.
  induction 1 as [|x a b _ IH|x y a|a b c _ IH1 _ IH2]; cbn [concat].
  - constructor.
  - apply Permutation_app_head. exact IH.
  - rewrite !app_assoc. apply Permutation_app_tail, Permutation_app_comm.
  - etransitivity; eassumption.
Qed.

Lemma flat_map_cons_perm {X T} (g : X -> T) (h : X -> list T) l :
  Permutation (flat_map (fun j => g j :: h j) l) (map g l ++ flat_map h l).
Proof.
  induction l as [|x l IH]; cbn [flat_map map app]; [constructor|].
  constructor. rewrite IH, !app_assoc. apply Permutation_app_tail, Permutation_app_comm.
Qed.

(** rows first or columns first *)
Lemma grid_perm {X Y T} (f : X -> Y -> T) l1 l2 :
  Permutation (flat_map (fun i => map (f i) l2) l1) (flat_map (fun j => map (fun i => f i j) l1) l2).
Proof.
  induction l1 as [|x l1 IH]; cbn [flat_map map].
  - induction l2 as [|y l2 IH]; cbn [flat_map map app]; [constructor|exact IH].
  - symmetry. etransitivity; [apply flat_map_cons_perm|]. apply Permutation_app_head. symmetry. exact IH.
Qed.

Section Moves.
Context (K : scalar).
Notation T := (elt K).

Lemma trans_perm n m (f : nat -> nat -> T) :
  Permutation (elements (mk n m f)) (elements (mk m n (fun i j => f j i))).
Proof. rewrite !elements_mk. apply grid_perm. Qed.

(** exchange of two positions *)
Definition exch (a b i : nat) : nat := if i =? a then b else if i =? b then a else i.

Lemma exch_seq n a b : a < n -> b < n -> Permutation (seq 0 n) (map (exch a b) (seq 0 n)).
Proof.
  intros Ha Hb. symmetry. apply NoDup_Permutation_bis.
  - apply FinFun.Injective_map_NoDup; [|apply seq_NoDup].
    intros i j. unfold exch. nat_cases; intros; subst; try lia.
  - rewrite map_length. apply le_n.
  - intros i Hi. apply in_map_iff in Hi. destruct Hi as [j [<- Hj]]. apply in_seq in Hj. apply in_seq.
    unfold exch. nat_cases; lia.
Qed.

Lemma mk_rows n m (f : nat -> nat -> T) (s : nat -> nat) :
  mk n m (fun i j => f (s i) j) = map (fun i => map (fun j => f i j) (seq 0 m)) (map s (seq 0 n)).
Proof. unfold mk. rewrite map_map. reflexivity. Qed.

Lemma rows_perm n m (f : nat -> nat -> T) a b : a < n -> b < n ->
  Permutation (elements (mk n m f)) (elements (mk n m (fun i j => f (exch a b i) j))).
Proof.
  intros Ha Hb. unfold elements. apply concat_perm. rewrite (mk_rows n m f (exch a b)).
  unfold mk. apply Permutation_map, exch_seq; assumption.
Qed.

Lemma swap_rows_perm n m (f : nat -> nat -> T) r1 r2 B : 0 < m ->
  swap_rows K n m (mk n m f) r1 r2 = Ok B -> Permutation (elements (mk n m f)) (elements B).
Proof.
  intros Hm H. destruct (Nat.eq_dec r1 r2) as [->|N].
  - rewrite swap_rows_same in H. injection H as <-. apply Permutation_refl.
  - destruct (le_lt_dec n r1) as [L|L]; [rewrite swap_rows_oob in H by auto; discriminate|].
    destruct (le_lt_dec n r2) as [L2|L2]; [rewrite swap_rows_oob in H by auto; discriminate|].
    rewrite swap_rows_mk in H by assumption. injection H as <-.
    rewrite (mk_ext n m (fun i j => if i =? r1 then f r2 j else if i =? r2 then f r1 j else f i j)
      (fun i j => f (exch r1 r2 i) j)).
    + apply rows_perm; assumption.
    + intros i j _ _. unfold exch. nat_cases; reflexivity.
Qed.

Lemma swap_cols_perm n m (f : nat -> nat -> T) r1 r2 B : 0 < n ->
  swap_cols K n m (mk n m f) r1 r2 = Ok B -> Permutation (elements (mk n m f)) (elements B).
Proof.
  intros Hm H. destruct (Nat.eq_dec r1 r2) as [->|N].
  - rewrite swap_cols_same in H. injection H as <-. apply Permutation_refl.
  - destruct (le_lt_dec m r1) as [L|L]; [rewrite swap_cols_oob in H by auto; discriminate|].
    destruct (le_lt_dec m r2) as [L2|L2]; [rewrite swap_cols_oob in H by auto; discriminate|].
    rewrite swap_cols_mk in H by assumption. injection H as <-.
    rewrite (mk_ext n m (fun i j => if j =? r1 then f i r2 else if j =? r2 then f i r1 else f i j)
      (fun i j => f i (exch r1 r2 j))).
    + etransitivity; [apply trans_perm|].
      etransitivity; [apply (rows_perm _ _ _ r1 r2); assumption|].
      etransitivity; [apply trans_perm|]. apply Permutation_refl.
    + intros i j _ _. unfold exch. nat_cases; reflexivity.
Qed.

(** both concatenations have the elements of the two arguments *)
Lemma vcat_perm n1 n2 m (f g : nat -> nat -> T) :
  Permutation (elements (mk n1 m f) ++ elements (mk n2 m g))
    (elements (mk (n1 + n2) m (vcat K n1 f g))).
Proof. rewrite mk_vcat. unfold elements. rewrite concat_app. apply Permutation_refl. Qed.

Lemma hcat_perm n m1 m2 (f g : nat -> nat -> T) :
  Permutation (elements (mk n m1 f) ++ elements (mk n m2 g))
    (elements (mk n (m1 + m2) (hcat K m1 f g))).
Proof.
  etransitivity; [apply Permutation_app; apply trans_perm|].
  etransitivity; [apply vcat_perm|]. etransitivity; [apply trans_perm|]. apply Permutation_refl.
Qed.

End Moves.

(** ** histograms of rearranged elements *)
Section Hist.
Context {T : Type} (lt : T -> T -> bool).
Notation before := (fun p q : T * Z => lt (fst p) (fst q) = true).

Lemma count_perm (p : T -> bool) (v w : list T) : Permutation v w -> count p v = count p w.
Proof.
  unfold count. induction 1 as [|x a b _ IH|x y a|a b c _ IH1 _ IH2]; cbn [filter]; auto.
  - destruct (p x); cbn [length]; lia.
  - destruct (p x), (p y); reflexivity.
  - lia.
Qed.

(** strictly sorted lists with the same members are equal *)
Lemma sorted_unique (v : list T) (h k : list (T * Z)) : strict_weak_on lt v ->
  (forall p, In p h -> In (fst p) v) -> (forall p, In p k -> In (fst p) v) ->
  StronglySorted before h -> StronglySorted before k ->
  (forall p, In p h <-> In p k) -> h = k.
Proof.
  intros W. revert k. induction h as [|x h IH]; intros [|y k] Hh Hk Sh Sk E.
  - reflexivity.
  - destruct (proj2 (E y)). left. reflexivity.
  - destruct (proj1 (E x)). left. reflexivity.
  - inversion_clear Sh as [|? ? Sh' Fh]. inversion_clear Sk as [|? ? Sk' Fk].
    rewrite Forall_forall in Fh, Fk. destruct W as [Irr [As _]].
    assert (Exy : x = y).
    { destruct (proj1 (E x) (or_introl eq_refl)) as [->|Ix]; [reflexivity|].
      destruct (proj2 (E y) (or_introl eq_refl)) as [->|Iy]; [reflexivity|].
      pose proof (Fh _ Iy) as L1. pose proof (Fk _ Ix) as L2. cbn beta in L1, L2.
      rewrite (As (fst x) (fst y)) in L2; [discriminate| | |exact L1].
      - apply Hh. left. reflexivity.
      - apply Hk. left. reflexivity. }
    subst y. f_equal. apply IH; auto.
    + intros p Hp. apply Hh. right. exact Hp.
    + intros p Hp. apply Hk. right. exact Hp.
    + intros p. split; intros Hp.
      * destruct (proj1 (E p) (or_intror Hp)) as [<-|]; [|assumption].
        exfalso. pose proof (Fh _ Hp) as L. cbn beta in L. rewrite Irr in L; [discriminate|].
        apply Hh. left. reflexivity.
      * destruct (proj2 (E p) (or_intror Hp)) as [<-|]; [|assumption].
        exfalso. pose proof (Fk _ Hp) as L. cbn beta in L. rewrite Irr in L; [discriminate|].
        apply Hh. left. reflexivity.
Qed.

Lemma hist_perm (v w : list T) h k : strict_weak_on lt v -> Permutation v w ->
  (forall x y, In x v -> In y v -> equivalent lt x y = true -> x = y) ->
  is_histogram lt v h -> is_histogram lt w k -> h = k.
Proof.
  intros W P U [Sh [Kh Ah]] [Sk [Kk Ak]].
  assert (Iv : forall x, In x v <-> In x w) by (intros x; split; apply Permutation_in; [|symmetry]; exact P).
  assert (Hh : forall p, In p h -> In (fst p) v) by (intros [a c] Hp; exact (proj1 (Kh _ _ Hp))).
  assert (Hk : forall p, In p k -> In (fst p) v) by (intros [a c] Hp; apply Iv; exact (proj1 (Kk _ _ Hp))).
  apply (sorted_unique v); auto.
  intros [a c]. split; intros Hp.
  - destruct (Kh _ _ Hp) as [Ia ->]. destruct (Ak a (proj1 (Iv a) Ia)) as [b [d [Hb Eb]]].
    assert (a = b) as -> by (apply U; auto; exact (Hk _ Hb)).
    pose proof (proj2 (Kk _ _ Hb)); subst d. rewrite (count_perm _ _ _ P). exact Hb.
  - destruct (Kk _ _ Hp) as [Ia ->]. destruct (Ah a (proj2 (Iv a) Ia)) as [b [d [Hb Eb]]].
    assert (a = b) as -> by (apply U; auto; [apply Iv; exact Ia|exact (Hh _ Hb)]).
    pose proof (proj2 (Kh _ _ Hb)); subst d. rewrite <- (count_perm _ _ _ P). exact Hb.
Qed.
End Hist.

Section Histograms.
Context (K : scalar).
Notation T := (elt K).
Notation lt := (elt_lt K).

Lemma histogram_perm n m n' m' (f g : nat -> nat -> T) :
  let v := elements (mk n m f) in let w := elements (mk n' m' g) in
  strict_weak_on lt v -> Permutation v w -> (Z.of_nat (n * m) < 2 ^ 64)%Z ->
  (forall x y, In x v -> In y v -> equivalent lt x y = true -> x = y) ->
  histogram K n m (mk n m f) = histogram K n' m' (mk n' m' g) /\
  cumulative_histogram K n m (mk n m f) = cumulative_histogram K n' m' (mk n' m' g).
Proof.
  intros v w W P Hs U.
  assert (W' := strict_weak_perm K v w P W).
  assert (Hs' : (Z.of_nat (n' * m') < 2 ^ 64)%Z).
  { pose proof (Permutation_length P) as L. unfold v, w in L.
    rewrite (elements_length K n m f), (elements_length K n' m' g) in L. rewrite <- L. exact Hs. }
  destruct (histogram_mk K n m f W Hs) as [h [Eh Ih]].
  destruct (histogram_mk K n' m' g W' Hs') as [k [Ek Ik]].
  assert (h = k) as <- by (apply (hist_perm lt v w); assumption).
  split; [congruence|]. unfold cumulative_histogram. rewrite Eh, Ek. reflexivity.
Qed.
End Histograms.
