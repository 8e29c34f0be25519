(** * median and histograms, any element type *)

From Coq Require Import List ZArith Lia Bool Arith Permutation Sorted.
Import ListNotations.
From Verif Require Import Base Scalar Model Spec Loops Struct Order.

Section Stat.
Context (K : scalar).
Notation T := (elt K).
Notation lt := (elt_lt K).

Lemma elements_mk n m (f : nat -> nat -> T) :
  elements (mk n m f) = flat_map (fun i => map (fun j => f i j) (seq 0 m)) (seq 0 n).
Proof. unfold elements, mk. rewrite flat_map_concat_map. reflexivity. Qed.

Lemma elements_length n m (f : nat -> nat -> T) : length (elements (mk n m f)) = n * m.
Proof.
  rewrite elements_mk. generalize 0 at 2. induction n as [|n IH]; intros lo; [reflexivity|].
  simpl. rewrite app_length, IH, map_length, seq_length. reflexivity.
Qed.

(** a loop over all elements in row-major order is a fold over the element list *)
Lemma row_fold {St : Type} n m (f : nat -> nat -> T) (step : T -> St -> St) (s : St) :
  for_ 0 n (fun it s => for_ 0 m (fun jt s =>
    let* a := aget (mk n m f) it jt in Ok (step a s)) s) s =
  Ok (fold_left (fun s a => step a s) (elements (mk n m f)) s).
Proof.
  rewrite (for_states 0 n _ (fun k => fold_left (fun s a => step a s)
     (flat_map (fun i => map (fun j => f i j) (seq 0 m)) (seq 0 k)) s)).
  - rewrite elements_mk. reflexivity.
  - lia.
  - reflexivity.
  - intros k Hk. rewrite seq_S, flat_map_app, fold_left_app. simpl. rewrite app_nil_r.
    rewrite (for_states 0 m _ (fun h => fold_left (fun s a => step a s)
      (map (fun j => f k j) (seq 0 h))
      (fold_left (fun s a => step a s)
        (flat_map (fun i => map (fun j => f i j) (seq 0 m)) (seq 0 k)) s))).
    + reflexivity.
    + lia.
    + reflexivity.
    + intros j Hj. rewrite aget_mk by lia. cbn [bind]. rewrite seq_S, map_app, fold_left_app. reflexivity.
Qed.

Lemma flatten_mk n m (f : nat -> nat -> T) : flatten K n m (mk n m f) = Ok (elements (mk n m f)).
Proof.
  unfold flatten. rewrite (row_fold n m f (fun a v => v ++ [a])).
  f_equal. generalize (elements (mk n m f)). intros l.
  assert (E : forall a, fold_left (fun s x => s ++ [x]) l a = a ++ l); [|apply (E [])].
  induction l as [|x l IH]; intros a; simpl; [symmetry; apply app_nil_r|].
  rewrite IH, <- app_assoc. reflexivity.
Qed.

(** ** median *)

Lemma median_bad sort n m (f : nat -> nat -> T) :
  ~ strict_weak_on lt (elements (mk n m f)) ->
  median K sort n m (mk n m f) = UB BadOrder.
Proof.
  intros H. unfold median. rewrite flatten_mk. cbn [bind].
  destruct (strict_weak K _) eqn:E; [|reflexivity]. apply strict_weak_iff in E. contradiction.
Qed.

Section Good.
Context (sort : list T -> list T) (n m : nat) (f : nat -> nat -> T).
Let v := elements (mk n m f).
Context (W : strict_weak_on lt v) (So : sorts lt sort v).

Lemma median_unfold : median K sort n m (mk n m f) =
    if n * m mod 2 =? 0 then
      let* x := vget (sort v) (n * m / 2) in
      let* y := (if n * m / 2 =? 0 then UB OutOfBounds else vget (sort v) (n * m / 2 - 1)) in
      let* t := xadd (ld x) (ld y) in
      let* q := xdiv t (lit 2) in
      Ok (st q)
    else vget (sort v) (n * m / 2).
Proof.
  unfold median. rewrite flatten_mk. cbn [bind]. fold v.
  rewrite (proj2 (strict_weak_iff K v) W). reflexivity.
Qed.

Lemma vget_sorted k : k < n * m -> exists x, vget (sort v) k = Ok x /\ nth_error (sort v) k = Some x.
Proof.
  intros Hk. unfold vget. destruct (nth_error (sort v) k) as [x|] eqn:E.
  - exists x. auto.
  - apply nth_error_None in E. rewrite (sorts_length lt v sort So) in E. subst v.
    rewrite elements_length in E. lia.
Qed.

Lemma median_odd : (n * m) mod 2 = 1 ->
  exists x, median K sort n m (mk n m f) = Ok x /\ nth_error (sort v) (n * m / 2) = Some x /\
    In x v /\
    count (fun y => lt y x) v <= n * m / 2 /\ count (fun y => lt x y) v <= n * m / 2.
Proof.
  intros Ho. rewrite median_unfold, Ho. cbn [Nat.eqb].
  pose proof (Nat.div_mod (n * m) 2 ltac:(lia)) as D.
  destruct (vget_sorted (n * m / 2)) as [x [E1 E2]]; [lia|].
  exists x. split; [assumption|]. split; [assumption|]. split; [eapply sorts_in; eassumption|]. split.
  - eapply sorts_below; eassumption.
  - pose proof (sorts_above lt v W sort _ x So E2) as H. subst v. rewrite elements_length in H. lia.
Qed.

Lemma median_even : (n * m) mod 2 = 0 -> 0 < n * m ->
  exists x y, nth_error (sort v) (n * m / 2) = Some x /\ nth_error (sort v) (n * m / 2 - 1) = Some y /\
    median K sort n m (mk n m f) =
      (let* t := xadd (ld x) (ld y) in let* q := xdiv t (lit 2) in Ok (st q)).
Proof.
  intros He Hp. rewrite median_unfold, He. cbn [Nat.eqb].
  pose proof (Nat.div_mod (n * m) 2 ltac:(lia)) as D.
  destruct (vget_sorted (n * m / 2)) as [x [E1 E2]]; [lia|].
  destruct (vget_sorted (n * m / 2 - 1)) as [y [E3 E4]]; [lia|].
  exists x, y. split; [assumption|]. split; [assumption|].
  rewrite E1. cbn [bind]. destruct (Nat.eqb_spec (n * m / 2) 0); [lia|]. rewrite E3. reflexivity.
Qed.

Lemma median_empty : n * m = 0 -> median K sort n m (mk n m f) = UB OutOfBounds.
Proof.
  intros H0. rewrite median_unfold, H0. simpl.
  replace (sort v) with (@nil T); [reflexivity|].
  pose proof (sorts_length lt v sort So) as L. subst v. rewrite elements_length, H0 in L.
  destruct (sort _); [reflexivity|discriminate].
Qed.
End Good.

(** ** histogram *)

Notation before p q := (lt (fst p) (fst q) = true).

Lemma histogram_unfold n m (f : nat -> nat -> T) :
  strict_weak_on lt (elements (mk n m f)) ->
  histogram K n m (mk n m f) =
  Ok (fold_left (fun h a => map_incr K a h) (elements (mk n m f)) []).
Proof.
  intros W. unfold histogram. rewrite flatten_mk. cbn [bind].
  rewrite (proj2 (strict_weak_iff K _) W). cbn [negb].
  apply (row_fold n m f (fun a h => map_incr K a h)).
Qed.

Lemma histogram_bad n m (f : nat -> nat -> T) :
  ~ strict_weak_on lt (elements (mk n m f)) ->
  histogram K n m (mk n m f) = UB BadOrder.
Proof.
  intros H. unfold histogram. rewrite flatten_mk. cbn [bind].
  destruct (strict_weak K _) eqn:E; [|reflexivity]. apply strict_weak_iff in E. contradiction.
Qed.

Lemma equivalent_refl v x : strict_weak_on lt v -> In x v -> equivalent lt x x = true.
Proof. intros W H. unfold equivalent. rewrite (sw_irrefl lt v W x H). reflexivity. Qed.

Lemma equivalent_sym (x y : T) : equivalent lt x y = equivalent lt y x.
Proof. unfold equivalent. apply andb_comm. Qed.

Lemma equivalent_iff (x y : T) : equivalent lt x y = true <-> lt x y = false /\ lt y x = false.
Proof. unfold equivalent. rewrite andb_true_iff, !negb_true_iff. reflexivity. Qed.

Lemma equivalent_trans v x y z : strict_weak_on lt v -> In x v -> In y v -> In z v ->
  equivalent lt x y = true -> equivalent lt y z = true -> equivalent lt x z = true.
Proof.
  intros W Hx Hy Hz. rewrite !equivalent_iff. intros [A1 A2] [B1 B2]. split.
  - apply (sw_ntrans lt v W x y z); assumption.
  - apply (sw_ntrans lt v W z y x); assumption.
Qed.

(** the histogram of a prefix [p] of [v]; counts as sizes modulo 2^64 are exact
    because the prefix is short *)
Lemma map_incr_hist v p x h :
  strict_weak_on lt v -> (Z.of_nat (length v) < 2 ^ 64)%Z ->
  (forall y, In y p -> In y v) -> In x v -> length p < length v ->
  is_histogram lt p h -> is_histogram lt (p ++ [x]) (map_incr K x h).
Proof.
  intros W Hlen Hp Hx Hlp H.
  assert (Hc1 : forall k, count (fun y => equivalent lt y k) (p ++ [x]) =
     count (fun y => equivalent lt y k) p + (if equivalent lt x k then 1 else 0)).
  { intros k. rewrite count_app, count_cons.
    replace (count (fun y => equivalent lt y k) []) with 0 by reflexivity. lia. }
  (* generalise: the part of the histogram still to be searched; keys before it are below x *)
  assert (G : forall h2 h1, h = h1 ++ h2 -> (forall k c, In (k, c) h1 -> lt k x = true) ->
     is_histogram lt (p ++ [x]) (h1 ++ map_incr K x h2)).
  2:{ apply (G h []); [reflexivity|intros k c []]. }
  destruct H as [HS [HC HE]].
  assert (Hkv : forall k c, In (k, c) h -> In k v).
  { intros k c Hk. apply Hp. apply (HC k c Hk). }
  induction h2 as [|[k' c'] r IH]; intros h1 Eh Hlow.
  - simpl. rewrite app_nil_r in Eh. subst h1.
    assert (Hne : forall y, In y p -> equivalent lt y x = false).
    { intros y Hy. destruct (HE y Hy) as [k [c [Hk Ek]]].
      destruct (equivalent lt y x) eqn:E; [|reflexivity]. exfalso.
      pose proof (Hlow k c Hk). rewrite equivalent_iff in *.
      assert (lt k x = false); [|congruence].
      apply (sw_ntrans lt v W k y x); try (apply Hp; assumption); try assumption; try tauto.
      eapply Hkv; eassumption. }
    assert (Hz : count (fun y => equivalent lt y x) p = 0) by (apply count_zero; assumption).
    split; [|split].
    + clear -HS Hlow. induction h as [|[k c] h IH]; simpl; [constructor; constructor|].
      inversion HS; subst. constructor.
      * apply IH; [assumption|]. intros; eapply Hlow; right; eassumption.
      * apply Forall_app. split; [assumption|]. constructor; [|constructor]. simpl.
        eapply Hlow. left. reflexivity.
    + intros k c Hk. apply in_app_iff in Hk. destruct Hk as [Hk|[E|[]]].
      * destruct (HC k c Hk) as [H1 H2]. split; [apply in_app_iff; left; assumption|].
        rewrite Hc1. replace (equivalent lt x k) with false; [rewrite H2; lia|].
        symmetry. unfold equivalent. rewrite (Hlow k c Hk). apply andb_false_r.
      * injection E as <- <-. split; [apply in_app_iff; right; left; reflexivity|].
        rewrite Hc1, Hz, (equivalent_refl v x W Hx). reflexivity.
    + intros y Hy. apply in_app_iff in Hy. destruct Hy as [Hy|[<-|[]]].
      * destruct (HE y Hy) as [k [c [Hk Ek]]]. exists k, c. split; [apply in_app_iff; left; assumption|assumption].
      * exists x, ((0 + 1) mod 2 ^ 64)%Z. split; [apply in_app_iff; right; left; reflexivity|].
        apply (equivalent_refl v x W Hx).
  - simpl.
    assert (Hk' : In (k', c') h) by (rewrite Eh; apply in_app_iff; right; left; reflexivity).
    destruct (lt x k') eqn:E1; [|destruct (lt k' x) eqn:E2].
    + (* insert here *)
      assert (Hhi : forall k c, In (k, c) ((k', c') :: r) -> lt x k = true).
      { intros k c [E|Hk]; [injection E as <- <-; assumption|].
        apply (sw_trans lt v W x k' k); try assumption.
        - eapply Hkv; eassumption.
        - apply (Hkv k c). rewrite Eh. apply in_app_iff. right. right. assumption.
        - rewrite Eh in HS. clear -HS Hk. induction h1 as [|a h1 IH]; simpl in HS; inversion HS; subst.
          + rewrite Forall_forall in H2. apply (H2 (k, c) Hk).
          + apply IH; assumption. }
      assert (Hne : forall k c, In (k, c) h -> equivalent lt x k = false).
      { intros k c Hk. rewrite Eh in Hk. apply in_app_iff in Hk. unfold equivalent.
        destruct Hk as [Hk|Hk]; [rewrite (Hlow k c Hk); apply andb_false_r|].
        rewrite (Hhi k c Hk). reflexivity. }
      assert (Hz : count (fun y => equivalent lt y x) p = 0).
      { apply count_zero. intros y Hy. destruct (HE y Hy) as [k [c [Hk Ek]]].
        destruct (equivalent lt y x) eqn:E; [|reflexivity]. exfalso.
        assert (equivalent lt x k = true); [|rewrite (Hne k c Hk) in *; congruence].
        apply (equivalent_trans v x y k W); auto.
        - eapply Hkv; eassumption.
        - rewrite equivalent_sym. assumption. }
      split; [|split].
      * rewrite Eh in HS. clear -HS Hlow Hhi. induction h1 as [|[k c] h1 IH]; simpl in *.
        -- constructor; [assumption|]. apply Forall_forall. intros [k c] Hk. simpl.
           eapply Hhi. exact Hk.
        -- inversion HS; subst. constructor.
           ++ apply IH; [assumption|]. intros; eapply Hlow; right; eassumption.
           ++ apply Forall_app in H2. destruct H2 as [F1 F2]. apply Forall_app. split; [assumption|].
              constructor; [|assumption]. simpl. eapply Hlow. left. reflexivity.
      * intros k c Hk. apply in_app_iff in Hk.
        assert (Hk2 : In (k, c) h \/ (k, c) = (x, ((0 + 1) mod 2 ^ 64)%Z)).
        { rewrite Eh. destruct Hk as [Hk|[E|Hk]].
          - left. apply in_app_iff. left. assumption.
          - right. symmetry. assumption.
          - left. apply in_app_iff. right. assumption. }
        destruct Hk2 as [Hk2|E].
        -- destruct (HC k c Hk2) as [H1 H2]. split; [apply in_app_iff; left; assumption|].
           rewrite Hc1, (Hne k c Hk2). rewrite H2. lia.
        -- injection E as -> ->. split; [apply in_app_iff; right; left; reflexivity|].
           rewrite Hc1, Hz, (equivalent_refl v x W Hx). reflexivity.
      * intros y Hy. apply in_app_iff in Hy. destruct Hy as [Hy|[<-|[]]].
        -- destruct (HE y Hy) as [k [c [Hk Ek]]]. exists k, c. split; [|assumption].
           rewrite Eh in Hk. apply in_app_iff in Hk. apply in_app_iff.
           destruct Hk as [Hk|Hk]; [left; assumption|right; right; assumption].
        -- exists x, ((0 + 1) mod 2 ^ 64)%Z. split; [apply in_app_iff; right; left; reflexivity|].
           apply (equivalent_refl v x W Hx).
    + (* go on *)
      replace (h1 ++ (k', c') :: map_incr K x r) with ((h1 ++ [(k', c')]) ++ map_incr K x r)
        by (rewrite <- app_assoc; reflexivity).
      apply IH; [rewrite <- app_assoc; assumption|].
      intros k c Hk. apply in_app_iff in Hk. destruct Hk as [Hk|[E|[]]].
      * eapply Hlow; eassumption.
      * injection E as <- <-. assumption.
    + (* found *)
      assert (Exk : equivalent lt x k' = true) by (apply equivalent_iff; auto).
      assert (Hne : forall k c, In (k, c) h1 \/ In (k, c) r -> equivalent lt x k = false).
      { intros k c [Hk|Hk].
        - unfold equivalent. rewrite (Hlow k c Hk). apply andb_false_r.
        - assert (Hkk : lt k' k = true).
          { rewrite Eh in HS. clear -HS Hk. induction h1 as [|a h1 IH]; simpl in HS; inversion HS; subst.
            + rewrite Forall_forall in H2. apply (H2 (k, c) Hk).
            + apply IH; assumption. }
          unfold equivalent. rewrite (sw_nlt_lt lt v W x k' k); try assumption; [reflexivity| |].
          + eapply Hkv; eassumption.
          + apply (Hkv k c). rewrite Eh. apply in_app_iff. right. right. assumption. }
      destruct (HC k' c' Hk') as [Hk1 Hk2].
      assert (Ec : ((c' + 1) mod 2 ^ 64 = Z.of_nat (count (fun y => equivalent lt y k') (p ++ [x])))%Z).
      { rewrite Hc1, Exk, Hk2. rewrite Z.mod_small; [lia|].
        pose proof (count_le_length (fun y => equivalent lt y k') p). lia. }
      split; [|split].
      * rewrite Eh in HS. clear -HS. induction h1 as [|a h1 IH]; simpl in *; inversion HS; subst.
        -- constructor; assumption.
        -- constructor; [apply IH; assumption|]. apply Forall_app in H2. apply Forall_app.
           destruct H2 as [F1 F2]. split; [assumption|]. inversion F2; subst. constructor; assumption.
      * intros k c Hk. apply in_app_iff in Hk.
        assert (Hk3 : (In (k, c) h1 \/ In (k, c) r) \/ (k, c) = (k', ((c' + 1) mod 2 ^ 64)%Z)).
        { destruct Hk as [Hk|[E|Hk]]; [left; left; assumption|right; symmetry; assumption|left; right; assumption]. }
        destruct Hk3 as [Hk3|E].
        -- assert (Hin : In (k, c) h).
           { rewrite Eh. apply in_app_iff. destruct Hk3; [left; assumption|right; right; assumption]. }
           destruct (HC k c Hin) as [H1 H2]. split; [apply in_app_iff; left; assumption|].
           rewrite Hc1, (Hne k c Hk3), H2. lia.
        -- injection E as -> ->. split; [apply in_app_iff; left; assumption|]. exact Ec.
      * intros y Hy. apply in_app_iff in Hy. destruct Hy as [Hy|[<-|[]]].
        -- destruct (HE y Hy) as [k [c [Hk Ek]]]. rewrite Eh in Hk. apply in_app_iff in Hk.
           destruct Hk as [Hk|[E|Hk]].
           ++ exists k, c. split; [apply in_app_iff; left; assumption|assumption].
           ++ injection E as <- <-. exists k', ((c' + 1) mod 2 ^ 64)%Z. split; [|assumption].
              apply in_app_iff. right. left. reflexivity.
           ++ exists k, c. split; [apply in_app_iff; right; right; assumption|assumption].
        -- exists k', ((c' + 1) mod 2 ^ 64)%Z. split; [|assumption].
           apply in_app_iff. right. left. reflexivity.
Qed.

Lemma hist_fold v : strict_weak_on lt v -> (Z.of_nat (length v) < 2 ^ 64)%Z ->
  is_histogram lt v (fold_left (fun h a => map_incr K a h) v []).
Proof.
  intros W Hlen.
  assert (G : forall p q, v = p ++ q -> is_histogram lt p (fold_left (fun h a => map_incr K a h) p [])).
  2:{ apply (G v []). rewrite app_nil_r. reflexivity. }
  induction p as [|x p IH] using rev_ind; intros q E.
  - split; [constructor|]. split; [intros k c []|intros x []].
  - rewrite fold_left_app. simpl. subst v. apply (map_incr_hist ((p ++ [x]) ++ q)); auto.
    + intros y Hy. apply in_app_iff. left. apply in_app_iff. left. assumption.
    + apply in_app_iff. left. apply in_app_iff. right. left. reflexivity.
    + rewrite !app_length. simpl. lia.
    + apply (IH ([x] ++ q)). rewrite app_assoc. reflexivity.
Qed.

(** ** counting through the keys *)

Lemma key_once v (h : list (T * Z)) (q : T -> bool) x : strict_weak_on lt v ->
  StronglySorted (fun p q : T * Z => before p q) h -> (forall k c, In (k, c) h -> In k v) -> In x v ->
  (exists k c, In (k, c) h /\ equivalent lt x k = true) ->
  (forall k c, In (k, c) h -> equivalent lt x k = true -> q x = q k) ->
  total (map (fun p => if equivalent lt x (fst p) then 1%Z else 0%Z)
     (filter (fun p => q (fst p)) h)) = (if q x then 1 else 0)%Z.
Proof.
  intros W. induction h as [|[a b] h IH]; intros HS Hv Hx Hex Hq.
  { destruct Hex as [k [c [[] _]]]. }
  inversion HS; subst. rewrite Forall_forall in H2.
  destruct (equivalent lt x a) eqn:E.
  - assert (Z0 : total (map (fun p => if equivalent lt x (fst p) then 1%Z else 0%Z)
      (filter (fun p => q (fst p)) h)) = 0%Z).
    { assert (Hno : forall p, In p h -> equivalent lt x (fst p) = false).
      { intros [k c] Hk. simpl. specialize (H2 _ Hk). simpl in H2.
        rewrite equivalent_iff in E. unfold equivalent.
        rewrite (sw_nlt_lt lt v W x a k); try tauto.
        - apply (Hv a b). left. reflexivity.
        - apply (Hv k c). right. assumption. }
      clear -Hno. induction h as [|p h IH]; [reflexivity|]. simpl.
      destruct (q (fst p)); simpl; [rewrite (Hno p) by (left; reflexivity)|];
        (apply IH; intros; apply Hno; right; assumption). }
    simpl. rewrite (Hq a b (or_introl eq_refl) E). destruct (q a); simpl; [rewrite E, Z0; reflexivity|exact Z0].
  - assert (IH' : total (map (fun p => if equivalent lt x (fst p) then 1%Z else 0%Z)
      (filter (fun p => q (fst p)) h)) = (if q x then 1 else 0)%Z).
    { apply IH; try assumption.
      - intros k c Hk. apply (Hv k c). right. assumption.
      - destruct Hex as [k [c [[Hk|Hk] Ek]]]; [injection Hk as -> ->; congruence|].
        exists k, c. auto.
      - intros k c Hk. apply (Hq k c). right. assumption. }
    simpl. destruct (q a); simpl; [rewrite E|]; exact IH'.
Qed.

Lemma total_app a b : total (a ++ b) = (total a + total b)%Z.
Proof. unfold total. induction a as [|x a IH]; simpl; [reflexivity|]. rewrite IH. lia. Qed.

Lemma total_add {X} (a b : X -> Z) l :
  total (map (fun p => (a p + b p)%Z) l) = (total (map a l) + total (map b l))%Z.
Proof. unfold total. induction l as [|p l IH]; simpl; [reflexivity|]. rewrite IH. lia. Qed.

(** the counts of a set of keys add up to the number of elements with such a key *)
Lemma hist_total v h (q : T -> bool) : strict_weak_on lt v -> is_histogram lt v h ->
  (forall x k c, In x v -> In (k, c) h -> equivalent lt x k = true -> q x = q k) ->
  total (map snd (filter (fun p => q (fst p)) h)) = Z.of_nat (count q v).
Proof.
  intros W [HS [HC HE]] Hq.
  assert (G : forall w, (forall x, In x w -> In x v) ->
     total (map (fun p => Z.of_nat (count (fun x => equivalent lt x (fst p)) w))
        (filter (fun p => q (fst p)) h)) = Z.of_nat (count q w)).
  2:{ rewrite <- (G v (fun _ Hx => Hx)). f_equal. apply map_ext_in. intros [k c] Hk.
      apply filter_In in Hk. destruct Hk as [Hk _]. apply (HC k c Hk). }
  induction w as [|x w IH]; intros Hw.
  - unfold count. simpl. clear. induction (filter _ h) as [|p l IH]; [reflexivity|]. simpl.
    rewrite IH. reflexivity.
  - rewrite count_cons, Nat2Z.inj_add, <- IH by (intros; apply Hw; right; assumption).
    assert (Hx : In x v) by (apply Hw; left; reflexivity).
    replace (Z.of_nat (if q x then 1 else 0)) with (if q x then 1 else 0)%Z by (destruct (q x); reflexivity).
    rewrite <- (key_once v h q x W HS); [| |assumption|apply HE; assumption|].
    + rewrite <- total_add. f_equal. apply map_ext. intros p. rewrite count_cons.
      destruct (equivalent lt x (fst p)); lia.
    + intros k c Hk. apply (HC k c Hk).
    + intros k c Hk. apply Hq with (c := c); assumption.
Qed.

Lemma histogram_mk n m (f : nat -> nat -> T) :
  strict_weak_on lt (elements (mk n m f)) -> (Z.of_nat (n * m) < 2 ^ 64)%Z ->
  exists h, histogram K n m (mk n m f) = Ok h /\ is_histogram lt (elements (mk n m f)) h.
Proof.
  intros W H. rewrite histogram_unfold by assumption. eexists. split; [reflexivity|].
  apply hist_fold; [assumption|]. rewrite elements_length. assumption.
Qed.

Lemma hist_grand_total v h : strict_weak_on lt v -> is_histogram lt v h ->
  total (map snd h) = Z.of_nat (length v).
Proof.
  intros W H. pose proof (hist_total v h (fun _ => true) W H) as G.
  rewrite count_full in G by reflexivity. rewrite <- G by reflexivity. f_equal. f_equal.
  clear. induction h as [|p h IH]; [reflexivity|]. simpl. rewrite <- IH. reflexivity.
Qed.

(** ** cumulative histogram *)

Lemma map_assign_last k c (r : list (T * Z)) :
  (forall k' c', In (k', c') r -> lt k' k = true /\ lt k k' = false) -> map_assign K k c r = r ++ [(k, c)].
Proof.
  induction r as [|[k' c'] r IH]; intros H; [reflexivity|]. simpl.
  destruct (H k' c' (or_introl eq_refl)) as [-> ->].
  rewrite IH by (intros k'' c'' Hk; apply (H k'' c''); right; assumption). reflexivity.
Qed.

Lemma sorted_app_inv (a b : list (T * Z)) :
  StronglySorted (fun p q : T * Z => before p q) (a ++ b) ->
  StronglySorted (fun p q : T * Z => before p q) a /\
  (forall p q, In p a -> In q b -> before p q).
Proof.
  induction a as [|x a IH]; intros H; simpl in *.
  - split; [constructor|intros p q []].
  - inversion H; subst. destruct (IH H2) as [I1 I2]. rewrite Forall_forall in H3. split.
    + constructor; [assumption|]. apply Forall_forall. intros y Hy. apply H3. apply in_app_iff. left. assumption.
    + intros p q [<-|Hp] Hq; [apply H3; apply in_app_iff; right; assumption|apply I2; assumption].
Qed.

Lemma cumul_fold v h : strict_weak_on lt v -> (Z.of_nat (length v) < 2 ^ 64)%Z ->
  is_histogram lt v h ->
  exists r c,
  fold_left (fun s p =>
      let '(result, cumul_sum) := s in
      let cumul_sum := ((cumul_sum + snd p) mod 2 ^ 64)%Z in
      (map_assign K (fst p) cumul_sum result, cumul_sum)) h ([], 0%Z) = (r, c) /\
  map fst r = map fst h /\
  (forall k x, In (k, x) r -> x = Z.of_nat (count (fun y => negb (lt k y)) v)).
Proof.
  intros W Hlen H. pose proof H as [HS [HC HE]].
  assert (Hkv : forall k c, In (k, c) h -> In k v) by (intros k c Hk; apply (HC k c Hk)).
  assert (Hb : forall h1 k c h2, h = h1 ++ (k, c) :: h2 ->
     total (map snd (h1 ++ [(k, c)])) = Z.of_nat (count (fun y => negb (lt k y)) v)).
  { intros h1 k c h2 E. rewrite <- (hist_total v h (fun y => negb (lt k y)) W H).
    - rewrite E. rewrite filter_app.
      assert (A1 : filter (fun p => negb (lt k (fst p))) h1 = h1).
      { rewrite E in HS. apply sorted_app_inv in HS. destruct HS as [_ HS].
        assert (A : forall p, In p h1 -> negb (lt k (fst p)) = true).
        { intros [k1 c1] Hp. simpl. apply negb_true_iff. apply (sw_asym lt v W).
          - apply (Hkv k1 c1). rewrite E. apply in_app_iff. left. assumption.
          - apply (Hkv k c). rewrite E. apply in_app_iff. right. left. reflexivity.
          - apply (HS (k1, c1) (k, c) Hp). left. reflexivity. }
        clear -A. induction h1 as [|p h1 IH]; [reflexivity|]. simpl. rewrite (A p) by (left; reflexivity).
        f_equal. apply IH. intros; apply A; right; assumption. }
      rewrite A1. simpl.
      rewrite (sw_irrefl lt v W k) by (apply (Hkv k c); rewrite E; apply in_app_iff; right; left; reflexivity).
      simpl. 
      assert (A2 : filter (fun p => negb (lt k (fst p))) h2 = []).
      { assert (E' : h = (h1 ++ [(k, c)]) ++ h2) by (rewrite <- app_assoc; assumption).
        rewrite E' in HS. apply sorted_app_inv in HS. destruct HS as [_ HS].
        assert (A : forall p, In p h2 -> negb (lt k (fst p)) = false).
        { intros p Hp. apply negb_false_iff. apply (HS (k, c) p); [|assumption].
          apply in_app_iff. right. left. reflexivity. }
        clear -A. induction h2 as [|p h2 IH]; [reflexivity|]. simpl. rewrite (A p) by (left; reflexivity).
        apply IH. intros; apply A; right; assumption. }
      rewrite A2. reflexivity.
    - intros x k' c' Hx Hk' Eq. apply equivalent_iff in Eq. destruct Eq as [N1 N2]. f_equal.
      assert (Hk : In k v) by (apply (Hkv k c); rewrite E; apply in_app_iff; right; left; reflexivity).
      pose proof (Hkv k' c' Hk').
      destruct (lt k x) eqn:E1, (lt k k') eqn:E2; try reflexivity.
      + rewrite (sw_lt_nlt lt v W k x k') in E2 by assumption. discriminate.
      + rewrite (sw_lt_nlt lt v W k k' x) in E1 by assumption. discriminate. }
  assert (G : forall h1 h2, h = h1 ++ h2 -> exists r c,
    fold_left (fun s p =>
      let '(result, cumul_sum) := s in
      let cumul_sum := ((cumul_sum + snd p) mod 2 ^ 64)%Z in
      (map_assign K (fst p) cumul_sum result, cumul_sum)) h1 ([], 0%Z) = (r, c) /\
    c = total (map snd h1) /\ map fst r = map fst h1 /\
    (forall k x, In (k, x) r -> x = Z.of_nat (count (fun y => negb (lt k y)) v))).
  { induction h1 as [|[k c] h1 IH] using rev_ind; intros h2 E.
    - exists [], 0%Z. simpl. intuition.
    - rewrite <- app_assoc in E. destruct (IH ([(k, c)] ++ h2) E) as [r [t [E1 [E2 [E3 E4]]]]].
      rewrite fold_left_app, E1. simpl. simpl in E.
      pose proof (Hb h1 k c h2 E) as Hb1. rewrite map_app, total_app in Hb1.
      assert (Et : ((t + c) mod 2 ^ 64 = Z.of_nat (count (fun y => negb (lt k y)) v))%Z).
      { assert (Hb2 : (t + c)%Z = Z.of_nat (count (fun y => negb (lt k y)) v)).
        { rewrite E2, <- Hb1. unfold total. simpl. lia. }
        rewrite Hb2. apply Z.mod_small.
        pose proof (count_le_length (fun y => negb (lt k y)) v). lia. }
      exists (r ++ [(k, ((t + c) mod 2 ^ 64)%Z)]), ((t + c) mod 2 ^ 64)%Z. split; [|split; [|split]].
      + f_equal. apply map_assign_last. intros k' c' Hk'.
        assert (Hin : exists d, In (k', d) h1).
        { assert (In k' (map fst h1)) by (rewrite <- E3; apply (in_map fst r (k', c') Hk')).
          apply in_map_iff in H0. destruct H0 as [[k'' d] [<- Hd]]. exists d. assumption. }
        destruct Hin as [d Hd].
        assert (L : lt k' k = true).
        { rewrite E in HS. apply sorted_app_inv in HS. apply (proj2 HS (k', d) (k, c) Hd). left. reflexivity. }
        split; [assumption|]. apply (sw_asym lt v W); [| |assumption].
        * apply (Hkv k' d). rewrite E. apply in_app_iff. left. assumption.
        * apply (Hkv k c). rewrite E. apply in_app_iff. right. left. reflexivity.
      + rewrite Et, map_app, total_app. symmetry. exact Hb1.
      + rewrite !map_app, E3. reflexivity.
      + intros k' x Hk'. apply in_app_iff in Hk'. destruct Hk' as [Hk'|[Hk'|[]]]; [apply E4; assumption|].
        injection Hk' as <- <-. assumption. }
  destruct (G h [] (eq_sym (app_nil_r h))) as [r [c [E1 [_ [E3 E4]]]]]. exists r, c. auto.
Qed.

Lemma cumulative_mk n m (f : nat -> nat -> T) :
  strict_weak_on lt (elements (mk n m f)) -> (Z.of_nat (n * m) < 2 ^ 64)%Z ->
  exists h r, histogram K n m (mk n m f) = Ok h /\
    cumulative_histogram K n m (mk n m f) = Ok r /\
    map fst r = map fst h /\
    (forall k x, In (k, x) r -> x = Z.of_nat (count (fun y => negb (lt k y)) (elements (mk n m f)))).
Proof.
  intros W H. destruct (histogram_mk n m f W H) as [h [E Hh]].
  destruct (cumul_fold (elements (mk n m f)) h W) as [r [c [E1 [E2 E3]]]].
  - rewrite elements_length. assumption.
  - assumption.
  - exists h, r. split; [assumption|]. unfold cumulative_histogram. rewrite E. cbn [bind].
    split; [|auto].
    exact (f_equal (fun s : list (T * Z) * Z => let '(result, _) := s in Ok result) E1).
Qed.

(** the last cumulative count is the number of elements *)
Lemma cumulative_last n m (f : nat -> nat -> T) h r k x :
  strict_weak_on lt (elements (mk n m f)) -> is_histogram lt (elements (mk n m f)) h ->
  map fst r = map fst h ->
  (forall k x, In (k, x) r -> x = Z.of_nat (count (fun y => negb (lt k y)) (elements (mk n m f)))) ->
  forall r', r = r' ++ [(k, x)] -> x = Z.of_nat (n * m).
Proof.
  intros W Hh E Hx r' Er. rewrite (Hx k x) by (rewrite Er; apply in_app_iff; right; left; reflexivity).
  f_equal. rewrite <- (elements_length n m f). apply count_full. intros y Hy. apply negb_true_iff.
  destruct Hh as [HS [HC HE]]. destruct (HE y Hy) as [k' [c' [Hk' Ek']]].
  rewrite equivalent_iff in Ek'.
  assert (Eh : exists h1 c, h = h1 ++ [(k, c)]).
  { rewrite Er, map_app in E. simpl in E. clear -E. symmetry in E.
    destruct h as [|p h] using rev_ind; [destruct (map fst r'); discriminate|].
    rewrite map_app in E. apply app_inj_tail in E. destruct E as [_ E]. destruct p as [a b]. simpl in E. subst a.
    exists h, b. reflexivity. }
  destruct Eh as [h1 [c Eh]].
  assert (Hkin : In (k, c) h) by (rewrite Eh; apply in_app_iff; right; left; reflexivity).
  pose proof (proj1 (HC k c Hkin)) as Hkv. pose proof (proj1 (HC k' c' Hk')) as Hkv'.
  apply (sw_ntrans lt (elements (mk n m f)) W k k' y); try assumption; try tauto.
  rewrite Eh in Hk'. apply in_app_iff in Hk'. destruct Hk' as [Hk'|[Hk'|[]]].
  - rewrite Eh in HS. apply sorted_app_inv in HS. apply (sw_asym lt _ W); try assumption.
    apply (proj2 HS (k', c') (k, c) Hk'). left. reflexivity.
  - injection Hk' as -> _. apply (sw_irrefl lt _ W). assumption.
Qed.
End Stat.

(** ** the median does not depend on the order of the elements or the sorting algorithm *)
Section Independent.
Context (K : scalar).
Notation T := (elt K).
Notation lt := (elt_lt K).

Lemma strict_weak_perm (v w : list T) : Permutation v w -> strict_weak_on lt v -> strict_weak_on lt w.
Proof.
  intros P [H1 [H2 [H3 H4]]].
  assert (I : forall x, In x w -> In x v).
  { intros x. apply Permutation_in. apply Permutation_sym. exact P. }
  split; [|split; [|split]]; eauto.
Qed.

(** the sorted sequences are equivalent position by position *)
Lemma sorts_equiv (v w : list T) s1 s2 k x y : strict_weak_on lt v -> Permutation v w ->
  sorts lt s1 v -> sorts lt s2 w ->
  nth_error (s1 v) k = Some x -> nth_error (s2 w) k = Some y -> equivalent lt x y = true.
Proof.
  intros W P S1 S2 E1 E2. apply equivalent_iff. split.
  - exact (sorts_equiv_half lt v W s1 s2 w k x y P S1 S2 E1 E2).
  - apply (sorts_equiv_half lt w (strict_weak_perm v w P W) s2 s1 v k y x); auto.
    apply Permutation_sym. exact P.
Qed.

Lemma median_independent s1 s2 n m n' m' (f g : nat -> nat -> T) :
  let v := elements (mk n m f) in let w := elements (mk n' m' g) in
  strict_weak_on lt v -> Permutation v w -> sorts lt s1 v -> sorts lt s2 w ->
  (forall x y, In x v -> In y v -> equivalent lt x y = true -> x = y) ->
  median K s1 n m (mk n m f) = median K s2 n' m' (mk n' m' g).
Proof.
  intros v w W P S1 S2 Heq.
  assert (Wm := strict_weak_perm v w P W).
  assert (L : n * m = n' * m').
  { rewrite <- (elements_length K n m f), <- (elements_length K n' m' g). apply Permutation_length. exact P. }
  rewrite (median_unfold K s1 n m f W), (median_unfold K s2 n' m' g Wm). rewrite <- L.
  assert (E : forall k, vget (s1 v) k = vget (s2 w) k).
  { intros k. unfold vget.
    destruct (nth_error (s1 v) k) eqn:E1; destruct (nth_error (s2 w) k) eqn:E2.
    - f_equal. apply Heq.
      + exact (sorts_in lt v s1 k _ S1 E1).
      + apply Permutation_in with w; [apply Permutation_sym; exact P|].
        exact (sorts_in lt w s2 k _ S2 E2).
      + exact (sorts_equiv v w s1 s2 k _ _ W P S1 S2 E1 E2).
    - exfalso. apply nth_error_None in E2.
      assert (k < length (s1 v)) by (apply nth_error_Some; congruence).
      rewrite (sorts_length lt v s1 S1) in H. rewrite (sorts_length lt w s2 S2) in E2.
      rewrite (Permutation_length P) in H. lia.
    - exfalso. apply nth_error_None in E1.
      assert (k < length (s2 w)) by (apply nth_error_Some; congruence).
      rewrite (sorts_length lt v s1 S1) in E1. rewrite (sorts_length lt w s2 S2) in H.
      rewrite (Permutation_length P) in E1. lia.
    - reflexivity. }
  fold v. fold w. rewrite !E. reflexivity.
Qed.

(** with an odd number of elements the results are equivalent in any case *)
Lemma median_odd_independent s1 s2 n m n' m' (f g : nat -> nat -> T) :
  let v := elements (mk n m f) in let w := elements (mk n' m' g) in
  strict_weak_on lt v -> Permutation v w -> sorts lt s1 v -> sorts lt s2 w ->
  (n * m) mod 2 = 1 ->
  exists x y, median K s1 n m (mk n m f) = Ok x /\ median K s2 n' m' (mk n' m' g) = Ok y /\
    equivalent lt x y = true.
Proof.
  intros v w W P S1 S2 Hodd.
  assert (Wm := strict_weak_perm v w P W).
  assert (L : n * m = n' * m').
  { rewrite <- (elements_length K n m f), <- (elements_length K n' m' g). apply Permutation_length. exact P. }
  destruct (median_odd K s1 n m f W S1 Hodd) as [x [Ex [Nx _]]].
  rewrite L in Hodd.
  destruct (median_odd K s2 n' m' g Wm S2 Hodd) as [y [Ey [Ny _]]].
  exists x, y. split; [exact Ex|]. split; [exact Ey|].
  rewrite <- L in Ny. exact (sorts_equiv v w s1 s2 _ _ _ W P S1 S2 Nx Ny).
Qed.
End Independent.

(** the cumulative histogram is non-decreasing *)
Lemma cumulative_monotone (K : scalar) n m (A : matrix (elt K)) : shape n m A ->
  strict_weak_on (elt_lt K) (elements A) -> (Z.of_nat (n * m) < 2 ^ 64)%Z ->
  exists r, cumulative_histogram K n m A = Ok r /\
  (forall i j p q, i <= j -> nth_error (map snd r) i = Some p ->
     nth_error (map snd r) j = Some q -> (p <= q)%Z) /\
  (forall r' k x, r = r' ++ [(k, x)] -> x = Z.of_nat (n * m)).
Proof.
  intros HA W Hs. apply (shape_mk (lite K 0)) in HA. destruct HA as [f ->].
  destruct (histogram_mk K n m f W Hs) as [h' [Eh' Hh']].
  destruct (cumulative_mk K n m f W Hs) as [h [r [Eh [Er [Ek Hc]]]]].
  assert (h' = h) by congruence. subst h'.
  exists r. split; [exact Er|]. split.
  - intros i j p q Hij Ep Eq.
    rewrite nth_error_map in Ep, Eq.
    destruct (nth_error r i) as [[k1 x1]|] eqn:N1; [|discriminate].
    destruct (nth_error r j) as [[k2 x2]|] eqn:N2; [|discriminate].
    simpl in Ep, Eq. injection Ep as <-. injection Eq as <-.
    rewrite (Hc _ _ (nth_error_In _ _ N1)), (Hc _ _ (nth_error_In _ _ N2)).
    apply inj_le.
    destruct Hh' as [Hsort [Hkeys _]].
    assert (Kin : forall a k x, nth_error r a = Some (k, x) -> exists c, nth_error h a = Some (k, c)).
    { intros a k x E. assert (E' : nth_error (map fst r) a = Some k) by (rewrite nth_error_map, E; reflexivity).
      rewrite Ek, nth_error_map in E'. destruct (nth_error h a) as [[k' c]|]; [|discriminate].
      simpl in E'. injection E' as ->. exists c. reflexivity. }
    destruct (Kin _ _ _ N1) as [c1 M1]. destruct (Kin _ _ _ N2) as [c2 M2].
    destruct (Hkeys _ _ (nth_error_In _ _ M1)) as [I1 _].
    destruct (Hkeys _ _ (nth_error_In _ _ M2)) as [I2 _].
    assert (NL : elt_lt K k2 k1 = false).
    { destruct (Nat.eq_dec i j) as [->|].
      - assert (k1 = k2) by congruence. subst. apply (sw_irrefl _ _ W); assumption.
      - apply (sw_asym _ _ W); try assumption. clear -Hsort M1 M2 Hij n0.
        revert i j M1 M2 Hij n0. induction Hsort as [|p h S IH F]; intros i j M1 M2 Hij Hne.
        + destruct i; discriminate.
        + destruct j; [lia|]. destruct i.
          * simpl in M1. injection M1 as ->. simpl in M2. rewrite Forall_forall in F.
            apply (F (k2, c2)). exact (nth_error_In _ _ M2).
          * simpl in M1, M2. apply (IH i j M1 M2); lia. }
    assert (Cle : forall v, (forall y, In y v -> In y (elements (mk n m f))) ->
      count (fun y => negb (elt_lt K k1 y)) v <= count (fun y => negb (elt_lt K k2 y)) v).
    { induction v as [|y v IH]; intros Iv; [reflexivity|]. rewrite !count_cons.
      assert (IH' : count (fun y => negb (elt_lt K k1 y)) v <= count (fun y => negb (elt_lt K k2 y)) v)
        by (apply IH; intros z Hz; apply Iv; right; exact Hz).
      destruct (elt_lt K k1 y) eqn:A1; simpl.
      - destruct (negb (elt_lt K k2 y)); lia.
      - assert (elt_lt K k2 y = false) as ->; [|simpl; lia].
        apply (sw_ntrans _ _ W k2 k1 y); auto. apply Iv. left. reflexivity. }
    apply Cle. auto.
  - intros r' k x E.
    exact (cumulative_last K n m f h r k x W Hh' Ek Hc r' E).
Qed.

(** ** A sort: insertion sort *)

Fixpoint insert {T} (lt : T -> T -> bool) (x : T) (l : list T) : list T :=
  match l with
  | [] => [x]
  | y :: r => if lt y x then y :: insert lt x r else x :: y :: r
  end.
Fixpoint isort {T} (lt : T -> T -> bool) (l : list T) : list T :=
  match l with
  | [] => []
  | x :: r => insert lt x (isort lt r)
  end.

Section Isort.
Variables (T : Type) (lt : T -> T -> bool).

Lemma insert_perm x l : Permutation (x :: l) (insert lt x l).
Proof.
  induction l as [|y r IH]; simpl; [reflexivity|]. destruct (lt y x); [|reflexivity].
  rewrite perm_swap. constructor. exact IH.
Qed.

Lemma isort_perm l : Permutation l (isort lt l).
Proof.
  induction l as [|x r IH]; simpl; [constructor|]. rewrite <- insert_perm. now constructor.
Qed.

Lemma insert_sorted v x l : strict_weak_on lt v -> In x v -> (forall y, In y l -> In y v) ->
  StronglySorted (fun a b => lt b a = false) l ->
  StronglySorted (fun a b => lt b a = false) (insert lt x l).
Proof.
  intros W Ix. induction l as [|y r IH]; intros Il S; simpl; [repeat constructor|].
  assert (Iy : In y v) by (apply Il; now left).
  apply StronglySorted_inv in S. destruct S as [S F]. destruct (lt y x) eqn:E.
  - constructor; [apply IH; [intros; apply Il; now right|exact S]|].
    rewrite <- insert_perm. constructor; [|exact F]. now apply (sw_asym lt v W y x).
  - constructor; [now constructor|]. constructor; [exact E|].
    rewrite Forall_forall in *. intros z Iz. apply (sw_ntrans lt v W z y x); auto. apply Il. now right.
Qed.

Lemma isort_sorted v : strict_weak_on lt v -> StronglySorted (fun a b => lt b a = false) (isort lt v).
Proof.
  intros W. assert (H : forall l, (forall y, In y l -> In y v) ->
    StronglySorted (fun a b => lt b a = false) (isort lt l)); [|now apply H].
  induction l as [|x r IH]; intros Il; simpl; [constructor|].
  apply (insert_sorted v); [exact W|apply Il; now left| |apply IH; intros; apply Il; now right].
  intros y Iy. apply Il. right. apply (Permutation_in y (Permutation_sym (isort_perm r)) Iy).
Qed.

Lemma isort_sorts v : strict_weak_on lt v -> sorts lt (isort lt) v.
Proof.
  intros W. split; [apply isort_perm|]. pose proof (isort_sorted v W) as S.
  revert S. generalize (isort lt v) as l. induction 1 as [|a l S IH F]; intros i j x y Hij Ei Ej.
  - destruct i; discriminate.
  - destruct j; [lia|]. rewrite Forall_forall in F. destruct i; simpl in *.
    + injection Ei as <-. apply F. exact (nth_error_In _ _ Ej).
    + apply (IH i j); auto; lia.
Qed.

End Isort.
