(** * C83: matrices of bool are relations

    Element (i, j) of a bool matrix says whether i is related to j. *)

From Coq Require Import ZArith Bool Lia List Arith Permutation.
Import ListNotations.
From Verif Require Import Base Scalar CInt CBool Model Spec Loops Struct Conv Order Stat.
Local Open Scope nat_scope.

(** i is related to j *)
Definition rel (A : matrix bool) (i j : nat) : Prop := aget A i j = Ok true.

(** two matrices of the same shape that relate the same indices are equal *)
Lemma rel_ext n m (A B : matrix bool) : shape n m A -> shape n m B ->
  (forall i j, i < n -> j < m -> rel A i j <-> rel B i j) -> A = B.
Proof.
  intros HA HB H. destruct (proj1 (shape_mk false _ _ _) HA) as [f ->]. destruct (proj1 (shape_mk false _ _ _) HB) as [g ->].
  apply mk_ext. intros i j Hi Hj. specialize (H i j Hi Hj). unfold rel in H. rewrite !aget_mk in H by assumption.
  destruct (f i j), (g i j); try reflexivity; [destruct H as [H _]|destruct H as [_ H]]; specialize (H eq_refl); discriminate.
Qed.

Lemma rel_mk n m (f : nat -> nat -> bool) i j : rel (mk n m f) i j <-> i < n /\ j < m /\ f i j = true.
Proof.
  unfold rel. destruct (le_lt_dec n i) as [Hi|Hi].
  { rewrite aget_mk_row_oob by exact Hi. split; [discriminate|lia]. }
  destruct (le_lt_dec m j) as [Hj|Hj].
  { rewrite aget_mk_col_oob by exact Hj. split; [discriminate|lia]. }
  rewrite aget_mk by assumption. split; [intros [= E]; auto|intros [_ [_ ->]]; reflexivity].
Qed.

Ltac tomk := repeat match goal with
  | H : shape ?n ?m ?A |- _ => destruct (proj1 (shape_mk false n m A) H) as [?f ->]; clear H
  end.

Lemma dot_bool m (a b : nat -> bool) : dot boolS m a b = Ok (existsb (fun k => a k && b k) (seq 0 m)).
Proof.
  unfold dot. induction m as [|m IH]; [reflexivity|]. rewrite for_snoc by lia. rewrite IH. cbn [bind].
  change (@ld boolS) with b2z. rewrite (bmul (a m) (b m)). cbn [bind].
  replace (seq 0 (S m)) with (seq 0 m ++ [m]) by (rewrite seq_S; reflexivity).
  rewrite existsb_app. cbn [existsb]. rewrite orb_false_r. exact (badd _ _).
Qed.

Lemma mult_bool n m p (f g : nat -> nat -> bool) :
  mult boolS n m p (mk n m f) (mk m p g) = Ok (mk n p (fun i j => existsb (fun k => f i k && g k j) (seq 0 m))).
Proof. rewrite (mult_tab boolS). apply tabM_ok. intros i j _ _. apply dot_bool. Qed.

Lemma sum_bool n m (f g : nat -> nat -> bool) :
  sum boolS n m (mk n m f) (mk n m g) = Ok (mk n m (fun i j => f i j || g i j)).
Proof. rewrite (sum_tab boolS). apply tabM_ok. intros i j _ _. exact (badd _ _). Qed.

Lemma sub_bool n m (f g : nat -> nat -> bool) :
  sub boolS n m (mk n m f) (mk n m g) = Ok (mk n m (fun i j => xorb (f i j) (g i j))).
Proof. rewrite (sub_tab boolS). apply tabM_ok. intros i j _ _. exact (bsub _ _). Qed.

Lemma eye_bool n : eye1 boolS n = Ok (mk n n (fun i j => i =? j)).
Proof. rewrite (eye1_mk boolS). f_equal. apply mk_ext. intros i j _ _. destruct (i =? j); reflexivity. Qed.

(** ** the operations on relations *)

(** the product is the composition of relations; it never overflows *)
Theorem c83_mult n m p A B : shape n m A -> shape m p B ->
  exists C, mult boolS n m p A B = Ok C /\ shape n p C /\
  forall i j, rel C i j <-> exists k, rel A i k /\ rel B k j.
Proof.
  intros HA HB. tomk. rewrite mult_bool. eexists. split; [reflexivity|]. split; [apply shape_of_mk|].
  intros i j. rewrite rel_mk, existsb_exists. split.
  - intros [Hi [Hj [k [Hk E]]]]. apply andb_prop in E. destruct E as [E1 E2]. apply in_seq in Hk.
    exists k. rewrite !rel_mk. repeat split; trivial; lia.
  - intros [k [H1 H2]]. rewrite rel_mk in H1, H2. destruct H1 as [Hi [Hk E1]]. destruct H2 as [_ [Hj E2]].
    split; [exact Hi|]. split; [exact Hj|]. exists k. split; [apply in_seq; lia|]. rewrite E1, E2. reflexivity.
Qed.

(** the sum is the union, the difference the symmetric difference, the product
    with a scalar keeps everything or nothing, the transpose is the converse *)
Theorem c83_sum n m A B : shape n m A -> shape n m B ->
  exists C, sum boolS n m A B = Ok C /\ shape n m C /\ forall i j, rel C i j <-> rel A i j \/ rel B i j.
Proof.
  intros HA HB. tomk. rewrite sum_bool. eexists. split; [reflexivity|]. split; [apply shape_of_mk|].
  intros i j. rewrite !rel_mk, orb_true_iff. tauto.
Qed.
Theorem c83_sub n m A B : shape n m A -> shape n m B ->
  exists C, sub boolS n m A B = Ok C /\ shape n m C /\
  forall i j, rel C i j <-> (rel A i j /\ ~ rel B i j) \/ (rel B i j /\ ~ rel A i j).
Proof.
  intros HA HB. tomk. rewrite sub_bool. eexists. split; [reflexivity|]. split; [apply shape_of_mk|].
  intros i j. rewrite !rel_mk. destruct (f i j), (f0 i j); cbn; intuition congruence.
Qed.
Theorem c83_scalar n m A s : shape n m A ->
  exists C, mult_scalar boolS n m A s = Ok C /\ C = if s then A else zeros boolS n m.
Proof.
  intros HA. tomk. eexists. split; [|reflexivity]. rewrite (mult_scalar_tab boolS).
  transitivity (Ok (mk n m (fun i j => f i j && s))).
  - apply tabM_ok. intros i j _ _. change (@ld boolS) with b2z. rewrite bmul. destruct (f i j), s; reflexivity.
  - f_equal. destruct s; [|rewrite (zeros_mk boolS)]; apply mk_ext; intros i j _ _; destruct (f i j); reflexivity.
Qed.
Theorem c83_trans n m A : shape n m A ->
  exists C, trans boolS n m A = Ok C /\ shape m n C /\ forall i j, rel C i j <-> rel A j i.
Proof.
  intros HA. tomk. rewrite (trans_mk boolS). eexists. split; [reflexivity|]. split; [apply shape_of_mk|].
  intros i j. rewrite !rel_mk. tauto.
Qed.

(** ** laws, with no rounding or overflow to spoil them *)
Theorem c83_laws n m p q A B C : shape n m A -> shape m p B -> shape p q C ->
  (let* X := mult boolS n m p A B in mult boolS n p q X C) = (let* Y := mult boolS m p q B C in mult boolS n m q A Y).
Proof.
  intros HA HB HC. tomk. rewrite !mult_bool. cbn [bind]. rewrite !mult_bool. f_equal.
  apply (rel_ext n q); try apply shape_of_mk. intros i j Hi Hj. rewrite !rel_mk, !existsb_exists. split.
  - intros [_ [_ [l [Hl E]]]]. apply andb_prop in E. destruct E as [E E3]. apply existsb_exists in E.
    destruct E as [k [Hk E]]. apply andb_prop in E. destruct E as [E1 E2]. repeat split; trivial.
    exists k. split; [exact Hk|]. rewrite E1. apply existsb_exists. exists l. split; [exact Hl|]. rewrite E2, E3. reflexivity.
  - intros [_ [_ [k [Hk E]]]]. apply andb_prop in E. destruct E as [E1 E]. apply existsb_exists in E.
    destruct E as [l [Hl E]]. apply andb_prop in E. destruct E as [E2 E3]. repeat split; trivial.
    exists l. split; [exact Hl|]. rewrite E3, andb_true_r. apply existsb_exists. exists k. split; [exact Hk|]. rewrite E1, E2. reflexivity.
Qed.
Theorem c83_distr n m p A B C : shape n m A -> shape m p B -> shape m p C ->
  (let* X := sum boolS m p B C in mult boolS n m p A X) =
  (let* X := mult boolS n m p A B in let* Y := mult boolS n m p A C in sum boolS n p X Y).
Proof.
  intros HA HB HC. tomk. rewrite sum_bool, !mult_bool. cbn [bind]. rewrite sum_bool, mult_bool. f_equal.
  apply mk_ext. intros i j _ _. induction (seq 0 m) as [|k l IH]; [reflexivity|]. cbn [existsb]. rewrite IH.
  destruct (existsb (fun k => f1 i k && f0 k j) l), (existsb (fun k => f1 i k && f k j) l), (f1 i k), (f0 k j), (f k j); reflexivity.
Qed.
Theorem c83_unit n m A : shape n m A ->
  (let* E := eye1 boolS n in mult boolS n n m E A) = Ok A /\ (let* E := eye1 boolS m in mult boolS n m m A E) = Ok A.
Proof.
  intros HA. tomk. rewrite !eye_bool. cbn [bind]. rewrite !mult_bool.
  split; f_equal; (apply (rel_ext n m); try apply shape_of_mk); intros i j Hi Hj; rewrite !rel_mk, existsb_exists.
  - split; [intros [_ [_ [k [_ E]]]]; apply andb_prop in E; destruct E as [E1 E2]; apply Nat.eqb_eq in E1; subst; auto|].
    intros [_ [_ E]]. repeat split; trivial. exists i. rewrite Nat.eqb_refl. split; [apply in_seq; lia|exact E].
  - split; [intros [_ [_ [k [_ E]]]]; apply andb_prop in E; destruct E as [E1 E2]; apply Nat.eqb_eq in E2; subst; auto|].
    intros [_ [_ E]]. repeat split; trivial. exists j. rewrite Nat.eqb_refl, E. split; [apply in_seq; lia|reflexivity].
Qed.
Theorem c83_sum_laws n m A B C : shape n m A -> shape n m B -> shape n m C ->
  sum boolS n m A A = Ok A /\ sum boolS n m A B = sum boolS n m B A /\
  (let* X := sum boolS n m A B in sum boolS n m X C) = (let* X := sum boolS n m B C in sum boolS n m A X) /\
  (let* X := sub boolS n m A B in sub boolS n m X B) = Ok A.
Proof.
  intros HA HB HC. tomk. rewrite !sum_bool, sub_bool. cbn [bind]. rewrite !sum_bool, sub_bool.
  repeat split; f_equal; apply mk_ext; intros i j _ _; destruct (f i j), (f0 i j), (f1 i j); reflexivity.
Qed.

(** ** convolution is dilation: an element becomes true when the kernel, laid
    on it, meets a true element *)
Lemma corr_bool n m (f k : nat -> nat -> bool) p q : exists v, corr boolS n m f k p q = Ok v /\
  (v = true <-> exists a b, a < 3 /\ b < 3 /\ k a b = true /\
     inside n m (p + Z.of_nat a - 1) (q + Z.of_nat b - 1) = true /\
     f (Z.to_nat (p + Z.of_nat a - 1)) (Z.to_nat (q + Z.of_nat b - 1)) = true).
Proof.
  set (hit := fun ab : nat * nat => k (fst ab) (snd ab) &&
    (inside n m (p + Z.of_nat (fst ab) - 1) (q + Z.of_nat (snd ab) - 1) &&
     f (Z.to_nat (p + Z.of_nat (fst ab) - 1)) (Z.to_nat (q + Z.of_nat (snd ab) - 1)))).
  exists (existsb hit nine). split.
  - rewrite (corr_unfold boolS). cbv zeta.
    assert (S : forall c ab, corr_step boolS n m f k p q c ab = Ok (c || hit ab)).
    { intros c [a b]. unfold corr_step, hit. cbn [fst snd].
      destruct (inside n m (p + Z.of_nat a - 1) (q + Z.of_nat b - 1)).
      - change (@ld boolS) with b2z. rewrite bmul. cbn [bind]. rewrite (badd c). cbn [andb]. reflexivity.
      - cbn [bind]. rewrite andb_false_r, orb_false_r. destruct c; reflexivity. }
    rewrite !S. cbn [bind]. rewrite !S. cbn [bind]. rewrite !S. cbn [bind]. rewrite !S. cbn [bind]. rewrite !S. cbn [bind].
    rewrite !S. cbn [bind]. rewrite !S. cbn [bind]. rewrite !S. cbn [bind]. rewrite !S. f_equal.
    unfold nine. cbn [existsb]. change (lite boolS 0) with false. rewrite orb_false_r. cbn [orb].
    rewrite <- !orb_assoc. reflexivity.
  - rewrite existsb_exists. split.
    + intros [[a b] [Hin E]]. exists a, b. unfold hit in E. cbn [fst snd] in E. apply andb_prop in E. destruct E as [E1 E].
      apply andb_prop in E. destruct E as [E2 E3].
      assert (a < 3 /\ b < 3) by (unfold nine in Hin; cbn in Hin;
        repeat (destruct Hin as [Hin|Hin]; [injection Hin as <- <-; lia|]); contradiction).
      tauto.
    + intros [a [b [Ha [Hb [E1 [E2 E3]]]]]]. exists (a, b). split.
      * unfold nine. destruct a as [|[|[|]]]; [| | |lia]; destruct b as [|[|[|]]]; try lia; cbn; tauto.
      * unfold hit. cbn [fst snd]. rewrite E1, E2, E3. reflexivity.
Qed.

Theorem c83_conv2 n m A k : (Z.of_nat n <= 2 ^ 31)%Z -> (Z.of_nat m <= 2 ^ 31)%Z -> shape n m A -> shape 3 3 k ->
  exists C, conv2 boolS n m A k = Ok C /\ shape n m C /\
  forall r c, r < n -> c < m ->
    (rel C r c <-> exists a b i j, rel k a b /\ rel A i j /\ i + 1 = r + a /\ j + 1 = c + b).
Proof.
  intros Hn Hm HA Hk. tomk. rewrite (conv2_tab boolS) by assumption.
  set (g := fun r c => match corr boolS n m f0 f (Z.of_nat r) (Z.of_nat c) with Ok v => v | _ => false end).
  exists (mk n m g). split; [|split; [apply shape_of_mk|]].
  { apply tabM_ok. intros r c _ _. unfold g. destruct (corr_bool n m f0 f (Z.of_nat r) (Z.of_nat c)) as [v [-> _]]. reflexivity. }
  intros r c Hr Hc. rewrite rel_mk. unfold g.
  destruct (corr_bool n m f0 f (Z.of_nat r) (Z.of_nat c)) as [v [-> V]]. rewrite V. clear g V. split.
  - intros [_ [_ [a [b [Ha [Hb [E1 [E2 E3]]]]]]]]. unfold inside in E2.
    exists a, b, (Z.to_nat (Z.of_nat r + Z.of_nat a - 1)), (Z.to_nat (Z.of_nat c + Z.of_nat b - 1)).
    rewrite !rel_mk. repeat split; trivial; lia.
  - intros [a [b [i [j [H1 [H2 [H3 H4]]]]]]]. rewrite rel_mk in H1, H2. destruct H1 as [Ha [Hb E1]]. destruct H2 as [Hi [Hj E2]].
    repeat split; trivial. exists a, b. repeat split; trivial.
    + unfold inside. lia.
    + replace (Z.to_nat (Z.of_nat r + Z.of_nat a - 1)) with i by lia.
      replace (Z.to_nat (Z.of_nat c + Z.of_nat b - 1)) with j by lia. exact E2.
Qed.

(** ** powers: walks *)

(** a walk of p steps from i to j *)
Inductive walk (n : nat) (A : matrix bool) : nat -> nat -> nat -> Prop :=
| walk_nil i : i < n -> walk n A 0 i i
| walk_cons p i k j : rel A i k -> walk n A p k j -> walk n A (S p) i j.

Lemma walk_range n A p i j : shape n n A -> walk n A p i j -> i < n /\ j < n.
Proof.
  intros HA W. tomk. induction W as [i Hi|p i k j E W IH]; [tauto|]. apply rel_mk in E. tauto.
Qed.
Lemma walk_1 n A i j : shape n n A -> walk n A 1 i j <-> rel A i j.
Proof.
  intros HA. split.
  - intros W. inversion W as [|p i' k j' E W' Ep Ei Ej]; subst. inversion W'; subst. exact E.
  - intros E. apply walk_cons with j; [exact E|]. apply walk_nil. tomk. apply rel_mk in E. tauto.
Qed.
Lemma walk_app n A p q i j : shape n n A -> walk n A (p + q) i j <-> exists k, walk n A p i k /\ walk n A q k j.
Proof.
  intros HA. split.
  - revert i. induction p as [|p IH]; intros i W.
    + exists i. split; [|exact W]. apply walk_nil. exact (proj1 (walk_range _ _ _ _ _ HA W)).
    + inversion W as [|p' i' k j' E W' Ep Ei Ej]; subst. destruct (IH _ W') as [l [W1 W2]]. exists l.
      split; [|exact W2]. apply walk_cons with k; assumption.
  - intros [k [W1 W2]]. induction W1 as [i Hi|p i l k E W1 IH]; [exact W2|]. apply walk_cons with l; auto.
Qed.

(** composing two matrices of walks *)
Lemma mult_walk n A p q X Y : shape n n A -> shape n n X -> shape n n Y ->
  (forall i j, rel X i j <-> walk n A p i j) -> (forall i j, rel Y i j <-> walk n A q i j) ->
  exists Z, mult boolS n n n X Y = Ok Z /\ shape n n Z /\ forall i j, rel Z i j <-> walk n A (p + q) i j.
Proof.
  intros HA HX HY EX EY. destruct (c83_mult n n n X Y HX HY) as [Z [E [S H]]]. exists Z. split; [exact E|]. split; [exact S|].
  intros i j. rewrite H, walk_app by exact HA. split; intros [k [W1 W2]]; exists k; split; apply EX || apply EY; assumption.
Qed.

Lemma pow_fuel_walk n A (HA : shape n n A) fuel : forall w q k,
  (Z.of_nat q < 2 ^ Z.of_nat k)%Z -> k < fuel ->
  exists B, pow_fuel boolS fuel n w A (Z.of_nat q) = Ok B /\ shape n n B /\ forall i j, rel B i j <-> walk n A q i j.
Proof.
  induction fuel as [|fuel IH]; intros w q k Hq Hk; [lia|]. cbn [pow_fuel].
  destruct (Z.eqb_spec (Z.of_nat q) 0) as [E0|N0].
  { replace q with 0 by lia. rewrite eye_bool. eexists. split; [reflexivity|]. split; [apply shape_of_mk|].
    intros i j. rewrite rel_mk. split.
    - intros [Hi [_ E]]. apply Nat.eqb_eq in E. subst. apply walk_nil, Hi.
    - intros W. inversion W; subst. rewrite Nat.eqb_refl. tauto. }
  destruct (Z.eqb_spec (Z.of_nat q) 1) as [E1|N1].
  { replace q with 1 by lia. exists A. split; [reflexivity|]. split; [exact HA|]. intros i j. symmetry. apply walk_1, HA. }
  destruct (Z.ltb_spec (Z.of_nat q) 0); [lia|]. cbn [bind].
  assert (Hk1 : 0 < k). { destruct k; [|lia]. change (2 ^ Z.of_nat 0)%Z with 1%Z in Hq. lia. }
  assert (Eq : Z.quot (Z.of_nat q) 2 = Z.of_nat (q / 2)). { rewrite Z.quot_div_nonneg by lia. rewrite Nat2Z.inj_div. reflexivity. }
  rewrite Eq.
  assert (Hq2 : (Z.of_nat (q / 2) < 2 ^ Z.of_nat (k - 1))%Z).
  { rewrite Nat2Z.inj_div. apply Z.div_lt_upper_bound; [lia|].
    replace (Z.of_nat k) with (1 + Z.of_nat (k - 1))%Z in Hq by lia. rewrite Z.pow_add_r in Hq by lia. exact Hq. }
  destruct (IH (Z.max w 32) (q / 2) (k - 1) Hq2 ltac:(lia)) as [P [EP [SP WP]]]. rewrite EP. cbn [bind].
  destruct (mult_walk n A (q / 2) (q / 2) P P HA SP SP WP WP) as [Q [EQ [SQ WQ]]].
  unfold op_mult. rewrite EQ.
  assert (Er : Z.rem (Z.of_nat q) 2 = Z.of_nat (q mod 2)). { rewrite Z.rem_mod_nonneg by lia. rewrite Nat2Z.inj_mod. reflexivity. }
  rewrite Er. pose proof (Nat.div_mod_eq q 2) as D. pose proof (Nat.mod_upper_bound q 2 ltac:(lia)) as M.
  destruct (Z.eqb_spec (Z.of_nat (q mod 2)) 0) as [Ev|Od].
  - exists Q. split; [reflexivity|]. split; [exact SQ|]. replace (q / 2 + q / 2) with q in WQ by lia. exact WQ.
  - cbn [bind]. assert (WA : forall i j, rel A i j <-> walk n A 1 i j) by (intros; symmetry; apply walk_1, HA).
    destruct (mult_walk n A _ _ Q A HA SQ HA WQ WA) as [R [ER [SR WR]]]. exists R. split; [exact ER|]. split; [exact SR|].
    replace (q / 2 + q / 2 + 1) with q in WR by lia. exact WR.
Qed.

(** pow(A, p) relates i to j exactly when there is a walk of p steps *)
Theorem c83_pow n w A p : shape n n A -> (1 <= w)%Z -> (Z.of_nat p < 2 ^ (w - 1))%Z ->
  exists B, pow boolS n w A (Z.of_nat p) = Ok B /\ shape n n B /\ forall i j, rel B i j <-> walk n A p i j.
Proof.
  intros HA Hw Hp. unfold pow. apply pow_fuel_walk with (k := Z.to_nat w); [exact HA| |lia].
  rewrite Z2Nat.id by lia. apply Z.lt_le_trans with (1 := Hp). apply Z.pow_le_mono_r; lia.
Qed.

(** ** statistics *)

(** the mean is false except for a 1x1 matrix: the sum is itself a bool *)
Theorem c83_mean n m A : (0 < Z.of_nat (n * m) < 2 ^ 64)%Z -> shape n m A ->
  mean boolS n m A = Ok ((n * m =? 1) && existsb (fun b => b) (elements A)).
Proof.
  intros Hs HA. tomk. unfold mean. change (lite boolS 0) with false.
  rewrite (for_ext 0 n _ (fun it r => for_ 0 m (fun jt r =>
    let* a := aget (mk n m f) it jt in Ok ((fun a r => r || a) a r)) r)).
  2:{ intros i r Hi. apply for_ext. intros j r' Hj. rewrite (@aget_mk bool) by lia. rewrite (@aget_mk (elt boolS)) by lia. cbn [bind]. exact (badd _ _). }
  rewrite (row_fold boolS n m f (fun a r => r || a)). cbn [bind].
  assert (E : forall l b, fold_left (fun s a => s || a) l b = b || existsb (fun b => b) l).
  { induction l as [|a l IH]; intros b; cbn; [rewrite orb_false_r; reflexivity|]. rewrite IH, orb_assoc. reflexivity. }
  rewrite E. cbn [orb]. set (v := existsb _ _). unfold size_mul. rewrite <- Nat2Z.inj_mul, Z.mod_small by lia.
  cbn [divsz boolS]. destruct (Z.eqb_spec (Z.of_nat (n * m)) 0); [lia|]. f_equal.
  destruct v; cbn [ld boolS b2z].
  - rewrite andb_true_r. change (1 mod 2 ^ 64)%Z with 1%Z. destruct (Nat.eqb_spec (n * m) 1) as [->|N].
    + reflexivity.
    + rewrite Z.div_small by lia. reflexivity.
  - change (0 mod 2 ^ 64)%Z with 0%Z. rewrite Z.div_0_l by lia. rewrite andb_false_r. reflexivity.
Qed.

Lemma less_bool a b : less boolS a b = negb a && b.
Proof. destruct a, b; reflexivity. Qed.
Lemma bool_order v : strict_weak_on (less boolS) v.
Proof.
  repeat split; repeat intro; rewrite ?less_bool in *; repeat match goal with x : elt boolS |- _ => destruct x end;
    cbn in *; congruence || reflexivity.
Qed.
Lemma count_compl (v : list bool) : count negb v + count (fun b => b) v = length v.
Proof. unfold count. induction v as [|[] v IH]; cbn [filter negb length]; lia. Qed.
Lemma count_ext {T} (p q : T -> bool) v : (forall x, p x = q x) -> count p v = count q v.
Proof. intros H. unfold count. f_equal. apply filter_ext, H. Qed.

(** the median is the strict majority *)
Theorem c83_median (sort : list bool -> list bool) n m A : 0 < n * m -> shape n m A ->
  sorts (less boolS) sort (elements A) ->
  median boolS sort n m A = Ok (n * m <? 2 * count (fun b => b) (elements A)).
Proof.
  intros Hp HA. tomk. intros So. set (v := elements (mk n m f)) in *.
  assert (Lv : length v = n * m) by exact (elements_length boolS n m f). pose proof (count_compl v) as Cv.
  pose proof (bool_order v) as W. pose proof (Nat.div_mod (n * m) 2 ltac:(lia)) as D.
  assert (Tr : forall k, nth_error (sort v) k = Some true -> count negb v <= k).
  { intros k E. rewrite <- (sorts_below (less boolS) v W sort k true So E) at 1. apply Nat.eq_le_incl, count_ext.
    intros []; reflexivity. }
  assert (Fa : forall k, nth_error (sort v) k = Some false -> count (fun b => b) v <= length v - S k).
  { intros k E. rewrite <- (sorts_above (less boolS) v W sort k false So E) at 1. apply Nat.eq_le_incl, count_ext.
    intros []; reflexivity. }
  destruct (Nat.eq_dec ((n * m) mod 2) 1) as [Ho|He].
  - destruct (median_odd boolS sort n m f W So Ho) as [x [E [Ex _]]]. etransitivity; [exact E|]. f_equal. fold v in Ex.
    change (x = (n * m <? 2 * count (fun b => b) v)).
    destruct x; [apply Tr in Ex|apply Fa in Ex]; destruct (Nat.ltb_spec (n * m) (2 * count (fun b => b) v)); trivial; lia.
  - pose proof (Nat.mod_upper_bound (n * m) 2 ltac:(lia)).
    destruct (median_even boolS sort n m f W So ltac:(lia) Hp) as [x [y [Ex [Ey E]]]]. etransitivity; [exact E|]. fold v in Ex, Ey.
    transitivity (Ok (x && y)); [destruct x, y; reflexivity|]. f_equal.
    change (x && y = (n * m <? 2 * count (fun b => b) v)).
    destruct x; [apply Tr in Ex|apply Fa in Ex]; (destruct y; [apply Tr in Ey|apply Fa in Ey]);
      destruct (Nat.ltb_spec (n * m) (2 * count (fun b => b) v)); trivial; cbn; lia.
Qed.

(** ** what does not carry over *)

(** the determinants up to 3x3 are computed in int and only then stored: true
    means that the integer determinant is not zero *)
Theorem c83_det n A : n <= 3 -> shape n n A ->
  exists d, det (intS int32) n (map (map b2z) A) = Ok d /\ det boolS n A = Ok (negb (d =? 0)%Z).
Proof.
  intros Hn HA. tomk. destruct n as [|[|[|[|]]]]; [| | | |lia].
  - eexists. split; reflexivity.
  - cbn. destruct (f 0 0); eexists; split; reflexivity.
  - cbn. destruct (f 0 0), (f 0 1), (f 1 0), (f 1 1); eexists; split; reflexivity.
  - cbn. destruct (f 0 0), (f 0 1), (f 0 2), (f 1 0), (f 1 1), (f 1 2), (f 2 0), (f 2 1), (f 2 2); eexists; split; reflexivity.
Qed.

Example c83_ex_median : shape 1 4 [[true; false; true; true]] /\
  median boolS (fun v => filter negb v ++ filter (fun b => b) v) 1 4 [[true; false; true; true]] = Ok true /\
  median boolS (fun v => filter negb v ++ filter (fun b => b) v) 1 4 [[true; false; true; false]] = Ok false /\
  mean boolS 1 4 [[true; true; true; true]] = Ok false.
Proof. split; [split; [reflexivity|intros r [<-|[]]; reflexivity]|vm_compute; auto]. Qed.

Print Assumptions c83_mult.
Print Assumptions c83_sum.
Print Assumptions c83_sub.
Print Assumptions c83_scalar.
Print Assumptions c83_trans.
Print Assumptions c83_laws.
Print Assumptions c83_distr.
Print Assumptions c83_sum_laws.
Print Assumptions c83_conv2.
Print Assumptions c83_pow.
Print Assumptions c83_mean.
Print Assumptions c83_median.
Print Assumptions c83_det.
