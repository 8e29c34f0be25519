(** * C95 in floating point: triangular and permutation matrices

    Zeros stay zeros, whatever is rounded elsewhere. *)

From Coq Require Import ZArith Reals Lra Lia Bool List Arith.
Import ListNotations.
From Flocq Require Import IEEE754.BinarySingleNaN Core.Core.
From Verif Require Import Base Scalar CInt CFloat Model Spec Loops Struct Preds LURec
  Float FloatMx FloatPoly PropFloat.

Local Open Scope nat_scope.

Section Format.
Variables prec emax : Z.
Context {Hp : Prec_gt_0 prec} {He : Prec_lt_emax prec emax}.
Notation fl := (binary_float prec emax).
Notation K := (floatS prec emax).
Notation "x ⊕ y" := (Bplus mode_NE x y) (at level 50, left associativity).
Notation "x ⊗ y" := (Bmult mode_NE x y) (at level 40, left associativity).
Implicit Types (x y z : fl) (f g c : nat -> nat -> fl).

Definition is_zero x : Prop := match x with B754_zero _ => True | _ => False end.
(** the same number, zeros of either sign being the same *)
Definition same x y : Prop := x = y \/ is_zero x /\ is_zero y.

Lemma same_refl x : same x x. Proof. left. reflexivity. Qed.
Lemma same_trans x y z : same x y -> same y z -> same x z.
Proof. intros [->|[A B]] [<-|[C D]]; [left; reflexivity | right; auto | right; auto | right; auto]. Qed.

Lemma zero_mult_l x y : is_zero x -> is_finite y = true -> is_zero (x ⊗ y).
Proof. destruct x; intros []; destruct y; try discriminate; intros _; exact I. Qed.
Lemma zero_mult_r x y : is_zero y -> is_finite x = true -> is_zero (x ⊗ y).
Proof. destruct y; intros []; destruct x; try discriminate; intros _; exact I. Qed.
Lemma zero_plus_l x y : is_zero x -> same (x ⊕ y) y.
Proof.
  destruct x; intros []; destruct y as [s'|s'| |s' m e E]; try (left; reflexivity).
  right. split; [|exact I]. cbn. destruct (Bool.eqb s s'); exact I.
Qed.
Lemma zero_plus_r x y : is_zero y -> same (x ⊕ y) x.
Proof.
  destruct y; intros []; destruct x as [s'|s'| |s' m e E]; try (left; reflexivity).
  right. split; [|exact I]. cbn. destruct (Bool.eqb s' s); exact I.
Qed.
Lemma same_zero x y : same x y -> is_zero y -> is_zero x.
Proof. intros [->|[A _]]; auto. Qed.
Lemma same_sym x y : same x y -> same y x.
Proof. intros [->|[A B]]; [left; reflexivity | right; auto]. Qed.
Lemma same_mult x x' y y' : same x x' -> same y y' -> same (x ⊗ y) (x' ⊗ y').
Proof.
  intros [->|[A B]] [->|[C D]]; [left; reflexivity| | |].
  - destruct y, y'; try contradiction. destruct x' as [s1|s1| |s1 m e E]; try (left; reflexivity); right; split; exact I.
  - destruct x, x'; try contradiction. destruct y' as [s1|s1| |s1 m e E]; try (left; reflexivity); right; split; exact I.
  - destruct x, x', y, y'; try contradiction. right; split; exact I.
Qed.

(** a dot product in which only one term is not a product with zero *)
Lemma fdot_single m (a b : nat -> fl) j :
  (forall k, k < m -> k <> j -> (is_zero (a k) /\ is_finite (b k) = true) \/ (is_zero (b k) /\ is_finite (a k) = true)) ->
  same (fdot prec emax m a b) (if j <? m then a j ⊗ b j else B754_zero false).
Proof.
  induction m as [|m IH]; intros H; [apply same_refl|]. cbn [fdot].
  specialize (IH ltac:(auto)).
  destruct (Nat.eq_dec m j) as [->|N].
  - rewrite Nat.ltb_irrefl in IH. rewrite (proj2 (Nat.ltb_lt j (S j))) by lia.
    apply zero_plus_l. apply (same_zero _ _ IH). exact I.
  - assert (Z : is_zero (a m ⊗ b m)).
    { destruct (H m ltac:(lia) N) as [[A B]|[A B]]; [apply zero_mult_l | apply zero_mult_r]; assumption. }
    apply (same_trans _ _ _ (zero_plus_r _ _ Z)).
    destruct (Nat.ltb_spec j m), (Nat.ltb_spec j (S m)); try lia; exact IH.
Qed.

Definition upper_fl n f : Prop := forall i j, j < i < n -> is_zero (f i j).
Definition lower_fl n f : Prop := forall i j, i < j < n -> is_zero (f i j).
Definition finite_fl n m f : Prop := forall i j, i < n -> j < m -> is_finite (f i j) = true.

(** products of triangular matrices of finite elements: exact zeros, and one rounding on the
    diagonal, even when elements beside it overflow *)
Theorem c95_float_upper n f g : upper_fl n f -> upper_fl n g -> finite_fl n n f -> finite_fl n n g ->
  exists c, mult K n n n (mk n n f) (mk n n g) = Ok (mk n n c) /\ upper_fl n c /\
    forall i, i < n -> same (c i i) (f i i ⊗ g i i).
Proof.
  intros Uf Ug Ff Fg. rewrite mult_float. eexists. split; [reflexivity|]. cbn beta. split.
  - intros i j Hij.
    eapply same_zero; [apply (fdot_single n _ _ n)|].
    + intros k Hk _. destruct (Nat.lt_ge_cases k i).
      * left. split; [apply Uf | apply Fg]; lia.
      * right. split; [apply Ug | apply Ff]; lia.
    + rewrite Nat.ltb_irrefl. exact I.
  - intros i Hi. eapply same_trans; [apply (fdot_single n _ _ i)|].
    + intros k Hk N. destruct (Nat.lt_ge_cases k i).
      * left. split; [apply Uf | apply Fg]; lia.
      * right. split; [apply Ug | apply Ff]; lia.
    + rewrite (proj2 (Nat.ltb_lt i n)) by exact Hi. apply same_refl.
Qed.

Theorem c95_float_lower n f g : lower_fl n f -> lower_fl n g -> finite_fl n n f -> finite_fl n n g ->
  exists c, mult K n n n (mk n n f) (mk n n g) = Ok (mk n n c) /\ lower_fl n c /\
    forall i, i < n -> same (c i i) (f i i ⊗ g i i).
Proof.
  intros Uf Ug Ff Fg. rewrite mult_float. eexists. split; [reflexivity|]. cbn beta. split.
  - intros i j Hij.
    eapply same_zero; [apply (fdot_single n _ _ n)|].
    + intros k Hk _. destruct (Nat.lt_ge_cases i k).
      * left. split; [apply Uf | apply Fg]; lia.
      * right. split; [apply Ug | apply Ff]; lia.
    + rewrite Nat.ltb_irrefl. exact I.
  - intros i Hi. eapply same_trans; [apply (fdot_single n _ _ i)|].
    + intros k Hk N. destruct (Nat.lt_ge_cases i k).
      * left. split; [apply Uf | apply Fg]; lia.
      * right. split; [apply Ug | apply Ff]; lia.
    + rewrite (proj2 (Nat.ltb_lt i n)) by exact Hi. apply same_refl.
Qed.

(** powers: if no element overflowed, the result is triangular, and its diagonal holds the
    powers of the 1x1 matrices of the diagonal *)
Lemma finite_factor n (f g : nat -> nat -> fl) :
  finite_fl n n (fun i j => fdot prec emax n (fun k => f i k) (fun k => g k j)) -> finite_fl n n f /\ finite_fl n n g.
Proof.
  intros H. split; intros i j Hi Hj.
  - apply (fdot_finite prec emax n _ _ (H i i Hi Hi) j Hj).
  - destruct (fdot_finite prec emax n _ _ (H i j Hi Hj) i Hi) as [_ [A _]]. exact A.
Qed.

Lemma upper_mult n f g : upper_fl n f -> upper_fl n g -> finite_fl n n f -> finite_fl n n g ->
  let c := fun i j => fdot prec emax n (fun k => f i k) (fun k => g k j) in
  upper_fl n c /\ forall i, i < n -> same (c i i) (f i i ⊗ g i i).
Proof.
  intros Uf Ug Ff Fg c. destruct (c95_float_upper n f g Uf Ug Ff Fg) as [c' [E [U D]]].
  rewrite mult_float in E. injection E as E.
  assert (A : forall i j, i < n -> j < n -> c i j = c' i j) by (intros i j Hi Hj; exact (mk_inj _ _ _ _ E i j Hi Hj)).
  split; [intros i j Hij; rewrite A by lia; auto | intros i Hi; rewrite A by lia; auto].
Qed.

Lemma pow_fuel_upper n f : upper_fl n f -> forall fuel w p, (0 <= p)%Z ->
  forall C, pow_fuel K fuel n w (mk n n f) p = Ok C ->
  exists c, C = mk n n c /\ (finite_fl n n f -> finite_fl n n c -> upper_fl n c /\
    forall i, i < n -> exists d, pow_fuel K fuel 1 w (mk 1 1 (fun _ _ => f i i)) p = Ok (mk 1 1 (fun _ _ => d)) /\ same (c i i) d).
Proof.
  intros Uf. induction fuel as [|fuel IH]; intros w p P C E; [discriminate|]. cbn [pow_fuel] in *.
  destruct (p =? 0)%Z.
  { rewrite eye1_mk in E. injection E as <-. eexists. split; [reflexivity|]. intros _ _. cbn beta. split.
    - intros i j Hij. rewrite (proj2 (Nat.eqb_neq i j)) by lia. exact I.
    - intros i Hi. rewrite eye1_mk. eexists. split; [reflexivity|]. rewrite !Nat.eqb_refl. apply same_refl. }
  destruct (p =? 1)%Z.
  { injection E as <-. exists f. split; [reflexivity|]. intros _ _. split; [exact Uf|].
    intros i Hi. eexists. split; [reflexivity|]. apply same_refl. }
  destruct (Z.ltb_spec p 0); [lia|]. cbn [bind] in *.
  apply bind_inv in E. destruct E as [X [EX E]].
  destruct (IH (Z.max w 32) (Z.quot p 2) ltac:(apply Z.quot_pos; lia) X EX) as [q [-> Hq]].
  set (q2 := fun i j => fdot prec emax n (fun k => q i k) (fun k => q k j)).
  assert (E2 : op_mult K n n n (mk n n q) (mk n n q) = Ok (mk n n q2)) by (apply mult_float).
  assert (S2 : forall d, op_mult K 1 1 1 (mk 1 1 (fun _ _ => d)) (mk 1 1 (fun _ _ => d)) =
    Ok (mk 1 1 (fun _ _ => B754_zero false ⊕ d ⊗ d))) by (intros d; apply (mult_float prec emax 1 1 1 (fun _ _ => d) (fun _ _ => d))).
  destruct (Z.rem p 2 =? 0)%Z.
  - rewrite E2 in E. injection E as <-. exists q2. split; [reflexivity|]. intros Ff F2.
    destruct (finite_factor n q q F2) as [Fq _]. destruct (Hq Ff Fq) as [Uq Dq].
    destruct (upper_mult n q q Uq Uq Fq Fq) as [U2 D2]. split; [exact U2|]. intros i Hi.
    destruct (Dq i Hi) as [d [Ed Sd]]. rewrite Ed. cbn [bind]. rewrite S2. eexists. split; [reflexivity|].
    apply (same_trans _ _ _ (D2 i Hi)). apply same_sym.
    apply (same_trans _ (d ⊗ d)); [apply zero_plus_l; exact I|]. apply same_mult; apply same_sym; exact Sd.
  - rewrite E2 in E. cbn [bind] in E.
    set (q3 := fun i j => fdot prec emax n (fun k => q2 i k) (fun k => f k j)).
    assert (E3 : op_mult K n n n (mk n n q2) (mk n n f) = Ok (mk n n q3)) by (apply mult_float).
    rewrite E3 in E. injection E as <-. exists q3. split; [reflexivity|]. intros Ff F3.
    destruct (finite_factor n q2 f F3) as [F2 _].
    destruct (finite_factor n q q F2) as [Fq _]. destruct (Hq Ff Fq) as [Uq Dq].
    destruct (upper_mult n q q Uq Uq Fq Fq) as [U2 D2]. fold q2 in U2, D2.
    destruct (upper_mult n q2 f U2 Uf F2 Ff) as [U3 D3]. split; [exact U3|]. intros i Hi.
    destruct (Dq i Hi) as [d [Ed Sd]]. rewrite Ed. cbn [bind]. rewrite S2. cbn [bind].
    set (d2 := B754_zero false ⊕ d ⊗ d).
    assert (S3 : op_mult K 1 1 1 (mk 1 1 (fun _ _ => d2)) (mk 1 1 (fun _ _ => f i i)) =
      Ok (mk 1 1 (fun _ _ => B754_zero false ⊕ d2 ⊗ f i i)))
      by (apply (mult_float prec emax 1 1 1 (fun _ _ => d2) (fun _ _ => f i i))).
    rewrite S3. eexists. split; [reflexivity|].
    apply (same_trans _ _ _ (D3 i Hi)). apply same_sym.
    apply (same_trans _ (d2 ⊗ f i i)); [apply zero_plus_l; exact I|].
    apply same_mult; [|apply same_refl]. apply same_sym. apply (same_trans _ _ _ (D2 i Hi)). apply same_sym.
    apply (same_trans _ (d ⊗ d)); [apply zero_plus_l; exact I|]. apply same_mult; apply same_sym; exact Sd.
Qed.

Theorem c95_float_upper_pow n w f p C : upper_fl n f -> finite_fl n n f -> (0 <= p)%Z ->
  pow K n w (mk n n f) p = Ok C ->
  exists c, C = mk n n c /\ (finite_fl n n c -> upper_fl n c /\
    forall i, i < n -> exists d, pow K 1 w (mk 1 1 (fun _ _ => f i i)) p = Ok (mk 1 1 (fun _ _ => d)) /\ same (c i i) d).
Proof.
  intros Uf Ff P E. destruct (pow_fuel_upper n f Uf _ w p P C E) as [c [-> H]]. exists c. split; [reflexivity|]. auto.
Qed.

(** a matrix of zeros and ones with one 1 in each row selects rows, exactly *)
Theorem c95_float_select n m p (s : nat -> nat) f : (forall i, i < n -> s i < m) -> finite_fl m p f ->
  exists c, mult K n m p (mk n m (fun i k => if k =? s i then f_of_Z prec emax 1 else B754_zero false)) (mk m p f)
    = Ok (mk n p c) /\ forall i j, i < n -> j < p -> same (c i j) (f (s i) j).
Proof.
  intros Hs Ff. rewrite mult_float. eexists. split; [reflexivity|]. cbn beta. intros i j Hi Hj.
  eapply same_trans; [apply (fdot_single m _ _ (s i))|].
  - intros k Hk N. left. rewrite (proj2 (Nat.eqb_neq k (s i))) by exact N. split; [exact I|]. apply Ff; assumption.
  - rewrite (proj2 (Nat.ltb_lt (s i) m)) by auto. rewrite Nat.eqb_refl.
    rewrite (Bmult_comm prec emax), (Bmult_1_r prec emax). apply same_refl.
Qed.
End Format.

(** two triangular float matrices with a finite product *)
Example c95_ex_float :
  let big := f_of_Z 24 128 (2 ^ 100) in
  let f := fun i j => if j <? i then B754_zero false else if i =? j then f_of_Z 24 128 3 else big in
  upper_fl 24 128 2 f /\ finite_fl 24 128 2 2 f /\
  match mult float32S 2 2 2 (mk 2 2 f) (mk 2 2 f) with
  | Ok C => forallb (forallb (fun x => is_finite x)) C | _ => false end = true.
Proof.
  cbv zeta. split; [|split].
  - intros i j H. rewrite (proj2 (Nat.ltb_lt j i)) by lia. exact I.
  - intros [|[|i]] [|[|j]] Hi Hj; try lia; vm_compute; reflexivity.
  - vm_compute. reflexivity.
Qed.
