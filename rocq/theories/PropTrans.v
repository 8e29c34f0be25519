(** * C79: rows and columns are treated alike, for every element type *)

From Coq Require Import ZArith Lia Bool List Arith.
Import ListNotations.
From Flocq Require Import IEEE754.BinarySingleNaN.
From Verif Require Import Base Scalar CInt CFloat Model Spec Loops Struct Preds Float PropFloat.
Local Open Scope nat_scope.

(** the two calls return the same, or both do not return *)
Definition agree {A} (o o' : outcome A) : Prop := forall r, o = Ok r <-> o' = Ok r.
Notation "o === o'" := (agree o o') (at level 70).

Lemma agree_eq {A} (o o' : outcome A) : o = o' -> o === o'.
Proof. intros ->. intros r. reflexivity. Qed.

Section Generic.
Context (K : scalar).
Notation T := (elt K).
Notation tr := (trans K).

(** a table and the table of the exchanged subscripts *)
Lemma tabM_tr n m (f : nat -> nat -> outcome T) :
  (let* C := tabM n m f in tr n m C) === tabM m n (fun i j => f j i).
Proof.
  intros R. split; intros H.
  - apply bind_inv in H. destruct H as [C [E H]]. destruct (tabM_inv (lite K 0) _ _ _ _ E) as [c [-> Hc]].
    rewrite trans_mk in H. injection H as <-. apply tabM_ok. intros i j Hi Hj. apply Hc; assumption.
  - destruct (tabM_inv (lite K 0) _ _ _ _ H) as [c [-> Hc]].
    rewrite (tabM_ok n m f (fun i j => c j i)) by (intros i j Hi Hj; apply (Hc j i); assumption). cbn [bind].
    rewrite trans_mk. reflexivity.
Qed.

Ltac tomk := repeat match goal with
  | H : shape ?n ?m ?A |- _ => destruct (proj1 (shape_mk (lite K 0) n m A) H) as [?f ->]; clear H
  end; rewrite ?trans_mk; cbn [bind].

(** *** elementwise *)
Theorem c79_elementwise n m (A B : matrix T) (s : T) : shape n m A -> shape n m B ->
  (let* C := sum K n m A B in tr n m C) === (let* X := tr n m A in let* Y := tr n m B in sum K m n X Y) /\
  (let* C := sub K n m A B in tr n m C) === (let* X := tr n m A in let* Y := tr n m B in sub K m n X Y) /\
  (let* C := sum_scalar K n m A s in tr n m C) === (let* X := tr n m A in sum_scalar K m n X s) /\
  (let* C := sub_scalar K n m A s in tr n m C) === (let* X := tr n m A in sub_scalar K m n X s) /\
  (let* C := mult_scalar K n m A s in tr n m C) === (let* X := tr n m A in mult_scalar K m n X s) /\
  (let* C := div K n m A s in tr n m C) === (let* X := tr n m A in div K m n X s) /\
  (forall junk junk', shape n m junk -> shape m n junk' ->
   (let* C := abs K n m junk A in tr n m C) === (let* X := tr n m A in abs K m n junk' X)).
Proof.
  intros HA HB. tomk. repeat match goal with |- _ /\ _ => split end.
  - rewrite !sum_tab. apply tabM_tr.
  - rewrite !sub_tab. apply tabM_tr.
  - rewrite !sum_scalar_tab. apply tabM_tr.
  - rewrite !sub_scalar_tab. apply tabM_tr.
  - rewrite !mult_scalar_tab. apply tabM_tr.
  - rewrite !div_tab. destruct (xeq (ld s) (lit 0)); [intros r; split; discriminate|apply tabM_tr].
  - intros ? ? H1 H2. tomk. rewrite !abs_tab. apply tabM_tr.
Qed.

(** *** joining, deleting and exchanging *)
Theorem c79_join n1 n2 m (A B : matrix T) : shape n1 m A -> shape n2 m B ->
  (let* C := concatenate_v K n1 n2 m A B in tr (n1 + n2) m C) =
  (let* X := tr n1 m A in let* Y := tr n2 m B in concatenate_h K m n1 n2 X Y).
Proof.
  intros HA HB. tomk. rewrite concatenate_v_mk, concatenate_h_mk. cbn [bind]. rewrite trans_mk. reflexivity.
Qed.

Theorem c79_minor n (A : matrix T) i j : shape n n A -> i < n -> j < n ->
  (let* C := getminor K n A i j in tr (n - 1) (n - 1) C) = (let* X := tr n n A in getminor K n X j i).
Proof.
  intros HA Hi Hj. tomk. rewrite !getminor_mk by assumption. cbn [bind]. rewrite trans_mk. reflexivity.
Qed.

Theorem c79_swap n m (A : matrix T) a b : shape n m A -> a < n -> b < n ->
  (let* C := swap_rows K n m A a b in tr n m C) = (let* X := tr n m A in swap_cols K m n X a b).
Proof.
  intros HA Ha Hb. tomk. rewrite swap_rows_mk, swap_cols_mk by assumption. cbn [bind]. rewrite trans_mk. reflexivity.
Qed.

(** *** product *)
Section Commuting.
Hypothesis xmul_comm : forall a b : T, xmul (ld a) (ld b) = xmul (ld b) (ld a).

Lemma dot_comm m (f g : nat -> T) : dot K m f g = dot K m g f.
Proof.
  unfold dot. apply for_ext. intros k s Hk. cbv beta. rewrite xmul_comm. reflexivity.
Qed.

Theorem c79_mult n m p (A B : matrix T) : shape n m A -> shape m p B ->
  (let* C := mult K n m p A B in tr n p C) ===
  (let* Y := tr m p B in let* X := tr n m A in mult K p m n Y X).
Proof.
  intros HA HB. tomk. rewrite !mult_tab. intros R. rewrite (tabM_tr n p _ R).
  rewrite (tabM_ext p n (fun i j => dot K m (fun k => f k i) (fun k => f0 j k))
    (fun i j => dot K m (fun k => f0 j k) (fun k => f k i)));
  [|intros i j _ _; apply dot_comm]. reflexivity.
Qed.

Theorem c79_det2 (A : matrix T) : shape 2 2 A ->
  (let* X := tr 2 2 A in det K 2 X) = det K 2 A.
Proof.
  intros HA. tomk. cbn [det]. unfold det2. rewrite !aget_mk by lia. cbn [bind]. rewrite (xmul_comm (f 1 0)). reflexivity.
Qed.

Theorem c79_inv2 (A : matrix T) : shape 2 2 A ->
  (let* C := inv K 2 A in tr 2 2 C) === (let* X := tr 2 2 A in inv K 2 X).
Proof.
  intros HA. pose proof (c79_det2 A HA) as D. tomk. rewrite trans_mk in D. cbn [bind] in D.
  cbn [inv]. unfold inv2. rewrite D. destruct (det K 2 (mk 2 2 f)) as [x| | | |]; try (intros r; split; discriminate).
  cbn [bind]. destruct (xeq (ld x) (lit 0)); [intros r; split; discriminate|]. rewrite !aget_mk by lia. cbn [bind].
  destruct (xneg (ld (f 0 1))) as [u| | | |], (xneg (ld (f 1 0))) as [v| | | |]; cbn [bind]; try (intros r; split; discriminate).
  set (g := fun i j => match i, j with 0, 0 => f 1 1 | 0, _ => st u | _, 0 => st v | _, _ => f 0 0 end).
  change [[f 1 1; st u]; [st v; f 0 0]] with (mk 2 2 g).
  change [[f 1 1; st v]; [st u; f 0 0]] with (mk 2 2 (fun i j => g j i)).
  unfold op_div. rewrite !div_tab. destruct (xeq (ld x) (lit 0)); [intros r; split; discriminate|apply tabM_tr].
Qed.
End Commuting.

(** *** predicates *)
Theorem c79_symmetric n (A : matrix T) : (forall a b : T, xeq (ld a) (ld b) = xeq (ld b) (ld a)) -> shape n n A ->
  (let* X := tr n n A in isSymetric K n X) = isSymetric K n A.
Proof.
  intros Hs HA. tomk. destruct (isSymetric_mk K n f) as [b [-> Hb]], (isSymetric_mk K n (fun i j => f j i)) as [b' [-> Hb']].
  f_equal. apply eq_true_iff_eq. rewrite Hb, Hb'. split; intros H i j Hij; rewrite Hs; apply H; exact Hij.
Qed.

Theorem c79_identity n (A : matrix T) : shape n n A ->
  (let* X := tr n n A in isIdentity K n X) = isIdentity K n A.
Proof.
  intros HA. tomk. destruct (isIdentity_mk K n f) as [b [-> Hb]], (isIdentity_mk K n (fun i j => f j i)) as [b' [-> Hb']].
  f_equal. apply eq_true_iff_eq. rewrite Hb, Hb'.
  split; intros H i j Hi Hj; specialize (H j i Hj Hi); rewrite Nat.eqb_sym; exact H.
Qed.

(** the differences of all pairs of elements are defined *)
Theorem c79_compare n m (A B : matrix T) e : shape n m A -> shape n m B ->
  (forall i j a b, aget A i j = Ok a -> aget B i j = Ok b -> exists d, cmp_diff K a b = Ok d) ->
  (let* X := tr n m A in let* Y := tr n m B in compare K m n X Y e) = compare K n m A B e.
Proof.
  intros HA HB HD. tomk.
  assert (HD' : exists d, forall i j, i < n -> j < m -> cmp_diff K (f0 i j) (f i j) = Ok (d i j)).
  { exists (fun i j => match cmp_diff K (f0 i j) (f i j) with Ok d => d | _ => lit 0 end). intros i j Hi Hj.
    destruct (HD i j (f0 i j) (f i j)) as [d ->]; [apply aget_mk; assumption..|reflexivity]. }
  destruct HD' as [d Hd].
  destruct (compare_mk K n m f0 f d e Hd) as [b [-> Hb]].
  destruct (compare_mk K m n (fun i j => f0 j i) (fun i j => f j i) (fun i j => d j i) e) as [b' [-> Hb']].
  { intros i j Hi Hj. apply Hd; assumption. }
  f_equal. apply eq_true_iff_eq. rewrite Hb, Hb'. split; intros H i j Hi Hj; apply H; assumption.
Qed.
End Generic.

(** ** every arithmetic type multiplies commutatively and tests equality symmetrically *)
Lemma int_mul_comm t (a b : elt (intS t)) : @xmul (intS t) (@ld (intS t) a) (@ld (intS t) b) = @xmul (intS t) (@ld (intS t) b) (@ld (intS t) a).
Proof. cbn. rewrite Z.mul_comm. reflexivity. Qed.

Theorem c79_int t n m p (A B : matrix (elt (intS t))) : shape n m A -> shape m p B ->
  (let* C := mult (intS t) n m p A B in trans (intS t) n p C) ===
  (let* Y := trans (intS t) m p B in let* X := trans (intS t) n m A in mult (intS t) p m n Y X).
Proof. intros HA HB. apply c79_mult; [apply int_mul_comm|exact HA|exact HB]. Qed.

Section FloatTr.
Variables prec emax : Z.
Context {Hp : FLX.Prec_gt_0 prec} {He : Prec_lt_emax prec emax}.
Notation F := (floatS prec emax).
Lemma float_mul_comm (a b : elt F) : @xmul F (@ld F a) (@ld F b) = @xmul F (@ld F b) (@ld F a).
Proof. cbn. rewrite (Bmult_comm prec emax). reflexivity. Qed.

(** bit for bit *)
Theorem c79_float n m p (A B : matrix (elt F)) : shape n m A -> shape m p B ->
  (let* C := mult F n m p A B in trans F n p C) ===
  (let* Y := trans F m p B in let* X := trans F n m A in mult F p m n Y X).
Proof. intros HA HB. apply c79_mult; [apply float_mul_comm|exact HA|exact HB]. Qed.

Theorem c79_float2 (A : matrix (elt F)) : shape 2 2 A ->
  (let* X := trans F 2 2 A in det F 2 X) = det F 2 A /\
  (let* C := inv F 2 A in trans F 2 2 C) === (let* X := trans F 2 2 A in inv F 2 X).
Proof. intros HA. split; [apply c79_det2|apply c79_inv2]; try exact float_mul_comm; exact HA. Qed.
End FloatTr.

(** ** where the order of the additions matters: determinants and inverses of
    3x3 matrices, powers, convolutions *)
Definition tz (z : Z) : elt float64S := Bdiv mode_NE (fz64 z) (fz64 10).
Definition tr_A3 : matrix (elt float64S) := map (map tz) [[1; 2; 3]; [4; 5; 6]; [7; 8; 10]]%Z.
Definition tr_A2 : matrix (elt float64S) := map (map tz) [[1; 2]; [3; 4]]%Z.
Definition tr_k : matrix (elt float64S) := map (map tz) [[1; 7; 3]; [4; -5; 6]; [-11; 8; 13]]%Z.
Definition difd (o o' : outcome (elt float64S)) : bool := match o, o' with Ok x, Ok y => negb (Beqb x y) | _, _ => false end.
Notation D := float64S.

Lemma c79_float_check : difd (let* X := trans D 3 3 tr_A3 in det D 3 X) (det D 3 tr_A3) &&
  differ (K := D) (let* X := trans D 3 3 tr_A3 in inv D 3 X) (let* C := inv D 3 tr_A3 in trans D 3 3 C) &&
  differ (K := D) (let* X := trans D 2 2 tr_A2 in pow D 2 32 X 3) (let* C := pow D 2 32 tr_A2 3 in trans D 2 2 C) &&
  differ (K := D) (let* X := trans D 3 3 tr_A3 in let* y := trans D 3 3 tr_k in conv2 D 3 3 X y)
    (let* C := conv2 D 3 3 tr_A3 tr_k in trans D 3 3 C) = true.
Proof. vm_compute. reflexivity. Qed.

(** both return, and the results differ *)
Theorem c79_not_float :
  (exists A, shape 3 3 A /\ difd (let* X := trans D 3 3 A in det D 3 X) (det D 3 A) = true /\
    differ (K := D) (let* X := trans D 3 3 A in inv D 3 X) (let* C := inv D 3 A in trans D 3 3 C) = true) /\
  (exists A, shape 2 2 A /\
    differ (K := D) (let* X := trans D 2 2 A in pow D 2 32 X 3) (let* C := pow D 2 32 A 3 in trans D 2 2 C) = true) /\
  (exists A k, shape 3 3 A /\ shape 3 3 k /\
    differ (K := D) (let* X := trans D 3 3 A in let* y := trans D 3 3 k in conv2 D 3 3 X y)
    (let* C := conv2 D 3 3 A k in trans D 3 3 C) = true).
Proof.
  pose proof c79_float_check as H. rewrite !andb_true_iff in H. destruct H as [[[H1 H2] H3] H4].
  assert (S3 : shape 3 3 tr_A3) by (split; [reflexivity|]; intros r [<-|[<-|[<-|[]]]]; reflexivity).
  assert (Sk : shape 3 3 tr_k) by (split; [reflexivity|]; intros r [<-|[<-|[<-|[]]]]; reflexivity).
  assert (S2 : shape 2 2 tr_A2) by (split; [reflexivity|]; intros r [<-|[<-|[]]]; reflexivity).
  split; [exists tr_A3; auto|]. split; [exists tr_A2; auto|]. exists tr_A3, tr_k. auto.
Qed.

(** a product that returns, in int and double *)
Example c79_ex : mult (intS int32) 2 2 2 [[1; 2]; [3; 4]]%Z [[5; 6]; [7; 8]]%Z = Ok [[19; 22]; [43; 50]]%Z /\
  mult (intS int32) 2 2 2 [[5; 7]; [6; 8]]%Z [[1; 3]; [2; 4]]%Z = Ok [[19; 43]; [22; 50]]%Z.
Proof. split; vm_compute; reflexivity. Qed.

Print Assumptions c79_elementwise.
Print Assumptions c79_join.
Print Assumptions c79_minor.
Print Assumptions c79_swap.
Print Assumptions c79_mult.
Print Assumptions c79_det2.
Print Assumptions c79_inv2.
Print Assumptions c79_symmetric.
Print Assumptions c79_identity.
Print Assumptions c79_compare.
Print Assumptions c79_int.
Print Assumptions c79_float.
Print Assumptions c79_float2.
Print Assumptions c79_not_float.
