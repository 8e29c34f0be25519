(** * Consequences of the closed forms, stated on arbitrary well-shaped arrays;
    safety instances *)

From Coq Require Import List ZArith Lia Bool Arith.
Import ListNotations.
From Verif Require Import Base Scalar Model CInt CFloat Spec Loops Struct Conv Safety Order Stat.

Section Any.
Context (K : scalar).
Notation T := (elt K).
Implicit Types A B : matrix T.

(** replace a well-shaped array by [mk n m f] *)
Ltac tomk H := apply (shape_mk (lite K 0)) in H; let f := fresh "f" in destruct H as [f ->].

Lemma trans_twice n m A : shape n m A -> (let* B := trans K n m A in trans K m n B) = Ok A.
Proof. intros H. tomk H. rewrite trans_mk. simpl. apply trans_mk. Qed.

Lemma trans_elements n m A : shape n m A ->
  exists B, trans K n m A = Ok B /\ shape m n B /\
  forall i j, i < m -> j < n -> aget B i j = aget A j i.
Proof.
  intros H. tomk H. rewrite trans_mk. eexists. split; [reflexivity|]. split; [apply shape_of_mk|].
  intros i j Hi Hj. rewrite !aget_mk by lia. reflexivity.
Qed.

Lemma ones2_shape a b : shape a b (ones_call2 (intS uint32) a b) <-> a = b.
Proof.
  rewrite ones_call2_mk. split.
  - intros [H _]. unfold mk in H. rewrite map_length, seq_length in H. symmetry. exact H.
  - intros ->. apply shape_of_mk.
Qed.

Lemma concatenate_v_app n1 n2 m A B :
  shape n1 m A -> shape n2 m B -> concatenate_v K n1 n2 m A B = Ok (A ++ B).
Proof. intros H1 H2. tomk H1. tomk H2. rewrite concatenate_v_mk, mk_vcat. reflexivity. Qed.

Lemma concatenate_h_join n m1 m2 A B :
  shape n m1 A -> shape n m2 B -> concatenate_h K n m1 m2 A B = Ok (hjoin A B).
Proof. intros H1 H2. tomk H1. tomk H2. rewrite concatenate_h_mk, mk_hcat. reflexivity. Qed.

Lemma concatenateV_app n A B :
  shape n n A -> shape n n B -> concatenateV K n A B = Ok (A ++ B).
Proof. intros H1 H2. tomk H1. tomk H2. rewrite concatenateV_mk, mk_vcat. reflexivity. Qed.

Lemma concatenateH_join n A B :
  shape n n A -> shape n n B -> concatenateH K n A B = Ok (hjoin A B).
Proof. intros H1 H2. tomk H1. tomk H2. rewrite concatenateH_mk, mk_hcat. reflexivity. Qed.

Lemma concatenate_sq_join n A B :
  shape n n A -> shape n n B -> concatenate_sq K n A B = Ok (A ++ B, hjoin A A).
Proof. intros H1 H2. tomk H1. tomk H2. rewrite concatenate_sq_mk, mk_vcat, mk_hcat. reflexivity. Qed.

Lemma hjoin_inj n m A B B' : shape n m A -> shape n m B -> shape n m B' ->
  hjoin A B = hjoin A B' -> B = B'.
Proof.
  intros [L _] [L1 _] [L2 _]. revert n B B' L L1 L2.
  induction A as [|a A IH]; intros n B B' L L1 L2 E.
  - simpl in L. subst n. destruct B; [|discriminate]. destruct B'; [reflexivity|discriminate].
  - destruct n; [discriminate|]. destruct B as [|b B]; [discriminate|].
    destruct B' as [|b' B']; [discriminate|]. simpl in *. injection E as E1 E2.
    apply app_inv_head in E1. subst b'. f_equal. apply (IH n); congruence.
Qed.

Lemma concatenate_sq_iff n A B : shape n n A -> shape n n B ->
  (exists V, concatenate_sq K n A B = Ok (V, hjoin A B)) <-> A = B.
Proof.
  intros H1 H2. rewrite concatenate_sq_join by assumption. split.
  - intros [V E]. injection E as _ E. apply (hjoin_inj n n A A B H1 H1 H2 E).
  - intros ->. eexists. reflexivity.
Qed.

Lemma swap_rows_twice n m A r1 r2 : shape n m A -> r1 < n -> r2 < n ->
  (let* B := swap_rows K n m A r1 r2 in swap_rows K n m B r1 r2) = Ok A /\
  swap_rows K n m A r1 r2 = swap_rows K n m A r2 r1.
Proof.
  intros H H1 H2. tomk H. rewrite !swap_rows_mk by assumption. simpl.
  rewrite !swap_rows_mk by assumption. split; f_equal; apply mk_ext; intros i j Hi Hj; nat_cases; congruence.
Qed.

Lemma swap_cols_twice n m A c1 c2 : shape n m A -> c1 < m -> c2 < m ->
  (let* B := swap_cols K n m A c1 c2 in swap_cols K n m B c1 c2) = Ok A /\
  swap_cols K n m A c1 c2 = swap_cols K n m A c2 c1.
Proof.
  intros H H1 H2. tomk H. rewrite !swap_cols_mk by assumption. simpl.
  rewrite !swap_cols_mk by assumption. split; f_equal; apply mk_ext; intros i j Hi Hj; nat_cases; congruence.
Qed.

Lemma getminor_delete n A i j : shape n n A -> i < n -> j < n ->
  getminor K n A i j = Ok (map (delete j) (delete i A)).
Proof. intros H Hi Hj. tomk H. rewrite getminor_mk, mk_delete by assumption. reflexivity. Qed.

Lemma getminor_oob_shape n A i j : shape n n A -> 2 <= n -> n <= i \/ n <= j ->
  getminor K n A i j = UB OutOfBounds.
Proof. intros H Hn Hij. tomk H. apply getminor_oob; assumption. Qed.

Lemma postinc_tab n m (f : nat -> nat -> T) :
  op_postinc K n m (mk n m f) =
  let* R := tabM n m (fun i j => let* v := xadd (ld (f i j)) (ld (lite K 1)) in Ok (st v)) in
  Ok (R, mk n m f).
Proof. unfold op_postinc, op_plus_scalar. rewrite sum_scalar_tab. reflexivity. Qed.

Lemma postdec_tab n m (f : nat -> nat -> T) :
  op_postdec K n m (mk n m f) =
  let* R := tabM n m (fun i j => let* v := xsub (ld (f i j)) (ld (lite K 1)) in Ok (st v)) in
  Ok (R, mk n m f).
Proof. unfold op_postdec, op_minus_scalar. rewrite sub_scalar_tab. reflexivity. Qed.

Lemma scalar_ops_tab n m (f : nat -> nat -> T) s :
  op_scalar_plus K n m s (mk n m f) =
    tabM n m (fun i j => let* v := xadd (ld (f i j)) (ld s) in Ok (st v)) /\
  op_scalar_mult K n m s (mk n m f) =
    tabM n m (fun i j => let* v := xmul (ld (f i j)) (ld s) in Ok (st v)).
Proof. split; [apply sum_scalar_tab|apply mult_scalar_tab]. Qed.
End Any.

Lemma shape22 (a b c d : Z) : shape 2 2 [[a; b]; [c; d]].
Proof. split; [reflexivity|]. simpl. intuition subst; reflexivity. Qed.

Lemma concatenate_sq_refuted :
  ~ forall (A B : matrix Z), shape 2 2 A -> shape 2 2 B ->
    concatenate_sq (intS int32) 2 A B = Ok (A ++ B, hjoin A B).
Proof.
  intros H. specialize (H _ _ (shape22 1 2 3 4) (shape22 5 6 7 8)). vm_compute in H. discriminate H.
Qed.

Lemma getminor_doc_refuted :
  ~ forall (A : matrix Z) i j, shape 2 2 A -> i < 2 -> j < 2 ->
    getminor (intS int32) 2 A i j = Ok (map (delete i) (delete j A)).
Proof.
  intros H. specialize (H _ 0 1 (shape22 1 2 3 4) ltac:(lia) ltac:(lia)). vm_compute in H. discriminate H.
Qed.

(** ** element types *)

Lemma iarith_op_safe t z : op_safe (iarith t z).
Proof. unfold iarith. split; repeat destruct (_ : bool); discriminate. Qed.

Lemma scalar_safe_int t : scalar_safe (intS t).
Proof.
  unfold scalar_safe. simpl. unfold idiv, iabs, isqrt, idivsz.
  repeat split; intros; try apply iarith_op_safe;
  repeat match goal with
    | |- context [trunc_double ?x] => destruct (trunc_double x)
    | |- context [if ?b then _ else _] => destruct b
    end;
  try apply iarith_op_safe; discriminate.
Qed.

Lemma scalar_safe_float prec emax (Hp : FLX.Prec_gt_0 prec) (He : BinarySingleNaN.Prec_lt_emax prec emax) :
  scalar_safe (floatS prec emax).
Proof. unfold scalar_safe. simpl. repeat split; intros; discriminate. Qed.

Lemma element_types_safe :
  (forall t : ityp, scalar_safe (intS t)) /\ scalar_safe float32S /\ scalar_safe float64S.
Proof. split; [exact scalar_safe_int|]. split; apply scalar_safe_float. Qed.

(** ** grouped safety statements *)
Section Grouped.
Context (K : scalar) (HK : scalar_safe K).
Implicit Types A B : matrix (elt K).

Lemma arithmetic_safe n m p A B (s : elt K) :
  shape n m A -> shape n m B ->
  safe (shape n m) (sum K n m A B) /\ safe (shape n m) (sub K n m A B) /\
  safe (shape n m) (sum_scalar K n m A s) /\ safe (shape n m) (sub_scalar K n m A s) /\
  safe (shape n m) (mult_scalar K n m A s) /\ safe (shape n m) (div K n m A s) /\
  (forall junk, shape n m junk -> safe (shape n m) (abs K n m junk A)) /\
  (forall C, shape m p C -> safe (shape n p) (mult K n m p A C)) /\
  (forall C D, shape 2 2 C -> shape 2 2 D -> safe (shape 2 2) (strassen K C D)).
Proof.
  intros HA HB.
  split; [apply safe_sum; assumption|]. split; [apply safe_sub; assumption|].
  split; [apply safe_sum_scalar; assumption|]. split; [apply safe_sub_scalar; assumption|].
  split; [apply safe_mult_scalar; assumption|]. split; [apply safe_div; assumption|].
  split; [intros; apply safe_abs; assumption|]. split; [intros; apply safe_mult; assumption|].
  intros; apply safe_strassen; assumption.
Qed.

Lemma rearrangement_safe n m A : shape n m A ->
  safe (shape m n) (trans K n m A) /\
  (forall d, safe (shape n n) (eye K n d)) /\
  (forall r1 r2, r1 < n -> r2 < n -> safe (shape n m) (swap_rows K n m A r1 r2)) /\
  (forall c1 c2, c1 < m -> c2 < m -> safe (shape n m) (swap_cols K n m A c1 c2)) /\
  (forall n2 B, shape n2 m B -> safe (shape (n + n2) m) (concatenate_v K n n2 m A B)) /\
  (forall m2 B, shape n m2 B -> safe (shape n (m + m2)) (concatenate_h K n m m2 A B)).
Proof.
  intros HA.
  split; [apply safe_trans; assumption|]. split; [intros; apply safe_eye|].
  split; [intros; apply safe_swap_rows; assumption|]. split; [intros; apply safe_swap_cols; assumption|].
  split; [intros; apply safe_concatenate_v; assumption|].
  intros; apply safe_concatenate_h; assumption.
Qed.

Lemma square_safe n A : shape n n A ->
  safe (fun _ => True) (det K n A) /\
  safe (shape n n) (inv K n A) /\
  (forall w p, (1 <= w)%Z -> (- 2 ^ (w - 1) <= p < 2 ^ (w - 1))%Z ->
     safe (shape n n) (pow K n w A p)) /\
  safe (fun LU => shape n n (fst LU) /\ shape n n (snd LU)) (lu K n A) /\
  safe (shape n n) (chol K n A) /\
  safe (fun _ => True) (isSymetric K n A) /\
  safe (fun _ => True) (isIdentity K n A) /\
  (forall i j, i < n -> j < n -> safe (shape (n - 1) (n - 1)) (getminor K n A i j)) /\
  (forall B, shape n n B ->
     safe (fun p => shape (n + n) n (fst p) /\ shape n (n + n) (snd p)) (concatenate_sq K n A B)).
Proof.
  intros HA.
  split; [apply safe_det; assumption|]. split; [apply safe_inv; assumption|].
  split; [intros; apply safe_pow; assumption|]. split; [apply safe_lu; assumption|].
  split; [apply safe_chol; assumption|]. split; [apply safe_isSymetric; assumption|].
  split; [apply safe_isIdentity|]. split; [intros; apply safe_getminor; assumption|].
  intros; apply safe_concatenate_sq; assumption.
Qed.

Lemma median_safe sort n m A : shape n m A ->
  (strict_weak_on (elt_lt K) (elements A) -> sorts (elt_lt K) sort (elements A)) ->
  0 < n -> 0 < m -> safe (fun _ => True) (median K sort n m A).
Proof.
  intros HA Hs Hn Hm. apply (shape_mk (lite K 0)) in HA. destruct HA as [f ->].
  destruct (strict_weak K (elements (mk n m f))) eqn:E.
  - apply strict_weak_iff in E. assert (So := Hs E).
    assert (P : 0 < n * m) by nia.
    destruct (Nat.eq_dec ((n * m) mod 2) 1) as [E1|E1].
    + destruct (median_odd K sort n m f E So E1) as [x [-> _]]. exact I.
    + assert (E0 : (n * m) mod 2 = 0) by (pose proof (Nat.mod_upper_bound (n * m) 2); lia).
      destruct (median_even K sort n m f E So E0 P) as [x [y [_ [_ ->]]]].
      eapply safe_bind; [apply safe_xadd; exact HK|]. intros t _.
      eapply safe_bind; [apply safe_xdiv; exact HK|]. intros q _. exact I.
  - rewrite median_bad; [exact I|]. intros W. apply strict_weak_iff in W. congruence.
Qed.

Lemma statistics_safe n m A : shape n m A ->
  safe (fun _ => True) (mean K n m A) /\ safe (fun _ => True) (var K n m A) /\
  safe (fun _ => True) (stddev K n m A) /\
  safe (fun _ => True) (histogram K n m A) /\ safe (fun _ => True) (cumulative_histogram K n m A) /\
  (forall sort, (strict_weak_on (elt_lt K) (elements A) -> sorts (elt_lt K) sort (elements A)) ->
     0 < n -> 0 < m -> safe (fun _ => True) (median K sort n m A)) /\
  (forall B e, shape n m B -> safe (fun _ => True) (compare K n m A B e)) /\
  (forall show, safe (fun _ => True) (print K show n m A)).
Proof.
  intros HA.
  split; [apply safe_mean; assumption|]. split; [apply safe_var; assumption|].
  split; [apply safe_stddev; assumption|]. split; [apply safe_histogram; assumption|].
  split; [apply safe_cumulative_histogram; assumption|].
  split; [intros; apply median_safe; assumption|].
  split; [intros; apply safe_compare; assumption|].
  intros; apply safe_print; assumption.
Qed.

Lemma convolution_safe i j A k :
  (Z.of_nat i <= 2 ^ 31)%Z -> (Z.of_nat j <= 2 ^ 31)%Z -> shape i j A -> shape 3 3 k ->
  safe (shape i j) (conv2 K i j A k) /\
  safe (shape (i + 2) (j + 2)) (conv2_full K i j A k) /\
  (i = j -> 2 <= i -> safe (shape (i - 2) (i - 2)) (conv2_valid K i A k)).
Proof.
  intros Hi Hj HA Hk.
  split; [apply safe_conv2; assumption|]. split; [apply safe_conv2_full; assumption|].
  intros E H2. subst j. apply safe_conv2_valid; assumption.
Qed.
End Grouped.
