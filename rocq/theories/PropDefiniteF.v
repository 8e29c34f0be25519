(** * C94 in floating point: a finite factor certifies that the matrix is nearly
      positive semidefinite *)

From Coq Require Import ZArith Reals Lra Lia Bool List Arith.
Import ListNotations.
From Flocq Require Import IEEE754.BinarySingleNaN Core.Core.
From Verif Require Import Base Scalar CInt CFloat Model Spec Loops Struct Preds LURec CholRec
  Float FloatMx FloatErr FloatPoly FloatChol FloatStat PropFloat PropFloat2.

Local Open Scope nat_scope.

(** x * A * trans(x) *)
Definition rform (n : nat) (a : nat -> nat -> R) (x : nat -> R) : R :=
  rsum n (fun i => rsum n (fun j => x i * a i j * x j))%R.

Lemma rsum_opp n f : rsum n (fun k => - f k)%R = (- rsum n f)%R.
Proof.
  rewrite (rsum_ext n _ (fun k => (-1) * f k)%R); [rewrite rsum_scal; ring | intros; ring].
Qed.

Lemma rform_square n (l : nat -> nat -> R) (x : nat -> R) :
  (0 <= rform n (fun i j => rsum n (fun k => l i k * l j k)) x)%R.
Proof.
  replace (rform n _ x) with (rsum n (fun k => (rsum n (fun i => x i * l i k)) * (rsum n (fun j => x j * l j k))))%R.
  { apply rsum_nonneg. intros k _. apply Rle_0_sqr. }
  unfold rform.
  rewrite (rsum_ext n _ (fun k => rsum n (fun i => rsum n (fun j => x i * (l i k * l j k) * x j)))%R).
  2:{ intros k _. rewrite <- rsum_scal_r. apply rsum_ext; intros i _. rewrite <- rsum_scal. apply rsum_ext; intros j _. ring. }
  rewrite rsum_swap. apply rsum_ext; intros i _. rewrite rsum_swap. apply rsum_ext; intros j _.
  rewrite <- rsum_scal, <- rsum_scal_r. reflexivity.
Qed.

Lemma rform_bound n (e : nat -> nat -> R) (B : R) (x : nat -> R) : (0 <= B)%R ->
  (forall i j, i < n -> j < n -> (Rabs (e i j) <= B)%R) ->
  (- (INR n * B * rsum n (fun i => x i * x i)) <= rform n e x)%R.
Proof.
  intros B0 H.
  assert (T : (rsum n (fun i => rsum n (fun j => - (B * ((x i * x i + x j * x j) / 2)))) <= rform n e x)%R).
  { apply rsum_le; intros i Hi. apply rsum_le; intros j Hj.
    assert (Q : (Rabs (x i * e i j * x j) <= B * ((x i * x i + x j * x j) / 2))%R).
    { replace (x i * e i j * x j)%R with (e i j * (x i * x j))%R by ring. rewrite Rabs_mult.
      apply Rmult_le_compat; auto using Rabs_pos.
      rewrite Rabs_mult.
      pose proof (Rle_0_sqr (Rabs (x i) - Rabs (x j))) as S. unfold Rsqr in S.
      assert (A : forall t, (Rabs t * Rabs t = t * t)%R) by (intros t; rewrite <- Rabs_mult; apply Rabs_pos_eq, Rle_0_sqr).
      pose proof (A (x i)); pose proof (A (x j)). nra. }
    pose proof (Rle_abs (- (x i * e i j * x j))) as S. rewrite Rabs_Ropp in S. lra. }
  refine (Rle_trans _ _ _ _ T).
  apply Req_le.
  set (q := rsum n (fun i => x i * x i)%R).
  rewrite (rsum_ext n _ (fun i => - (B / 2) * (x i * x i) * INR n + - (B / 2) * q)%R).
  2:{ intros i _. rewrite (rsum_ext n _ (fun j => - (B / 2) * (x i * x i) * 1 + - (B / 2) * (x j * x j))%R) by (intros; field).
      rewrite rsum_add, !rsum_scal. fold q. f_equal. f_equal.
      clear. induction n; [reflexivity|]. rewrite rsum_S, IHn, S_INR. reflexivity. }
  rewrite rsum_add, rsum_scal_r.
  assert (E : forall m c, (rsum m (fun _ => c) = INR m * c)%R).
  { intros m c. induction m; [rewrite rsum_0; simpl; ring|]. rewrite rsum_S, IHm, S_INR. ring. }
  rewrite E, rsum_scal. fold q. field.
Qed.

Section Format.
Variables prec emax : Z.
Context {Hp : Prec_gt_0 prec} {He : Prec_lt_emax prec emax}.
Notation fl := (binary_float prec emax).
Notation K := (floatS prec emax).
Notation u := (uro prec).
Notation h := (eta prec emax).

(** chol in floating point always returns something (C55).  If all its elements are finite
    and M bounds the sum of the squares of every row of it, the symmetric matrix A it was
    given has x*A*x^T >= - delta |x|^2 for every real x, with delta of the order n*n*u*M *)
Theorem c94_float n (f : nat -> nat -> fl) (M : R) : (1 < prec)%Z ->
  (forall i j, i < n -> j < n -> B2R (f i j) = B2R (f j i)) ->
  exists l, chol K n (mk n n f) = Ok (mk n n l) /\
  ((forall i j, i < n -> j < n -> is_finite (l i j) = true) ->
   (forall i, i < n -> (rsum n (fun k => B2R (l i k) * B2R (l i k)) <= M)%R) ->
   forall x : nat -> R,
   (- (INR n * (((1 + u) ^ (n + 2) - 1) * M + h * (1 + u) ^ (n + 2) * (INR (n + 2) + (1 + M))) *
       rsum n (fun i => x i * x i)) <= rform n (fun i j => B2R (f i j)) x)%R).
Proof.
  intros P Sy. destruct (c55_total prec emax n f) as [L E].
  destruct (c55_chol prec emax n f L P E) as [l [-> [_ H]]].
  exists l. split; [exact E|]. intros F HM x. destruct (H F) as [D0 HE].
  destruct n as [|n']; [rewrite !rsum_0; unfold rform; rewrite rsum_0; lra|]. set (n := S n') in *.
  set (g := ((1 + u) ^ (n + 2) - 1)%R) in *. set (h' := (h * (1 + u) ^ (n + 2))%R) in *.
  assert (u0 : (0 <= u)%R) by (apply Rlt_le, uro_pos).
  assert (p1 : (1 <= (1 + u) ^ (n + 2))%R) by (apply pow_R1_Rle; lra).
  assert (g0 : (0 <= g)%R) by (unfold g; lra).
  assert (h0 : (0 <= h')%R).
  { unfold h'. apply Rmult_le_pos; [apply eta_pos | lra]. }
  assert (sq : forall i, i < n -> (B2R (l i i) * B2R (l i i) <= M)%R).
  { intros i Hi. refine (Rle_trans _ _ _ _ (HM i Hi)).
    assert (G : forall m, i < m -> (B2R (l i i) * B2R (l i i) <= rsum m (fun k => B2R (l i k) * B2R (l i k)))%R).
    { induction m; intros Hm; [lia|]. rewrite rsum_S.
      destruct (Nat.eq_dec i m) as [<-|N].
      - pose proof (rsum_nonneg i (fun k => B2R (l i k) * B2R (l i k))%R (fun k _ => Rle_0_sqr _)). lra.
      - specialize (IHm ltac:(lia)). pose proof (Rle_0_sqr (B2R (l i m))) as S. unfold Rsqr in S. lra. }
    auto. }
  assert (M0 : (0 <= M)%R).
  { refine (Rle_trans _ _ _ _ (sq 0 ltac:(unfold n; lia))). apply Rle_0_sqr. }
  assert (dg : forall j, j < n -> (B2R (l j j) <= 1 + M)%R).
  { intros j Hj. pose proof (sq j Hj). pose proof (Rle_0_sqr (B2R (l j j) - 1)) as S. unfold Rsqr in S. nra. }
  assert (cs : forall i j, i < n -> j < n -> (rsum n (fun k => Rabs (B2R (l i k) * B2R (l j k))) <= M)%R).
  { intros i j Hi Hj. pose proof (HM i Hi) as A1. pose proof (HM j Hj) as A2.
    assert (S : (rsum n (fun k => Rabs (B2R (l i k) * B2R (l j k))) <=
      rsum n (fun k => /2 * (B2R (l i k) * B2R (l i k)) + /2 * (B2R (l j k) * B2R (l j k))))%R).
    { apply rsum_le; intros k _. rewrite Rabs_mult. set (a := B2R (l i k)). set (b := B2R (l j k)).
      pose proof (Rle_0_sqr (Rabs a - Rabs b)) as S. unfold Rsqr in S.
      assert (A : forall t, (Rabs t * Rabs t = t * t)%R) by (intros t; rewrite <- Rabs_mult; apply Rabs_pos_eq, Rle_0_sqr).
      pose proof (A a); pose proof (A b). nra. }
    rewrite rsum_add, !rsum_scal in S. lra. }
  assert (err : forall i j, i < n -> j < n ->
    (Rabs (B2R (f i j) - rsum n (fun k => B2R (l i k) * B2R (l j k))) <= g * M + h' * (INR (n + 2) + (1 + M)))%R).
  { assert (half : forall i j, j <= i < n ->
      (Rabs (B2R (f i j) - rsum n (fun k => B2R (l i k) * B2R (l j k))) <= g * M + h' * (INR (n + 2) + (1 + M)))%R).
    { intros i j Hij. refine (Rle_trans _ _ _ (HE i j Hij) _). apply Rplus_le_compat.
      - apply Rmult_le_compat_l; [exact g0|]. apply cs; lia.
      - apply Rmult_le_compat_l; [exact h0|]. apply Rplus_le_compat_l, dg. lia. }
    intros i j Hi Hj. destruct (Nat.le_gt_cases j i) as [Q|Q]; [apply half; lia|].
    rewrite Sy by auto. rewrite (rsum_ext n _ (fun k => B2R (l j k) * B2R (l i k))%R) by (intros; ring).
    apply half; lia. }
  assert (Bp : (0 <= g * M + h' * (INR (n + 2) + (1 + M)))%R).
  { pose proof (pos_INR (n + 2)). apply Rplus_le_le_0_compat; apply Rmult_le_pos; lra. }
  pose proof (rform_bound n _ _ x Bp err) as T.
  pose proof (rform_square n (fun i k => B2R (l i k)) x) as Q.
  assert (Sp : rform n (fun i j => B2R (f i j)) x =
    (rform n (fun i j => B2R (f i j) - rsum n (fun k => B2R (l i k) * B2R (l j k))) x +
     rform n (fun i j => rsum n (fun k => B2R (l i k) * B2R (l j k))) x)%R).
  { unfold rform. rewrite <- rsum_add. apply rsum_ext; intros i _. rewrite <- rsum_add. apply rsum_ext; intros j _. ring. }
  rewrite Sp. lra.
Qed.
End Format.

(** a symmetric matrix with a finite factor, and an indefinite one whose factor has a NaN *)
Example c94_ex_float :
  (match chol float32S 3 (mz32 [[3; 1; 2]; [1; 4; 1]; [2; 1; 5]]%Z) with
   | Ok L => forallb (forallb (fun x => is_finite x)) L | _ => false end = true) /\
  (match chol float32S 2 (mz32 [[1; 2]; [2; 1]]%Z) with
   | Ok L => forallb (forallb (fun x => is_finite x)) L | _ => true end = false).
Proof. split; vm_compute; reflexivity. Qed.
