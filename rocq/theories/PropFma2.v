(** * Property C81, continued: the error bounds under contraction

    The bounds of C54, C55, C59, C65 and C66, with the same constants, whatever
    the compiler contracts.  [on_grid n m t f] (PropFloat3.v): every finite entry
    is a multiple of 2^-t, so that products do not underflow; [rpow] and [rcorr]
    (FloatPoly.v): the power and the correlation of real matrices. *)

From Coq Require Import ZArith Reals Lra Lia Bool List Arith.
Import ListNotations.
From Flocq Require Import IEEE754.BinarySingleNaN Core.Core.
From Verif Require Import Base Scalar CInt CFloat CFma Model Spec Loops Struct Conv LURec CholRec Float FloatMx FloatErr FloatPoly
  Fma FmaSolve FmaPoly PropFloat PropFloat3.

Local Open Scope nat_scope.

Section Format.
Variables prec emax : Z.
Context {Hp : Prec_gt_0 prec} {He : Prec_lt_emax prec emax}.
Variable pol : policy.
Notation fl := (binary_float prec emax).
Notation K := (fmaS prec emax pol).
Notation emin := (SpecFloat.emin prec emax).
Notation u := (uro prec).
Notation h := (eta prec emax).
Notation on_grid := (on_grid prec emax).
Implicit Types (f g : nat -> nat -> fl).

(** L*U is close to A *)
Theorem c81_lu_error n f L U : lu K n (mk n n f) = Ok (L, U) -> exists l v,
  L = mk n n l /\ U = mk n n v /\
  ((forall i j, i < n -> j < n -> is_finite (l i j) = true /\ is_finite (v i j) = true) ->
   forall i j, i < n -> j < n ->
   (Rabs (B2R (f i j) - rsum n (fun k => B2R (l i k) * B2R (v k j))) <=
    ((1 + u) ^ n - 1) * rsum n (fun k => Rabs (B2R (l i k) * B2R (v k j))) +
    h * (1 + u) ^ n * (INR n + Rabs (B2R (v j j))))%R).
Proof.
  intros H. destruct (lu_recurrence K n f L U H) as [l [v [-> [-> D]]]].
  exists l, v. split; [reflexivity|]. split; [reflexivity|]. intros F i j Hi Hj.
  apply (lu_backward prec emax pol n f l v D); auto; intros a b Ha Hb; apply (F a b Ha Hb).
Qed.

(** L*trans(L) is close to A *)
Theorem c81_chol_error n f L : (1 < prec)%Z -> chol K n (mk n n f) = Ok L -> exists l,
  L = mk n n l /\ (forall i j, i < j < n -> l i j = B754_zero false) /\
  ((forall i j, i < n -> j < n -> is_finite (l i j) = true) ->
   (forall i, i < n -> (0 <= B2R (l i i))%R) /\
   forall i j, j <= i < n ->
   (Rabs (B2R (f i j) - rsum n (fun k => B2R (l i k) * B2R (l j k))) <=
    ((1 + u) ^ (n + 2) - 1) * rsum n (fun k => Rabs (B2R (l i k) * B2R (l j k))) +
    h * (1 + u) ^ (n + 2) * (INR (n + 2) + B2R (l j j)))%R).
Proof.
  intros P1 H. destruct (chol_recurrence K n f L H) as [l [-> [Z [D O]]]].
  exists l. split; [reflexivity|]. split; [exact Z|]. intros F. split.
  - intros i Hi. exact (diag_nonneg prec emax pol n f l P1 D F i Hi).
  - intros i j Hij. exact (chol_backward prec emax pol n f l P1 Z D O F i j Hij).
Qed.

Theorem c81_pow_error n w f p t C : (1 <= p)%Z -> on_grid n n t f -> (t * p <= - emin)%Z ->
  pow K n w (mk n n f) p = Ok C -> exists c, C = mk n n c /\
  forall i j, i < n -> j < n -> is_finite (c i j) = true ->
  (Rabs (B2R (c i j) - rpow n (fun i j => B2R (f i j)) (Z.to_nat p) i j) <=
   ((1 + u) ^ ((Z.to_nat p - 1) * n) - 1) * rpow n (fun i j => Rabs (B2R (f i j))) (Z.to_nat p) i j)%R.
Proof.
  intros Hp1 [Ht Hf] Hu E.
  destruct (pow_fuel_approx prec emax pol n f t Ht Hf _ w p C Hp1 Hu E) as [c [-> H]].
  exists c. split; [reflexivity|]. intros i j Hi Hj F. exact (proj1 (proj2 (H i j Hi Hj F))).
Qed.

Theorem c81_conv2_error n m f k t t' C : (Z.of_nat n <= 2 ^ 31)%Z -> (Z.of_nat m <= 2 ^ 31)%Z ->
  on_grid n m t f -> on_grid 3 3 t' k -> (t + t' <= - emin)%Z ->
  conv2 K n m (mk n m f) (mk 3 3 k) = Ok C -> exists c, C = mk n m c /\
  forall i j, i < n -> j < m -> is_finite (c i j) = true ->
  (Rabs (B2R (c i j) - rcorr n m (fun i j => B2R (f i j)) (fun i j => B2R (k i j)) (Z.of_nat i) (Z.of_nat j)) <=
   ((1 + u) ^ 9 - 1) *
   rcorr n m (fun i j => Rabs (B2R (f i j))) (fun i j => Rabs (B2R (k i j))) (Z.of_nat i) (Z.of_nat j))%R.
Proof.
  intros Hn Hm [Ht Hf] [Ht' Hk] Hu E. rewrite conv2_tab in E by assumption.
  destruct (tabM_inv (lite K 0) _ _ _ _ E) as [c [-> H]]. exists c. split; [reflexivity|]. intros i j Hi Hj F.
  exact (proj1 (proj2 (approx_corr prec emax pol n m f k _ _ t t' _ Ht Ht' Hu Hf Hk (H i j Hi Hj) F))).
Qed.

Theorem c81_conv2_full_error n m f k t t' C : (Z.of_nat n <= 2 ^ 31)%Z -> (Z.of_nat m <= 2 ^ 31)%Z ->
  on_grid n m t f -> on_grid 3 3 t' k -> (t + t' <= - emin)%Z ->
  conv2_full K n m (mk n m f) (mk 3 3 k) = Ok C -> exists c, C = mk (n + 2) (m + 2) c /\
  forall i j, i < n + 2 -> j < m + 2 -> is_finite (c i j) = true ->
  (Rabs (B2R (c i j) - rcorr n m (fun i j => B2R (f i j)) (fun i j => B2R (k i j)) (Z.of_nat i - 1) (Z.of_nat j - 1)) <=
   ((1 + u) ^ 9 - 1) *
   rcorr n m (fun i j => Rabs (B2R (f i j))) (fun i j => Rabs (B2R (k i j))) (Z.of_nat i - 1) (Z.of_nat j - 1))%R.
Proof.
  intros Hn Hm [Ht Hf] [Ht' Hk] Hu E. rewrite conv2_full_tab in E by assumption.
  destruct (tabM_inv (lite K 0) _ _ _ _ E) as [c [-> H]]. exists c. split; [reflexivity|]. intros i j Hi Hj F.
  exact (proj1 (proj2 (approx_corr prec emax pol n m f k _ _ t t' _ Ht Ht' Hu Hf Hk (H i j Hi Hj) F))).
Qed.

(** determinants of 2x2 and 3x3 matrices (the larger ones are not affected: c81_same_det) *)
Theorem c81_det2_error a b c d t (r : fl) : (0 <= t)%Z -> (2 * t <= - emin)%Z ->
  (forall x, In x [a; b; c; d] -> is_finite x = true -> multiple (- t) (B2R x)) ->
  det K 2 [[a; b]; [c; d]] = Ok r -> is_finite r = true ->
  (Rabs (B2R r - (B2R a * B2R d - B2R b * B2R c)) <=
   ((1 + u) ^ 2 - 1) * (Rabs (B2R a * B2R d) + Rabs (B2R b * B2R c)))%R.
Proof.
  intros Ht Hu H E F. pose proof (approx_det2 prec emax pol a b c d r t Ht Hu H E F) as [_ [Q _]].
  rewrite !Rabs_mult. exact Q.
Qed.

Theorem c81_det3_error (a b c d e f g p i : fl) t (r : fl) : (0 <= t)%Z -> (3 * t <= - emin)%Z ->
  (forall x, In x [a; b; c; d; e; f; g; p; i] -> is_finite x = true -> multiple (- t) (B2R x)) ->
  det K 3 [[a; b; c]; [d; e; f]; [g; p; i]] = Ok r -> is_finite r = true ->
  let A := B2R a in let B := B2R b in let C := B2R c in
  let D := B2R d in let E := B2R e in let F := B2R f in
  let G := B2R g in let P := B2R p in let I := B2R i in
  (Rabs (B2R r - (A * E * I + B * F * G + C * D * P - C * E * G - B * D * I - A * F * P)) <=
   ((1 + u) ^ 7 - 1) * (Rabs (A * E * I) + Rabs (B * F * G) + Rabs (C * D * P)
                       + Rabs (C * E * G) + Rabs (B * D * I) + Rabs (A * F * P)))%R.
Proof.
  intros Ht Hu H E0 Fin. pose proof (approx_det3 prec emax pol a b c d e f g p i r t Ht Hu H E0 Fin) as [_ [Q _]].
  cbv zeta. rewrite !Rabs_mult. exact Q.
Qed.
End Format.

(** the hypotheses are met: integers are on the grid 2^0 *)
Example c81_grid_ex : on_grid 24 128 2 2 0 (fun i j => fz32 (1 + 2 * Z.of_nat i + Z.of_nat j)) /\
  exists C, pow (fmaS 24 128 always_l) 2 32 (mk 2 2 (fun i j => fz32 (1 + 2 * Z.of_nat i + Z.of_nat j))) 2 = Ok C.
Proof.
  split; [|eexists; reflexivity]. split; [lia|]. intros i j Hi Hj _.
  exists (1 + 2 * Z.of_nat i + Z.of_nat j)%Z.
  unfold fz32. rewrite (proj1 (f_of_Z_small 24 128 (1 + 2 * Z.of_nat i + Z.of_nat j) ltac:(change (2 ^ 24)%Z with 16777216%Z; lia))).
  simpl bpow. ring.
Qed.

Print Assumptions c81_lu_error.
Print Assumptions c81_chol_error.
Print Assumptions c81_pow_error.
Print Assumptions c81_conv2_error.
Print Assumptions c81_conv2_full_error.
Print Assumptions c81_det2_error.
Print Assumptions c81_det3_error.
