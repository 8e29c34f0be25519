(** * C82: partitioned matrices, for every element type

    Stacking, joining side by side and leading blocks: which part of the result
    depends on which part of the arguments. *)

From Coq Require Import ZArith Lia Bool List Arith.
Import ListNotations.
From Verif Require Import Base Scalar CInt Model Spec Loops Struct LURec CholRec Conv Nested PropTrans.

Local Open Scope nat_scope.

(** the leading m x m block: the first m elements of the first m rows *)
Definition lead {T} (m : nat) (A : matrix T) : matrix T := map (firstn m) (firstn m A).

Lemma firstn_map_seq {U} (g : nat -> U) m n : m <= n -> firstn m (map g (seq 0 n)) = map g (seq 0 m).
Proof.
  intros H. replace n with (m + (n - m)) by lia. rewrite seq_app, map_app, firstn_app, map_length, seq_length.
  rewrite Nat.sub_diag, firstn_O, app_nil_r, <- (seq_length m 0) at 1. rewrite <- (map_length g), firstn_all. reflexivity.
Qed.

Lemma lead_mk {T} m n (f : nat -> nat -> T) : m <= n -> lead m (mk n n f) = mk m m f.
Proof.
  intros H. unfold lead, mk. rewrite firstn_map_seq by exact H. rewrite map_map. apply map_ext. intros i.
  apply firstn_map_seq, H.
Qed.

Lemma map_out_map {A B C} (g : A -> B) (f : B -> outcome C) l : map_out f (map g l) = map_out (fun x => f (g x)) l.
Proof. induction l as [|x l IH]; [reflexivity|]. simpl. rewrite IH. reflexivity. Qed.

Lemma seq_shift' n k : seq n k = map (fun i => n + i) (seq 0 k).
Proof.
  revert n. induction k as [|k IH]; intros n; [reflexivity|]. simpl. rewrite Nat.add_0_r. f_equal.
  rewrite IH, <- seq_shift, map_map. apply map_ext. intros a. lia.
Qed.

Section Generic.
Context (K : scalar).
Notation T := (elt K).
Notation over n1 n2 m A B := (concatenate_v K n1 n2 m A B).
Notation beside n m1 m2 A B := (concatenate_h K n m1 m2 A B).

Lemma tabM_over n1 n2 m (f : nat -> nat -> outcome T) :
  tabM (n1 + n2) m f =
  (let* X := tabM n1 m f in let* Y := tabM n2 m (fun i j => f (n1 + i) j) in over n1 n2 m X Y).
Proof.
  transitivity (let* X := tabM n1 m f in let* Y := tabM n2 m (fun i j => f (n1 + i) j) in Ok (X ++ Y)).
  - unfold tabM. rewrite seq_app, map_out_app, Nat.add_0_l, (seq_shift' n1), map_out_map. reflexivity.
  - apply bind_ext. intros X HX. apply bind_ext. intros Y HY.
    destruct (tabM_inv (lite K 0) _ _ _ _ HX) as [x [-> _]]. destruct (tabM_inv (lite K 0) _ _ _ _ HY) as [y [-> _]].
    rewrite concatenate_v_mk, mk_vcat. reflexivity.
Qed.

(** the same with columns; the elements are visited in another order *)
Lemma tabM_beside n m1 m2 (f : nat -> nat -> outcome T) :
  tabM n (m1 + m2) f ===
  (let* X := tabM n m1 f in let* Y := tabM n m2 (fun i j => f i (m1 + j)) in beside n m1 m2 X Y).
Proof.
  intros r. split; intros H.
  - destruct (tabM_inv (lite K 0) _ _ _ _ H) as [g [-> Hg]].
    rewrite (tabM_ok n m1 f g) by (intros; apply Hg; lia). cbn [bind].
    rewrite (tabM_ok n m2 _ (fun i j => g i (m1 + j))) by (intros; apply Hg; lia). cbn [bind].
    rewrite concatenate_h_mk. f_equal. apply mk_ext. intros i j Hi Hj. unfold hcat.
    destruct (Nat.ltb_spec j m1); [reflexivity|]. f_equal. lia.
  - apply bind_inv in H. destruct H as [X [HX H]]. apply bind_inv in H. destruct H as [Y [HY H]].
    destruct (tabM_inv (lite K 0) _ _ _ _ HX) as [x [-> Hx]]. destruct (tabM_inv (lite K 0) _ _ _ _ HY) as [y [-> Hy]].
    rewrite concatenate_h_mk in H. injection H as <-. apply tabM_ok. intros i j Hi Hj. unfold hcat.
    destruct (Nat.ltb_spec j m1); [apply Hx; lia|]. rewrite <- Hy by lia. f_equal. lia.
Qed.

Lemma over_ext n1 n2 m (f g h : nat -> nat -> outcome T) :
  (forall i j, i < n1 -> j < m -> f i j = g i j) -> (forall i j, i < n2 -> j < m -> f (n1 + i) j = h i j) ->
  tabM (n1 + n2) m f = (let* X := tabM n1 m g in let* Y := tabM n2 m h in over n1 n2 m X Y).
Proof.
  intros H H'. rewrite tabM_over, (tabM_ext n1 m f g H). apply bind_ext. intros X _.
  rewrite (tabM_ext n2 m _ h H'). reflexivity.
Qed.

Lemma beside_ext n m1 m2 (f g h : nat -> nat -> outcome T) :
  (forall i j, i < n -> j < m1 -> f i j = g i j) -> (forall i j, i < n -> j < m2 -> f i (m1 + j) = h i j) ->
  tabM n (m1 + m2) f === (let* X := tabM n m1 g in let* Y := tabM n m2 h in beside n m1 m2 X Y).
Proof.
  intros H H'. rewrite <- (tabM_ext n m1 f g H), <- (tabM_ext n m2 _ h H'). apply tabM_beside.
Qed.

Lemma vcat_l n1 (f g : nat -> nat -> T) i j : i < n1 -> vcat K n1 f g i j = f i j.
Proof. intros H. unfold vcat. destruct (Nat.ltb_spec i n1); [reflexivity|lia]. Qed.
Lemma vcat_r n1 (f g : nat -> nat -> T) i j : vcat K n1 f g (n1 + i) j = g i j.
Proof. unfold vcat. destruct (Nat.ltb_spec (n1 + i) n1); [lia|]. f_equal. lia. Qed.
Lemma hcat_l m1 (f g : nat -> nat -> T) i j : j < m1 -> hcat K m1 f g i j = f i j.
Proof. intros H. unfold hcat. destruct (Nat.ltb_spec j m1); [reflexivity|lia]. Qed.
Lemma hcat_r m1 (f g : nat -> nat -> T) i j : hcat K m1 f g i (m1 + j) = g i j.
Proof. unfold hcat. destruct (Nat.ltb_spec (m1 + j) m1); [lia|]. f_equal. lia. Qed.

Ltac tomk := repeat match goal with
  | H : shape ?n ?m ?A |- _ => destruct (proj1 (shape_mk (lite K 0) n m A) H) as [?f ->]; clear H
  end.
Ltac entries := intros; rewrite ?vcat_l, ?vcat_r, ?hcat_l, ?hcat_r by assumption; reflexivity.

(** *** elementwise operations work block by block *)
Theorem c82_over n1 n2 m (A B C D : matrix T) (s : T) :
  shape n1 m A -> shape n2 m B -> shape n1 m C -> shape n2 m D ->
  (let* X := over n1 n2 m A B in let* Y := over n1 n2 m C D in sum K (n1 + n2) m X Y) =
  (let* P := sum K n1 m A C in let* Q := sum K n2 m B D in over n1 n2 m P Q) /\
  (let* X := over n1 n2 m A B in let* Y := over n1 n2 m C D in sub K (n1 + n2) m X Y) =
  (let* P := sub K n1 m A C in let* Q := sub K n2 m B D in over n1 n2 m P Q) /\
  (let* X := over n1 n2 m A B in sum_scalar K (n1 + n2) m X s) =
  (let* P := sum_scalar K n1 m A s in let* Q := sum_scalar K n2 m B s in over n1 n2 m P Q) /\
  (let* X := over n1 n2 m A B in sub_scalar K (n1 + n2) m X s) =
  (let* P := sub_scalar K n1 m A s in let* Q := sub_scalar K n2 m B s in over n1 n2 m P Q) /\
  (let* X := over n1 n2 m A B in mult_scalar K (n1 + n2) m X s) =
  (let* P := mult_scalar K n1 m A s in let* Q := mult_scalar K n2 m B s in over n1 n2 m P Q) /\
  (let* X := over n1 n2 m A B in div K (n1 + n2) m X s) =
  (let* P := div K n1 m A s in let* Q := div K n2 m B s in over n1 n2 m P Q).
Proof.
  intros. tomk. rewrite !concatenate_v_mk. cbn [bind].
  rewrite !sum_tab, !sub_tab, !sum_scalar_tab, !sub_scalar_tab, !mult_scalar_tab, !div_tab.
  repeat split; try (destruct (xeq (ld s) (lit 0)); [reflexivity|]); apply over_ext; entries.
Qed.

Theorem c82_beside n m1 m2 (A B C D : matrix T) (s : T) :
  shape n m1 A -> shape n m2 B -> shape n m1 C -> shape n m2 D ->
  (let* X := beside n m1 m2 A B in let* Y := beside n m1 m2 C D in sum K n (m1 + m2) X Y) ===
  (let* P := sum K n m1 A C in let* Q := sum K n m2 B D in beside n m1 m2 P Q) /\
  (let* X := beside n m1 m2 A B in let* Y := beside n m1 m2 C D in sub K n (m1 + m2) X Y) ===
  (let* P := sub K n m1 A C in let* Q := sub K n m2 B D in beside n m1 m2 P Q) /\
  (let* X := beside n m1 m2 A B in sum_scalar K n (m1 + m2) X s) ===
  (let* P := sum_scalar K n m1 A s in let* Q := sum_scalar K n m2 B s in beside n m1 m2 P Q) /\
  (let* X := beside n m1 m2 A B in sub_scalar K n (m1 + m2) X s) ===
  (let* P := sub_scalar K n m1 A s in let* Q := sub_scalar K n m2 B s in beside n m1 m2 P Q) /\
  (let* X := beside n m1 m2 A B in mult_scalar K n (m1 + m2) X s) ===
  (let* P := mult_scalar K n m1 A s in let* Q := mult_scalar K n m2 B s in beside n m1 m2 P Q) /\
  (let* X := beside n m1 m2 A B in div K n (m1 + m2) X s) ===
  (let* P := div K n m1 A s in let* Q := div K n m2 B s in beside n m1 m2 P Q).
Proof.
  intros. tomk. rewrite !concatenate_h_mk. cbn [bind].
  rewrite !sum_tab, !sub_tab, !sum_scalar_tab, !sub_scalar_tab, !mult_scalar_tab, !div_tab.
  split; [|split; [|split; [|split; [|split]]]]; try (destruct (xeq (ld s) (lit 0)); [apply agree_eq; reflexivity|]);
    apply beside_ext; entries.
Qed.

(** *** products: the rows of A*B come from the rows of A, the columns from those of B *)
Theorem c82_mult_over n1 n2 m p (A B C : matrix T) : shape n1 m A -> shape n2 m B -> shape m p C ->
  (let* X := over n1 n2 m A B in mult K (n1 + n2) m p X C) =
  (let* P := mult K n1 m p A C in let* Q := mult K n2 m p B C in over n1 n2 p P Q).
Proof.
  intros. tomk. rewrite concatenate_v_mk. cbn [bind]. rewrite !mult_tab.
  apply over_ext; intros i j Hi Hj; apply dot_ext; intros k Hk; split; try reflexivity.
  - apply vcat_l, Hi.
  - apply vcat_r.
Qed.

Theorem c82_mult_beside n m p1 p2 (A B C : matrix T) : shape n m A -> shape m p1 B -> shape m p2 C ->
  (let* X := beside m p1 p2 B C in mult K n m (p1 + p2) A X) ===
  (let* P := mult K n m p1 A B in let* Q := mult K n m p2 A C in beside n p1 p2 P Q).
Proof.
  intros. tomk. rewrite concatenate_h_mk. cbn [bind]. rewrite !mult_tab.
  apply beside_ext; intros i j Hi Hj; apply dot_ext; intros k Hk; split; try reflexivity.
  - apply hcat_l, Hj.
  - apply hcat_r.
Qed.

(** *** convolutions: an element depends on its eight neighbours and itself only *)
Theorem c82_conv2_local n m (A A' k C C' : matrix T) r c :
  (Z.of_nat n <= 2 ^ 31)%Z -> (Z.of_nat m <= 2 ^ 31)%Z ->
  shape n m A -> shape n m A' -> shape 3 3 k -> r < n -> c < m ->
  (forall i j, i <= r + 1 -> r <= i + 1 -> j <= c + 1 -> c <= j + 1 -> aget A i j = aget A' i j) ->
  conv2 K n m A k = Ok C -> conv2 K n m A' k = Ok C' -> aget C r c = aget C' r c.
Proof.
  intros Hn Hm HA HA' Hk Hr Hc H E E'. tomk. rewrite conv2_tab in E, E' by assumption.
  destruct (tabM_inv (lite K 0) _ _ _ _ E) as [g [-> Hg]]. destruct (tabM_inv (lite K 0) _ _ _ _ E') as [g' [-> Hg']].
  rewrite !aget_mk by assumption. rewrite <- Hg, <- Hg' by assumption.
  rewrite !corr_unfold. cbv zeta.
  assert (S : forall x a b, a < 3 -> b < 3 ->
    corr_step K n m f1 f (Z.of_nat r) (Z.of_nat c) x (a, b) = corr_step K n m f0 f (Z.of_nat r) (Z.of_nat c) x (a, b)).
  { intros x a b Ha Hb. unfold corr_step. cbn [fst snd].
    destruct (inside n m (Z.of_nat r + Z.of_nat a - 1) (Z.of_nat c + Z.of_nat b - 1)) eqn:Ei; [|reflexivity].
    unfold inside in Ei. rewrite !andb_true_iff in Ei. destruct Ei as [[[E1 E2] E3] E4].
    apply Z.leb_le in E1, E3. apply Z.ltb_lt in E2, E4.
    specialize (H (Z.to_nat (Z.of_nat r + Z.of_nat a - 1)) (Z.to_nat (Z.of_nat c + Z.of_nat b - 1))
      ltac:(lia) ltac:(lia) ltac:(lia) ltac:(lia)).
    rewrite !aget_mk in H by lia. injection H as ->. reflexivity. }
  rewrite S by lia. repeat (apply bind_ext; intros ? _; rewrite ?S by lia). reflexivity.
Qed.

(** *** lu and chol: the factors of a leading block are the leading blocks of the factors *)
Theorem c82_lu_lead n m (A L U : matrix T) : shape n n A -> m <= n -> lu K n A = Ok (L, U) ->
  lu K m (lead m A) = Ok (lead m L, lead m U).
Proof.
  intros HA Hm E. tomk. destruct (lu_recurrence K n f L U E) as [l [u [-> [-> D]]]].
  rewrite !lead_mk by exact Hm. apply lu_complete. exact (lu_done_less K n m f l u Hm D).
Qed.

(** hence lu fails on A whenever it fails on a leading block *)
Theorem c82_lu_fails n m (A : matrix T) : shape n n A -> m <= n ->
  (forall LU, lu K m (lead m A) <> Ok LU) -> forall LU, lu K n A <> Ok LU.
Proof. intros HA Hm H [L U] E. exact (H _ (c82_lu_lead n m A L U HA Hm E)). Qed.

Theorem c82_chol_lead n m (A L : matrix T) : shape n n A -> m <= n -> chol K n A = Ok L ->
  chol K m (lead m A) = Ok (lead m L).
Proof.
  intros HA Hm E. tomk. destruct (chol_recurrence K n f L E) as [l [-> [Z [D O]]]].
  rewrite !lead_mk by exact Hm. apply chol_complete.
  - intros; apply Z; lia.
  - intros; apply D; lia.
  - intros; apply O; lia.
Qed.

(** two matrices that agree on a leading block have factors that agree there *)
Theorem c82_lu_local n m (A A' L L' U U' : matrix T) : shape n n A -> shape n n A' -> m <= n -> lead m A = lead m A' ->
  lu K n A = Ok (L, U) -> lu K n A' = Ok (L', U') -> lead m L = lead m L' /\ lead m U = lead m U'.
Proof.
  intros HA HA' Hm El E E'. apply (c82_lu_lead n m) in E, E'; try assumption.
  rewrite El, E' in E. injection E as -> ->. split; reflexivity.
Qed.
End Generic.

(** concrete cases, in int *)
Example c82_ex : let A := [[2; 1; 5]; [4; 5; 6]; [6; 9; 8]]%Z in
  lu (intS int32) 3 A = Ok ([[1; 0; 0]; [2; 1; 0]; [3; 2; 1]]%Z, [[2; 1; 5]; [0; 3; -4]; [0; 0; 1]]%Z) /\
  lead 2 A = [[2; 1]; [4; 5]]%Z /\
  lu (intS int32) 2 (lead 2 A) = Ok ([[1; 0]; [2; 1]]%Z, [[2; 1]; [0; 3]]%Z) /\
  chol (intS int32) 2 [[4; 2]; [2; 10]]%Z = Ok [[2; 0]; [1; 3]]%Z /\
  chol (intS int32) 1 (lead 1 [[4; 2]; [2; 10]]%Z) = Ok [[2]]%Z.
Proof. vm_compute. repeat split. Qed.

Example c82_ex_mult : 
  (let* X := concatenate_v (intS int32) 1 1 2 [[1; 2]]%Z [[3; 4]]%Z in mult (intS int32) 2 2 1 X [[5]; [6]]%Z) = Ok [[17]; [39]]%Z.
Proof. reflexivity. Qed.

Print Assumptions c82_over.
Print Assumptions c82_beside.
Print Assumptions c82_mult_over.
Print Assumptions c82_mult_beside.
Print Assumptions c82_conv2_local.
Print Assumptions c82_lu_lead.
Print Assumptions c82_lu_fails.
Print Assumptions c82_chol_lead.
Print Assumptions c82_lu_local.
