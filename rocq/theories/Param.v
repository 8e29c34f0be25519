(** * The library is parametric in the element type

    Two element types [K] and [K'] with a relation between their elements.  If
    the operations a function uses preserve the relation, the function does: when
    the run on [K] returns, throws or terminates, so does the run on [K'], with
    related results.  Nothing is said when the run on [K] is undefined. *)

From Coq Require Import List ZArith Lia Bool Arith String.
Import ListNotations.
From Verif Require Import Base Scalar Model.

Definition refines {A B : Type} (R : A -> B -> Prop) (o : outcome A) (o' : outcome B) : Prop :=
  match o with
  | Ok a => exists b, o' = Ok b /\ R a b
  | Throw e => o' = Throw e
  | Terminate => o' = Terminate
  | UB _ | OutOfFuel => True
  end.

Lemma ref_ok {A B} (R : A -> B -> Prop) a b : R a b -> refines R (Ok a) (Ok b).
Proof. intros H. exists b. split; [reflexivity|exact H]. Qed.

Lemma ref_bind {A B A' B'} (R : A -> A' -> Prop) (Q : B -> B' -> Prop) o o' k k' :
  refines R o o' -> (forall a a', R a a' -> refines Q (k a) (k' a')) -> refines Q (bind o k) (bind o' k').
Proof.
  intros H1 H2. destruct o as [a|e| |u|]; cbn in *; try (subst; reflexivity); try exact I.
  destruct H1 as [b [-> H]]. cbn. apply H2, H.
Qed.

Lemma ref_mono {A A'} (R Q : A -> A' -> Prop) o o' :
  refines R o o' -> (forall a a', R a a' -> Q a a') -> refines Q o o'.
Proof. intros H1 H2. destruct o; cbn in *; auto. destruct H1 as [b [-> H]]. eauto. Qed.

Lemma ref_for {S S'} (R : S -> S' -> Prop) lo hi body body' s s' :
  R s s' -> (forall k s s', lo <= k < hi -> R s s' -> refines R (body k s) (body' k s')) ->
  refines R (for_ lo hi body s) (for_ lo hi body' s').
Proof.
  intros Hs Hb. unfold for_.
  assert (G : forall cnt lo0, (forall k s s', lo0 <= k < lo0 + cnt -> R s s' -> refines R (body k s) (body' k s')) ->
     forall s s', R s s' -> refines R (iter cnt lo0 body s) (iter cnt lo0 body' s')).
  { induction cnt as [|c IH]; intros lo0 H t t' Ht; cbn [iter]; [apply ref_ok, Ht|].
    eapply ref_bind; [apply H; [lia|exact Ht]|]. intros a a' Ha. apply IH; [|exact Ha].
    intros; apply H; [lia|assumption]. }
  apply G; [|exact Hs]. intros; apply Hb; [lia|assumption].
Qed.

Inductive relC {S S' V V'} (R : S -> S' -> Prop) (Q : V -> V' -> Prop) : ctrl S V -> ctrl S' V' -> Prop :=
| relCont s s' : R s s' -> relC R Q (Cont s) (Cont s')
| relRet v v' : Q v v' -> relC R Q (Ret v) (Ret v').

Lemma ref_for_ret {S S' V V'} (R : S -> S' -> Prop) (Q : V -> V' -> Prop) lo hi body body' s s' :
  R s s' -> (forall k s s', lo <= k < hi -> R s s' -> refines (relC R Q) (body k s) (body' k s')) ->
  refines (relC R Q) (for_ret lo hi body s) (for_ret lo hi body' s').
Proof.
  intros Hs Hb. unfold for_ret.
  assert (G : forall cnt lo0, (forall k s s', lo0 <= k < lo0 + cnt -> R s s' -> refines (relC R Q) (body k s) (body' k s')) ->
     forall s s', R s s' -> refines (relC R Q) (iter_ret cnt lo0 body s) (iter_ret cnt lo0 body' s')).
  { induction cnt as [|c IH]; intros lo0 H t t' Ht; cbn [iter_ret]; [apply ref_ok; constructor; exact Ht|].
    eapply ref_bind; [apply H; [lia|exact Ht]|]. intros a a' [u u' Hu|v v' Hv].
    - apply IH; [|exact Hu]. intros; apply H; [lia|assumption].
    - apply ref_ok. constructor. exact Hv. }
  apply G; [|exact Hs]. intros; apply Hb; [lia|assumption].
Qed.

Lemma Forall2_length {T T'} (R : T -> T' -> Prop) v v' : Forall2 R v v' -> List.length v = List.length v'.
Proof. intros H. induction H; cbn; congruence. Qed.

Section Arrays.
Context {T T' : Type} (R : T -> T' -> Prop).

Lemma ref_vget v v' i : Forall2 R v v' -> refines R (vget v i) (vget v' i).
Proof.
  intros H. unfold vget. revert i. induction H as [|x y l l' Hxy H IH]; intros [|i]; cbn; try exact I.
  - exists y. auto.
  - apply IH.
Qed.

Lemma upd_rel v v' i x x' : Forall2 R v v' -> R x x' -> Forall2 R (upd v i x) (upd v' i x').
Proof. intros H Hx. revert i. induction H; intros [|i]; cbn; constructor; auto. Qed.

Lemma ref_vset v v' i x x' : Forall2 R v v' -> R x x' -> refines (Forall2 R) (vset v i x) (vset v' i x').
Proof.
  intros H Hx. unfold vset. rewrite <- (Forall2_length _ _ _ H). destruct (i <? List.length v); [|exact I].
  apply ref_ok, upd_rel; assumption.
Qed.

Lemma ref_map_out f f' v v' : Forall2 R v v' -> (forall x x', R x x' -> refines R (f x) (f' x')) ->
  refines (Forall2 R) (map_out f v) (map_out f' v').
Proof.
  intros H Hf. induction H as [|x y l l' Hxy H IH]; cbn [map_out]; [apply ref_ok; constructor|].
  eapply ref_bind; [apply Hf, Hxy|]. intros. eapply ref_bind; [exact IH|]. intros. apply ref_ok. constructor; assumption.
Qed.

Lemma repeat_rel x x' n : R x x' -> Forall2 R (repeat x n) (repeat x' n).
Proof. intros H. induction n; cbn; constructor; assumption. Qed.
End Arrays.

(** the relation on matrices: same shape, related elements *)
Definition mrel {T T' : Type} (R : T -> T' -> Prop) : matrix T -> matrix T' -> Prop := Forall2 (Forall2 R).

Section Matrices.
Context {T T' : Type} (R : T -> T' -> Prop).

Lemma ref_aget A A' i j : mrel R A A' -> refines R (aget A i j) (aget A' i j).
Proof.
  intros H. unfold aget. eapply ref_bind; [apply ref_vget, H|]. intros r r' Hr. apply ref_vget, Hr.
Qed.

Lemma ref_aset A A' i j x x' : mrel R A A' -> R x x' -> refines (mrel R) (aset A i j x) (aset A' i j x').
Proof.
  intros H Hx. unfold aset. eapply ref_bind; [apply ref_vget, H|]. intros r r' Hr.
  eapply ref_bind; [apply ref_vset; eassumption|]. intros q q' Hq. apply ref_vset; assumption.
Qed.

Lemma ref_agetz A A' i j : mrel R A A' -> refines R (agetz A i j) (agetz A' i j).
Proof.
  intros H. unfold agetz. rewrite <- (Forall2_length _ _ _ H). destruct (_ && _)%bool; [|exact I].
  eapply ref_bind; [apply ref_vget, H|]. intros r r' Hr. rewrite <- (Forall2_length _ _ _ Hr).
  destruct (_ <? _)%Z; [|exact I]. apply ref_vget, Hr.
Qed.

Lemma init_rel n m x x' : R x x' -> mrel R (init n m x) (init n m x').
Proof. intros H. unfold init, mrel. apply repeat_rel, repeat_rel, H. Qed.
End Matrices.

Definition relP {A A' B B'} (R : A -> A' -> Prop) (Q : B -> B' -> Prop) (p : A * B) (p' : A' * B') : Prop :=
  R (fst p) (fst p') /\ Q (snd p) (snd p').

Section Param.
Context (K K' : scalar).
Context (rel : elt K -> elt K' -> Prop) (relx : xpr K -> xpr K' -> Prop).

Hypothesis Hld : forall a a', rel a a' -> relx (ld a) (ld a').
Hypothesis Hst : forall v v', relx v v' -> rel (st v) (st v').
Hypothesis H0 : relx (lit 0) (lit 0).
Notation RM := (mrel rel).

Lemma Hlite0 : rel (lite K 0) (lite K' 0). Proof. apply Hst, H0. Qed.

(** *** rearrangements: no operation at all *)

Lemma fill_rel n m d d' : rel d d' -> RM (fill K n m d) (fill K' n m d').
Proof.
  intros H. unfold fill. pose proof (init_rel rel n m _ _ Hlite0) as I. revert I. unfold mrel.
  generalize (init n m (lite K 0)) (init n m (lite K' 0)). intros A A' I.
  induction I as [|r r' A A' Hr I IH]; cbn [map]; constructor; [|exact IH].
  clear IH I. induction Hr; cbn; constructor; assumption.
Qed.

Ltac leaf :=
  match goal with
  | |- refines _ (aget _ _ _) (aget _ _ _) => apply ref_aget; eassumption
  | |- refines _ (agetz _ _ _) (agetz _ _ _) => apply ref_agetz; eassumption
  | |- refines _ (vget _ _) (vget _ _) => apply ref_vget; eassumption
  | |- refines _ (vset _ _ _) (vset _ _ _) => apply ref_vset; eauto
  | |- refines _ (aset _ _ _ _) (aset _ _ _ _) => apply ref_aset; [eassumption|eauto using Hlite0]
  end.
Ltac pstep :=
  match goal with
  | |- refines _ (bind _ _) (bind _ _) => eapply ref_bind; [solve [leaf]|intros ? ? ?]
  | |- refines _ (for_ _ _ _ _) (for_ _ _ _ _) =>
      apply ref_for; [first [eassumption|apply init_rel, Hlite0]|intros ? ? ? ? ?; cbv beta]
  | |- refines _ (bind (for_ _ _ _ _) _) (bind (for_ _ _ _ _) _) =>
      eapply (ref_bind RM); [apply ref_for; [first [eassumption|apply init_rel, Hlite0]|intros ? ? ? ? ?; cbv beta]|intros ? ? ?]
  | |- refines _ (Ok _) (Ok _) => apply ref_ok; eauto
  | |- _ => leaf
  end.
Ltac psteps := repeat pstep.

Lemma eye_ref n d d' : rel d d' -> refines RM (eye K n d) (eye K' n d').
Proof.
  intros H. unfold eye. apply ref_for; [apply fill_rel, Hlite0|]. intros. leaf.
Qed.

Lemma trans_ref n m A A' : RM A A' -> refines RM (trans K n m A) (trans K' n m A').
Proof. intros H. unfold trans. psteps. Qed.

Lemma swap_rows_ref n m A A' r1 r2 : RM A A' -> refines RM (swap_rows K n m A r1 r2) (swap_rows K' n m A' r1 r2).
Proof. intros H. unfold swap_rows. destruct (r1 =? r2); [psteps|]. psteps. Qed.

Lemma swap_cols_ref n m A A' c1 c2 : RM A A' -> refines RM (swap_cols K n m A c1 c2) (swap_cols K' n m A' c1 c2).
Proof.
  intros H. unfold swap_cols. destruct (c1 =? c2); [psteps|]. apply ref_map_out; [exact H|].
  intros. psteps.
Qed.

Lemma concatenate_v_ref n1 n2 m A A' B B' : RM A A' -> RM B B' ->
  refines RM (concatenate_v K n1 n2 m A B) (concatenate_v K' n1 n2 m A' B').
Proof. intros HA HB. unfold concatenate_v. psteps. Qed.

Lemma concatenate_h_ref n1 n2 m A A' B B' : RM A A' -> RM B B' ->
  refines RM (concatenate_h K n1 n2 m A B) (concatenate_h K' n1 n2 m A' B').
Proof. intros HA HB. unfold concatenate_h. psteps. Qed.

Lemma concatenateV_ref n A A' B B' : RM A A' -> RM B B' ->
  refines RM (concatenateV K n A B) (concatenateV K' n A' B').
Proof. intros HA HB. unfold concatenateV. psteps. Qed.

Lemma concatenateH_ref n A A' B B' : RM A A' -> RM B B' ->
  refines RM (concatenateH K n A B) (concatenateH K' n A' B').
Proof. intros HA HB. unfold concatenateH. psteps. Qed.

Lemma concatenate_sq_ref n A A' B B' : RM A A' -> RM B B' ->
  refines (relP RM RM) (concatenate_sq K n A B) (concatenate_sq K' n A' B').
Proof. intros HA HB. unfold concatenate_sq. psteps. split; assumption. Qed.

Lemma getminor_ref n A A' i j : RM A A' -> refines RM (getminor K n A i j) (getminor K' n A' i j).
Proof.
  intros HA. unfold getminor.
  eapply (ref_bind (fun s s' => RM (fst (fst s)) (fst (fst s')) /\ snd (fst s) = snd (fst s') /\ snd s = snd s')).
  2:{ intros [[a b] c] [[a' b'] c'] [H _]. cbn in H. apply ref_ok, H. }
  apply ref_for; [cbn; split; [apply init_rel, Hlite0|auto]|].
  intros k [[a b] c] [[a' b'] c'] _ [H [E1 E2]]. cbn in H, E1, E2. subst b' c'.
  destruct (k =? i); [apply ref_ok; cbn; auto|].
  eapply (ref_bind (fun s s' => RM (fst s) (fst s') /\ snd s = snd s')).
  2:{ intros [x y] [x' y'] [Hx Hy]. cbn in Hx, Hy. subst. apply ref_ok. cbn. auto. }
  apply ref_for; [cbn; auto|]. intros l [x y] [x' y'] _ [Hx Hy]. cbn in Hx, Hy. subst y'.
  destruct (l =? j); [apply ref_ok; cbn; auto|]. psteps.
Qed.

Lemma flatten_ref n m A A' : RM A A' -> refines (Forall2 rel) (flatten K n m A) (flatten K' n m A').
Proof.
  intros H. unfold flatten. apply ref_for; [constructor|]. intros. apply ref_for; [assumption|]. intros.
  psteps. apply Forall2_app; [assumption|repeat constructor; assumption].
Qed.

Lemma print_ref show show' n m A A' : RM A A' -> (forall x x', rel x x' -> show x = show' x') ->
  refines eq (print K show n m A) (print K' show' n m A').
Proof.
  intros H Hs. unfold print. apply ref_for; [reflexivity|]. intros k s s' _ ->.
  eapply (ref_bind eq); [|intros ? ? ->; apply ref_ok; reflexivity].
  apply ref_for; [reflexivity|]. intros l t t' _ ->. pstep. apply ref_ok. erewrite Hs by eassumption. reflexivity.
Qed.

(** *** with 1 *)
Section One.
Hypothesis H1 : relx (lit 1) (lit 1).
Lemma Hlite1 : rel (lite K 1) (lite K' 1). Proof. apply Hst, H1. Qed.
Lemma eye1_ref n : refines RM (eye1 K n) (eye1 K' n). Proof. apply eye_ref, Hlite1. Qed.
End One.

(** *** with + *)
Section Add.
Hypothesis Hadd : forall a a' b b', relx a a' -> relx b b' -> refines relx (xadd a b) (xadd a' b').

Ltac op := first [apply Hadd; [solve [auto]|solve [auto]]].
Ltac astep :=
  match goal with
  | |- refines _ (bind (xadd _ _) _) (bind (xadd _ _) _) => eapply ref_bind; [op|intros ? ? ?]
  | |- _ => pstep
  end.

Lemma sum_ref n m A A' B B' : RM A A' -> RM B B' -> refines RM (sum K n m A B) (sum K' n m A' B').
Proof. intros HA HB. unfold sum. repeat astep. Qed.

Lemma sum_scalar_ref n m A A' s s' : RM A A' -> rel s s' ->
  refines RM (sum_scalar K n m A s) (sum_scalar K' n m A' s').
Proof. intros HA Hs. unfold sum_scalar. repeat astep. Qed.

Section Mul.
Hypothesis Hmul : forall a a' b b', relx a a' -> relx b b' -> refines relx (xmul a b) (xmul a' b').

Ltac mstep :=
  match goal with
  | |- refines _ (bind (xmul _ _) _) (bind (xmul _ _) _) => eapply ref_bind; [apply Hmul; solve [auto]|intros ? ? ?]
  | |- _ => astep
  end.

Lemma mult_ref n m p A A' B B' : RM A A' -> RM B B' -> refines RM (mult K n m p A B) (mult K' n m p A' B').
Proof.
  intros HA HB. unfold mult, zeros. apply ref_for; [apply fill_rel, Hlite0|]. intros. repeat mstep.
Qed.

Lemma conv_line_ref i j A A' k k' off it jt ka kb di dj X X' : RM A A' -> RM k k' -> RM X X' ->
  refines RM (conv_line K i j A k off it jt ka kb di dj X) (conv_line K' i j A' k' off it jt ka kb di dj X').
Proof.
  intros HA Hk HX. unfold conv_line. pstep. eapply (ref_bind relx).
  - destruct (_ =? 0); [|apply ref_ok, H0]. repeat mstep. apply Hmul; auto.
  - intros. repeat mstep.
Qed.

Lemma conv_cell_ref i j A A' k k' off it jt X X' : RM A A' -> RM k k' -> RM X X' ->
  refines RM (conv_cell K i j A k off it jt X) (conv_cell K' i j A' k' off it jt X').
Proof.
  intros HA Hk HX. unfold conv_cell. cbv zeta. pstep.
  do 8 (eapply ref_bind; [apply conv_line_ref; eassumption|intros ? ? ?]). apply conv_line_ref; assumption.
Qed.

Lemma conv2_ref i j A A' k k' : RM A A' -> RM k k' -> refines RM (conv2 K i j A k) (conv2 K' i j A' k').
Proof.
  intros HA Hk. unfold conv2. apply ref_for; [apply init_rel, Hlite0|]. intros. apply ref_for; [assumption|]. intros.
  apply conv_cell_ref; assumption.
Qed.

Lemma conv2_full_ref i j A A' k k' : RM A A' -> RM k k' -> refines RM (conv2_full K i j A k) (conv2_full K' i j A' k').
Proof.
  intros HA Hk. unfold conv2_full. apply ref_for; [apply init_rel, Hlite0|]. intros. apply ref_for; [assumption|]. intros.
  apply conv_cell_ref; assumption.
Qed.

Lemma conv2_valid_ref n A A' k k' : RM A A' -> RM k k' -> refines RM (conv2_valid K n A k) (conv2_valid K' n A' k').
Proof.
  intros HA Hk. unfold conv2_valid. eapply ref_bind; [apply conv2_ref; eassumption|]. intros.
  eapply ref_bind; [apply getminor_ref; eassumption|]. intros. apply getminor_ref; assumption.
Qed.

(** pow with a non-negative exponent *)
Lemma pow_fuel_ref (H1 : relx (lit 1) (lit 1)) fuel n : forall w A A' p, RM A A' -> (0 <= p)%Z ->
  refines RM (pow_fuel K fuel n w A p) (pow_fuel K' fuel n w A' p).
Proof.
  induction fuel as [|f IH]; intros w A A' p HA Hp; cbn [pow_fuel]; [exact I|].
  destruct (p =? 0)%Z; [apply eye1_ref, H1|]. destruct (p =? 1)%Z; [apply ref_ok, HA|].
  destruct (Z.ltb_spec p 0); [lia|]. cbn [bind].
  eapply ref_bind; [apply IH; [exact HA|apply Z.quot_pos; lia]|]. intros X X' HX.
  unfold op_mult. destruct (_ =? 0)%Z; [apply mult_ref; assumption|].
  eapply ref_bind; [apply mult_ref; eassumption|]. intros. apply mult_ref; assumption.
Qed.
Lemma pow_ref (H1 : relx (lit 1) (lit 1)) n w A A' p : RM A A' -> (0 <= p)%Z ->
  refines RM (pow K n w A p) (pow K' n w A' p).
Proof. intros. apply pow_fuel_ref; assumption. Qed.

Section Sub.
Hypothesis Hsub : forall a a' b b', relx a a' -> relx b b' -> refines relx (xsub a b) (xsub a' b').
Ltac sstep :=
  match goal with
  | |- refines _ (bind (xsub _ _) _) (bind (xsub _ _) _) => eapply ref_bind; [apply Hsub; solve [auto]|intros ? ? ?]
  | |- _ => mstep
  end.

Lemma strassen_ref A A' B B' : RM A A' -> RM B B' -> refines RM (strassen K A B) (strassen K' A' B').
Proof.
  intros HA HB. unfold strassen. cbv zeta. pose proof (init_rel rel 2 2 _ _ Hlite0). repeat sstep.
Qed.

Lemma det1_ref A A' : RM A A' -> refines rel (det1 K A) (det1 K' A').
Proof. intros. unfold det1. leaf. Qed.
Lemma det2_ref A A' : RM A A' -> refines rel (det2 K A) (det2 K' A').
Proof. intros. unfold det2. repeat sstep. Qed.
Lemma mul3_ref a a' b b' c c' : relx a a' -> relx b b' -> relx c c' -> refines relx (mul3 K a b c) (mul3 K' a' b' c').
Proof. intros. unfold mul3. repeat sstep. apply Hmul; assumption. Qed.
Lemma det3_ref A A' : RM A A' -> refines rel (det3 K A) (det3 K' A').
Proof.
  intros. unfold det3.
  repeat first [sstep|eapply ref_bind; [apply mul3_ref; solve [auto]|intros ? ? ?]].
Qed.
Lemma det_small_ref n A A' : 0 < n <= 3 -> RM A A' -> refines rel (det K n A) (det K' n A').
Proof.
  intros Hn HA. destruct n as [|[|[|[|n]]]]; try lia; cbn [det];
  [apply det1_ref|apply det2_ref|apply det3_ref]; assumption.
Qed.
End Sub.
End Mul.
End Add.

Lemma sub_ref (Hsub : forall a a' b b', relx a a' -> relx b b' -> refines relx (xsub a b) (xsub a' b')) n m A A' B B' :
  RM A A' -> RM B B' -> refines RM (sub K n m A B) (sub K' n m A' B').
Proof.
  intros HA HB. unfold sub. repeat first [pstep|eapply ref_bind; [apply Hsub; solve [auto]|intros ? ? ?]].
Qed.

Lemma sub_scalar_ref (Hsub : forall a a' b b', relx a a' -> relx b b' -> refines relx (xsub a b) (xsub a' b')) n m A A' s s' :
  RM A A' -> rel s s' -> refines RM (sub_scalar K n m A s) (sub_scalar K' n m A' s').
Proof.
  intros HA Hs. unfold sub_scalar. repeat first [pstep|eapply ref_bind; [apply Hsub; solve [auto]|intros ? ? ?]].
Qed.

Lemma mult_scalar_ref (Hmul : forall a a' b b', relx a a' -> relx b b' -> refines relx (xmul a b) (xmul a' b')) n m A A' s s' :
  RM A A' -> rel s s' -> refines RM (mult_scalar K n m A s) (mult_scalar K' n m A' s').
Proof.
  intros HA Hs. unfold mult_scalar. repeat first [pstep|eapply ref_bind; [apply Hmul; solve [auto]|intros ? ? ?]].
Qed.

Lemma abs_ref (Habs : forall a a', relx a a' -> refines relx (xabs a) (xabs a')) n m J J' A A' :
  RM J J' -> RM A A' -> refines RM (abs K n m J A) (abs K' n m J' A').
Proof.
  intros HJ HA. unfold abs. repeat first [pstep|eapply ref_bind; [apply Habs; solve [auto]|intros ? ? ?]].
Qed.

(** *** predicates *)
Section Eq.
Hypothesis Heq : forall a a' b b', relx a a' -> relx b b' -> xeq a b = xeq a' b'.

Lemma isSymetric_ref n A A' : RM A A' -> refines eq (isSymetric K n A) (isSymetric K' n A').
Proof.
  intros H. unfold isSymetric. eapply (ref_bind (relC eq eq)).
  - apply ref_for_ret; [reflexivity|]. intros i [] [] _ _. apply ref_for_ret; [reflexivity|]. intros j [] [] _ _.
    pstep. pstep. erewrite Heq by eauto. destruct (negb _); apply ref_ok; constructor; reflexivity.
  - intros ? ? [? ? ->|? ? ->]; apply ref_ok; reflexivity.
Qed.

Lemma vec_eqb_rel u u' : Forall2 rel u u' -> forall v v', Forall2 rel v v' -> vec_eqb K u v = vec_eqb K' u' v'.
Proof.
  intros H. induction H as [|x x' u u' Hx H IH]; intros v v' [|y y' w w' Hy Hv]; cbn; try reflexivity.
  rewrite (Heq _ (ld x') _ (ld y')) by auto. f_equal. apply IH, Hv.
Qed.
Lemma mat_eqb_rel u u' : RM u u' -> forall v v', RM v v' -> mat_eqb K u v = mat_eqb K' u' v'.
Proof.
  unfold mrel. intros H. induction H as [|x x' u u' Hx H IH]; intros v v' [|y y' w w' Hy Hv]; cbn; try reflexivity.
  rewrite (vec_eqb_rel x x') with (v' := y') by assumption. f_equal. apply IH, Hv.
Qed.
Lemma isIdentity_ref (H1 : relx (lit 1) (lit 1)) n A A' : RM A A' -> refines eq (isIdentity K n A) (isIdentity K' n A').
Proof.
  intros H. unfold isIdentity. eapply ref_bind; [apply eye1_ref, H1|]. intros. apply ref_ok, mat_eqb_rel; assumption.
Qed.
End Eq.

(** *** histograms *)
Section Lt.
Hypothesis Hlt : forall a a' b b', relx a a' -> relx b b' -> xlt a b = xlt a' b'.

Lemma elt_lt_rel a a' b b' : rel a a' -> rel b b' -> elt_lt K a b = elt_lt K' a' b'.
Proof. intros. unfold elt_lt. apply Hlt; auto. Qed.

Lemma forallb_rel (p : elt K -> bool) (p' : elt K' -> bool) v v' : Forall2 rel v v' ->
  (forall x x', rel x x' -> p x = p' x') -> forallb p v = forallb p' v'.
Proof. intros H Hp. induction H; cbn; [reflexivity|]. erewrite Hp by eassumption. congruence. Qed.

Lemma strict_weak_rel v v' : Forall2 rel v v' -> strict_weak K v = strict_weak K' v'.
Proof.
  intros H. unfold strict_weak. apply forallb_rel; [exact H|]. intros a a' Ha.
  rewrite (elt_lt_rel a a' a a') by assumption. f_equal.
  apply forallb_rel; [exact H|]. intros b b' Hb.
  rewrite (elt_lt_rel a a' b b'), (elt_lt_rel b b' a a') by assumption. f_equal.
  apply forallb_rel; [exact H|]. intros c c' Hc.
  rewrite (elt_lt_rel b b' c c'), (elt_lt_rel a a' c c'), (elt_lt_rel c c' b b'), (elt_lt_rel c c' a a') by assumption.
  reflexivity.
Qed.

Notation RH := (Forall2 (relP rel (@eq Z))).

Lemma map_incr_rel k k' h h' : rel k k' -> RH h h' -> RH (map_incr K k h) (map_incr K' k' h').
Proof.
  intros Hk H. induction H as [|[x c] [x' c'] h h' [Hx E] H IH]; cbn in *; [repeat constructor; assumption|].
  subst c'. rewrite (elt_lt_rel k k' x x'), (elt_lt_rel x x' k k') by assumption.
  destruct (elt_lt K' k' x'); [|destruct (elt_lt K' x' k')]; repeat (constructor; try assumption); auto.
Qed.

Lemma map_assign_rel k k' c h h' : rel k k' -> RH h h' -> RH (map_assign K k c h) (map_assign K' k' c h').
Proof.
  intros Hk H. induction H as [|[x d] [x' d'] h h' [Hx E] H IH]; cbn in *; [repeat constructor; assumption|].
  subst d'. rewrite (elt_lt_rel k k' x x'), (elt_lt_rel x x' k k') by assumption.
  destruct (elt_lt K' k' x'); [|destruct (elt_lt K' x' k')]; repeat (constructor; try assumption); auto.
Qed.

Lemma histogram_ref n m A A' : RM A A' -> refines RH (histogram K n m A) (histogram K' n m A').
Proof.
  intros H. unfold histogram. eapply ref_bind; [apply flatten_ref, H|]. intros v v' Hv.
  rewrite (strict_weak_rel v v' Hv). destruct (negb _); [exact I|].
  apply ref_for; [constructor|]. intros. apply ref_for; [assumption|]. intros. pstep. apply ref_ok, map_incr_rel; assumption.
Qed.

Lemma cumulative_ref n m A A' : RM A A' -> refines RH (cumulative_histogram K n m A) (cumulative_histogram K' n m A').
Proof.
  intros H. unfold cumulative_histogram. eapply ref_bind; [apply histogram_ref, H|]. intros h h' Hh.
  assert (G : forall r r' s, RH r r' ->
    relP RH eq (fold_left (fun (s : list (elt K * Z) * Z) p => let '(result, cumul_sum) := s in
      let cumul_sum := ((cumul_sum + snd p) mod 2 ^ 64)%Z in
      (map_assign K (fst p) cumul_sum result, cumul_sum)) h (r, s))
     (fold_left (fun (s : list (elt K' * Z) * Z) p => let '(result, cumul_sum) := s in
      let cumul_sum := ((cumul_sum + snd p) mod 2 ^ 64)%Z in
      (map_assign K' (fst p) cumul_sum result, cumul_sum)) h' (r', s))).
  { clear H. induction Hh as [|[x c] [x' c'] h h' [Hx E] Hh IH]; intros r r' s Hr; cbn in *; [split; auto|].
    subst c'. apply IH, map_assign_rel; assumption. }
  specialize (G [] [] 0%Z (Forall2_nil _)).
  destruct (fold_left _ h _) as [r s], (fold_left _ h' _) as [r' s']. destruct G as [G _]. apply ref_ok, G.
Qed.
End Lt.

(** *** functions that divide *)
Section Div.
Hypothesis H1 : relx (lit 1) (lit 1).
Hypothesis Hm1 : relx (lit (-1)) (lit (-1)).
Hypothesis Hadd : forall a a' b b', relx a a' -> relx b b' -> refines relx (xadd a b) (xadd a' b').
Hypothesis Hsub : forall a a' b b', relx a a' -> relx b b' -> refines relx (xsub a b) (xsub a' b').
Hypothesis Hmul : forall a a' b b', relx a a' -> relx b b' -> refines relx (xmul a b) (xmul a' b').
Hypothesis Hdiv : forall a a' b b', relx a a' -> relx b b' -> refines relx (xdiv a b) (xdiv a' b').
Hypothesis Hneg : forall a a', relx a a' -> refines relx (xneg a) (xneg a').
Hypothesis Heq : forall a a' b b', relx a a' -> relx b b' -> xeq a b = xeq a' b'.
Hypothesis Hsqrt : forall a a', relx a a' -> refines rel (xsqrt a) (xsqrt a').
Hypothesis Hdivsz : forall a a' n, relx a a' -> refines rel (divsz a n) (divsz a' n).

Ltac dop := first [apply Hadd|apply Hsub|apply Hmul|apply Hdiv|apply Hneg|apply Hsqrt|apply Hdivsz]; solve [auto].
Ltac dstep :=
  match goal with
  | |- refines _ (bind _ _) (bind _ _) => eapply ref_bind; [first [solve [leaf]|dop]|intros ? ? ?]
  | |- refines rel (for_ _ _ _ _) (for_ _ _ _ _) => apply ref_for; [first [eassumption|apply Hlite0|apply Hlite1, H1]|intros ? ? ? ? ?; cbv beta]
  | |- refines _ (bind (for_ _ _ _ _) _) (bind (for_ _ _ _ _) _) =>
      eapply (ref_bind rel); [apply ref_for; [first [eassumption|apply Hlite0|apply Hlite1, H1]|intros ? ? ? ? ?; cbv beta]|intros ? ? ?]
  | |- _ => dop
  | |- _ => pstep
  end.

Lemma div_ref n m A A' s s' : RM A A' -> rel s s' -> refines RM (div K n m A s) (div K' n m A' s').
Proof.
  intros HA Hs. unfold div. rewrite (Heq _ (ld s') _ (lit 0)) by auto. destruct (xeq _ _); [reflexivity|].
  repeat dstep.
Qed.

Lemma det_prod_ref n A A' f f' : RM A A' -> rel f f' -> refines rel (det_prod K n A f) (det_prod K' n A' f').
Proof. intros HA Hf. unfold det_prod. repeat dstep. Qed.

Lemma det_search_ref fuel n A A' r : RM A A' -> forall i pivot,
  refines (relC eq eq) (det_search K fuel n A r i pivot) (det_search K' fuel n A' r i pivot).
Proof.
  intros HA. induction fuel as [|f IH]; intros i pivot; cbn [det_search]; [exact I|].
  dstep. rewrite (Heq _ (ld a') _ (lit 0)) by auto. destruct (xeq _ _).
  - destruct (n =? i + 1); [|apply IH]. destruct (n =? pivot + 1); [|apply IH]. apply ref_ok. constructor. reflexivity.
  - apply ref_ok. constructor. reflexivity.
Qed.

Lemma det_eliminate_ref n A A' r p : RM A A' -> refines RM (det_eliminate K n A r p) (det_eliminate K' n A' r p).
Proof.
  intros HA. unfold det_eliminate. apply ref_for; [exact HA|]. intros i s s' _ Hs.
  destruct (i =? r); [apply ref_ok, Hs|]. repeat dstep.
Qed.

Lemma det_general_ref n A A' : RM A A' -> refines rel (det_general K n A) (det_general K' n A').
Proof.
  intros HA. unfold det_general.
  set (Q := fun (s : matrix (elt K) * elt K * nat) (s' : matrix (elt K') * elt K' * nat) =>
    RM (fst (fst s)) (fst (fst s')) /\ rel (snd (fst s)) (snd (fst s')) /\ snd s = snd s').
  eapply (ref_bind (relC Q rel)).
  2:{ intros ? ? [[[a b] c] [[a' b'] c'] [Ha [Hb Hc]]|? ? H]; cbn in *; [apply det_prod_ref; assumption|apply ref_ok, H]. }
  apply ref_for_ret; [cbn; split; [exact HA|split; [apply Hlite1, H1|reflexivity]]|].
  intros r [[a b] c] [[a' b'] c'] _ [Ha [Hb Hc]]. cbn in Ha, Hb, Hc. subst c'.
  destruct (n <=? c).
  { eapply ref_bind; [apply det_prod_ref; eassumption|]. intros. apply ref_ok. constructor. assumption. }
  eapply ref_bind; [apply det_search_ref, Ha|]. intros ? ? [[i p] ? <-|? ? <-].
  2:{ eapply ref_bind; [apply det_prod_ref; eassumption|]. intros. apply ref_ok. constructor. assumption. }
  eapply (ref_bind (relP RM rel)).
  { destruct (i =? r); [apply ref_ok; split; assumption|].
    eapply ref_bind; [apply swap_rows_ref, Ha|]. intros. dstep. apply ref_ok. split; [assumption|apply Hst; assumption]. }
  intros [x y] [x' y'] [Hx Hy]. cbn in Hx, Hy.
  eapply ref_bind; [apply det_eliminate_ref, Hx|]. intros. apply ref_ok. constructor. unfold Q. cbn. auto.
Qed.

Lemma det_ref n A A' : RM A A' -> refines rel (det K n A) (det K' n A').
Proof.
  intros HA. destruct n as [|[|[|[|n]]]]; cbn [det];
  [apply det_general_ref|apply det1_ref|apply det2_ref|apply det3_ref|apply det_general_ref]; assumption.
Qed.

Lemma inv1_ref A A' : RM A A' -> refines RM (inv1 K A) (inv1 K' A').
Proof.
  intros HA. unfold inv1. eapply ref_bind; [apply det_ref, HA|]. intros. dstep.
  apply ref_ok. repeat constructor. auto.
Qed.

Lemma inv2_ref A A' : RM A A' -> refines RM (inv2 K A) (inv2 K' A').
Proof.
  intros HA. unfold inv2. eapply ref_bind; [apply det_ref, HA|]. intros d d' Hd.
  rewrite (Heq _ (ld d') _ (lit 0)) by auto. destruct (xeq _ _); [reflexivity|].
  repeat dstep. apply div_ref; [|assumption]. repeat constructor; auto.
Qed.

Lemma mul_sub_ref x x' y y' z z' w w' : rel x x' -> rel y y' -> rel z z' -> rel w w' ->
  refines rel (mul_sub K x y z w) (mul_sub K' x' y' z' w').
Proof. intros. unfold mul_sub. repeat dstep. Qed.

Lemma inv3_ref A A' : RM A A' -> refines RM (inv3 K A) (inv3 K' A').
Proof.
  intros HA. unfold inv3. eapply ref_bind; [apply det_ref, HA|]. intros d d' Hd.
  rewrite (Heq _ (ld d') _ (lit 0)) by auto. destruct (xeq _ _); [reflexivity|].
  do 9 dstep. do 9 (eapply ref_bind; [apply mul_sub_ref; eassumption|intros ? ? ?]).
  apply div_ref; [|assumption]. repeat constructor; assumption.
Qed.

Lemma inv_general_ref n A A' : RM A A' -> refines RM (inv_general K n A) (inv_general K' n A').
Proof.
  intros HA. unfold inv_general. eapply ref_bind; [apply det_ref, HA|]. intros d d' Hd.
  eapply (ref_bind RM).
  - apply ref_for; [apply init_rel, Hlite0|]. intros i s s' _ Hs. apply ref_for; [exact Hs|]. intros j t t' _ Ht.
    eapply ref_bind; [apply getminor_ref, HA|]. intros. eapply ref_bind; [apply det_ref; eassumption|]. intros.
    eapply ref_bind; [apply Hmul; [destruct (_ =? 0); assumption|apply Hld; eassumption]|]. intros. leaf.
  - intros. eapply ref_bind; [apply trans_ref; eassumption|]. intros. apply div_ref; assumption.
Qed.

Lemma inv_ref n A A' : RM A A' -> refines RM (inv K n A) (inv K' n A').
Proof.
  intros HA. destruct n as [|[|[|[|n]]]]; cbn [inv];
  [apply inv_general_ref|apply inv1_ref|apply inv2_ref|apply inv3_ref|apply inv_general_ref]; assumption.
Qed.

(** pow, any exponent *)
Lemma pow_fuel_ref_all fuel n : forall w A A' p, RM A A' ->
  refines RM (pow_fuel K fuel n w A p) (pow_fuel K' fuel n w A' p).
Proof.
  induction fuel as [|f IH]; intros w A A' p HA; cbn [pow_fuel]; [exact I|].
  destruct (p =? 0)%Z; [apply eye1_ref, H1|]. destruct (p =? 1)%Z; [apply ref_ok, HA|].
  eapply (ref_bind (relP RM eq)).
  { destruct (p <? 0)%Z; [|apply ref_ok; split; [exact HA|reflexivity]].
    eapply ref_bind; [apply inv_ref, HA|]. intros X X' HX. eapply (ref_bind eq).
    - destruct (abs_assign w p); cbn; eauto.
    - intros ? ? ->. apply ref_ok. split; [exact HX|reflexivity]. }
  intros [B q] [B' q'] [HB Hq]. cbn in HB, Hq. subst q'.
  eapply ref_bind; [apply IH, HB|]. intros X X' HX. unfold op_mult.
  destruct (_ =? 0)%Z; [apply mult_ref; assumption|].
  eapply ref_bind; [apply mult_ref; eassumption|]. intros. apply mult_ref; assumption.
Qed.
Lemma pow_ref_all n w A A' p : RM A A' -> refines RM (pow K n w A p) (pow K' n w A' p).
Proof. intros. apply pow_fuel_ref_all. assumption. Qed.

Lemma lu_ref n A A' : RM A A' -> refines (relP RM RM) (lu K n A) (lu K' n A').
Proof.
  intros HA. unfold lu. eapply ref_bind; [apply eye1_ref, H1|]. intros L0 L0' HL0. cbv zeta.
  apply ref_for; [split; [exact HL0|apply fill_rel, Hlite0]|].
  intros j [L U] [L' U'] _ [HL HU]. cbn in HL, HU.
  assert (Sum : forall L L' U U' i, RM L L' -> RM U U' -> refines rel
    (for_ 0 i (fun p sum => let* u := aget U p j in let* l := aget L i p in
      let* t := xmul (ld u) (ld l) in let* v := xadd (ld sum) t in Ok (st v)) (lite K 0))
    (for_ 0 i (fun p sum => let* u := aget U' p j in let* l := aget L' i p in
      let* t := xmul (ld u) (ld l) in let* v := xadd (ld sum) t in Ok (st v)) (lite K' 0))).
  { intros. repeat dstep. }
  eapply (ref_bind RM).
  { apply ref_for; [exact HU|]. intros. eapply ref_bind; [apply Sum; eassumption|]. intros. repeat dstep. }
  intros V V' HV. eapply (ref_bind RM).
  { apply ref_for; [exact HL|]. intros. eapply ref_bind; [apply Sum; eassumption|]. intros.
    dstep. erewrite Heq by eauto. destruct (xeq _ _); [reflexivity|]. repeat dstep. }
  intros. apply ref_ok. split; assumption.
Qed.

Lemma chol_ref n A A' : RM A A' -> refines RM (chol K n A) (chol K' n A').
Proof.
  intros HA. unfold chol. apply ref_for; [apply init_rel, Hlite0|]. intros i s s' _ Hs.
  apply ref_for; [exact Hs|]. intros j t t' _ Ht. destruct (j =? i); repeat dstep.
Qed.

Lemma mean_ref n m A A' : RM A A' -> refines rel (mean K n m A) (mean K' n m A').
Proof. intros HA. unfold mean. repeat dstep. Qed.

Lemma var_ref n m A A' : RM A A' -> refines rel (var K n m A) (var K' n m A').
Proof. intros HA. unfold var. eapply ref_bind; [apply mean_ref, HA|]. intros. repeat dstep. Qed.

Lemma stddev_ref n m A A' : RM A A' -> refines rel (stddev K n m A) (stddev K' n m A').
Proof. intros HA. unfold stddev. eapply ref_bind; [apply var_ref, HA|]. intros. repeat dstep. Qed.

Lemma median_ref (H2 : relx (lit 2) (lit 2)) (Hlt : forall a a' b b', relx a a' -> relx b b' -> xlt a b = xlt a' b')
  sort sort' n m A A' : RM A A' -> (forall v v', Forall2 rel v v' -> Forall2 rel (sort v) (sort' v')) ->
  refines rel (median K sort n m A) (median K' sort' n m A').
Proof.
  intros HA Hs. unfold median. cbv zeta. eapply ref_bind; [apply flatten_ref, HA|]. intros v v' Hv.
  rewrite (strict_weak_rel Hlt v v' Hv). destruct (negb _); [exact I|]. specialize (Hs _ _ Hv).
  destruct (_ =? 0); [|leaf]. dstep. eapply (ref_bind rel); [destruct (_ =? 0); [exact I|leaf]|]. intros. repeat dstep.
Qed.
End Div.

Lemma compare_ref (releps : epsT K -> epsT K' -> Prop)
  (Hsub : forall a a' b b', relx a a' -> relx b b' -> refines relx (xsub a b) (xsub a' b'))
  (Habs : forall a a', relx a a' -> refines relx (xabs a) (xabs a'))
  (Hgt : forall a a' e e', relx a a' -> releps e e' -> gteps a e = gteps a' e')
  n m A A' B B' e e' : RM A A' -> RM B B' -> releps e e' ->
  refines eq (compare K n m A B e) (compare K' n m A' B' e').
Proof.
  intros HA HB He. unfold compare. eapply (ref_bind (relC eq eq)).
  - apply ref_for_ret; [reflexivity|]. intros i [] [] _ _. apply ref_for_ret; [reflexivity|]. intros j [] [] _ _.
    pstep. pstep. eapply ref_bind; [apply Hsub; auto|intros]. eapply ref_bind; [apply Habs; auto|intros].
    erewrite Hgt by eauto. destruct (gteps _ _); apply ref_ok; constructor; reflexivity.
  - intros ? ? [? ? ->|? ? ->]; apply ref_ok; reflexivity.
Qed.
End Param.
