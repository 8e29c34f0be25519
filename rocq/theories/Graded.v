(** * Degrees: the library is homogeneous

    Two element types [K] and [K'] and a relation between their elements for every
    integer degree [d]; think of "x' is c^d times x".  Sums relate elements of one
    degree, products add degrees, quotients subtract them.  Then every function of
    the library relates its results at the degree a physicist would give them: the
    determinant of an n x n matrix of lengths has degree n, its inverse degree -1,
    the variance degree 2. *)

From Coq Require Import List ZArith Lia Bool Arith.
Import ListNotations.
From Verif Require Import Base Scalar Model Spec Loops Struct Safety Param.

Section Sim.
(** [lax = false]: if the first run is defined so is the second; [lax = true]: the
    runs are compared when both are defined. *)
Context (lax : bool).

Definition simg {A B : Type} (R : A -> B -> Prop) (o : outcome A) (o' : outcome B) : Prop :=
  match o, o' with
  | Ok a, Ok b => R a b
  | Throw e, Throw e' => e = e'
  | Terminate, Terminate => True
  | (UB _ | OutOfFuel), _ => True
  | _, (UB _ | OutOfFuel) => lax = true
  | _, _ => False
  end.

Lemma sim_ok {A B} (R : A -> B -> Prop) a b : R a b -> simg R (Ok a) (Ok b).
Proof. exact (fun H => H). Qed.

Lemma sim_bind_eq {A B A' B'} (R : A -> A' -> Prop) (Q : B -> B' -> Prop) o o' k k' :
  simg R o o' -> (forall a a', o = Ok a -> R a a' -> simg Q (k a) (k' a')) -> simg Q (bind o k) (bind o' k').
Proof.
  intros H1 H2. destruct o as [a|e| |u|], o' as [a'|e'| |u'|]; cbn in *; try exact I; try contradiction;
    try assumption; try (apply H2; [reflexivity|exact H1]).
  all: rewrite ?H1; try reflexivity.
  all: destruct (k a); cbn; try exact I; assumption.
Qed.
Lemma sim_bind {A B A' B'} (R : A -> A' -> Prop) (Q : B -> B' -> Prop) o o' k k' :
  simg R o o' -> (forall a a', R a a' -> simg Q (k a) (k' a')) -> simg Q (bind o k) (bind o' k').
Proof. intros H1 H2. eapply sim_bind_eq; [exact H1|]. auto. Qed.

Lemma sim_mono {A A'} (R Q : A -> A' -> Prop) o o' :
  simg R o o' -> (forall a a', o = Ok a -> R a a' -> Q a a') -> simg Q o o'.
Proof. intros H1 H2. destruct o, o'; cbn in *; auto. Qed.

Lemma sim_refines {A B} (R : A -> B -> Prop) o o' : refines R o o' -> simg R o o'.
Proof.
  destruct o; cbn; try exact (fun _ => I); [|intros ->; reflexivity|intros ->; exact I].
  intros [b [-> H]]. exact H.
Qed.

(** the relation may depend on the loop counter *)
Lemma sim_for_idx {St St'} (R : nat -> St -> St' -> Prop) lo hi body body' s s' :
  lo <= hi -> R lo s s' ->
  (forall k s s', lo <= k < hi -> R k s s' -> simg (R (S k)) (body k s) (body' k s')) ->
  simg (R hi) (for_ lo hi body s) (for_ lo hi body' s').
Proof.
  intros Hlo Hs Hb. unfold for_.
  assert (G : forall cnt lo0, (forall k s s', lo0 <= k < lo0 + cnt -> R k s s' -> simg (R (S k)) (body k s) (body' k s')) ->
     forall s s', R lo0 s s' -> simg (R (lo0 + cnt)) (iter cnt lo0 body s) (iter cnt lo0 body' s')).
  { induction cnt as [|c IH]; intros lo0 H t t' Ht; cbn [iter]; [rewrite Nat.add_0_r; exact Ht|].
    eapply sim_bind; [apply H; [lia|exact Ht]|]. intros. replace (lo0 + S c) with (S lo0 + c) by lia.
    apply IH; [|assumption]. intros; apply H; [lia|assumption]. }
  replace hi with (lo + (hi - lo)) at 1 by lia. apply G; [|exact Hs]. intros; apply Hb; [lia|assumption].
Qed.

Lemma sim_for {St St'} (R : St -> St' -> Prop) lo hi body body' s s' :
  R s s' -> (forall k s s', lo <= k < hi -> R s s' -> simg R (body k s) (body' k s')) ->
  simg R (for_ lo hi body s) (for_ lo hi body' s').
Proof.
  intros Hs Hb. destruct (Nat.le_gt_cases lo hi) as [H|H].
  - apply (sim_for_idx (fun _ => R)); assumption.
  - unfold for_. replace (hi - lo) with 0 by lia. exact Hs.
Qed.

Lemma sim_for_ret {St St' V V'} (R : nat -> St -> St' -> Prop) (Q : V -> V' -> Prop) lo hi body body' s s' :
  lo <= hi -> R lo s s' ->
  (forall k s s', lo <= k < hi -> R k s s' -> simg (relC (R (S k)) Q) (body k s) (body' k s')) ->
  simg (relC (R hi) Q) (for_ret lo hi body s) (for_ret lo hi body' s').
Proof.
  intros Hlo Hs Hb. unfold for_ret.
  assert (G : forall cnt lo0, (forall k s s', lo0 <= k < lo0 + cnt -> R k s s' -> simg (relC (R (S k)) Q) (body k s) (body' k s')) ->
     forall s s', R lo0 s s' -> simg (relC (R (lo0 + cnt)) Q) (iter_ret cnt lo0 body s) (iter_ret cnt lo0 body' s')).
  { induction cnt as [|c IH]; intros lo0 H t t' Ht; cbn [iter_ret]; [rewrite Nat.add_0_r; constructor; exact Ht|].
    eapply sim_bind; [apply H; [lia|exact Ht]|]. intros a a' [u u' Hu|v v' Hv].
    - replace (lo0 + S c) with (S lo0 + c) by lia. apply IH; [|exact Hu]. intros; apply H; [lia|assumption].
    - apply sim_ok. constructor. exact Hv. }
  replace hi with (lo + (hi - lo)) at 1 by lia. apply G; [|exact Hs]. intros; apply Hb; [lia|assumption].
Qed.
End Sim.

(** writing one element leaves the others alone *)
Lemma vget_upd_other {T} (v : list T) i j x : i <> j -> vget (upd v i x) j = vget v j.
Proof.
  unfold vget. revert i j. induction v as [|y v IH]; intros [|i] [|j] H; cbn; try reflexivity; try lia.
  apply IH. lia.
Qed.
Lemma vset_other {T} (v w : list T) i j x : vset v i x = Ok w -> i <> j -> vget w j = vget v j.
Proof.
  unfold vset. destruct (i <? length v); [|discriminate]. intros E H. injection E as <-. apply vget_upd_other, H.
Qed.
Lemma aset_other_row {T} (A B : matrix T) i j x r c : aset A i j x = Ok B -> i <> r -> aget B r c = aget A r c.
Proof.
  intros E H. unfold aset in E. apply bind_inv in E. destruct E as [row [_ E]].
  apply bind_inv in E. destruct E as [row' [_ E]]. unfold aget. rewrite (vset_other _ _ _ _ _ E H). reflexivity.
Qed.

Section Graded.
Context (lax : bool) (K K' : scalar).
Context (rel : Z -> elt K -> elt K' -> Prop) (relx : Z -> xpr K -> xpr K' -> Prop).
Notation sim := (simg lax).
Notation RM d := (mrel (rel d)).

Hypothesis Hld : forall d a a', rel d a a' -> relx d (ld a) (ld a').
Hypothesis Hst : forall d v v', relx d v v' -> rel d (st v) (st v').
(** zero has every degree, one has degree 0 *)
Hypothesis H0 : forall d, relx d (lit 0) (lit 0).
Hypothesis H1 : relx 0 (lit 1) (lit 1).
Hypothesis Hm1 : relx 0 (lit (-1)) (lit (-1)).
Hypothesis Hadd : forall d a a' b b', relx d a a' -> relx d b b' -> sim (relx d) (xadd a b) (xadd a' b').
Hypothesis Hsub : forall d a a' b b', relx d a a' -> relx d b b' -> sim (relx d) (xsub a b) (xsub a' b').
Hypothesis Hmul : forall d e a a' b b', relx d a a' -> relx e b b' -> sim (relx (d + e)) (xmul a b) (xmul a' b').
Hypothesis Hdiv : forall d e a a' b b', relx d a a' -> relx e b b' -> xeq b (lit 0) = false ->
  sim (relx (d - e)) (xdiv a b) (xdiv a' b').
Hypothesis Hneg : forall d a a', relx d a a' -> sim (relx d) (xneg a) (xneg a').
Hypothesis Heq0 : forall d a a', relx d a a' -> xeq a (lit 0) = xeq a' (lit 0).
Hypothesis Hdivsz : forall d a a' n, relx d a a' -> sim (rel d) (divsz a n) (divsz a' n).

Lemma Glite0 d : rel d (lite K 0) (lite K' 0). Proof. apply Hst, H0. Qed.
Lemma Glite1 : rel 0 (lite K 1) (lite K' 1). Proof. apply Hst, H1. Qed.
Lemma Ginit d n m : RM d (init n m (lite K 0)) (init n m (lite K' 0)). Proof. apply init_rel, Glite0. Qed.

Lemma relx_deg d e a a' : relx d a a' -> d = e -> relx e a a'. Proof. intros H <-. exact H. Qed.
Lemma rel_deg d e a a' : rel d a a' -> d = e -> rel e a a'. Proof. intros H <-. exact H. Qed.
Lemma RM_deg d e A A' : RM d A A' -> d = e -> RM e A A'. Proof. intros H <-. exact H. Qed.
Hint Resolve Hld Hst H0 H1 Hm1 Glite0 Glite1 Ginit : grd.

Lemma Gaget d A A' i j : RM d A A' -> sim (rel d) (aget A i j) (aget A' i j).
Proof. intros. apply sim_refines, ref_aget; assumption. Qed.
Lemma Gagetz d A A' i j : RM d A A' -> sim (rel d) (agetz A i j) (agetz A' i j).
Proof. intros. apply sim_refines, ref_agetz; assumption. Qed.
Lemma Gaset d A A' i j x x' : RM d A A' -> rel d x x' -> sim (RM d) (aset A i j x) (aset A' i j x').
Proof. intros. apply sim_refines, ref_aset; assumption. Qed.

Ltac deg := first [solve [eauto with grd] | eapply relx_deg; [solve [eauto with grd]|lia]
  | apply Hst; eapply relx_deg; [solve [eauto with grd]|lia] | eapply rel_deg; [solve [eauto with grd]|lia]].
Ltac gop := first [eapply Gaget; eassumption | eapply Gagetz; eassumption
  | eapply Hadd; deg | eapply Hsub; deg | eapply Hmul; deg | eapply Hneg; deg | eapply Hdivsz; deg
  | eapply Gaset; [eassumption|deg]].
Ltac gstep :=
  match goal with
  | |- simg _ _ (bind (for_ _ _ _ _) _) _ => fail 1
  | |- simg _ _ (bind _ _) (bind _ _) => eapply sim_bind; [solve [gop]|intros ? ? ?]
  | |- simg _ _ (for_ _ _ _ _) (for_ _ _ _ _) => apply sim_for; [solve [eauto with grd]|intros ? ? ? ? ?; cbv beta]
  | |- simg _ _ (aset _ _ _ _) (aset _ _ _ _) => apply Gaset; [eassumption|deg]
  | |- simg _ _ (Ok _) (Ok _) => apply sim_ok; deg
  | |- _ => gop
  end.

Lemma G_fill d n m x x' : rel d x x' -> RM d (fill K n m x) (fill K' n m x').
Proof. apply (fill_rel K K' (rel d) (relx d) (Hst d) (H0 d)). Qed.
Hint Resolve G_fill : grd.
Lemma G_eye d n x x' : rel d x x' -> sim (RM d) (eye K n x) (eye K' n x').
Proof. intros. apply sim_refines, (eye_ref K K' (rel d) (relx d) (Hst d) (H0 d)). assumption. Qed.
Lemma G_trans d n m A A' : RM d A A' -> sim (RM d) (trans K n m A) (trans K' n m A').
Proof. intros. apply sim_refines, (trans_ref K K' (rel d) (relx d) (Hst d) (H0 d)). assumption. Qed.
Lemma G_getminor d n A A' i j : RM d A A' -> sim (RM d) (getminor K n A i j) (getminor K' n A' i j).
Proof. intros. apply sim_refines, (getminor_ref K K' (rel d) (relx d) (Hst d) (H0 d)). assumption. Qed.
Lemma G_swap_rows d n m A A' i j : RM d A A' -> sim (RM d) (swap_rows K n m A i j) (swap_rows K' n m A' i j).
Proof. intros. apply sim_refines, (swap_rows_ref K K' (rel d)). assumption. Qed.

Lemma G_sum d n m A A' B B' : RM d A A' -> RM d B B' -> sim (RM d) (sum K n m A B) (sum K' n m A' B').
Proof. intros HA HB. unfold sum. repeat gstep. Qed.
Lemma G_sub d n m A A' B B' : RM d A A' -> RM d B B' -> sim (RM d) (sub K n m A B) (sub K' n m A' B').
Proof. intros HA HB. unfold sub. repeat gstep. Qed.
Lemma G_sum_scalar d n m A A' s s' : RM d A A' -> rel d s s' -> sim (RM d) (sum_scalar K n m A s) (sum_scalar K' n m A' s').
Proof. intros HA HB. unfold sum_scalar. repeat gstep. Qed.
Lemma G_sub_scalar d n m A A' s s' : RM d A A' -> rel d s s' -> sim (RM d) (sub_scalar K n m A s) (sub_scalar K' n m A' s').
Proof. intros HA HB. unfold sub_scalar. repeat gstep. Qed.
Lemma G_mult_scalar d e n m A A' s s' : RM d A A' -> rel e s s' ->
  sim (RM (d + e)) (mult_scalar K n m A s) (mult_scalar K' n m A' s').
Proof. intros HA HB. unfold mult_scalar. repeat gstep. Qed.
Lemma G_div d e n m A A' s s' : RM d A A' -> rel e s s' -> sim (RM (d - e)) (div K n m A s) (div K' n m A' s').
Proof.
  intros HA HB. unfold div. rewrite <- (Heq0 e (ld s) (ld s')) by auto. destruct (xeq (ld s) (lit 0)) eqn:E; [exact I|].
  do 3 gstep. eapply sim_bind; [eapply Hdiv; [deg|deg|exact E]|]. intros. gstep.
Qed.
Lemma G_mult d e n m p A A' B B' : RM d A A' -> RM e B B' ->
  sim (RM (d + e)) (mult K n m p A B) (mult K' n m p A' B').
Proof. intros HA HB. unfold mult, zeros. repeat gstep. Qed.
Lemma G_strassen d e A A' B B' : RM d A A' -> RM e B B' -> sim (RM (d + e)) (strassen K A B) (strassen K' A' B').
Proof.
  intros HA HB. unfold strassen. cbv zeta. pose proof (Ginit (d + e) 2 2).
  repeat gstep.
Qed.

Lemma G_conv_line d e i j A A' k k' off it jt ka kb di dj X X' : RM d A A' -> RM e k k' -> RM (e + d) X X' ->
  sim (RM (e + d)) (conv_line K i j A k off it jt ka kb di dj X) (conv_line K' i j A' k' off it jt ka kb di dj X').
Proof.
  intros HA Hk HX. unfold conv_line. gstep. eapply (sim_bind _ (relx (e + d))).
  - destruct (_ =? 0); [|apply sim_ok, H0]. do 2 gstep. apply Hmul; auto.
  - intros. repeat gstep.
Qed.
Lemma G_conv_cell d e i j A A' k k' off it jt X X' : RM d A A' -> RM e k k' -> RM (e + d) X X' ->
  sim (RM (e + d)) (conv_cell K i j A k off it jt X) (conv_cell K' i j A' k' off it jt X').
Proof.
  intros HA Hk HX. unfold conv_cell. cbv zeta. gstep.
  do 8 (eapply sim_bind; [eapply (G_conv_line d e); eassumption|intros ? ? ?]). apply G_conv_line; assumption.
Qed.
Lemma G_conv2 d e i j A A' k k' : RM d A A' -> RM e k k' -> sim (RM (e + d)) (conv2 K i j A k) (conv2 K' i j A' k').
Proof. intros HA Hk. unfold conv2. do 2 gstep. apply G_conv_cell; assumption. Qed.
Lemma G_conv2_full d e i j A A' k k' : RM d A A' -> RM e k k' ->
  sim (RM (e + d)) (conv2_full K i j A k) (conv2_full K' i j A' k').
Proof. intros HA Hk. unfold conv2_full. do 2 gstep. apply G_conv_cell; assumption. Qed.
Lemma G_conv2_valid d e n A A' k k' : RM d A A' -> RM e k k' ->
  sim (RM (e + d)) (conv2_valid K n A k) (conv2_valid K' n A' k').
Proof.
  intros HA Hk. unfold conv2_valid. eapply sim_bind; [apply G_conv2; eassumption|]. intros.
  eapply sim_bind; [apply G_getminor; eassumption|]. intros. apply G_getminor; assumption.
Qed.

(** *** determinant *)
Lemma G_det1 d A A' : RM d A A' -> sim (rel (1 * d)) (det1 K A) (det1 K' A').
Proof. intros HA. unfold det1. rewrite Z.mul_1_l. gstep. Qed.
Lemma G_det2 d A A' : RM d A A' -> sim (rel (2 * d)) (det2 K A) (det2 K' A').
Proof. intros HA. unfold det2. repeat gstep. Qed.
Lemma G_mul3 d a a' b b' c c' : relx d a a' -> relx d b b' -> relx d c c' ->
  sim (relx (3 * d)) (mul3 K a b c) (mul3 K' a' b' c').
Proof.
  intros. unfold mul3. gstep. eapply sim_mono; [eapply Hmul; eassumption|]. intros. eapply relx_deg; [eassumption|lia].
Qed.
Lemma G_det3 d A A' : RM d A A' -> sim (rel (3 * d)) (det3 K A) (det3 K' A').
Proof.
  intros. unfold det3. repeat first [gstep|eapply sim_bind; [eapply (G_mul3 d); solve [auto]|intros ? ? ?]].
Qed.

(** what the factor of the general determinant can be: 1 and -1 times a factor *)
Hypothesis Hone : xeq (ld (lite K 1)) (lit 0) = false.
Hypothesis Hflip : forall f v, xeq (ld f) (lit 0) = false -> @xmul K (ld f) (lit (-1)) = Ok v ->
  xeq (ld (st v)) (lit 0) = false.

Lemma G_det_prod d n A A' f f' : RM d A A' -> rel 0 f f' -> xeq (ld f) (lit 0) = false ->
  sim (rel (Z.of_nat n * d)) (det_prod K n A f) (det_prod K' n A' f').
Proof.
  intros HA Hf Nf. unfold det_prod. eapply (sim_bind _ (rel (Z.of_nat n * d))).
  - apply (sim_for_idx _ (fun k => rel (Z.of_nat k * d))); [lia|apply Glite1|].
    intros k s s' Hk Hs. gstep. gstep. apply sim_ok, Hst. eapply relx_deg; [eassumption|lia].
  - intros p p' Hpp. eapply sim_bind; [eapply Hdiv; [apply Hld, Hpp|apply Hld, Hf|exact Nf]|]. intros. apply sim_ok, Hst.
    eapply relx_deg; [eassumption|lia].
Qed.

Lemma G_det_search d fuel n A A' r : RM d A A' -> forall i pivot,
  sim (relC eq eq) (det_search K fuel n A r i pivot) (det_search K' fuel n A' r i pivot).
Proof.
  intros HA. induction fuel as [|f IH]; intros i pivot; cbn [det_search]; [exact I|].
  gstep. rewrite <- (Heq0 d (ld a) (ld a')) by auto. destruct (xeq (ld a) (lit 0)).
  - destruct (n =? i + 1); [|apply IH]. destruct (n =? pivot + 1); [|apply IH]. apply sim_ok. constructor. reflexivity.
  - apply sim_ok. constructor. reflexivity.
Qed.

Lemma det_search_found fuel n (A : matrix (elt K)) r : forall i pivot i' p',
  det_search K fuel n A r i pivot = Ok (Cont (i', p')) ->
  exists v, aget A i' p' = Ok v /\ xeq (ld v) (lit 0) = false.
Proof.
  induction fuel as [|f IH]; intros i pivot i' p' E; [discriminate|]. cbn [det_search] in E.
  apply bind_inv in E. destruct E as [a [Ea E]]. destruct (xeq (ld a) (lit 0)) eqn:Ez.
  - destruct (n =? i + 1); [|apply (IH _ _ _ _ E)]. destruct (n =? pivot + 1); [discriminate|apply (IH _ _ _ _ E)].
  - injection E as <- <-. eauto.
Qed.

Lemma G_det_eliminate d n A A' r p v : RM d A A' -> aget A r p = Ok v -> xeq (ld v) (lit 0) = false ->
  sim (RM d) (det_eliminate K n A r p) (det_eliminate K' n A' r p).
Proof.
  intros HA Hv Nv. unfold det_eliminate.
  eapply sim_mono; [apply (sim_for _ (fun s s' => RM d s s' /\ aget s r p = Ok v)); [split; assumption|]|intros ? ? _ [H _]; exact H].
  intros i s s' _ [Hs Hsv]. destruct (Nat.eqb_spec i r) as [|Nir]; [apply sim_ok; split; assumption|].
  eapply sim_bind; [eapply Gaget, Hs|]. intros val val' Hval.
  apply sim_for; [split; assumption|]. intros j t t' _ [Ht Htv].
  gstep. gstep. eapply sim_bind_eq; [eapply Gaget, Ht|]. intros w w' Ew Hw. rewrite Htv in Ew. injection Ew as <-.
  gstep. eapply sim_bind; [eapply Hdiv; [deg|deg|exact Nv]|]. intros. gstep.
  eapply sim_mono; [apply Gaset; [exact Ht|deg]|]. intros B B' EB HB. split; [exact HB|].
  rewrite (aset_other_row _ _ _ _ _ _ _ EB Nir). exact Htv.
Qed.

Lemma det_eliminate_shape n A r p B : shape n n A -> det_eliminate K n A r p = Ok B -> shape n n B.
Proof.
  intros HA E. unfold det_eliminate in E. destruct (Nat.le_gt_cases (p + 1) n) as [Hp|Hp].
  2:{ unfold for_ in E. replace (n - (p + 1)) with 0 in E by lia. injection E as <-. exact HA. }
  refine (for_partial (fun _ R => shape n n R) _ _ _ _ _ Hp HA _ E).
  intros i s s' Hi Hs Es. destruct (i =? r); [injection Es as <-; exact Hs|].
  apply bind_inv in Es. destruct Es as [val [_ Es]].
  refine (for_partial (fun _ R => shape n n R) _ _ _ _ _ _ Hs _ Es); [lia|].
  intros j t t' Hj Ht Et. do 6 (apply bind_inv in Et; destruct Et as [? [_ Et]]). eapply aset_shape; eassumption.
Qed.

Lemma swap_rows_moved n A i r B p : shape n n A -> i < n -> r < n -> p < n -> swap_rows K n n A i r = Ok B ->
  shape n n B /\ aget B r p = aget A i p.
Proof.
  intros HA Hi Hr Hp E. destruct (proj1 (shape_mk (lite K 0) n n A) HA) as [f ->].
  rewrite swap_rows_mk in E by assumption. injection E as <-. split; [apply shape_of_mk|].
  rewrite !aget_mk by assumption. rewrite Nat.eqb_refl. destruct (Nat.eqb_spec r i) as [->|]; reflexivity.
Qed.

Lemma aget_lt n (A : matrix (elt K)) i j v : shape n n A -> aget A i j = Ok v -> i < n /\ j < n.
Proof.
  intros HA E. destruct (proj1 (shape_mk (lite K 0) n n A) HA) as [f ->].
  destruct (Nat.lt_ge_cases i n) as [Hi|Hi]; [|rewrite aget_mk_row_oob in E by lia; discriminate].
  destruct (Nat.lt_ge_cases j n) as [Hj|Hj]; [|rewrite aget_mk_col_oob in E by lia; discriminate]. auto.
Qed.

Lemma G_det_general d n A A' : shape n n A -> RM d A A' ->
  sim (rel (Z.of_nat n * d)) (det_general K n A) (det_general K' n A').
Proof.
  intros SA HA. unfold det_general.
  set (Q := fun (_ : nat) (s : matrix (elt K) * elt K * nat) (s' : matrix (elt K') * elt K' * nat) =>
    shape n n (fst (fst s)) /\ RM d (fst (fst s)) (fst (fst s')) /\ xeq (ld (snd (fst s))) (lit 0) = false /\
    rel 0 (snd (fst s)) (snd (fst s')) /\ snd s = snd s').
  eapply (sim_bind _ (relC (Q n) (rel (Z.of_nat n * d)))).
  2:{ intros ? ? [[[a b] c] [[a' b'] c'] [Sa [Ha [Nb [Hb Hc]]]]|? ? H]; cbn [fst snd] in *; [apply G_det_prod; assumption|apply sim_ok, H]. }
  apply sim_for_ret; [lia|cbn; split; [exact SA|split; [exact HA|split; [exact Hone|split; [apply Glite1|reflexivity]]]]|].
  intros r [[a b] c] [[a' b'] c'] Hr [Sa [Ha [Nb [Hb Hc]]]]. cbn in Sa, Ha, Nb, Hb, Hc. subst c'.
  destruct (n <=? c).
  { eapply sim_bind; [apply G_det_prod; eassumption|]. intros. apply sim_ok. constructor. assumption. }
  eapply sim_bind_eq; [eapply G_det_search, Ha|]. intros o o' Eo Ho. destruct Ho as [[i p] ? <-|? ? <-].
  2:{ eapply sim_bind; [apply G_det_prod; eassumption|]. intros. apply sim_ok. constructor. assumption. }
  apply det_search_found in Eo. destruct Eo as [v [Ev Nv]]. destruct (aget_lt _ _ _ _ _ Sa Ev) as [Hi Hp].
  eapply (sim_bind _ (fun s s' => shape n n (fst s) /\ RM d (fst s) (fst s') /\ aget (fst s) r p = Ok v /\
     xeq (ld (snd s)) (lit 0) = false /\ rel 0 (snd s) (snd s'))).
  { destruct (Nat.eqb_spec i r) as [->|Nir]; [apply sim_ok; cbn; auto|].
    eapply sim_bind_eq; [apply G_swap_rows, Ha|]. intros B B' EB HB.
    destruct (swap_rows_moved n a i r B p Sa Hi ltac:(lia) Hp EB) as [SB VB]. rewrite Ev in VB.
    eapply sim_bind_eq; [eapply Hmul; deg|]. intros x x' Ex Hx. apply sim_ok. cbn.
    split; [exact SB|]. split; [exact HB|]. split; [exact VB|]. split; [apply (Hflip _ _ Nb Ex)|].
    apply Hst. eapply relx_deg; [exact Hx|lia]. }
  intros [x y] [x' y'] [Sx [Hx [Vx [Ny Hy]]]]. cbn in Sx, Hx, Vx, Ny, Hy.
  eapply sim_bind_eq; [eapply G_det_eliminate; eassumption|]. intros z z' Ez Hz.
  apply sim_ok. constructor. unfold Q. cbn. split; [eapply det_eliminate_shape; eassumption|]. auto.
Qed.

Lemma G_det d n A A' : shape n n A -> RM d A A' -> sim (rel (Z.of_nat n * d)) (det K n A) (det K' n A').
Proof.
  intros SA HA. destruct n as [|[|[|[|n]]]]; cbn [det];
  [apply G_det_general|apply (G_det1 d)|apply (G_det2 d)|apply (G_det3 d)|apply G_det_general]; assumption.
Qed.

(** *** inverse *)
Lemma G_inv2 d A A' : RM d A A' -> sim (RM (- d)) (inv2 K A) (inv2 K' A').
Proof.
  intros HA. unfold inv2. cbn [det]. eapply sim_bind; [apply G_det2, HA|]. intros x x' Hx.
  rewrite <- (Heq0 (2 * d) (ld x) (ld x')) by auto. destruct (xeq (ld x) (lit 0)); [reflexivity|].
  repeat gstep. cbv zeta. eapply sim_mono; [eapply (G_div d (2 * d)); [repeat constructor; auto|exact Hx]|].
  intros. eapply RM_deg; [eassumption|lia].
Qed.

Lemma G_mul_sub d x x' y y' z z' w w' : rel d x x' -> rel d y y' -> rel d z z' -> rel d w w' ->
  sim (rel (2 * d)) (mul_sub K x y z w) (mul_sub K' x' y' z' w').
Proof. intros. unfold mul_sub. repeat gstep. Qed.

Lemma G_inv3 d A A' : RM d A A' -> sim (RM (- d)) (inv3 K A) (inv3 K' A').
Proof.
  intros HA. unfold inv3. cbn [det]. eapply sim_bind; [apply G_det3, HA|]. intros x x' Hx.
  rewrite <- (Heq0 (3 * d) (ld x) (ld x')) by auto. destruct (xeq (ld x) (lit 0)); [reflexivity|].
  do 9 gstep. do 9 (eapply sim_bind; [eapply (G_mul_sub d); eassumption|intros ? ? ?]).
  cbv zeta. eapply sim_mono; [eapply (G_div (2 * d) (3 * d)); [repeat constructor; assumption|exact Hx]|].
  intros. eapply RM_deg; [eassumption|lia].
Qed.

Lemma getminor_shape n A i j B : shape n n A -> i < n -> j < n -> getminor K n A i j = Ok B -> shape (n - 1) (n - 1) B.
Proof. intros HA Hi Hj E. pose proof (safe_getminor K n A i j HA Hi Hj) as H. rewrite E in H. exact H. Qed.

Lemma G_inv_general d n A A' : 0 < n -> shape n n A -> RM d A A' ->
  sim (RM (- d)) (inv_general K n A) (inv_general K' n A').
Proof.
  intros Hn SA HA. unfold inv_general. eapply sim_bind; [apply G_det; [exact SA|exact HA]|]. intros x x' Hx.
  eapply (sim_bind _ (RM (Z.of_nat (n - 1) * d))).
  - apply sim_for; [apply Ginit|]. intros i s s' [_ Hi] Hs. apply sim_for; [exact Hs|]. intros j t t' [_ Hj] Ht.
    eapply sim_bind_eq; [apply G_getminor, HA|]. intros B B' EB HB.
    eapply sim_bind; [apply G_det; [apply (getminor_shape _ _ _ _ _ SA Hi Hj EB)|exact HB]|]. intros y y' Hy.
    eapply sim_bind; [eapply (Hmul 0); [destruct (_ =? 0); assumption|apply Hld, Hy]|]. intros. gstep.
  - intros. eapply sim_bind; [apply G_trans; eassumption|]. intros.
    eapply sim_mono; [eapply G_div; eassumption|]. intros. eapply RM_deg; [eassumption|]. clear - Hn. replace (Z.of_nat (n - 1)) with (Z.of_nat n - 1)%Z by lia. ring.
Qed.

Lemma G_inv d n A A' : 1 < n -> shape n n A -> RM d A A' -> sim (RM (- d)) (inv K n A) (inv K' n A').
Proof.
  intros Hn SA HA. destruct n as [|[|[|[|n]]]]; try lia; cbn [inv];
  [apply G_inv2|apply G_inv3|apply G_inv_general; [lia|exact SA|]]; assumption.
Qed.

(** *** powers *)
Lemma G_pow_pos d fuel n : forall w A A' p, RM d A A' -> (0 <= p)%Z ->
  sim (RM (p * d)) (pow_fuel K fuel n w A p) (pow_fuel K' fuel n w A' p).
Proof.
  induction fuel as [|f IH]; intros w A A' p HA Hp; cbn [pow_fuel]; [exact I|].
  destruct (Z.eqb_spec p 0) as [->|Np0]; [apply G_eye, Glite1|].
  destruct (Z.eqb_spec p 1) as [->|Np1]; [apply sim_ok; eapply RM_deg; [exact HA|lia]|].
  destruct (Z.ltb_spec p 0); [lia|]. cbn [bind].
  assert (Hq : (0 <= Z.quot p 2)%Z) by (apply Z.quot_pos; lia). pose proof (Z.quot_rem' p 2) as Eq.
  pose proof (Z.rem_bound_pos p 2 ltac:(lia) ltac:(lia)) as Hr.
  eapply sim_bind; [apply IH; [exact HA|exact Hq]|]. intros X X' HX.
  set (q := Z.quot p 2) in *. set (r := Z.rem p 2) in *.
  unfold op_mult. destruct (Z.eqb_spec r 0) as [Er|Er].
  - eapply sim_mono; [apply G_mult; eassumption|]. intros. eapply RM_deg; [eassumption|].
    clear - Eq Er. rewrite Er in Eq. rewrite Eq. ring.
  - eapply sim_bind; [apply G_mult; eassumption|]. intros.
    eapply sim_mono; [apply G_mult; eassumption|]. intros. eapply RM_deg; [eassumption|].
    assert (E1 : r = 1%Z) by (clear - Er Hr; lia). clear - Eq E1. rewrite E1 in Eq. rewrite Eq. ring.
Qed.

Lemma abs_assign_neg w p : (1 <= w)%Z -> (- 2 ^ (w - 1) < p < 0)%Z -> abs_assign w p = Ok (- p)%Z.
Proof.
  intros Hw Hp. unfold abs_assign. destruct (Z.ltb_spec w 32).
  - rewrite Z.abs_neq by lia. f_equal. assert (E : (2 ^ w = 2 * 2 ^ (w - 1))%Z).
    { replace w with (Z.succ (w - 1)) at 1 by lia. rewrite Z.pow_succ_r; lia. }
    rewrite Z.mod_small; lia.
  - destruct (Z.eqb_spec p (- 2 ^ (w - 1))); [lia|]. rewrite Z.abs_neq by lia. reflexivity.
Qed.

(** a negative power is a power of the inverse *)
Lemma G_pow d n w A A' p :
  sim (RM (- d)) (inv K n A) (inv K' n A') -> RM d A A' -> (1 <= w)%Z -> (- 2 ^ (w - 1) < p)%Z ->
  sim (RM (p * d)) (pow K n w A p) (pow K' n w A' p).
Proof.
  intros HI HA Hw Hp. destruct (Z.le_gt_cases 0 p) as [H|H]; [apply G_pow_pos; assumption|].
  unfold pow. rewrite Nat.add_comm. change (3 + Z.to_nat (Z.max w 32)) with (S (2 + Z.to_nat (Z.max w 32))).
  generalize (2 + Z.to_nat (Z.max w 32)). intros fuel. cbn [pow_fuel].
  destruct (Z.eqb_spec p 0); [lia|]. destruct (Z.eqb_spec p 1); [lia|]. destruct (Z.ltb_spec p 0); [|lia].
  eapply (sim_bind _ (fun s s' => RM (- d) (fst s) (fst s') /\ snd s = (- p)%Z /\ snd s' = (- p)%Z)).
  { eapply sim_bind; [exact HI|]. intros X X' HX. rewrite abs_assign_neg by lia. cbn [bind]. apply sim_ok. auto. }
  intros [X q] [X' q'] [HX [Eq Eq']]. cbn [fst snd] in *. subst q q'.
  assert (Hq : (0 <= Z.quot (- p) 2)%Z) by (apply Z.quot_pos; lia). pose proof (Z.quot_rem' (- p) 2) as Eq.
  pose proof (Z.rem_bound_pos (- p) 2 ltac:(lia) ltac:(lia)) as Hr.
  eapply sim_bind; [apply (G_pow_pos (- d)); [exact HX|exact Hq]|]. intros Y Y' HY.
  set (q := Z.quot (- p) 2) in Eq, HY |- *. set (r := Z.rem (- p) 2) in *.
  unfold op_mult. destruct (Z.eqb_spec r 0) as [Er|Er].
  - eapply sim_mono; [apply G_mult; eassumption|]. intros. eapply RM_deg; [eassumption|].
    clear - Eq Er. replace p with (- (2 * q))%Z by lia. ring.
  - eapply sim_bind; [apply G_mult; eassumption|]. intros.
    eapply sim_mono; [apply G_mult; eassumption|]. intros. eapply RM_deg; [eassumption|].
    clear - Eq Er Hr. replace p with (- (2 * q + 1))%Z by lia. ring.
Qed.

(** *** LU *)
Lemma G_lu d n A A' : RM d A A' -> sim (relP (RM 0) (RM d)) (lu K n A) (lu K' n A').
Proof.
  intros HA. unfold lu. eapply sim_bind; [apply G_eye, Glite1|]. intros L0 L0' HL0. cbv zeta.
  apply sim_for; [split; [exact HL0|apply G_fill, Glite0]|].
  intros j [L U] [L' U'] _ [HL HU]. cbn in HL, HU.
  assert (Sum : forall L L' U U' i, RM 0 L L' -> RM d U U' -> sim (rel d)
    (for_ 0 i (fun p sum => let* u := aget U p j in let* l := aget L i p in
      let* t := xmul (ld u) (ld l) in let* v := xadd (ld sum) t in Ok (st v)) (lite K 0))
    (for_ 0 i (fun p sum => let* u := aget U' p j in let* l := aget L' i p in
      let* t := xmul (ld u) (ld l) in let* v := xadd (ld sum) t in Ok (st v)) (lite K' 0))).
  { intros. repeat gstep. }
  eapply (sim_bind _ (RM d)).
  { apply sim_for; [exact HU|]. intros. eapply sim_bind; [apply Sum; eassumption|]. intros. repeat gstep. }
  intros V V' HV. eapply (sim_bind _ (RM 0)).
  { apply sim_for; [exact HL|]. intros. eapply sim_bind; [apply Sum; eassumption|]. intros s1 s1' Hs1.
    eapply sim_bind; [eapply Gaget, HV|]. intros u u' Hu.
    rewrite <- (Heq0 d (ld u) (ld u')) by auto. destruct (xeq (ld u) (lit 0)) eqn:Eu; [reflexivity|].
    gstep. gstep. eapply sim_bind; [eapply Hdiv; [eassumption|apply Hld, Hu|exact Eu]|]. intros. gstep. }
  intros. apply sim_ok. split; assumption.
Qed.

(** *** statistics *)
Lemma G_mean d n m A A' : RM d A A' -> sim (rel d) (mean K n m A) (mean K' n m A').
Proof. intros HA. unfold mean. eapply (sim_bind _ (rel d)); [repeat gstep|]. intros. gstep. Qed.

Lemma G_var d n m A A' : RM d A A' -> sim (rel (2 * d)) (var K n m A) (var K' n m A').
Proof.
  intros HA. unfold var. eapply sim_bind; [apply G_mean, HA|]. intros mu mu' Hmu.
  eapply (sim_bind _ (rel (2 * d))); [repeat gstep|]. intros. gstep.
Qed.

(** *** with square roots and divisions by anything *)
Section Roots.
Hypothesis HdivU : forall d e a a' b b', relx d a a' -> relx e b b' -> sim (relx (d - e)) (xdiv a b) (xdiv a' b').
Hypothesis Hsqrt : forall d a a', relx (2 * d) a a' -> sim (rel d) (xsqrt a) (xsqrt a').

Lemma G_inv1 d A A' : RM d A A' -> sim (RM (- d)) (inv1 K A) (inv1 K' A').
Proof.
  intros HA. unfold inv1. cbn [det]. eapply sim_bind; [apply G_det1, HA|]. intros.
  eapply sim_bind; [eapply (HdivU 0); [assumption|apply Hld; eassumption]|]. intros.
  apply sim_ok. repeat constructor. apply Hst. eapply relx_deg; [eassumption|lia].
Qed.

Lemma G_inv_all d n A A' : 0 < n -> shape n n A -> RM d A A' -> sim (RM (- d)) (inv K n A) (inv K' n A').
Proof.
  intros Hn SA HA. destruct (Nat.eq_dec n 1) as [->|]; [apply G_inv1, HA|apply G_inv; [lia|exact SA|exact HA]].
Qed.

Lemma G_chol d n A A' : RM (2 * d) A A' -> sim (RM d) (chol K n A) (chol K' n A').
Proof.
  intros HA. unfold chol. apply sim_for; [apply Ginit|]. intros i s s' _ Hs.
  apply sim_for; [exact Hs|]. intros j t t' _ Ht. destruct (j =? i).
  - eapply (sim_bind _ (rel (2 * d))); [repeat gstep|]. intros. do 2 gstep.
    eapply sim_bind; [apply Hsqrt; eassumption|]. intros. gstep.
  - eapply (sim_bind _ (rel (2 * d))); [repeat gstep|]. intros. do 3 gstep.
    eapply sim_bind; [eapply HdivU; [eassumption|apply Hld; eassumption]|]. intros. gstep.
Qed.

Lemma G_stddev d n m A A' : RM d A A' -> sim (rel d) (stddev K n m A) (stddev K' n m A').
Proof. intros HA. unfold stddev. eapply sim_bind; [apply G_var, HA|]. intros. apply Hsqrt. auto. Qed.
End Roots.
End Graded.
