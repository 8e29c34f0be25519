(** * C92: a program in another element type *)

From Coq Require Import ZArith Reals Lra Lia Bool List Arith.
Import ListNotations.
From Flocq Require Import IEEE754.BinarySingleNaN Core.Core.
From Verif Require Import Base Scalar CInt CFloat Model Spec Float Param ParamInst PropParam Program.

Local Open Scope nat_scope.

(** a program over a signed type that returns, run in floating point: the same numbers
    in all variables ([same z x]: x is finite and its value is z) *)
Section IntFloat.
Variables prec emax : Z.
Context {Hp : Prec_gt_0 prec} {He : Prec_lt_emax prec emax}.
Variable t : ityp.
Hypothesis Hs : sgn t = true.
Hypothesis Hw : (32 <= width t <= prec + 1)%Z.
Notation same := (same prec emax t).
Variables rows cols : nat -> nat.

Theorem c92_float (p : prog rows cols) s u s' : erel same s u -> run (intS t) p s = Ok s' ->
  exists u', run (floatS prec emax) p u = Ok u' /\ erel same s' u'.
Proof.
  intros Hsu E.
  assert (R : refines (erel (relI prec emax t)) (run (intS t) p s) (run (floatS prec emax) p u)).
  { apply (run_ref (intS t) (floatS prec emax) (relI prec emax t) (relI prec emax t)).
    - apply I_ld.
    - apply I_stR; assumption.
    - apply (I_lit prec emax t Hs Hw 0); lia.
    - apply (I_lit prec emax t Hs Hw 1); lia.
    - intros; apply I_add; assumption.
    - intros; apply I_sub; assumption.
    - intros; apply I_mul; assumption.
    - destruct Hsu as [H1 H2]. split; intros x; [apply sameM_relI, H1|apply same_relI, H2]; assumption. }
  rewrite E in R. destruct R as [u' [E' [R1 R2]]]. exists u'. split; [exact E'|].
  split; intros x; [apply sameM_relI, R1|apply same_relI, R2]; assumption.
Qed.
End IntFloat.

Lemma mrel_self (A : Type) (R : A -> A -> Prop) (M : matrix A) : Forall (Forall (fun z => R z z)) M -> mrel R M M.
Proof.
  intros H. induction H as [|row M Hr _ IH]; constructor; [|exact IH]. induction Hr; constructor; auto.
Qed.

Lemma mrel_same (A : Type) (R : A -> A -> Prop) (M N : matrix A) : (forall a b, R a b -> a = b) -> mrel R M N -> N = M.
Proof.
  intros HR H. induction H as [|a b M N Hab _ IH]; [reflexivity|]. f_equal; [|exact IH].
  clear -Hab HR. induction Hab as [|c e u v Hce _ IH]; [reflexivity|]. f_equal; [symmetry; apply HR, Hce|exact IH].
Qed.

(** a wider signed type: the same results *)
Theorem c92_widen t u rows cols (p : prog rows cols) s s' :
  sgn t = true -> sgn u = true -> (32 <= width t <= width u)%Z ->
  (forall x, Forall (Forall (fun z => in_range t z = true)) (mvar s x)) ->
  (forall x, in_range t (svar s x) = true) ->
  run (intS t) p s = Ok s' ->
  exists r', run (intS u) p s = Ok r' /\ (forall x, mvar r' x = mvar s' x) /\ (forall x, svar r' x = svar s' x).
Proof.
  intros Ht Hu Hw Hm Hv E.
  set (R := fun z z' : Z => z = z' /\ in_range t z = true).
  assert (Pt : promote t = t) by (unfold promote; destruct (Z.ltb_spec (width t) 32); [lia|reflexivity]).
  assert (Pu : promote u = u) by (unfold promote; destruct (Z.ltb_spec (width u) 32); [lia|reflexivity]).
  assert (L : (2 ^ (width t - 1) <= 2 ^ (width u - 1))%Z) by (apply Z.pow_le_mono_r; lia).
  assert (W : forall z, in_range t z = true -> in_range u z = true).
  { intros z. unfold in_range, imin, imax. rewrite Ht, Hu. intros H. apply andb_prop in H. destruct H as [H1 H2].
    apply Z.leb_le in H1, H2. apply andb_true_intro. split; apply Z.leb_le; lia. }
  assert (C : forall v, sgn v = true -> (32 <= width v)%Z -> forall z, in_range v z = true -> iconv v z = z).
  { intros v Hsv Hwv z. unfold in_range, imin, imax, iconv. rewrite Hsv. intros H. apply andb_prop in H. destruct H as [H1 H2].
    apply Z.leb_le in H1, H2. assert (P : (2 ^ width v = 2 * 2 ^ (width v - 1))%Z).
    { rewrite <- Z.pow_succ_r by lia. f_equal. lia. }
    rewrite P, Z.mod_small by lia. lia. }
  assert (Ar : forall z, refines R (iarith (promote t) z) (iarith (promote u) z)).
  { intros z. rewrite Pt, Pu. unfold iarith. rewrite Ht, Hu. destruct (in_range t z) eqn:F; [|exact I].
    rewrite (W z F). apply ref_ok. split; [reflexivity|exact F]. }
  assert (small : forall z, (0 <= z <= 1)%Z -> in_range t z = true).
  { intros z Hz. unfold in_range, imin, imax. rewrite Ht. assert (2 ^ 31 <= 2 ^ (width t - 1))%Z by (apply Z.pow_le_mono_r; lia).
    apply andb_true_intro. split; apply Z.leb_le; lia. }
  assert (Li : forall z, (0 <= z <= 1)%Z -> R (@lit (intS t) z) (@lit (intS u) z)).
  { intros z Hz. cbn. rewrite Pt, Pu, !C by (auto; lia). split; [reflexivity|auto]. }
  assert (Q : refines (erel R) (run (intS t) p s) (run (intS u) p s)).
  { apply (run_ref (intS t) (intS u) R R).
    - intros a a' H. exact H.
    - intros v v' [<- H]. cbn. rewrite !C by (auto; lia). split; [reflexivity|exact H].
    - apply Li. lia.
    - apply Li. lia.
    - intros a a' b b' [<- _] [<- _]. apply Ar.
    - intros a a' b b' [<- _] [<- _]. apply Ar.
    - intros a a' b b' [<- _] [<- _]. apply Ar.
    - split; intros x; [|split; [reflexivity|apply Hv]].
      apply mrel_self. eapply Forall_impl; [|apply Hm]. intros row Hr. eapply Forall_impl; [|exact Hr].
      intros z Hz. split; [reflexivity|exact Hz]. }
  rewrite E in Q. destruct Q as [r' [E' [Q1 Q2]]]. exists r'. split; [exact E'|]. split; intros x.
  - exact (mrel_same Z R (mvar s' x) (mvar r' x) (fun a b H => proj1 H) (Q1 x)).
  - symmetry. apply Q2.
Qed.

Print Assumptions c92_float.
Print Assumptions c92_widen.

(** a program that returns in int, and the same variables in int64 and double *)
Definition ex_rows (x : nat) : nat := 2.
Definition ex_cols (x : nat) : nat := match x with 0 => 2 | _ => 1 end.
(** for (i = 0; i < 40; ++i) X = A * X; *)
Definition ex_prog : prog ex_rows ex_cols :=
  Loop 40 (@Assign ex_rows ex_cols 1 (Mult (@Var ex_rows ex_cols 0) (@Var ex_rows ex_cols 1))).
Definition ex_env : env Z :=
  Env (fun x => match x with 0 => [[1; 1]; [1; 0]]%Z | _ => [[1]; [0]]%Z end) (fun _ => 0%Z).
Example c92_ex :
  (forall x, Forall (Forall (fun z => in_range int32 z = true)) (mvar ex_env x)) /\
  (match run (intS int32) ex_prog ex_env with Ok s => Some (mvar s 1) | _ => None end)
    = Some [[165580141]; [102334155]]%Z /\
  (match run (intS int64) ex_prog ex_env with Ok s => Some (mvar s 1) | _ => None end)
    = Some [[165580141]; [102334155]]%Z.
Proof.
  split; [|split; reflexivity].
  intros [|x]; repeat constructor.
Qed.
