(** * Property C77: which function a call selects

    The specification of overload resolution is in Overload.v: [selects S args i]
    says that the compiler picks the i-th template of the overload set S,
    [ambiguous] and [no_match] that the call does not compile.  [AMat t r c] is
    an r x c matrix of elements of type t, [AScalar t] a value of type t. *)

From Coq Require Import List Arith Lia Bool.
Import ListNotations.
From Verif Require Import Base Scalar Model Overload.

Ltac no_view := let H := fresh in intros H; first [apply viable1 in H|apply viable2 in H|apply viable_ms in H|apply viable_sm in H|destruct H as [? [? H]]; cbn in H; discriminate H];
  cbn in H; repeat match goal with H : _ /\ _ |- _ => destruct H | H : exists _, _ |- _ => destruct H end; try congruence; try lia.
(** the other members of the set, one by one *)
Ltac others := let j := fresh "j" in let G := fresh "G" in let N := fresh "N" in let E := fresh "E" in
  intros j G N E; destruct j as [|[|[|[|j]]]]; cbn in E; try congruence; try (destruct j; discriminate E); injection E as <-.

(** ** det and inv *)
Lemma lit_special k : more_special [PMat (Lit k) (Lit k)] [PMat (Var 0) (Var 0)].
Proof.
  split; [exists (fun _ => Lit k); reflexivity|]. intros [w H]. cbn in H. discriminate.
Qed.

Theorem c77_det t :
  selects det_set [AMat t 1 1] 0 /\ selects det_set [AMat t 2 2] 1 /\ selects det_set [AMat t 3 3] 2 /\
  (forall k, k = 0 \/ 3 < k -> selects det_set [AMat t k k] 3) /\
  (forall r c, r <> c -> no_match det_set [AMat t r c]).
Proof.
  assert (L : forall k i, nth_error det_set i = Some [PMat (Lit k) (Lit k)] -> 
    (forall j, j < 3 -> j <> i -> nth_error det_set j <> Some [PMat (Lit k) (Lit k)]) -> i < 3 ->
    selects det_set [AMat t k k] i).
  { intros k i E U Hi. exists [PMat (Lit k) (Lit k)]. split; [exact E|]. split; [apply viable1; exists (fun _ => 0); split; reflexivity|].
    intros j G N EG VG. destruct j as [|[|[|[|j]]]]; cbn in EG; try (destruct j; discriminate EG); injection EG as <-;
      try apply lit_special; exfalso; apply viable1 in VG; destruct VG as [v [H _]]; cbn in H; subst k.
    - apply (U 0); [lia|exact (not_eq_sym (not_eq_sym N))|reflexivity].
    - apply (U 1); [lia|exact N|reflexivity].
    - apply (U 2); [lia|exact N|reflexivity]. }
  split; [apply L; [reflexivity| |lia]; intros [|[|[|j]]]; intros; try lia; discriminate|].
  split; [apply L; [reflexivity| |lia]; intros [|[|[|j]]]; intros; try lia; discriminate|].
  split; [apply L; [reflexivity| |lia]; intros [|[|[|j]]]; intros; try lia; discriminate|].
  split.
  - intros k Hk. eapply (selects_only _ _ 3); [reflexivity|apply viable1; exists (fun _ => k); split; reflexivity|].
    others; no_view.
  - intros r c N F [<-|[<-|[<-|[<-|[]]]]]; no_view.
Qed.

(** the model's dispatch on the size is the compiler's choice *)
Theorem c77_det_model (K : scalar) A :
  (det K 1 A = det1 K A /\ det K 2 A = det2 K A /\ det K 3 A = det3 K A /\
   forall k, k = 0 \/ 3 < k -> det K k A = det_general K k A) /\
  (inv K 1 A = inv1 K A /\ inv K 2 A = inv2 K A /\ inv K 3 A = inv3 K A /\
   forall k, k = 0 \/ 3 < k -> inv K k A = inv_general K k A).
Proof.
  split; (split; [reflexivity|split; [reflexivity|split; [reflexivity|]]]);
    intros [|[|[|[|k]]]] Hk; try lia; reflexivity.
Qed.

(** ** concatenate *)
Theorem c77_concatenate t a b c d :
  (a = b -> c = d -> a = c -> selects concatenate_set [AMat t a b; AMat t c d] 0) /\
  (a <> c -> b = d -> selects concatenate_set [AMat t a b; AMat t c d] 1) /\
  (a = c -> b <> d -> selects concatenate_set [AMat t a b; AMat t c d] 2) /\
  (a = c -> b = d -> a <> b -> ambiguous concatenate_set [AMat t a b; AMat t c d]) /\
  (a <> c -> b <> d -> no_match concatenate_set [AMat t a b; AMat t c d]) /\
  (forall t', t' <> t -> no_match concatenate_set [AMat t a b; AMat t' c d]).
Proof.
  assert (V1 : b = d -> viable [PMat (Var 0) (Var 2); PMat (Var 1) (Var 2)] [AMat t a b; AMat t c d]).
  { intros <-. apply viable2. split; [reflexivity|]. exists (val3 a c b). repeat split. }
  assert (V2 : a = c -> viable [PMat (Var 0) (Var 1); PMat (Var 0) (Var 2)] [AMat t a b; AMat t c d]).
  { intros <-. apply viable2. split; [reflexivity|]. exists (val3 a b d). repeat split. }
  split.
  { intros <- <- <-. exists [PMat (Var 0) (Var 0); PMat (Var 0) (Var 0)]. split; [reflexivity|].
    split; [apply viable2; split; [reflexivity|]; exists (fun _ => a); repeat split|].
    others; intros _; (split; [exists (fun _ => Var 0); reflexivity|]); intros [w H]; cbn in H; congruence. }
  split.
  { intros N E. eapply (selects_only _ _ 1); [reflexivity|exact (V1 E)|]. others; no_view. }
  split.
  { intros E N. eapply (selects_only _ _ 2); [reflexivity|exact (V2 E)|]. others; no_view. }
  split.
  { intros E1 E2 N. split; [exists [PMat (Var 0) (Var 2); PMat (Var 1) (Var 2)]; split; [right; left; reflexivity|exact (V1 E2)]|].
    intros i [F [EF [VF HF]]]. destruct i as [|[|[|i]]]; cbn in EF; try (destruct i; discriminate EF); injection EF as <-.
    - revert VF. no_view.
    - destruct (HF 2 _ ltac:(lia) eq_refl (V2 E1)) as [[w H] _]. cbn in H. congruence.
    - destruct (HF 1 _ ltac:(lia) eq_refl (V1 E2)) as [[w H] _]. cbn in H. congruence. }
  split.
  { intros N1 N2 F [<-|[<-|[<-|[]]]]; no_view. }
  intros t' N F [<-|[<-|[<-|[]]]]; no_view.
Qed.

(** ** operators *)
Theorem c77_times t t' a b c d :
  (t = t' -> b = c -> selects times_set [AMat t a b; AMat t' c d] 0) /\
  (t <> t' \/ b <> c -> no_match times_set [AMat t a b; AMat t' c d]) /\
  (t = t' -> selects times_set [AMat t a b; AScalar t'] 1 /\ selects times_set [AScalar t'; AMat t a b] 2) /\
  (t <> t' -> no_match times_set [AMat t a b; AScalar t'] /\ no_match times_set [AScalar t'; AMat t a b]).
Proof.
  split; [|split; [|split]].
  - intros <- <-. eapply (selects_only _ _ 0); [reflexivity| |].
    + apply viable2. split; [reflexivity|]. exists (val3 a b d). repeat split.
    + others; no_view.
  - intros N F [<-|[<-|[<-|[]]]]; no_view.
  - intros <-. split.
    + eapply (selects_only _ _ 1); [reflexivity|apply viable_ms; split; [reflexivity|]; exists (val3 a b 0); repeat split|]. others; no_view.
    + eapply (selects_only _ _ 2); [reflexivity|apply viable_sm; split; [reflexivity|]; exists (val3 a b 0); repeat split|]. others; no_view.
  - intros N. split; intros F [<-|[<-|[<-|[]]]]; no_view.
Qed.

Theorem c77_plus t t' a b c d :
  (t = t' -> a = c -> b = d -> selects plus_set [AMat t a b; AMat t' c d] 0) /\
  (t <> t' \/ a <> c \/ b <> d -> no_match plus_set [AMat t a b; AMat t' c d]) /\
  (t = t' -> selects plus_set [AMat t a b; AScalar t'] 1 /\ selects plus_set [AScalar t'; AMat t a b] 2) /\
  (t <> t' -> no_match plus_set [AMat t a b; AScalar t'] /\ no_match plus_set [AScalar t'; AMat t a b]).
Proof.
  split; [|split; [|split]].
  - intros <- <- <-. eapply (selects_only _ _ 0); [reflexivity| |].
    + apply viable2. split; [reflexivity|]. exists (val3 a b 0). repeat split.
    + others; no_view.
  - intros N F [<-|[<-|[<-|[]]]]; no_view.
  - intros <-. split.
    + eapply (selects_only _ _ 1); [reflexivity|apply viable_ms; split; [reflexivity|]; exists (val3 a b 0); repeat split|]. others; no_view.
    + eapply (selects_only _ _ 2); [reflexivity|apply viable_sm; split; [reflexivity|]; exists (val3 a b 0); repeat split|]. others; no_view.
  - intros N. split; intros F [<-|[<-|[<-|[]]]]; no_view.
Qed.

(** there is no scalar - A and no scalar / A *)
Theorem c77_minus_over t t' a b c d :
  (t = t' -> a = c -> b = d -> selects minus_set [AMat t a b; AMat t' c d] 0) /\
  (t <> t' \/ a <> c \/ b <> d -> no_match minus_set [AMat t a b; AMat t' c d]) /\
  (t = t' -> selects minus_set [AMat t a b; AScalar t'] 1 /\ selects over_set [AMat t a b; AScalar t'] 0) /\
  (t <> t' -> no_match minus_set [AMat t a b; AScalar t'] /\ no_match over_set [AMat t a b; AScalar t']) /\
  no_match minus_set [AScalar t'; AMat t a b] /\ no_match over_set [AScalar t'; AMat t a b].
Proof.
  split; [|split; [|split; [|split; [|split]]]].
  - intros <- <- <-. eapply (selects_only _ _ 0); [reflexivity| |].
    + apply viable2. split; [reflexivity|]. exists (val3 a b 0). repeat split.
    + others; no_view.
  - intros N F [<-|[<-|[]]]; no_view.
  - intros <-. split.
    + eapply (selects_only _ _ 1); [reflexivity|apply viable_ms; split; [reflexivity|]; exists (val3 a b 0); repeat split|]. others; no_view.
    + eapply (selects_only _ _ 0); [reflexivity|apply viable_ms; split; [reflexivity|]; exists (val3 a b 0); repeat split|]. others.
  - intros N. split; [intros F [<-|[<-|[]]]; no_view|intros F [<-|[]]; no_view].
  - intros F [<-|[<-|[]]]; no_view.
  - intros F [<-|[]]; no_view.
Qed.

(** ** fixed sizes *)
Theorem c77_fixed t t' a b c d :
  (viable (nth 0 conv2_set []) [AMat t a b; AMat t' c d] <-> t = t' /\ c = 3 /\ d = 3) /\
  (viable (nth 0 strassen_set []) [AMat t a b; AMat t' c d] <-> t = t' /\ a = 2 /\ b = 2 /\ c = 2 /\ d = 2) /\
  (viable (nth 0 square_set []) [AMat t a b] <-> a = b).
Proof.
  cbn [nth conv2_set strassen_set square_set]. rewrite !viable2, viable1. cbn. split; [|split]; split.
  - intros [-> [v [_ [_ [H1 H2]]]]]. split; [reflexivity|]. split; congruence.
  - intros [-> [-> ->]]. split; [reflexivity|]. exists (val3 a b 0). repeat split.
  - intros [-> [v [H1 [H2 [H3 H4]]]]]. repeat split; congruence.
  - intros [-> [-> [-> [-> ->]]]]. split; [reflexivity|]. exists (val3 2 2 0). repeat split.
  - intros [v [H1 H2]]. congruence.
  - intros ->. exists (fun _ => b). split; reflexivity.
Qed.

(** the three results of a call exclude each other, and the library's sets show all three *)
Theorem c77_exclusive S args : ~ (no_match S args /\ ambiguous S args) /\
  (forall i, selects S args i -> ~ no_match S args /\ ~ ambiguous S args /\ forall j, selects S args j -> j = i).
Proof.
  split.
  - intros [H [[F [I V]] _]]. exact (H F I V).
  - intros i H. split; [exact (selects_not_no_match S args i H)|]. split; [intros [_ A]; exact (A i H)|].
    intros j Hj. exact (selects_unique S args j i Hj H).
Qed.

Example c77_ex : selects det_set [AMat 0 5 5] 3 /\ selects concatenate_set [AMat 0 2 2; AMat 0 2 2] 0 /\
  selects concatenate_set [AMat 0 2 3; AMat 0 4 3] 1 /\ ambiguous concatenate_set [AMat 0 2 3; AMat 0 2 3] /\
  no_match times_set [AMat 0 2 3; AScalar 1].
Proof.
  split; [apply c77_det; lia|]. split; [apply c77_concatenate; reflexivity|].
  split; [apply c77_concatenate; lia|]. split; [apply c77_concatenate; lia|]. apply (c77_times 0 1 2 3 0 0). lia.
Qed.

Print Assumptions c77_det.
Print Assumptions c77_det_model.
Print Assumptions c77_concatenate.
Print Assumptions c77_times.
Print Assumptions c77_plus.
Print Assumptions c77_minus_over.
Print Assumptions c77_fixed.
Print Assumptions c77_exclusive.
