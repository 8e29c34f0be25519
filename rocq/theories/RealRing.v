(** * The reals as a MathComp commutative ring

    Gives a meaning to [\det] of a real matrix.  Uses the standard library's
    axioms of the reals, excluded middle, functional extensionality and
    indefinite description (MathComp rings carry a choice operator). *)

From Coq Require Import Reals ClassicalEpsilon FunctionalExtensionality Lra.
From mathcomp Require Import all_ssreflect ssralg.
Set Implicit Arguments. Unset Strict Implicit. Unset Printing Implicit Defensive.

Definition Req_bool (x y : R) : bool := if Req_EM_T x y then true else false.
Lemma Req_boolP : Equality.axiom Req_bool.
Proof. by move=> x y; rewrite /Req_bool; case: Req_EM_T => H; constructor. Qed.
Definition R_eqMixin := EqMixin Req_boolP.
Canonical R_eqType := EqType R R_eqMixin.

Definition R_find (P : pred R) (n : nat) : option R :=
  match excluded_middle_informative (exists x, P x) with
  | left h => Some (proj1_sig (constructive_indefinite_description (fun x => P x) h))
  | right _ => None
  end.

Lemma R_find_some P n x : R_find P n = Some x -> P x.
Proof. by rewrite /R_find; case: excluded_middle_informative => // h [<-]; case: constructive_indefinite_description. Qed.
Lemma R_find_ex (P : pred R) : (exists x, P x) -> exists n, R_find P n.
Proof. by move=> h; exists 0%N; rewrite /R_find; case: excluded_middle_informative. Qed.
Lemma R_find_ext (P Q : pred R) : P =1 Q -> R_find P =1 R_find Q.
Proof. by move=> E; have -> : P = Q by apply: functional_extensionality. Qed.
Definition R_choiceMixin : Choice.mixin_of R := Choice.Mixin R_find_some R_find_ex R_find_ext.
Canonical R_choiceType := ChoiceType R R_choiceMixin.

Lemma RaddA : associative Rplus. Proof. by move=> x y z; ring. Qed.
Lemma RaddC : commutative Rplus. Proof. by move=> x y; ring. Qed.
Lemma Radd0 : left_id (IZR 0) Rplus. Proof. by move=> x; ring. Qed.
Lemma RaddN : left_inverse (IZR 0) Ropp Rplus. Proof. by move=> x; ring. Qed.
Definition R_zmodMixin := ZmodMixin RaddA RaddC Radd0 RaddN.
Canonical R_zmodType := ZmodType R R_zmodMixin.

Lemma RmulA : associative Rmult. Proof. by move=> x y z; ring. Qed.
Lemma RmulC : commutative Rmult. Proof. by move=> x y; ring. Qed.
Lemma Rmul1 : left_id (IZR 1) Rmult. Proof. by move=> x; ring. Qed.
Lemma RmulDl : left_distributive Rmult Rplus. Proof. by move=> x y z; ring. Qed.
Lemma Rone_neq0 : (IZR 1) != (IZR 0) :> R. Proof. by apply/eqP; lra. Qed.
Definition R_ringMixin := ComRingMixin RmulA RmulC Rmul1 RmulDl Rone_neq0.
Canonical R_ringType := RingType R R_ringMixin.
Canonical R_comRingType := ComRingType R RmulC.
