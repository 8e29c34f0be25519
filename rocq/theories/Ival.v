(** * Intervals as element type

    A class one uses for verified computing: two bounds, operations rounded outwards, and
    comparisons that are true only if they are true for all members ([boost::numeric::interval]
    with the comparisons of [interval_lib::compare::certain]).  The class throws when it would
    have to divide by an interval with 0 in it, or to take the root of one with a negative member. *)

From Coq Require Import ZArith List Lia.
From mathcomp Require Import all_ssreflect all_algebra all_fingroup.
From mathcomp Require Import zify.
From Verif Require Import Base Scalar Model Spec Loops Struct Elim Alg Exact ExactLemmas Det Inv Param.

Set Implicit Arguments.
Unset Strict Implicit.
Unset Printing Implicit Defensive.

Import Order.TTheory GRing.Theory Num.Theory.
Local Open Scope ring_scope.
Delimit Scope Z_scope with Z.
Local Notation ltP := ssrnat.ltP (only parsing).
Local Notation leP := ssrnat.leP (only parsing).

(** ** The class *)
Section Class.
Variable F : realFieldType.
(** how the bounds are rounded, and the root of an interval *)
Variables (dn up : F -> F) (root : F * F -> outcome (F * F)).
Implicit Types x y : F * F.

Definition min4 (a b c d : F) : F := Num.min (Num.min a b) (Num.min c d).
Definition max4 (a b c d : F) : F := Num.max (Num.max a b) (Num.max c d).

Definition i_mul x y : F * F :=
  (dn (min4 (x.1 * y.1) (x.1 * y.2) (x.2 * y.1) (x.2 * y.2)),
   up (max4 (x.1 * y.1) (x.1 * y.2) (x.2 * y.1) (x.2 * y.2))).
Definition i_div x y : outcome (F * F) :=
  if (y.1 <= 0) && (0 <= y.2) then Throw OverflowError
  else Ok (dn (min4 (x.1 / y.1) (x.1 / y.2) (x.2 / y.1) (x.2 / y.2)),
           up (max4 (x.1 / y.1) (x.1 / y.2) (x.2 / y.1) (x.2 / y.2))).
Definition i_abs x : F * F :=
  if 0 <= x.1 then x else if x.2 <= 0 then (- x.2, - x.1) else (0, Num.max (- x.1) x.2).
Definition i_lit z : F * F := (dn (ring_of_Z F z), up (ring_of_Z F z)).

Definition ivS : scalar :=
  {| elt := F * F; xpr := F * F; epsT := F; ld := id; st := id;
     lit := i_lit;
     xadd := fun x y => Ok (dn (x.1 + y.1), up (x.2 + y.2));
     xsub := fun x y => Ok (dn (x.1 - y.2), up (x.2 - y.1));
     xmul := fun x y => Ok (i_mul x y);
     xdiv := i_div;
     xneg := fun x => Ok (- x.2, - x.1);
     xeq := fun x y => [&& x.1 == x.2, y.1 == y.2 & x.1 == y.1];
     xlt := fun x y => x.2 < y.1;
     xabs := fun x => Ok (i_abs x);
     gteps := fun x e => e < x.1;
     xsqrt := root;
     divsz := fun x n => i_div x (i_lit n) |}.
End Class.

(** [a] is a member of [x] *)
Definition mem (F : realFieldType) (x : F * F) (a : F) : Prop := x.1 <= a <= x.2.

(** outward rounding *)
Definition outward (F : realFieldType) (dn up : F -> F) : Prop := forall a, dn a <= a <= up a.

(** the root of an interval, in a field with square roots *)
Definition i_root (F : rcfType) (dn up : F -> F) (x : F * F) : outcome (F * F) :=
  if x.1 < 0 then Throw OverflowError else Ok (dn (Num.sqrt x.1), up (Num.sqrt x.2)).

(** ** If the first run returns so does the second, with a related result *)
Definition okref {A B : Type} (R : A -> B -> Prop) (o : outcome A) (o' : outcome B) : Prop :=
  forall a, o = Ok a -> exists2 b, o' = Ok b & R a b.

Lemma ok_ok {A B} (R : A -> B -> Prop) a b : R a b -> okref R (Ok a) (Ok b).
Proof. by move=> H _ [<-]; exists b. Qed.
Lemma ok_ref {A B} (R : A -> B -> Prop) o o' : refines R o o' -> okref R o o'.
Proof. by case: o => // a [b [-> H]] _ [<-]; exists b. Qed.
Lemma bind_ok {A B} (o : outcome A) (k : A -> outcome B) b : bind o k = Ok b -> exists2 a, o = Ok a & k a = Ok b.
Proof. by case: o => // a H; exists a. Qed.
Lemma ok_bind {A B A' B'} (R : A -> A' -> Prop) (Q : B -> B' -> Prop) o o' k k' :
  okref R o o' -> (forall a a', R a a' -> okref Q (k a) (k' a')) -> okref Q (bind o k) (bind o' k').
Proof. move=> H1 H2 b E0; have [a Ea E] := bind_ok E0; have [a' -> Ra] := H1 a Ea; exact: H2 Ra _ E. Qed.

Lemma iter_first {A} c lo (body : nat -> A -> outcome A) s t :
  (0 < c)%N -> iter c lo body s = Ok t -> exists s1, body lo s = Ok s1.
Proof. by case: c => // c _ /= /(@bind_ok _ _ _ _ _) [s1 E _]; exists s1. Qed.
Lemma for_first {A} lo hi (body : nat -> A -> outcome A) s t :
  (lo < hi)%N -> for_ lo hi body s = Ok t -> exists s1, body lo s = Ok s1.
Proof. by move=> H; apply: iter_first; lia. Qed.

Lemma ok_for {A A'} (R : A -> A' -> Prop) lo hi body body' s s' :
  R s s' -> (forall k s s', (lo <= k < hi)%N -> R s s' -> okref R (body k s) (body' k s')) ->
  okref R (for_ lo hi body s) (for_ lo hi body' s').
Proof.
move=> Hs Hb; rewrite /for_.
have G c l : (forall k s s', (l <= k < l + c)%N -> R s s' -> okref R (body k s) (body' k s')) ->
    forall s s', R s s' -> okref R (iter c l body s) (iter c l body' s').
  elim: c l => [|c IH] l H t t' Ht /=; first exact: ok_ok.
  apply: ok_bind; first by apply: H Ht; lia.
  by move=> a a' Ha; apply: IH Ha => k *; apply: H => //; lia.
by apply: G Hs => k t t' Hk; apply: Hb; lia.
Qed.

(** ** Functions that divide *)
Section Ok.
Variables (K K' : scalar) (rel : elt K -> elt K' -> Prop) (relx : xpr K -> xpr K' -> Prop).
Notation RM := (mrel rel).
Hypothesis Hld : forall a a', rel a a' -> relx (ld a) (ld a').
Hypothesis Hst : forall v v', relx v v' -> rel (st v) (st v').
Hypothesis Hlit : forall z, relx (lit z) (lit z).
Hypothesis Hadd : forall a a' b b', relx a a' -> relx b b' -> refines relx (xadd a b) (xadd a' b').
Hypothesis Hsub : forall a a' b b', relx a a' -> relx b b' -> refines relx (xsub a b) (xsub a' b').
Hypothesis Hmul : forall a a' b b', relx a a' -> relx b b' -> refines relx (xmul a b) (xmul a' b').
Hypothesis Hdiv : forall a a' b b', relx a a' -> relx b b' -> okref relx (xdiv a b) (xdiv a' b').
Hypothesis Hnz : forall a b b' c, relx b b' -> xdiv a b = Ok c -> xeq b' (lit 0) = false.
Hypothesis Hsqrt : forall a a', relx a a' -> okref rel (xsqrt a) (xsqrt a').
Hypothesis Hdivsz : forall a a' n, relx a a' -> okref rel (divsz a n) (divsz a' n).

Let lite0 : rel (lite K 0) (lite K' 0). Proof. by apply: Hst. Qed.
Let lite1 : rel (lite K 1) (lite K' 1). Proof. by apply: Hst. Qed.

Ltac leaf :=
  match goal with
  | |- okref _ (aget _ _ _) (aget _ _ _) => apply ok_ref, ref_aget; eassumption
  | |- okref _ (aset _ _ _ _) (aset _ _ _ _) => apply ok_ref, ref_aset; [eassumption|eauto]
  | |- okref _ (xadd _ _) _ => apply ok_ref, Hadd; eauto
  | |- okref _ (xsub _ _) _ => apply ok_ref, Hsub; eauto
  | |- okref _ (xmul _ _) _ => apply ok_ref, Hmul; eauto
  | |- okref _ (xdiv _ _) _ => apply Hdiv; eauto
  | |- okref _ (xsqrt _) _ => apply Hsqrt; eauto
  | |- okref _ (divsz _ _) _ => apply Hdivsz; eauto
  | |- okref _ (Ok _) (Ok _) => apply ok_ok; eauto
  end.
Ltac ostep := first [leaf | match goal with
  | |- okref _ (bind _ _) (bind _ _) => eapply ok_bind; [solve [leaf]|intros ? ? ?]
  | |- okref _ (for_ _ _ _ _) (for_ _ _ _ _) => apply ok_for; [eauto|intros ? ? ? ? ?; cbv beta]
  | |- okref _ (bind (for_ _ _ _ _) _) (bind (for_ _ _ _ _) _) =>
      eapply (@ok_bind _ _ _ _ rel); [apply ok_for; [eauto|intros ? ? ? ? ?; cbv beta]|intros ? ? ?]
  end].

Lemma div_ok n m A A' s s' : (0 < n)%N -> (0 < m)%N -> RM A A' -> rel s s' ->
  okref RM (div K n m A s) (div K' n m A' s').
Proof.
move=> Hn Hm HA Hs; rewrite /div; case: (xeq (ld s) _) => //.
case E : (xeq (ld s') _); last by repeat ostep; apply: init_rel.
move=> X /(@for_first _ _ _ _ _ _ _) [//|X1] /(@for_first _ _ _ _ _ _ _) [//|X2] /(@bind_ok _ _ _ _ _) [a _] /(@bind_ok _ _ _ _ _) [v Ev _].
by rewrite (Hnz (Hld Hs) Ev) in E.
Qed.

(** the division of [op_div] does not return for a zero divisor *)
Lemma div_nz n m A X s s' : (0 < n)%N -> (0 < m)%N -> rel s s' -> div K n m A s = Ok X ->
  xeq (ld s') (lit 0) = false.
Proof.
move=> Hn Hm Hs; rewrite /div; case: (xeq (ld s) _) => //.
move=> /(@for_first _ _ _ _ _ _ _) [//|X1] /(@for_first _ _ _ _ _ _ _) [//|X2] /(@bind_ok _ _ _ _ _) [a _] /(@bind_ok _ _ _ _ _) [v Ev _].
exact: Hnz (Hld Hs) Ev.
Qed.

Lemma det_prod_ok n A A' f f' : RM A A' -> rel f f' -> okref rel (det_prod K n A f) (det_prod K' n A' f').
Proof. by move=> HA Hf; rewrite /det_prod; repeat ostep. Qed.

Lemma det_eliminate_ok n A A' r p : RM A A' -> okref RM (det_eliminate K n A r p) (det_eliminate K' n A' r p).
Proof.
move=> HA; rewrite /det_eliminate; apply: ok_for => // i s s' _ Hs.
by case: Nat.eqb; [exact: ok_ok|repeat ostep].
Qed.

Lemma lu_ok n A A' : RM A A' -> okref (relP RM RM) (lu K n A) (lu K' n A').
Proof.
move=> HA; rewrite /lu; apply: ok_bind.
  by apply: ok_ref; apply: (@eye1_ref _ _ rel relx).
move=> L0 L0' HL0; cbv zeta.
apply: ok_for; first by split=> //; apply: (@fill_rel _ _ rel relx).
move=> j [L U] [L' U'] _ [/= HL HU].
have Sum (M M' V V' : _) i : RM M M' -> RM V V' -> okref rel
    (for_ 0 i (fun p sum => let* u := aget V p j in let* l := aget M i p in
      let* t := xmul (ld u) (ld l) in let* v := xadd (ld sum) t in Ok (st v)) (lite K 0))
    (for_ 0 i (fun p sum => let* u := aget V' p j in let* l := aget M' i p in
      let* t := xmul (ld u) (ld l) in let* v := xadd (ld sum) t in Ok (st v)) (lite K' 0)).
  by move=> HM HV; repeat ostep.
apply: (@ok_bind _ _ _ _ RM).
  by apply: ok_for => // i s s' _ Hs; apply: ok_bind; [apply: Sum|move=> a a' Ha; repeat ostep].
move=> V V' HV; apply: (@ok_bind _ _ _ _ RM).
  apply: ok_for => // i s s' _ Hs; apply: ok_bind; [exact: Sum|move=> a a' Ha].
  ostep; case: (xeq (ld _) _) => //; case E : (xeq (ld _) _); last by repeat ostep.
  move=> X /(@bind_ok _ _ _ _ _) [b _] /(@bind_ok _ _ _ _ _) [v _] /(@bind_ok _ _ _ _ _) [q Eq _].
  by rewrite (Hnz (Hld H) Eq) in E.
by move=> *; apply: ok_ok.
Qed.

Lemma chol_ok n A A' : RM A A' -> okref RM (chol K n A) (chol K' n A').
Proof.
move=> HA; rewrite /chol; apply: ok_for; first exact: init_rel.
move=> i s s' _ Hs; apply: ok_for => // j t t' _ Ht.
by case: Nat.eqb; repeat ostep.
Qed.

Lemma mean_ok n m A A' : RM A A' -> okref rel (mean K n m A) (mean K' n m A').
Proof. by move=> HA; rewrite /mean; repeat ostep. Qed.
Lemma var_ok n m A A' : RM A A' -> okref rel (var K n m A) (var K' n m A').
Proof. by move=> HA; rewrite /var; apply: ok_bind; [exact: mean_ok|move=> a a' Ha; repeat ostep]. Qed.
Lemma stddev_ok n m A A' : RM A A' -> okref rel (stddev K n m A) (stddev K' n m A').
Proof. by move=> HA; rewrite /stddev; apply: ok_bind; [exact: var_ok|move=> a a' Ha; repeat ostep]. Qed.
Section Inv.
Hypothesis Hneg : forall a a', relx a a' -> refines relx (xneg a) (xneg a').

Lemma inv1_ok A A' : okref rel (det K 1 A) (det K' 1 A') -> okref RM (inv1 K A) (inv1 K' A').
Proof.
move=> HD; rewrite /inv1; apply: ok_bind; first exact: HD.
by move=> d d' Hd; repeat ostep; do !constructor; exact: Hst.
Qed.

Lemma inv2_ok A A' : RM A A' -> okref rel (det K 2 A) (det K' 2 A') -> okref RM (inv2 K A) (inv2 K' A').
Proof.
move=> HA HD; rewrite /inv2; apply: ok_bind; first exact: HD.
move=> d d' Hd; case: (xeq (ld d) _) => //; case E : (xeq (ld d') _).
  move=> X; do 6 (move=> /(@bind_ok _ _ _ _ _) [? _]).
  by move/(div_nz (isT : 0 < 2)%N (isT : 0 < 2)%N Hd); rewrite E.
do 4 ostep; do 2 (apply: ok_bind; [apply: ok_ref; apply: Hneg; auto|move=> ? ? ?]).
by apply: div_ok => //; do !constructor; auto.
Qed.

Lemma mul_sub_ok x x' y y' z z' w w' : rel x x' -> rel y y' -> rel z z' -> rel w w' ->
  okref rel (mul_sub K x y z w) (mul_sub K' x' y' z' w').
Proof. by move=> *; rewrite /mul_sub; repeat ostep. Qed.

Lemma inv3_ok A A' : RM A A' -> okref rel (det K 3 A) (det K' 3 A') -> okref RM (inv3 K A) (inv3 K' A').
Proof.
move=> HA HD; rewrite /inv3; apply: ok_bind; first exact: HD.
move=> d d' Hd; case: (xeq (ld d) _) => //; case E : (xeq (ld d') _).
  move=> X; do 18 (move=> /(@bind_ok _ _ _ _ _) [? _]).
  by move/(div_nz (isT : 0 < 3)%N (isT : 0 < 3)%N Hd); rewrite E.
do 9 ostep; do 9 (apply: ok_bind; [apply: mul_sub_ok; eassumption|move=> ? ? ?]).
by apply: div_ok => //; do !constructor.
Qed.

Lemma inv_general_ok n A A' : (0 < n)%N -> RM A A' -> okref rel (det K n A) (det K' n A') ->
  (forall i j N N', (i < n)%N -> (j < n)%N -> getminor K' n A' i j = Ok N' -> RM N N' ->
     okref rel (det K (n - 1) N) (det K' (n - 1) N')) ->
  okref RM (inv_general K n A) (inv_general K' n A').
Proof.
move=> Hn HA HD HM; rewrite /inv_general; apply: ok_bind; first exact: HD.
move=> d d' Hd; apply: (@ok_bind _ _ _ _ RM).
  apply: ok_for; first exact: init_rel.
  move=> i s s' Hi Hs; apply: ok_for => // j t t' Hj Ht.
  move=> X /(@bind_ok _ _ _ _ _) [N EN].
  have [N' EN' HN] := ok_ref (@getminor_ref K K' rel relx Hst (Hlit 0) n A A' i j HA) EN.
  rewrite EN'; move: X; rewrite -/(okref RM _ _) [bind (Ok _) _]/=.
  apply: ok_bind; first by apply: (HM i j) EN' HN; lia.
  move=> e e' He; apply: ok_bind; first by apply: ok_ref; apply: Hmul; [case: Nat.eqb|exact: Hld].
  by move=> v v' Hv; ostep.
move=> X X' HX; apply: (@ok_bind _ _ _ _ RM); first by apply: ok_ref; apply: (@trans_ref _ _ rel relx).
by move=> Y Y' HY; apply: div_ok.
Qed.
End Inv.
End Ok.

(** ** The operations enclose *)
Section Encl.
Variable F : realFieldType.
Implicit Types (x y : F * F) (a b c : F).

Lemma lin_encl x a c : mem x a -> Num.min (x.1 * c) (x.2 * c) <= a * c <= Num.max (x.1 * c) (x.2 * c).
Proof.
move=> /andP [H1 H2]; rewrite le_minl le_maxr; case: (lerP 0 c) => Hc.
  by apply/andP; split; apply/orP; [left|right]; apply: ler_wpmul2r.
by apply/andP; split; apply/orP; [right|left]; apply: ler_wnmul2r => //; exact: ltW.
Qed.

Lemma mul_encl x y a b : mem x a -> mem y b ->
  min4 (x.1 * y.1) (x.1 * y.2) (x.2 * y.1) (x.2 * y.2) <= a * b <=
  max4 (x.1 * y.1) (x.1 * y.2) (x.2 * y.1) (x.2 * y.2).
Proof.
move=> Ha Hb; have /andP [H1 H2] := lin_encl a Hb.
have /andP [] := lin_encl y.1 Ha; have /andP [] := lin_encl y.2 Ha.
rewrite [b * a]mulrC in H1 H2; rewrite !(mulrC _ a) in H1 H2.
rewrite /min4 /max4 !le_minl !le_maxr => /orP P1 /orP P2 /orP P3 /orP P4.
move: H1 H2; rewrite le_minl le_maxr => /orP H1 /orP H2.
apply/andP; split.
  case: H1 => H1.
    by case: P3 => P3; rewrite (le_trans P3 H1) ?orbT.
  by case: P1 => P1; rewrite (le_trans P1 H1) ?orbT.
case: H2 => H2.
  by case: P4 => P4; rewrite (le_trans H2 P4) ?orbT.
by case: P2 => P2; rewrite (le_trans H2 P2) ?orbT.
Qed.

Lemma mem_nz y b : mem y b -> ~~ ((y.1 <= 0) && (0 <= y.2)) -> b != 0.
Proof. by move=> Hb; apply: contra => /eqP E; rewrite /mem E in Hb. Qed.

Lemma inv_encl y b : mem y b -> ~~ ((y.1 <= 0) && (0 <= y.2)) -> mem (y.2^-1, y.1^-1) b^-1.
Proof.
move=> /andP [H1 H2]; rewrite negb_and -!ltNge => /orP [P|N]; rewrite /mem /=.
  have Pb := lt_le_trans P H1; have P2 := lt_le_trans Pb H2.
  by rewrite !lef_pinv ?posrE // H1 H2.
have Nb := le_lt_trans H2 N; have N1 := le_lt_trans H1 Nb.
by rewrite !lef_ninv ?negrE // H1 H2.
Qed.

Lemma div_encl x y a b : mem x a -> mem y b -> ~~ ((y.1 <= 0) && (0 <= y.2)) ->
  min4 (x.1 / y.1) (x.1 / y.2) (x.2 / y.1) (x.2 / y.2) <= a / b <=
  max4 (x.1 / y.1) (x.1 / y.2) (x.2 / y.1) (x.2 / y.2).
Proof.
move=> Ha Hb Hz; have := mul_encl Ha (inv_encl Hb Hz); rewrite /= /min4 /max4.
by rewrite (minC (x.1 / y.1)) (minC (x.2 / y.1)) (maxC (x.1 / y.1)) (maxC (x.2 / y.1)).
Qed.
End Encl.

Section Exact.
Variables (F : realFieldType) (dn up : F -> F) (root : F * F -> outcome (F * F)) (sq : F -> outcome F).
Hypothesis HR : outward dn up.
Notation I := (ivS dn up root).
Notation K := (ordS sq).
Notation rel := (@mem F : elt I -> elt K -> Prop).
Notation RM := (mrel rel).
Implicit Types x y : F * F.

Lemma round_encl lo a hi : lo <= a <= hi -> mem (dn lo, up hi) a.
Proof.
move=> /andP [H1 H2]; rewrite /mem /=; have /andP [D _] := HR lo; have /andP [_ U] := HR hi.
by rewrite (le_trans D H1) (le_trans H2 U).
Qed.

Lemma iv_lit z : mem (@lit I z) (@lit K z).
Proof. by apply: round_encl; rewrite lexx. Qed.
Lemma iv_add x a y b : mem x a -> mem y b -> refines rel (@xadd I x y) (@xadd K a b).
Proof. by move=> /andP [? ?] /andP [? ?]; apply: ref_ok; apply: round_encl; rewrite !ler_add. Qed.
Lemma iv_sub x a y b : mem x a -> mem y b -> refines rel (@xsub I x y) (@xsub K a b).
Proof. by move=> /andP [? ?] /andP [? ?]; apply: ref_ok; apply: round_encl; rewrite !ler_sub. Qed.
Lemma iv_mul x a y b : mem x a -> mem y b -> refines rel (@xmul I x y) (@xmul K a b).
Proof. by move=> Ha Hb; apply: ref_ok; apply: round_encl; exact: mul_encl. Qed.
Lemma iv_neg x a : mem x a -> refines rel (@xneg I x) (@xneg K a).
Proof. by move=> /andP [? ?]; apply: ref_ok; rewrite /mem /= !ler_opp2; apply/andP. Qed.
Lemma iv_div x a y b : mem x a -> mem y b -> okref rel (@xdiv I x y) (@xdiv K a b).
Proof.
move=> Ha Hb z; rewrite /= /i_div; case: ifP => // /negbT Hz [<-].
exists (a / b); first by rewrite /exact_div unitfE (mem_nz Hb Hz).
by apply: round_encl; exact: div_encl.
Qed.
Lemma iv_nz x y b c : mem y b -> @xdiv I x y = Ok c -> @xeq K b (@lit K 0) = false.
Proof.
move=> Hb; rewrite /= /i_div; case: ifP => // /negbT Hz _.
exact/negbTE/(mem_nz Hb Hz).
Qed.
Lemma iv_eq x a y b : mem x a -> mem y b -> @xeq I x y -> a = b.
Proof.
move=> /andP [H1 H2] /andP [H3 H4] /and3P [/eqP E1 /eqP E2 /eqP E3].
have -> : a = x.1 by apply/le_anti; rewrite H1 E1 H2.
by rewrite E3; apply/le_anti; rewrite H3 E2 H4.
Qed.
Lemma iv_abs x a : mem x a -> refines rel (@xabs I x) (@xabs K a).
Proof.
move=> /andP [H1 H2]; apply: ref_ok; rewrite /mem /= /i_abs; case: (lerP 0 x.1) => P.
  by rewrite ger0_norm ?H1 ?H2 // (le_trans P H1).
case: (lerP x.2 0) => Q /=; first by rewrite ler0_norm ?ler_opp2 ?H1 ?H2 // (le_trans H2 Q).
by rewrite normr_ge0 /= le_maxr; case: (ger0P a) => A; apply/orP; [right|left; rewrite ler_opp2].
Qed.
Lemma iv_divsz x a n : mem x a -> okref rel (@divsz I x n) (@divsz K a n).
Proof. by move=> Ha; apply: iv_div => //; exact: iv_lit. Qed.

(** *** the determinant *)
Lemma rel_aget M (g : nat -> nat -> F) n i j x : RM M (mk n n g) -> (i < n)%N -> (j < n)%N ->
  aget M i j = Ok x -> mem x (g i j).
Proof.
move=> HM Hi Hj E; have := ref_aget rel M (mk n n g) i j HM; rewrite E aget_mk; try exact/ltP.
by move=> [b [[<-] H]].
Qed.

(** what a search that returns has seen: only zeros in the columns it left *)
Lemma iv_search fuel n M (g : nat -> nat -> F) r i p c : RM M (mk n n g) ->
  (r <= i < n)%N -> (p < n)%N -> (forall k, (r <= k < i)%N -> g k p = 0) ->
  det_search I fuel n M r i p = Ok c ->
  match c with
  | Ret _ => forall k, (r <= k < n)%N -> g k p = 0
  | Cont (i', p') => [/\ (r <= i' < n)%N, (p <= p' < n)%N & (p < p')%N -> forall k, (r <= k < n)%N -> g k p = 0]
  end.
Proof.
move=> HM; elim: fuel i p => // fuel IH i p Hi Hp H0 /=.
move=> /(@bind_ok _ _ _ _ _) [x Ex]; case/andP: (Hi) => Hri Hin.
have Hx := rel_aget HM Hin Hp Ex.
case: ifP => [Ez|_]; last by case=> <-; split=> //; lia.
have H0' k : (r <= k < i.+1)%N -> g k p = 0.
  move=> Hk; case: (k =P i) => [->|Hki]; last by apply: H0; lia.
  exact: iv_eq Hx (iv_lit 0) Ez.
rewrite !Nat.add_1_r !eqbE; case: eqP => [En|/eqP Hne]; last by move/IH; apply=> //; lia.
have Hall k : (r <= k < n)%N -> g k p = 0 by rewrite En; apply: H0'.
case: eqP => [_ [<-] //|/eqP Hne'] E.
have := IH r p.+1 _ _ _ E; case: (c) => [[i' p'] H|[] _ //].
have [|||H1 H2 _] := H; try lia.
by split=> //; lia.
Qed.

Lemma elim_zero_pivot n (g : nat -> nat -> F) r p : (p.+1 < n)%N -> (r <= p)%N -> g r p = 0 ->
  forall X, det_eliminate K n (mk n n g) r p <> Ok X.
Proof.
move=> Hp Hr Hz X; rewrite /det_eliminate => /(@for_first _ _ _ _ _ _ _) [|X1]; first by lia.
rewrite eqbE gtn_eqF; last by lia.
rewrite aget_mk; try (apply/ltP; lia).
move=> /(@for_first _ _ _ _ _ _ _) [|X2]; first by lia.
have E i j : (i < n)%N -> (j < n)%N -> aget (mk n n g) i j = Ok (g i j) by move=> Hi Hj; apply: aget_mk; exact/ltP.
rewrite E; try lia.
rewrite [bind _ _]/= E; try lia.
by rewrite /= Hz /exact_div unitr0.
Qed.

(** loop invariant: a matrix in the current one, with the same determinant up to the sign *)
Definition iv_inv n (f : nat -> nat -> F) (r : nat) (s : matrix (F * F) * (F * F) * nat) : Prop :=
  exists g c, [/\ RM s.1.1 (mk n n g), mem s.1.2 c, c * c = 1 &
  ((s.2 = r /\ (forall i j, (j < r)%N -> (j < i < n)%N -> g i j = 0) /\ detf n g = c * detf n f)
   \/ ((detf n f = 0 /\ (r <= s.2)%N) /\ exists k, (k <= r)%N /\ (k < n)%N /\ (k < s.2)%N /\
        forall i, (k <= i < n)%N -> g i k = 0))].

Lemma for_ret_okinv {St R} (P : nat -> St -> Prop) (Q : R -> Prop) lo hi
  (body : nat -> St -> outcome (ctrl St R)) s c :
  (lo <= hi)%N -> P lo s ->
  (forall k s c, (lo <= k < hi)%N -> P k s -> body k s = Ok c ->
     match c with Cont s' => P k.+1 s' | Ret r => Q r end) ->
  for_ret lo hi body s = Ok c -> match c with Cont s' => P hi s' | Ret r => Q r end.
Proof.
move=> Hle H0 H.
suff Hh h : (lo <= h <= hi)%N -> forall c, for_ret lo h body s = Ok c ->
    match c with Cont s' => P h s' | Ret r => Q r end by apply: Hh; rewrite Hle leqnn.
elim: h => [|h IH] /andP[H1 H2] d.
  rewrite for_ret_empty //; last exact: Nat.le_0_l.
  by case=> <-; move: H1; rewrite leqn0 => /eqP <-.
case: (ltngtP lo h.+1) H1 => // [Hlt|E] _; last by rewrite -E for_ret_empty // => -[<-].
rewrite for_ret_snoc; last exact/leP.
move=> /(@bind_ok _ _ _ _ _) [e Ee]; have := IH _ e Ee.
case: e Ee => [s'|r] _ Hc; last by case=> <-; apply: Hc; lia.
by apply: H; [lia|apply: Hc; lia].
Qed.

Lemma det_prod_sound n M (g : nat -> nat -> F) fac c d : RM M (mk n n g) -> mem fac c -> c * c = 1 ->
  det_prod I n M fac = Ok d -> mem d (c * \prod_(i < n) g i i).
Proof.
move=> HM Hc C E.
have C0 : c != 0 by apply/eqP => Z; move/eqP: C; rewrite Z mul0r eq_sym oner_eq0.
have [b] := @det_prod_ok I K rel rel (fun _ _ => id) (fun _ _ => id) iv_lit iv_mul iv_div n M (mk n n g) fac c HM Hc d E.
rewrite (@det_prod_mk _ _ _ _ n g c C0) => -[<-].
have -> : c^-1 = c by apply: (mulfI C0); rewrite divff.
by rewrite mulrC.
Qed.

Lemma iv_det_general n M (f : nat -> nat -> F) d : RM M (mk n n f) -> det_general I n M = Ok d -> mem d (detf n f).
Proof.
move=> HM; rewrite /det_general.
set body := (fun (r : nat) (s : matrix (F * F) * (F * F) * nat) => _).
move=> /(@bind_ok _ _ _ _ _) [c Ec Ed].
have H1 : iv_inv n f 0 (M, lite I 1, 0%N).
  exists f, 1; split=> //; [exact: (iv_lit 1)|by rewrite mulr1|left].
  by rewrite mul1r; split.
suff H2 k s e : (0 <= k < n)%N -> iv_inv n f k s -> body k s = Ok e ->
    match e with Cont s' => iv_inv n f k.+1 s' | Ret r => mem r (detf n f) end.
  have := for_ret_okinv (leq0n n) H1 H2 Ec.
  case: c Ec Ed => [[[A fac] p]|r] _; last by case=> <-.
  move=> /= Ed [g [c [/= HA Hc C]]].
  have := det_prod_sound HA Hc C Ed => Hd.
  case=> [[_ [Hz Hdet]]|[[-> _] [k [_ [Hk [_ Hz]]]]]].
    move: Hd; rewrite -detf_upper; last by move=> i j Hij; apply: Hz => //; lia.
    by rewrite Hdet mulrA C mul1r.
  by move: Hd; rewrite (bigD1 (Ordinal Hk)) //= Hz ?leqnn // mul0r mulr0.
move=> /andP [_ Hr] [g [c0 [/= HA Hc C Hinv]]].
case: s HA Hc Hinv => [[A fac] p] /= HA Hc Hinv; rewrite /body.
have zero_prod q d' : detf n f = 0 -> (q < n)%N -> g q q = 0 -> det_prod I n A fac = Ok d' -> mem d' (detf n f).
  move=> -> Hk Hz E; have := det_prod_sound HA Hc C E.
  by rewrite (bigD1 (Ordinal Hk)) //= Hz mul0r mulr0.
rewrite lebE; case: leqP => Hpn.
  move=> /(@bind_ok _ _ _ _ _) [d' Ed' [<-]].
  case: Hinv => [[Epr _]|[[Hf0 Hrp0] [q [Hqr [Hqn [Hqp Hz]]]]]]; first by exfalso; lia.
  by apply: (zero_prod q) Ed' => //; apply: Hz; lia.
move=> /(@bind_ok _ _ _ _ _) [fnd Efnd].
have C0 : c0 != 0 by apply/eqP => Z; move/eqP: C; rewrite Z mul0r eq_sym oner_eq0.
have := iv_search HA (_ : (k <= k < n)%N) Hpn _ Efnd.
case: fnd Efnd => [[i' p']|[]] _ Hs; last first.
  move=> /(@bind_ok _ _ _ _ _) [d' Ed' [<-]].
  have {Hs} Hcol : forall i, (k <= i < n)%N -> g i p = 0 by apply: Hs; [lia|move=> *; lia].
  have [Hf0 [q [Hq Hz]]] : detf n f = 0 /\ exists q, (q < n)%N /\ g q q = 0.
    case: Hinv => [[Epr [Hz Hd]]|[[Hf0 Hrp0] [q [Hqr [Hqn [Hqp Hz]]]]]]; last first.
      by split=> //; exists q; split=> //; apply: Hz; lia.
    subst p; split; last by exists k; split=> //; apply: Hcol; lia.
    have : c0 * detf n f = 0.
      rewrite -Hd (@detf_block0 _ n g k) // => i j Hi; rewrite leq_eqVlt => /orP[/eqP->|Hj].
        exact: Hcol.
      by apply: Hz => //; lia.
    by move/eqP; rewrite mulf_eq0 (negbTE C0) => /eqP.
  exact: (zero_prod q _ Hf0 Hq Hz Ed').
have [||/andP [Hri Hin] /andP [Hpp Hpn'] Hskip] := Hs; [lia|by move=> *; lia|].
move=> /(@bind_ok _ _ _ _ _) [[A1 fac1] E1].
pose c1 := if i' == k then c0 else - c0.
have [HA1 Hc1] : RM A1 (mk n n (swapf g i' k)) /\ mem fac1 c1.
  have R1 : okref (relP RM rel)
     (if Nat.eqb i' k then Ok (A, fac) else let* B := swap_rows I n n A i' k in
        let* u := xmul (s := I) (ld (s := I) fac) (lit (s := I) (-1)) in Ok (B, st (s := I) u))
     (if Nat.eqb i' k then Ok (mk n n g, c0) else let* B := swap_rows K n n (mk n n g) i' k in
        let* u := xmul (s := K) (ld (s := K) c0) (lit (s := K) (-1)) in Ok (B, st (s := K) u)).
    case: Nat.eqb; first exact: ok_ok.
    apply: (@ok_bind _ _ _ _ RM); first exact/ok_ref/(@swap_rows_ref I K rel).
    move=> B B' HB; apply: ok_bind; first by apply: ok_ref; apply: iv_mul => //; exact: (iv_lit (-1)).
    by move=> u u' Hu; apply: ok_ok.
  have [b] := R1 _ E1; rewrite (@det_swap_mk _ _ _ _ n g c0 i' k) // => -[<-] [/= ? ?].
  by split.
have C1 : c1 * c1 = 1 by rewrite /c1; case: ifP => // _; rewrite mulrNN.
have C10 : c1 != 0 by apply/eqP => Z; move/eqP: C1; rewrite Z mul0r eq_sym oner_eq0.
move=> /(@bind_ok _ _ _ _ _) [A2 E2 [<-]].
set g1 := swapf g i' k in HA1.
have [X EX HX] := @det_eliminate_ok I K rel rel (fun _ _ => id) (fun _ _ => id) iv_sub iv_mul iv_div n A1 (mk n n g1) k p' HA1 A2 E2.
have {EX HX} [Hp' HA2] : ((p'.+1 == n) || (g1 k p' != 0)) /\ RM A2 (mk n n (elimf g1 k p')).
  case: (g1 k p' =P 0) => [Z|/eqP NZ]; last first.
    by move: EX; rewrite (det_elim_mk _ _ _ Hr Hpn' NZ) orbT => -[->].
  case: (p'.+1 =P n) => [En|Hn].
    split=> //; move: EX; rewrite /det_eliminate for_empty; last by apply/leP; lia.
    case=> EX1; rewrite -EX1 in HX; rewrite (_ : mk n n (elimf g1 k p') = mk n n g1) //.
    apply: mk_ext => i j /ltP Hi _; rewrite /elimf; case: ifP => // /and3P [Hpi _ _]; lia.
  have Hr' : (k <= p')%N by case: Hinv => [[Epr _]|[[_ Hrp0] _]]; lia.
  case: (@elim_zero_pivot n g1 k p' _ Hr' Z X EX); lia.
exists (elimf g1 k p'), c1; split=> //.
case: Hinv => [[Epr [Hz Hd]]|[[Hf0 Hrp0] [q [Hqr [Hqn [Hqp Hz]]]]]]; last first.
  right; split; first by split=> //=; lia.
  exists q; do ![split]; rewrite //=; try lia.
  apply: elimf_zero; first by lia.
  by apply: swapf_zero => //; lia.
subst p; case: (ltngtP k p') Hpp => // [Hrp|Erp] _.
  right; have Hz1 := Hskip Hrp; split; first (split=> [|/=]; last by lia).
    have : c0 * detf n f = 0.
      rewrite -Hd (@detf_block0 _ n g k) // => i j Hi; rewrite leq_eqVlt => /orP[/eqP->|Hj].
        exact: Hz1.
      by apply: Hz => //; lia.
    by move/eqP; rewrite mulf_eq0 (negbTE C0) => /eqP.
  exists k; do ![split]; rewrite //=; try lia.
  apply: elimf_zero => //.
  by apply: swapf_zero => //; lia.
subst p'; left.
have Hz1 i j : (j < k)%N -> (j < i < n)%N -> g1 i j = 0.
  move=> Hj Hi; rewrite /g1 /swapf; case: eqP => [?|_]; [|case: eqP => [?|_]]; apply: Hz => //; lia.
split; first by rewrite /= Nat.add_1_r.
split.
  move=> i j Hj Hi; rewrite /elimf.
  case: (ltngtP j k) => [Hjr|?|Ejr]; last 2 first.
  - by exfalso; lia.
  - subst j; have Hlt : (k < i)%N by lia.
    rewrite Hlt gtn_eqF //= ?leqnn.
    have NZ : g1 k k != 0 by case/orP: Hp' => // /eqP En; lia.
    by rewrite mulfK // subrr.
  by rewrite !andbF Hz1.
have -> : detf n (elimf g1 k k) = detf n g1.
  case/orP: Hp' => [/eqP En|NZ].
    apply: detf_ext => i j Hi _; rewrite /elimf; case: ifP => // /and3P [Hpi _ _]; lia.
  by rewrite detf_elim // => j Hj; apply: Hz1 => //; rewrite Hj.
rewrite /c1; case: eqP => [Ei|/eqP Hne].
  rewrite -Hd; apply: detf_ext => i j _ _; rewrite /g1 /swapf Ei; by case: eqP => [->|].
by rewrite /g1 -/(swapf g i' k) detf_swap // Hd mulNr.
Qed.
Lemma iv_det n M (f : nat -> nat -> F) : RM M (mk n n f) -> okref rel (det I n M) (det K n (mk n n f)).
Proof.
move=> HM d E; exists (detf n f); first exact: det_mk.
have small : (0 < n)%coq_nat /\ (n <= 3)%coq_nat -> mem d (detf n f).
  move=> Hn; have := @det_small_ref I K rel rel (fun _ _ => id) (fun _ _ => id) iv_add iv_mul iv_sub n M (mk n n f) Hn HM.
  by rewrite E det_mk => -[b [[<-]]].
case: n f HM E small => [|[|[|[|n]]]] f HM E small; try by apply: small; lia.
  exact: iv_det_general E.
exact: iv_det_general E.
Qed.

Lemma iv_inv_ok n M (f : nat -> nat -> F) : (0 < n)%N -> RM M (mk n n f) -> okref RM (inv I n M) (inv K n (mk n n f)).
Proof.
move=> Hn HM; have HD := iv_det HM.
have HG : okref RM (inv_general I n M) (inv_general K n (mk n n f)).
  apply: (@inv_general_ok I K rel rel) => //.
  - exact: iv_lit.
  - exact: iv_mul.
  - exact: iv_div.
  - exact: iv_nz.
  move=> i j N N' /ltP Hi /ltP Hj; rewrite getminor_mk // => -[<-] HN.
  exact: iv_det.
case: n f Hn HM HD HG => [|[|[|[|n]]]] f Hn HM HD HG //.
- by apply: (@inv1_ok I K rel rel) => //; [exact: iv_lit|exact: iv_div].
- by apply: (@inv2_ok I K rel rel) => //; [exact: iv_lit|exact: iv_div|exact: iv_nz|exact: iv_neg].
by apply: (@inv3_ok I K rel rel) => //; [exact: iv_lit|exact: iv_sub|exact: iv_mul|exact: iv_div|exact: iv_nz].
Qed.
End Exact.
