(** * lu and chol over a local ring, and over dual numbers *)

From Coq Require Import ZArith List Lia.
From mathcomp Require Import all_ssreflect all_algebra all_fingroup.
From mathcomp Require Import zify.
From Verif Require Import Base Scalar Model Spec Loops Struct Elim Alg Exact ExactLemmas Det Inv Param LU Dual.

Set Implicit Arguments.
Unset Strict Implicit.
Unset Printing Implicit Defensive.

Import GRing.Theory.
Local Open Scope ring_scope.
Delimit Scope Z_scope with Z.

(** ** lu *)
Section Dot.
Variable R : comUnitRingType.
Implicit Types f l u : nat -> nat -> R.

(** partial dot product of row i of l and column j of u *)
Definition ldot l u i j m : R := \sum_(p < m) l i p * u p j.

Lemma ldotS l u i j m : ldot l u i j m.+1 = ldot l u i j m + l i m * u m j.
Proof. by rewrite /ldot big_ord_recr. Qed.

Lemma ldot_ext l u l' u' i j m :
  (forall p, (p < m)%N -> l i p * u p j = l' i p * u' p j) ->
  ldot l u i j m = ldot l' u' i j m.
Proof. by move=> H; apply: eq_bigr => p _; apply: H. Qed.

Lemma ldot_stable l u i j m m' : (m <= m')%N ->
  (forall p, (m <= p < m')%N -> l i p * u p j = 0) -> ldot l u i j m' = ldot l u i j m.
Proof.
elim: m' => [|k IH]; first by rewrite leqn0 => /eqP ->.
rewrite leq_eqVlt => /orP[/eqP -> //|Hm] H.
rewrite ldotS IH //; last by move=> p Hp; apply: H; lia.
by rewrite H ?addr0 //; lia.
Qed.

(** l is unit lower triangular, u upper triangular, l u = f on columns below j *)
Definition llu_shape n l u :=
  (forall i, (i < n)%N -> l i i = 1) /\
  (forall i k, (i < k < n)%N -> l i k = 0) /\
  (forall i k, (k < i < n)%N -> u i k = 0).

End Dot.

Section LU.
Variables (R : comUnitRingType) (lt : R -> R -> bool) (ab : R -> R) (sq : R -> outcome R).
Notation K := (locS lt ab sq).
Implicit Types f l u : nat -> nat -> R.

Lemma llu_sum_mk n l u i j : (i < n)%N -> (j < n)%N ->
  for_ 0 i (fun p (sum : elt K) =>
      let* x := aget (mk n n u) p j in
      let* y := aget (mk n n l) i p in
      let* t := xmul (s := K) (ld (s := K) x) (ld (s := K) y) in
      let* v := xadd (s := K) (ld (s := K) sum) t in
      Ok (st (s := K) v)) (lite K 0) = Ok (ldot l u i j i).
Proof.
move=> Hi Hj; rewrite (@for_sum0 R i (fun p => l i p * u p j)) // => p c Hp.
rewrite !aget_mk; try (apply/ltP; lia).
by rewrite /= mulrC.
Qed.

(** after column j *)
Definition llu_inv n f (j : nat) (s : matrix R * matrix R) : Prop :=
  exists l u, s = (mk n n l, mk n n u) /\ llu_shape n l u /\
  (forall i k, (j <= k < n)%N -> (i < n)%N -> l i k = (i == k)%:R /\ u i k = 0) /\
  (forall p, (p < j)%N -> u p p \is a GRing.unit) /\
  (forall i k, (i < n)%N -> (k < j)%N -> ldot l u i k n = f i k).

(** inside column j, after rows < i of U *)
Definition llu_inv_U n f l u (j i : nat) (s : matrix R) : Prop :=
  exists u', s = mk n n u' /\
  (forall a b, b != j -> u' a b = u a b) /\
  (forall a, (i <= a < n)%N -> u' a j = 0) /\
  (forall a, (a < i)%N -> ldot l u' a j a.+1 = f a j).

Definition llu_inv_L n f l u (j i : nat) (s : matrix R) : Prop :=
  exists l', s = mk n n l' /\
  (forall a b, b != j -> l' a b = l a b) /\
  (forall a, (a < n)%N -> (a < j)%N || (i <= a)%N -> l' a j = l a j) /\
  ((j < n)%N -> l' j j = 1) /\
  (forall a, (j <= a < i)%N -> ldot l' u a j j.+1 = f a j).

Lemma llu_spec n f :
  (exists l u, lu K n (mk n n f) = Ok (mk n n l, mk n n u) /\ llu_shape n l u /\
     (forall p, (p < n)%N -> u p p \is a GRing.unit) /\
     (forall i k, (i < n)%N -> (k < n)%N -> ldot l u i k n = f i k)) \/
  lu K n (mk n n f) = Throw OverflowError.
Proof.
rewrite /lu eye1_mk zeros_mk [bind _ _]/=.
set body := (fun (j : nat) (LU : matrix R * matrix R) => _).
have := @for_inv_or _ (llu_inv n f) (Throw OverflowError) True 0 n body
  (mk n n (fun i j => if Nat.eqb i j then lite K 1 else lite K 0), mk n n (fun _ _ => lite K 0)).
case=> //.
- exists (fun i j => (i == j)%:R), (fun _ _ => 0); split.
    congr (_, _); apply: mk_ext => i j _ _; rewrite eqbE; by case: eqP.
  split; last by do ![split].
  split; first by move=> i; rewrite eqxx.
  by split=> // i k Hik; rewrite ltn_eqF //; lia.
- move=> j s /andP[_ Hj] [l [u [-> [[H1 [Hl Hu]] [Hz [Hnz Hprod]]]]]].
  rewrite /body Nat.add_1_r.
  (* column j of U *)
  have [|||U [-> HU]] := @for_inv _ (llu_inv_U n f l u j) 0 j.+1 (fun (i : nat) (U : matrix R) =>
      let* sum := for_ 0 i (fun p (sum : elt K) =>
        let* x := aget U p j in
        let* y := aget (mk n n l) i p in
        let* t := xmul (s := K) (ld (s := K) x) (ld (s := K) y) in
        let* v := xadd (s := K) (ld (s := K) sum) t in
        Ok (st (s := K) v)) (lite K 0) in
      let* a := aget (mk n n f) i j in
      let* v := xsub (s := K) (ld (s := K) a) (ld (s := K) sum) in
      aset U i j (st (s := K) v)) (mk n n u).
  + exact/leP.
  + exists u; split=> //; split=> //; split=> // a Ha.
    by rewrite (proj2 (Hz a j _ _)) //; lia.
  + move=> i s0 [_ /ltP Hi] [u' [-> [Hoff [H0 Hd]]]].
    have Hin : (i < n)%N by lia.
    rewrite llu_sum_mk // [bind _ _]/= aget_mk; try exact/ltP.
    rewrite [bind _ _]/= aset_mk; try exact/ltP.
    eexists; split; first reflexivity.
    eexists; split; first reflexivity.
    set u2 := (fun a b : nat => _).
    have Eo a b : (a != i) || (b != j) -> u2 a b = u' a b.
      by rewrite /u2 !eqbE; case: eqP => //= _; case: eqP.
    have Ei : u2 i j = f i j - ldot l u' i j i by rewrite /u2 !eqbE !eqxx.
    split; first by move=> a b Hb; rewrite Eo ?Hb ?orbT // Hoff.
    split; first by move=> a Ha; rewrite Eo ?H0 //; lia.
    move=> a; rewrite ltnS leq_eqVlt => /orP[/eqP ->|Hai]; last first.
      by rewrite -Hd //; apply: ldot_ext => p Hp; rewrite Eo //; apply/orP; left; lia.
    rewrite ldotS Ei H1 // mul1r (@ldot_ext _ l u2 l u'); last first.
      by move=> p Hp; rewrite Eo //; apply/orP; left; lia.
    by rewrite addrC subrK.
  case: HU => u' [-> [Hoff [H0 Hd]]].
  rewrite [bind (Ok _) _]/=.
  have Hsh : llu_shape n l u'.
    do ![split]=> // i k Hik; case: (k =P j) => [?|/eqP Hk]; last by rewrite Hoff // Hu.
    by subst k; apply: H0; lia.
  have Hprod' i k : (i < n)%N -> (k < j)%N -> ldot l u' i k n = f i k.
    move=> Hi Hk; rewrite -Hprod //; apply: ldot_ext => p _; rewrite Hoff //; lia.
  have Hcolj i : (i <= j)%N -> ldot l u' i j n = f i j.
    move=> Hi; rewrite -Hd //; apply: ldot_stable; first by lia.
    by move=> p Hp; rewrite Hl ?mul0r //; lia.
  case Ez : (u' j j \isn't a GRing.unit).
    right; split=> //.
    rewrite for_first; last exact/ltP.
    rewrite llu_sum_mk // [bind _ _]/= aget_mk; try exact/ltP.
    by rewrite [bind _ _]/= /= subr0 Ez.
  have Uj : u' j j \is a GRing.unit by rewrite -[X in is_true X]negbK Ez.
  left.
  have [|||L [-> HL]] := @for_inv _ (llu_inv_L n f l u' j) j n (fun (i : nat) (L : matrix R) =>
      let* sum := for_ 0 i (fun p (sum : elt K) =>
        let* x := aget (mk n n u') p j in
        let* y := aget L i p in
        let* t := xmul (s := K) (ld (s := K) x) (ld (s := K) y) in
        let* v := xadd (s := K) (ld (s := K) sum) t in
        Ok (st (s := K) v)) (lite K 0) in
      let* ujj := aget (mk n n u') j j in
      if xeq (s := K) (ld (s := K) ujj) (lit (s := K) 0) then Throw OverflowError
      else
        let* a := aget (mk n n f) i j in
        let* v := xsub (s := K) (ld (s := K) a) (ld (s := K) sum) in
        let* q := xdiv (s := K) v (ld (s := K) ujj) in
        aset L i j (st (s := K) q)) (mk n n l).
  + apply/leP; exact: ltnW.
  + exists l; do ![split]=> //; first by move=> _; apply: H1.
    by move=> a Ha; exfalso; lia.
  + move=> i s0 [/leP Hji /ltP Hi] [l' [-> [Hoff' [Hrow [H1' Hd']]]]].
    rewrite llu_sum_mk // [bind _ _]/= aget_mk; try exact/ltP.
    rewrite [bind _ _]/= subr0 Ez aget_mk; try exact/ltP.
    rewrite [bind _ _]/= loc_divE // [bind _ _]/= aset_mk; try exact/ltP.
    eexists; split; first reflexivity.
    eexists; split; first reflexivity.
    set l2 := (fun a b : nat => _).
    have Eo a b : (a != i) || (b != j) -> l2 a b = l' a b.
      by rewrite /l2 !eqbE; case: eqP => //= _; case: eqP.
    have Esum : ldot l' u' i j i = ldot l u' i j j.
      transitivity (ldot l u' i j i).
        apply: ldot_ext => p Hp; case: (p =P j) => [->|/eqP Hpj]; last by rewrite Hoff'.
        by rewrite Hrow // leqnn orbT.
      apply: ldot_stable => // p Hp.
      rewrite (proj1 (Hz i p _ _)) //; last by lia.
      by rewrite gtn_eqF ?mul0r //; lia.
    have Ei : l2 i j = (f i j - ldot l u' i j j) / u' j j.
      by rewrite /l2 !eqbE !eqxx /= -Esum.
    have Enew : ldot l2 u' i j j.+1 = f i j.
      rewrite ldotS Ei divrK // (@ldot_ext _ l2 u' l u'); first by rewrite addrC subrK.
      move=> p Hp; rewrite Eo ?Hoff' //; first by lia.
      by apply/orP; right; lia.
    split; first by move=> a b Hb; rewrite Eo ?Hb ?orbT // Hoff'.
    split.
      move=> a Ha Hc; rewrite Eo; first by apply: Hrow => //; lia.
      by apply/orP; left; lia.
    split.
      move=> _; case: (i =P j) => [?|/eqP Hij]; last by rewrite Eo ?H1' // eq_sym Hij.
      subst i; rewrite Ei; have := Hd j (leqnn _); rewrite ldotS H1 // mul1r => <-.
      by rewrite addrC addKr divrr.
    move=> a Ha; case: (a =P i) => [->|/eqP Hai] //.
    rewrite -Hd' //; last by lia.
    by apply: ldot_ext => p Hp; rewrite Eo // Hai.
  case: HL => l' [-> [Hoff' [Hrow [H1' Hd']]]].
  rewrite [bind (Ok _) _]/=; eexists; split; first reflexivity.
  exists l', u'; split=> //.
  have Hsh' : llu_shape n l' u'.
    split; last split.
    - move=> i Hi; case: (i =P j) => [->|/eqP Hij]; first exact: H1'.
      by rewrite Hoff' // H1.
    - move=> i k Hik; case: (k =P j) => [?|/eqP Hk]; last by rewrite Hoff' // Hl.
      by subst k; rewrite Hrow ?Hl //; [lia|apply/orP; left; lia].
    - by case: Hsh => _ [].
  split=> //; split.
    move=> i k Hk Hi; rewrite Hoff' ?Hoff; try lia.
    by apply: Hz => //; lia.
  split.
    move=> p; rewrite ltnS leq_eqVlt => /orP[/eqP ->|Hp]; first exact: Uj.
    by rewrite Hoff ?Hnz //; lia.
  have Esame i k : (i < n)%N -> (k < j)%N -> ldot l' u' i k n = ldot l u' i k n.
    move=> Hi Hk; apply: ldot_ext => p Hp; case: (p =P j) => [->|/eqP Hpj].
      by have [_ [_ ->]] := Hsh; rewrite ?mulr0 //; lia.
    by rewrite Hoff'.
  move=> i k Hi; rewrite ltnS leq_eqVlt => /orP[/eqP ->|Hk].
    case: (ltnP i j) => Hij.
      rewrite -(Hcolj i (ltnW Hij)); apply: ldot_ext => p Hp.
      case: (p =P j) => [->|/eqP Hpj]; last by rewrite Hoff'.
      by rewrite Hrow // Hij.
    rewrite -Hd'; last by rewrite Hij.
    apply: ldot_stable => // p Hp.
    by have [_ [_ ->]] := Hsh'; rewrite ?mulr0 //; lia.
  by rewrite Esame // Hprod'.
- move=> [s [-> [l [u [-> [Hsh [_ [Hnz Hprod]]]]]]]].
  by left; exists l, u.
by move=> [-> _]; right.
Qed.

End LU.

(** ** chol *)
Section Chol.
Variables (R : comUnitRingType) (lt : R -> R -> bool) (ab : R -> R) (sq : R -> outcome R).
Notation K := (locS lt ab sq).
Implicit Types f l : nat -> nat -> R.

Definition kdot l a b m : R := \sum_(p < m) l a p * l b p.

Lemma kdotS l a b m : kdot l a b m.+1 = kdot l a b m + l a m * l b m.
Proof. by rewrite /kdot big_ord_recr. Qed.
Lemma kdot_ext l l' a b m :
  (forall p, (p < m)%N -> l a p = l' a p /\ l b p = l' b p) -> kdot l a b m = kdot l' a b m.
Proof. by move=> H; apply: eq_bigr => p _; have [-> ->] := H p (ltn_ord p). Qed.
Lemma kdot_stable l a b m m' : (m <= m')%N ->
  (forall p, (m <= p < m')%N -> l a p * l b p = 0) -> kdot l a b m' = kdot l a b m.
Proof.
elim: m' => [|m' IH] Hm H; first by move: Hm; rewrite leqn0 => /eqP ->.
move: Hm; rewrite leq_eqVlt => /orP[/eqP -> //|]; rewrite ltnS => Hm.
by rewrite kdotS IH // ?H ?addr0 // => [|p Hp]; [lia|apply: H; lia].
Qed.

Definition kchol_body n f (i j : nat) (L : matrix R) : outcome (matrix R) :=
      if Nat.eqb j i then
        let* sum := for_ 0 i (fun k (sum : elt K) =>
          let* x := aget L i k in
          let* t := xmul (s := K) (ld (s := K) x) (ld (s := K) x) in
          let* v := xadd (s := K) (ld (s := K) sum) t in
          Ok (st (s := K) v)) (lite K 0) in
        let* a := aget (mk n n f) i i in
        let* v := xsub (s := K) (ld (s := K) a) (ld (s := K) sum) in
        let* r := xsqrt (s := K) v in
        aset L i i r
      else
        let* sum := for_ 0 i (fun k (sum : elt K) =>
          let* x := aget L i k in
          let* y := aget L j k in
          let* t := xmul (s := K) (ld (s := K) x) (ld (s := K) y) in
          let* v := xadd (s := K) (ld (s := K) sum) t in
          Ok (st (s := K) v)) (lite K 0) in
        let* a := aget (mk n n f) i j in
        let* v := xsub (s := K) (ld (s := K) a) (ld (s := K) sum) in
        let* ljj := aget L j j in
        let* q := xdiv (s := K) v (ld (s := K) ljj) in
        aset L i j (st (s := K) q).

Lemma kchol_unfold n f : chol K n (mk n n f) =
  for_ 0 n (fun i L => for_ 0 (Nat.add i 1) (kchol_body n f i) L) (init n n (lite K 0)).
Proof. by []. Qed.

Definition kput l i j (x : R) (a b : nat) : R := if (a == i) && (b == j) then x else l a b.
Lemma kput_same l i j x : kput l i j x i j = x.
Proof. by rewrite /kput !eqxx. Qed.
Lemma kput_other l i j x a b : (a != i) || (b != j) -> kput l i j x a b = l a b.
Proof. by rewrite /kput; case: eqP => //= _; case: eqP. Qed.
Lemma kaset_put n l i j x : (i < n)%N -> (j < n)%N -> aset (mk n n l) i j x = Ok (mk n n (kput l i j x)).
Proof. by move=> Hi Hj; rewrite aset_mk //; exact/ltP. Qed.

Definition seen i j a b := (a < i)%N || ((a == i) && (b < j)%N).

(** rows before i and the first j elements of row i are done *)
Definition kinv n f (i j : nat) (X : matrix R) : Prop :=
  exists l, X = mk n n l /\
  (forall a b, (a < b)%N || ~~ seen i j a b -> l a b = 0) /\
  (forall a b, (b <= a < n)%N -> seen i j a b -> kdot l a b b.+1 = f a b) /\
  (forall b, seen i j b b -> l b b \is a GRing.unit).

Lemma kbody_diag n f l i : (i < n)%N ->
  kchol_body n f i i (mk n n l) = (let* r := sq (f i i - kdot l i i i) in Ok (mk n n (kput l i i r))).
Proof.
move=> Hi; rewrite /kchol_body eqbE eqxx.
rewrite (@for_sum0 _ i (fun k => l i k * l i k)); last first.
  by move=> k c Hk; rewrite aget_mk //; apply/ltP; lia.
rewrite [bind _ _]/= aget_mk; try exact/ltP.
by rewrite [bind _ _]/=; case: sq => //= r; rewrite kaset_put.
Qed.

Lemma kbody_off n f l i j : (j < i < n)%N -> (forall b, (j <= b)%N -> l i b = 0) -> l j j \is a GRing.unit ->
  kchol_body n f i j (mk n n l) = Ok (mk n n (kput l i j ((f i j - kdot l i j j) / l j j))).
Proof.
move=> /andP[Hji Hi] Hz Hu; rewrite /kchol_body eqbE (ltn_eqF Hji).
rewrite (@for_sum0 _ i (fun k => l i k * l j k)); last first.
  by move=> k c Hk; rewrite !aget_mk //; apply/ltP; lia.
rewrite [bind _ _]/= aget_mk; try (apply/ltP; lia).
rewrite [bind _ _]/= aget_mk; try (apply/ltP; lia).
rewrite [bind _ _]/=.
have -> : \sum_(k < i) l i k * l j k = kdot l i j j.
  rewrite -/(kdot l i j i); apply: kdot_stable; first exact: ltnW.
  by move=> p Hp; rewrite Hz ?mul0r //; lia.
by rewrite loc_divE //= kaset_put //; lia.
Qed.

Lemma kinv_step n f i j l x : (j <= i < n)%N ->
  (forall a b, (a < b)%N || ~~ seen i j a b -> l a b = 0) ->
  (forall a b, (b <= a < n)%N -> seen i j a b -> kdot l a b b.+1 = f a b) ->
  (forall b, seen i j b b -> l b b \is a GRing.unit) ->
  (if i == j then x * x = f i i - kdot l i i i /\ x \is a GRing.unit
   else x * l j j = f i j - kdot l i j j) ->
  kinv n f i j.+1 (mk n n (kput l i j x)).
Proof.
move=> /andP[Hji Hi] Hz Hd Hp Hx; exists (kput l i j x); split=> //.
have En a b : seen i j.+1 a b -> seen i j a b \/ (a = i /\ b = j).
  move=> H; case: (boolP (seen i j a b)) => Hb; [by left|right]; move: H Hb; rewrite /seen; lia.
split.
  move=> a b H; rewrite kput_other; last first.
    by case: (a =P i) H => [->|//]; case: (b =P j) => [->|//]; rewrite /seen eqxx ltnS leqnn orbT orbF; lia.
  apply: Hz; case/orP: H => [->//|H]; apply/orP; right; move: H; rewrite /seen; lia.
have Eb a b m : (m <= b.+1)%N -> (b <= a)%N -> seen i j a b -> kdot (kput l i j x) a b m = kdot l a b m.
  move=> Hm Hba Hb; apply: kdot_ext => p Hpm; rewrite !kput_other //; move: Hb; rewrite /seen; lia.
split.
  move=> a b Hba /En [Hb|[-> ->]].
    by rewrite Eb ?Hd //; case/andP: Hba.
  rewrite kdotS.
  have -> : kdot (kput l i j x) i j j = kdot l i j j.
    apply: kdot_ext => p Hpj; rewrite !kput_other //; lia.
  rewrite kput_same; case: (i =P j) Hx => [<-|/eqP Hij] Hx.
    by rewrite kput_same (proj1 Hx) addrC subrK.
  by rewrite kput_other ?Hx ?[_ + (_ - _)]addrC ?subrK // eq_sym Hij.
move=> b /En [Hb|[-> Eij]].
  by rewrite kput_other; [exact: Hp|move: Hb; rewrite /seen; lia].
by move: Hx; rewrite -Eij kput_same eqxx => -[].
Qed.

Lemma kinv_row n f i X : kinv n f i i.+1 X -> kinv n f i.+1 0 X.
Proof.
have E a b : (b <= a)%N -> seen i i.+1 a b = seen i.+1 0 a b by rewrite /seen; lia.
move=> [l [-> [Hz [Hd Hp]]]]; exists l; split=> //.
split; first by move=> a b H; apply: Hz; case: (ltnP a b) H => //= H; rewrite E.
split; first by move=> a b Hba Hb; apply: Hd => //; rewrite E //; case/andP: Hba.
by move=> b Hb; apply: Hp; rewrite E.
Qed.

Lemma kinv0 n f : kinv n f 0 0 (init n n (lite K 0)).
Proof.
rewrite init_mk; exists (fun _ _ => 0); split=> //; split=> //.
by split=> [a b _|b]; rewrite /seen !ltn0 andbF.
Qed.

Hypothesis sqP : forall z r, sq z = Ok r -> r * r = z /\ r \is a GRing.unit.

Lemma kchol_partial n f L : chol K n (mk n n f) = Ok L -> kinv n f n 0 L.
Proof.
rewrite kchol_unfold; apply: (@for_partial _ (fun i => kinv n f i 0)).
- exact/leP.
- exact: kinv0.
move=> i X X' [_ /ltP Hi] HX E; apply: kinv_row; rewrite Nat.add_1_r in E.
move: E; apply: (@for_partial _ (kinv n f i)) => //; first exact/leP.
move=> j {X X' HX} X X' [_ /ltP Hj] [l [-> [Hz [Hd Hp]]]].
case: (i =P j) => [Eij|/eqP Hij].
  rewrite -Eij in Hz Hd Hp *; rewrite kbody_diag //; case Er: (sq _) => [r| | | |] //= -[<-].
  by apply: kinv_step; rewrite ?leqnn ?eqxx //; apply: sqP.
have Hji : (j < i)%N by lia.
have Hu : l j j \is a GRing.unit by apply: Hp; rewrite /seen; lia.
rewrite kbody_off ?Hji // => [[<-]|b Hb]; last by apply: Hz; rewrite /seen; lia.
apply: kinv_step => //; first by rewrite (ltnW Hji).
by rewrite (negbTE Hij) divrK.
Qed.

(** the square roots exist while the rows before are as the invariant says *)
Lemma kchol_total n f :
  (forall i l, (i < n)%N -> (forall a b, (a < b)%N || ~~ seen i i a b -> l a b = 0) ->
     (forall a b, (b <= a < n)%N -> seen i i a b -> kdot l a b b.+1 = f a b) ->
     exists r, sq (f i i - kdot l i i i) = Ok r) ->
  exists L, chol K n (mk n n f) = Ok L /\ kinv n f n 0 L.
Proof.
move=> HS; rewrite kchol_unfold; apply: (@for_inv _ (fun i => kinv n f i 0)).
- exact/leP.
- exact: kinv0.
move=> i s [_ /ltP Hi] Hs; rewrite Nat.add_1_r.
have [||L [-> HL]] := @for_inv _ (kinv n f i) 0 i.+1 (kchol_body n f i) s _ Hs.
- exact/leP.
- move=> j {s Hs} s [_ /ltP Hj] [l [-> [Hz [Hd Hp]]]].
  case: (i =P j) => [Eij|/eqP Hij].
    rewrite -Eij in Hz Hd Hp *; rewrite kbody_diag //; have [r Er] := HS i l Hi Hz Hd; rewrite Er [bind _ _]/=.
    eexists; split; first reflexivity.
    by apply: kinv_step; rewrite ?leqnn ?eqxx //; apply: sqP.
  have Hji : (j < i)%N by lia.
  have Hu : l j j \is a GRing.unit by apply: Hp; rewrite /seen; lia.
  rewrite kbody_off ?Hji // => [|b Hb]; last by apply: Hz; rewrite /seen; lia.
  eexists; split; first reflexivity.
  apply: kinv_step => //; first by rewrite (ltnW Hji).
  by rewrite (negbTE Hij) divrK.
by exists L; split=> //; apply: kinv_row.
Qed.

Lemma kchol_prod n f (l : nat -> nat -> R) :
  (forall a b, (a < b)%N || ~~ seen n 0 a b -> l a b = 0) ->
  (forall a b, (b <= a < n)%N -> seen n 0 a b -> kdot l a b b.+1 = f a b) ->
  let L : 'M[R]_n := \matrix_(i, j) l i j in
  (forall i j : 'I_n, (i < j)%N -> L i j = 0) /\
  forall i j : 'I_n, (j <= i)%N -> (L *m L^T) i j = f i j /\ (L *m L^T) j i = f i j.
Proof.
move=> Hz Hd L; split; first by move=> i j Hij; rewrite mxE Hz // Hij.
have Hsym (i j : 'I_n) : (L *m L^T) i j = (L *m L^T) j i.
  by rewrite !mxE; apply: eq_bigr => k _; rewrite !mxE mulrC.
move=> i j Hji; suff E : (L *m L^T) i j = f i j by split=> //; rewrite -Hsym.
rewrite -Hd ?Hji ?ltn_ord //; last by rewrite /seen ltn_ord.
rewrite mxE; transitivity (kdot l i j n).
  by apply: eq_bigr => k _; rewrite !mxE.
apply: kdot_stable => // p Hp; rewrite (Hz j p) ?mulr0 //; lia.
Qed.
End Chol.
