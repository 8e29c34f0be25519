(** * lu: the factorisation, when it throws, uniqueness *)

From Coq Require Import ZArith List Lia.
From mathcomp Require Import all_ssreflect all_algebra all_fingroup.
From mathcomp Require Import zify.
From Verif Require Import Base Scalar Model Spec Loops Struct Elim Alg Exact ExactLemmas Det.

Set Implicit Arguments.
Unset Strict Implicit.
Unset Printing Implicit Defensive.

Import GRing.Theory.
Local Open Scope ring_scope.

(** invariant rule for a loop that may stop with the failure [bad] *)
Lemma for_inv_or {St} (P : nat -> St -> Prop) (bad : outcome St) (Q : Prop) lo hi
  (body : nat -> St -> outcome St) s :
  (forall k : St -> outcome St, bind bad k = bad) ->
  (lo <= hi)%N -> P lo s ->
  (forall k s, (lo <= k < hi)%N -> P k s ->
    (exists s', body k s = Ok s' /\ P k.+1 s') \/ (body k s = bad /\ Q)) ->
  (exists s', for_ lo hi body s = Ok s' /\ P hi s') \/ (for_ lo hi body s = bad /\ Q).
Proof.
move=> Hb Hle H0 H; elim: hi Hle H => [|hi IH] Hle H.
  left; exists s; rewrite for_empty; last exact: Nat.le_0_l.
  by split=> //; move: Hle H0; rewrite leqn0 => /eqP <-.
case: (ltngtP lo hi.+1) Hle => // [Hlt|<-] _; last by left; exists s; rewrite for_empty.
rewrite for_snoc; last exact/leP.
case: IH => [||[s' [E Hs]]|[E HQ]] //.
- by move=> k s' Hk; apply: H; lia.
- by rewrite E /=; apply: H => //; lia.
by right; rewrite E Hb.
Qed.

Section LUF.
Variable F : fieldType.
Implicit Types f l u : nat -> nat -> F.

(** partial dot product of row i of l and column j of u *)
Definition pdot l u i j m : F := \sum_(p < m) l i p * u p j.

Lemma pdotS l u i j m : pdot l u i j m.+1 = pdot l u i j m + l i m * u m j.
Proof. by rewrite /pdot big_ord_recr. Qed.

Lemma pdot_ext l u l' u' i j m :
  (forall p, (p < m)%N -> l i p * u p j = l' i p * u' p j) ->
  pdot l u i j m = pdot l' u' i j m.
Proof. by move=> H; apply: eq_bigr => p _; apply: H. Qed.

Lemma pdot_stable l u i j m m' : (m <= m')%N ->
  (forall p, (m <= p < m')%N -> l i p * u p j = 0) -> pdot l u i j m' = pdot l u i j m.
Proof.
elim: m' => [|k IH]; first by rewrite leqn0 => /eqP ->.
rewrite leq_eqVlt => /orP[/eqP -> //|Hm] H.
rewrite pdotS IH //; last by move=> p Hp; apply: H; lia.
by rewrite H ?addr0 //; lia.
Qed.

(** l is unit lower triangular, u upper triangular, l u = f on columns below j *)
Definition lu_shape n l u :=
  (forall i, (i < n)%N -> l i i = 1) /\
  (forall i k, (i < k < n)%N -> l i k = 0) /\
  (forall i k, (k < i < n)%N -> u i k = 0).

Lemma lead_minor_prod n f l u m : (m <= n)%N -> lu_shape n l u ->
  (forall i k, (i < m)%N -> (k < m)%N -> pdot l u i k n = f i k) ->
  detf m f = \prod_(p < m) u p p.
Proof.
move=> Hm [H1 [Hl Hu]] H.
have -> : detf m f = \det ((\matrix_(i < m, j < m) l i j) *m (\matrix_(i < m, j < m) u i j)).
  congr (\det _); apply/matrixP => i j; rewrite !mxE -H //.
  rewrite (@pdot_stable _ _ _ _ m) //; last first.
    move=> p Hp; rewrite Hl ?mul0r //; have := ltn_ord i; lia.
  by apply: eq_bigr => p _; rewrite !mxE.
rewrite det_mulmx det_trig; last first.
  by apply/is_trig_mxP => i j Hij; rewrite mxE Hl // Hij (leq_trans (ltn_ord j)).
rewrite big1 ?mul1r; last by move=> i _; rewrite mxE H1 // (leq_trans (ltn_ord i)).
apply: detf_upper => i j Hij; apply: Hu; lia.
Qed.

Lemma lu_unique n f l u l' u' :
  lu_shape n l u -> lu_shape n l' u' ->
  (forall p, (p < n)%N -> u p p != 0) ->
  (forall i k, (i < n)%N -> (k < n)%N -> pdot l u i k n = f i k) ->
  (forall i k, (i < n)%N -> (k < n)%N -> pdot l' u' i k n = f i k) ->
  forall k i, (k < n)%N -> (i < n)%N -> l i k = l' i k /\ u k i = u' k i.
Proof.
move=> [H1 [Hl Hu]] [H1' [Hl' Hu']] Hnz H H'.
elim/ltn_ind => k IH.
have EU i : (k < n)%N -> (i < n)%N -> u k i = u' k i.
  move=> Hk Hi.
  have := H k i Hk Hi; rewrite -(H' k i Hk Hi).
  rewrite !(@pdot_stable _ _ k i k.+1 n) //; last 2 first.
  - by move=> p Hp; rewrite Hl' ?mul0r //; lia.
  - by move=> p Hp; rewrite Hl ?mul0r //; lia.
  rewrite !pdotS H1 // H1' // !mul1r.
  rewrite (@pdot_ext l u l' u') => [/addrI //|p Hp].
  by have [-> _] := IH p Hp k (ltn_trans Hp Hk) Hk; have [_ ->] := IH p Hp i (ltn_trans Hp Hk) Hi.
move=> i Hk Hi; split; last exact: EU.
case: (ltngtP i k) => [Hik|Hik|->]; last by rewrite H1 // H1'.
  by rewrite Hl ?Hl' // Hik Hk.
have := H i k Hi Hk; rewrite -(H' i k Hi Hk).
rewrite !(@pdot_stable _ _ i k k.+1 n) //; last 2 first.
- by move=> p Hp; rewrite Hu' ?mulr0 //; lia.
- by move=> p Hp; rewrite Hu ?mulr0 //; lia.
rewrite !pdotS (@pdot_ext l u l' u') => [/addrI|p Hp]; last first.
  by have [-> _] := IH p Hp i (ltn_trans Hp Hk) Hi; have [_ ->] := IH p Hp k (ltn_trans Hp Hk) Hk.
by rewrite -EU //; apply: mulIf; exact: Hnz.
Qed.
End LUF.

Section LU.
Variables (F : fieldType) (lt : F -> F -> bool) (ab : F -> F) (sq : F -> outcome F).
Notation K := (exactS lt ab sq).
Implicit Types f l u : nat -> nat -> F.

Lemma lu_sum_mk n l u i j : (i < n)%N -> (j < n)%N ->
  for_ 0 i (fun p (sum : elt K) =>
      let* x := aget (mk n n u) p j in
      let* y := aget (mk n n l) i p in
      let* t := xmul (s := K) (ld (s := K) x) (ld (s := K) y) in
      let* v := xadd (s := K) (ld (s := K) sum) t in
      Ok (st (s := K) v)) (lite K 0) = Ok (pdot l u i j i).
Proof.
move=> Hi Hj; rewrite (@for_sum0 F i (fun p => l i p * u p j)) // => p c Hp.
rewrite !aget_mk; try (apply/ltP; lia).
by rewrite /= mulrC.
Qed.

(** after column j *)
Definition lu_inv n f (j : nat) (s : matrix F * matrix F) : Prop :=
  exists l u, s = (mk n n l, mk n n u) /\ lu_shape n l u /\
  (forall i k, (j <= k < n)%N -> (i < n)%N -> l i k = (i == k)%:R /\ u i k = 0) /\
  (forall p, (p < j)%N -> u p p != 0) /\
  (forall i k, (i < n)%N -> (k < j)%N -> pdot l u i k n = f i k).

(** inside column j, after rows < i of U *)
Definition lu_inv_U n f l u (j i : nat) (s : matrix F) : Prop :=
  exists u', s = mk n n u' /\
  (forall a b, b != j -> u' a b = u a b) /\
  (forall a, (i <= a < n)%N -> u' a j = 0) /\
  (forall a, (a < i)%N -> pdot l u' a j a.+1 = f a j).

Definition lu_inv_L n f l u (j i : nat) (s : matrix F) : Prop :=
  exists l', s = mk n n l' /\
  (forall a b, b != j -> l' a b = l a b) /\
  (forall a, (a < n)%N -> (a < j)%N || (i <= a)%N -> l' a j = l a j) /\
  ((j < n)%N -> l' j j = 1) /\
  (forall a, (j <= a < i)%N -> pdot l' u a j j.+1 = f a j).

Lemma lu_spec n f :
  (exists l u, lu K n (mk n n f) = Ok (mk n n l, mk n n u) /\ lu_shape n l u /\
     (forall p, (p < n)%N -> u p p != 0) /\
     (forall i k, (i < n)%N -> (k < n)%N -> pdot l u i k n = f i k)) \/
  (lu K n (mk n n f) = Throw OverflowError /\
   exists k, (0 < k <= n)%N /\ detf k f = 0).
Proof.
rewrite /lu eye1_mk zeros_mk [bind _ _]/=.
set body := (fun (j : nat) (LU : matrix F * matrix F) => _).
have := @for_inv_or _ (lu_inv n f) (Throw OverflowError)
  (exists k, (0 < k <= n)%N /\ detf k f = 0) 0 n body
  (mk n n (fun i j => if Nat.eqb i j then lite K 1 else lite K 0), mk n n (fun _ _ => lite K 0)).
case=> //.
- exists (fun i j => (i == j)%:R), (fun _ _ => 0); split.
    congr (_, _); apply: mk_ext => i j _ _; rewrite eqbE; by case: eqP.
  split; last by do ![split].
  split; first by move=> i; rewrite eqxx.
  by split=> // i k Hik; rewrite ltn_eqF //; lia.
- move=> j s /andP[_ Hj] [l [u [-> [[H1 [Hl Hu]] [Hz [Hnz Hprod]]]]]].
  rewrite /body Nat.add_1_r.
  (* column j of U *)
  have [|||U [-> HU]] := @for_inv _ (lu_inv_U n f l u j) 0 j.+1 (fun (i : nat) (U : matrix F) =>
      let* sum := for_ 0 i (fun p (sum : elt K) =>
        let* x := aget U p j in
        let* y := aget (mk n n l) i p in
        let* t := xmul (s := K) (ld (s := K) x) (ld (s := K) y) in
        let* v := xadd (s := K) (ld (s := K) sum) t in
        Ok (st (s := K) v)) (lite K 0) in
      let* a := aget (mk n n f) i j in
      let* v := xsub (s := K) (ld (s := K) a) (ld (s := K) sum) in
      aset U i j (st (s := K) v)) (mk n n u).
  + exact/leP.
  + exists u; split=> //; split=> //; split=> // a Ha.
    by rewrite (proj2 (Hz a j _ _)) //; lia.
  + move=> i s0 [_ /ltP Hi] [u' [-> [Hoff [H0 Hd]]]].
    have Hin : (i < n)%N by lia.
    rewrite lu_sum_mk // [bind _ _]/= aget_mk; try exact/ltP.
    rewrite [bind _ _]/= aset_mk; try exact/ltP.
    eexists; split; first reflexivity.
    eexists; split; first reflexivity.
    set u2 := (fun a b : nat => _).
    have Eo a b : (a != i) || (b != j) -> u2 a b = u' a b.
      by rewrite /u2 !eqbE; case: eqP => //= _; case: eqP.
    have Ei : u2 i j = f i j - pdot l u' i j i by rewrite /u2 !eqbE !eqxx.
    split; first by move=> a b Hb; rewrite Eo ?Hb ?orbT // Hoff.
    split; first by move=> a Ha; rewrite Eo ?H0 //; lia.
    move=> a; rewrite ltnS leq_eqVlt => /orP[/eqP ->|Hai]; last first.
      by rewrite -Hd //; apply: pdot_ext => p Hp; rewrite Eo //; apply/orP; left; lia.
    rewrite pdotS Ei H1 // mul1r (@pdot_ext _ l u2 l u'); last first.
      by move=> p Hp; rewrite Eo //; apply/orP; left; lia.
    by rewrite addrC subrK.
  case: HU => u' [-> [Hoff [H0 Hd]]].
  rewrite [bind (Ok _) _]/=.
  have Hsh : lu_shape n l u'.
    do ![split]=> // i k Hik; case: (k =P j) => [?|/eqP Hk]; last by rewrite Hoff // Hu.
    by subst k; apply: H0; lia.
  have Hprod' i k : (i < n)%N -> (k < j)%N -> pdot l u' i k n = f i k.
    move=> Hi Hk; rewrite -Hprod //; apply: pdot_ext => p _; rewrite Hoff //; lia.
  have Hcolj i : (i <= j)%N -> pdot l u' i j n = f i j.
    move=> Hi; rewrite -Hd //; apply: pdot_stable; first by lia.
    by move=> p Hp; rewrite Hl ?mul0r //; lia.
  case Ez : (u' j j == 0).
    right; split.
      rewrite for_first; last exact/ltP.
      rewrite lu_sum_mk // [bind _ _]/= aget_mk; try exact/ltP.
      by rewrite [bind _ _]/= /= Ez.
    exists j.+1; split; first by rewrite Hj.
    rewrite (@lead_minor_prod _ n f l u') //.
      by rewrite big_ord_recr /= (eqP Ez) mulr0.
    move=> i k Hi; rewrite ltnS leq_eqVlt => /orP[/eqP ->|Hk]; first exact: Hcolj.
    by apply: Hprod' => //; lia.
  left.
  have [|||L [-> HL]] := @for_inv _ (lu_inv_L n f l u' j) j n (fun (i : nat) (L : matrix F) =>
      let* sum := for_ 0 i (fun p (sum : elt K) =>
        let* x := aget (mk n n u') p j in
        let* y := aget L i p in
        let* t := xmul (s := K) (ld (s := K) x) (ld (s := K) y) in
        let* v := xadd (s := K) (ld (s := K) sum) t in
        Ok (st (s := K) v)) (lite K 0) in
      let* ujj := aget (mk n n u') j j in
      if xeq (s := K) (ld (s := K) ujj) (lit (s := K) 0) then Throw OverflowError
      else
        let* a := aget (mk n n f) i j in
        let* v := xsub (s := K) (ld (s := K) a) (ld (s := K) sum) in
        let* q := xdiv (s := K) v (ld (s := K) ujj) in
        aset L i j (st (s := K) q)) (mk n n l).
  + apply/leP; exact: ltnW.
  + exists l; do ![split]=> //; first by move=> _; apply: H1.
    by move=> a Ha; exfalso; lia.
  + move=> i s0 [/leP Hji /ltP Hi] [l' [-> [Hoff' [Hrow [H1' Hd']]]]].
    rewrite lu_sum_mk // [bind _ _]/= aget_mk; try exact/ltP.
    rewrite [bind _ _]/= Ez aget_mk; try exact/ltP.
    rewrite [bind _ _]/= exact_divE ?Ez // [bind _ _]/= aset_mk; try exact/ltP.
    eexists; split; first reflexivity.
    eexists; split; first reflexivity.
    set l2 := (fun a b : nat => _).
    have Eo a b : (a != i) || (b != j) -> l2 a b = l' a b.
      by rewrite /l2 !eqbE; case: eqP => //= _; case: eqP.
    have Esum : pdot l' u' i j i = pdot l u' i j j.
      transitivity (pdot l u' i j i).
        apply: pdot_ext => p Hp; case: (p =P j) => [->|/eqP Hpj]; last by rewrite Hoff'.
        by rewrite Hrow // leqnn orbT.
      apply: pdot_stable => // p Hp.
      rewrite (proj1 (Hz i p _ _)) //; last by lia.
      by rewrite gtn_eqF ?mul0r //; lia.
    have Ei : l2 i j = (f i j - pdot l u' i j j) / u' j j.
      by rewrite /l2 !eqbE !eqxx /= -Esum.
    have Enew : pdot l2 u' i j j.+1 = f i j.
      rewrite pdotS Ei divfK ?Ez // (@pdot_ext _ l2 u' l u'); first by rewrite addrC subrK.
      move=> p Hp; rewrite Eo ?Hoff' //; first by lia.
      by apply/orP; right; lia.
    split; first by move=> a b Hb; rewrite Eo ?Hb ?orbT // Hoff'.
    split.
      move=> a Ha Hc; rewrite Eo; first by apply: Hrow => //; lia.
      by apply/orP; left; lia.
    split.
      move=> _; case: (i =P j) => [?|/eqP Hij]; last by rewrite Eo ?H1' // eq_sym Hij.
      subst i; rewrite Ei; have := Hd j (leqnn _); rewrite pdotS H1 // mul1r => <-.
      by rewrite addrC addKr divff // Ez.
    move=> a Ha; case: (a =P i) => [->|/eqP Hai] //.
    rewrite -Hd' //; last by lia.
    by apply: pdot_ext => p Hp; rewrite Eo // Hai.
  case: HL => l' [-> [Hoff' [Hrow [H1' Hd']]]].
  rewrite [bind (Ok _) _]/=; eexists; split; first reflexivity.
  exists l', u'; split=> //.
  have Hsh' : lu_shape n l' u'.
    split; last split.
    - move=> i Hi; case: (i =P j) => [->|/eqP Hij]; first exact: H1'.
      by rewrite Hoff' // H1.
    - move=> i k Hik; case: (k =P j) => [?|/eqP Hk]; last by rewrite Hoff' // Hl.
      by subst k; rewrite Hrow ?Hl //; [lia|apply/orP; left; lia].
    - by case: Hsh => _ [].
  split=> //; split.
    move=> i k Hk Hi; rewrite Hoff' ?Hoff; try lia.
    by apply: Hz => //; lia.
  split.
    move=> p; rewrite ltnS leq_eqVlt => /orP[/eqP ->|Hp]; first by rewrite Ez.
    by rewrite Hoff ?Hnz //; lia.
  have Esame i k : (i < n)%N -> (k < j)%N -> pdot l' u' i k n = pdot l u' i k n.
    move=> Hi Hk; apply: pdot_ext => p Hp; case: (p =P j) => [->|/eqP Hpj].
      by have [_ [_ ->]] := Hsh; rewrite ?mulr0 //; lia.
    by rewrite Hoff'.
  move=> i k Hi; rewrite ltnS leq_eqVlt => /orP[/eqP ->|Hk].
    case: (ltnP i j) => Hij.
      rewrite -(Hcolj i (ltnW Hij)); apply: pdot_ext => p Hp.
      case: (p =P j) => [->|/eqP Hpj]; last by rewrite Hoff'.
      by rewrite Hrow // Hij.
    rewrite -Hd'; last by rewrite Hij.
    apply: pdot_stable => // p Hp.
    by have [_ [_ ->]] := Hsh'; rewrite ?mulr0 //; lia.
  by rewrite Esame // Hprod'.
- move=> [s [-> [l [u [-> [Hsh [_ [Hnz Hprod]]]]]]]].
  by left; exists l, u.
by move=> [-> HQ]; right.
Qed.

Lemma detf_lead n (A : 'M[F]_n) k (Hk : (k <= n)%N) : detf k (mxf 0 A) = lead_minor A Hk.
Proof.
congr (\det _); apply/matrixP => i j; rewrite !mxE.
exact: (mxf_ord 0 A (widen_ord Hk i) (widen_ord Hk j)).
Qed.

Lemma lu_shape_mx n l u : lu_shape n l u <->
  unit_lower (\matrix_(i < n, j < n) l i j) /\ upper (\matrix_(i < n, j < n) u i j).
Proof.
split=> [[H1 [Hl Hu]]|[[H1 Hl] Hu]].
  split; last by move=> i j Hij; rewrite mxE Hu // Hij /=.
  by split=> [i|i j Hij]; rewrite mxE ?H1 ?Hl // Hij /=.
split.
  by move=> i Hi; have := H1 (Ordinal Hi); rewrite mxE.
split=> i k /andP[Hik Hk].
  by have := Hl (Ordinal (ltn_trans Hik Hk)) (Ordinal Hk) Hik; rewrite mxE.
by have := Hu (Ordinal Hk) (Ordinal (ltn_trans Hik Hk)) Hik; rewrite mxE.
Qed.

Lemma pdot_mx n l u (i j : 'I_n) :
  ((\matrix_(i < n, j < n) l i j) *m (\matrix_(i < n, j < n) u i j)) i j = pdot l u i j n.
Proof. by rewrite mxE; apply: eq_bigr => p _; rewrite !mxE. Qed.

Definition lu_good n (A L U : 'M[F]_n) : Prop :=
  [/\ unit_lower L, upper U, forall i, U i i != 0 & L *m U = A].

Lemma lu_mx n (A : 'M[F]_n) :
  (exists L U, lu K n (mxrows A) = Ok (mxrows L, mxrows U) /\ lu_good A L U) \/
  (lu K n (mxrows A) = Throw OverflowError /\
   exists k (Hk : (k <= n)%N), (0 < k)%N /\ lead_minor A Hk = 0).
Proof.
rewrite (mxrowsE 0 A).
case: (lu_spec n (mxf 0 A)) => [[l [u [-> [Hsh [Hnz Hp]]]]]|[-> [k [/andP[H0 Hk] Hd]]]].
  left; exists (\matrix_(i, j) l i j), (\matrix_(i, j) u i j).
  rewrite !mk_mxrows; split=> //; have [HL HU] := (lu_shape_mx n l u).1 Hsh.
  split=> //; first by move=> i; rewrite mxE Hnz.
  by apply/matrixP => i j; rewrite pdot_mx Hp // mxf_ord.
by right; split=> //; exists k, Hk; rewrite -detf_lead.
Qed.

Lemma lu_good_fun n (A L U : 'M[F]_n) : lu_good A L U ->
  [/\ lu_shape n (mxf 0 L) (mxf 0 U), forall p, (p < n)%N -> mxf 0 U p p != 0 &
   forall i k, (i < n)%N -> (k < n)%N -> pdot (mxf 0 L) (mxf 0 U) i k n = mxf 0 A i k].
Proof.
have E (B : 'M[F]_n) : \matrix_(i, j) mxf 0 B i j = B.
  by apply/matrixP => i j; rewrite mxE mxf_ord.
case=> HL HU Hnz HA; split.
- by apply/lu_shape_mx; rewrite !E.
- by move=> p Hp; rewrite (mxf_ord 0 U (Ordinal Hp) (Ordinal Hp)).
move=> i k Hi Hk.
by rewrite -(pdot_mx _ _ (Ordinal Hi) (Ordinal Hk)) !E HA -(mxf_ord 0 A (Ordinal Hi) (Ordinal Hk)).
Qed.

Lemma lu_good_unique n (A L U L' U' : 'M[F]_n) :
  lu_good A L U -> unit_lower L' -> upper U' -> L' *m U' = A -> L' = L /\ U' = U.
Proof.
move=> H HL' HU' HA'.
have [Hsh Hnz Hp] := lu_good_fun H.
have E (B : 'M[F]_n) : \matrix_(i, j) mxf 0 B i j = B.
  by apply/matrixP => i j; rewrite mxE mxf_ord.
have Hsh' : lu_shape n (mxf 0 L') (mxf 0 U') by apply/lu_shape_mx; rewrite !E.
have Hp' i k : (i < n)%N -> (k < n)%N -> pdot (mxf 0 L') (mxf 0 U') i k n = mxf 0 A i k.
  move=> Hi Hk; rewrite -(pdot_mx _ _ (Ordinal Hi) (Ordinal Hk)) !E HA'.
  by rewrite -(mxf_ord 0 A (Ordinal Hi) (Ordinal Hk)).
have U0 := lu_unique Hsh Hsh' Hnz Hp Hp'.
split; apply/matrixP => i j.
  by have [] := U0 j i (ltn_ord j) (ltn_ord i); rewrite !mxf_ord.
by have [_] := U0 i j (ltn_ord i) (ltn_ord j); rewrite !mxf_ord.
Qed.

Lemma lu_good_minor n (A L U : 'M[F]_n) k (Hk : (k <= n)%N) : lu_good A L U ->
  lead_minor A Hk = \prod_(p < k) U (widen_ord Hk p) (widen_ord Hk p).
Proof.
move=> H; have [Hsh Hnz Hp] := lu_good_fun H.
rewrite -detf_lead (@lead_minor_prod _ n _ (mxf 0 L) (mxf 0 U)) //.
  by apply: eq_bigr => p _; rewrite -(mxf_ord 0 U (widen_ord Hk p) (widen_ord Hk p)).
by move=> i j Hi Hj; rewrite Hp // (leq_trans _ Hk).
Qed.

Lemma lu_good_det n (A L U : 'M[F]_n) : lu_good A L U -> \det A = \prod_(p < n) U p p.
Proof.
move=> H; have [Hsh Hnz Hp] := lu_good_fun H.
rewrite -detf_mx (@lead_minor_prod _ n _ (mxf 0 L) (mxf 0 U)) //.
by apply: eq_bigr => p _; rewrite mxf_ord.
Qed.

Lemma lu_iff_minors n (A : 'M[F]_n) :
  (exists LU, lu K n (mxrows A) = Ok LU) <->
  (forall k (Hk : (k <= n)%N), (0 < k)%N -> lead_minor A Hk != 0).
Proof.
case: (lu_mx A) => [[L [U [E H]]]|[E [k [Hk [H0 Hd]]]]].
  split=> [_ k Hk _|_]; last by rewrite E; eexists.
  rewrite (lu_good_minor Hk H); apply/prodf_neq0 => i _; by case: H.
split=> [[LU]|/(_ k Hk H0)]; first by rewrite E.
by rewrite Hd eqxx.
Qed.
End LU.
