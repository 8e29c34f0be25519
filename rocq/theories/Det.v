(** * det computes the determinant (exact arithmetic over a field) *)

From Coq Require Import ZArith List Lia.
From mathcomp Require Import all_ssreflect all_algebra all_fingroup.
From mathcomp Require Import zify.
From Verif Require Import Base Scalar Model Spec Loops Struct Elim Alg Exact ExactLemmas.

Set Implicit Arguments.
Unset Strict Implicit.
Unset Printing Implicit Defensive.

Import GRing.Theory.
Local Open Scope ring_scope.

Lemma eqbE a b : Nat.eqb a b = (a == b).
Proof. by apply/idP/eqP => [/Nat.eqb_eq|/Nat.eqb_eq]. Qed.
Lemma ltbE a b : Nat.ltb a b = (a < b)%N.
Proof. by apply/idP/ltP => [/Nat.ltb_lt|/Nat.ltb_lt]. Qed.
Lemma lebE a b : Nat.leb a b = (a <= b)%N.
Proof. by apply/idP/leP => [/Nat.leb_le|/Nat.leb_le]. Qed.

(** invariant rule for loops with return *)
Lemma for_ret_inv {St R} (P : nat -> St -> Prop) (Q : R -> Prop) lo hi
  (body : nat -> St -> outcome (ctrl St R)) s :
  (lo <= hi)%N -> P lo s ->
  (forall k s, (lo <= k < hi)%N -> P k s ->
     exists c, body k s = Ok c /\ match c with Cont s' => P k.+1 s' | Ret r => Q r end) ->
  exists c, for_ret lo hi body s = Ok c /\ match c with Cont s' => P hi s' | Ret r => Q r end.
Proof.
move=> Hle H0 H.
suff Hh h : (lo <= h <= hi)%N -> exists c, for_ret lo h body s = Ok c /\
    match c with Cont s' => P h s' | Ret r => Q r end by apply: Hh; rewrite Hle leqnn.
elim: h => [|h IH] /andP[H1 H2].
  exists (Cont s); rewrite for_ret_empty //; last exact: Nat.le_0_l.
  by split=> //; move: H1; rewrite leqn0 => /eqP <-.
case: (ltngtP lo h.+1) H1 => // [Hlt|E] _; last first.
  by exists (Cont s); rewrite -E for_ret_empty.
have [|c [E Hc]] := IH _; first by rewrite -ltnS Hlt ltnW.
rewrite for_ret_snoc; last exact/leP.
rewrite E /=; case: c E Hc => [s'|r] E Hc; last by exists (Ret r).
by apply: H Hc; rewrite -ltnS Hlt.
Qed.

Section DetF.
Variable F : fieldType.

Lemma detf_swap n (f : nat -> nat -> F) a b :
  (a < n)%N -> (b < n)%N -> a != b ->
  detf n (fun i j => if i == a then f b j else if i == b then f a j else f i j) = - detf n f.
Proof.
move=> Ha Hb Hab; rewrite /detf.
set M := \matrix_(i < n, j < n) f i j.
have -> : \matrix_(i < n, j < n)
   (if (i : nat) == a then f b j else if (i : nat) == b then f a j else f i j)
   = xrow (Ordinal Ha) (Ordinal Hb) M.
  apply/matrixP => i j; rewrite !mxE.
  case: tpermP => [->|->|/eqP H1 /eqP H2] /=; rewrite ?eqxx //.
    by rewrite eq_sym (negbTE Hab).
  have -> : ((i : nat) == a) = false by apply: contraNF H1 => /eqP E; apply/eqP/val_inj.
  by have -> : ((i : nat) == b) = false by apply: contraNF H2 => /eqP E; apply/eqP/val_inj.
rewrite xrowE det_mulmx /tperm_mx det_perm odd_tperm.
by rewrite -(inj_eq val_inj) /= Hab expr1 mulN1r.
Qed.

(** elimination below the pivot in column p, with row r *)
Definition elimf (f : nat -> nat -> F) r p (i j : nat) : F :=
  if [&& (p < i)%N, i != r & (p <= j)%N] then f i j - f i p * f r j / f r p else f i j.

Lemma detf_elim n (f : nat -> nat -> F) r :
  (r < n)%N -> f r r != 0 -> (forall j, (j < r)%N -> f r j = 0) ->
  detf n (elimf f r r) = detf n f.
Proof.
move=> Hr Hrr H0; rewrite /detf.
set M := \matrix_(i < n, j < n) f i j.
pose L : 'M[F]_n := \matrix_(i, k) ((i == k)%:R - ((r < i)%N && ((k : nat) == r))%:R * (f i r / f r r)).
have -> : \matrix_(i < n, j < n) elimf f r r i j = L *m M.
  apply/matrixP => i j; rewrite !mxE /elimf.
  have -> : \sum_k L i k * M k j
     = f i j - ((r < i)%N)%:R * (f i r / f r r) * f r j.
    rewrite (eq_bigr (fun k : 'I_n => (i == k)%:R * f k j
       - (((r < i)%N)%:R * (f i r / f r r)) * (((k : nat) == r)%:R * f k j))); last first.
      move=> k _; rewrite !mxE mulrBl; congr (_ - _).
      by case: (r < i)%N; case: eqP => /= _; rewrite ?mul1r ?mul0r ?mulr0.
    rewrite sumrB -mulr_sumr; congr (_ - _ * _).
      rewrite (bigD1 i) //= eqxx mul1r big1 ?addr0 // => k Hk.
      by rewrite eq_sym (negbTE Hk) mul0r.
    rewrite (bigD1 (Ordinal Hr)) //= eqxx mul1r big1 ?addr0 // => k Hk.
    have -> : ((k : nat) == r) = false by apply: contraNF Hk => /eqP E; apply/eqP/val_inj.
    by rewrite mul0r.
  case: (ltnP r i) => /= Hri; last by rewrite !mul0r subr0.
  rewrite gtn_eqF //= mul1r mulrAC.
  by case: leqP => // Hj; rewrite (H0 j) // mulr0 subr0.
rewrite det_mulmx.
have -> : \det L = 1.
  rewrite det_trig; last first.
    apply/is_trig_mxP => i k Hik; rewrite mxE.
    have -> : (i == k) = false by apply/negbTE/negP => /eqP E; rewrite E ltnn in Hik.
    case: (ltnP r i) => //= Hri; last by rewrite mul0r subrr.
    by rewrite gtn_eqF ?mul0r ?subrr // (ltn_trans Hri).
  apply: big1 => i _; rewrite mxE eqxx.
  case: (ltnP r i) => //= Hri; last by rewrite mul0r subr0.
  by rewrite gtn_eqF ?mul0r ?subr0.
by rewrite mul1r.
Qed.

(** a zero block of r+1 columns and n-r rows *)
Lemma detf_block0 n (f : nat -> nat -> F) r :
  (r < n)%N -> (forall i j, (r <= i < n)%N -> (j <= r)%N -> f i j = 0) -> detf n f = 0.
Proof.
move=> Hr H0; rewrite /detf /determinant; apply: big1 => /= s _.
have [i Hi] : exists i : 'I_n, (r <= i)%N && (s i <= r)%N.
  case: (boolP [exists i : 'I_n, (r <= i)%N && (s i <= r)%N]) => [/existsP //|].
  rewrite negb_exists => /forallP Hno; exfalso.
  have Hsub : [set (s^-1)%g j | j : 'I_n & (j <= r)%N] \subset [set i : 'I_n | (i < r)%N].
    apply/subsetP => x /imsetP[j]; rewrite inE => Hj ->; rewrite inE.
    have := Hno ((s^-1)%g j); rewrite permKV Hj andbT -ltnNge //.
  have := subset_leq_card Hsub; rewrite card_imset; last exact: perm_inj.
  have Hc k : (k <= n)%N -> #|[set i : 'I_n | (i < k)%N]| = k.
    move=> Hk; rewrite -[RHS]card_ord -(card_imset _ (_ : injective (widen_ord Hk))); last first.
      by move=> x y /(congr1 val) /= /val_inj.
    apply: eq_card => i; rewrite inE; apply/idP/imsetP => [Hi|[j _ ->]]; last exact: (ltn_ord j).
    by exists (Ordinal Hi) => //; apply: val_inj.
  have -> : [set j : 'I_n | (j <= r)%N] = [set i : 'I_n | (i < r.+1)%N] by apply/setP => j; rewrite !inE.
  by rewrite !Hc ?ltnn // ltnW.
case/andP: Hi => Hi Hs.
by rewrite (bigD1 i) //= mxE H0 ?mul0r ?mulr0 // Hi ltn_ord.
Qed.

Lemma detf_upper n (f : nat -> nat -> F) :
  (forall i j, (j < i < n)%N -> f i j = 0) -> detf n f = \prod_(i < n) f i i.
Proof.
move=> H0; rewrite /detf -det_tr det_trig.
  by apply: eq_bigr => i _; rewrite !mxE.
by apply/is_trig_mxP => i k Hik; rewrite !mxE H0 // Hik ltn_ord.
Qed.
End DetF.

Section Det.
Variables (F : fieldType) (lt : F -> F -> bool) (ab : F -> F) (sq : F -> outcome F).
Notation K := (exactS lt ab sq).

Lemma exact_divE (a b : F) : b != 0 -> exact_div a b = Ok (a / b).
Proof. by move=> H; rewrite /exact_div unitfE H. Qed.

Lemma for_prod n (g : nat -> F) c0 (body : nat -> F -> outcome F) :
  (forall k c, (k < n)%N -> body k c = Ok (c * g k)) ->
  for_ 0 n body c0 = Ok (c0 * \prod_(k < n) g k).
Proof.
move=> H.
rewrite (@for_states _ _ _ _ (fun h => c0 * \prod_(k < h) g k)) //.
- exact/leP.
- by rewrite big_ord0 mulr1.
by move=> k [_ /ltP Hk]; rewrite H // big_ord_recr /= mulrA.
Qed.

Lemma det_prod_mk n (f : nat -> nat -> F) (factor : F) : factor != 0 ->
  det_prod K n (mk n n f) factor = Ok ((\prod_(i < n) f i i) / factor).
Proof.
move=> Hf; rewrite /det_prod (@for_prod n (fun i => f i i)).
  by rewrite /= exact_divE // mul1r.
by move=> k c /ltP Hk; rewrite aget_mk.
Qed.

Lemma det_search_mk fuel n (f : nat -> nat -> F) r i pivot :
  (r <= i < n)%N -> (pivot < n)%N ->
  ((n - pivot - 1) * (n - r) + (n - i) <= fuel)%N ->
  (forall k, (r <= k < i)%N -> f k pivot = 0) ->
  exists c, det_search K fuel n (mk n n f) r i pivot = Ok c /\
  match c with
  | Ret _ => forall k, (r <= k < n)%N -> f k pivot = 0
  | Cont (i', p') => [/\ (r <= i' < n)%N, (pivot <= p' < n)%N, f i' p' != 0 &
      (pivot < p')%N -> forall k, (r <= k < n)%N -> f k pivot = 0]
  end.
Proof.
elim: fuel i pivot => [|fuel IH] i pivot Hi Hp Hf H0.
  by move: Hf; rewrite leqn0 addn_eq0 subn_eq0 leqNgt; case/andP: Hi => _ -> /andP[].
have [/andP[Hri Hin]] := (Hi); rewrite /= aget_mk; try exact/ltP.
rewrite /=; case: eqP => [Ez|/eqP Hnz]; last first.
  by exists (Cont (i, pivot)); split=> //; split=> //; rewrite ?leqnn ?ltnn.
have H0' k : (r <= k < i.+1)%N -> f k pivot = 0.
  move=> Hk; case: (k =P i) => [-> //|Hki]; apply: H0; lia.
rewrite !Nat.add_1_r !eqbE; case: eqP => [En|/eqP Hne].
  have Hall k : (r <= k < n)%N -> f k pivot = 0 by rewrite En; apply: H0'.
  case: eqP => [En'|/eqP Hne']; first by exists (Ret tt).
  have Hp' : (pivot.+1 < n)%N by rewrite ltn_neqAle eq_sym Hne'.
  have [||||c [-> Hc]] := IH r pivot.+1 => //.
  - by rewrite leqnn (leq_ltn_trans Hri).
  - have E1 : (n - pivot - 1 = (n - pivot.+1 - 1).+1)%N by lia.
    move: Hf; rewrite E1 mulSn; lia.
  - by move=> k Hk; exfalso; lia.
  exists c; split=> //; case: c Hc => [[i' p'] [H1 H2 H3 _]|_ _] //.
  by split=> //; case/andP: H2 => H2 ->; rewrite (ltnW H2).
have [||||c [-> Hc]] := IH i.+1 pivot => //.
- by rewrite ltn_neqAle eq_sym Hne Hin !andbT (leq_trans Hri).
- by move: Hf; rewrite subnS; lia.
by exists c.
Qed.

Lemma det_elim_mk n (f : nat -> nat -> F) r p :
  (r < n)%N -> (p < n)%N -> f r p != 0 ->
  det_eliminate K n (mk n n f) r p = Ok (mk n n (elimf f r p)).
Proof.
move=> Hr Hp Hnz.
rewrite (@det_eliminate_mk K n f (fun i j => f i j - f i p * f r j / f r p)); try exact/ltP.
  congr Ok; apply: mk_ext => i j /ltP Hi /ltP Hj.
  by rewrite /elimf !ltbE !eqbE !lebE -andbA.
by move=> i j *; rewrite /elim_val /= exact_divE.
Qed.

(** the state after the row exchange *)
Definition swapf (g : nat -> nat -> F) a r (i j : nat) : F :=
  if i == a then g r j else if i == r then g a j else g i j.

Lemma det_swap_mk n (g : nat -> nat -> F) (factor : F) a r :
  (a < n)%N -> (r < n)%N ->
  (if Nat.eqb a r then Ok (mk n n g, factor)
   else let* A := swap_rows K n n (mk n n g) a r in
        let* f := xmul (s := K) (ld (s := K) factor) (lit (s := K) (-1)) in
        Ok (A, st (s := K) f))
  = Ok (mk n n (swapf g a r), if a == r then factor else - factor).
Proof.
move=> Ha Hr; rewrite eqbE; case: eqP => [->|_].
  congr (Ok (_, _)); apply: mk_ext => i j _ _; rewrite /swapf; by case: eqP => [->|].
rewrite swap_rows_mk; try exact/ltP.
by rewrite /= mulrN1; congr (Ok (_, _)).
Qed.

Lemma swapf_zero n (g : nat -> nat -> F) a r c :
  (c <= r)%N -> (r <= a < n)%N ->
  (forall i, (c <= i < n)%N -> g i c = 0) ->
  forall i, (c <= i < n)%N -> swapf g a r i c = 0.
Proof.
move=> Hc Ha H i Hi; rewrite /swapf.
by case: eqP => [?|_]; [|case: eqP => [?|_]]; apply: H; lia.
Qed.

Lemma elimf_zero n (g : nat -> nat -> F) r p c :
  (c < p)%N -> (forall i, (c <= i < n)%N -> g i c = 0) ->
  forall i, (c <= i < n)%N -> elimf g r p i c = 0.
Proof.
by move=> Hc H i Hi; rewrite /elimf (leqNgt p) Hc !andbF; apply: H.
Qed.

(** loop invariant of det: either the elimination is regular so far, or a column
    was skipped, the determinant is 0 and a diagonal element stays 0 *)
Definition det_inv n (f : nat -> nat -> F) (r : nat) (s : matrix F * F * nat) : Prop :=
  exists g factor pivot, s = (mk n n g, factor, pivot) /\ factor != 0 /\
  ((pivot = r /\ (forall i j, (j < r)%N -> (j < i < n)%N -> g i j = 0) /\
    detf n g = factor * detf n f /\ factor * factor = 1)
   \/ (detf n f = 0 /\ exists c, (c <= r)%N /\ (c < n)%N /\ (c < pivot)%N /\
        forall i, (c <= i < n)%N -> g i c = 0)).

Lemma det_prod_zero n (g : nat -> nat -> F) factor c : factor != 0 ->
  (c < n)%N -> g c c = 0 -> det_prod K n (mk n n g) factor = Ok 0.
Proof.
move=> Hf Hc H; rewrite det_prod_mk //.
by rewrite (bigD1 (Ordinal Hc)) //= H !mul0r.
Qed.

Lemma det_general_mk n (f : nat -> nat -> F) :
  det_general K n (mk n n f) = Ok (detf n f).
Proof.
rewrite /det_general.
set body := (fun (r : nat) (s : matrix F * F * nat) => _).
have [|||c [E Hc]] := @for_ret_inv _ _ (det_inv n f) (fun d => d = detf n f) 0 n body
  (mk n n f, lite K 1, 0%N).
- by [].
- exists f, 1, 0%N; split=> //; rewrite oner_eq0; split=> //; left.
  by rewrite !mul1r; split.
- move=> r s /andP[_ Hr] [g [factor [pivot [-> [Hnz Hinv]]]]].
  rewrite /body /= lebE.
  case: leqP => Hpn.
    case: Hinv => [[Epr _]|[Hf0 [c [Hcr [Hcn [Hcp Hz]]]]]]; first by exfalso; lia.
    by rewrite (det_prod_zero Hnz Hcn) //=; [exists (Ret 0)|apply: Hz; rewrite leqnn].
  have [||||c [-> Hc]] := @det_search_mk (n * n + 1) n g r r pivot.
  + by rewrite leqnn.
  + by [].
  + have := leq_mul (_ : (n - pivot - 1 <= n.-1)%N) (_ : (n - r <= n)%N).
    move/(_ _ _); case: (n) Hr => // n' _ H; rewrite /= in H.
    apply: (leq_trans (n := (n' * n'.+1 + n'.+1)%N)); first by apply: leq_add; [apply: H; lia|lia].
    by rewrite addnC -mulSn leq_addr.
  + by move=> k Hk; exfalso; lia.
  case: c Hc => [[i' p'] [Hi' Hp' Hnzp Hskip]|[] Hcol] /=; last first.
    have [Hf0 [c [Hcn Hz]]] : detf n f = 0 /\ exists c, (c < n)%N /\ g c c = 0.
      case: Hinv => [[Epr [Hz [Hd _]]]|[Hf0 [c [Hcr [Hcn [Hcp Hz]]]]]]; last first.
        by split=> //; exists c; split=> //; apply: Hz; rewrite leqnn.
      subst pivot; split; last by exists r; split=> //; apply: Hcol; rewrite leqnn.
      have : factor * detf n f = 0.
        rewrite -Hd (@detf_block0 _ n g r) // => i j Hi; rewrite leq_eqVlt => /orP[/eqP->|Hj].
          exact: Hcol.
        by apply: Hz => //; lia.
      by move/eqP; rewrite mulf_eq0 (negbTE Hnz) => /eqP.
    by rewrite (det_prod_zero Hnz Hcn Hz) /=; exists (Ret 0).
  case/andP: (Hi') => Hri Hin; case/andP: (Hp') => Hpp Hpn'.
  rewrite (det_swap_mk g factor Hin Hr) /=.
  have Hg1 : swapf g i' r r p' != 0 by rewrite /swapf eqxx; case: (r =P i') => [->|].
  rewrite (det_elim_mk Hr Hpn' Hg1) /=.
  eexists; split; first reflexivity.
  set factor' := if _ then _ else _.
  have Hnz' : factor' != 0 by rewrite /factor'; case: ifP; rewrite ?oppr_eq0.
  exists (elimf (swapf g i' r) r p'), factor', (p' + 1)%N; split=> //; split=> //.
  case: Hinv => [[Epr [Hz [Hd H1]]]|[Hf0 [c [Hcr [Hcn [Hcp Hz]]]]]]; last first.
    right; split=> //; exists c; do ![split]; rewrite //; try lia.
    apply: elimf_zero; first by lia.
    by apply: swapf_zero => //; lia.
  subst pivot; case: (ltngtP r p') Hpp => // [Hrp|Erp] _.
    right; have Hz1 := Hskip Hrp; split.
      have : factor * detf n f = 0.
        rewrite -Hd (@detf_block0 _ n g r) // => i j Hi; rewrite leq_eqVlt => /orP[/eqP->|Hj].
          exact: Hz1.
        by apply: Hz => //; lia.
      by move/eqP; rewrite mulf_eq0 (negbTE Hnz) => /eqP.
    exists r; do ![split]; rewrite //; try lia.
    apply: elimf_zero => //.
    by apply: swapf_zero.
  subst p'; left.
  have Hz1 i j : (j < r)%N -> (j < i < n)%N -> swapf g i' r i j = 0.
    move=> Hj Hi; rewrite /swapf; case: eqP => [?|_]; [|case: eqP => [?|_]]; apply: Hz => //; lia.
  split; first by rewrite addn1.
  split.
    move=> i j Hj Hi; rewrite /elimf.
    case: (ltngtP j r) => [Hjr|?|Ejr]; last 2 first.
    - by exfalso; lia.
    - subst j; have Hlt : (r < i)%N by lia.
      rewrite Hlt gtn_eqF //= ?leqnn.
      by rewrite mulfK // subrr.
    by rewrite !andbF Hz1.
  split; last by rewrite /factor'; case: ifP => // _; rewrite mulrNN.
  rewrite detf_elim //; last by move=> j Hj; apply: Hz1 => //; rewrite Hj.
  rewrite /factor'; case: eqP => [Ei|/eqP Hne].
    rewrite -Hd; apply: detf_ext => i j _ _; rewrite /swapf Ei; by case: eqP => [->|].
  by rewrite -/(swapf g i' r) detf_swap // Hd mulNr.
rewrite E /= {E}.
case: c Hc => [[[A factor] pivot]|d] /=; last by move=> ->.
case=> g [fa [pi [[-> -> _] [Hnz [[Epr [Hz [Hd H1]]]|[-> [c [_ [Hcn [_ Hz]]]]]]]]]].
  rewrite det_prod_mk // -detf_upper; last by move=> i j Hij; apply: Hz => //; lia.
  by rewrite Hd mulrAC divff // mul1r.
by rewrite (det_prod_zero Hnz Hcn) //; apply: Hz; rewrite leqnn.
Qed.

Lemma detf_mx n (A : 'M[F]_n) : detf n (mxf 0 A) = \det A.
Proof. by congr (\det _); apply/matrixP => i j; rewrite mxE mxf_ord. Qed.

Lemma det1_mk (f : nat -> nat -> F) : det1 K (mk 1 1 f) = Ok (detf 1 f).
Proof. by rewrite detf1. Qed.

Lemma det2_mk (f : nat -> nat -> F) : det2 K (mk 2 2 f) = Ok (detf 2 f).
Proof. by rewrite detf2. Qed.

Lemma det3_mk (f : nat -> nat -> F) : det3 K (mk 3 3 f) = Ok (detf 3 f).
Proof. by rewrite detf3. Qed.

Lemma det_mk n (f : nat -> nat -> F) : det K n (mk n n f) = Ok (detf n f).
Proof.
case: n => [|[|[|[|n]]]].
- exact: det_general_mk.
- exact: det1_mk.
- exact: det2_mk.
- exact: det3_mk.
- exact: det_general_mk.
Qed.

Lemma det_mx n (A : 'M[F]_n) : det K n (mxrows A) = Ok (\det A).
Proof. by rewrite (mxrowsE 0 A) det_mk detf_mx. Qed.
End Det.
