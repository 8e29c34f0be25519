(** * Property C73: statistics depend on the elements only, not on their arrangement *)
From Coq Require Import ZArith List Lia Permutation.
From mathcomp Require Import all_ssreflect all_algebra.
From mathcomp Require Import zify ssrZ.
From Flocq Require Import IEEE754.BinarySingleNaN.
From Verif Require Import Base Scalar Model CInt CFloat Spec Loops Struct Exact ExactLemmas Alg Det Order Stat StatExact Sim IntMx Int IntStat Rearr PropAlg PropStat.
Set Implicit Arguments.
Unset Strict Implicit.
Unset Printing Implicit Defensive.
Import GRing.Theory Num.Theory.
Local Open Scope ring_scope.
Delimit Scope Z_scope with Z.

(** ** the library's rearrangements keep the elements, for every element type *)
Section Moves.
Variables (K : scalar) (n m : nat) (A : matrix (elt K)).
Hypothesis HA : shape n m A.

Theorem c73_trans B : trans K n m A = Ok B -> Permutation (elements A) (elements B).
Proof.
  have [f ->] := proj1 (shape_mk (lite K 0) _ _ _) HA. rewrite trans_mk => -[<-]. exact: (trans_perm K).
Qed.

Theorem c73_swap_rows a b B : (0 < m)%N -> swap_rows K n m A a b = Ok B -> Permutation (elements A) (elements B).
Proof.
  have [f ->] := proj1 (shape_mk (lite K 0) _ _ _) HA. by move=> Hm; apply: (swap_rows_perm K); apply/ssrnat.ltP.
Qed.

Theorem c73_swap_cols a b B : (0 < n)%N -> swap_cols K n m A a b = Ok B -> Permutation (elements A) (elements B).
Proof.
  have [f ->] := proj1 (shape_mk (lite K 0) _ _ _) HA. by move=> Hm; apply: (swap_cols_perm K); apply/ssrnat.ltP.
Qed.

Theorem c73_concatenate_v n' B C : shape n' m B -> concatenate_v K n n' m A B = Ok C ->
  Permutation (elements A ++ elements B) (elements C).
Proof.
  have [f ->] := proj1 (shape_mk (lite K 0) _ _ _) HA => HB; have [g ->] := proj1 (shape_mk (lite K 0) _ _ _) HB.
  rewrite concatenate_v_mk => -[<-]. exact: (vcat_perm K).
Qed.

Theorem c73_concatenate_h m' B C : shape n m' B -> concatenate_h K n m m' A B = Ok C ->
  Permutation (elements A ++ elements B) (elements C).
Proof.
  have [f ->] := proj1 (shape_mk (lite K 0) _ _ _) HA => HB; have [g ->] := proj1 (shape_mk (lite K 0) _ _ _) HB.
  rewrite concatenate_h_mk => -[<-]. exact: (hcat_perm K).
Qed.
End Moves.
Print Assumptions c73_trans.
Print Assumptions c73_swap_rows.
Print Assumptions c73_swap_cols.
Print Assumptions c73_concatenate_v.
Print Assumptions c73_concatenate_h.

Lemma perm_size (T : Type) n m n' m' (A B : matrix T) : shape n m A -> shape n' m' B ->
  Permutation (elements A) (elements B) -> (n * m)%N = (n' * m')%N.
Proof.
  move=> HA HB /(@Permutation_length _ _ _).
  have L : forall p q (X : matrix T), shape p q X -> length (elements X) = (p * q)%N.
  { move=> p q X [<- H]. elim: X H => [|r X IH] H //=.
    rewrite /elements /= app_length -/(elements X) IH ?mulSn; last by move=> y Hy; apply: H; right.
    by rewrite (H r (or_introl erefl)). }
  by rewrite (L _ _ _ HA) (L _ _ _ HB).
Qed.

(** sums over all elements *)
Lemma big_elements (R : ringType) n m (A : 'M[R]_(n, m)) (g : R -> R) :
  \sum_i \sum_j g (A i j) = \sum_(x <- elements (mxrows A)) g x.
Proof.
  rewrite /elements /mxrows.
  have E : forall (l : seq (seq R)), \sum_(x <- concat l) g x = \sum_(r <- l) \sum_(x <- r) g x.
  { elim=> [|r l IH] /=; first by rewrite !big_nil.
    by rewrite big_cons -IH -big_cat. }
  rewrite E big_map [RHS]big_enum /=. apply: eq_bigr => i _. by rewrite big_map big_enum.
Qed.

Lemma big_perm (R : ringType) (g : R -> R) (v w : seq R) : Permutation v w ->
  \sum_(x <- v) g x = \sum_(x <- w) g x.
Proof.
  elim=> {v w} [|x v w _ IH|x y v|u v w _ -> _ ->] //; rewrite !big_cons ?IH //.
  exact: addrCA.
Qed.

Lemma big_rearr (R : ringType) n m n' m' (A : 'M[R]_(n, m)) (B : 'M[R]_(n', m')) (g : R -> R) :
  Permutation (elements (mxrows A)) (elements (mxrows B)) ->
  \sum_i \sum_j g (A i j) = \sum_i \sum_j g (B i j).
Proof. by move=> P; rewrite !big_elements; exact: big_perm. Qed.

(** ** mean, variance and standard deviation, exact arithmetic *)
Section Exact.
Variables (R : realFieldType) (sq : R -> outcome R).
Notation K := (ordS sq).
Variables (n m n' m' : nat) (A B : matrix R).
Hypothesis HA : shape n m A.
Hypothesis HB : shape n' m' B.
Hypothesis P : Permutation (elements A) (elements B).
Hypothesis Hpos : (0 < n * m)%N.
Hypothesis Hsz : (Z.of_nat (n * m) < 2 ^ 64)%Z.

Lemma rearr_mx : exists (X : 'M[R]_(n, m)) (Y : 'M[R]_(n', m')),
  [/\ A = mxrows X, B = mxrows Y, (n * m)%N = (n' * m')%N, mxmean X = mxmean Y & mxvar X = mxvar Y].
Proof.
  have E := perm_size HA HB P. move: P.
  have [f ->] := proj1 (shape_mk (0 : _) _ _ _) HA. have [g ->] := proj1 (shape_mk (0 : _) _ _ _) HB.
  rewrite !mk_mxrows => Q. do 2 eexists; split; [reflexivity|reflexivity|done| |].
  - rewrite /mxmean E. congr (_ / _). exact: (big_rearr id Q).
  - rewrite /mxvar E. set mu := mxmean _. set nu := mxmean _.
    have -> : mu = nu by rewrite /mu /nu /mxmean E; congr (_ / _); exact: (big_rearr id Q).
    congr (_ / _). exact: (big_rearr (fun x => (x - nu) ^+ 2) Q).
Qed.

Theorem c73_mean : mean K n m A = mean K n' m' B.
Proof.
  have [X [Y [-> -> E M _]]] := rearr_mx. by rewrite !mean_mx -?E // M.
Qed.

Theorem c73_var : var K n m A = var K n' m' B.
Proof.
  have [X [Y [-> -> E _ V]]] := rearr_mx. by rewrite !var_mx -?E // V.
Qed.

Theorem c73_stddev : stddev K n m A = stddev K n' m' B.
Proof. by rewrite /stddev c73_var. Qed.
End Exact.
Print Assumptions c73_mean.
Print Assumptions c73_var.
Print Assumptions c73_stddev.

(** ** integers: an order of the elements in which a partial sum overflows is
    undefined, all others give the same mean *)
Theorem c73_int_mean t n m n' m' (A B : matrix Z) r s : sgn t = true -> (32 <= width t <= 64)%Z ->
  shape n m A -> shape n' m' B -> Permutation (elements A) (elements B) ->
  (forall x, In x (elements A) -> in_range t x) ->
  (0 < n * m)%N -> (Z.of_nat (n * m) < 2 ^ 64)%Z ->
  mean (intS t) n m A = Ok r -> mean (intS t) n' m' B = Ok s -> r = s.
Proof.
  move=> Hs Hw HA HB P HI Hpos Hsz.
  have E := perm_size HA HB P.
  have HJ : forall x, In x (elements B) -> in_range t x.
  { by move=> x /(Permutation_in _ (Permutation_sym P)); exact: HI. }
  move: P HI HJ. have [f ->] := proj1 (shape_mk (0 : _) _ _ _) HA. have [g ->] := proj1 (shape_mk (0 : _) _ _ _) HB.
  rewrite !mk_mxrows => Q.
  have M : forall p q (X : 'M[Z]_(p, q)), (forall x, In x (elements (mxrows X)) -> in_range t x) -> mx_in t X.
  { move=> p q X H i j. apply: H. rewrite -(mxf_ord (0 : Z)) (mxrowsE (0 : Z)) /elements /mk in_concat.
    eexists; split; first by apply/in_map_iff; exists (i : nat); split; [reflexivity|apply/in_seq; move: (ltn_ord i); lia].
    by apply/in_map_iff; exists (j : nat); split; [reflexivity|apply/in_seq; move: (ltn_ord j); lia]. }
  move=> /M IA /M IB Er Es.
  have Hsz' := Hsz. rewrite E in Hsz'.
  have [_ ->] := imean_val Hs Hw Hsz IA Er.
  have [_ ->] := imean_val Hs Hw Hsz' IB Es.
  by rewrite -E /msum (big_rearr id Q).
Qed.
Print Assumptions c73_int_mean.

(** ** histograms, for every element type in which equivalent elements are equal *)
Theorem c73_histogram (K : scalar) n m n' m' (A B : matrix (elt K)) :
  shape n m A -> shape n' m' B -> Permutation (elements A) (elements B) ->
  strict_weak_on (less K) (elements A) ->
  (forall x y, In x (elements A) -> In y (elements A) -> equivalent (less K) x y = true -> x = y) ->
  (Z.of_nat (n * m) < 2 ^ 64)%Z ->
  histogram K n m A = histogram K n' m' B /\
  cumulative_histogram K n m A = cumulative_histogram K n' m' B.
Proof.
  move=> HA HB. have [f ->] := proj1 (shape_mk (lite K 0) _ _ _) HA. have [g ->] := proj1 (shape_mk (lite K 0) _ _ _) HB.
  by move=> P W U Hs; apply: (histogram_perm K).
Qed.
Print Assumptions c73_histogram.

(** the hypotheses hold for instance for a matrix and its transpose *)
Example c73_ex (sq : rat -> outcome rat) :
  mean (ordS sq) 2 3 [:: [:: 1; 2%:R; 3%:R]; [:: 4%:R; 5%:R; 6%:R]] =
  mean (ordS sq) 3 2 [:: [:: 1; 4%:R]; [:: 2%:R; 5%:R]; [:: 3%:R; 6%:R]] /\
  histogram (intS int32) 2 2 [:: [:: 3; 1]; [:: 2; 3]]%Z = histogram (intS int32) 1 4 [:: [:: 1; 2; 3; 3]]%Z.
Proof.
  split.
  - apply: c73_mean => //.
    + by split=> // r /= [<-|[<-|[]]].
    + by split=> // r /= [<-|[<-|[<-|[]]]].
    + apply: (@c73_trans (ordS sq) 2 3) => //. by split=> // r /= [<-|[<-|[]]].
  - by [].
Qed.

(** ** rounding: the mean of doubles does depend on the arrangement *)
Definition big53 : list (list Z) := [:: [:: 2 ^ 53; 1]; [:: - 2 ^ 53; 1]]%Z.
Definition tr53 : list (list Z) := [:: [:: 2 ^ 53; - 2 ^ 53]; [:: 1; 1]]%Z.
Definition dbl (A : list (list Z)) : matrix (elt float64S) := List.map (List.map (f_of_Z 53 1024)) A.

Definition out_lt (x y : outcome (elt float64S)) : bool :=
  match x, y with Ok a, Ok b => less float64S a b | _, _ => false end.

Lemma c73_check : out_lt (mean float64S 2 2 (dbl big53)) (mean float64S 2 2 (dbl tr53)) = true.
Proof. by vm_compute. Qed.

Lemma out_lt_inv x y : out_lt x y = true -> exists a b, [/\ x = Ok a, y = Ok b & less float64S a b = true].
Proof. by case: x y => [a||||] // [b||||] // H; exists a, b. Qed.

Theorem c73_float_mean : exists (A B : matrix (elt float64S)) a b,
  [/\ trans float64S 2 2 A = Ok B, mean float64S 2 2 A = Ok a, mean float64S 2 2 B = Ok b &
   less float64S a b = true].
Proof.
  have [a [b [E1 E2 L]]] := out_lt_inv c73_check.
  exists (dbl big53), (dbl tr53), a, b. split; [reflexivity|exact E1|exact E2|exact L].
Qed.
Print Assumptions c73_float_mean.
