(** * Properties C70 and C71: where no rounding is needed, all element types agree

    [strictS B] (Strict.v) is integer arithmetic that refuses every operation whose
    exact result is not an integer of absolute value at most B: a division that
    leaves a remainder, the square root of a non-square, a number that is too large.
    Running a function on it settles whether that function needs any rounding on
    given data. *)

From Coq Require Import ZArith List Lia.
From mathcomp Require Import all_ssreflect all_algebra.
From mathcomp Require Import zify ssrZ realalg.
From Flocq Require Import IEEE754.BinarySingleNaN Core.Core.
From Verif Require Import Base Scalar Model CInt CFloat Spec Loops Struct Exact ExactLemmas Alg Det Inv LU Chol Pow
  Param ParamInst Strict StrictExact StrictFactor StatExact PropParam PropAlg.

Set Implicit Arguments.
Unset Strict Implicit.
Unset Printing Implicit Defensive.

Import mathcomp.ssreflect.order.Order.TTheory GRing.Theory Num.Theory.
Local Notation ltP := ssrnat.ltP (only parsing).
Local Notation leP := ssrnat.leP (only parsing).
Local Open Scope ring_scope.
Delimit Scope Z_scope with Z.

(** all elements of the array are at most B in absolute value *)
Definition within (B : Z) (A : matrix Z) : Prop := List.Forall (List.Forall (fun z => (Z.abs z <= B)%Z)) A.

Lemma F2_diag (T : Type) (P : T -> Prop) (R : T -> T -> Prop) v :
  (forall x, P x -> R x x) -> List.Forall P v -> List.Forall2 R v v.
Proof. by move=> H F; elim: F => [|x v' Px _ IH]; constructor; auto. Qed.

Lemma F2_eq (T : Type) (R : T -> T -> Prop) u v : (forall x y, R x y -> y = x) -> List.Forall2 R u v -> v = u.
Proof. by move=> H F; elim: F => [|x y u' v' Rxy _ ->] //; rewrite (H _ _ Rxy). Qed.

Lemma F2_imp (T T' : Type) (R Q : T -> T' -> Prop) u v :
  (forall x y, R x y -> Q x y) -> List.Forall2 R u v -> List.Forall2 Q u v.
Proof. by move=> H F; elim: F => [|x y u' v' Rxy _ IH]; constructor; auto. Qed.

Lemma agree_mono (T T' : Type) (R Q : T -> T' -> Prop) o o' : (forall a b, R a b -> Q a b) ->
  refines R o o' -> agree Q o o'.
Proof. by move=> H Hr a E; move: Hr; rewrite E => -[b [-> Rb]]; exists b; split=> //; exact: H. Qed.

(** ** C70, integer types: the same outcome, number by number *)
Section Int.
Variables (t : ityp) (B : Z).
Hypothesis Hs : sgn t = true.
Hypothesis Hw : (0 < width t <= 64)%Z.
Hypothesis HB : (1 <= B <= imax t)%Z.
Notation S := (strictS B).
Notation I := (intS t).
Let TI := tracks_int t B Hs Hw HB.

Lemma within_rel A : within B A -> mrel (relSI B) A A.
Proof. by apply: F2_diag => r; apply: F2_diag => z Hz; split. Qed.
Let eqM : forall A A' : matrix Z, mrel (relSI B) A A' -> A = A'.
Proof. by move=> A A' H; symmetry; move: H; apply: F2_eq => r r'; apply: F2_eq => z x [-> _]. Qed.
Let eqE : forall z x : Z, relSI B z x -> z = x. Proof. by move=> z x [-> _]. Qed.

Theorem c70_int n m w (A : matrix Z) (s p : Z) : within B A -> (Z.abs s <= B)%Z ->
  agree eq (div S n m A s) (div I n m A s) /\
  agree eq (det S n A) (det I n A) /\
  agree eq (inv S n A) (inv I n A) /\
  agree eq (pow S n w A p) (pow I n w A p) /\
  agree eq (lu S n A) (lu I n A) /\
  agree eq (chol S n A) (chol I n A) /\
  agree eq (mean S n m A) (mean I n m A) /\
  agree eq (var S n m A) (var I n m A) /\
  agree eq (stddev S n m A) (stddev I n m A).
Proof.
move=> /within_rel HA Hs'.
have Rs : relSI B s s by split.
do ?split.
- by apply: agree_mono eqM _; apply: (track_div _ _ _ _ TI).
- by apply: agree_mono eqE _; apply: (track_det _ _ _ _ TI).
- by apply: agree_mono eqM _; apply: (track_inv _ _ _ _ TI).
- by apply: agree_mono eqM _; apply: (track_pow _ _ _ _ TI).
- apply: agree_mono _ (track_lu _ _ _ _ TI n _ _ HA) => -[L U] [L' U'] [] /= HL HU.
  by rewrite (eqM HL) (eqM HU).
- by apply: agree_mono eqM _; apply: (track_chol _ _ _ _ TI).
- by apply: agree_mono eqE _; apply: (track_mean _ _ _ _ TI).
- by apply: agree_mono eqE _; apply: (track_var _ _ _ _ TI).
- by apply: agree_mono eqE _; apply: (track_stddev _ _ _ _ TI).
Qed.

(** exceptions are also the same: a singular pivot is found by both *)
Theorem c70_int_throws n (A : matrix Z) e : within B A ->
  (inv S n A = Throw e -> inv I n A = Throw e) /\ (lu S n A = Throw e -> lu I n A = Throw e) /\
  (chol S n A = Throw e -> chol I n A = Throw e).
Proof.
move=> /within_rel HA; split; [|split] => E.
- by have := track_inv _ _ _ _ TI n _ _ HA; rewrite E.
- by have := track_lu _ _ _ _ TI n _ _ HA; rewrite E.
- by have := track_chol _ _ _ _ TI n _ _ HA; rewrite E.
Qed.
End Int.

(** ** C70, floating point *)
Section Float.
Variables prec emax : Z.
Context {Hp : Prec_gt_0 prec} {He : Prec_lt_emax prec emax}.
Variable B : Z.
Hypothesis HB : (1 <= B <= 2 ^ prec)%Z.
Notation fl := (binary_float prec emax).
Notation S := (strictS B).
Notation K := (floatS prec emax).
Notation RB := (relB prec emax B).
Let TF := tracks_float prec emax B HB.

(** x is finite and its value is exactly z *)
Definition valued (z : Z) (x : fl) : Prop := is_finite x = true /\ B2R x = Rdefinitions.IZR z.
Notation valuedM := (mrel valued).

Lemma within_valued A A' : within B A -> valuedM A A' -> mrel RB A A'.
Proof.
move=> W H; elim: H W => [|r r' A0 A0' Hr _ IH] W; constructor; last by apply: IH; inversion W.
have Wr : List.Forall (fun z => (Z.abs z <= B)%Z) r by inversion W.
elim: Hr Wr => [|z x v v' Hz _ IHr] Wr; constructor; last by apply: IHr; inversion Wr.
by split=> //; inversion Wr.
Qed.
Let toM : forall A A', mrel RB A A' -> valuedM A A'.
Proof. by move=> A A'; apply: F2_imp => r r'; apply: F2_imp => z x []. Qed.
Let toE : forall z x, RB z x -> valued z x. Proof. by move=> z x []. Qed.

Theorem c70_float n m w (A : matrix Z) A' (s p : Z) s' : within B A -> (Z.abs s <= B)%Z ->
  valuedM A A' -> valued s s' ->
  agree valuedM (div S n m A s) (div K n m A' s') /\
  agree valued (det S n A) (det K n A') /\
  agree valuedM (inv S n A) (inv K n A') /\
  agree valuedM (pow S n w A p) (pow K n w A' p) /\
  agree (relP valuedM valuedM) (lu S n A) (lu K n A') /\
  agree valuedM (chol S n A) (chol K n A') /\
  agree valued (mean S n m A) (mean K n m A') /\
  agree valued (var S n m A) (var K n m A') /\
  agree valued (stddev S n m A) (stddev K n m A').
Proof.
move=> W Hs' HA' Vs; have HA := within_valued W HA'.
have Rs : RB s s' by split.
do ?split.
- by apply: agree_mono toM _; apply: (track_div _ _ _ _ TF).
- by apply: agree_mono toE _; apply: (track_det _ _ _ _ TF).
- by apply: agree_mono toM _; apply: (track_inv _ _ _ _ TF).
- by apply: agree_mono toM _; apply: (track_pow _ _ _ _ TF).
- apply: agree_mono _ (track_lu _ _ _ _ TF n _ _ HA) => -[L U] [L' U'] [] /= HL HU.
  by split=> /=; exact: toM.
- by apply: agree_mono toM _; apply: (track_chol _ _ _ _ TF).
- by apply: agree_mono toE _; apply: (track_mean _ _ _ _ TF).
- by apply: agree_mono toE _; apply: (track_var _ _ _ _ TF).
- by apply: agree_mono toE _; apply: (track_stddev _ _ _ _ TF).
Qed.

Theorem c70_float_throws n (A : matrix Z) A' e : within B A -> valuedM A A' ->
  (inv S n A = Throw e -> inv K n A' = Throw e) /\ (lu S n A = Throw e -> lu K n A' = Throw e) /\
  (chol S n A = Throw e -> chol K n A' = Throw e).
Proof.
move=> W HA'; have HA := within_valued W HA'; split; [|split] => E.
- by have := track_inv _ _ _ _ TF n _ _ HA; rewrite E.
- by have := track_lu _ _ _ _ TF n _ _ HA; rewrite E.
- by have := track_chol _ _ _ _ TF n _ _ HA; rewrite E.
Qed.
End Float.

(** ** C70, and the common answer is the mathematical one *)
Section Truth.
Variable B : Z.
Notation S := (strictS B).
Notation Q := [rcfType of realalg].
Notation iz := (ring_of_Z [ringType of realalg]).
Notation E := (realS Q).

Lemma sqrt_square_iz z : (0 <= z)%Z ->
  (if iz (z * z) < 0 then UB BadConversion else Ok (Num.sqrt (iz (z * z)))) = Ok (iz z).
Proof.
move=> H; have -> : (iz (z * z) < 0) = false.
  by rewrite -[0]/(iz 0) ring_of_Z_lt; apply/negbTE/negP => /Z.ltb_spec0; lia.
rewrite ring_of_ZM -expr2 sqrtr_sqr ger0_norm // -[0]/(iz 0) -[iz 0 <= _]negbK -ltNge ring_of_Z_lt.
by apply/negP => /Z.ltb_spec0; lia.
Qed.
Let TQ : tracks B E (@relR Q) (@relR Q).
Proof. exact: (@tracks_exact Q (fun a => if a < 0 then UB BadConversion else Ok (Num.sqrt a)) B sqrt_square_iz). Qed.

Lemma izM : rmorphism iz.
Proof. by split; [move=> a b; exact: ring_of_ZB|split=> [a b|]; [exact: ring_of_ZM|]]. Qed.
Canonical iz_rmorphism := RMorphism izM.
Canonical iz_additive := Additive izM.

Lemma iz_inj : injective iz. Proof. exact: (@ring_of_Z_inj Q). Qed.

Lemma map_inj n m (X Y : 'M[Z]_(n, m)) : map_mx iz X = map_mx iz Y -> X = Y.
Proof. by move=> /matrixP H; apply/matrixP => i j; have := H i j; rewrite !mxE => /iz_inj. Qed.

Lemma mrel_back n m (C : matrix Z) (X : 'M[realalg]_(n, m)) : mrel (@relR Q) C (mxrows X) ->
  exists Y : 'M[Z]_(n, m), C = mxrows Y /\ X = map_mx iz Y.
Proof.
move=> /mrel_mapE H.
have SC : shape n m C.
  have [r c] : shape n m (mxrows X) by apply: (shape_mxrows (0 : realalg)).
  split; first by rewrite -r H List.map_length.
  move=> row Hr; have := c (List.map iz row); rewrite H List.map_length; apply.
  exact: List.in_map.
have [Y [EY _]] := every_array Z0 SC; exists Y; split=> //.
apply: (@mxrows_inj _ n m 0); rewrite H EY; apply/esym.
exact: (@mrel_mapE Q _ _ (@mrel_map Q n m Y)).
Qed.

Lemma det_true n (A : 'M[Z]_n) d : det S n (mxrows A) = Ok d -> d = \det A.
Proof.
move=> H; have := track_det _ _ _ _ TQ n _ _ (@mrel_map Q _ _ A); rewrite H => -[x []].
by rewrite det_mx => -[<-] /esym; rewrite /relR -/(iz d) det_map_mx => /iz_inj.
Qed.

Theorem c70_det_true n (A : 'M[Z]_n) d : det S n (mxrows A) = Ok d -> d = \det A.
Proof. exact: det_true. Qed.

Theorem c70_inv_true n (A : 'M[Z]_n) X : (0 < n)%N -> inv S n (mxrows A) = Ok X ->
  exists Y : 'M[Z]_n, X = mxrows Y /\ A *m Y = 1%:M /\ Y *m A = 1%:M.
Proof.
move=> Hn H; have := track_inv _ _ _ _ TQ n _ _ (@mrel_map Q _ _ A); rewrite H => -[X' [EX' HX]].
have U : map_mx iz A \in unitmx.
  rewrite unitmxE unitfE; apply/eqP => D; move: EX'; rewrite inv_mx_singular // /inv_singular; by case: (n) => [|[|[|[|k]]]].
move: EX'; rewrite inv_mx // => -[EX1]; subst X'.
have [Y [EY MY]] := mrel_back HX; exists Y; split=> //.
by split; apply: map_inj; rewrite map_mxM map_mx1 -MY ?mulmxV ?mulVmx.
Qed.

Theorem c70_lu_true n (A : 'M[Z]_n) L U : lu S n (mxrows A) = Ok (L, U) ->
  exists L' U' : 'M[Z]_n, L = mxrows L' /\ U = mxrows U' /\
  [/\ unit_lower L', upper U', forall i, U' i i != 0 & L' *m U' = A].
Proof.
move=> H; have := track_lu _ _ _ _ TQ n _ _ (@mrel_map Q _ _ A); rewrite H => -[[L1 U1] [E1 [/= HL HU]]].
case: (lu_mx (fun a b : realalg => a < b) (fun a => `|a|)
  (fun a : realalg => if a < 0 then UB BadConversion else Ok (Num.sqrt a)) (map_mx iz A)); last first.
  by case=> E2; rewrite -[lu _ _ _]/(lu E n (mxrows (map_mx iz A))) E1 in E2.
move=> [L2 [U2 [E2 [[l1 l2] u1 u2 P]]]].
rewrite -[lu _ _ _]/(lu E n (mxrows (map_mx iz A))) E1 in E2.
case: E2 => ? ?; subst L1 U1.
have [L' [EL ML]] := mrel_back HL; have [U' [EU MU]] := mrel_back HU.
exists L', U'; split=> //; split=> //; split.
- split=> [i|i j Hij]; apply: iz_inj.
    by have := l1 i; rewrite ML mxE.
  by have := l2 i j Hij; rewrite ML mxE.
- by move=> i j Hij; apply: iz_inj; have := u1 i j Hij; rewrite MU mxE.
- by move=> i; apply: contra (u2 i) => /eqP E0; rewrite MU mxE E0.
- by apply: map_inj; rewrite map_mxM -ML -MU.
Qed.

Theorem c70_chol_true n (A : 'M[Z]_n) X : chol S n (mxrows A) = Ok X ->
  exists L : 'M[Z]_n, X = mxrows L /\
  [/\ lower L, forall i, (0 <= L i i)%Z & L *m L^T = \matrix_(i, j) (if (j <= i)%N then A i j else A j i)].
Proof.
move=> H; have := track_chol _ _ _ _ TQ n _ _ (@mrel_map Q _ _ A); rewrite H => -[X' [EX' HX]].
have [L' [EL [l1 l2 P]]] := chol_ret EX'; subst X'.
have [L [EL ML]] := mrel_back HX; exists L; split=> //; split.
- by move=> i j Hij; apply: iz_inj; have := l1 i j Hij; rewrite ML mxE.
- move=> i; have := l2 i; rewrite ML mxE leNgt -[0]/(iz 0) ring_of_Z_lt; lia.
- apply: map_inj; rewrite map_mxM -map_trmx -ML P; apply/matrixP => i j; rewrite !mxE.
  by case: ifP.
Qed.

Lemma iz_sum n m (f : 'I_n -> 'I_m -> Z) : \sum_i \sum_j iz (f i j) = iz (\sum_i \sum_j f i j).
Proof. by rewrite rmorph_sum; apply: eq_bigr => i _; rewrite rmorph_sum. Qed.

Lemma iz_nat k : (k%:R : realalg) = iz (Z.of_nat k).
Proof. by rewrite ring_of_ZE (_ : int_of_Z (Z.of_nat k) = k%:Z) //; lia. Qed.

Lemma mean_iz n m (A : 'M[Z]_(n, m)) r : (0 < n * m)%N -> iz r = mxmean (map_mx iz A) ->
  (r * Z.of_nat (n * m) = \sum_i \sum_j A i j)%R.
Proof.
move=> H; have N : (n * m)%:R != 0 :> realalg by rewrite pnatr_eq0 -lt0n.
rewrite /mxmean => /esym /(canRL (mulfVK N)); rewrite iz_nat -rmorphM.
rewrite (eq_bigr (fun i => \sum_j iz (A i j))) ?iz_sum; last by move=> i _; apply: eq_bigr => j _; rewrite mxE.
by move=> /iz_inj ->.
Qed.

Lemma var_iz n m (A : 'M[Z]_(n, m)) r v : (0 < n * m)%N -> iz r = mxmean (map_mx iz A) ->
  iz v = mxvar (map_mx iz A) -> (v * Z.of_nat (n * m) = \sum_i \sum_j (A i j - r) * (A i j - r))%R.
Proof.
move=> H Er; have N : (n * m)%:R != 0 :> realalg by rewrite pnatr_eq0 -lt0n.
rewrite /mxvar -Er => /esym /(canRL (mulfVK N)); rewrite iz_nat -rmorphM.
rewrite (eq_bigr (fun i => \sum_j iz ((A i j - r) * (A i j - r)))) ?iz_sum; last first.
  by move=> i _; apply: eq_bigr => j _; rewrite mxE rmorphM rmorphB expr2.
by move=> /iz_inj ->.
Qed.

(** the mean r, the variance v and the deviation s, without fractions *)
Theorem c70_stat_true n m (A : 'M[Z]_(n, m)) r v s : (0 < n * m)%N -> (Z.of_nat (n * m) < 2 ^ 64)%Z ->
  mean S n m (mxrows A) = Ok r -> var S n m (mxrows A) = Ok v -> stddev S n m (mxrows A) = Ok s ->
  [/\ r * Z.of_nat (n * m) = \sum_i \sum_j A i j,
      v * Z.of_nat (n * m) = \sum_i \sum_j (A i j - r) * (A i j - r), (0 <= s)%Z & s * s = v].
Proof.
move=> H H64 Hr Hv Hs.
have := track_mean _ _ _ _ TQ n m _ _ (@mrel_map Q _ _ A); rewrite Hr => -[x []]; rewrite mean_mx // => -[<-] Er.
have := track_var _ _ _ _ TQ n m _ _ (@mrel_map Q _ _ A); rewrite Hv => -[y []]; rewrite var_mx // => -[<-] Ev.
have := track_stddev _ _ _ _ TQ n m _ _ (@mrel_map Q _ _ A); rewrite Hs => -[z []]; rewrite stddev_mx // => -[<-] Es.
split.
- exact: mean_iz H (esym Er).
- exact: var_iz H (esym Er) (esym Ev).
- have := sqrtr_ge0 (mxvar (map_mx iz A)); rewrite Es leNgt -[0]/(iz 0) ring_of_Z_lt; lia.
- apply: iz_inj; have -> : iz (s * s) = iz s * iz s by exact: ring_of_ZM.
  have -> : iz s = Num.sqrt (mxvar (map_mx iz A)) by [].
  have -> : iz v = mxvar (map_mx iz A) by [].
  by rewrite -expr2 sqr_sqrtr //; exact: mxvar_ge0.
Qed.
End Truth.

(** ** C71: lu, chol and det of a product of integer factors

    [bounded X a]: every entry of X has absolute value at most a. *)
Definition bounded n m (X : 'M[Z]_(n, m)) (a : Z) : Prop := forall i j, (Z.abs (X i j) <= a)%Z.

Section Factors.
Variables (n : nat) (L U : 'M[Z]_n) (a b : Z).

Lemma zsum_mx (f : nat -> Z) m : zsum m f = \sum_(k < m) f k.
Proof. by elim: m => [|m IH]; [rewrite big_ord0|rewrite big_ord_recr /= -IH]. Qed.

Lemma zprod_mx (f : nat -> Z) m : zprod m f = \prod_(k < m) f k.
Proof. by elim: m => [|m IH]; [rewrite big_ord0|rewrite big_ord_recr /= -IH]. Qed.

Lemma mul_mk : mxrows (L *m U) = mk n n (fun i j => zsum n (fun k => (mxf Z0 L i k * mxf Z0 U k j)%Z)).
Proof.
rewrite (mxrowsE Z0 (L *m U)); apply: mk_ext => i j Hi Hj.
have hi : (i < n)%N by lia.
have hj : (j < n)%N by lia.
rewrite -[i]/(val (Ordinal hi)) -[j]/(val (Ordinal hj)) mxf_ord mxE zsum_mx.
by apply: eq_bigr => k _; rewrite !mxf_ord.
Qed.

Lemma mxf_at (X : 'M[Z]_n) i j (hi : (i < n)%N) (hj : (j < n)%N) : mxf Z0 X i j = X (Ordinal hi) (Ordinal hj).
Proof. by rewrite -[i]/(val (Ordinal hi)) -[j]/(val (Ordinal hj)) mxf_ord. Qed.

Lemma mxf_bounded (X : 'M[Z]_n) c i j : bounded X c -> (i < n)%coq_nat -> (j < n)%coq_nat -> (Z.abs (mxf Z0 X i j) <= c)%Z.
Proof. by move=> H /ltP Hi /ltP Hj; rewrite (mxf_at X Hi Hj). Qed.

Section LU.
Hypothesis HL : unit_lower L.
Hypothesis HU : upper U.
Hypothesis Hd : forall i, U i i != 0.
Hypothesis Ha : bounded L a.
Hypothesis Hb : bounded U b.

Let l1 i : (i < n)%coq_nat -> mxf Z0 L i i = 1%Z.
Proof. by move=> /ltP Hi; rewrite (mxf_at L Hi Hi); case: HL => ->. Qed.
Let l0 i j : ((i < j)%coq_nat /\ (j < n)%coq_nat) -> mxf Z0 L i j = 0%Z.
Proof.
move=> [/ltP Hij /ltP Hj]; rewrite (mxf_at L (ltn_trans Hij Hj) Hj); case: HL => _ H; exact: H.
Qed.
Let u0 i j : ((j < i)%coq_nat /\ (i < n)%coq_nat) -> mxf Z0 U i j = 0%Z.
Proof. by move=> [/ltP Hij /ltP Hi]; rewrite (mxf_at U Hi (ltn_trans Hij Hi)); exact: HU. Qed.
Let ud i : (i < n)%coq_nat -> mxf Z0 U i i <> 0%Z.
Proof. by move=> /ltP Hi; rewrite (mxf_at U Hi Hi); apply/eqP; exact: Hd. Qed.

Lemma lu_S B : (1 <= B)%Z -> (Z.of_nat n * (a * b) <= B)%Z ->
  lu (strictS B) n (mxrows (L *m U)) = Ok (mxrows L, mxrows U).
Proof.
move=> B1 H; rewrite mul_mk (mxrowsE Z0 L) (mxrowsE Z0 U).
apply: (@lu_strict B B1 n (mxf Z0 L) (mxf Z0 U) a b l1 l0 u0 ud _ _ H).
- by move=> i j; exact: mxf_bounded.
- by move=> i j; exact: mxf_bounded.
Qed.

Lemma det_S B : (3 < n)%N -> (1 <= B)%Z -> (Z.of_nat n * (a * b) <= B)%Z -> (a * (b * b) <= B)%Z ->
  (b ^ Z.of_nat n <= B)%Z -> det (strictS B) n (mxrows (L *m U)) = Ok (\prod_i U i i).
Proof.
move=> Hn B1 H1 H2 H3.
have -> : det (strictS B) n (mxrows (L *m U)) = det_general (strictS B) n (mxrows (L *m U)).
  by case: (n) Hn L U => [|[|[|[|k]]]].
rewrite mul_mk (@det_general_strict B B1 n (mxf Z0 L) (mxf Z0 U) a b) //; try lia.
- congr Ok; transitivity (\prod_(i < n) mxf Z0 U i i); last by apply: eq_bigr => i _; rewrite mxf_ord.
  exact: zprod_mx.
- by move=> i j; exact: mxf_bounded.
- by move=> i j; exact: mxf_bounded.
Qed.

Lemma prod_within B : (Z.of_nat n * (a * b) <= B)%Z -> within B (mxrows (L *m U)).
Proof.
move=> H; rewrite mul_mk /mk; apply/List.Forall_map/List.Forall_forall => i; rewrite List.in_seq => -[_ Hi].
apply/List.Forall_map/List.Forall_forall => j; rewrite List.in_seq => -[_ Hj].
apply: Z.le_trans H; apply: zsum_abs => k Hk; rewrite Z.abs_mul.
apply: Z.mul_le_mono_nonneg; try exact: Z.abs_nonneg; apply: mxf_bounded => //; lia.
Qed.

(** on a signed integer type *)
Theorem c71_lu_int t : sgn t = true -> (1 < width t <= 64)%Z -> (Z.of_nat n * (a * b) <= imax t)%Z ->
  lu (intS t) n (mxrows (L *m U)) = Ok (mxrows L, mxrows U).
Proof.
move=> Hs Hw H; have I1 : (1 <= imax t)%Z by rewrite /imax Hs; have := Z.pow_le_mono_r 2 1 (width t - 1); lia.
have W := prod_within H.
have [_ [_ [_ [_ [HH _]]]]] := @c70_int t (imax t) Hs ltac:(lia) ltac:(lia) n n 0 _ 0 0 W ltac:(lia).
by have [X [-> <-]] := HH _ (lu_S I1 H).
Qed.

Theorem c71_det_int t : sgn t = true -> (1 < width t <= 64)%Z -> (3 < n)%N ->
  (Z.of_nat n * (a * b) <= imax t)%Z -> (a * (b * b) <= imax t)%Z -> (b ^ Z.of_nat n <= imax t)%Z ->
  det (intS t) n (mxrows (L *m U)) = Ok (\prod_i U i i).
Proof.
move=> Hs Hw Hn H H2 H3; have I1 : (1 <= imax t)%Z by rewrite /imax Hs; have := Z.pow_le_mono_r 2 1 (width t - 1); lia.
have W := prod_within H.
have [_ [HH _]] := @c70_int t (imax t) Hs ltac:(lia) ltac:(lia) n n 0 _ 0 0 W ltac:(lia).
by have [X [-> <-]] := HH _ (det_S Hn I1 H H2 H3).
Qed.

(** in floating point: no rounding error at all *)
Theorem c71_lu_float prec emax (Hp : Prec_gt_0 prec) (He : Prec_lt_emax prec emax) A :
  mrel (@valued prec emax) (mxrows (L *m U)) A -> (Z.of_nat n * (a * b) <= 2 ^ prec)%Z ->
  exists L' U', lu (floatS prec emax) n A = Ok (L', U') /\
    mrel (@valued prec emax) (mxrows L) L' /\ mrel (@valued prec emax) (mxrows U) U'.
Proof.
move=> HA H; have I1 : (1 <= 2 ^ prec)%Z by have : (0 < prec)%Z by []; have := Z.pow_pos_nonneg 2 prec; lia.
have W := prod_within H.
have V0 : @valued prec emax 0 (B754_zero false) by split.
have [_ [_ [_ [_ [HH _]]]]] := @c70_float prec emax _ _ (2 ^ prec) ltac:(lia) n n 0 _ _ 0 0 _ W ltac:(lia) HA V0.
by have [[L' U'] [-> [HL' HU']]] := HH _ (lu_S I1 H); exists L', U'.
Qed.

Theorem c71_det_float prec emax (Hp : Prec_gt_0 prec) (He : Prec_lt_emax prec emax) A : (3 < n)%N ->
  mrel (@valued prec emax) (mxrows (L *m U)) A -> (Z.of_nat n * (a * b) <= 2 ^ prec)%Z ->
  (a * (b * b) <= 2 ^ prec)%Z -> (b ^ Z.of_nat n <= 2 ^ prec)%Z ->
  exists d, det (floatS prec emax) n A = Ok d /\ valued (\prod_i U i i) d.
Proof.
move=> Hn HA H H2 H3; have I1 : (1 <= 2 ^ prec)%Z by have : (0 < prec)%Z by []; have := Z.pow_pos_nonneg 2 prec; lia.
have W := prod_within H.
have V0 : @valued prec emax 0 (B754_zero false) by split.
have [_ [HH _]] := @c70_float prec emax _ _ (2 ^ prec) ltac:(lia) n n 0 _ _ 0 0 _ W ltac:(lia) HA V0.
exact: HH (det_S Hn I1 H H2 H3).
Qed.
End LU.
End Factors.

Section Chol.
Variables (n : nat) (L : 'M[Z]_n) (a : Z).
Hypothesis HL : lower L.
Hypothesis Hd : forall i, (0 < L i i)%Z.
Hypothesis Ha : bounded L a.

Lemma mul_tr : mxrows (L *m L^T) = mk n n (fun i j => zsum n (fun k => (mxf Z0 L i k * mxf Z0 L j k)%Z)).
Proof.
rewrite mul_mk; apply: mk_ext => i j /ltP Hi /ltP Hj; rewrite !zsum_mx; apply: eq_bigr => k _.
by congr (_ * _)%Z; rewrite (mxf_at _ (ltn_ord k) Hj) (mxf_at _ Hj (ltn_ord k)) mxE.
Qed.

Lemma chol_S B : (1 <= B)%Z -> (Z.of_nat n * (a * a) <= B)%Z -> chol (strictS B) n (mxrows (L *m L^T)) = Ok (mxrows L).
Proof.
move=> B1 H; rewrite mul_tr (mxrowsE Z0 L).
apply: (@chol_strict B B1 n (mxf Z0 L) a _ _ _ H).
- by move=> i j [/ltP Hij /ltP Hj]; rewrite (mxf_at L (ltn_trans Hij Hj) Hj); exact: HL.
- by move=> i /ltP Hi; rewrite (mxf_at L Hi Hi).
- by move=> i j; exact: mxf_bounded.
Qed.

Lemma bounded_tr : bounded L^T a. Proof. by move=> i j; rewrite mxE. Qed.

Theorem c71_chol_int t : sgn t = true -> (1 < width t <= 64)%Z -> (Z.of_nat n * (a * a) <= imax t)%Z ->
  chol (intS t) n (mxrows (L *m L^T)) = Ok (mxrows L).
Proof.
move=> Hs Hw H; have I1 : (1 <= imax t)%Z by rewrite /imax Hs; have := Z.pow_le_mono_r 2 1 (width t - 1); lia.
have W := prod_within Ha bounded_tr H.
have [_ [_ [_ [_ [_ [HH _]]]]]] := @c70_int t (imax t) Hs ltac:(lia) ltac:(lia) n n 0 _ 0 0 W ltac:(lia).
by have [X [-> <-]] := HH _ (chol_S I1 H).
Qed.

Theorem c71_chol_float prec emax (Hp : Prec_gt_0 prec) (He : Prec_lt_emax prec emax) A :
  mrel (@valued prec emax) (mxrows (L *m L^T)) A -> (Z.of_nat n * (a * a) <= 2 ^ prec)%Z ->
  exists L', chol (floatS prec emax) n A = Ok L' /\ mrel (@valued prec emax) (mxrows L) L'.
Proof.
move=> HA H; have I1 : (1 <= 2 ^ prec)%Z by have : (0 < prec)%Z by []; have := Z.pow_pos_nonneg 2 prec; lia.
have W := prod_within Ha bounded_tr H.
have V0 : @valued prec emax 0 (B754_zero false) by split.
have [_ [_ [_ [_ [_ [HH _]]]]]] := @c70_float prec emax _ _ (2 ^ prec) ltac:(lia) n n 0 _ _ 0 0 _ W ltac:(lia) HA V0.
exact: HH (chol_S I1 H).
Qed.
End Chol.

(** ** the hypotheses are met *)

(** a 4x4 matrix, its elimination and its factors on long *)
Definition ex4 : matrix Z := [:: [:: 2; 1; 0; 3]; [:: 4; 5; 1; 7]; [:: -2; 5; 4; 0]; [:: 6; 0; -1; 11]]%Z.
Example c70_ex_det : det (strictS 1000) 4 ex4 = det (intS int64) 4 ex4 /\ returns (det (strictS 1000) 4 ex4) /\ within 1000 ex4.
Proof. by split; [vm_compute|split; [vm_compute; eexists|repeat constructor]]. Qed.
Example c70_ex_stat : let A := [:: [:: 1; 1]; [:: 7; 7]]%Z in
  mean (strictS 100) 2 2 A = Ok 4%Z /\ var (strictS 100) 2 2 A = Ok 9%Z /\ stddev (strictS 100) 2 2 A = Ok 3%Z.
Proof. by vm_compute. Qed.
Example c70_ex_inv : inv (strictS 100) 3 [:: [:: 1; 2; 3]; [:: 0; 1; 4]; [:: 5; 6; 0]]%Z =
  Ok [:: [:: -24; 18; 5]; [:: 20; -15; -4]; [:: -5; 4; 1]]%Z.
Proof. by vm_compute. Qed.
(** and where rounding is needed the strict run says so *)
Example c70_ex_refused : inv (strictS 100) 2 [:: [:: 1; 2]; [:: 3; 4]]%Z = UB BadConversion.
Proof. by vm_compute. Qed.

Definition exL : 'M[Z]_2 := mx22 2%Z 0%Z 3%Z 1%Z.
Example c71_ex_chol : [/\ lower exL, forall i, (0 < exL i i)%Z & bounded exL 3].
Proof.
split.
- by case=> [[|[|//]] Hi] [[|[|//]] Hj] //= _; rewrite /exL mxE.
- by case=> [[|[|//]] Hi]; rewrite /exL mxE.
- by case=> [[|[|//]] Hi] [[|[|//]] Hj]; rewrite /exL mxE.
Qed.
Example c71_ex_lu : [/\ unit_lower (mx22 1%Z 0%Z 3%Z 1%Z), upper (mx22 2%Z 5%Z 0%Z (-7)%Z) &
  forall i, mx22 2%Z 5%Z 0%Z (-7)%Z i i != 0].
Proof.
split.
- by split=> [[[|[|//]] Hi]|[[|[|//]] Hi] [[|[|//]] Hj]] //=; rewrite mxE.
- by case=> [[|[|//]] Hi] [[|[|//]] Hj] //=; rewrite mxE.
- by case=> [[|[|//]] Hi]; rewrite mxE.
Qed.

Print Assumptions c70_int.
Print Assumptions c70_float.
Print Assumptions c70_det_true.
Print Assumptions c70_inv_true.
Print Assumptions c70_lu_true.
Print Assumptions c70_chol_true.
Print Assumptions c70_stat_true.
Print Assumptions c71_lu_int.
Print Assumptions c71_lu_float.
Print Assumptions c71_det_int.
Print Assumptions c71_det_float.
Print Assumptions c71_chol_int.
Print Assumptions c71_chol_float.
