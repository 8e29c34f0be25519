(** * Property C103: matrices of dual numbers (automatic differentiation) *)

From Coq Require Import ZArith List Lia.
From Flocq Require Import IEEE754.BinarySingleNaN.
From mathcomp Require Import all_ssreflect all_algebra all_fingroup.
From mathcomp Require Import zify.
From Verif Require Import Base Scalar Model Spec CFloat Loops Struct Elim Conv Alg Exact ExactLemmas Det Inv ConvExact StatExact Pow Param SimExact Semiring Dual DualMx.

Set Implicit Arguments.
Unset Strict Implicit.
Unset Printing Implicit Defensive.

Import GRing.Theory.
Local Open Scope ring_scope.
Delimit Scope Z_scope with Z.

(** ** The values are those of the plain computation, for every underlying type *)

(** operations return or are undefined, and expressions have the type of the elements *)
Definition calm (A : Type) (o : outcome A) : Prop :=
  match o with Throw _ | Terminate => False | _ => True end.
Record plain (V : scalar) : Prop := Plain {
  pl_ldst : forall x : xpr V, ld (st x) = x;
  pl_stld : forall a : elt V, st (ld a) = a;
  pl_add : forall a b : xpr V, calm (xadd a b);
  pl_sub : forall a b : xpr V, calm (xsub a b);
  pl_mul : forall a b : xpr V, calm (xmul a b);
  pl_div : forall a b : xpr V, calm (xdiv a b);
  pl_neg : forall a : xpr V, calm (xneg a);
  pl_sqrt : forall a : xpr V, calm (xsqrt a);
  pl_divsz : forall (a : xpr V) n, calm (divsz a n) }.

Lemma plain_float prec emax (Hp : FLX.Prec_gt_0 prec) (He : Prec_lt_emax prec emax) : plain (floatS prec emax).
Proof. by split. Qed.
Lemma plain_exact (F : fieldType) lt ab sq : (forall x, calm (sq x)) -> plain (@exactS F lt ab sq).
Proof. by move=> H; split=> //= *; rewrite /exact_div; case: ifP. Qed.

(** the values of a matrix of dual numbers *)
Definition vals {T : Type} (X : matrix (T * T)) : matrix T := map (map fst) X.

(** [o'] does with plain numbers what [o] does with dual ones: same exception, same termination,
    and the values are the result *)
Definition same_values {A B : Type} (f : A -> B) (o : outcome A) (o' : outcome B) : Prop :=
  match o with
  | Ok x => o' = Ok (f x)
  | Throw e => o' = Throw e
  | Terminate => o' = Terminate
  | UB _ | OutOfFuel => True
  end.

Section Values.
Variables (V : scalar) (P : plain V).
Notation K := (dualS V).
Notation T := (elt V).
Definition vrel (x : elt K) (a : T) : Prop := x.1 = a.
Definition vrelx (x : xpr K) (a : xpr V) : Prop := ld x.1 = a.

Lemma vld a a' : vrel a a' -> vrelx (ld a) (ld a').
Proof. by move=> <-. Qed.
Lemma vst v v' : vrelx v v' -> vrel (st v) (st v').
Proof. by move=> <-; rewrite /vrel (pl_stld P). Qed.
Lemma vlit z : vrelx (lit z) (lit z).
Proof. by rewrite /vrelx /= /lite (pl_ldst P). Qed.

Lemma vkeep A (o : outcome (xpr V)) (c : T -> outcome A) (g : T -> A -> elt K) :
  (forall v a, (g v a).1 = v) -> (forall v, calm (c v)) ->
  refines vrelx (let* v := keep o in let* d := c v in Ok (g v d)) o.
Proof.
move=> Hg Hc; case: o => //= x; case E: (c (st x)) => [d| | | |] //=; try by have := Hc (st x); rewrite E.
by exists x; split=> //; rewrite /vrelx Hg (pl_ldst P).
Qed.
Lemma calm_keep o : calm o -> calm (@keep V o). Proof. by case: o. Qed.
Lemma calm_bind A B (o : outcome A) (c : A -> outcome B) : calm o -> (forall a, calm (c a)) -> calm (bind o c).
Proof. by case: o => //= a _ H; exact: H. Qed.

Lemma vadd a a' b b' : vrelx a a' -> vrelx b b' -> refines vrelx (xadd a b) (xadd a' b').
Proof. by move=> <- <-; apply: (@vkeep _ _ _ (fun v d => (v, d))) => // v; apply: calm_keep; exact: (pl_add P). Qed.
Lemma vsub a a' b b' : vrelx a a' -> vrelx b b' -> refines vrelx (xsub a b) (xsub a' b').
Proof. by move=> <- <-; apply: (@vkeep _ _ _ (fun v d => (v, d))) => // v; apply: calm_keep; exact: (pl_sub P). Qed.
Lemma vneg a a' : vrelx a a' -> refines vrelx (xneg a) (xneg a').
Proof. by move=> <-; apply: (@vkeep _ _ _ (fun v d => (v, d))) => // v; apply: calm_keep; exact: (pl_neg P). Qed.
Lemma bind_assoc' A B C (o : outcome A) (f : A -> outcome B) (g : B -> outcome C) :
  bind (bind o f) g = bind o (fun a => bind (f a) g).
Proof. by case: o. Qed.
Lemma vmul a a' b b' : vrelx a a' -> vrelx b b' -> refines vrelx (xmul a b) (xmul a' b').
Proof.
move=> <- <-.
have -> : xmul (s := K) a b = (let* v := keep (xmul (ld a.1) (ld b.1)) in
    let* d := (let* p := xmul (ld a.1) (ld b.2) in let* q := xmul (ld a.2) (ld b.1) in keep (xadd p q)) in
    Ok (v, d)).
  by rewrite /= /d_mul; case: keep => //= v; rewrite !bind_assoc'; case: xmul => //= p; rewrite !bind_assoc'.
apply: (@vkeep _ _ _ (fun v d => (v, d))) => // v.
do 2!(apply: calm_bind => [|?]; first exact: (pl_mul P)); apply: calm_keep; exact: (pl_add P).
Qed.
Lemma vdiv a a' b b' : vrelx a a' -> vrelx b b' -> refines vrelx (xdiv a b) (xdiv a' b').
Proof.
move=> <- <-.
have -> : xdiv (s := K) a b = (let* v := keep (xdiv (ld a.1) (ld b.1)) in
    let* d := (let* p := xmul (ld v) (ld b.2) in let* q := xsub (ld a.2) p in keep (xdiv q (ld b.1))) in
    Ok (v, d)).
  by rewrite /= /d_div; case: keep => //= v; rewrite !bind_assoc'; case: xmul => //= p; rewrite !bind_assoc'.
apply: (@vkeep _ _ _ (fun v d => (v, d))) => // v.
apply: calm_bind => [|?]; first exact: (pl_mul P).
apply: calm_bind => [|?]; first exact: (pl_sub P).
by apply: calm_keep; exact: (pl_div P).
Qed.
Lemma vsqrt a a' : vrelx a a' -> refines vrel (xsqrt a) (xsqrt a').
Proof.
move=> <-; rewrite /= /d_sqrt; case E: (xsqrt (ld a.1)) => [r| | | |] //=.
case Ep: xmul => [p| | | |] //=; try by have := pl_mul P (lit 2) (ld r); rewrite Ep.
rewrite /keep; case Eq: (xdiv (ld a.2) p) => [d| | | |] //=; try by have := pl_div P (ld a.2) p; rewrite Eq.
by exists r.
Qed.
Lemma vdivsz a a' n : vrelx a a' -> refines vrel (divsz a n) (divsz a' n).
Proof.
move=> <-; rewrite /=; case E: (divsz (ld a.1) n) => [r| | | |] //=.
case Ep: (divsz (ld a.2) n) => [p| | | |] //=; try by have := pl_divsz P (ld a.2) n; rewrite Ep.
by exists r.
Qed.
Lemma veq a a' b b' : vrelx a a' -> vrelx b b' -> xeq a b = xeq a' b'.
Proof. by move=> <- <-. Qed.
Lemma vlt a a' b b' : vrelx a a' -> vrelx b b' -> xlt a b = xlt a' b'.
Proof. by move=> <- <-. Qed.

Lemma vrel_vals (A : matrix (T * T)) : mrel vrel A (vals A).
Proof. by elim: A => [|r A IH]; constructor=> //; elim: r => [|x r IHr]; constructor. Qed.
Lemma vals_vrel (A : matrix (T * T)) B : mrel vrel A B -> B = vals A.
Proof.
by elim=> [|r r' A' B' Hr _ ->] //=; congr (_ :: _); elim: Hr => [|x x' l l' <- _ ->].
Qed.

Lemma same_mx (o : outcome (matrix (T * T))) o' : refines (mrel vrel) o o' -> same_values vals o o'.
Proof. by case: o => [x| | | |] //= [b [-> /vals_vrel ->]]. Qed.
Lemma same_elt (o : outcome (T * T)) o' : refines vrel o o' -> same_values fst o o'.
Proof. by case: o => [x| | | |] //= [b [-> <-]]. Qed.

Lemma same_vec (o : outcome (list (T * T))) o' : refines (Forall2 vrel) o o' -> same_values (map fst) o o'.
Proof. by case: o => [x| | | |] //= [b [-> H]]; congr Ok; elim: H => [|u u' l l' <- _ ->]. Qed.
Lemma same_bool (o : outcome bool) o' : refines eq o o' -> same_values id o o'.
Proof. by case: o => [x| | | |] //= [b [-> <-]]. Qed.
Lemma same_mx2 (o : outcome (matrix (T * T) * matrix (T * T))) o' : refines (relP (mrel vrel) (mrel vrel)) o o' ->
  same_values (fun p => (vals p.1, vals p.2)) o o'.
Proof. by case: o => [[x y]| | | |] //= [[b c] [-> [/= /vals_vrel -> /vals_vrel ->]]]. Qed.

Ltac vgo := first [exact: vrel_vals | exact: vld | exact: vst | exact: vlit | exact: vadd | exact: vsub | exact: vmul
  | exact: vdiv | exact: vneg | exact: veq | exact: vlt | exact: vsqrt | exact: vdivsz | by []].
Local Notation r2 L := (L K V vrel vrelx).

Theorem c103_values_products n m p (A B : matrix (T * T)) (s : T * T) :
  [/\ same_values vals (sum K n m A B) (sum V n m (vals A) (vals B)),
      same_values vals (sub K n m A B) (sub V n m (vals A) (vals B)),
      same_values vals (mult K n m p A B) (mult V n m p (vals A) (vals B)),
      same_values vals (strassen K A B) (strassen V (vals A) (vals B)) &
      same_values vals (trans K n m A) (trans V n m (vals A))] /\
  [/\ same_values vals (mult_scalar K n m A s) (mult_scalar V n m (vals A) s.1),
      same_values vals (div K n m A s) (div V n m (vals A) s.1),
      same_values vals (conv2 K n m A B) (conv2 V n m (vals A) (vals B)),
      same_values vals (conv2_full K n m A B) (conv2_full V n m (vals A) (vals B)) &
      same_values vals (conv2_valid K n A B) (conv2_valid V n (vals A) (vals B))].
Proof.
split; split; apply: same_mx.
- by apply: (r2 sum_ref); vgo.
- by apply: (r2 sub_ref); vgo.
- by apply: (r2 mult_ref); vgo.
- by apply: (r2 strassen_ref); vgo.
- by apply: (r2 trans_ref); vgo.
- by apply: (r2 mult_scalar_ref); vgo.
- by apply: (r2 div_ref); vgo.
- by apply: (r2 conv2_ref); vgo.
- by apply: (r2 conv2_full_ref); vgo.
- by apply: (r2 conv2_valid_ref); vgo.
Qed.

Theorem c103_values_solve n w p (A : matrix (T * T)) :
  [/\ same_values fst (det K n A) (det V n (vals A)),
      same_values vals (Model.inv K n A) (Model.inv V n (vals A)),
      same_values vals (pow K n w A p) (pow V n w (vals A) p),
      same_values (fun q => (vals q.1, vals q.2)) (lu K n A) (lu V n (vals A)) &
      same_values vals (chol K n A) (chol V n (vals A))].
Proof.
split.
- by apply: same_elt; apply: (r2 det_ref); vgo.
- by apply: same_mx; apply: (r2 inv_ref); vgo.
- by apply: same_mx; apply: (r2 pow_ref_all); vgo.
- by apply: same_mx2; apply: (r2 lu_ref); vgo.
- by apply: same_mx; apply: (r2 chol_ref); vgo.
Qed.

Theorem c103_values_stats n m (A : matrix (T * T)) :
  [/\ same_values fst (mean K n m A) (mean V n m (vals A)),
      same_values fst (var K n m A) (var V n m (vals A)),
      same_values fst (stddev K n m A) (stddev V n m (vals A)) &
      same_values id (isSymetric K n A) (isSymetric V n (vals A)) /\
      same_values id (isIdentity K n A) (isIdentity V n (vals A))].
Proof.
split.
- by apply: same_elt; apply: (r2 mean_ref); vgo.
- by apply: same_elt; apply: (r2 var_ref); vgo.
- by apply: same_elt; apply: (r2 stddev_ref); vgo.
- by split; apply: same_bool; [apply: (r2 isSymetric_ref)|apply: (r2 isIdentity_ref)]; vgo.
Qed.
End Values.

(** ** Derivatives, in exact arithmetic *)

(** value and derivative at 0 of a polynomial *)
Definition tangent (F : fieldType) (p : {poly F}) : dual_ringType F := (p.[0], p^`().[0]).

Lemma jetE (F : fieldType) : @jet F =1 @tangent F.
Proof. by move=> p; rewrite /jet /tangent !horner_coef0 coef_deriv. Qed.

Section Exact.
Variables (F : fieldType) (lt : F -> F -> bool) (ab : F -> F) (sq : F -> outcome F).
Notation K := (exactS lt ab sq).
Notation D := (dualS K).
Notation R := (dual_unitRingType F).
Notation C := (dual_comUnitRingType F).

Let dlt : R -> R -> bool := xlt (s := D).
Let E : scalar := @exactS R dlt id (d_sqrt (V := K)).
Let L : scalar := @locS C dlt id (d_sqrt (V := K)).

Lemma dual_local (a b : C) : a + b \is a GRing.unit -> (a \is a GRing.unit) || (b \is a GRing.unit).
Proof.
rewrite !dunitE d1D -negb_and; apply: contra => /andP[/eqP -> /eqP ->]; by rewrite addr0.
Qed.

Lemma ref_eq (T : Type) (o o' : outcome T) : refines eq o o' -> forall x, o = Ok x -> o' = Ok x.
Proof. by move=> H x Ex; move: H; rewrite Ex /= => [[y [-> <-]]]. Qed.
Lemma ref_meq (T : Type) (o o' : outcome (matrix T)) : refines (mrel eq) o o' -> forall x, o = Ok x -> o' = Ok x.
Proof.
move=> H x Ex; move: H; rewrite Ex /= => [[y [-> H]]]; congr Ok; elim: H => // r r' l l' Hr _ ->.
by congr (_ :: _); elim: Hr => // a a' w w' <- _ ->.
Qed.

Lemma dlitE z : lit (s := E) z = lit (s := D) z.
Proof. by rewrite /= lit_dual. Qed.
Lemma ddiv_exact (a b : R) : refines eq (exact_div a b) (xdiv (s := D) a b).
Proof.
rewrite /exact_div dunitE; case: ifP => //= H; exists (a / b : R); split=> //.
by rewrite ddivE // /= /d_div /= /exact_div !unitfE H.
Qed.
Lemma ddivsz_exact (a : R) n : refines eq (exact_div a (ring_of_Z R n)) (divsz (s := D) a n).
Proof.
have Ey : ring_of_Z R n = (ring_of_Z F n, 0) :> R by exact: lit_dual.
rewrite /exact_div dunitE; case: ifP => // H; have H1 : ring_of_Z F n != 0 by move: H; rewrite Ey.
exists (a / ring_of_Z R n); split=> //.
by rewrite ddivE //= Ey /= mulr0 subr0 /exact_div !unitfE H1.
Qed.

Lemma mrel_eq (T : Type) (A : matrix T) : mrel eq A A.
Proof. by elim: A => [|r A IH]; constructor=> //; elim: r => [|x r IHr]; constructor. Qed.
Ltac ego := first [exact: mrel_eq | exact: dlitE | exact: ddiv_exact | exact: ddivsz_exact | by []
  | by move=> ? ? ? ? -> -> | by move=> ? ? ->
  | by move=> ? ? ? ? -> ->; exact: ddiv_exact | by move=> ? ? ? ->; exact: ddivsz_exact
  | by move=> ? ? ? ? -> -> /=; eexists | by move=> ? ? -> /=; eexists | idtac].
Local Notation rE L' := (L' E D eq eq).

Lemma sum_d n m A B X : sum E n m A B = Ok X -> sum D n m A B = Ok X.
Proof. by apply: ref_meq; apply: (rE sum_ref); ego. Qed.
Lemma sub_d n m A B X : sub E n m A B = Ok X -> sub D n m A B = Ok X.
Proof. by apply: ref_meq; apply: (rE sub_ref); ego. Qed.
Lemma mult_d n m p A B X : mult E n m p A B = Ok X -> mult D n m p A B = Ok X.
Proof. by apply: ref_meq; apply: (rE mult_ref); ego. Qed.
Lemma strassen_d A B X : strassen E A B = Ok X -> strassen D A B = Ok X.
Proof. by apply: ref_meq; apply: (rE strassen_ref); ego. Qed.
Lemma trans_d n m A X : trans E n m A = Ok X -> trans D n m A = Ok X.
Proof. by apply: ref_meq; apply: (rE trans_ref); ego. Qed.
Lemma conv2_d n m A B X : conv2 E n m A B = Ok X -> conv2 D n m A B = Ok X.
Proof. by apply: ref_meq; apply: (rE conv2_ref); ego. Qed.
Lemma conv2_full_d n m A B X : conv2_full E n m A B = Ok X -> conv2_full D n m A B = Ok X.
Proof. by apply: ref_meq; apply: (rE conv2_full_ref); ego. Qed.
Lemma conv2_valid_d n A B X : conv2_valid E n A B = Ok X -> conv2_valid D n A B = Ok X.
Proof. by apply: ref_meq; apply: (rE conv2_valid_ref); ego. Qed.
Lemma pow_d n w A p X : (0 <= p)%Z -> pow E n w A p = Ok X -> pow D n w A p = Ok X.
Proof. by move=> Hp; apply: ref_meq; apply: (rE pow_ref); ego. Qed.
Lemma mean_d n m A x : mean E n m A = Ok x -> mean D n m A = Ok x.
Proof. by apply: ref_eq; apply: (rE mean_ref); ego. Qed.
Lemma var_d n m A x : var E n m A = Ok x -> var D n m A = Ok x.
Proof. by apply: ref_eq; apply: (rE var_ref); ego. Qed.

Local Notation rL L' := (L' L D eq eq).
Lemma locxeq (a b : R) : xeq (s := L) a b = xeq (s := D) a b.
Proof. by rewrite /= dunitE d1D d1N negbK subr_eq0. Qed.
Lemma llitE z : lit (s := L) z = lit (s := D) z.
Proof. exact: (dlitE z). Qed.
Ltac lgo := first [exact: llitE | by move=> ? ? ? ? -> ->; exact: locxeq | ego].
Lemma det_d n A x : det L n A = Ok x -> det D n A = Ok x.
Proof. apply: ref_eq; apply: (rL det_ref); lgo. Qed.
Lemma inv_d n A X : Model.inv L n A = Ok X -> Model.inv D n A = Ok X.
Proof. by apply: ref_meq; apply: (rL inv_ref); lgo. Qed.

(** [d] is the value at 0 and the derivative at 0 of the curve [f] *)
Definition derives n m (d : outcome (matrix (F * F))) (f : F -> outcome (matrix F)) : Prop :=
  exists2 P : 'M[{poly F}]_(n, m),
    d = Ok (mxrows (map_mx (@tangent F) P)) & forall t, f t = Ok (mxrows (\matrix_(i, j) (P i j).[t])).
Definition derives1 (d : outcome (F * F)) (f : F -> outcome F) : Prop :=
  exists2 p : {poly F}, d = Ok (tangent p) & forall t, f t = Ok p.[t].

Lemma tangent_line n m (A B : 'M[F]_(n, m)) : map_mx (@tangent F) (line A B) = dmx A B.
Proof. by rewrite -line_jet; apply/matrixP => i j; rewrite !mxE jetE. Qed.
Lemma evalE n m (P : 'M[{poly F}]_(n, m)) t : map_mx (horner_eval t) P = \matrix_(i, j) (P i j).[t].
Proof. by apply/matrixP => i j; rewrite !mxE. Qed.
Lemma tangentE n m (P : 'M[{poly F}]_(n, m)) : map_mx (@tangent F) P = map_mx (@jet F) P.
Proof. by apply/matrixP => i j; rewrite !mxE jetE. Qed.

Lemma derivesI n m (P : 'M[{poly F}]_(n, m)) d f :
  d = Ok (mxrows (map_mx (@jet F) P)) -> (forall t, f t = Ok (mxrows (map_mx (horner_eval t) P))) -> derives n m d f.
Proof. by move=> Ed Ef; exists P => [|t]; rewrite ?Ed ?tangentE ?Ef ?evalE. Qed.

Section Two.
Variables (n m : nat) (A B A' B' : 'M[F]_(n, m)).
Theorem c103_sum : sum D n m (mxrows (dmx A B)) (mxrows (dmx A' B')) = Ok (mxrows (dmx (A + A') (B + B'))).
Proof. by apply: sum_d; rewrite sum_mx dmxD. Qed.
Theorem c103_sub : sub D n m (mxrows (dmx A B)) (mxrows (dmx A' B')) = Ok (mxrows (dmx (A - A') (B - B'))).
Proof. by apply: sub_d; rewrite sub_mx dmxB. Qed.
Theorem c103_trans : trans D n m (mxrows (dmx A B)) = Ok (mxrows (dmx A^T B^T)).
Proof. by apply: trans_d; rewrite trans_mx dmxT. Qed.
End Two.

Theorem c103_mult n m p (A B : 'M[F]_(n, m)) (A' B' : 'M[F]_(m, p)) :
  mult D n m p (mxrows (dmx A B)) (mxrows (dmx A' B')) = Ok (mxrows (dmx (A *m A') (A *m B' + B *m A'))) /\
  derives n p (mult D n m p (mxrows (dmx A B)) (mxrows (dmx A' B')))
    (fun t => mult K n m p (mxrows (A + t *: B)) (mxrows (A' + t *: B'))).
Proof.
have X : mult D n m p (mxrows (dmx A B)) (mxrows (dmx A' B')) = Ok (mxrows (dmx A B *m dmx A' B')).
  by apply: mult_d; rewrite mult_mx.
split; first by rewrite X dmxM.
apply: (derivesI (P := line A B *m line A' B')) => [|t]; first by rewrite X map_mxM !line_jet.
by rewrite mult_mx map_mxM !line_horner.
Qed.

Theorem c103_strassen (A B A' B' : 'M[F]_2) :
  strassen D (mxrows (dmx A B)) (mxrows (dmx A' B')) = Ok (mxrows (dmx (A *m A') (A *m B' + B *m A'))).
Proof. by apply: strassen_d; rewrite strassen_mx dmxM. Qed.

Lemma map_mxpow (R1 R2 : ringType) (g : {rmorphism R1 -> R2}) n (M : 'M[R1]_n) p :
  map_mx g (mxpow M p) = mxpow (map_mx g M) p.
Proof. by elim: p => [|p IH] /=; rewrite ?map_mx1 // map_mxM IH. Qed.

Lemma pow_e (R1 : unitRingType) lt1 ab1 sq1 n w (M : 'M[R1]_n) p : (1 <= w)%Z -> (Z.of_nat p < 2 ^ (w - 1))%Z ->
  pow (@exactS R1 lt1 ab1 sq1) n w (mxrows M) (Z.of_nat p) = Ok (mxrows (mxpow M p)).
Proof.
move=> Hw Hp; have E1 : mxrows M = mxrows (mxpow M 1) by rewrite mxpow1.
rewrite E1; apply: (pow_family (K := @exactS R1 lt1 ab1 sq1) (P := fun q => mxrows (mxpow M q))) => //.
  by rewrite eye1_mx.
by move=> a b; rewrite mult_mx mxpowD.
Qed.

Theorem c103_pow n w p (A B : 'M[F]_n) : (1 <= w)%Z -> (Z.of_nat p < 2 ^ (w - 1))%Z ->
  pow D n w (mxrows (dmx A B)) (Z.of_nat p) =
    Ok (mxrows (dmx (mxpow A p) (\sum_(k < p) mxpow A k *m B *m mxpow A (p - k.+1)))) /\
  derives n n (pow D n w (mxrows (dmx A B)) (Z.of_nat p)) (fun t => pow K n w (mxrows (A + t *: B)) (Z.of_nat p)).
Proof.
move=> Hw Hp; have X : pow D n w (mxrows (dmx A B)) (Z.of_nat p) = Ok (mxrows (mxpow (dmx A B) p)).
  by apply: pow_d; [lia|exact: pow_e].
split; first by rewrite X dmxX.
apply: (derivesI (P := mxpow (line A B) p)) => [|t]; first by rewrite X map_mxpow line_jet.
by rewrite pow_e // map_mxpow line_horner.
Qed.

Lemma at0_map (R1 R2 : ringType) (g : {rmorphism R1 -> R2}) n m (M : 'M[R1]_(n, m)) p q :
  g (at0 M p q) = at0 (map_mx g M) p q.
Proof.
rewrite /at0; case: ifP => _; last by rewrite rmorph0.
by case: insub => [i|]; rewrite ?rmorph0 //; case: insub => [j|]; rewrite ?rmorph0 // mxE.
Qed.
Lemma octave_map (R1 R2 : ringType) (g : {rmorphism R1 -> R2}) n m (M : 'M[R1]_(n, m)) k p q :
  g (octave M k p q) = octave (map_mx g M) (map_mx g k) p q.
Proof.
rewrite /octave rmorph_sum; apply: eq_bigr => a _; rewrite rmorph_sum; apply: eq_bigr => b _.
by rewrite rmorphM at0_map mxE.
Qed.
Lemma rot_map (R1 R2 : ringType) (g : {rmorphism R1 -> R2}) (k : 'M[R1]_3) : map_mx g (rot180 k) = rot180 (map_mx g k).
Proof. by apply/matrixP => i j; rewrite !mxE. Qed.

Ltac conv_map := let i := fresh in let j := fresh in
  congr (Ok (mxrows _)); apply/matrixP => i j; rewrite [LHS]mxE [RHS]mxE mxE octave_map rot_map.

Theorem c103_conv n m (A B : 'M[F]_(n, m)) (k l : 'M[F]_3) :
  (Z.of_nat n <= 2 ^ 31)%Z -> (Z.of_nat m <= 2 ^ 31)%Z ->
  derives n m (conv2 D n m (mxrows (dmx A B)) (mxrows (dmx k l)))
    (fun t => conv2 K n m (mxrows (A + t *: B)) (mxrows (k + t *: l))) /\
  derives (n + 2) (m + 2) (conv2_full D n m (mxrows (dmx A B)) (mxrows (dmx k l)))
    (fun t => conv2_full K n m (mxrows (A + t *: B)) (mxrows (k + t *: l))).
Proof.
move=> Hn Hm; split.
  apply: (derivesI (P := octave_same (line A B) (rot180 (line k l)))) => [|t].
    by rewrite (conv2_d (conv2_mx _ _ _ Hn Hm _ _)); conv_map; rewrite !line_jet.
  by rewrite conv2_mx //; conv_map; rewrite !line_horner.
apply: (derivesI (P := octave_full (line A B) (rot180 (line k l)))) => [|t].
  by rewrite (conv2_full_d (conv2_full_mx _ _ _ Hn Hm _ _)); conv_map; rewrite !line_jet.
by rewrite conv2_full_mx //; conv_map; rewrite !line_horner.
Qed.

(** det: the closed formulas up to 3x3 always, the elimination where the values are not singular *)
Theorem c103_det n (A B : 'M[F]_n) : (0 < n <= 3)%N || (\det A != 0) ->
  det D n (mxrows (dmx A B)) = Ok (\det A, \sum_i \sum_j cofactor A i j * B i j) /\
  derives1 (det D n (mxrows (dmx A B))) (fun t => det K n (mxrows (A + t *: B))).
Proof.
move=> H; have X : det D n (mxrows (dmx A B)) = Ok (\det (dmx A B)).
  apply: det_d.
  have U : (0 < n <= 3)%N || ((dmx A B : 'M[C]_n) \in unitmx) by rewrite dmx_unit unitmxE unitfE.
  exact: (@loc_det_mx C dlt id (d_sqrt (V := K)) dual_local n (dmx A B) U).
split; first by rewrite X dmx_det.
exists (\det (line A B)) => [|t]; first by rewrite X -jetE -det_map_mx line_jet.
by rewrite det_mx -line_horner det_map_mx.
Qed.

(** inv up to 4x4, and beyond where no minor vanishes *)
Theorem c103_inv n (A B : 'M[F]_n) : (0 < n)%N -> \det A != 0 -> (n <= 4)%N || [forall i, forall j, cofactor A i j != 0] ->
  Model.inv D n (mxrows (dmx A B)) = Ok (mxrows (dmx (invmx A) (- (invmx A *m B *m invmx A)))) /\
  (forall t, \det (A + t *: B) != 0 -> exists2 X,
    Model.inv K n (mxrows (A + t *: B)) = Ok (mxrows X) &
    X = invmx A + t *: (- (invmx A *m B *m invmx A)) + t ^+ 2 *: (invmx A *m B *m invmx A *m B *m X)).
Proof.
move=> Hn0 HA Hn; have UA : A \in unitmx by rewrite unitmxE unitfE.
split.
  rewrite -dmx_inv //; apply: inv_d.
  have U : (dmx A B : 'M[C]_n) \in unitmx by rewrite dmx_unit.
  have [H4|H4] := leqP n 4.
    have H5 : (0 < n <= 4)%N by rewrite Hn0.
    exact: (@loc_inv_mx C dlt id (d_sqrt (V := K)) dual_local n (dmx A B) H5 U).
  have H5 : (3 < n)%N by lia.
  apply: (@loc_inv_mx_minors C dlt id (d_sqrt (V := K)) dual_local n (dmx A B) H5 U).
  move=> i j; move: Hn; rewrite leqNgt H4 /= => /forallP /(_ i) /forallP /(_ j).
  rewrite dunitE; congr (_ != 0); rewrite /cofactor.
  have -> : row' i (col' j (dmx A B)) = dmx (row' i (col' j A)) (row' i (col' j B)).
    by apply/matrixP => a b; rewrite !mxE.
  rewrite dmx_det; have -> : (-1) ^+ (i + j) = dcst ((-1) ^+ (i + j)) :> dual_ringType F by rewrite rmorphX rmorphN rmorph1.
  by rewrite d1M.
move=> t Ht; exists (invmx (A + t *: B)).
  by rewrite inv_mx // unitmxE unitfE.
by rewrite {1}inv_taylor // unitmxE unitfE.
Qed.
End Exact.

(** ** mean, var and stddev *)
Section Stats.
Variables (F : realFieldType) (sq : F -> outcome F) (n m : nat).
Notation K := (ordS sq).
Notation D := (dualS K).
Notation R := (dual_unitRingType F).
Hypothesis Hpos : (0 < n * m)%N.
Hypothesis Hsz : (Z.of_nat (n * m) < 2 ^ 64)%Z.
Implicit Types A B : 'M[F]_(n, m).

(** the covariance of two matrices *)
Definition mxcov A B : F := (\sum_i \sum_j (A i j - mxmean A) * (B i j - mxmean B)) / (n * m)%:R.

Let Nz : ((n * m)%:R : F) != 0 := size_unit F Hpos.
Let E : scalar := @exactS R (xlt (s := D)) id (d_sqrt (V := K)).

Lemma divsz_dual (x : R) : exact_div x (ring_of_Z R (size_mul n m)) = Ok ((x.1 / (n * m)%:R, x.2 / (n * m)%:R) : R).
Proof.
rewrite size_mulE // ring_of_Z_nat /exact_div.
have EN : (n * m)%:R = ((n * m)%:R, 0) :> R by rewrite -[RHS]/(dcst (n * m)%:R) rmorph_nat.
by rewrite dunitE EN /= Nz ddivE //= mulr0 subr0.
Qed.

Lemma mean_e A B : mean E n m (mxrows (dmx A B)) = Ok ((mxmean A, mxmean B) : R).
Proof.
rewrite /mean (@acc2 R n m (dmx A B) id (fun a r => Ok (r + a))) //.
rewrite [bind _ _]/=.
rewrite divsz_dual sum1 sum2 /mxmean; congr (Ok (_ / _, _ / _)).
all: by apply: eq_bigr => i _; rewrite ?sum1 ?sum2; apply: eq_bigr => j _; rewrite mxE.
Qed.

Lemma var_e A B : var E n m (mxrows (dmx A B)) = Ok ((mxvar A, 2%:R * mxcov A B) : R).
Proof.
rewrite /var mean_e [bind _ _]/=.
rewrite (@acc2 R n m (dmx A B) (fun a => (a - (mxmean A, mxmean B)) ^+ 2)
   (fun a r => Ok (r + (a - (mxmean A, mxmean B)) * (a - (mxmean A, mxmean B))))) //.
rewrite [bind _ _]/= divsz_dual sum1 sum2 /mxvar /mxcov.
rewrite mulrA mulr_sumr; congr (Ok (_ / _, _ / _)).
  by apply: eq_bigr => i _; rewrite sum1; apply: eq_bigr => j _; rewrite mxE expr2.
apply: eq_bigr => i _; rewrite sum2 mulr_sumr; apply: eq_bigr => j _; rewrite mxE expr2 d2M /=.
by rewrite mulrC -mulr2n -mulr_natl mulrC.
Qed.

Theorem c103_mean A B : mean D n m (mxrows (dmx A B)) = Ok (mxmean A, mxmean B).
Proof. exact: (mean_d (mean_e A B)). Qed.
Theorem c103_var A B : var D n m (mxrows (dmx A B)) = Ok (mxvar A, 2%:R * mxcov A B).
Proof. exact: (var_d (var_e A B)). Qed.
End Stats.

(** abs: the sign of the value times the derivative, where the value is not 0 *)
Theorem c103_abs (F : realFieldType) (sq : F -> outcome F) n m (J : matrix (F * F)) (A B : 'M[F]_(n, m)) : shape n m J ->
  (forall i j, A i j != 0) ->
  Model.abs (dualS (ordS sq)) n m J (mxrows (dmx A B)) =
    Ok (mxrows (dmx (map_mx Num.norm A) (\matrix_(i, j) (Num.sg (A i j) * B i j)))).
Proof.
move=> HJ H0; have [z ->] := proj1 (shape_mk (0, 0) n m J) HJ.
rewrite (mxrowsE (0, 0) (dmx A B)) abs_tab (mxrowsE (0, 0) (dmx (map_mx _ A) _)).
apply: tabM_ok => i j /ltP Hi /ltP Hj.
rewrite -[i]/(val (Ordinal Hi)) -[j]/(val (Ordinal Hj)) !mxf_ord !mxE /= /d_abs /=.
have := H0 (Ordinal Hi) (Ordinal Hj); case: (Num.Theory.ltrgt0P (A (Ordinal Hi) (Ordinal Hj))) => // P _.
  by rewrite Num.Theory.gtr0_sg // mul1r.
by rewrite /= Num.Theory.ltr0_sg // mulN1r.
Qed.

Theorem c103_stddev (F : rcfType) n m (A B : 'M[F]_(n, m)) : (0 < n * m)%N -> (Z.of_nat (n * m) < 2 ^ 64)%Z ->
  0 < mxvar A ->
  stddev (dualS (realS F)) n m (mxrows (dmx A B)) = Ok (Num.sqrt (mxvar A), mxcov A B / Num.sqrt (mxvar A)).
Proof.
move=> Hp Hs Hv; rewrite /stddev c103_var // [bind _ _]/= /d_sqrt /=.
have S0 : Num.sqrt (mxvar A) != 0 by rewrite Num.Theory.lt0r_neq0 // Num.Theory.sqrtr_gt0.
rewrite Order.POrderTheory.lt_gtF //= /exact_div unitfE mulf_neq0 ?Num.Theory.pnatr_eq0 //=.
by rewrite -mulf_div divff ?Num.Theory.pnatr_eq0 // mul1r.
Qed.

(** ** Where the derivative is lost *)

Definition jet64 (a b : Z) : elt (dualS float64S) := (f_of_Z 53 1024 a, f_of_Z 53 1024 b).
Definition mz64 n (f : nat -> nat -> Z) : matrix (elt float64S) := mk n n (fun i j => f_of_Z 53 1024 (f i j)).
(** values f, derivatives g *)
Definition jets64 n (f g : nat -> nat -> Z) : matrix (elt (dualS float64S)) := mk n n (fun i j => jet64 (f i j) (g i j)).

Definition diag0 (t : Z) (i j : nat) : Z := if Nat.eqb i j then (if Nat.eqb i 0 then t else 1)%Z else 0%Z.
Definition e11 (i j : nat) : Z := if Nat.eqb i 0 && Nat.eqb j 0 then 1%Z else 0%Z.
Definition e12 (i j : nat) : Z := if Nat.eqb i 0 && Nat.eqb j 1 then 1%Z else 0%Z.

Definition zeqb (x : elt float64S) (z : Z) : bool := Beqb x (f_of_Z 53 1024 z).
Definition entry_is (o : outcome (matrix (elt float64S))) i j (z : Z) : bool :=
  if o is Ok X then if aget X i j is Ok x then zeqb x z else false else false.
Definition elt_is (o : outcome (elt float64S)) (z : Z) : bool := if o is Ok x then zeqb x z else false.
Definition jet_is (o : outcome (elt (dualS float64S))) (a b : Z) : bool :=
  if o is Ok x then zeqb x.1 a && zeqb x.2 b else false.
Definition jentry_is (o : outcome (matrix (elt (dualS float64S)))) i j (a b : Z) : bool :=
  if o is Ok X then jet_is (aget X i j) a b else false.

Lemma c103_det_check :
  [&& jet_is (det (dualS float64S) 4 (jets64 4 (diag0 0) e11)) 0 0,
      jet_is (det (dualS float64S) 3 (jets64 3 (diag0 0) e11)) 0 1 &
      all (fun t => elt_is (det float64S 4 (mz64 4 (diag0 (Z.of_nat t)))) (Z.of_nat t)) (iota 0 9)].
Proof. vm_compute; reflexivity. Qed.
Lemma c103_inv_check :
  [&& jentry_is (Model.inv (dualS float64S) 5 (jets64 5 (diag0 1) e12)) 0 1 0 0,
      jentry_is (Model.inv (dualS float64S) 4 (jets64 4 (diag0 1) e12)) 0 1 0 (-1) &
      all (fun t => entry_is (Model.inv float64S 5 (mz64 5 (fun i j => diag0 1 i j + Z.of_nat t * e12 i j)%Z)) 0 1 (- Z.of_nat t))
        (iota 0 9)].
Proof. vm_compute; reflexivity. Qed.

Lemma split9 (b1 b2 : bool) (g : nat -> bool) : [&& b1, b2 & all g (iota 0 9)] ->
  b1 /\ b2 /\ forall t, (t < 9)%N -> g t.
Proof. by case/and3P => H1 H2 /allP H; split=> //; split=> // t Ht; apply: H; rewrite mem_iota. Qed.

(** det diag(t,1,1,1) = t, but its derivative at t = 0 comes out as 0; for 3x3 it is right *)
Theorem c103_det_lost :
  jet_is (det (dualS float64S) 4 (jets64 4 (diag0 0) e11)) 0 0 /\
  jet_is (det (dualS float64S) 3 (jets64 3 (diag0 0) e11)) 0 1 /\
  (forall t, (t < 9)%N -> elt_is (det float64S 4 (mz64 4 (diag0 (Z.of_nat t)))) (Z.of_nat t)).
Proof. exact (split9 c103_det_check). Qed.

(** the inverse of I + t E12 is I - t E12, but for 5x5 the derivative at t = 0 comes out as 0 *)
Theorem c103_inv_lost :
  jentry_is (Model.inv (dualS float64S) 5 (jets64 5 (diag0 1) e12)) 0 1 0 0 /\
  jentry_is (Model.inv (dualS float64S) 4 (jets64 4 (diag0 1) e12)) 0 1 0 (-1) /\
  (forall t, (t < 9)%N ->
     entry_is (Model.inv float64S 5 (mz64 5 (fun i j => diag0 1 i j + Z.of_nat t * e12 i j)%Z)) 0 1 (- Z.of_nat t)).
Proof. exact (split9 c103_inv_check). Qed.

(** the hypotheses of the theorems above on a concrete case: the product rule and the values of double *)
Example c103_ex : plain float64S /\ (1 <= 31)%Z /\ (Z.of_nat 5 < 2 ^ (31 - 1))%Z /\
  (0 < 3 <= 3)%N || (\det (1%:M : 'M[rat_fieldType]_3) != 0) /\
  [forall i, forall j, cofactor (\matrix_(i < 2, j < 2) (i + j).+1%:R : 'M[rat_fieldType]_2) i j != 0].
Proof.
split; first exact: plain_float. do 3!split=> //.
apply/forallP => i; apply/forallP => j; rewrite /cofactor det_mx11 !mxE mulf_neq0 //.
  by rewrite expf_neq0 // oppr_eq0 oner_eq0.
by rewrite Num.Theory.pnatr_eq0.
Qed.

(** a 5x5 matrix none of whose minors vanishes: ones everywhere, twos on the diagonal *)
Definition twos : 'M[rat_fieldType]_5 := 1%:M + const_mx 1.
Example c103_minors_ex : \det twos != 0 /\ [forall i, forall j, cofactor twos i j != 0].
Proof.
pose J : 'M[rat_fieldType]_5 := const_mx 1; pose X := 1%:M - 6%:R^-1 *: J.
have JJ : J *m J = 5%:R *: J.
  by apply/matrixP => i j; rewrite !mxE; under eq_bigr do rewrite !mxE mulr1; rewrite sumr_const card_ord mulr1.
have E : twos *m X = 1%:M.
  have E6 : 6%:R^-1 *: (J + 5%:R *: J) = J.
    by rewrite -{1}[J]scale1r -scalerDl scalerA (_ : _ * _ = 1) ?scale1r // -[1]/(1%:R) -natrD mulVf.
  by rewrite /twos /X -/J mulmxBr mulmx1 -scalemxAr mulmxDl mul1mx JJ E6 addrK.
have [U V] := mulmx1_unit E; have EX : invmx twos = X by rewrite -[RHS](mulKmx U) E mulmx1.
have D0 : \det twos != 0 by rewrite -unitfE -unitmxE.
split=> //; apply/forallP => i; apply/forallP => j.
have -> : cofactor twos i j = \det twos * X j i.
  have := EX; rewrite /invmx U => <-; rewrite mxE mulrA mulfV // mul1r; by rewrite mxE.
rewrite mulf_neq0 // !mxE mulr1; case: (j == i) => //.
Qed.

Print Assumptions c103_values_solve.
Print Assumptions c103_det.
Print Assumptions c103_inv.
Print Assumptions c103_conv.
Print Assumptions c103_stddev.
Print Assumptions c103_inv_lost.
