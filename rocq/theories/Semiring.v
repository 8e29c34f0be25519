(** * Element types whose + and * form a semiring

    The templates accept any class with the operators they use.  [semiring K add mul]
    says what the proofs need of such a class: [a + b], [a * b] and [c += a * b] always
    yield the values given by two functions, and these obey the laws of a semiring, whose
    zero and one are what the literals 0 and 1 convert to.  No subtraction, division or
    order is mentioned.  PropSemi.v shows that [bool] and every exact arithmetic
    are instances, and so is a class one can write: costs with "unreachable". *)

From Coq Require Import ZArith List Lia.
From mathcomp Require Import all_ssreflect.
From mathcomp Require Import zify.
From Verif Require Import Base Scalar Model Spec Loops Struct Conv.

Set Implicit Arguments.
Unset Strict Implicit.
Unset Printing Implicit Defensive.

Record semiring (K : scalar) (add mul : elt K -> elt K -> elt K) : Prop := Semiring {
  sr_plus : forall a b, (let* v := xadd (ld a) (ld b) in Ok (st v)) = Ok (add a b);
  sr_times : forall a b, (let* v := xmul (ld a) (ld b) in Ok (st v)) = Ok (mul a b);
  sr_mac : forall c a b, (let* t := xmul (ld a) (ld b) in let* v := xadd (ld c) t in Ok (st v)) =
    Ok (add c (mul a b));
  sr_lit : forall c, (let* v := xadd (ld c) (lit 0) in Ok (st v)) = Ok (add c (lite K 0));
  sr_addA : associative add;
  sr_addC : commutative add;
  sr_add0 : left_id (lite K 0) add;
  sr_mulA : associative mul;
  sr_mul1l : left_id (lite K 1) mul;
  sr_mul1r : right_id (lite K 1) mul;
  sr_mul0l : left_zero (lite K 0) mul;
  sr_mul0r : right_zero (lite K 0) mul;
  sr_mulDl : left_distributive mul add;
  sr_mulDr : right_distributive mul add }.

(** The powers of an element: products of matrices indexed by the number of factors are
    computed by the halving recursion of pow, whatever the element type. *)
Lemma pow_family (K : scalar) n w (P : nat -> matrix (elt K)) (p : nat) :
  eye1 K n = Ok (P 0) -> (forall a b, mult K n n n (P a) (P b) = Ok (P (a + b))) ->
  (1 <= w)%Z -> (Z.of_nat p < 2 ^ (w - 1))%Z -> pow K n w (P 1) (Z.of_nat p) = Ok (P p).
Proof.
move=> E0 EM Hw Hp.
have L fuel : forall w q k, (Z.of_nat q < 2 ^ Z.of_nat k)%Z -> (k < fuel)%coq_nat ->
    pow_fuel K fuel n w (P 1) (Z.of_nat q) = Ok (P q).
  elim: fuel => [|fuel IH] {w p Hw Hp} w q k Hq Hk; first by lia.
  cbn [pow_fuel].
  case: (Z.eqb_spec (Z.of_nat q) 0) => [E|N0]; first by have -> : q = 0 by lia.
  case: (Z.eqb_spec (Z.of_nat q) 1) => [E|N1]; first by have -> : q = 1 by lia.
  case: (Z.ltb_spec (Z.of_nat q) 0) => [|_]; first by lia.
  cbn [bind].
  have Hk1 : (0 < k)%coq_nat by case: k Hq {Hk} => [|k] Hq; [change (2 ^ Z.of_nat 0)%Z with 1%Z in Hq|]; lia.
  have Eq : Z.quot (Z.of_nat q) 2 = Z.of_nat (Nat.div q 2).
    by rewrite Z.quot_div_nonneg ?Nat2Z.inj_div //; lia.
  have Hq2 : (Z.of_nat (Nat.div q 2) < 2 ^ Z.of_nat (k - 1))%Z.
    rewrite Nat2Z.inj_div; apply: Z.div_lt_upper_bound; first by [].
    have Ek : Z.of_nat k = (1 + Z.of_nat (k - 1))%Z by lia.
    by move: Hq; rewrite Ek Z.pow_add_r //; lia.
  rewrite Eq (IH _ _ (k - 1) Hq2); last by lia.
  cbn [bind]; rewrite /op_mult EM.
  have Er : Z.rem (Z.of_nat q) 2 = Z.of_nat (Nat.modulo q 2).
    by rewrite Z.rem_mod_nonneg ?Nat2Z.inj_mod //; lia.
  have D := Nat.div_mod_eq q 2; have M := Nat.mod_upper_bound q 2.
  rewrite Er; case: (Z.eqb_spec (Z.of_nat (Nat.modulo q 2)) 0) => [Ev|Od].
    by congr (Ok (P _)); lia.
  by cbn [bind]; rewrite EM; congr (Ok (P _)); lia.
rewrite /pow; apply: (L _ _ _ (Z.to_nat w)); last by lia.
rewrite Z2Nat.id; last by lia.
by apply: Z.lt_le_trans Hp _; apply: Z.pow_le_mono_r; lia.
Qed.

Section Semiring.
Variables (K : scalar) (add mul : elt K -> elt K -> elt K).
Hypothesis H : semiring add mul.
Notation T := (elt K).
Notation zero := (lite K 0).
Notation one := (lite K 1).

Lemma add0r' : right_id zero add.
Proof. by move=> a; rewrite (sr_addC H) (sr_add0 H). Qed.
Definition addM := Monoid.Law (sr_addA H) (sr_add0 H) add0r'.
Definition addC := @Monoid.ComLaw _ _ addM (sr_addC H).
Definition mulM := @Monoid.MulLaw _ zero mul (sr_mul0l H) (sr_mul0r H).
Definition addD := @Monoid.AddLaw _ zero mulM addC (sr_mulDl H) (sr_mulDr H).
Notation "\S_ ( k < n ) F" := (\big[addD/zero]_(0 <= k < n) F)
  (at level 41, F at level 41, k, n at level 50).

(** the product of two matrices given by their elements *)
Definition fmul m (f g : nat -> nat -> T) (i j : nat) : T := \S_(k < m) mul (f i k) (g k j).
Definition fid (i j : nat) : T := if Nat.eqb i j then one else zero.

Lemma sumS m (F : nat -> T) : \S_(k < m.+1) F k = add (\S_(k < m) F k) (F m).
Proof. exact: (@big_nat_recr _ _ addD m 0 F (leq0n m)). Qed.

Lemma dot_sr m (a b : nat -> T) : dot K m a b = Ok (\S_(k < m) mul (a k) (b k)).
Proof.
elim: m => [|m IH]; first by rewrite big_nil.
rewrite /dot for_snoc; last by lia.
by rewrite -/(dot K m a b) IH sumS; exact: (sr_mac H).
Qed.

Lemma mult_sr n m p (f g : nat -> nat -> T) :
  mult K n m p (mk n m f) (mk m p g) = Ok (mk n p (fmul m f g)).
Proof. by rewrite mult_tab; apply: tabM_ok => i j _ _; rewrite dot_sr. Qed.

Lemma sum_sr n m (f g : nat -> nat -> T) :
  sum K n m (mk n m f) (mk n m g) = Ok (mk n m (fun i j => add (f i j) (g i j))).
Proof. by rewrite sum_tab; apply: tabM_ok => i j _ _; rewrite (sr_plus H). Qed.

Lemma mult_scalar_sr n m (f : nat -> nat -> T) s :
  mult_scalar K n m (mk n m f) s = Ok (mk n m (fun i j => mul (f i j) s)).
Proof. by rewrite mult_scalar_tab; apply: tabM_ok => i j _ _; rewrite (sr_times H). Qed.

Lemma eye_sr n : eye1 K n = Ok (mk n n fid).
Proof. by rewrite eye1_mk. Qed.

Lemma distl m (F : nat -> T) a : mul (\S_(k < m) F k) a = \S_(k < m) mul (F k) a.
Proof. exact: (big_distrl (times := mulM) (plus := addD)). Qed.
Lemma distr m (F : nat -> T) a : mul a (\S_(k < m) F k) = \S_(k < m) mul a (F k).
Proof. exact: (big_distrr (times := mulM) (plus := addD)). Qed.

Lemma fmulA m p (f g h : nat -> nat -> T) i j : fmul p (fmul m f g) h i j = fmul m f (fmul p g h) i j.
Proof.
rewrite /fmul.
under eq_bigr do rewrite distl.
rewrite exchange_big; apply: eq_bigr => k _.
by rewrite distr; apply: eq_bigr => l _; rewrite (sr_mulA H).
Qed.

Lemma sum_one m (F : nat -> T) k : k < m -> (forall l, l != k -> F l = zero) -> \S_(l < m) F l = F k.
Proof.
move=> Hk Hz; elim: m Hk => [//|m IH]; rewrite ltnS leq_eqVlt sumS => /orP [/eqP E|Hk].
  rewrite big_nat big1 ?(sr_add0 H) -?E // => l Hl; apply: Hz; apply/eqP => El; subst; move: Hl; by rewrite ltnn andbF.
by rewrite IH // (Hz m) ?add0r' //; apply/eqP => E; move: Hk; rewrite E ltnn.
Qed.

Lemma fmul1l m f i j : i < m -> fmul m fid f i j = f i j.
Proof.
move=> Hi; rewrite /fmul (@sum_one _ _ i) // /fid ?Nat.eqb_refl ?(sr_mul1l H) // => l Hl.
by case: Nat.eqb_spec => [E|_]; [case/eqP: Hl|rewrite (sr_mul0l H)].
Qed.
Lemma fmul1r m f i j : j < m -> fmul m f fid i j = f i j.
Proof.
move=> Hj; rewrite /fmul (@sum_one _ _ j) // /fid ?Nat.eqb_refl ?(sr_mul1r H) // => l Hl.
by case: Nat.eqb_spec => [E|_]; [case/eqP: Hl|rewrite (sr_mul0r H)].
Qed.

(** p factors *)
Fixpoint fpow n (f : nat -> nat -> T) (p : nat) : nat -> nat -> T :=
  if p is p'.+1 then fmul n f (fpow n f p') else fid.

Lemma fmul_ext m f f' g g' i j : (forall k, k < m -> f i k = f' i k) -> (forall k, k < m -> g k j = g' k j) ->
  fmul m f g i j = fmul m f' g' i j.
Proof. by move=> E E'; rewrite /fmul !big_nat; apply: eq_bigr => k /= Hk; rewrite E ?E'. Qed.

Lemma fpowD n f a b i j : i < n -> fmul n (fpow n f a) (fpow n f b) i j = fpow n f (a + b) i j.
Proof.
elim: a i => [|a IH] i Hi; first by rewrite fmul1l.
by rewrite addSn /= fmulA; apply: fmul_ext => // k Hk; exact: IH.
Qed.

Lemma pow_sr n w (f : nat -> nat -> T) (p : nat) : (1 <= w)%Z -> (Z.of_nat p < 2 ^ (w - 1))%Z ->
  pow K n w (mk n n f) (Z.of_nat p) = Ok (mk n n (fpow n f p)).
Proof.
move=> Hw Hp.
have E1 : mk n n f = mk n n (fpow n f 1).
  by apply: mk_ext => i j Hi Hj; rewrite /= fmul1r //; exact/ssrnat.ltP.
rewrite E1; apply: (pow_family (P := fun q => mk n n (fpow n f q))) => //; first exact: eye_sr.
move=> a b; rewrite mult_sr; congr Ok; apply: mk_ext => i j Hi Hj; apply: fpowD; exact/ssrnat.ltP.
Qed.

(** a cell of a convolution *)
Definition term i j (f k : nat -> nat -> T) (p q : Z) (a b : nat) : T :=
  let pa := (p + Z.of_nat a - 1)%Z in let qb := (q + Z.of_nat b - 1)%Z in
  if inside i j pa qb then mul (k a b) (f (Z.to_nat pa) (Z.to_nat qb)) else zero.
Definition fcorr i j f k p q : T := \S_(a < 3) \S_(b < 3) term i j f k p q a b.

Lemma corr_sr i j f k p q : corr K i j f k p q = Ok (fcorr i j f k p q).
Proof.
have step c a b : corr_step K i j f k p q c (a, b) = Ok (add c (term i j f k p q a b)).
  rewrite /corr_step /term /=; case: ifP => _; [exact: (sr_mac H)|exact: (sr_lit H)].
rewrite corr_unfold; cbv zeta; do 9! (rewrite step; cbn [bind]).
by congr Ok; rewrite /fcorr unlock /= !(sr_add0 H) !add0r' !(sr_addA H).
Qed.
End Semiring.
