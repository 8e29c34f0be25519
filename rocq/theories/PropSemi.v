(** * Property C102: user-defined element types
    The laws of the matrix operations for every element type that is a semiring
    (Semiring.v), and what they mean for a class of costs: shortest routes. *)

From Coq Require Import ZArith List Lia.
From mathcomp Require Import all_ssreflect all_algebra.
From mathcomp Require Import zify ssrZ.
From Verif Require Import Base Scalar Model CInt CBool Spec Loops Struct Conv Exact Semiring.
Set Implicit Arguments.
Unset Strict Implicit.
Unset Printing Implicit Defensive.

(** ** Instances *)

Theorem c102_bool : semiring (K := boolS) orb andb.
Proof.
split; try by [do ![case]].
Qed.

Theorem c102_exact (R : unitRingType) lt ab sq :
  semiring (K := @exactS R lt ab sq) (fun a b => (a + b)%R) (fun a b => (a * b)%R).
Proof.
split=> //; try by move=> *; rewrite /= ?GRing.addr0.
- exact: GRing.addrA.
- exact: GRing.addrC.
- exact: GRing.add0r.
- exact: GRing.mulrA.
- exact: GRing.mul1r.
- exact: GRing.mulr1.
- exact: GRing.mul0r.
- exact: GRing.mulr0.
- exact: GRing.mulrDl.
- exact: GRing.mulrDr.
Qed.

(** A class of costs: a number or [None], "unreachable".  [a + b] is the cheaper one, [a * b]
    the cost of one after the other.  The literal 0 converts to "unreachable", 1 to the
    cost 0, as the laws of a semiring demand.  The operators pow instantiates but does not
    need for powers >= 0 are left undefined. *)
Definition cheaper (a b : option Z) : option Z :=
  match a, b with Some x, Some y => Some (Z.min x y) | Some x, None => Some x | None, _ => b end.
Definition both (a b : option Z) : option Z :=
  match a, b with Some x, Some y => Some (x + y)%Z | _, _ => None end.
Definition costS : scalar :=
  {| elt := option Z; xpr := option Z; epsT := unit; ld := id; st := id;
     lit := fun z => if (z =? 0)%Z then None else Some (z - 1)%Z;
     xadd := fun a b => Ok (cheaper a b); xmul := fun a b => Ok (both a b);
     xsub := fun _ _ => UB BadConversion; xdiv := fun _ _ => UB BadConversion;
     xneg := fun _ => UB BadConversion;
     xeq := fun a b => match a, b with Some x, Some y => (x =? y)%Z | None, None => true | _, _ => false end;
     xlt := fun a b => match a, b with Some x, Some y => (x <? y)%Z | Some _, None => true | _, _ => false end;
     xabs := fun _ => UB BadConversion; gteps := fun _ _ => false;
     xsqrt := fun _ => UB BadConversion; divsz := fun _ _ => UB BadConversion |}.

Theorem c102_cost : semiring (K := costS) cheaper both.
Proof.
split=> //; rewrite /lite /=; do ?[case=> [?|]]; rewrite /cheaper /both //=; (try by case=> //); try by do ?[case=> [?|]] => //; congr Some; lia.
Qed.

(** ** Laws *)
Section Laws.
Variables (K : scalar) (add mul : elt K -> elt K -> elt K).
Hypothesis H : semiring add mul.
Notation T := (elt K).

Ltac tomk HA := let f := fresh "f" in move: HA => /(shape_mk (lite K 0)) [f ->].

Theorem c102_sum_laws n m (A B C : matrix T) : shape n m A -> shape n m B -> shape n m C ->
  sum K n m A B = sum K n m B A /\
  (let* X := sum K n m A B in sum K n m X C) = (let* X := sum K n m B C in sum K n m A X) /\
  sum K n m A (zeros K n m) = Ok A.
Proof.
move=> HA HB HC; tomk HA; tomk HB; tomk HC; rewrite zeros_mk !(sum_sr H) /= !(sum_sr H).
split; [|split]; congr Ok; apply: mk_ext => i j _ _.
- exact: (sr_addC H).
- by rewrite (sr_addA H).
- exact: (add0r' H).
Qed.

Theorem c102_assoc n m p q (A B C : matrix T) : shape n m A -> shape m p B -> shape p q C ->
  (let* X := mult K n m p A B in mult K n p q X C) = (let* Y := mult K m p q B C in mult K n m q A Y).
Proof.
move=> HA HB HC; tomk HA; tomk HB; tomk HC; rewrite !(mult_sr H) /= !(mult_sr H).
by congr Ok; apply: mk_ext => i j _ _; exact: fmulA.
Qed.

Theorem c102_distr n m p (A A' B B' : matrix T) :
  shape n m A -> shape n m A' -> shape m p B -> shape m p B' ->
  (let* X := sum K m p B B' in mult K n m p A X) =
    (let* X := mult K n m p A B in let* Y := mult K n m p A B' in sum K n p X Y) /\
  (let* X := sum K n m A A' in mult K n m p X B) =
    (let* X := mult K n m p A B in let* Y := mult K n m p A' B in sum K n p X Y).
Proof.
move=> HA HA' HB HB'; tomk HA; tomk HA'; tomk HB; tomk HB'.
rewrite !(sum_sr H) !(mult_sr H) /= !(mult_sr H) !(sum_sr H).
split; congr Ok; apply: mk_ext => i j _ _; rewrite /fmul.
  rewrite -[RHS](@big_split _ _ (addC H)); apply: eq_bigr => k _; exact: (sr_mulDr H).
rewrite -[RHS](@big_split _ _ (addC H)); apply: eq_bigr => k _; exact: (sr_mulDl H).
Qed.

Theorem c102_unit n m (A : matrix T) : shape n m A ->
  (let* E := eye1 K n in mult K n n m E A) = Ok A /\ (let* E := eye1 K m in mult K n m m A E) = Ok A.
Proof.
move=> HA; tomk HA; rewrite !eye_sr /= !(mult_sr H).
by split; congr Ok; apply: mk_ext => i j Hi Hj; [apply: fmul1l|apply: fmul1r]; exact/ssrnat.ltP.
Qed.

Theorem c102_zero n m p (A : matrix T) : shape n m A ->
  mult K n m p A (zeros K m p) = Ok (zeros K n p) /\ mult K p n m (zeros K p n) A = Ok (zeros K p m).
Proof.
move=> HA; tomk HA; rewrite !zeros_mk !(mult_sr H).
split; congr Ok; apply: mk_ext => i j _ _; apply: big1 => k _; [exact: (sr_mul0r H)|exact: (sr_mul0l H)].
Qed.

(** scalars stand on the right *)
Theorem c102_scalar n m p (A B : matrix T) (s t : T) : shape n m A -> shape m p B ->
  (let* X := mult K n m p A B in mult_scalar K n p X s) = (let* Y := mult_scalar K m p B s in mult K n m p A Y) /\
  (let* X := mult_scalar K n m A s in mult_scalar K n m X t) = mult_scalar K n m A (mul s t).
Proof.
move=> HA HB; tomk HA; tomk HB; rewrite !(mult_sr H) !(mult_scalar_sr H) /= !(mult_sr H) !(mult_scalar_sr H).
split; congr Ok; apply: mk_ext => i j _ _; last by rewrite (sr_mulA H).
by rewrite /fmul distl; apply: eq_bigr => k _; rewrite (sr_mulA H).
Qed.

(** the one law that needs a commutative * *)
Theorem c102_trans n m p (A B : matrix T) : commutative mul -> shape n m A -> shape m p B ->
  (let* X := mult K n m p A B in trans K n p X) =
  (let* Y := trans K m p B in let* X := trans K n m A in mult K p m n Y X).
Proof.
move=> C HA HB; tomk HA; tomk HB; rewrite !(mult_sr H) !trans_mk /= trans_mk (mult_sr H).
by congr Ok; apply: mk_ext => i j _ _; rewrite /fmul; apply: eq_bigr => k _; exact: C.
Qed.

Theorem c102_pow_add n w (A : matrix T) (p q : nat) : shape n n A -> (1 <= w)%Z ->
  (Z.of_nat (p + q) < 2 ^ (w - 1))%Z ->
  pow K n w A (Z.of_nat (p + q)) =
  (let* X := pow K n w A (Z.of_nat p) in let* Y := pow K n w A (Z.of_nat q) in mult K n n n X Y).
Proof.
move=> HA Hw Hp; tomk HA; rewrite !(pow_sr H) //=; try lia.
by rewrite (mult_sr H); congr Ok; apply: mk_ext => i j Hi Hj; rewrite fpowD //; exact/ssrnat.ltP.
Qed.

(** ** The elements of a power: the sum over all routes of the products along them *)

(** the lists of p further stops that lead from i to j *)
Fixpoint routes (n p i j : nat) : seq (seq nat) :=
  if p is p'.+1 then seq.flatten [seq [seq k :: s | s <- routes n p' k j] | k <- iota 0 n]
  else if i == j then [:: [::]] else [::].

Lemma routesP n p i j s : (s \in routes n p i j) = [&& size s == p, all (fun k => k < n) s & last i s == j].
Proof.
elim: p i s => [|p IH] i s /=.
  by case: eqP => E; case: s => [|k s] //=; rewrite ?inE ?E ?eqxx // in_nil; apply/esym/negP => /eqP.
apply/flattenP/idP.
  move=> [l /mapP [k]]; rewrite mem_iota => Hk -> /mapP [t]; rewrite IH => /and3P [H1 H2 H3] ->.
  by rewrite /= eqSS H1 H2 H3 andbT; move: Hk; lia.
case: s => [|k t] //=; rewrite eqSS => /and3P [H1 /andP [Hk H2] H3].
exists [seq k :: s | s <- routes n p k j]; first by apply/mapP; exists k; rewrite ?mem_iota.
by apply/mapP; exists t => //; rewrite IH H1 H2.
Qed.

(** the product of the elements along a route *)
Fixpoint along (f : nat -> nat -> T) (i : nat) (s : seq nat) : T :=
  if s is k :: s' then mul (f i k) (along f k s') else lite K 1.

Lemma fpow_routes n f p i j : i < n -> j < n ->
  fpow H n f p i j = foldr (fun s r => add (along f i s) r) (lite K 0) (routes n p i j).
Proof.
have E l : foldr (fun s r => add (along f i s) r) (lite K 0) l = \big[addD H/lite K 0]_(s <- l) along f i s.
  by rewrite unlock.
move=> Hi Hj; rewrite E {E}; elim: p i Hi => [|p IH] i Hi.
  rewrite [routes _ _ _ _]/= [fpow _ _ _ _]/= /fid; case: Nat.eqb_spec => [->|N]; first by rewrite eqxx big_seq1.
  by case: eqP => // _; rewrite big_nil.
rewrite [routes _ _ _ _]/= [fpow _ _ _ _]/= big_flatten big_map /fmul /index_iota subn0 big_seq [RHS]big_seq.
apply: eq_bigr => k; rewrite mem_iota => /andP [_ Hk].
rewrite IH ?big_map; last by move: Hk; lia.
exact: (big_distrr (times := mulM H) (plus := addD H)).
Qed.

(** the element (i, j), where there is one *)
Definition elm (A : matrix T) (i j : nat) : T := match aget A i j with Ok x => x | _ => lite K 0 end.

Theorem c102_pow_routes n w (A : matrix T) (p : nat) : shape n n A -> (1 <= w)%Z ->
  (Z.of_nat p < 2 ^ (w - 1))%Z ->
  exists B, pow K n w A (Z.of_nat p) = Ok B /\ shape n n B /\
  forall i j, (i < n)%coq_nat -> (j < n)%coq_nat ->
  aget B i j = Ok (fold_right (fun s r => add (along (elm A) i s) r) (lite K 0) (routes n p i j)).
Proof.
move=> HA Hw Hp; tomk HA; exists (mk n n (fpow H n f p)); rewrite (pow_sr H) //; split=> //; split.
  exact: shape_of_mk.
move=> i j Hi Hj; rewrite aget_mk //; congr Ok.
rewrite fpow_routes; try exact/ssrnat.ltP.
have E s : all (fun k => k < n) s -> i < n -> along f i s = along (elm (mk n n f)) i s.
  elim: s i {Hi} => [|k s IH] i //= /andP [Hk Hs] Hi.
  by rewrite -IH // /elm aget_mk //; exact/ssrnat.ltP.
have : all (fun s => all (fun k => k < n) s) (routes n p i j).
  by apply/allP => s; rewrite routesP => /and3P [].
elim: (routes n p i j) => [|s l IH] //= /andP [Hs Hl].
by rewrite IH // E //; exact/ssrnat.ltP.
Qed.

(** ** Convolutions *)
Lemma conv2_sr n m f k : (Z.of_nat n <= 2 ^ 31)%Z -> (Z.of_nat m <= 2 ^ 31)%Z ->
  conv2 K n m (mk n m f) (mk 3 3 k) = Ok (mk n m (fun r c => fcorr H n m f k (Z.of_nat r) (Z.of_nat c))).
Proof. by move=> Hn Hm; rewrite conv2_tab //; apply: tabM_ok => r c _ _; exact: corr_sr. Qed.
Lemma conv2_full_sr n m f k : (Z.of_nat n <= 2 ^ 31)%Z -> (Z.of_nat m <= 2 ^ 31)%Z ->
  conv2_full K n m (mk n m f) (mk 3 3 k) =
  Ok (mk (n + 2) (m + 2) (fun r c => fcorr H n m f k (Z.of_nat r - 1) (Z.of_nat c - 1))).
Proof. by move=> Hn Hm; rewrite conv2_full_tab //; apply: tabM_ok => r c _ _; exact: corr_sr. Qed.

Theorem c102_conv n m (A B k l : matrix T) : shape n m A -> shape n m B -> shape 3 3 k -> shape 3 3 l ->
  (Z.of_nat n <= 2 ^ 31)%Z -> (Z.of_nat m <= 2 ^ 31)%Z ->
  (let* X := sum K n m A B in conv2 K n m X k) =
    (let* X := conv2 K n m A k in let* Y := conv2 K n m B k in sum K n m X Y) /\
  (let* X := sum K 3 3 k l in conv2 K n m A X) =
    (let* X := conv2 K n m A k in let* Y := conv2 K n m A l in sum K n m X Y) /\
  (let* X := sum K n m A B in conv2_full K n m X k) =
    (let* X := conv2_full K n m A k in let* Y := conv2_full K n m B k in sum K (n + 2) (m + 2) X Y) /\
  (let* X := sum K 3 3 k l in conv2_full K n m A X) =
    (let* X := conv2_full K n m A k in let* Y := conv2_full K n m A l in sum K (n + 2) (m + 2) X Y).
Proof.
move=> HA HB Hk Hl Hn Hm; tomk HA; tomk HB; tomk Hk; tomk Hl.
rewrite !(sum_sr H); cbn [bind].
rewrite !conv2_sr // !conv2_full_sr //; cbn [bind]; rewrite !(sum_sr H).
have D F G : \big[addD H/lite K 0]_(0 <= a < 3) \big[addD H/lite K 0]_(0 <= b < 3) add (F a b) (G a b) =
   add (\big[addD H/lite K 0]_(0 <= a < 3) \big[addD H/lite K 0]_(0 <= b < 3) F a b)
       (\big[addD H/lite K 0]_(0 <= a < 3) \big[addD H/lite K 0]_(0 <= b < 3) G a b).
  rewrite -[RHS](@big_split _ _ (addC H)); apply: eq_bigr => a _; exact: (@big_split _ _ (addC H)).
have L h p q : fcorr H n m (fun i j => add (f i j) (f0 i j)) h p q = add (fcorr H n m f h p q) (fcorr H n m f0 h p q).
  rewrite /fcorr -D; apply: eq_bigr => a _; apply: eq_bigr => b _; rewrite /term.
  by case: ifP => _; [exact: (sr_mulDr H)|rewrite (sr_add0 H)].
have R g p q : fcorr H n m g (fun i j => add (f1 i j) (f2 i j)) p q = add (fcorr H n m g f1 p q) (fcorr H n m g f2 p q).
  rewrite /fcorr -D; apply: eq_bigr => a _; apply: eq_bigr => b _; rewrite /term.
  by case: ifP => _; [exact: (sr_mulDl H)|rewrite (sr_add0 H)].
by split; [|split; [|split]]; congr Ok; apply: mk_ext => i j _ _; rewrite ?L ?R.
Qed.
End Laws.

(** ** Costs: the powers of a matrix of costs are the cheapest routes *)

(** the cost of a route from i over the stops s: the sum of its legs, None if a leg is missing *)
Fixpoint route_cost (A : matrix (option Z)) (i : nat) (s : list nat) : option Z :=
  match s with
  | nil => Some 0%Z
  | k :: s' => match aget A i k, route_cost A k s' with
               | Ok (Some c), Some d => Some (c + d)%Z
               | _, _ => None
               end
  end.

(** a route from i to j with this cost, with a number of legs that L allows *)
Definition route (A : matrix (option Z)) (L : nat -> Prop) (i j : nat) (d : Z) : Prop :=
  exists s, L (length s) /\ last i s = j /\ route_cost A i s = Some d.

(** [o] is the least cost satisfying P, None if there is none *)
Definition cheapest (P : Z -> Prop) (o : option Z) : Prop :=
  match o with
  | Some d => P d /\ forall e, P e -> (d <= e)%Z
  | None => forall e, ~ P e
  end.

Lemma cheapest_ext (P Q : Z -> Prop) o : (forall d, P d <-> Q d) -> cheapest P o -> cheapest Q o.
Proof.
move=> E; case: o => [d|] /=; first by move=> [/E ? M]; split=> // e /E; exact: M.
by move=> M e /E; exact: M.
Qed.

Lemma cheapest_or P Q a b : cheapest P a -> cheapest Q b -> cheapest (fun d => P d \/ Q d) (cheaper a b).
Proof.
case: a b => [a|] [b|] /=.
- move=> [Pa Ma] [Qb Mb]; split; last by move=> e [/Ma|/Mb]; lia.
  by case: (Z.min_spec a b) => [[_ ->]|[_ ->]]; [left|right].
- by move=> [Pa Ma] Mb; split; [left|move=> e [/Ma|/Mb]].
- by move=> Ma [Qb Mb]; split; [right|move=> e [/Ma|/Mb]].
- by move=> Ma Mb e [/Ma|/Mb].
Qed.

Lemma cheapest_both P c a : cheapest P a ->
  cheapest (fun d => exists x e, c = Some x /\ P e /\ d = (x + e)%Z) (both c a).
Proof.
case: c a => [c|] [a|] /=; try by move=> _ e [x [y []]].
- move=> [Pa Ma]; split; first by exists c, a.
  by move=> e [x [y [[<-] [/Ma ? ->]]]]; lia.
- by move=> Ma e [x [y [_ [/Ma]]]].
Qed.

Lemma cheapest_sum n (P : nat -> Z -> Prop) F : (forall k, k < n -> cheapest (P k) (F k)) ->
  cheapest (fun d => exists k, k < n /\ P k d) (\big[addD c102_cost/None]_(0 <= k < n) F k).
Proof.
elim: n => [|n IH] HF; first by rewrite big_geq //= => e [k []].
rewrite (sumS c102_cost).
apply: (@cheapest_ext (fun d => (exists k, k < n /\ P k d) \/ P n d)).
  move=> d; split=> [[[k [Hk Pk]]|Pn]|[k [Hk Pk]]]; [by exists k; split=> //; lia|by exists n|].
  by have [E|E] : k = n \/ k < n by [lia]; [right; rewrite -E|left; exists k].
by apply: cheapest_or; [apply: IH => k Hk; apply: HF; lia|exact: HF].
Qed.

Lemma route_nil A i j d : route A (eq 0) i j d <-> i = j /\ d = 0%Z.
Proof.
split=> [[[|k s] [//= _ [E [<-]]]]|[-> ->]]; first by split.
by exists [::].
Qed.

Lemma route_next n f p i j d : i < n ->
  route (mk n n f) (eq p.+1) i j d <->
  exists k, k < n /\ exists x e, f i k = Some x /\ route (mk n n f) (eq p) k j e /\ d = (x + e)%Z.
Proof.
move=> Hi; split.
  move=> [[|k s] [//= [Lp] [E]]].
  have [Hk|Hk] : (k < n)%coq_nat \/ (n <= k)%coq_nat by lia.
    rewrite aget_mk //; last exact/ssrnat.ltP.
    case Ef: (f i k) => [x|//]; case Er: route_cost => [e|//] [<-].
    by exists k; split; [exact/ssrnat.ltP|exists x, e; split=> //; split=> //; exists s].
  by rewrite aget_mk_col_oob.
move=> [k [Hk [x [e [Ef [[s [L [E Er]]] ->]]]]]].
exists (k :: s); rewrite /= -L Er E; split=> //; split=> //.
by rewrite aget_mk ?Ef //; exact/ssrnat.ltP.
Qed.

Lemma fpow_cost n f p i j : i < n -> j < n ->
  cheapest (route (mk n n f) (eq p) i j) (fpow c102_cost n f p i j).
Proof.
move=> Hi Hj; elim: p i Hi => [|p IH] i Hi.
  apply: (@cheapest_ext (fun d => i = j /\ d = 0%Z)); first by move=> d; rewrite route_nil.
  rewrite [fpow _ _ _ _]/= /fid; case: Nat.eqb_spec => E /=; last by move=> e [].
  by split=> // e [_ ->]; lia.
apply: (@cheapest_ext (fun d => exists k, k < n /\ exists x e, f i k = Some x /\ route (mk n n f) (eq p) k j e /\ d = (x + e)%Z)).
  by move=> d; rewrite route_next.
rewrite [fpow _ _ _ _]/= /fmul; apply: cheapest_sum => k Hk.
by apply: cheapest_both; exact: IH.
Qed.

(** pow(A, p) holds the cheapest routes of exactly p legs *)
Theorem c102_cost_pow n w (A : matrix (option Z)) (p : nat) : shape n n A -> (1 <= w)%Z ->
  (Z.of_nat p < 2 ^ (w - 1))%Z ->
  exists B, pow costS n w A (Z.of_nat p) = Ok B /\ shape n n B /\
  forall i j, (i < n)%coq_nat -> (j < n)%coq_nat ->
  exists o, aget B i j = Ok o /\ cheapest (route A (fun l => l = p) i j) o.
Proof.
move=> /(shape_mk None) [f ->] Hw Hp; exists (mk n n (fpow c102_cost n f p)).
rewrite (pow_sr c102_cost) //; split=> //; split; first exact: shape_of_mk.
move=> i j Hi Hj; rewrite aget_mk //; eexists; split; first by [].
apply: (@cheapest_ext (route (mk n n f) (eq p) i j)); last by apply: fpow_cost; exact/ssrnat.ltP.
by move=> d; split=> -[s [L R]]; exists s.
Qed.

(** *** Distances: the power of A + eye *)
Definition stay f (i j : nat) : option Z := cheaper (f i j) (if Nat.eqb i j then Some 0%Z else None).

Lemma route_stay n f p i j d : i < n -> route (mk n n (stay f)) (eq p) i j d ->
  exists q, (q <= p)%N /\ route (mk n n f) (eq q) i j d.
Proof.
elim: p i d => [|p IH] i d Hi; first by move=> /route_nil [-> ->]; exists 0; split=> //; exact/route_nil.
move=> /(route_next _ _ _ _ Hi) [k [Hk [x [e [Ex [/(IH _ _ Hk) [q [Lq R]] ->]]]]]].
have [Ef|[Ei Ez]] : f i k = Some x \/ i = k /\ x = 0%Z.
  move: Ex; rewrite /stay; case: (f i k) => [y|]; case: Nat.eqb_spec => E //=.
  - by case=> <-; case: (Z.min_spec y 0) => [[_ ->]|[_ ->]]; [left|right].
  - by move=> ->; left.
  - by case=> <-; right.
- by exists q.+1; split=> //; apply/(route_next _ _ _ _ Hi); exists k; split=> //; exists x, e.
- by exists q; split; [lia|rewrite Ei Ez].
Qed.

Lemma stay_route n f p q i j d : i < n -> (q <= p)%N -> route (mk n n f) (eq q) i j d ->
  exists e, (e <= d)%Z /\ route (mk n n (stay f)) (eq p) i j e.
Proof.
elim: p q i d => [|p IH] [|q] i d Hi Hq //.
- by move=> R; exists d; split; [lia|exact/route_nil/(route_nil (mk n n f))].
- move=> /route_nil [Eij Ed].
  have [e [Le R]] : exists e, (e <= 0)%Z /\ route (mk n n (stay f)) (eq p) i j e.
    by apply: (IH 0) => //; exact/route_nil.
  have [x [Lx Ex]] : exists x, (x <= 0)%Z /\ stay f i i = Some x.
    by rewrite /stay Nat.eqb_refl; case: (f i i) => [y|] /=; [exists (Z.min y 0)|exists 0%Z]; split=> //; lia.
  exists (x + e)%Z; split; first by lia.
  by apply/(route_next _ _ _ _ Hi); exists i; split=> //; exists x, e.
- move=> /(route_next _ _ _ _ Hi) [k [Hk [x [e [Ex [R ->]]]]]].
  have [e' [Le R']] := IH _ _ _ Hk Hq R.
  have [x' [Lx Ex']] : exists x', (x' <= x)%Z /\ stay f i k = Some x'.
    by rewrite /stay Ex; case: Nat.eqb_spec => _ /=; [exists (Z.min x 0)|exists x]; split=> //; lia.
  exists (x' + e')%Z; split; first by lia.
  by apply/(route_next _ _ _ _ Hi); exists k; split=> //; exists x', e'.
Qed.

(** cheapest is insensitive to replacing a cost by a cheaper one *)
Lemma cheapest_mono (P Q : Z -> Prop) o : (forall d, P d -> Q d) ->
  (forall d, Q d -> exists e, (e <= d)%Z /\ P e) -> cheapest P o -> cheapest Q o.
Proof.
move=> I M; case: o => [d|] /=.
  move=> [Pd Md]; split; first exact: I.
  by move=> e /M [e' [L /Md]]; lia.
by move=> N e /M [e' [_ /N]].
Qed.

Lemma pow_stay n w f p : (1 <= w)%Z -> (Z.of_nat p < 2 ^ (w - 1))%Z ->
  (let* E := eye1 costS n in let* X := sum costS n n (mk n n f) E in pow costS n w X (Z.of_nat p)) =
  Ok (mk n n (fpow c102_cost n (stay f) p)).
Proof.
by move=> Hw Hp; rewrite eye_sr; cbn [bind]; rewrite (sum_sr c102_cost); cbn [bind]; exact: pow_sr.
Qed.

(** pow(A + eye, p) holds the cheapest routes of at most p legs *)
Theorem c102_cost_upto n w (A : matrix (option Z)) (p : nat) : shape n n A -> (1 <= w)%Z ->
  (Z.of_nat p < 2 ^ (w - 1))%Z ->
  exists B, (let* E := eye1 costS n in let* X := sum costS n n A E in pow costS n w X (Z.of_nat p)) = Ok B /\
  shape n n B /\
  forall i j, (i < n)%coq_nat -> (j < n)%coq_nat ->
  exists o, aget B i j = Ok o /\ cheapest (route A (fun l => (l <= p)%coq_nat) i j) o.
Proof.
move=> /(shape_mk None) [f ->] Hw Hp; exists (mk n n (fpow c102_cost n (stay f) p)).
rewrite pow_stay //; split=> //; split; first exact: shape_of_mk.
move=> i j Hi Hj; rewrite aget_mk //; eexists; split; first by [].
apply: (@cheapest_mono (route (mk n n (stay f)) (eq p) i j)); last by apply: fpow_cost; exact/ssrnat.ltP.
- move=> d /route_stay [|q [Lq [s [L R]]]]; first exact/ssrnat.ltP.
  by exists s; split=> //; rewrite -L; exact/ssrnat.leP.
- move=> d [s [L R]]; apply: (@stay_route _ _ _ (length s)); [exact/ssrnat.ltP|exact/ssrnat.leP|by exists s].
Qed.

(** *** With no negative round trip, n - 1 legs are enough *)
Lemma cost_cat A i s t : route_cost A i (s ++ t) = both (route_cost A i s) (route_cost A (last i s) t).
Proof.
elim: s i => [|k s IH] i /=; first by case: route_cost.
case: (aget A i k) => [[c|]| | | |] //; rewrite IH.
case: (route_cost A k s) => [x|] //=; case: route_cost => [y|] //=.
by rewrite Z.add_assoc.
Qed.

Lemma cost_all n f i s d : route_cost (mk n n f) i s = Some d -> all (fun k => k < n) s.
Proof.
elim: s i d => [|k s IH] i d //=.
have [Hk|Hk] : (k < n)%coq_nat \/ (n <= k)%coq_nat by lia.
  case: aget => [[c|]| | | |] //; case Er: route_cost => [e|//] _.
  by rewrite (IH _ _ Er) andbT; exact/ssrnat.ltP.
by rewrite aget_mk_col_oob.
Qed.

Definition no_gain (A : matrix (option Z)) : Prop :=
  forall i s d, last i s = i -> route_cost A i s = Some d -> (0 <= d)%Z.

Lemma shorten n f i s d : no_gain (mk n n f) -> i < n -> route_cost (mk n n f) i s = Some d -> n <= size s ->
  exists t e, size t < size s /\ last i t = last i s /\ route_cost (mk n n f) i t = Some e /\ (e <= d)%Z.
Proof.
move=> G Hi E Hs.
have NU : ~~ uniq (i :: s).
  apply/negP => U; have := cost_all E => Ha.
  have : size (i :: s) <= size (iota 0 n).
    apply: uniq_leq_size => // x; rewrite mem_iota inE => /orP [/eqP ->|/(allP Ha)] //.
  by rewrite size_iota /=; lia.
have [a [b [Hab]]] : exists a b, (a < b)%N /\ (b <= size s)%N /\ last i (take a s) = last i (take b s).
  case/(uniqPn 0): NU => a [b [Hab Hb En]]; exists a, b; split=> //; split; first by [].
  have T c : c <= size s -> last i (take c s) = nth 0 (i :: s) c.
    by move=> Hc; rewrite (last_nth 0) size_takel //; case: c Hc => //= c Hc; rewrite nth_take.
  by rewrite !T //; move: Hb; rewrite /=; lia.
move=> [Hb El].
exists (take a s ++ drop b s).
have Es : s = take a s ++ (drop a (take b s) ++ drop b s).
  by rewrite catA -{1}(cat_take_drop b s); congr (_ ++ _); rewrite -{1}(cat_take_drop a (take b s)) take_take // ltnW.
have Em : last (last i (take a s)) (drop a (take b s)) = last i (take a s).
  by rewrite [RHS]El -[in RHS](cat_take_drop a (take b s)) last_cat take_take // ltnW.
move: (E); rewrite {1}Es !cost_cat Em.
case E1: (route_cost _ i (take a s)) => [x|] //=.
case E2: (route_cost _ _ (drop a (take b s))) => [y|] //=.
case E3: (route_cost _ _ (drop b s)) => [z|] //= [Ed].
exists (x + z)%Z; split; [|split; [|split]].
- by rewrite size_cat size_takel ?size_drop; lia.
- by rewrite [in RHS]Es !last_cat Em.
- by [].
- by have := G _ _ _ Em E2; lia.
Qed.

Lemma short n f i s d : no_gain (mk n n f) -> i < n -> route_cost (mk n n f) i s = Some d ->
  exists t e, size t < n /\ last i t = last i s /\ route_cost (mk n n f) i t = Some e /\ (e <= d)%Z.
Proof.
move=> G Hi; elim/(well_founded_ind (Wf_nat.well_founded_ltof _ (@size nat))): s d => s IH d E.
have [Hs|Hs] : size s < n \/ n <= size s by lia.
  by exists s, d; do 3!(split=> //); lia.
have [t [e [Lt [El [Et Le]]]]] := shorten G Hi E Hs.
have [|u [g [Lu [Eu [Ec Lg]]]]] := IH t _ e Et; first by rewrite /Wf_nat.ltof; apply/ssrnat.ltP.
by exists u, g; rewrite Eu El; do 3!(split=> //); lia.
Qed.

Theorem c102_distances n w (A : matrix (option Z)) (p : nat) : shape n n A -> (1 <= w)%Z ->
  (Z.of_nat p < 2 ^ (w - 1))%Z -> (n <= p + 1)%coq_nat ->
  (forall i s d, last i s = i -> route_cost A i s = Some d -> (0 <= d)%Z) ->
  exists B, (let* E := eye1 costS n in let* X := sum costS n n A E in pow costS n w X (Z.of_nat p)) = Ok B /\
  shape n n B /\
  forall i j, (i < n)%coq_nat -> (j < n)%coq_nat ->
  exists o, aget B i j = Ok o /\ cheapest (route A (fun _ => True) i j) o.
Proof.
move=> HA Hw Hp Hn G; have [B [E [HB HC]]] := c102_cost_upto HA Hw Hp.
exists B; split=> //; split=> // i j Hi Hj; have [o [Eo C]] := HC _ _ Hi Hj; exists o; split=> //.
apply: (cheapest_mono _ _ C) => d [s [L [El Ec]]]; first by exists s.
move: HA => /(shape_mk None) [f EA]; rewrite EA in G Ec *.
have [|t [e [Lt [Et [Ee Le]]]]] := short G _ Ec; first exact/ssrnat.ltP.
by exists e; split=> //; exists t; split; [rewrite /= -[length t]/(size t); lia|rewrite Et].
Qed.

(** ** A case: four towns, one of them out of reach, one leg that pays back *)
Definition c102_map : matrix (option Z) :=
  [:: [:: None; Some 4; Some 10; None]; [:: None; None; Some (-3); None];
   [:: Some 1; None; None; None]; [:: Some 2; None; Some 1; None]]%Z.
Lemma c102_ex : (let* E := eye1 costS 4 in let* X := sum costS 4 4 c102_map E in pow costS 4 32 X 3) =
  Ok [:: [:: Some 0; Some 4; Some 1; None]; [:: Some (-2); Some 0; Some (-3); None];
      [:: Some 1; Some 5; Some 0; None]; [:: Some 2; Some 6; Some 1; Some 0]]%Z /\
  pow costS 4 32 c102_map 2 =
  Ok [:: [:: Some 11; None; Some 1; None]; [:: Some (-2); None; None; None];
      [:: None; Some 5; Some 11; None]; [:: Some 2; Some 6; Some 12; None]]%Z.
Proof. by vm_compute. Qed.

(** its round trips are not negative: the towns have heights, and no leg costs less than the
    difference *)
Definition height (i : nat) : Z := match i with 1 => 2%Z | 2 => (-1)%Z | _ => 0%Z end.
Lemma c102_map_heights i s d : route_cost c102_map i s = Some d -> (height (last i s) - height i <= d)%Z.
Proof.
elim: s i d => [|k s IH] i d /=; first by case=> <-; lia.
case Ea: (aget c102_map i k) => [[c|]| | | |] //; case Er: route_cost => [e|//] [<-].
have := IH _ _ Er.
suff : (height k - height i <= c)%Z by lia.
case: i Ea => [|[|[|[|i]]]]; case: k {IH Er} => [|[|[|[|k]]]] //=; try (by case=> <-).
all: rewrite /aget /vget /=; first [by case: k|by case: i].
Qed.

Lemma c102_map_trips i s d : last i s = i -> route_cost c102_map i s = Some d -> (0 <= d)%Z.
Proof. by move=> E /c102_map_heights; rewrite E; lia. Qed.

Lemma c102_map_case : exists B,
  (let* E := eye1 costS 4 in let* X := sum costS 4 4 c102_map E in pow costS 4 32 X 3) = Ok B /\ shape 4 4 B /\
  forall i j, (i < 4)%coq_nat -> (j < 4)%coq_nat ->
  exists o, aget B i j = Ok o /\ cheapest (route c102_map (fun _ => True) i j) o.
Proof.
apply: (@c102_distances 4 32 c102_map 3) => //; last exact: c102_map_trips.
by split=> // r /=; do 4?[case=> [<- //|]].
Qed.
