(** * C83: bool matrices: reachability, and the determinant from 4x4 on *)

From Coq Require Import ZArith List Lia.
From mathcomp Require Import all_ssreflect all_algebra.
From mathcomp Require Import zify.
From Verif Require Import Base Scalar CInt CBool Model Spec Loops Struct Param ParamDet PropBool.
From Verif Require Import Elim Alg Exact ExactLemmas Det.

Set Implicit Arguments.
Unset Strict Implicit.
Unset Printing Implicit Defensive.

Import GRing.Theory.

(** ** no walk needs n steps *)
Lemma walk_path n A p i j : shape n n A -> walk n A p i j ->
  exists2 s : seq nat, path.path (fun a b => match aget A a b with Ok true => true | _ => false end) i s &
    last i s = j /\ (forall x, x \in i :: s -> (x < n)%N).
Proof.
  move=> HA W. elim: W => [k Hk|q k l h E W [s P [L B]]].
  - exists [::] => //. split=> // x. rewrite inE => /eqP ->. exact/ssrnat.ltP.
  - exists (l :: s); first by rewrite /= E.
    split=> // x. rewrite inE => /orP [/eqP ->|]; last exact: B.
    have [f Ef] := proj1 (shape_mk false _ _ _) HA. subst A. move/(rel_mk n n f): E => [H _]. exact/ssrnat.ltP.
Qed.

Lemma path_walk n A s i : (i < n)%N -> shape n n A ->
  path.path (fun a b => match aget A a b with Ok true => true | _ => false end) i s ->
  walk n A (size s) i (last i s).
Proof.
  move=> Hi HA. elim: s i Hi => [|k s IH] i Hi /=; first by move=> _; apply: walk_nil; apply/ssrnat.ltP.
  move=> /andP [E P]. have E' : rel A i k by rewrite /rel; case: (aget A i k) E => // -[].
  apply: walk_cons (E') _. apply: IH => //.
  have [f Ef] := proj1 (shape_mk false _ _ _) HA. subst A. move/(rel_mk n n f): E' => [_ [H _]]. exact/ssrnat.ltP.
Qed.

Lemma walk_short n A p i j : shape n n A -> walk n A p i j -> exists2 q, (q < n)%N & walk n A q i j.
Proof.
  move=> HA W. have [s P [L B]] := walk_path HA W. move: L B. case: (shortenP P) => t Pt U Sub L B.
  have Hi : (i < n)%N by apply: B; rewrite inE eqxx.
  exists (size t); last by rewrite -L; apply: path_walk.
  have Sb : {subset i :: t <= seq.iota 0 n}.
  { move=> x. rewrite mem_iota inE => /orP [/eqP ->|/Sub Hx]; first by rewrite Hi.
    have -> : (x < 0 + n)%N by apply: B; rewrite inE; apply/orP; right; exact: Hx. by []. }
  have := uniq_leq_size U Sb. by rewrite size_iota.
Qed.

(** adding the identity allows waiting: walks of at most p steps *)
Lemma walk_wait n A B : shape n n A -> shape n n B ->
  (forall i j, rel B i j <-> rel A i j \/ (i = j /\ (i < n)%N)) ->
  forall p i j, walk n B p i j <-> exists2 q, (q <= p)%N & walk n A q i j.
Proof.
  move=> HA HB EB. split.
  - elim=> [k Hk|q k l h E W [r Hr Wr]]; first by exists 0%N => //; apply: walk_nil.
    have /EB [E'|[-> _]] := E.
    + exists r.+1 => //. exact: walk_cons E' Wr.
    + exists r => //. exact: leqW.
  - move=> [q Hq W]. elim: p q i Hq W => [|p IH] q i Hq W.
    + have Eq : q = 0%N by lia. subst q. inversion W; subst. exact: walk_nil.
    + have [Hi Hj] := walk_range _ _ _ _ _ HA W.
      case: q Hq W => [|q] Hq W.
      * apply: (@walk_cons _ _ _ _ i); last exact: (IH 0%N).
        apply/EB. right. split=> //. exact/ssrnat.ltP.
      * inversion W as [|q' i' k j' E W' Eq' Ei Ej]; subst. apply: (@walk_cons _ _ _ _ k); last exact: (IH q).
        by apply/EB; left.
Qed.

(** pow(A + eye, p) with p >= n - 1 is the reflexive transitive closure *)
Theorem c83_closure n w A p : shape n n A -> (1 <= w)%Z -> (Z.of_nat p < 2 ^ (w - 1))%Z -> (n <= p.+1)%N ->
  exists B, (let* E := eye1 boolS n in let* X := sum boolS n n A E in pow boolS n w X (Z.of_nat p)) = Ok B /\
  shape n n B /\ forall i j, rel B i j <-> exists q, walk n A q i j.
Proof.
  move=> HA Hw Hp Hn. rewrite eye_bool. cbn [bind].
  have [C [-> [SC EC]]] := c83_sum n n A (mk n n Nat.eqb) HA (shape_of_mk n n _). cbn [bind].
  have [B [EB [SB WB]]] := c83_pow n w C p SC Hw Hp. exists B. split=> //. split=> // i j. rewrite WB.
  rewrite (@walk_wait n A C HA SC).
  - split; first by move=> [q _ W]; exists q.
    move=> [q W]. have [r Hr Wr] := walk_short HA W. exists r => //. lia.
  - move=> k l. rewrite EC rel_mk Nat.eqb_eq. split.
    + by case=> [H|[H1 [_ H2]]]; [left|right; split=> //; apply/ssrnat.ltP].
    + case=> [H|[<- H]]; [by left|right]. by split; [apply/ssrnat.ltP|split=> //; apply/ssrnat.ltP].
Qed.

(** ** the determinant from 4x4 on is that of the field of two elements *)
Section Det.
Local Open Scope ring_scope.
Local Notation F2 := 'F_2.
Notation K := (exactS (fun _ _ : F2 => false) (fun a => a) (fun a => Ok a)).
Definition rel2 (x : elt K) (b : elt boolS) : Prop := x = (b : bool)%:R.

Lemma mrel_mk n m (f : nat -> nat -> bool) : mrel rel2 (mk n m (fun i j => (f i j)%:R)) (mk n m f).
Proof.
  rewrite /mrel /mk. elim: (List.seq 0 n) => [|i l IH] /=; constructor=> //.
  elim: (List.seq 0 m) => [|j k IHk] /=; constructor=> //.
Qed.

Theorem c83_det_large n (f : nat -> nat -> bool) : (3 < n)%N ->
  det boolS n (mk n n f) = Ok (\det (\matrix_(i < n, j < n) ((f i j)%:R : F2)) != 0).
Proof.
  move=> Hn.
  have H : refines rel2 (det_general K n (mk n n (fun i j => (f i j)%:R))) (det_general boolS n (mk n n f)).
  { apply: general_rel; last exact: mrel_mk.
    - done.
    - by move=> a [] ->.
    - move=> c [] v [] a [] p [] -> -> -> ->; by cbn; try (eexists; split; [reflexivity|exact/eqP]).
    - move=> a [] b [] -> ->; cbn; by eexists; split; [reflexivity|exact/eqP].
    - move=> a [] b [] -> ->; by cbn; try (eexists; split; [reflexivity|exact/eqP]).
    - move=> a [] ->; cbn; by eexists; split; [reflexivity|exact/eqP]. }
  have -> : det boolS n (mk n n f) = det_general boolS n (mk n n f) by case: n Hn {H} => [|[|[|[|]]]].
  have E : det K n (mk n n (fun i j => (f i j)%:R)) = det_general K n (mk n n (fun i j => (f i j)%:R)) by case: n Hn {H} => [|[|[|[|]]]].
  move: H; rewrite -E det_mk => -[b [-> R2]].
  rewrite /detf /rel2 in R2. rewrite R2. by case: b {R2}.
Qed.
End Det.

(** concrete cases.  A directed path 0 -> 1 -> 2 -> 3: what each index reaches *)
Definition path4 : matrix bool :=
  [:: [:: false; true; false; false]; [:: false; false; true; false]; [:: false; false; false; true]; [:: false; false; false; false]].
Example c83_ex_pow : shape 4 4 path4 /\
  pow boolS 4 32 path4 3 = Ok [:: [:: false; false; false; true]; [:: false; false; false; false]; [:: false; false; false; false]; [:: false; false; false; false]] /\
  (let* E := eye1 boolS 4 in let* X := sum boolS 4 4 path4 E in pow boolS 4 32 X 3)
  = Ok [:: [:: true; true; true; true]; [:: false; true; true; true]; [:: false; false; true; true]; [:: false; false; false; true]].
Proof. split; [by split=> // r [<-|[<-|[<-|[<-|[]]]]]|by split; vm_compute]. Qed.

(** strassen is not the product, det changes its meaning at 4x4, and inv does not invert *)
Definition ring3 : matrix bool := [:: [:: false; true; true]; [:: true; false; true]; [:: true; true; false]].
Definition ring4 : matrix bool :=
  [:: [:: false; true; true; false]; [:: true; false; true; false]; [:: true; true; false; false]; [:: false; false; false; true]].
Theorem c83_bad :
  (let J := [:: [:: true; true]; [:: true; true]] in mult boolS 2 2 2 J J = Ok J /\ strassen boolS J J <> Ok J) /\
  det boolS 3 ring3 = Ok true /\ det boolS 4 ring4 = Ok false /\
  (let U := [:: [:: true; true]; [:: false; true]] in
   inv boolS 2 U = Ok U /\ mult boolS 2 2 2 U U = Ok U /\ eye1 boolS 2 <> Ok U).
Proof. vm_compute. by repeat split. Qed.

Print Assumptions c83_closure.
Print Assumptions c83_det_large.
Print Assumptions c83_bad.
