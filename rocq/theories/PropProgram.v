(** * C92: whole programs

    A program of any length and nesting (Program.v: assignments, exchanges of rows and
    columns, loops; right-hand sides that nest the functions without division) against
    what the same program computes with mathematical matrices (ProgSim.v: [pden]). *)

From Coq Require Import ZArith List Lia.
From mathcomp Require Import all_ssreflect all_algebra.
From mathcomp Require Import zify ssrZ.
From Verif Require Import Base Scalar Model CInt Spec Loops Struct Conv Exact ExactLemmas Alg Det ConvExact Pow Sim IntMx Int Program ProgSim.

Set Implicit Arguments.
Unset Strict Implicit.
Unset Printing Implicit Defensive.

Import GRing.Theory.
Local Open Scope ring_scope.
Delimit Scope Z_scope with Z.
Local Notation ltP := ssrnat.ltP (only parsing).
Local Notation leP := ssrnat.leP (only parsing).
Local Notation ZR := [comRingType of Z].

(** every variable of the program holds the value it has in [d], converted by [c] *)
Definition holds (T : Type) (R : comRingType) rows cols (c : R -> T) (s : env T) (d : denv rows cols R) : Prop :=
  (forall x, mvar s x = mxrows (map_mx c (dm d x))) /\ (forall x, svar s x = c (ds d x)).

(** all values are values of the type *)
Definition in_type (t : ityp) rows cols (d : denv rows cols ZR) : Prop :=
  (forall x, mx_in t (dm d x)) /\ (forall x, in_range t (ds d x)).

Lemma relM_map (K : scalar) (R : ringType) (c : R -> elt K) n m (X : 'M[R]_(n, m)) :
  relM (fun a x => a = c x) (mxrows (map_mx c X)) X.
Proof.
  exists (mxf (c 0) (map_mx c X)); split; first exact: mxrowsE.
  by move=> i j; rewrite mxf_ord mxE.
Qed.

Lemma map_relM (K : scalar) (R : ringType) (c : R -> elt K) n m C (X : 'M[R]_(n, m)) :
  relM (fun a x => a = c x) C X -> C = mxrows (map_mx c X).
Proof. by move=> [f [-> Hf]]; symmetry; apply: mxrows_mk => i j; rewrite mxE Hf. Qed.

Lemma esim_holds (K : scalar) (R : comRingType) rows cols (c : R -> elt K) (s : env (elt K)) (d : denv rows cols R) :
  esim (fun a x => a = c x) s d <-> holds c s d.
Proof.
  split=> [[H1 H2]|[H1 H2]]; split=> // x; first by exact: map_relM.
  by rewrite H1; exact: relM_map.
Qed.

Section Programs.
Variables rows cols : nat -> nat.
Implicit Types (p q : prog rows cols).

(** ** exact arithmetic: the program computes what it says *)
Theorem c92_exact (R : comUnitRingType) (lt : R -> R -> bool) (ab : R -> R) (sq : R -> outcome R) p s
  (d : denv rows cols R) : fits p -> holds id s d ->
  exists s', run (exactS lt ab sq) p s = Ok s' /\ holds id s' (pden p d).
Proof.
  move=> Hp H; pose K := exactS lt ab sq.
  have S : @sim K R (fun a x => a = x) (fun a x => a = x).
    by split=> //; move=> a x b y -> -> v [<-].
  have := @run_good K R _ _ S True _ _ _ rows cols p Hp s d.
  case; try by move=> *; eexists.
    exact/(@esim_holds K R rows cols id).
  move=> /(_ Logic.I) [s' E] U; exists s'; split=> //.
  by apply/(@esim_holds K R rows cols id); exact: U.
Qed.

Section Int.
Variable t : ityp.
Notation K := (intS t).
Notation conv d := (holds (iconv t) d).

(** ** every integer type: if the program returns, every variable holds the exact
    value converted to the type; only the final values count, not the intermediate ones *)
Theorem c92_integer p s d s' : (0 < width t)%Z -> fits p ->
  holds (R := ZR) (iconv t) s d -> run K p s = Ok s' -> holds (R := ZR) (iconv t) s' (pden p d).
Proof.
  move=> Hw Hp H E.
  have G := @run_good K ZR _ _ (sim_cong Hw) False _ _ _ rows cols p Hp s d.
  apply/(@esim_holds K ZR rows cols (iconv t)).
  case: G => //; last by move=> _; apply.
  exact/(@esim_holds K ZR rows cols (iconv t)).
Qed.

(** ** unsigned types of at least 32 bits: the program always returns *)
Theorem c92_unsigned p s d : sgn t = false -> (32 <= width t)%Z -> fits p ->
  holds (R := ZR) (fun z => z mod 2 ^ width t)%Z s d ->
  exists s', run K p s = Ok s' /\ holds (R := ZR) (fun z => z mod 2 ^ width t)%Z s' (pden p d).
Proof.
  move=> Hs Hw Hp; rewrite -(iconv_unsigned Hs) => H.
  have Hw0 : (0 < width t)%Z by lia.
  have G := @run_good K ZR _ _ (sim_cong Hw0) True _ _ _ rows cols p Hp s d.
  case: G.
  - by move=> _ a b; eexists; exact: iarith_unsigned.
  - by move=> _ a b; eexists; exact: iarith_unsigned.
  - by move=> _ a b; eexists; exact: iarith_unsigned.
  - exact/(@esim_holds K ZR rows cols (iconv t)).
  move=> /(_ Logic.I) [s' E] U; exists s'; split=> //.
  by apply/(@esim_holds K ZR rows cols (iconv t)); exact: U.
Qed.

(** ** signed types of at least 32 bits: the program is exact or undefined *)
Theorem c92_signed p s d s' : sgn t = true -> (32 <= width t)%Z -> fits p ->
  holds (R := ZR) id s d -> in_type t d -> run K p s = Ok s' ->
  holds (R := ZR) id s' (pden p d) /\ in_type t (pden p d).
Proof.
  move=> Hs Hw Hp [H1 H2] [H3 H4] E; have Hw0 : (0 < width t)%Z by lia.
  have G := @run_good K ZR _ _ (sim_signed Hw0 Hs Hw) False _ _ _ rows cols p Hp s d.
  have map_id n m (X : 'M[Z]_(n, m)) : map_mx id X = X by apply/matrixP => i j; rewrite mxE.
  case: G => //.
    split=> x; last by split; [exact: H2 | exact: H4].
    by rewrite H1 map_id; exact: relM_zin.
  move=> _ /(_ _ E) [U1 U2]; split; split=> x.
  - by rewrite map_id; have [-> _] := relM_zout (U1 x).
  - by have [-> _] := U2 x.
  - by have [_ U] := relM_zout (U1 x).
  - by have [_ U] := U2 x.
Qed.
End Int.

(** ** two programs *)

(** programs that are equal in mathematics leave the same value in variable x: in every
    integer type whenever both return, and unsigned types always return *)
Theorem c92_law_integer t p q x s (d : denv rows cols ZR) s1 s2 : (0 < width t)%Z -> fits p -> fits q ->
  (forall d, dm (pden p d) x = dm (pden q d) x :> 'M[ZR]_(_, _)) ->
  holds (R := ZR) (iconv t) s d -> run (intS t) p s = Ok s1 -> run (intS t) q s = Ok s2 ->
  mvar s1 x = mvar s2 x.
Proof.
  move=> Hw Hp Hq E H E1 E2.
  have [-> _] := c92_integer Hw Hp H E1; have [-> _] := c92_integer Hw Hq H E2.
  by rewrite E.
Qed.

Theorem c92_law_unsigned t p q x s (d : denv rows cols ZR) : sgn t = false -> (32 <= width t)%Z -> fits p -> fits q ->
  (forall d, dm (pden p d) x = dm (pden q d) x :> 'M[ZR]_(_, _)) ->
  holds (R := ZR) (fun z => z mod 2 ^ width t)%Z s d ->
  exists s1 s2, run (intS t) p s = Ok s1 /\ run (intS t) q s = Ok s2 /\ mvar s1 x = mvar s2 x.
Proof.
  move=> Hs Hw Hp Hq E H.
  have [s1 [E1 [U1 _]]] := c92_unsigned Hs Hw Hp H; have [s2 [E2 [U2 _]]] := c92_unsigned Hs Hw Hq H.
  by exists s1, s2; rewrite E1 E2 U1 U2 E.
Qed.

(** ** changing the type of a program *)

(** [r] is [s] with every value reduced modulo 2^w *)
Definition reduced (w : Z) (s r : env Z) : Prop :=
  (forall x, mvar r x = List.map (List.map (fun z => z mod 2 ^ w)%Z) (mvar s x)) /\
  (forall x, svar r x = (svar s x mod 2 ^ w)%Z).

Lemma map_mxrows (A B : Type) (f : A -> B) n m (X : 'M[A]_(n, m)) :
  List.map (List.map f) (mxrows X) = mxrows (map_mx f X).
Proof.
  rewrite /mxrows -[List.map _ _]/(map _ _) -map_comp; apply: eq_map => i /=.
  by rewrite -[List.map _ _]/(map _ _) -map_comp; apply: eq_map => j /=; rewrite mxE.
Qed.

Lemma holds_reduced w (c : Z -> Z) s r (d : denv rows cols ZR) : (forall z, (c z mod 2 ^ w)%Z = (z mod 2 ^ w)%Z) ->
  holds (R := ZR) c s d -> reduced w s r <-> holds (R := ZR) (fun z => z mod 2 ^ w)%Z r d.
Proof.
  move=> Hc [H1 H2].
  have E x : List.map (List.map (fun z => z mod 2 ^ w)%Z) (mvar s x) = mxrows (map_mx (fun z => z mod 2 ^ w)%Z (dm d x)).
    by rewrite H1 map_mxrows; congr mxrows; apply/matrixP => i j; rewrite !mxE Hc.
  split=> [[R1 R2]|[R1 R2]]; split=> x.
  - by rewrite R1 E.
  - by rewrite R2 H2 Hc.
  - by rewrite R1 E.
  - by rewrite R2 H2 Hc.
Qed.

(** a narrower unsigned type: reducing the arguments or reducing the results is the same *)
Theorem c92_truncate t u p s r (d : denv rows cols ZR) : sgn t = false -> sgn u = false -> (32 <= width u <= width t)%Z -> fits p ->
  holds (R := ZR) (fun z => z mod 2 ^ width t)%Z s d -> reduced (width u) s r ->
  exists s' r', run (intS t) p s = Ok s' /\ run (intS u) p r = Ok r' /\ reduced (width u) s' r'.
Proof.
  move=> Ht Hu Hw Hp H Hr.
  have Hc z : ((z mod 2 ^ width t) mod 2 ^ width u = z mod 2 ^ width u)%Z.
    rewrite -Znumtheory.Zmod_div_mod //; try by apply: pow2_gt0; lia.
    by exists (2 ^ (width t - width u))%Z; rewrite -Z.pow_add_r; [congr (2 ^ _)%Z|..]; lia.
  have [|s' [E1 U1]] := c92_unsigned Ht _ Hp H; first lia.
  have [||r' [E2 U2]] := @c92_unsigned u p r d Hu _ Hp; first lia.
    exact/(holds_reduced _ Hc H).
  by exists s', r'; split=> //; split=> //; apply/(holds_reduced _ Hc U1).
Qed.

(** a signed program that returns, run in an unsigned type of any width *)
Theorem c92_cast t u p s r (d : denv rows cols ZR) s' : sgn t = true -> (32 <= width t)%Z -> sgn u = false -> (32 <= width u)%Z -> fits p ->
  holds (R := ZR) id s d -> in_type t d -> reduced (width u) s r -> run (intS t) p s = Ok s' ->
  exists r', run (intS u) p r = Ok r' /\ reduced (width u) s' r'.
Proof.
  move=> Ht Hwt Hu Hwu Hp H Hd Hr E.
  have [U _] := c92_signed Ht Hwt Hp H Hd E.
  have [|r' [E2 U2]] := @c92_unsigned u p r d Hu Hwu Hp; first exact/(@holds_reduced _ id _ _ _ _ H).
  by exists r'; split=> //; apply/(@holds_reduced _ id _ _ _ _ U).
Qed.

(** ** laws of the expressions in unsigned types, bit for bit *)
Section Laws.
Variable t : ityp.
Hypothesis Hs : sgn t = false.
Hypothesis Hw : (32 <= width t)%Z.
Notation K := (intS t).
Variables (s : env Z) (d : denv rows cols ZR).
Hypothesis H : holds (R := ZR) (fun z => z mod 2 ^ width t)%Z s d.
Notation E := (mexp rows cols).

Theorem c92_expression n m (e : E n m) : mfits e ->
  meval K s e = Ok (mxrows (map_mx (fun z => z mod 2 ^ width t)%Z (mden d e))).
Proof.
  move=> He; have Hw0 : (0 < width t)%Z by lia.
  move: H; rewrite -(iconv_unsigned Hs) => /(@esim_holds K ZR rows cols (iconv t)) H'.
  have [] := @eval_good K ZR _ _ (sim_cong Hw0) True _ _ _ rows cols s d H'.
  - by move=> _ a b; eexists; exact: iarith_unsigned.
  - by move=> _ a b; eexists; exact: iarith_unsigned.
  - by move=> _ a b; eexists; exact: iarith_unsigned.
  move=> /(_ n m e He) [/(_ Logic.I) [C EC] U] _; rewrite EC; congr Ok.
  exact: (@map_relM K ZR (iconv t) _ _ _ _ (U C EC)).
Qed.

Lemma same_value n m (e f : E n m) : mfits e -> mfits f -> mden d e = mden d f -> meval K s e = meval K s f.
Proof. by move=> He Hf Eq; rewrite !c92_expression // Eq. Qed.

Ltac law := apply: same_value; [by cbn; tauto | by cbn; tauto | cbn [mden sden]].

(** the matrices form a ring, with the scalars as coefficients; the operands are any
    expressions *)
Theorem c92_ring n m h l (A A' A'' : E n m) (B B' : E m h) (C : E h l) (x y : sexp rows cols) :
  mfits A -> mfits A' -> mfits A'' -> mfits B -> mfits B' -> mfits C -> sfits x -> sfits y ->
  [/\ meval K s (Sum A A') = meval K s (Sum A' A),
      meval K s (Sum (Sum A A') A'') = meval K s (Sum A (Sum A' A'')),
      meval K s (Sub (Sum A A') A') = meval K s A,
      meval K s (Sum A (Zeros n m)) = meval K s A &
      meval K s (Sub A A) = meval K s (Zeros n m : E n m)] /\
  [/\ meval K s (Mult (Mult A B) C) = meval K s (Mult A (Mult B C)),
      meval K s (Mult (Sum A A') B) = meval K s (Sum (Mult A B) (Mult A' B)),
      meval K s (Mult A (Sum B B')) = meval K s (Sum (Mult A B) (Mult A B')),
      meval K s (Mult (Eye n) A) = meval K s A &
      meval K s (Mult A (Eye m)) = meval K s A] /\
  [/\ meval K s (Trans (Mult A B)) = meval K s (Mult (Trans B) (Trans A)),
      meval K s (Mult (MultS A x) B) = meval K s (MultS (Mult A B) x),
      meval K s (Mult A (MultS B x)) = meval K s (MultS (Mult A B) x),
      meval K s (MultS (MultS A x) y) = meval K s (MultS (MultS A y) x) &
      meval K s (MultS (Sum A A') x) = meval K s (Sum (MultS A x) (MultS A' x))].
Proof.
  move=> *; do !split; law.
  - by rewrite addrC.
  - by rewrite addrA.
  - by rewrite addrK.
  - by rewrite addr0.
  - by rewrite subrr.
  - by rewrite mulmxA.
  - by rewrite mulmxDl.
  - by rewrite mulmxDr.
  - by rewrite mul1mx.
  - by rewrite mulmx1.
  - by rewrite trmx_mul.
  - by rewrite scalemxAl.
  - by rewrite scalemxAr.
  - by rewrite !scalerA mulrC.
  - by rewrite scalerDr.
Qed.

(** powers, determinants of order at most 3, convolutions *)
Theorem c92_power n w (q r : nat) (A : E n n) : (Z.of_nat (q + r) < 2 ^ Z.max w 32)%Z -> mfits A ->
  meval K s (Pow w (q + r) A) = meval K s (Mult (Pow w q A) (Pow w r A)) /\
  meval K s (Trans (Pow w q A)) = meval K s (Pow w q (Trans A)).
Proof.
  move=> Hq HA; have Hq' : (Z.of_nat q < 2 ^ Z.max w 32)%Z by lia.
  have Hr' : (Z.of_nat r < 2 ^ Z.max w 32)%Z by lia.
  split; law; first exact: mxpowD.
  elim: q {Hq Hq'} => [|q IH] /=; first by rewrite trmx1.
  by rewrite trmx_mul IH -[RHS]/(mxpow _ q.+1) mxpowSr.
Qed.

Theorem c92_det n m (Hn : (0 < n /\ n <= 3)%coq_nat) (A B : E n n) (X : E m m) : mfits A -> mfits B -> mfits X ->
  meval K s (MultS X (Det Hn (Mult A B))) = meval K s (MultS (MultS X (Det Hn A)) (Det Hn B)) /\
  meval K s (MultS X (Det Hn (Trans A))) = meval K s (MultS X (Det Hn A)).
Proof.
  move=> HA HB HX; split; law; first by rewrite det_mulmx scalerA mulrC.
  by rewrite det_tr.
Qed.

Theorem c92_strassen (A B : E 2 2) : mfits A -> mfits B ->
  meval K s (Strassen A B) = meval K s (Mult A B).
Proof. by move=> HA HB; law. Qed.
End Laws.

End Programs.

(** ** a loop *)
Section LoopPow.
Variables n m : nat.
(** two variables: A, number 0, is n x n; X, number 1, is n x m *)
Definition rows2 (x : nat) : nat := n.
Definition cols2 (x : nat) : nat := if x is 0 then n else m.
Notation VA := (Var 0 : mexp rows2 cols2 n n).
Notation VX := (Var 1 : mexp rows2 cols2 n m).

(** for (i = 0; i < k; ++i) X = A * X; *)
Definition multiply_loop (k : nat) : prog rows2 cols2 := Loop k (@Assign rows2 cols2 1 (Mult VA VX)).
(** X = pow(A, k) * X; *)
Definition multiply_pow (w : Z) (k : nat) : prog rows2 cols2 := @Assign rows2 cols2 1 (Mult (Pow w k VA) VX).

Theorem c92_loop t w k s (d : denv rows2 cols2 ZR) : sgn t = false -> (32 <= width t)%Z ->
  (Z.of_nat k < 2 ^ Z.max w 32)%Z -> holds (R := ZR) (fun z => z mod 2 ^ width t)%Z s d ->
  exists s1 s2, run (intS t) (multiply_loop k) s = Ok s1 /\ run (intS t) (multiply_pow w k) s = Ok s2 /\
    mvar s1 1 = mvar s2 1.
Proof.
  move=> Hs Hw Hk; apply: c92_law_unsigned => //= {s d} d.
  rewrite dset_same /=.
  have G : forall j, let f := ssrnat.iter j (fun s => DEnv (@dset rows2 cols2 ZR (dm s) 1 (dm s 0%N *m dm s 1%N)) (ds s)) d in
    dm f 0%N = dm d 0%N /\ dm f 1%N = mxpow (dm d 0%N : 'M_n) j *m (dm d 1%N : 'M_(n, m)).
    elim=> [|j [IH0 IH1]] /=; first by rewrite mul1mx.
    rewrite dset_same dset_other // IH0 IH1; split=> //.
    by rewrite mulmxA.
  by case: (G k).
Qed.
End LoopPow.

Print Assumptions c92_exact.
Print Assumptions c92_integer.
Print Assumptions c92_unsigned.
Print Assumptions c92_signed.
Print Assumptions c92_law_integer.
Print Assumptions c92_law_unsigned.
Print Assumptions c92_truncate.
Print Assumptions c92_cast.
Print Assumptions c92_expression.
Print Assumptions c92_ring.
Print Assumptions c92_power.
Print Assumptions c92_det.
Print Assumptions c92_strassen.
Print Assumptions c92_loop.

(** A = [1 1; 1 0], X = [1; 0]: Fibonacci numbers modulo 2^32, by the loop and by pow;
    int overflows *)
Definition fib_env : env Z :=
  Env (fun x => if x is 0 then [:: [:: 1; 1]; [:: 1; 0]]%Z else [:: [:: 1]; [:: 0]]%Z) (fun _ => 0%Z).
Definition fib_denv : denv (rows2 2) (cols2 2 1) ZR :=
  DEnv (fun x => \matrix_(i, j) nth 0%Z (nth [::] (mvar fib_env x) i) j) (fun _ => 0%Z).

Example c92_fib : fits (multiply_loop 2 1 50) /\ fits (multiply_pow 2 1 32 50) /\
  holds (R := ZR) (fun z => z mod 2 ^ 32)%Z fib_env fib_denv /\
  (if run (intS uint32) (multiply_loop 2 1 50) fib_env is Ok s then Some (mvar s 1) else None)
    = Some [:: [:: 3185141890]; [:: 3996334433]]%Z /\
  (if run (intS uint32) (multiply_pow 2 1 32 50) fib_env is Ok s then Some (mvar s 1) else None)
    = Some [:: [:: 3185141890]; [:: 3996334433]]%Z /\
  (if run (intS int32) (multiply_loop 2 1 50) fib_env is UB SignedOverflow then true else false).
Proof.
  split; first by []; split; first by do !split.
  split; last by vm_compute.
  split=> //; case=> [|x] /=; symmetry.
    rewrite (@mxrows_mk _ 2 2 _ (fun i j => (nth 0 (nth [::] (mvar fib_env 0) i) j mod 2 ^ 32)%Z)) // => i j.
    by rewrite !mxE.
  rewrite (@mxrows_mk _ 2 1 _ (fun i j => (nth 0 (nth [::] (mvar fib_env 1) i) j mod 2 ^ 32)%Z)) // => i j.
  by rewrite !mxE.
Qed.
