(** * Property C60: the benchmarks of /repo/bench

    One pass of each benchmark loop, for every size and every sequence of random
    draws. *)

From Coq Require Import List ZArith Lia Bool Arith.
Import ListNotations.
From Verif Require Import Base Scalar Model CInt CFloat Spec Loops Struct Bench BenchLemmas PropStruct.

Local Notation FK := float32S.   (* MatrixType of cache.hpp *)
Local Notation IK := (intS int32).

Lemma float_adds (a b : xpr FK) : exists c, xadd a b = Ok c.
Proof. eexists. reflexivity. Qed.

Ltac as_mk H := apply (proj1 (shape_mk (lite FK 0) _ _ _)) in H; destruct H as [? ->].

(** ** The cache benchmarks *)

(** row order stays inside the matrix, for every size *)
Theorem c60_row_major row col (A : matrix (elt FK)) : shape row col A ->
  returns (bench_row_major FK row col A).
Proof. intros H. as_mk H. apply row_major_returns, float_adds. Qed.
Print Assumptions c60_row_major.

(** "column order" exchanges the bounds but not the subscripts: it leaves the
    matrix exactly when the matrix is not square and not empty *)
Theorem c60_col_major row col (A : matrix (elt FK)) : shape row col A ->
  (row <> col /\ 0 < row /\ 0 < col <-> bench_col_major FK row col A = UB OutOfBounds) /\
  (row = col \/ row = 0 \/ col = 0 <-> returns (bench_col_major FK row col A)).
Proof.
  intros H. as_mk H. pose proof (col_major_spec FK float_adds row col x) as S.
  destruct (Nat.eqb_spec row col), (Nat.eqb_spec row 0), (Nat.eqb_spec col 0); cbn [orb] in S;
    try (destruct S as [r S]; rewrite S; split; [split; [lia|discriminate]|split; [eexists; reflexivity|lia]]).
  rewrite S. split; [split; [reflexivity|lia]|split; [lia|intros [r E]; discriminate]].
Qed.
Print Assumptions c60_col_major.

(** on the square sizes of the benchmark list, row order and "column order"
    therefore visit the same elements in the same order *)
Theorem c60_same_order n (A : matrix (elt FK)) :
  bench_col_major FK n n A = bench_row_major FK n n A.
Proof. reflexivity. Qed.
Print Assumptions c60_same_order.

(** random order leaves the matrix exactly when one of the drawn columns is
    [col], the upper end of the distribution *)
Theorem c60_rand_major row col rand (A : matrix (elt FK)) : shape row col A -> rand_draws col rand ->
  (In col rand /\ 0 < row <-> bench_rand_major FK row col rand A = UB OutOfBounds) /\
  (~ (In col rand /\ 0 < row) <-> returns (bench_rand_major FK row col rand A)).
Proof.
  intros H D. as_mk H. destruct (rand_major_spec FK float_adds row col rand x D) as [S1 S2].
  assert (Dec : {In col rand /\ 0 < row} + {~ (In col rand /\ 0 < row)}).
  { destruct (in_dec Nat.eq_dec col rand), (lt_dec 0 row); tauto. }
  destruct Dec as [Y|N].
  - specialize (S1 Y). rewrite S1. split; [tauto|]. split; [tauto|intros [r E]; discriminate].
  - destruct (S2 N) as [r E]. rewrite E. split; [split; [tauto|discriminate]|].
    split; [intros _; eexists; reflexivity|tauto].
Qed.
Print Assumptions c60_rand_major.

(** and the distribution does produce such draws, for every size *)
Theorem c60_rand_possible row col (A : matrix (elt FK)) : shape row col A -> 0 < row -> 0 < col ->
  exists rand, rand_draws col rand /\ bench_rand_major FK row col rand A = UB OutOfBounds.
Proof.
  intros H Hr Hc. exists (repeat col col).
  assert (D : rand_draws col (repeat col col)).
  { split; [apply repeat_length|]. intros r I. apply repeat_spec in I. lia. }
  split; [exact D|]. apply (proj1 (c60_rand_major row col _ A H D)). split; [|exact Hr].
  destruct col; [lia|]. left. reflexivity.
Qed.
Print Assumptions c60_rand_possible.

Definition ex32 : matrix (elt FK) := map (map (f_of_Z 24 128)) [[1; 2]; [3; 4]; [5; 6]]%Z.

Example c60_ex : shape 3 2 ex32 /\ bench_col_major FK 3 2 ex32 = UB OutOfBounds /\
  returns (bench_rand_major FK 3 2 [1; 0] ex32) /\ bench_rand_major FK 3 2 [1; 2] ex32 = UB OutOfBounds.
Proof.
  assert (H : shape 3 2 ex32).
  { split; [reflexivity|]. intros row [<-|[<-|[<-|[]]]]; reflexivity. }
  split; [exact H|]. split; [|split].
  - apply (proj1 (c60_col_major 3 2 ex32 H)). lia.
  - apply (proj2 (c60_rand_major 3 2 [1; 0] ex32 H ltac:(split; [reflexivity|intros ? [<-|[<-|[]]]; lia]))).
    intros [[E|[E|[]]] _]; discriminate.
  - apply (proj1 (c60_rand_major 3 2 [1; 2] ex32 H ltac:(split; [reflexivity|intros ? [<-|[<-|[]]]; lia]))).
    split; [right; left; reflexivity|lia].
Qed.

(** ** setRand *)

(** every element is overwritten, whatever it was: element (i, j) is draw number
    i*m+j, and the generator is called n*m times; any element type *)
Theorem c60_setRand (K : scalar) n m (draw : nat -> elt K) (A : matrix (elt K)) : shape n m A ->
  setRand K n m draw A = Ok (mk n m (fun i j => draw (i * m + j)), n * m).
Proof.
  intros H. apply (proj1 (shape_mk (lite K 0) _ _ _)) in H. destruct H as [g ->]. apply setRand_mk.
Qed.
Print Assumptions c60_setRand.

(** ** The multiplication benchmarks

    The draws come from [uniform_int_distribution<int>{}]: anything from 0 to
    INT_MAX. *)

Definition int_draws (draw : nat -> Z) : Prop := forall k, (0 <= draw k <= 2147483647)%Z.

(** the i-th row of the first matrix times the j-th column of the second, over Z *)
Fixpoint zsum (m : nat) (f : nat -> Z) : Z :=
  match m with O => 0%Z | S k => (zsum k f + f k)%Z end.
Definition entry (n : nat) (drawA drawB : nat -> Z) (i j : nat) : Z :=
  zsum n (fun k => drawA (i * n + k)%nat * drawB (k * n + j)%nat)%Z.

Lemma zsum_nonneg m f : (forall k, 0 <= f k)%Z -> (0 <= zsum m f)%Z.
Proof. intros H. induction m; cbn [zsum]; [lia|]. specialize (H m). lia. Qed.

Lemma dot_nonneg m (a b : nat -> Z) : (forall k, 0 <= a k)%Z -> (forall k, 0 <= b k)%Z ->
  dot IK m a b = if (zsum m (fun k => a k * b k) <=? 2147483647)%Z
                 then Ok (zsum m (fun k => a k * b k)%Z) else UB SignedOverflow.
Proof.
  intros Ha Hb. unfold dot. induction m as [|p IH]; [reflexivity|].
  rewrite for_snoc by lia. rewrite IH. clear IH. cbn [zsum].
  assert (P : (0 <= a p * b p)%Z) by (apply Z.mul_nonneg_nonneg; auto).
  assert (Q : (0 <= zsum p (fun k => a k * b k))%Z).
  { apply zsum_nonneg. intros k. apply Z.mul_nonneg_nonneg; auto. }
  set (s := zsum p _) in *. clearbody s.
  destruct (Z.leb_spec s 2147483647) as [L|L].
  - cbn [bind]. cbv beta.
    change (@xmul IK (@ld IK (a p)) (@ld IK (b p))) with (iarith int32 (a p * b p)).
    unfold iarith at 1. change (sgn int32) with true. cbv iota. unfold in_range at 1.
    change (imin int32) with (-2147483648)%Z. change (imax int32) with 2147483647%Z.
    destruct (Z.leb_spec (-2147483648) (a p * b p)); [|lia].
    destruct (Z.leb_spec (a p * b p) 2147483647); cbn [andb bind].
    + change (@xadd IK (@ld IK s) (a p * b p)%Z) with (iarith int32 (s + a p * b p)).
      unfold iarith. change (sgn int32) with true. cbv iota. unfold in_range.
      change (imin int32) with (-2147483648)%Z. change (imax int32) with 2147483647%Z.
      destruct (Z.leb_spec (-2147483648) (s + a p * b p)); [|lia].
      destruct (Z.leb_spec (s + a p * b p) 2147483647); cbn [andb bind]; [|reflexivity].
      f_equal. change (@st IK (s + a p * b p)%Z) with (iconv int32 (s + a p * b p)).
      unfold iconv. change (sgn int32) with true. change (width int32) with 32%Z. cbv iota.
      rewrite Z.mod_small; lia.
    + destruct (Z.leb_spec (s + a p * b p) 2147483647); [lia|reflexivity].
  - cbn [bind]. destruct (Z.leb_spec (s + a p * b p) 2147483647); [lia|reflexivity].
Qed.

Lemma map_out_cases {A B} (P : A -> bool) (f : A -> B) e l :
  map_out (fun x => if P x then Ok (f x) else UB e) l =
  if forallb P l then Ok (map f l) else UB e.
Proof.
  induction l as [|x l IH]; [reflexivity|]. cbn [map_out forallb map].
  destruct (P x); cbn [bind andb]; [|reflexivity]. rewrite IH. destruct (forallb P l); reflexivity.
Qed.

(** the benchmark returns the exact product if every element of it fits in
    [int], and is a signed overflow otherwise *)
Theorem c60_multiply n (drawA drawB : nat -> Z) (A B : matrix Z) : shape n n A -> shape n n B ->
  int_draws drawA -> int_draws drawB ->
  ((forall i j, i < n -> j < n -> (entry n drawA drawB i j <= 2147483647)%Z) ->
   bench_multiply IK n drawA drawB A B = Ok (mk n n (entry n drawA drawB))) /\
  ((exists i j, i < n /\ j < n /\ (2147483647 < entry n drawA drawB i j)%Z) ->
   bench_multiply IK n drawA drawB A B = UB SignedOverflow).
Proof.
  intros HA HB DA DB. unfold bench_multiply.
  rewrite (c60_setRand IK n n drawA A HA), (c60_setRand IK n n drawB B HB). cbn [bind fst].
  rewrite mult_tab. unfold tabM.
  rewrite (map_out_ext _ (fun i => if forallb (fun j => (entry n drawA drawB i j <=? 2147483647)%Z) (seq 0 n)
     then Ok (map (fun j => entry n drawA drawB i j) (seq 0 n)) else UB SignedOverflow)).
  2:{ intros i _. rewrite <- map_out_cases. apply map_out_ext. intros j _.
      apply dot_nonneg; intros k; [apply DA|apply DB]. }
  rewrite map_out_cases. split.
  - intros H. rewrite (proj2 (forallb_forall _ _)); [reflexivity|].
    intros i Hi. apply forallb_forall. intros j Hj. apply in_seq in Hi, Hj. apply Z.leb_le, H; lia.
  - intros [i [j [Hi [Hj H]]]].
    destruct (forallb _ (seq 0 n)) eqn:E; [|reflexivity]. exfalso.
    rewrite forallb_forall in E. specialize (E i ltac:(apply in_seq; lia)). rewrite forallb_forall in E.
    specialize (E j ltac:(apply in_seq; lia)). apply Z.leb_le in E. lia.
Qed.
Print Assumptions c60_multiply.

(** such draws exist for every size: two draws of 46341 in the same place are enough *)
Theorem c60_multiply_possible n (A B : matrix Z) : shape n n A -> shape n n B -> 0 < n ->
  exists drawA drawB, int_draws drawA /\ int_draws drawB /\
    bench_multiply IK n drawA drawB A B = UB SignedOverflow.
Proof.
  intros HA HB Hn. set (d := fun _ : nat => 46341%Z). exists d, d.
  assert (D : int_draws d) by (intros k; unfold d; lia).
  split; [exact D|]. split; [exact D|]. apply (c60_multiply n d d A B HA HB D D).
  exists 0, 0. split; [exact Hn|]. split; [exact Hn|]. unfold entry, d. destruct n; [lia|]. cbn [zsum].
  pose proof (zsum_nonneg n (fun _ => 46341 * 46341)%Z ltac:(intros; lia)). lia.
Qed.
Print Assumptions c60_multiply_possible.

(** Strassen's benchmark is a signed overflow as soon as the first row of the
    first matrix sums above INT_MAX, although the product may fit *)
Theorem c60_strassen (drawA drawB : nat -> Z) (A B : matrix Z) : shape 2 2 A -> shape 2 2 B ->
  int_draws drawA -> int_draws drawB -> (2147483647 < drawA 0%nat + drawA 1%nat)%Z ->
  bench_strassen IK drawA drawB A B = UB SignedOverflow.
Proof.
  intros HA HB DA DB H. unfold bench_strassen.
  rewrite (c60_setRand IK 2 2 drawA A HA), (c60_setRand IK 2 2 drawB B HB). cbn [bind fst].
  unfold strassen. rewrite !aget_mk by lia. cbn [bind Nat.mul Nat.add].
  pose proof (DA 0). pose proof (DA 1). pose proof (DB 1). pose proof (DB 3).
  change (@xsub IK (@ld IK (drawB 1)) (@ld IK (drawB 3))) with (iarith int32 (drawB 1%nat - drawB 3%nat)).
  assert (I : forall z, iarith int32 z = if in_range int32 z then Ok z else UB SignedOverflow) by reflexivity.
  assert (R : forall z, in_range int32 z = ((-2147483648 <=? z) && (z <=? 2147483647))%Z) by reflexivity.
  rewrite I, R. destruct (Z.leb_spec (-2147483648) (drawB 1%nat - drawB 3%nat)); [|lia].
  destruct (Z.leb_spec (drawB 1%nat - drawB 3%nat) 2147483647); [|lia]. cbn [andb bind].
  change (@xmul IK (@ld IK (drawA 0)) (drawB 1%nat - drawB 3%nat)%Z)
    with (iarith int32 (drawA 0%nat * (drawB 1%nat - drawB 3%nat))).
  rewrite I. destruct (in_range int32 (drawA 0%nat * _)); [|reflexivity]. cbn [bind].
  change (@xadd IK (@ld IK (drawA 0)) (@ld IK (drawA 1))) with (iarith int32 (drawA 0%nat + drawA 1%nat)).
  rewrite I, R. destruct (Z.leb_spec (drawA 0%nat + drawA 1%nat) 2147483647); [lia|].
  rewrite andb_false_r. reflexivity.
Qed.
Print Assumptions c60_strassen.

(** ... for example with one matrix of draws the product returns and Strassen's
    algorithm does not *)
Example c60_strassen_ex : let drawA := fun k => nth k [2147483647; 1; 0; 0]%Z 0%Z in
  let drawB := fun k => nth k [1; 0; 0; 1]%Z 0%Z in
  let O := [[0; 0]; [0; 0]]%Z in
  bench_strassen IK drawA drawB O O = UB SignedOverflow /\
  bench_multiply IK 2 drawA drawB O O = Ok [[2147483647; 1]; [0; 0]]%Z.
Proof. split; vm_compute; reflexivity. Qed.

Example c60_multiply_ex : let d := fun k => Z.of_nat k in
  bench_multiply IK 3 d d [[0; 0; 0]; [0; 0; 0]; [0; 0; 0]]%Z [[0; 0; 0]; [0; 0; 0]; [0; 0; 0]]%Z =
    Ok [[15; 18; 21]; [42; 54; 66]; [69; 90; 111]]%Z.
Proof. vm_compute. reflexivity. Qed.

(** ** The determinant and inverse benchmarks never access out of bounds *)

Theorem c60_det_inv n (draw : nat -> elt FK) (A : matrix (elt FK)) : shape n n A ->
  safe (fun _ => True) (bench_det FK n draw A) /\ safe (shape n n) (bench_inv FK n draw A).
Proof.
  intros H. unfold bench_det, bench_inv. rewrite (c60_setRand FK n n draw A H). cbn [bind fst].
  pose proof (c08_square FK (proj1 (proj2 c08_element_types)) n (mk n n (fun i j => draw (i * n + j)%nat))) as C.
  destruct C as [C1 [C2 _]]; [|split; [exact C1|exact C2]].
  apply (shape_mk (lite FK 0)). eexists. reflexivity.
Qed.
Print Assumptions c60_det_inv.
