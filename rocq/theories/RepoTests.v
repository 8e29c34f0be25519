(** * The repository's own unit tests, run on the model

    Each [Example] evaluates the model on the input of a test in /repo/tst and
    checks the assertion that test makes.  These are tests of the model's
    fidelity, not proofs of properties. *)

From Coq Require Import List ZArith Bool.
Import ListNotations.
From Flocq Require Import IEEE754.BinarySingleNaN.
From Verif Require Import Base Scalar CInt CFloat Model.

Definition F := float32S.
Definition fz (z : Z) : elt F := f_of_Z 24 128 z.
(** the binary32 number nearest to n/d *)
Definition fq (n d : Z) : elt F := Bdiv mode_NE (fz n) (fz d).
Definition fm (A : list (list Z)) : matrix (elt F) := map (map fz) A.
Definition eps := fq.

Definition is_ok_true (o : outcome bool) : bool :=
  match o with Ok b => b | _ => false end.
Definition is_ok_false (o : outcome bool) : bool :=
  match o with Ok b => negb b | _ => false end.
Definition eq_out (o : outcome (matrix (elt F))) (B : matrix (elt F)) : bool :=
  match o with Ok A => mat_eqb F A B | _ => false end.
Definition close (n m : nat) (o : outcome (matrix (elt F))) (B : matrix (elt F)) e : bool :=
  match o with Ok A => is_ok_true (compare F n m A B e) | _ => false end.
Definition feq (o : outcome (elt F)) (z : Z) : bool :=
  match o with Ok x => Beqb x (fz z) | _ => false end.
(** static_cast<int>(x) == z for |x| < 2^31 *)
Definition ftrunc (o : outcome (elt F)) (z : Z) : bool :=
  match o with Ok x => Z.eqb (Btrunc x) z | _ => false end.

(* tst/det/det.cpp *)
Example det_2_2 : feq (det F 2 (fm [[1;2];[0;1]]%Z)) 1 = true.
Proof. vm_compute. reflexivity. Qed.
Example det_3_3 : feq (det F 3 (fm [[1;2;1];[0;1;-3];[3;5;1]]%Z)) (-5) = true.
Proof. vm_compute. reflexivity. Qed.
Example det_4_4_A :
  feq (det F 4 (fm [[1;2;3;4];[5;6;7;8];[9;10;2;2];[2;1;-4;0]]%Z)) 196 = true.
Proof. vm_compute. reflexivity. Qed.
Example det_4_4_B :
  feq (det F 4 (fm [[1;0;4;-2];[0;-5;3;1];[-4;5;1;0];[1;0;-1;2]]%Z)) (-225) = true.
Proof. vm_compute. reflexivity. Qed.
Example det_5_5 :
  ftrunc (det F 5 (fm [[1;0;2;3;5];[7;6;-4;0;1];[-1;-4;0;5;1];[2;-4;3;-5;0];[1;2;5;-3;0]]%Z))
    (-6040) = true.
Proof. vm_compute. reflexivity. Qed.
Definition A99 := fm
  [[1;0;2;3;5;4;1;0;1];[7;6;-4;0;1;6;0;0;0];[-1;-4;0;5;1;5;4;6;2];[2;-4;3;-5;0;0;0;0;-1];
   [1;2;5;-3;0;0;0;3;-3];[7;6;-4;0;1;6;0;-1;0];[-1;-7;-2;5;1;2;4;5;1];[2;-4;0;-5;-3;0;0;0;2];
   [1;5;3;-3;0;0;0;3;1]]%Z.
Example det_9_9 : ftrunc (det F 9 A99) 89931 = true.
Proof. vm_compute. reflexivity. Qed.

(* tst/inv/inv.cpp *)
Example inv_2_2 : eq_out (inv F 2 (fm [[1;2];[0;1]]%Z)) (fm [[1;-2];[0;1]]%Z) = true.
Proof. vm_compute. reflexivity. Qed.
Example inv_3_3 :
  close 3 3 (inv F 3 (fm [[-2;5;1];[3;0;1];[1;1;2]]%Z))
    [[fq 5 100; fq 45 100; fq (-25) 100]; [fq 25 100; fq 25 100; fq (-25) 100];
     [fq (-15) 100; fq (-35) 100; fq 75 100]] (fq 1 100) = true.
Proof. vm_compute. reflexivity. Qed.
Example inv_4_4 :
  close 4 4 (inv F 4 (fm [[1;2;3;4];[2;3;1;2];[1;1;1;-1];[1;0;-2;-6]]%Z))
    (fm [[22;-6;-26;17];[-17;5;20;-13];[-1;0;2;-1];[4;-1;-5;3]]%Z) (fq 1 100) = true.
Proof. vm_compute. reflexivity. Qed.

(* tst/cholesky/cholesky.cpp *)
Definition cholA := fm [[4;12;-16];[12;37;-43];[-16;-43;98]]%Z.
Definition cholLA := fm [[2;0;0];[6;1;0];[-8;5;3]]%Z.
Definition llt n (L : outcome (matrix (elt F))) :=
  let* l := L in let* t := trans F n n l in op_mult F n n n l t.
Example sym_A : is_ok_true (isSymetric F 3 cholA) = true.
Proof. vm_compute. reflexivity. Qed.
Example sym_LA : is_ok_false (isSymetric F 3 cholLA) = true.
Proof. vm_compute. reflexivity. Qed.
Example chol_A :
  match llt 3 (Ok cholLA) with
  | Ok B => close 3 3 (llt 3 (chol F 3 cholA)) B (fq 1 100) | _ => false end = true.
Proof. vm_compute. reflexivity. Qed.
Example chol_A_exact : eq_out (chol F 3 cholA) cholLA = true.
Proof. vm_compute. reflexivity. Qed.
Example chol_B :
  match llt 4 (Ok (fm [[1;0;0;0];[2;1;0;0];[4;1;5;0];[4;7;6;1]]%Z)) with
  | Ok B => close 4 4 (llt 4 (chol F 4 (fm [[1;2;4;4];[2;5;9;15];[4;9;42;53];[4;15;53;102]]%Z)))
              B (fq 1 100) | _ => false end = true.
Proof. vm_compute. reflexivity. Qed.

(* tst/compare/compare.cpp *)
Example compare_failed :
  is_ok_false (compare F 2 2 (fm [[1;2];[0;1]]%Z) (fm [[6;1];[-1;0]]%Z) (fq 1 10000)) = true.
Proof. vm_compute. reflexivity. Qed.
Example compare_failed_epsilon :
  is_ok_false (compare F 2 2 [[fq 11 10; fz 2];[fq 10001 10000; fq 101 100]]
     [[fq (-11) 10; fz (-2)];[fq (-10001) 10000; fq (-101) 100]] (fq 1 100)) = true.
Proof. vm_compute. reflexivity. Qed.

(* tst/concatenate/concatenate.cpp *)
Example conc_AB :
  eq_out (concatenate_v F 2 3 2 (fm [[4;3];[6;3]]%Z) (fm [[10;12];[15;13];[17;11]]%Z))
    (fm [[4;3];[6;3];[10;12];[15;13];[17;11]]%Z) = true.
Proof. vm_compute. reflexivity. Qed.
Example conc_CD :
  eq_out (concatenate_h F 2 3 2 (fm [[4;3;1];[6;3;1]]%Z) (fm [[10;12];[15;13]]%Z))
    (fm [[4;3;1;10;12];[6;3;1;15;13]]%Z) = true.
Proof. vm_compute. reflexivity. Qed.
Example conc_EF :
  eq_out (concatenateV F 2 (fm [[4;3];[6;3]]%Z) (fm [[10;12];[15;13]]%Z))
    (fm [[4;3];[6;3];[10;12];[15;13]]%Z) = true.
Proof. vm_compute. reflexivity. Qed.
Example conc_GH :
  eq_out (concatenateH F 2 (fm [[4;3];[6;3]]%Z) (fm [[10;12];[15;13]]%Z))
    (fm [[4;3;10;12];[6;3;15;13]]%Z) = true.
Proof. vm_compute. reflexivity. Qed.
Example conc_IJ :
  eq_out (let* p := concatenate_sq F 2 (fm [[4;3];[6;3]]%Z) (fm [[10;12];[15;13]]%Z) in Ok (fst p))
    (fm [[4;3];[6;3];[10;12];[15;13]]%Z) = true.
Proof. vm_compute. reflexivity. Qed.

(* tst/conv/conv.cpp *)
Definition convA := fm [[9;9;9;9;9];[18;18;18;27;27];[9;9;9;9;9];[9;9;9;9;9];[9;9;9;9;9]]%Z.
Definition k9 := let x := fq 1 9 in [[x;x;x];[x;x;x];[x;x;x]].
Example conv_same :
  close 5 5 (conv2 F 5 5 convA k9)
   (fm [[6;9;10;11;8];[8;12;13;14;10];[8;12;13;14;10];[6;9;9;9;6];[4;6;6;6;4]]%Z) (fq 1 10) = true.
Proof. vm_compute. reflexivity. Qed.
Example conv_full :
  close 7 7 (conv2_full F 5 5 convA k9)
   (fm [[1;2;3;3;3;2;1];[3;6;9;10;11;8;4];[4;8;12;13;14;10;5];[4;8;12;13;14;10;5];
        [3;6;9;9;9;6;3];[2;4;6;6;6;4;2];[1;2;3;3;3;2;1]]%Z) (fq 1 10000) = true.
Proof. vm_compute. reflexivity. Qed.
Example conv_valid :
  close 3 3 (conv2_valid F 5 convA k9) (fm [[12;13;14];[12;13;14];[9;9;9]]%Z) (fq 1 10000) = true.
Proof. vm_compute. reflexivity. Qed.
Example conv_highpass :
  close 5 5 (conv2 F 5 5
    (fm [[5;5;5;5;5];[5;5;5;5;5];[5;5;5;9;5];[5;5;5;5;5];[5;5;5;5;5]]%Z)
    (fm [[-1;-1;-1];[-1;9;-1];[-1;-1;-1]]%Z))
   (fm [[30;20;20;20;30];[20;5;1;1;16];[20;5;1;41;16];[20;5;1;1;16];[30;20;20;20;30]]%Z)
   (fq 1 10000) = true.
Proof. vm_compute. reflexivity. Qed.

(* tst/eye/eye.cpp, tst/equal/equal.cpp *)
Example eye_4 : eq_out (eye1 F 4) (fm [[1;0;0;0];[0;1;0;0];[0;0;1;0];[0;0;0;1]]%Z) = true.
Proof. vm_compute. reflexivity. Qed.
Example eye_3_7 : eq_out (eye F 3 (fz 7)) (fm [[7;0;0];[0;7;0];[0;0;7]]%Z) = true.
Proof. vm_compute. reflexivity. Qed.
Example not_equal : mat_eqb F (fm [[1;2];[0;1]]%Z) (fm [[1;2];[0;0]]%Z) = false.
Proof. vm_compute. reflexivity. Qed.

(* tst/filters/filters.cpp; the sort is any sort, here insertion *)
Fixpoint ins (x : elt F) (l : list (elt F)) :=
  match l with [] => [x] | y :: r => if Bltb x y then x :: l else y :: ins x r end.
Definition isort (l : list (elt F)) := fold_right ins [] l.
Definition near (o : outcome (elt F)) (e : elt F) : bool :=
  match o with Ok x => Bltb (Bminus mode_NE x e) (fq 1 100) | _ => false end.
Definition stA := fm [[1;2;3];[4;5;6];[7;8;9]]%Z.
Example stats_A :
  near (mean F 3 3 stA) (fz 5) && near (median F isort 3 3 stA) (fz 5) &&
  near (var F 3 3 stA) (fq 666667 100000) &&
  near (stddev F 3 3 stA) (Bsqrt mode_NE (fq 666667 100000)) = true.
Proof. vm_compute. reflexivity. Qed.

(* tst/getminor/getminor.cpp *)
Example getminor_22 : eq_out (getminor F 3 stA 2 2) (fm [[1;2];[4;5]]%Z) = true.
Proof. vm_compute. reflexivity. Qed.
Definition gmA := fm [[1;2;3;4];[2;3;1;2];[1;1;1;-1];[1;0;-2;-6]]%Z.
Example getminor_00 : eq_out (getminor F 4 gmA 0 0) (fm [[3;1;2];[1;1;-1];[0;-2;-6]]%Z) = true.
Proof. vm_compute. reflexivity. Qed.
Example getminor_11 : eq_out (getminor F 4 gmA 1 1) (fm [[1;3;4];[1;1;-1];[1;-2;-6]]%Z) = true.
Proof. vm_compute. reflexivity. Qed.

(* tst/histogram/histogram.cpp *)
Example hist :
  match histogram F 3 3 (fm [[1;2;2];[4;4;2];[7;8;4]]%Z) with
  | Ok h => forallb (fun p => existsb (fun q => Beqb (fst q) (fz (fst p)) && Z.eqb (snd q) (snd p)) h)
              [(1,1);(2,3);(4,3);(7,1);(8,1)]%Z && Nat.eqb (length h) 5
  | _ => false end = true.
Proof. vm_compute. reflexivity. Qed.

(* tst/identity/identity.cpp, tst/ones/ones.cpp, tst/zeros/zeros.cpp (unsigned int) *)
Definition U := intS uint32.
Example identity_3_3 : isIdentity U 3 [[1;0;0];[0;1;0];[0;0;1]]%Z = Ok true.
Proof. vm_compute. reflexivity. Qed.
Example identity_eye : (let* A := eye1 U 100 in isIdentity U 100 A) = Ok true.
Proof. vm_compute. reflexivity. Qed.
Example identity_fill_one : isIdentity U 50 (fill U 50 50 1%Z) = Ok false.
Proof. vm_compute. reflexivity. Qed.
Example identity_ones : isIdentity U 4 (ones_call2 U 4 4) = Ok false.
Proof. vm_compute. reflexivity. Qed.
Example one_4 : ones_call2 U 4 4 = [[1;1;1;1];[1;1;1;1];[1;1;1;1];[1;1;1;1]]%Z.
Proof. vm_compute. reflexivity. Qed.
Example zeros_2_4 : zeros U 2 4 = [[0;0;0;0];[0;0;0;0]]%Z.
Proof. vm_compute. reflexivity. Qed.

(* tst/lu/lu.cpp *)
Definition fst_out {X Y} (o : outcome (X * Y)) : outcome X := let* p := o in Ok (fst p).
Definition snd_out {X Y} (o : outcome (X * Y)) : outcome Y := let* p := o in Ok (snd p).
Definition luA := lu F 3 (fm [[5;3;2];[1;2;0];[3;0;4]]%Z).
Example lu_3_L : close 3 3 (fst_out luA)
  [[fz 1; fz 0; fz 0]; [fq 1 5; fz 1; fz 0]; [fq 3 5; fq (-9) 7; fz 1]] (fq 1 10000) = true.
Proof. vm_compute. reflexivity. Qed.
Example lu_3_U : close 3 3 (snd_out luA)
  [[fz 5; fz 3; fz 2]; [fz 0; fq 7 5; fq (-2) 5]; [fz 0; fz 0; fq 16 7]] (fq 1 10000) = true.
Proof. vm_compute. reflexivity. Qed.
Definition luB := lu F 2 (fm [[4;3];[6;3]]%Z).
Example lu_2_L : close 2 2 (fst_out luB) [[fz 1; fz 0];[fq 3 2; fz 1]] (fq 1 10000) = true.
Proof. vm_compute. reflexivity. Qed.
Example lu_2_U : close 2 2 (snd_out luB) [[fz 4; fz 3];[fz 0; fq (-3) 2]] (fq 1 10000) = true.
Proof. vm_compute. reflexivity. Qed.

(* tst/mult/mult.cpp *)
Definition I32 := intS int32.
Example multiply : op_mult I32 2 3 2 [[1;2;-1];[4;0;6]]%Z [[1;3];[0;-1];[4;5]]%Z
  = Ok [[-3;-4];[28;42]]%Z.
Proof. vm_compute. reflexivity. Qed.
Example multiply_strassen :
  strassen I32 [[3;-4];[28;42]]%Z [[1;-4];[0;4]]%Z
  = op_mult I32 2 2 2 [[3;-4];[28;42]]%Z [[1;-4];[0;4]]%Z.
Proof. vm_compute. reflexivity. Qed.
Example multiply_scalar :
  eq_out (op_mult_scalar F 2 2 (fm [[6;1];[-1;0]]%Z) (fz 2)) (fm [[12;2];[-2;0]]%Z) &&
  eq_out (op_scalar_mult F 2 2 (fz 2) (fm [[6;1];[-1;0]]%Z)) (fm [[12;2];[-2;0]]%Z) &&
  eq_out (op_mult_scalar F 2 2 (fm [[6;1];[-1;0]]%Z) (fz 0)) (zeros F 2 2) = true.
Proof. vm_compute. reflexivity. Qed.

(* tst/pow/pow.cpp *)
Definition pA := fm [[1;2];[3;4]]%Z.
Fixpoint powr (k : nat) (A : outcome (matrix (elt F))) : outcome (matrix (elt F)) :=
  match k with
  | O => A
  | Datatypes.S k => let* B := powr k A in let* A := A in op_mult F 2 2 2 B A
  end.
Definition same (a b : outcome (matrix (elt F))) :=
  match b with Ok B => eq_out a B | _ => false end.
Example pow_pos :
  same (pow F 2 32 pA 0) (eye1 F 2) && same (pow F 2 32 pA 1) (Ok pA) &&
  same (pow F 2 32 pA 2) (powr 1 (Ok pA)) && same (pow F 2 32 pA 3) (powr 2 (Ok pA)) &&
  same (pow F 2 32 pA 4) (powr 3 (Ok pA)) && same (pow F 2 32 pA 5) (powr 4 (Ok pA)) = true.
Proof. vm_compute. reflexivity. Qed.
Example pow_neg :
  same (pow F 2 32 pA (-1)) (inv F 2 pA) && same (pow F 2 32 pA (-2)) (powr 1 (inv F 2 pA)) &&
  same (pow F 2 32 pA (-3)) (powr 2 (inv F 2 pA)) && same (pow F 2 32 pA (-4)) (powr 3 (inv F 2 pA)) &&
  same (pow F 2 32 pA (-5)) (powr 4 (inv F 2 pA)) = true.
Proof. vm_compute. reflexivity. Qed.

(* tst/sum/sum.cpp, tst/sub/sub.cpp *)
Example sum_AB :
  eq_out (op_plus F 2 2 (fm [[1;2];[0;1]]%Z) (fm [[6;1];[-1;0]]%Z)) (fm [[7;3];[-1;1]]%Z) &&
  eq_out (fst_out (op_postinc F 2 2 (fm [[1;2];[0;1]]%Z))) (fm [[2;3];[1;2]]%Z) &&
  eq_out (op_plus_scalar F 2 2 (fm [[6;1];[-1;0]]%Z) (fz 1)) (fm [[7;2];[0;1]]%Z) &&
  eq_out (op_scalar_plus F 2 2 (fz 1) (fm [[6;1];[-1;0]]%Z)) (fm [[7;2];[0;1]]%Z) = true.
Proof. vm_compute. reflexivity. Qed.
Example sub_scalar_A :
  eq_out (op_minus_scalar F 2 2 (fm [[6;1];[-1;0]]%Z) (fz 1)) (fm [[5;0];[-2;-1]]%Z) &&
  eq_out (fst_out (op_postdec F 2 2 (fm [[6;1];[-1;0]]%Z))) (fm [[5;0];[-2;-1]]%Z) = true.
Proof. vm_compute. reflexivity. Qed.

(* tst/swap/swap.cpp *)
Definition swA := fm [[1;2;3;4];[5;6;7;8];[9;10;2;2];[2;1;-4;0]]%Z.
Example swap_rows_4_4 :
  eq_out (swap_rows F 4 4 swA 0 2) (fm [[9;10;2;2];[5;6;7;8];[1;2;3;4];[2;1;-4;0]]%Z) = true.
Proof. vm_compute. reflexivity. Qed.
Example swap_cols_4_4 :
  eq_out (swap_cols F 4 4 swA 0 3) (fm [[4;2;3;1];[8;6;7;5];[2;10;2;9];[0;1;-4;2]]%Z) = true.
Proof. vm_compute. reflexivity. Qed.
Example swap_cols_4_2 :
  eq_out (swap_cols F 4 2 (fm [[1;2];[5;6];[9;10];[2;1]]%Z) 1 0)
    (fm [[2;1];[6;5];[10;9];[1;2]]%Z) = true.
Proof. vm_compute. reflexivity. Qed.

(* tst/trans/trans.cpp *)
Example trans_23 : eq_out (trans F 2 3 (fm [[1;2;3];[4;5;6]]%Z)) (fm [[1;4];[2;5];[3;6]]%Z) = true.
Proof. vm_compute. reflexivity. Qed.
