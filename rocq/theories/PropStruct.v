(** * Properties C01-C09, C11: constructors, rearrangements, safety

    Statements only; the proofs are elsewhere.  [mk n m f] is the n x m matrix
    with element [f i j] in row i, column j (Spec.v).  [K] is an arbitrary
    element type with arbitrary arithmetic. *)

From Coq Require Import List ZArith Lia Bool Arith.
Import ListNotations.
From Verif Require Import Base Scalar Model CInt CFloat Spec Loops Struct Conv Safety SafetyInst.

(** a concrete matrix used by the examples *)
Definition ex23 : matrix Z := [[1; 2; 3]; [4; 5; 6]]%Z.
Definition ex22 : matrix Z := [[1; 2]; [3; 4]]%Z.

(** ** C01 trans *)

Theorem c01_trans : forall (K : scalar) n m (f : nat -> nat -> elt K),
  trans K n m (mk n m f) = Ok (mk m n (fun i j => f j i)).
Proof. exact trans_mk. Qed.
Print Assumptions c01_trans.

Theorem c01_trans_twice : forall (K : scalar) n m (A : matrix (elt K)), shape n m A ->
  (let* B := trans K n m A in trans K m n B) = Ok A.
Proof. exact trans_twice. Qed.
Print Assumptions c01_trans_twice.

(** the element relation, without [mk] *)
Theorem c01_trans_elements : forall (K : scalar) n m (A : matrix (elt K)), shape n m A ->
  exists B, trans K n m A = Ok B /\ shape m n B /\
  forall i j, i < m -> j < n -> aget B i j = aget A j i.
Proof. exact trans_elements. Qed.
Print Assumptions c01_trans_elements.

Example c01_ex : shape 2 3 ex23 /\ trans (intS int32) 2 3 ex23 = Ok [[1; 4]; [2; 5]; [3; 6]]%Z.
Proof. split; [split; [reflexivity|simpl; intuition subst; reflexivity]|reflexivity]. Qed.

(** ** C02 fill, zeros, ones, eye *)

Theorem c02_fill : forall (K : scalar) i j (d : elt K), fill K i j d = mk i j (fun _ _ => d).
Proof. exact fill_mk. Qed.
Print Assumptions c02_fill.

Theorem c02_zeros : forall (K : scalar) i j, zeros K i j = mk i j (fun _ _ => lite K 0).
Proof. exact zeros_mk. Qed.
Print Assumptions c02_zeros.

Theorem c02_ones : forall (K : scalar) n, ones_type K n n = mk n n (fun _ _ => lite K 1).
Proof. intros K n. exact (ones_type_mk K n n). Qed.
Print Assumptions c02_ones.

Theorem c02_eye : forall (K : scalar) n (d : elt K),
  eye K n d = Ok (mk n n (fun i j => if i =? j then d else lite K 0)).
Proof. exact eye_mk. Qed.
Print Assumptions c02_eye.

Theorem c02_eye_default : forall (K : scalar) n,
  eye1 K n = Ok (mk n n (fun i j => if i =? j then lite K 1 else lite K 0)).
Proof. exact eye1_mk. Qed.
Print Assumptions c02_eye_default.

(** the literals are what they should be *)
Example c02_ex : eye (intS int16) 2 7%Z = Ok [[7; 0]; [0; 7]]%Z /\
  fill (intS int16) 2 1 7%Z = [[7]; [7]]%Z /\ ones_type (intS uint8) 2 2 = [[1; 1]; [1; 1]]%Z /\
  zeros (intS int64) 1 2 = [[0; 0]]%Z /\ lite float32S 0 = f_of_Z 24 128 0.
Proof. repeat split. Qed.

(** ** C03 ones<a,b>() *)

Theorem c03_ones2 : forall a b,
  ones_call2 (intS uint32) a b = mk b b (fun _ _ => 1%Z).
Proof. exact (fun a b => ones_call2_mk (intS uint32) a b). Qed.
Print Assumptions c03_ones2.

(** the documented shape a x b is obtained exactly when a = b (or the matrix is
    empty in both readings) *)
Theorem c03_ones2_shape : forall a b,
  shape a b (ones_call2 (intS uint32) a b) <-> a = b.
Proof. exact ones2_shape. Qed.
Print Assumptions c03_ones2_shape.

(** ** C04 joining *)

Theorem c04_vertical : forall (K : scalar) n1 n2 m (A B : matrix (elt K)),
  shape n1 m A -> shape n2 m B -> concatenate_v K n1 n2 m A B = Ok (A ++ B).
Proof. exact concatenate_v_app. Qed.
Print Assumptions c04_vertical.

Theorem c04_horizontal : forall (K : scalar) n m1 m2 (A B : matrix (elt K)),
  shape n m1 A -> shape n m2 B -> concatenate_h K n m1 m2 A B = Ok (hjoin A B).
Proof. exact concatenate_h_join. Qed.
Print Assumptions c04_horizontal.

Theorem c04_squareV : forall (K : scalar) n (A B : matrix (elt K)),
  shape n n A -> shape n n B -> concatenateV K n A B = Ok (A ++ B).
Proof. exact concatenateV_app. Qed.
Print Assumptions c04_squareV.

Theorem c04_squareH : forall (K : scalar) n (A B : matrix (elt K)),
  shape n n A -> shape n n B -> concatenateH K n A B = Ok (hjoin A B).
Proof. exact concatenateH_join. Qed.
Print Assumptions c04_squareH.

Example c04_ex :
  concatenate_v (intS int32) 2 1 3 ex23 [[7; 8; 9]]%Z = Ok [[1; 2; 3]; [4; 5; 6]; [7; 8; 9]]%Z /\
  concatenate_h (intS int32) 2 3 2 ex23 ex22 = Ok [[1; 2; 3; 1; 2]; [4; 5; 6; 3; 4]]%Z.
Proof. split; reflexivity. Qed.

(** ** C05 concatenate of two squares *)

Theorem c05_concatenate_square : forall (K : scalar) n (A B : matrix (elt K)),
  shape n n A -> shape n n B ->
  concatenate_sq K n A B = Ok (A ++ B, hjoin A A).
Proof. exact concatenate_sq_join. Qed.
Print Assumptions c05_concatenate_square.

(** hence the documented [A|B] is returned only when A = B *)
Theorem c05_second_documented_iff : forall (K : scalar) n (A B : matrix (elt K)),
  shape n n A -> shape n n B ->
  (exists V, concatenate_sq K n A B = Ok (V, hjoin A B)) <-> A = B.
Proof. exact concatenate_sq_iff. Qed.
Print Assumptions c05_second_documented_iff.

Theorem c05_documented_refuted :
  ~ forall (A B : matrix Z), shape 2 2 A -> shape 2 2 B ->
    concatenate_sq (intS int32) 2 A B = Ok (A ++ B, hjoin A B).
Proof. exact concatenate_sq_refuted. Qed.
Print Assumptions c05_documented_refuted.

(** ** C06 swap_rows, swap_cols *)

Theorem c06_swap_rows : forall (K : scalar) n m (f : nat -> nat -> elt K) r1 r2,
  r1 < n -> r2 < n ->
  swap_rows K n m (mk n m f) r1 r2 =
  Ok (mk n m (fun i j => if i =? r1 then f r2 j else if i =? r2 then f r1 j else f i j)).
Proof. exact swap_rows_mk. Qed.
Print Assumptions c06_swap_rows.

Theorem c06_swap_rows_twice : forall (K : scalar) n m (A : matrix (elt K)) r1 r2,
  shape n m A -> r1 < n -> r2 < n ->
  (let* B := swap_rows K n m A r1 r2 in swap_rows K n m B r1 r2) = Ok A /\
  swap_rows K n m A r1 r2 = swap_rows K n m A r2 r1.
Proof. exact swap_rows_twice. Qed.
Print Assumptions c06_swap_rows_twice.

Theorem c06_swap_rows_same : forall (K : scalar) n m (A : matrix (elt K)) r,
  swap_rows K n m A r r = Ok A.
Proof. exact swap_rows_same. Qed.
Print Assumptions c06_swap_rows_same.

Theorem c06_swap_rows_out_of_range : forall (K : scalar) n m (f : nat -> nat -> elt K) r1 r2,
  r1 <> r2 -> n <= r1 \/ n <= r2 -> 0 < m ->
  swap_rows K n m (mk n m f) r1 r2 = UB OutOfBounds.
Proof. exact swap_rows_oob. Qed.
Print Assumptions c06_swap_rows_out_of_range.

Theorem c06_swap_cols : forall (K : scalar) n m (f : nat -> nat -> elt K) c1 c2,
  c1 < m -> c2 < m ->
  swap_cols K n m (mk n m f) c1 c2 =
  Ok (mk n m (fun i j => if j =? c1 then f i c2 else if j =? c2 then f i c1 else f i j)).
Proof. exact swap_cols_mk. Qed.
Print Assumptions c06_swap_cols.

Theorem c06_swap_cols_twice : forall (K : scalar) n m (A : matrix (elt K)) c1 c2,
  shape n m A -> c1 < m -> c2 < m ->
  (let* B := swap_cols K n m A c1 c2 in swap_cols K n m B c1 c2) = Ok A /\
  swap_cols K n m A c1 c2 = swap_cols K n m A c2 c1.
Proof. exact swap_cols_twice. Qed.
Print Assumptions c06_swap_cols_twice.

Theorem c06_swap_cols_same : forall (K : scalar) n m (A : matrix (elt K)) c,
  swap_cols K n m A c c = Ok A.
Proof. exact swap_cols_same. Qed.
Print Assumptions c06_swap_cols_same.

Theorem c06_swap_cols_out_of_range : forall (K : scalar) n m (f : nat -> nat -> elt K) c1 c2,
  c1 <> c2 -> m <= c1 \/ m <= c2 -> 0 < n ->
  swap_cols K n m (mk n m f) c1 c2 = UB OutOfBounds.
Proof. exact swap_cols_oob. Qed.
Print Assumptions c06_swap_cols_out_of_range.

Example c06_ex :
  swap_rows (intS int32) 2 3 ex23 0 1 = Ok [[4; 5; 6]; [1; 2; 3]]%Z /\
  swap_cols (intS int32) 2 3 ex23 0 2 = Ok [[3; 2; 1]; [6; 5; 4]]%Z /\
  swap_rows (intS int32) 2 3 ex23 0 2 = UB OutOfBounds.
Proof. repeat split. Qed.

(** ** C07 getminor *)

Theorem c07_getminor : forall (K : scalar) n (A : matrix (elt K)) i j,
  shape n n A -> i < n -> j < n ->
  getminor K n A i j = Ok (map (delete j) (delete i A)).
Proof. exact getminor_delete. Qed.
Print Assumptions c07_getminor.

Theorem c07_getminor_out_of_range : forall (K : scalar) n (A : matrix (elt K)) i j,
  shape n n A -> 2 <= n -> n <= i \/ n <= j ->
  getminor K n A i j = UB OutOfBounds.
Proof. exact getminor_oob_shape. Qed.
Print Assumptions c07_getminor_out_of_range.

(** the reading of the doc comment (delete column i and row j) *)
Theorem c07_documented_refuted :
  ~ forall (A : matrix Z) i j, shape 2 2 A -> i < 2 -> j < 2 ->
    getminor (intS int32) 2 A i j = Ok (map (delete i) (delete j A)).
Proof. exact getminor_doc_refuted. Qed.
Print Assumptions c07_documented_refuted.

Example c07_ex :
  getminor (intS int32) 3 [[1; 2; 3]; [4; 5; 6]; [7; 8; 9]]%Z 1 0 = Ok [[2; 3]; [8; 9]]%Z.
Proof. reflexivity. Qed.

(** ** C08 no out-of-bounds access, no endless loop *)

(** every element type of the model qualifies *)
Theorem c08_element_types :
  (forall t : ityp, scalar_safe (intS t)) /\ scalar_safe float32S /\ scalar_safe float64S.
Proof. exact element_types_safe. Qed.
Print Assumptions c08_element_types.

Theorem c08_arithmetic : forall K, scalar_safe K -> forall n m p A B (s : elt K),
  shape n m A -> shape n m B ->
  safe (shape n m) (sum K n m A B) /\ safe (shape n m) (sub K n m A B) /\
  safe (shape n m) (sum_scalar K n m A s) /\ safe (shape n m) (sub_scalar K n m A s) /\
  safe (shape n m) (mult_scalar K n m A s) /\ safe (shape n m) (div K n m A s) /\
  (forall junk, shape n m junk -> safe (shape n m) (abs K n m junk A)) /\
  (forall C, shape m p C -> safe (shape n p) (mult K n m p A C)) /\
  (forall C D, shape 2 2 C -> shape 2 2 D -> safe (shape 2 2) (strassen K C D)).
Proof. exact arithmetic_safe. Qed.
Print Assumptions c08_arithmetic.

Theorem c08_rearrangement : forall K : scalar, forall n m (A : matrix (elt K)), shape n m A ->
  safe (shape m n) (trans K n m A) /\
  (forall d, safe (shape n n) (eye K n d)) /\
  (forall r1 r2, r1 < n -> r2 < n -> safe (shape n m) (swap_rows K n m A r1 r2)) /\
  (forall c1 c2, c1 < m -> c2 < m -> safe (shape n m) (swap_cols K n m A c1 c2)) /\
  (forall n2 B, shape n2 m B -> safe (shape (n + n2) m) (concatenate_v K n n2 m A B)) /\
  (forall m2 B, shape n m2 B -> safe (shape n (m + m2)) (concatenate_h K n m m2 A B)).
Proof. exact rearrangement_safe. Qed.
Print Assumptions c08_rearrangement.

Theorem c08_square : forall K, scalar_safe K -> forall n (A : matrix (elt K)), shape n n A ->
  safe (fun _ => True) (det K n A) /\
  safe (shape n n) (inv K n A) /\
  (forall w p, (1 <= w)%Z -> (- 2 ^ (w - 1) <= p < 2 ^ (w - 1))%Z ->
     safe (shape n n) (pow K n w A p)) /\
  safe (fun LU => shape n n (fst LU) /\ shape n n (snd LU)) (lu K n A) /\
  safe (shape n n) (chol K n A) /\
  safe (fun _ => True) (isSymetric K n A) /\
  safe (fun _ => True) (isIdentity K n A) /\
  (forall i j, i < n -> j < n -> safe (shape (n - 1) (n - 1)) (getminor K n A i j)) /\
  (forall B, shape n n B ->
     safe (fun p => shape (n + n) n (fst p) /\ shape n (n + n) (snd p)) (concatenate_sq K n A B)).
Proof. exact square_safe. Qed.
Print Assumptions c08_square.

Theorem c08_statistics : forall K, scalar_safe K -> forall n m (A : matrix (elt K)), shape n m A ->
  safe (fun _ => True) (mean K n m A) /\ safe (fun _ => True) (var K n m A) /\
  safe (fun _ => True) (stddev K n m A) /\
  safe (fun _ => True) (histogram K n m A) /\ safe (fun _ => True) (cumulative_histogram K n m A) /\
  (forall sort, (strict_weak_on (less K) (elements A) -> sorts (less K) sort (elements A)) ->
     0 < n -> 0 < m -> safe (fun _ => True) (median K sort n m A)) /\
  (forall B e, shape n m B -> safe (fun _ => True) (compare K n m A B e)) /\
  (forall show, safe (fun _ => True) (print K show n m A)).
Proof. exact statistics_safe. Qed.
Print Assumptions c08_statistics.

Theorem c08_convolution : forall K, scalar_safe K -> forall i j (A k : matrix (elt K)),
  (Z.of_nat i <= 2 ^ 31)%Z -> (Z.of_nat j <= 2 ^ 31)%Z -> shape i j A -> shape 3 3 k ->
  safe (shape i j) (conv2 K i j A k) /\
  safe (shape (i + 2) (j + 2)) (conv2_full K i j A k) /\
  (i = j -> 2 <= i -> safe (shape (i - 2) (i - 2)) (conv2_valid K i A k)).
Proof. exact convolution_safe. Qed.
Print Assumptions c08_convolution.

(** ** C09 A++ and A-- *)

Theorem c09_increment : forall (K : scalar) n m (f : nat -> nat -> elt K),
  op_postinc K n m (mk n m f) =
  let* R := tabM n m (fun i j => let* v := xadd (ld (f i j)) (ld (lite K 1)) in Ok (st v)) in
  Ok (R, mk n m f).
Proof. exact postinc_tab. Qed.
Print Assumptions c09_increment.

Theorem c09_decrement : forall (K : scalar) n m (f : nat -> nat -> elt K),
  op_postdec K n m (mk n m f) =
  let* R := tabM n m (fun i j => let* v := xsub (ld (f i j)) (ld (lite K 1)) in Ok (st v)) in
  Ok (R, mk n m f).
Proof. exact postdec_tab. Qed.
Print Assumptions c09_decrement.

Example c09_ex :
  op_postinc (intS int32) 2 2 ex22 = Ok ([[2; 3]; [4; 5]], [[1; 2]; [3; 4]])%Z /\
  op_postdec (intS int32) 2 2 ex22 = Ok ([[0; 1]; [2; 3]], [[1; 2]; [3; 4]])%Z.
Proof. split; reflexivity. Qed.

(** ** C11 operand order *)

Theorem c11_scalar_plus : forall (K : scalar) n m (A : matrix (elt K)) s,
  op_scalar_plus K n m s A = op_plus_scalar K n m A s.
Proof. reflexivity. Qed.
Print Assumptions c11_scalar_plus.

Theorem c11_scalar_mult : forall (K : scalar) n m (A : matrix (elt K)) s,
  op_scalar_mult K n m s A = op_mult_scalar K n m A s.
Proof. reflexivity. Qed.
Print Assumptions c11_scalar_mult.

(** and both are elementwise, for every element type *)
Theorem c11_elementwise : forall (K : scalar) n m (f : nat -> nat -> elt K) s,
  op_scalar_plus K n m s (mk n m f) =
    tabM n m (fun i j => let* v := xadd (ld (f i j)) (ld s) in Ok (st v)) /\
  op_scalar_mult K n m s (mk n m f) =
    tabM n m (fun i j => let* v := xmul (ld (f i j)) (ld s) in Ok (st v)).
Proof. exact scalar_ops_tab. Qed.
Print Assumptions c11_elementwise.

Example c11_ex :
  op_scalar_plus (intS int32) 2 2 10%Z ex22 = Ok [[11; 12]; [13; 14]]%Z /\
  op_scalar_mult (intS uint8) 2 2 100%Z ex22 = Ok [[100; 200]; [44; 144]]%Z.
Proof. split; reflexivity. Qed.
