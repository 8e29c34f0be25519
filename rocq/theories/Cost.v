(** * The model of /repo/matrix with its arithmetic counted

    The same function bodies as in Model.v, line for line, in a monad that also
    counts the operations on elements the C++ text executes.  Each definition
    [f_c] is tied to the model by [erase_f]: forgetting the counters gives
    back [f] exactly, with every result, exception and undefined behaviour.

    Counted: multiplications, additions and subtractions (together), divisions,
    square roots and comparisons of elements with zero.  Not counted: index
    arithmetic, copies, negations, and the comparison of the scalar with zero
    in [operator/]'s guard is counted as one comparison. *)

From Coq Require Import List ZArith Lia Bool Arith.
Import ListNotations.
From Verif Require Import Base Scalar Model Loops.

(** ** Counters *)

Inductive op : Type := Mul | Add | Div | Sqrt | Cmp.

Definition op_eqb (a b : op) : bool :=
  match a, b with
  | Mul, Mul | Add, Add | Div, Div | Sqrt, Sqrt | Cmp, Cmp => true
  | _, _ => false
  end.

(** How many operations of each kind a run executed, and how it ended. *)
Record counted (A : Type) : Type := Counted { count : op -> nat; result : outcome A }.
Arguments Counted {A} _ _.
Arguments count {A} _ _.
Arguments result {A} _.

Definition none : op -> nat := fun _ => 0.
Definition once (k : op) : op -> nat := fun o => if op_eqb k o then 1 else 0.

(** A piece of code without counted operations. *)
Definition quiet {A} (o : outcome A) : counted A := Counted none o.

(** Sequencing: the counts add up; nothing runs after an abnormal end. *)
Definition cbind {A B} (m : counted A) (k : A -> counted B) : counted B :=
  match result m with
  | Ok a => Counted (fun o => count m o + count (k a) o) (result (k a))
  | Throw e => Counted (count m) (Throw e)
  | Terminate => Counted (count m) Terminate
  | UB u => Counted (count m) (UB u)
  | OutOfFuel => Counted (count m) OutOfFuel
  end.

Notation "'let^' x ':=' e 'in' k" := (cbind e (fun x => k))
  (at level 200, x pattern at level 99, e at level 200, k at level 200).

Fixpoint citer {S : Type} (cnt lo : nat) (body : nat -> S -> counted S) (s : S) : counted S :=
  match cnt with
  | O => quiet (Ok s)
  | Datatypes.S c => let^ s' := body lo s in citer c (Datatypes.S lo) body s'
  end.

Definition cfor {S : Type} (lo hi : nat) (body : nat -> S -> counted S) (s : S) : counted S :=
  citer (hi - lo) lo body s.

Fixpoint citer_ret {S R : Type} (cnt lo : nat)
  (body : nat -> S -> counted (ctrl S R)) (s : S) : counted (ctrl S R) :=
  match cnt with
  | O => quiet (Ok (Cont s))
  | Datatypes.S c =>
      let^ r := body lo s in
      match r with
      | Cont s' => citer_ret c (Datatypes.S lo) body s'
      | Ret v => quiet (Ok (Ret v))
      end
  end.

Definition cfor_ret {S R : Type} (lo hi : nat)
  (body : nat -> S -> counted (ctrl S R)) (s : S) : counted (ctrl S R) :=
  citer_ret (hi - lo) lo body s.

(** ** Forgetting the counters *)

Lemma erase_bind {A B} (m : counted A) (k : A -> counted B) (o : outcome A) k' :
  result m = o -> (forall a, result (k a) = k' a) -> result (cbind m k) = bind o k'.
Proof. intros <- Hk. unfold cbind, bind. destruct (result m); simpl; auto. Qed.

Lemma erase_iter {S : Type} c lo (body : nat -> S -> counted S) body' s :
  (forall i s, result (body i s) = body' i s) -> result (citer c lo body s) = iter c lo body' s.
Proof.
  intros H. revert lo s. induction c as [|c IH]; intros lo s; [reflexivity|]. simpl.
  apply erase_bind; auto.
Qed.

Lemma erase_for {S : Type} lo hi (body : nat -> S -> counted S) body' s :
  (forall i s, result (body i s) = body' i s) -> result (cfor lo hi body s) = for_ lo hi body' s.
Proof. apply erase_iter. Qed.

Lemma erase_for_ret {S R : Type} lo hi (body : nat -> S -> counted (ctrl S R)) body' s :
  (forall i s, result (body i s) = body' i s) -> result (cfor_ret lo hi body s) = for_ret lo hi body' s.
Proof.
  intros H. unfold cfor_ret, for_ret. generalize (hi - lo). intros c. revert lo s.
  induction c as [|c IH]; intros lo s; [reflexivity|]. simpl.
  apply erase_bind; [auto|]. intros [s'|v]; [apply IH|reflexivity].
Qed.

Ltac erase :=
  repeat first
    [ reflexivity
    | eassumption
    | match goal with
      | |- result (match ?x with _ => _ end) = match ?x with _ => _ end => destruct x
      end
    | apply erase_bind; [|intros]
    | apply erase_for; intros
    | apply erase_for_ret; intros ].

Section Cost.
Context (S : scalar).
Notation T := (elt S).
Notation Mat := (matrix (elt S)).

Definition cmul (x y : xpr S) : counted (xpr S) := Counted (once Mul) (xmul x y).
Definition cadd (x y : xpr S) : counted (xpr S) := Counted (once Add) (xadd x y).
Definition csub (x y : xpr S) : counted (xpr S) := Counted (once Add) (xsub x y).
Definition cdiv (x y : xpr S) : counted (xpr S) := Counted (once Div) (xdiv x y).
Definition cdivsz (x : xpr S) (k : Z) : counted T := Counted (once Div) (divsz x k).
Definition csqrt (x : xpr S) : counted T := Counted (once Sqrt) (xsqrt x).
Definition ceq0 (x : xpr S) : counted bool := Counted (once Cmp) (Ok (xeq x (lit 0))).

(** ** Products *)

(** matrix_mult.hpp:32-47 *)
Definition mult_c (n m p : nat) (A B : Mat) : counted Mat :=
  cfor 0 n (fun i prod =>
    cfor 0 p (fun j prod =>
      cfor 0 m (fun k prod =>
        let^ c := quiet (aget prod i j) in
        let^ a := quiet (aget A i k) in
        let^ b := quiet (aget B k j) in
        let^ t := cmul (ld a) (ld b) in
        let^ v := cadd (ld c) t in
        quiet (aset prod i j (st v))) prod) prod) (zeros S n p).

Lemma erase_mult n m p A B : result (mult_c n m p A B) = mult S n m p A B.
Proof. unfold mult_c, mult. erase. Qed.

(** matrix_strassen.hpp:34-53 *)
Definition strassen_c (A B : Mat) : counted Mat :=
  let prod := init 2 2 (lite S 0) in
  let^ a00 := quiet (aget A 0 0) in let^ a01 := quiet (aget A 0 1) in
  let^ a10 := quiet (aget A 1 0) in let^ a11 := quiet (aget A 1 1) in
  let^ b00 := quiet (aget B 0 0) in let^ b01 := quiet (aget B 0 1) in
  let^ b10 := quiet (aget B 1 0) in let^ b11 := quiet (aget B 1 1) in
  let^ t := csub (ld b01) (ld b11) in
  let^ M1 := cmul (ld a00) t in let M1 := st M1 in               (* line 39 *)
  let^ t := cadd (ld a00) (ld a01) in
  let^ M2 := cmul t (ld b11) in let M2 := st M2 in               (* line 40 *)
  let^ t := cadd (ld a10) (ld a11) in
  let^ M3 := cmul t (ld b00) in let M3 := st M3 in               (* line 41 *)
  let^ t := csub (ld b10) (ld b00) in
  let^ M4 := cmul (ld a11) t in let M4 := st M4 in               (* line 42 *)
  let^ t := cadd (ld a00) (ld a11) in
  let^ t' := cadd (ld b00) (ld b11) in
  let^ M5 := cmul t t' in let M5 := st M5 in                     (* line 43 *)
  let^ t := csub (ld a01) (ld a11) in
  let^ t' := cadd (ld b10) (ld b11) in
  let^ M6 := cmul t t' in let M6 := st M6 in                     (* line 44 *)
  let^ t := csub (ld a00) (ld a10) in
  let^ t' := cadd (ld b00) (ld b01) in
  let^ M7 := cmul t t' in let M7 := st M7 in                     (* line 45 *)
  let^ t := cadd (ld M5) (ld M4) in
  let^ t := csub t (ld M2) in
  let^ t := cadd t (ld M6) in
  let^ prod := quiet (aset prod 0 0 (st t)) in                   (* line 47 *)
  let^ t := cadd (ld M1) (ld M2) in
  let^ prod := quiet (aset prod 0 1 (st t)) in                   (* line 48 *)
  let^ t := cadd (ld M3) (ld M4) in
  let^ prod := quiet (aset prod 1 0 (st t)) in                   (* line 49 *)
  let^ t := cadd (ld M1) (ld M5) in
  let^ t' := cadd (ld M3) (ld M7) in
  let^ t := csub t t' in
  quiet (aset prod 1 1 (st t)).                                  (* line 50 *)

Lemma erase_strassen A B : result (strassen_c A B) = strassen S A B.
Proof. unfold strassen_c, strassen. erase. Qed.

(** matrix_div.hpp:32-48 (59-63 forwards to it) *)
Definition div_c (n m : nat) (A : Mat) (scalar : T) : counted Mat :=
  let^ z := ceq0 (ld scalar) in
  if z then quiet Terminate
  else
    cfor 0 n (fun i R =>
      cfor 0 m (fun j R =>
        let^ a := quiet (aget A i j) in
        let^ v := cdiv (ld a) (ld scalar) in
        quiet (aset R i j (st v))) R) (init n m (lite S 0)).

Lemma erase_div n m A s : result (div_c n m A s) = div S n m A s.
Proof.
  unfold div_c, div. unfold cbind at 1; cbn [ceq0 result]. destruct (xeq _ _); [reflexivity|]. erase.
Qed.

(** ** Statistics *)

(** matrix_mean.hpp:31-44 *)
Definition mean_c (i j : nat) (A : Mat) : counted T :=
  let^ result := cfor 0 i (fun it r =>
    cfor 0 j (fun jt r =>
      let^ a := quiet (aget A it jt) in
      let^ v := cadd (ld r) (ld a) in
      quiet (Ok (st v))) r) (lite S 0) in
  cdivsz (ld result) (size_mul i j).

Lemma erase_mean i j A : result (mean_c i j A) = mean S i j A.
Proof. unfold mean_c, mean. erase. Qed.

(** matrix_var.hpp:31-44 *)
Definition var_c (i j : nat) (A : Mat) : counted T :=
  let^ meanA := mean_c i j A in
  let^ result := cfor 0 i (fun it r =>
    cfor 0 j (fun jt r =>
      let^ a := quiet (aget A it jt) in
      let^ d := csub (ld a) (ld meanA) in
      let^ d' := csub (ld a) (ld meanA) in
      let^ t := cmul d d' in
      let^ v := cadd (ld r) t in
      quiet (Ok (st v))) r) (lite S 0) in
  cdivsz (ld result) (size_mul i j).

Lemma erase_var i j A : result (var_c i j A) = var S i j A.
Proof. unfold var_c, var. apply erase_bind; [apply erase_mean|intros]. erase. Qed.

(** ** Convolution *)

(** matrix_conv2.hpp:68-77, 120-129 *)
Definition conv_line_c (i j : nat) (A kernel : Mat) (off : Z) (it jt : nat)
  (ka kb : nat) (di dj : Z) (R : Mat) : counted Mat :=
  let ii := conv_index it di off in
  let jj := conv_index jt dj off in
  let^ r := quiet (aget R it jt) in
  let^ t :=
    (if isOutOfRange i j (size_to_int ii) (size_to_int jj) =? 0 then
       let^ k := quiet (aget kernel ka kb) in
       let^ a := quiet (agetz A ii jj) in
       cmul (ld k) (ld a)
     else quiet (Ok (@lit S 0))) in
  let^ v := cadd (ld r) t in
  quiet (aset R it jt (st v)).

Lemma erase_conv_line i j A k off it jt ka kb di dj R :
  result (conv_line_c i j A k off it jt ka kb di dj R) = conv_line S i j A k off it jt ka kb di dj R.
Proof. unfold conv_line_c, conv_line. erase. Qed.

Definition conv_cell_c (i j : nat) (A kernel : Mat) (off : Z) (it jt : nat) (R : Mat) : counted Mat :=
  let line := conv_line_c i j A kernel off it jt in
  let^ R := quiet (aset R it jt (lite S 0)) in
  let^ R := line 0 0 (-1)%Z (-1)%Z R in
  let^ R := line 0 1 (-1)%Z 0%Z R in
  let^ R := line 0 2 (-1)%Z 1%Z R in
  let^ R := line 1 0 0%Z (-1)%Z R in
  let^ R := line 1 1 0%Z 0%Z R in
  let^ R := line 1 2 0%Z 1%Z R in
  let^ R := line 2 0 1%Z (-1)%Z R in
  let^ R := line 2 1 1%Z 0%Z R in
  line 2 2 1%Z 1%Z R.

Lemma erase_conv_cell i j A k off it jt R :
  result (conv_cell_c i j A k off it jt R) = conv_cell S i j A k off it jt R.
Proof.
  unfold conv_cell_c, conv_cell.
  do 9 (apply erase_bind; [first [reflexivity | apply erase_conv_line]|intros]).
  apply erase_conv_line.
Qed.

(** matrix_conv2.hpp:38-81 *)
Definition conv2_c (i j : nat) (A kernel : Mat) : counted Mat :=
  cfor 0 i (fun it R =>
    cfor 0 j (fun jt R => conv_cell_c i j A kernel 0 it jt R) R)
    (init i j (lite S 0)).

Lemma erase_conv2 i j A k : result (conv2_c i j A k) = conv2 S i j A k.
Proof. unfold conv2_c, conv2. do 2 (apply erase_for; intros). apply erase_conv_cell. Qed.

(** ** Determinant and inverse *)

(** matrix_det.hpp:46-53 *)
Definition det2_c (A : Mat) : counted T :=
  let^ a := quiet (aget A 0 0) in let^ b := quiet (aget A 0 1) in
  let^ c := quiet (aget A 1 0) in let^ d := quiet (aget A 1 1) in
  let^ x := cmul (ld a) (ld d) in
  let^ y := cmul (ld b) (ld c) in
  let^ r := csub x y in
  quiet (Ok (st r)).

Definition mul3_c (x y z : xpr S) : counted (xpr S) :=
  let^ t := cmul x y in cmul t z.

(** matrix_det.hpp:63-71 *)
Definition det3_c (A : Mat) : counted T :=
  let^ a := quiet (aget A 0 0) in let^ b := quiet (aget A 0 1) in let^ c := quiet (aget A 0 2) in
  let^ d := quiet (aget A 1 0) in let^ e := quiet (aget A 1 1) in let^ f := quiet (aget A 1 2) in
  let^ g := quiet (aget A 2 0) in let^ h := quiet (aget A 2 1) in let^ i := quiet (aget A 2 2) in
  let^ t1 := mul3_c (ld a) (ld e) (ld i) in
  let^ t2 := mul3_c (ld b) (ld f) (ld g) in
  let^ r := cadd t1 t2 in
  let^ t3 := mul3_c (ld c) (ld d) (ld h) in
  let^ r := cadd r t3 in
  let^ t4 := mul3_c (ld c) (ld e) (ld g) in
  let^ r := csub r t4 in
  let^ t5 := mul3_c (ld b) (ld d) (ld i) in
  let^ r := csub r t5 in
  let^ t6 := mul3_c (ld a) (ld f) (ld h) in
  let^ r := csub r t6 in
  quiet (Ok (st r)).

(** matrix_det.hpp:87-96 *)
Definition det_prod_c (n : nat) (A : Mat) (factor : T) : counted T :=
  let^ prod := cfor 0 n (fun i prod =>
    let^ a := quiet (aget A i i) in
    let^ v := cmul (ld prod) (ld a) in
    quiet (Ok (st v))) (lite S 1) in
  let^ q := cdiv (ld prod) (ld factor) in
  quiet (Ok (st q)).

Lemma erase_det_prod n A f : result (det_prod_c n A f) = det_prod S n A f.
Proof. unfold det_prod_c, det_prod. erase. Qed.

(** matrix_det.hpp:107-119 *)
Fixpoint det_search_c (fuel n : nat) (A : Mat) (r i pivot : nat)
  : counted (ctrl (nat * nat) unit) :=
  match fuel with
  | O => quiet OutOfFuel
  | Datatypes.S fuel =>
      let^ a := quiet (aget A i pivot) in
      let^ z := ceq0 (ld a) in
      if z then
        let i := i + 1 in
        if n =? i then
          let i := r in
          let pivot := pivot + 1 in
          if n =? pivot then quiet (Ok (Ret tt))
          else det_search_c fuel n A r i pivot
        else det_search_c fuel n A r i pivot
      else quiet (Ok (Cont (i, pivot)))
  end.

Lemma erase_det_search fuel n A r i p :
  result (det_search_c fuel n A r i p) = det_search S fuel n A r i p.
Proof.
  revert i p. induction fuel as [|fuel IH]; intros i p; [reflexivity|]. cbn [det_search_c det_search].
  apply erase_bind; [reflexivity|]. intros a. unfold cbind; cbn [ceq0 result].
  destruct (xeq _ _); [|reflexivity]. cbv zeta.
  destruct (n =? i + 1); [|apply IH]. destruct (n =? p + 1); [reflexivity|apply IH].
Qed.

(** matrix_det.hpp:127-138 *)
Definition det_eliminate_c (n : nat) (A : Mat) (r pivot : nat) : counted Mat :=
  cfor (pivot + 1) n (fun i A =>
    if i =? r then quiet (Ok A)
    else
      let^ val := quiet (aget A i pivot) in
      cfor pivot n (fun j A =>
        let^ aij := quiet (aget A i j) in
        let^ arj := quiet (aget A r j) in
        let^ arp := quiet (aget A r pivot) in
        let^ t := cmul (ld val) (ld arj) in
        let^ t := cdiv t (ld arp) in
        let^ v := csub (ld aij) t in
        quiet (aset A i j (st v))) A) A.

Lemma erase_det_eliminate n A r p : result (det_eliminate_c n A r p) = det_eliminate S n A r p.
Proof. unfold det_eliminate_c, det_eliminate. erase. Qed.

(** matrix_det.hpp:81-142 *)
Definition det_general_c (n : nat) (A : Mat) : counted T :=
  let^ res := cfor_ret 0 n (fun r s =>
    let '(A, factor, pivot) := s in
    if n <=? pivot then
      let^ d := det_prod_c n A factor in quiet (Ok (Ret d))
    else
      let^ found := det_search_c (n * n + 1) n A r r pivot in
      match found with
      | Ret _ => let^ d := det_prod_c n A factor in quiet (Ok (Ret d))
      | Cont (i, pivot) =>
          let^ s2 :=
            (if i =? r then quiet (Ok (A, factor))
             else
               let^ A := quiet (swap_rows S n n A i r) in
               let^ f := cmul (ld factor) (lit (-1)) in
               quiet (Ok (A, st f))) in
          let '(A, factor) := s2 in
          let^ A := det_eliminate_c n A r pivot in
          quiet (Ok (Cont (A, factor, pivot + 1)))
      end) (A, lite S 1, 0) in
  match res with
  | Ret d => quiet (Ok d)
  | Cont (A, factor, _) => det_prod_c n A factor
  end.

Lemma erase_det_general n A : result (det_general_c n A) = det_general S n A.
Proof.
  unfold det_general_c, det_general. apply erase_bind.
  - apply erase_for_ret. intros r [[B f] p]. destruct (n <=? p).
    + apply erase_bind; [apply erase_det_prod|reflexivity].
    + apply erase_bind; [apply erase_det_search|]. intros [[i p']|v].
      * apply erase_bind; [erase|]. intros [B' f'].
        apply erase_bind; [apply erase_det_eliminate|reflexivity].
      * apply erase_bind; [apply erase_det_prod|reflexivity].
  - intros [[[B f] p]|d]; [apply erase_det_prod|reflexivity].
Qed.

(** matrix_det.hpp:32-142, by size *)
Definition det_c (n : nat) (A : Mat) : counted T :=
  match n with
  | 1 => quiet (det1 S A)
  | 2 => det2_c A
  | 3 => det3_c A
  | _ => det_general_c n A
  end.

Lemma erase_det n A : result (det_c n A) = det S n A.
Proof.
  assert (H2 : result (det2_c A) = det2 S A) by (unfold det2_c, det2; erase).
  assert (H3 : result (det3_c A) = det3 S A) by (unfold det3_c, det3, mul3_c, mul3; erase).
  destruct n as [|[|[|[|n]]]]; cbn [det_c det]; auto using erase_det_general.
Qed.

(** matrix_inv.hpp:65-69 *)
Definition inv1_c (A : Mat) : counted Mat :=
  let^ d := det_c 1 A in
  let^ q := cdiv (lit 1) (ld d) in
  quiet (Ok [[st q]]).

(** matrix_inv.hpp:80-93 *)
Definition inv2_c (A : Mat) : counted Mat :=
  let^ detA := det_c 2 A in
  let^ z := ceq0 (ld detA) in
  if z then quiet (Throw OverflowError)
  else
    let^ a00 := quiet (aget A 0 0) in let^ a01 := quiet (aget A 0 1) in
    let^ a10 := quiet (aget A 1 0) in let^ a11 := quiet (aget A 1 1) in
    let^ n01 := quiet (xneg (ld a01)) in
    let^ n10 := quiet (xneg (ld a10)) in
    let invA := [[a11; st n01]; [st n10; a00]] in
    div_c 2 2 invA detA.

Definition mul_sub_c (x y z w : T) : counted T :=
  let^ p := cmul (ld x) (ld y) in
  let^ q := cmul (ld z) (ld w) in
  let^ r := csub p q in
  quiet (Ok (st r)).

(** matrix_inv.hpp:104-123 *)
Definition inv3_c (A : Mat) : counted Mat :=
  let^ detA := det_c 3 A in
  let^ z := ceq0 (ld detA) in
  if z then quiet (Throw OverflowError)
  else
    let^ a := quiet (aget A 0 0) in let^ b := quiet (aget A 0 1) in let^ c := quiet (aget A 0 2) in
    let^ d := quiet (aget A 1 0) in let^ e := quiet (aget A 1 1) in let^ f := quiet (aget A 1 2) in
    let^ g := quiet (aget A 2 0) in let^ h := quiet (aget A 2 1) in let^ i := quiet (aget A 2 2) in
    let^ i00 := mul_sub_c e i f h in let^ i01 := mul_sub_c c h b i in let^ i02 := mul_sub_c b f c e in
    let^ i10 := mul_sub_c f g d i in let^ i11 := mul_sub_c a i c g in let^ i12 := mul_sub_c c d a f in
    let^ i20 := mul_sub_c d h e g in let^ i21 := mul_sub_c b g a h in let^ i22 := mul_sub_c a e b d in
    let invA := [[i00; i01; i02]; [i10; i11; i12]; [i20; i21; i22]] in
    div_c 3 3 invA detA.

(** matrix_inv.hpp:132-145 *)
Definition inv_general_c (n : nat) (A : Mat) : counted Mat :=
  let^ detA := det_c n A in
  let^ invA := cfor 0 n (fun i R =>
    cfor 0 n (fun j R =>
      let^ mn := quiet (getminor S n A i j) in
      let^ d := det_c (n - 1) mn in
      let^ v := cmul (lit (if (i + j) mod 2 =? 0 then 1 else -1)) (ld d) in
      quiet (aset R i j (st v))) R) (init n n (lite S 0)) in
  let^ t := quiet (trans S n n invA) in
  div_c n n t detA.

Lemma erase_inv_general n A : result (inv_general_c n A) = inv_general S n A.
Proof.
  unfold inv_general_c, inv_general. apply erase_bind; [apply erase_det|]. intros d.
  apply erase_bind; [|intros R; apply erase_bind; [reflexivity|intros; apply erase_div]].
  do 2 (apply erase_for; intros). apply erase_bind; [reflexivity|]. intros mn.
  apply erase_bind; [apply erase_det|]. intros. erase.
Qed.

(** matrix_inv.hpp:65-145, by size *)
Definition inv_c (n : nat) (A : Mat) : counted Mat :=
  match n with
  | 1 => inv1_c A
  | 2 => inv2_c A
  | 3 => inv3_c A
  | _ => inv_general_c n A
  end.

Lemma erase_inv n A : result (inv_c n A) = inv S n A.
Proof.
  destruct n as [|[|[|[|n]]]]; cbn [inv_c inv]; try apply erase_inv_general.
  - unfold inv1_c, inv1. apply erase_bind; [apply erase_det|]. intros; erase.
  - unfold inv2_c, inv2. apply erase_bind; [apply erase_det|]. intros d. unfold cbind at 1; cbn [ceq0 result].
    destruct (xeq _ _); [reflexivity|].
    repeat (apply erase_bind; [reflexivity|intros]). apply erase_div.
  - unfold inv3_c, inv3. apply erase_bind; [apply erase_det|]. intros d. unfold cbind at 1; cbn [ceq0 result].
    destruct (xeq _ _); [reflexivity|].
    assert (H : forall x y z w, result (mul_sub_c x y z w) = mul_sub S x y z w)
      by (intros; unfold mul_sub_c, mul_sub; erase).
    repeat (apply erase_bind; [first [reflexivity|apply H]|intros]). apply erase_div.
Qed.

(** ** Power *)

(** matrix_pow.hpp:32-65 *)
Fixpoint pow_fuel_c (fuel n : nat) (w : Z) (A : Mat) (p : Z) : counted Mat :=
  match fuel with
  | O => quiet OutOfFuel
  | Datatypes.S fuel =>
      if (p =? 0)%Z then quiet (eye1 S n)
      else if (p =? 1)%Z then quiet (Ok A)
      else
        let^ Ap :=
          (if (p <? 0)%Z then
             let^ A := inv_c n A in
             let^ p := quiet (abs_assign w p) in
             quiet (Ok (A, p))
           else quiet (Ok (A, p))) in
        let '(A, p) := Ap in
        let^ powA := pow_fuel_c fuel n (Z.max w 32) A (Z.quot p 2) in
        if (Z.rem p 2 =? 0)%Z then mult_c n n n powA powA
        else
          let^ q := mult_c n n n powA powA in
          mult_c n n n q A
  end.

Definition pow_c (n : nat) (w : Z) (A : Mat) (p : Z) : counted Mat :=
  pow_fuel_c (Z.to_nat (Z.max w 32) + 3) n w A p.

Lemma erase_pow n w A p : result (pow_c n w A p) = pow S n w A p.
Proof.
  unfold pow_c, pow. generalize (Z.to_nat (Z.max w 32) + 3). intros fuel.
  revert w A p. induction fuel as [|fuel IH]; intros w A p; [reflexivity|].
  cbn [pow_fuel_c pow_fuel]. destruct (p =? 0)%Z; [reflexivity|]. destruct (p =? 1)%Z; [reflexivity|].
  apply erase_bind.
  - destruct (p <? 0)%Z; [|reflexivity]. apply erase_bind; [apply erase_inv|]. intros; erase.
  - intros [A' p']. apply erase_bind; [apply IH|]. intros P. unfold op_mult.
    destruct (Z.rem p' 2 =? 0)%Z; [apply erase_mult|].
    apply erase_bind; [apply erase_mult|intros; apply erase_mult].
Qed.

(** ** Decompositions *)

Definition lu_sum_c (L U : Mat) (i j : nat) : counted T :=
  cfor 0 i (fun p sum =>
    let^ u := quiet (aget U p j) in
    let^ l := quiet (aget L i p) in
    let^ t := cmul (ld u) (ld l) in
    let^ v := cadd (ld sum) t in
    quiet (Ok (st v))) (lite S 0).

(** matrix_lu.hpp:34-68 *)
Definition lu_c (n : nat) (A : Mat) : counted (Mat * Mat) :=
  let^ L := quiet (eye1 S n) in
  let U := zeros S n n in
  cfor 0 n (fun j LU =>
    let '(L, U) := LU in
    let^ U := cfor 0 (j + 1) (fun i U =>
      let^ sum := lu_sum_c L U i j in
      let^ a := quiet (aget A i j) in
      let^ v := csub (ld a) (ld sum) in
      quiet (aset U i j (st v))) U in
    let^ L := cfor j n (fun i L =>
      let^ sum := lu_sum_c L U i j in
      let^ ujj := quiet (aget U j j) in
      let^ z := ceq0 (ld ujj) in
      if z then quiet (Throw OverflowError)
      else
        let^ a := quiet (aget A i j) in
        let^ v := csub (ld a) (ld sum) in
        let^ q := cdiv v (ld ujj) in
        quiet (aset L i j (st q))) L in
    quiet (Ok (L, U))) (L, U).

Lemma erase_lu n A : result (lu_c n A) = lu S n A.
Proof.
  unfold lu_c, lu, lu_sum_c. apply erase_bind; [reflexivity|]. intros L. cbv zeta.
  apply erase_for. intros j [L' U']. apply erase_bind; [erase|]. intros U.
  apply erase_bind; [|reflexivity]. apply erase_for. intros i L2.
  apply erase_bind; [erase|]. intros s. apply erase_bind; [reflexivity|]. intros u.
  unfold cbind at 1; cbn [ceq0 result]. destruct (xeq _ _); [reflexivity|]. erase.
Qed.

(** matrix_cholesky.hpp:54-86 *)
Definition chol_c (n : nat) (A : Mat) : counted Mat :=
  cfor 0 n (fun i L =>
    cfor 0 (i + 1) (fun j L =>
      if j =? i then
        let^ sum := cfor 0 i (fun k sum =>
          let^ x := quiet (aget L i k) in
          let^ t := cmul (ld x) (ld x) in
          let^ v := cadd (ld sum) t in
          quiet (Ok (st v))) (lite S 0) in
        let^ a := quiet (aget A i i) in
        let^ v := csub (ld a) (ld sum) in
        let^ r := csqrt v in
        quiet (aset L i i r)
      else
        let^ sum := cfor 0 i (fun k sum =>
          let^ x := quiet (aget L i k) in
          let^ y := quiet (aget L j k) in
          let^ t := cmul (ld x) (ld y) in
          let^ v := cadd (ld sum) t in
          quiet (Ok (st v))) (lite S 0) in
        let^ a := quiet (aget A i j) in
        let^ v := csub (ld a) (ld sum) in
        let^ ljj := quiet (aget L j j) in
        let^ q := cdiv v (ld ljj) in
        quiet (aset L i j (st q))) L) (init n n (lite S 0)).

Lemma erase_chol n A : result (chol_c n A) = chol S n A.
Proof. unfold chol_c, chol. erase. Qed.

End Cost.
