(** * Closed forms of the functions that only move elements around, and of the
    entrywise loops, for an arbitrary element type *)

From Coq Require Import List ZArith Lia Bool Arith.
Import ListNotations.
From Verif Require Import Base Scalar Model Spec Loops.

(** decide all [nat] comparisons in the goal that [lia] can, split the others *)
Ltac no_if a := match a with context [if _ then _ else _] => fail 1 | _ => idtac end.
Ltac nat_cases :=
  repeat (match goal with
  | |- context [?a =? ?b] => no_if a; no_if b; destruct (Nat.eqb_spec a b)
  | |- context [?a <? ?b] => no_if a; no_if b; destruct (Nat.ltb_spec a b)
  | |- context [?a <=? ?b] => no_if a; no_if b; destruct (Nat.leb_spec a b)
  end; try subst; try (exfalso; lia); cbn [andb orb negb]).

Section Struct.
Context (K : scalar).
Notation T := (elt K).

Lemma fill_mk i j (d : T) : fill K i j d = mk i j (fun _ _ => d).
Proof.
  unfold fill. rewrite init_mk. unfold mk. rewrite map_map. apply map_ext. intros a.
  rewrite map_map. reflexivity.
Qed.

Lemma zeros_mk i j : zeros K i j = mk i j (fun _ _ => lite K 0).
Proof. apply fill_mk. Qed.

Lemma ones_type_mk i j : ones_type K i j = mk i j (fun _ _ => lite K 1).
Proof. apply fill_mk. Qed.

Lemma ones_call2_mk a b : ones_call2 K a b = mk b b (fun _ _ => lite K 1).
Proof. apply fill_mk. Qed.

Lemma eye_mk n (d : T) :
  eye K n d = Ok (mk n n (fun i j => if i =? j then d else lite K 0)).
Proof.
  unfold eye. rewrite fill_mk.
  rewrite (for_states _ _ _ (fun k => mk n n (fun i j => if (i =? j) && (i <? k) then d else lite K 0))).
  - f_equal. apply mk_ext. intros i j Hi Hj. nat_cases; reflexivity.
  - lia.
  - apply mk_ext. intros i j Hi Hj. nat_cases; reflexivity.
  - intros k Hk. rewrite aset_mk by lia. f_equal. apply mk_ext. intros i j Hi Hj.
    nat_cases; reflexivity.
Qed.

Lemma eye1_mk n :
  eye1 K n = Ok (mk n n (fun i j => if i =? j then lite K 1 else lite K 0)).
Proof. apply eye_mk. Qed.

(** ** Entrywise operations *)

Lemma sum_tab n m (f g : nat -> nat -> T) :
  sum K n m (mk n m f) (mk n m g) =
  tabM n m (fun i j => let* v := xadd (ld (f i j)) (ld (g i j)) in Ok (st v)).
Proof.
  unfold sum. rewrite init_mk.
  etransitivity; [|apply (tab_loop n m (fun _ _ => lite K 0))].
  apply for_ext. intros i R Hi. apply for_ext. intros j R' Hj.
  rewrite !aget_mk by lia. simpl. rewrite bind_assoc. reflexivity.
Qed.

Lemma sub_tab n m (f g : nat -> nat -> T) :
  sub K n m (mk n m f) (mk n m g) =
  tabM n m (fun i j => let* v := xsub (ld (f i j)) (ld (g i j)) in Ok (st v)).
Proof.
  unfold sub. rewrite init_mk.
  etransitivity; [|apply (tab_loop n m (fun _ _ => lite K 0))].
  apply for_ext. intros i R Hi. apply for_ext. intros j R' Hj.
  rewrite !aget_mk by lia. simpl. rewrite bind_assoc. reflexivity.
Qed.

Lemma sum_scalar_tab n m (f : nat -> nat -> T) s :
  sum_scalar K n m (mk n m f) s =
  tabM n m (fun i j => let* v := xadd (ld (f i j)) (ld s) in Ok (st v)).
Proof.
  unfold sum_scalar. rewrite init_mk.
  etransitivity; [|apply (tab_loop n m (fun _ _ => lite K 0))].
  apply for_ext. intros i R Hi. apply for_ext. intros j R' Hj.
  rewrite !aget_mk by lia. simpl. rewrite bind_assoc. reflexivity.
Qed.

Lemma sub_scalar_tab n m (f : nat -> nat -> T) s :
  sub_scalar K n m (mk n m f) s =
  tabM n m (fun i j => let* v := xsub (ld (f i j)) (ld s) in Ok (st v)).
Proof.
  unfold sub_scalar. rewrite init_mk.
  etransitivity; [|apply (tab_loop n m (fun _ _ => lite K 0))].
  apply for_ext. intros i R Hi. apply for_ext. intros j R' Hj.
  rewrite !aget_mk by lia. simpl. rewrite bind_assoc. reflexivity.
Qed.

Lemma mult_scalar_tab n m (f : nat -> nat -> T) s :
  mult_scalar K n m (mk n m f) s =
  tabM n m (fun i j => let* v := xmul (ld (f i j)) (ld s) in Ok (st v)).
Proof.
  unfold mult_scalar. rewrite init_mk.
  etransitivity; [|apply (tab_loop n m (fun _ _ => lite K 0))].
  apply for_ext. intros i R Hi. apply for_ext. intros j R' Hj.
  rewrite !aget_mk by lia. simpl. rewrite bind_assoc. reflexivity.
Qed.

Lemma abs_tab n m (junk f : nat -> nat -> T) :
  abs K n m (mk n m junk) (mk n m f) =
  tabM n m (fun i j => let* v := xabs (ld (f i j)) in Ok (st v)).
Proof.
  unfold abs.
  etransitivity; [|apply (tab_loop n m junk)].
  apply for_ext. intros i R Hi. apply for_ext. intros j R' Hj.
  rewrite !aget_mk by lia. simpl. rewrite bind_assoc. reflexivity.
Qed.

Lemma div_tab n m (f : nat -> nat -> T) s :
  div K n m (mk n m f) s =
  if xeq (ld s) (lit 0) then Terminate
  else tabM n m (fun i j => let* v := xdiv (ld (f i j)) (ld s) in Ok (st v)).
Proof.
  unfold div. destruct (xeq (ld s) (lit 0)); [reflexivity|]. rewrite init_mk.
  etransitivity; [|apply (tab_loop n m (fun _ _ => lite K 0))].
  apply for_ext. intros i R Hi. apply for_ext. intros j R' Hj.
  rewrite !aget_mk by lia. simpl. rewrite bind_assoc. reflexivity.
Qed.

(** ** Matrix product *)

Lemma mult_tab n m p (f g : nat -> nat -> T) :
  mult K n m p (mk n m f) (mk m p g) =
  tabM n p (fun i j => dot K m (fun k => f i k) (fun k => g k j)).
Proof.
  unfold mult. rewrite zeros_mk.
  set (acc := fun i j k c =>
    let* t := xmul (ld (f i k)) (ld (g k j)) in
    let* v := xadd (ld c) t in Ok (@st K v)).
  etransitivity; [|exact (tab_loop_own n p (fun _ _ => lite K 0)
    (fun i j c => for_ 0 m (acc i j) c))].
  assert (Hcell : forall i j R, i < n -> j < p -> shape n p R ->
    for_ 0 m (fun k prod =>
        let* c := aget prod i j in
        let* a := aget (mk n m f) i k in
        let* b := aget (mk m p g) k j in
        let* t := xmul (ld a) (ld b) in
        let* v := xadd (ld c) t in
        aset prod i j (st v)) R =
    (let* c := aget R i j in let* v := for_ 0 m (acc i j) c in aset R i j v)).
  { intros i j R Hi Hj HR. destruct (proj1 (shape_mk (lite K 0) n p R) HR) as [z ->].
    rewrite aget_mk by lia. simpl.
    etransitivity; [|etransitivity; [apply (acc_loop n p z i j (acc i j) 0 m Hi Hj)|]].
    - apply for_ext. intros k R' Hk. rewrite !aget_mk by lia. unfold acc. apply bind_ext.
      intros c _. simpl. rewrite !bind_assoc. apply bind_ext. intros t _.
      rewrite bind_assoc. reflexivity.
    - apply bind_ext. intros c _. rewrite aset_mk by lia. reflexivity. }
  apply (for_ext_inv (fun _ R => shape n p R)).
  - apply shape_of_mk.
  - intros i R Hi HR. apply (for_ext_inv (fun _ R => shape n p R)); [assumption| |].
    + intros j R' Hj HR'. apply Hcell; [lia|lia|assumption].
    + intros j R1 R2 Hj HR1 E. rewrite Hcell in E by (try lia; assumption).
      apply bind_inv in E. destruct E as [c [_ E]]. apply bind_inv in E. destruct E as [v [_ E]].
      eapply aset_shape; eassumption.
  - intros i R1 R2 Hi HR1 E.
    refine (for_partial (fun _ R => shape n p R) _ _ _ _ _ _ HR1 _ E); [lia|].
    intros j R3 R4 Hj HR3 E'. cbv beta in E'. rewrite Hcell in E' by (try lia; assumption).
    apply bind_inv in E'. destruct E' as [c [_ E']]. apply bind_inv in E'.
    destruct E' as [v [_ E']]. eapply aset_shape; eassumption.
Qed.

(** ** Rearrangements *)

Lemma trans_mk n m (f : nat -> nat -> T) :
  trans K n m (mk n m f) = Ok (mk m n (fun i j => f j i)).
Proof.
  unfold trans. rewrite init_mk.
  rewrite (for_states _ _ _ (fun k => mk m n (fun i j => if j <? k then f j i else lite K 0))).
  - f_equal. apply mk_ext. intros i j Hi Hj. nat_cases; reflexivity.
  - lia.
  - apply mk_ext. intros. nat_cases; reflexivity.
  - intros k Hk.
    rewrite (for_states _ _ _ (fun l => mk m n (fun i j =>
       if (j <? k) || (j =? k) && (i <? l) then f j i else lite K 0))).
    + f_equal. apply mk_ext. intros. nat_cases; reflexivity.
    + lia.
    + apply mk_ext. intros. nat_cases; reflexivity.
    + intros l Hl. rewrite aget_mk by lia. simpl. rewrite aset_mk by lia. f_equal.
      apply mk_ext. intros. nat_cases; reflexivity.
Qed.

Lemma swap_rows_mk n m (f : nat -> nat -> T) r1 r2 :
  r1 < n -> r2 < n ->
  swap_rows K n m (mk n m f) r1 r2 =
  Ok (mk n m (fun i j => if i =? r1 then f r2 j else if i =? r2 then f r1 j else f i j)).
Proof.
  intros H1 H2. unfold swap_rows. destruct (Nat.eqb_spec r1 r2) as [->|Hne].
  { f_equal. apply mk_ext. intros. nat_cases; reflexivity. }
  rewrite (for_states _ _ _ (fun k => mk n m (fun i j =>
     if j <? k then (if i =? r1 then f r2 j else if i =? r2 then f r1 j else f i j) else f i j))).
  - f_equal. apply mk_ext. intros. nat_cases; reflexivity.
  - lia.
  - apply mk_ext. intros. nat_cases; reflexivity.
  - intros k Hk. rewrite !aget_mk by lia. simpl. rewrite aset_mk by lia. simpl.
    rewrite aset_mk by lia. f_equal. apply mk_ext. intros. nat_cases; reflexivity.
Qed.

Lemma swap_rows_same n m (A : matrix T) r : swap_rows K n m A r r = Ok A.
Proof. unfold swap_rows. rewrite Nat.eqb_refl. reflexivity. Qed.

Lemma swap_rows_oob n m (f : nat -> nat -> T) r1 r2 :
  r1 <> r2 -> n <= r1 \/ n <= r2 -> 0 < m ->
  swap_rows K n m (mk n m f) r1 r2 = UB OutOfBounds.
Proof.
  intros Hne H Hm. unfold swap_rows. destruct (Nat.eqb_spec r1 r2); [contradiction|].
  rewrite for_first by lia.
  destruct (le_lt_dec n r1).
  - rewrite aget_mk_row_oob by lia. reflexivity.
  - rewrite aget_mk by lia. simpl. rewrite aget_mk_row_oob by lia. reflexivity.
Qed.

Lemma swap_cols_mk n m (f : nat -> nat -> T) c1 c2 :
  c1 < m -> c2 < m ->
  swap_cols K n m (mk n m f) c1 c2 =
  Ok (mk n m (fun i j => if j =? c1 then f i c2 else if j =? c2 then f i c1 else f i j)).
Proof.
  intros H1 H2. unfold swap_cols. destruct (Nat.eqb_spec c1 c2) as [->|Hne].
  { f_equal. apply mk_ext. intros. nat_cases; reflexivity. }
  unfold mk at 1.
  assert (E : forall l, map_out (fun a => let* x := vget a c1 in let* y := vget a c2 in
      let* a0 := vset a c1 y in vset a0 c2 x) (map (fun i => map (fun j => f i j) (seq 0 m)) l)
    = Ok (map (fun i => map (fun j => if j =? c1 then f i c2 else if j =? c2 then f i c1 else f i j)
                 (seq 0 m)) l)).
  { induction l as [|i l IH]; simpl; [reflexivity|].
    rewrite !vget_map_seq by lia. simpl. rewrite vset_map_seq by lia. simpl.
    rewrite vset_map_seq by lia. simpl. rewrite IH. simpl. f_equal. f_equal.
    apply map_seq_ext. intros k Hk. nat_cases; reflexivity. }
  apply E.
Qed.

Lemma swap_cols_same n m (A : matrix T) c : swap_cols K n m A c c = Ok A.
Proof. unfold swap_cols. rewrite Nat.eqb_refl. reflexivity. Qed.

Lemma swap_cols_oob n m (f : nat -> nat -> T) c1 c2 :
  c1 <> c2 -> m <= c1 \/ m <= c2 -> 0 < n ->
  swap_cols K n m (mk n m f) c1 c2 = UB OutOfBounds.
Proof.
  intros Hne H Hn. unfold swap_cols. destruct (Nat.eqb_spec c1 c2); [contradiction|].
  unfold mk. destruct n as [|n]; [lia|]. simpl.
  destruct (le_lt_dec m c1).
  - rewrite vget_map_seq_oob by lia. reflexivity.
  - rewrite vget_map_seq by lia. simpl. rewrite vget_map_seq_oob by lia. reflexivity.
Qed.

(** ** Concatenation *)

Definition vcat (n : nat) (f g : nat -> nat -> T) i j := if i <? n then f i j else g (i - n) j.
Definition hcat (m : nat) (f g : nat -> nat -> T) i j := if j <? m then f i j else g i (j - m).

Lemma copy_loop N M (z f : nat -> nat -> T) n m :
  n <= N -> m <= M ->
  for_ 0 n (fun it R => for_ 0 m (fun jt R =>
      let* a := aget (mk n m f) it jt in aset R it jt a) R) (mk N M z) =
  Ok (mk N M (fun i j => if (i <? n) && (j <? m) then f i j else z i j)).
Proof.
  intros Hn Hm.
  rewrite (for_states _ _ _ (fun k => mk N M (fun i j =>
     if (i <? k) && (j <? m) then f i j else z i j))); [reflexivity|lia| |].
  - apply mk_ext. intros. nat_cases; reflexivity.
  - intros k Hk.
    rewrite (for_states _ _ _ (fun l => mk N M (fun i j =>
       if (i <? k) && (j <? m) || (i =? k) && (j <? l) then f i j else z i j))).
    + f_equal. apply mk_ext. intros. nat_cases; reflexivity.
    + lia.
    + apply mk_ext. intros. nat_cases; reflexivity.
    + intros l Hl. rewrite aget_mk by lia. simpl. rewrite aset_mk by lia. f_equal.
      apply mk_ext. intros. nat_cases; reflexivity.
Qed.

Lemma copy_loop_below n1 n2 m (z g : nat -> nat -> T) :
  for_ n1 (n1 + n2) (fun it R => for_ 0 m (fun jt R =>
      let* b := aget (mk n2 m g) (it - n1) jt in aset R it jt b) R) (mk (n1 + n2) m z) =
  Ok (mk (n1 + n2) m (vcat n1 z g)).
Proof.
  unfold vcat.
  rewrite (for_states _ _ _ (fun k => mk (n1 + n2) m (fun i j =>
     if (i <? n1) || (k <=? i) then z i j else g (i - n1) j))).
  - f_equal. apply mk_ext. intros. nat_cases; reflexivity.
  - lia.
  - apply mk_ext. intros. nat_cases; reflexivity.
  - intros k Hk.
    rewrite (for_states _ _ _ (fun l => mk (n1 + n2) m (fun i j =>
       if (i <? n1) || (k <=? i) && negb ((i =? k) && (j <? l)) then z i j else g (i - n1) j))).
    + f_equal. apply mk_ext. intros. nat_cases; reflexivity.
    + lia.
    + apply mk_ext. intros. nat_cases; reflexivity.
    + intros l Hl. rewrite aget_mk by lia. simpl. rewrite aset_mk by lia. f_equal.
      apply mk_ext. intros. nat_cases; reflexivity.
Qed.

Lemma concatenate_v_mk n1 n2 m (f g : nat -> nat -> T) :
  concatenate_v K n1 n2 m (mk n1 m f) (mk n2 m g) = Ok (mk (n1 + n2) m (vcat n1 f g)).
Proof.
  unfold concatenate_v. rewrite init_mk. rewrite copy_loop by lia. simpl.
  rewrite copy_loop_below. f_equal. apply mk_ext. intros. unfold vcat. nat_cases; reflexivity.
Qed.

(** the two inner loops of the horizontal versions *)
Lemma hjoin_loop n m1 m2 (z f g : nat -> nat -> T) :
  for_ 0 n (fun it R =>
    let* R := for_ 0 m1 (fun jt R =>
      let* a := aget (mk n m1 f) it jt in aset R it jt a) R in
    for_ m1 (m1 + m2) (fun jt R =>
      let* b := aget (mk n m2 g) it (jt - m1) in aset R it jt b) R) (mk n (m1 + m2) z) =
  Ok (mk n (m1 + m2) (hcat m1 f g)).
Proof.
  rewrite (for_states _ _ _ (fun k => mk n (m1 + m2) (fun i j =>
     if i <? k then hcat m1 f g i j else z i j))).
  - f_equal. apply mk_ext. intros. nat_cases; reflexivity.
  - lia.
  - apply mk_ext. intros. nat_cases; reflexivity.
  - intros k Hk.
    rewrite (for_states _ _ _ (fun l => mk n (m1 + m2) (fun i j =>
       if i <? k then hcat m1 f g i j else
       if (i =? k) && (j <? l) then f i j else z i j))).
    + simpl.
      rewrite (for_states _ _ _ (fun l => mk n (m1 + m2) (fun i j =>
         if (i <? k) || (i =? k) && (j <? l) then hcat m1 f g i j else z i j))).
      * f_equal. apply mk_ext. intros. nat_cases; reflexivity.
      * lia.
      * apply mk_ext. intros. unfold hcat. nat_cases; reflexivity.
      * intros l Hl. rewrite aget_mk by lia. simpl. rewrite aset_mk by lia. f_equal.
        apply mk_ext. intros. unfold hcat. nat_cases; reflexivity.
    + lia.
    + apply mk_ext. intros. nat_cases; reflexivity.
    + intros l Hl. rewrite aget_mk by lia. simpl. rewrite aset_mk by lia. f_equal.
      apply mk_ext. intros. nat_cases; reflexivity.
Qed.

Lemma concatenate_h_mk n m1 m2 (f g : nat -> nat -> T) :
  concatenate_h K n m1 m2 (mk n m1 f) (mk n m2 g) = Ok (mk n (m1 + m2) (hcat m1 f g)).
Proof. unfold concatenate_h. rewrite init_mk. apply hjoin_loop. Qed.

Lemma concatenateV_mk n (f g : nat -> nat -> T) :
  concatenateV K n (mk n n f) (mk n n g) = Ok (mk (n + n) n (vcat n f g)).
Proof. exact (concatenate_v_mk n n n f g). Qed.

Lemma concatenateH_mk n (f g : nat -> nat -> T) :
  concatenateH K n (mk n n f) (mk n n g) = Ok (mk n (n + n) (hcat n f g)).
Proof. exact (concatenate_h_mk n n n f g). Qed.

Lemma concatenate_sq_mk n (f g : nat -> nat -> T) :
  concatenate_sq K n (mk n n f) (mk n n g) =
  Ok (mk (n + n) n (vcat n f g), mk n (n + n) (hcat n f f)).
Proof.
  unfold concatenate_sq. rewrite !init_mk. rewrite copy_loop by lia. simpl.
  rewrite copy_loop_below. simpl. rewrite hjoin_loop. simpl. f_equal. f_equal.
  apply mk_ext. intros. unfold vcat. nat_cases; reflexivity.
Qed.

(** the same in terms of lists of rows *)
Lemma mk_vcat n1 n2 m (f g : nat -> nat -> T) :
  mk (n1 + n2) m (vcat n1 f g) = mk n1 m f ++ mk n2 m g.
Proof.
  unfold mk. rewrite seq_app, map_app. f_equal.
  - apply map_seq_ext. intros i Hi. apply map_seq_ext. intros j Hj. unfold vcat. nat_cases; reflexivity.
  - simpl. rewrite (Nat.add_comm 0 n1) || idtac.
    assert (E : forall lo, map (fun i => map (fun j => vcat n1 f g i j) (seq 0 m)) (seq (n1 + lo) n2)
      = map (fun i => map (fun j => g i j) (seq 0 m)) (seq lo n2)).
    { clear. induction n2 as [|n2 IH]; intros lo; simpl; [reflexivity|]. f_equal.
      - apply map_seq_ext. intros j Hj. unfold vcat. nat_cases. f_equal; lia.
      - rewrite <- IH. f_equal. f_equal. lia. }
    specialize (E 0). rewrite Nat.add_0_r in E. exact E.
Qed.

Lemma mk_hcat n m1 m2 (f g : nat -> nat -> T) :
  mk n (m1 + m2) (hcat m1 f g) = hjoin (mk n m1 f) (mk n m2 g).
Proof.
  unfold mk. generalize 0 at 2 4 6. induction n as [|n IH]; intros lo; simpl; [reflexivity|].
  f_equal; [|apply IH].
  rewrite seq_app, map_app. f_equal.
  - apply map_seq_ext. intros j Hj. unfold hcat. nat_cases; reflexivity.
  - clear IH. assert (E : forall l, map (fun j => hcat m1 f g lo j) (seq (m1 + l) m2)
      = map (fun j => g lo j) (seq l m2)).
    { induction m2 as [|m2 IH]; intros l; simpl; [reflexivity|]. f_equal.
      - unfold hcat. nat_cases. f_equal; lia.
      - rewrite <- IH. f_equal. f_equal. lia. }
    specialize (E 0). rewrite Nat.add_0_r in E. exact E.
Qed.

(** ** getminor *)

(** position in the original of position [a] after removal of position [i] *)
Definition skip (i a : nat) : nat := if a <? i then a else S a.

(** how many positions below [k] survive the removal of [i] *)
Definition kept (i k : nat) : nat := if k <=? i then k else k - 1.

(** the loop body of getminor *)
Definition minor_body n (A : matrix T) i j (k : nat) (s : matrix T * nat * nat) :=
    let '(minor, rowCount, colCount) := s in
    if k =? i then Ok s
    else
      let colCount := 0 in
      let* s2 := for_ 0 n (fun l s =>
        let '(minor, colCount) := s in
        if l =? j then Ok s
        else
          let* a := aget A k l in
          let* minor := aset minor rowCount colCount a in
          Ok (minor, colCount + 1)) (minor, colCount) in
      let '(minor, colCount) := s2 in
      Ok (minor, rowCount + 1, colCount).

Lemma minor_row n (f z : nat -> nat -> T) i j k rc cc :
  k < n -> k <> i -> j < n -> rc < n - 1 ->
  minor_body n (mk n n f) i j k (mk (n - 1) (n - 1) z, rc, cc) =
  Ok (mk (n - 1) (n - 1) (fun a b => if a =? rc then f k (skip j b) else z a b), rc + 1, n - 1).
Proof.
  intros Hk Hki Hj Hrc. unfold minor_body. destruct (Nat.eqb_spec k i); [contradiction|].
  cbv zeta.
  rewrite (for_states _ _ _ (fun l =>
        (mk (n - 1) (n - 1) (fun a b => if (a =? rc) && (b <? kept j l) then f k (skip j b) else z a b),
         kept j l))).
  - simpl. assert (kept j n = n - 1) as -> by (unfold kept; nat_cases; lia).
    f_equal. f_equal. f_equal. apply mk_ext. intros. nat_cases; reflexivity.
  - lia.
  - assert (kept j 0 = 0) as -> by (unfold kept; nat_cases; lia).
    f_equal. apply mk_ext. intros. nat_cases; reflexivity.
  - intros l Hl. cbv beta iota. destruct (Nat.eqb_spec l j) as [->|Hlj].
    { f_equal. assert (kept j (S j) = kept j j) as -> by (unfold kept; nat_cases; lia). reflexivity. }
    assert (Hlc : kept j l < n - 1) by (unfold kept; nat_cases; lia).
    rewrite aget_mk by lia. simpl. rewrite aset_mk by lia. simpl. f_equal.
    assert (kept j (S l) = S (kept j l)) as -> by (unfold kept; nat_cases; lia).
    f_equal; [|lia]. apply mk_ext. intros a b Ha Hb.
    assert (Hs2 : skip j (kept j l) = l) by (unfold skip, kept; nat_cases; lia).
    generalize dependent (kept j l). intros c ? ?.
    nat_cases; reflexivity.
Qed.

Lemma getminor_mk n (f : nat -> nat -> T) i j :
  i < n -> j < n ->
  getminor K n (mk n n f) i j = Ok (mk (n - 1) (n - 1) (fun a b => f (skip i a) (skip j b))).
Proof.
  intros Hi Hj. unfold getminor. rewrite init_mk.
  change ((let* st3 := for_ 0 n (minor_body n (mk n n f) i j)
             (mk (n - 1) (n - 1) (fun _ _ => lite K 0), 0, 0) in
          (let '(minor, _, _) := st3 in Ok minor))
          = Ok (mk (n - 1) (n - 1) (fun a b => f (skip i a) (skip j b)))).
  destruct (for_inv (fun k s => let '(minor, rc, cc) := s in
     rc = kept i k /\ minor = mk (n - 1) (n - 1)
       (fun a b => if a <? kept i k then f (skip i a) (skip j b) else lite K 0))
     0 n (minor_body n (mk n n f) i j)
    (mk (n - 1) (n - 1) (fun _ _ => lite K 0), 0, 0)) as [s' [E P]].
  - lia.
  - split; [unfold kept; nat_cases; reflexivity|].
    apply mk_ext. intros. unfold kept. nat_cases; reflexivity.
  - intros k [[mn rc] cc] Hk [-> ->].
    destruct (Nat.eq_dec k i) as [->|Hki].
    + unfold minor_body. rewrite Nat.eqb_refl. eexists; split; [reflexivity|].
      split; [unfold kept; nat_cases; lia|].
      apply mk_ext. intros. unfold kept. nat_cases; reflexivity.
    + assert (kept i k < n - 1) by (unfold kept; nat_cases; lia).
      assert (Hskip : skip i (kept i k) = k) by (unfold skip, kept; nat_cases; lia).
      rewrite minor_row by (try lia; assumption).
      eexists; split; [reflexivity|]. cbv beta iota.
      assert (kept i (S k) = S (kept i k)) as -> by (unfold kept; nat_cases; lia).
      split; [lia|]. apply mk_ext. intros a b Ha Hb.
      generalize dependent (kept i k). intros c ? ?. nat_cases; reflexivity.
  - rewrite E. destruct s' as [[mn rc] cc]. destruct P as [-> ->]. simpl. f_equal.
    assert (kept i n = n - 1) as -> by (unfold kept; nat_cases; lia).
    apply mk_ext. intros. nat_cases; reflexivity.
Qed.

(** an index out of range: the call writes outside the result *)
Lemma getminor_oob n (f : nat -> nat -> T) i j :
  2 <= n -> n <= i \/ n <= j ->
  getminor K n (mk n n f) i j = UB OutOfBounds.
Proof.
  intros Hn H. unfold getminor. rewrite init_mk.
  change ((let* st3 := for_ 0 n (minor_body n (mk n n f) i j)
             (mk (n - 1) (n - 1) (fun _ _ => lite K 0), 0, 0) in
          (let '(minor, _, _) := st3 in Ok minor)) = UB OutOfBounds).
  enough (for_ 0 n (minor_body n (mk n n f) i j)
             (mk (n - 1) (n - 1) (fun _ _ => lite K 0), 0, 0) = UB OutOfBounds) as -> by reflexivity.
  destruct (le_lt_dec n j) as [Hj|Hj].
  - (* column index out of range: the first row that is kept overruns *)
    assert (Hrow : forall k cc, k < n -> k <> i ->
      minor_body n (mk n n f) i j k (mk (n - 1) (n - 1) (fun _ _ => lite K 0), 0, cc) = UB OutOfBounds).
    { intros k cc Hk Hki. unfold minor_body. destruct (Nat.eqb_spec k i); [contradiction|].
      cbv zeta. rewrite for_last by lia.
      rewrite (for_states 0 (n - 1) _ (fun l =>
        (mk (n - 1) (n - 1) (fun a b => if (a =? 0) && (b <? l) then f k b else lite K 0), l))).
      - simpl. nat_cases. rewrite aget_mk by lia. simpl. rewrite aset_mk_col_oob by lia. reflexivity.
      - lia.
      - f_equal. apply mk_ext. intros. nat_cases; reflexivity.
      - intros l Hl. cbv beta iota. destruct (Nat.eqb_spec l j); [lia|].
        rewrite aget_mk by lia. simpl. rewrite aset_mk by lia. simpl. f_equal.
        f_equal; [|lia]. apply mk_ext. intros a b Ha Hb. nat_cases; reflexivity. }
    rewrite for_first by lia. destruct (Nat.eq_dec 0 i) as [<-|Hi0].
    + change (minor_body n (mk n n f) 0 j 0 (mk (n - 1) (n - 1) (fun _ _ => lite K 0), 0, 0))
        with (Ok (mk (n - 1) (n - 1) (fun _ _ => lite K 0), 0, 0)). simpl.
      rewrite for_first by lia. rewrite Hrow by lia. reflexivity.
    + rewrite Hrow by lia. reflexivity.
  - (* row index out of range: one row too many *)
    assert (Hi : n <= i) by lia. clear H.
    rewrite for_last by lia.
    assert (exists c, for_ 0 (n - 1) (minor_body n (mk n n f) i j)
      (mk (n - 1) (n - 1) (fun _ _ => lite K 0), 0, 0) =
      Ok (mk (n - 1) (n - 1) (fun a b => if a <? n - 1 then f a (skip j b) else lite K 0), n - 1, c))
      as [c E].
    { destruct (for_inv (fun k s => let '(minor, rc, cc) := s in
        rc = k /\ minor = mk (n - 1) (n - 1)
         (fun a b => if a <? k then f a (skip j b) else lite K 0))
        0 (n - 1) (minor_body n (mk n n f) i j)
        (mk (n - 1) (n - 1) (fun _ _ => lite K 0), 0, 0)) as [s' [E P]].
      - lia.
      - split; reflexivity.
      - intros k [[mn rc] cc] Hk [-> ->]. rewrite minor_row by lia.
        eexists; split; [reflexivity|]. split; [lia|].
        apply mk_ext. intros. nat_cases; reflexivity.
      - destruct s' as [[mn rc] cc]. destruct P as [-> ->]. exists cc. exact E. }
    rewrite E. simpl. unfold minor_body. destruct (Nat.eqb_spec (n - 1) i); [lia|]. cbv zeta.
    rewrite for_first by lia. destruct (Nat.eqb_spec 0 j) as [<-|Hj0].
    + simpl. rewrite for_first by lia. cbv beta iota. simpl.
      rewrite aget_mk by lia. simpl. rewrite aset_mk_row_oob by lia. reflexivity.
    + rewrite aget_mk by lia. simpl. rewrite aset_mk_row_oob by lia. reflexivity.
Qed.

(** the same in terms of deleting list elements *)
Lemma delete_map_seq {U} (g : nat -> U) n i :
  i < n -> delete i (map g (seq 0 n)) = map (fun a => g (skip i a)) (seq 0 (n - 1)).
Proof.
  intros Hi.
  assert (E : forall n i lo, i < n -> delete i (map g (seq lo n)) =
     map (fun a => g (if a <? lo + i then a else S a)) (seq lo (n - 1))).
  { clear. induction n as [|n IH]; intros i lo Hi; [lia|].
    destruct i as [|i]; simpl.
    - rewrite Nat.sub_0_r, <- seq_shift, map_map. apply map_seq_ext. intros k Hk.
      nat_cases; reflexivity.
    - rewrite IH by lia. rewrite Nat.sub_0_r. destruct n as [|n]; [lia|]. simpl.
      replace (lo <? lo + S i) with true by (symmetry; apply Nat.ltb_lt; lia).
      f_equal. rewrite Nat.sub_0_r. apply map_seq_ext. intros k Hk.
      replace (S (lo + i)) with (lo + S i) by lia. reflexivity. }
  rewrite E by assumption. reflexivity.
Qed.

Lemma mk_delete n m (f : nat -> nat -> T) i j :
  i < n -> j < m ->
  mk (n - 1) (m - 1) (fun a b => f (skip i a) (skip j b)) =
  map (delete j) (delete i (mk n m f)).
Proof.
  intros Hi Hj. unfold mk. rewrite delete_map_seq by assumption. rewrite map_map.
  apply map_ext. intros a. rewrite delete_map_seq by assumption. reflexivity.
Qed.

End Struct.
