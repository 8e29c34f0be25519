(** * det by elimination when no rows are exchanged; integer matrices on which it truncates *)

From Coq Require Import List ZArith Lia Bool Arith.
Import ListNotations.
From Verif Require Import Base Scalar Model CInt Spec Loops Struct Elim Median.

Section Run.
Context (K : scalar).
Notation T := (elt K).

(** [F r] is the table before row r is used: if its pivots are not zero and [F (r+1)]
    is [F r] after one elimination step, det is the product of the last diagonal. *)
Lemma det_general_run n (F : nat -> nat -> nat -> T) : 0 < n ->
  (forall r, r + 1 < n -> xeq (ld (F r r r)) (lit 0) = false) ->
  (forall r i j, r + 1 < n -> i < n -> j < n ->
     if (r <? i) && (r <=? j) then elim_val K (F r) r r i j = Ok (F (r + 1) i j)
     else F (r + 1) i j = F r i j) ->
  det_general K n (mk n n (F 0)) = det_prod K n (mk n n (F (n - 1))) (lite K 1).
Proof.
  intros Hn Hp Hs. destruct n as [|n]; [lia|]. replace (S n - 1) with n by lia.
  unfold det_general.
  match goal with |- context [for_ret 0 (S n) ?b ?s] => set (body := b); set (s0 := s) end.
  assert (E : forall k, k <= n ->
    for_ret 0 k body s0 = Ok (Cont (mk (S n) (S n) (F k), lite K 1, k))).
  { induction k as [|k IH]; intros Hk.
    - rewrite for_ret_empty by lia. reflexivity.
    - rewrite for_ret_snoc, IH by lia. cbn [bind]. unfold body. clear IH.
      destruct (Nat.leb_spec (S n) k); [lia|].
      replace (S n * S n + 1) with (S (S n * S n)) by lia. cbn [det_search].
      rewrite aget_mk by lia. cbn [bind]. rewrite Hp by lia. cbn [bind]. rewrite Nat.eqb_refl. cbn [bind].
      rewrite (det_eliminate_mk K (S n) (F k) (F (k + 1)) k k); [|lia|lia|].
      2:{ intros i j ? ? ? ? ?. specialize (Hs k i j).
          destruct (Nat.ltb_spec k i); [|lia]. destruct (Nat.leb_spec k j); [|lia]. apply Hs; lia. }
      cbn [bind]. replace (k + 1) with (S k) by lia.
      do 4 f_equal. apply mk_ext. intros i j Hi Hj. specialize (Hs k i j).
      replace (k + 1) with (S k) in Hs by lia.
      destruct (Nat.ltb_spec k i); cbn [andb] in *; [|symmetry; apply Hs; lia].
      replace (i =? k) with false by (symmetry; apply Nat.eqb_neq; lia). cbn [negb andb].
      destruct (k <=? j); [reflexivity|symmetry; apply Hs; lia]. }
  rewrite for_ret_snoc, E by lia. cbn [bind]. unfold body.
  destruct (Nat.leb_spec (S n) n); [lia|].
  replace (S n * S n + 1) with (S (S n * S n)) by lia. cbn [det_search].
  rewrite aget_mk by lia. cbn [bind].
  destruct (xeq _ _).
  - replace (S n =? n + 1) with true by (symmetry; apply Nat.eqb_eq; lia).
    cbn [bind]. rewrite bind_assoc. cbn [bind]. apply bind_Ok_r.
  - cbn [bind]. rewrite Nat.eqb_refl. cbn [bind].
    unfold det_eliminate. unfold for_ at 1. replace (S n - (n + 1)) with 0 by lia. cbn [iter bind].
    reflexivity.
Qed.

End Run.

(** ** A 3x3 block below an identity *)

Definition entry (B : list (list Z)) (i j : nat) : Z := nth j (nth i B []) 0%Z.

(** the table with 1 on the diagonal above the block B *)
Definition framed (m : nat) (B : list (list Z)) (i j : nat) : Z :=
  if (i <? m) || (j <? m) then (if i =? j then 1%Z else 0%Z) else entry B (i - m) (j - m).

Definition int_types : list ityp := [int8; uint8; int16; uint16; int32; uint32; int64; uint64].

Definition small : list Z := [0; 1; 2]%Z.

(** One elementary step on integers. *)
Definition zstep (t : ityp) (a b c d : Z) : outcome Z :=
  let* x := @xmul (intS t) a b in
  let* x := @xdiv (intS t) x c in
  let* v := @xsub (intS t) d x in
  Ok (@st (intS t) v).

Lemma elim_zstep t (f : nat -> nat -> Z) r p i j :
  elim_val (intS t) f r p i j = zstep t (f i p) (f r j) (f r p) (f i j).
Proof. reflexivity. Qed.

Definition is_ok (o : outcome Z) (v : Z) : bool := match o with Ok x => Z.eqb x v | _ => false end.
Lemma is_ok_eq o v : is_ok o v = true -> o = Ok v.
Proof. destruct o; try discriminate. intros H. apply Z.eqb_eq in H. now subst. Qed.

(** nothing to eliminate: the row keeps its elements *)
Lemma zstep_keep t b d : In t int_types -> In b small -> In d small -> zstep t 0 b 1 d = Ok d.
Proof.
  intros Ht Hb Hd. apply is_ok_eq.
  assert (H : forallb (fun t => forallb (fun b => forallb (fun d => is_ok (zstep t 0 b 1 d) d) small) small)
    int_types = true) by (vm_compute; reflexivity).
  rewrite forallb_forall in H. specialize (H t Ht). cbv beta in H.
  rewrite forallb_forall in H. specialize (H b Hb). cbv beta in H.
  rewrite forallb_forall in H. exact (H d Hd).
Qed.

(** One elimination step of a 3x3 block, as a check. *)
Definition block_step (t : ityp) (r : nat) (B B' : list (list Z)) : bool :=
  negb (Z.eqb (entry B r r) 0) &&
  forallb (fun i => forallb (fun j =>
    if (r <? i) && (r <=? j)
    then is_ok (zstep t (entry B i r) (entry B r j) (entry B r r) (entry B i j)) (entry B' i j)
    else Z.eqb (entry B' i j) (entry B i j)) (seq 0 3)) (seq 0 3).

Definition all_small (B : list (list Z)) : bool :=
  forallb (fun i => forallb (fun j => existsb (Z.eqb (entry B i j)) small) (seq 0 3)) (seq 0 3).

Lemma small_entry B i j : all_small B = true -> i < 3 -> j < 3 -> In (entry B i j) small.
Proof.
  intros H Hi Hj. unfold all_small in H. rewrite forallb_forall in H.
  specialize (H i). rewrite in_seq in H. specialize (H ltac:(lia)).
  rewrite forallb_forall in H. specialize (H j). rewrite in_seq in H. specialize (H ltac:(lia)).
  apply existsb_exists in H. destruct H as [x [Hx E]]. apply Z.eqb_eq in E. now rewrite E.
Qed.

Definition diag (t : ityp) (B : list (list Z)) : outcome Z :=
  let mul v x := let* r := @xmul (intS t) v x in Ok (@st (intS t) r) in
  let* v :=
    let* v :=
      let* v := mul 1%Z (entry B 0 0) in
      mul v (entry B 1 1) in
    mul v (entry B 2 2) in
  let* q := @xdiv (intS t) v 1%Z in
  Ok (@st (intS t) q).

Lemma framed_small m B i j : all_small B = true -> i < m + 3 -> j < m + 3 -> In (framed m B i j) small.
Proof.
  intros H Hi Hj. unfold framed.
  destruct (Nat.ltb_spec i m); cbn [orb]; [destruct (i =? j); cbn; auto|].
  destruct (Nat.ltb_spec j m); cbn [orb]; [destruct (i =? j); cbn; auto|].
  apply small_entry; [exact H|lia|lia].
Qed.

Lemma lits t : In t int_types -> @lit (intS t) 0 = 0%Z /\ lite (intS t) 1 = 1%Z.
Proof. intros H. cbn in H. intuition; subst; split; reflexivity. Qed.

Lemma one_one t : In t int_types ->
  (let* r := @xmul (intS t) 1%Z 1%Z in Ok (@st (intS t) r)) = Ok 1%Z.
Proof. intros H. cbn in H. intuition; subst; reflexivity. Qed.

Lemma det_framed t m B0 B1 B2 d : In t int_types -> all_small B0 = true ->
  block_step t 0 B0 B1 = true -> block_step t 1 B1 B2 = true -> diag t B2 = Ok d ->
  det_general (intS t) (m + 3) (mk (m + 3) (m + 3) (framed m B0)) = Ok d.
Proof.
  intros Ht H0 H1 H2 Hd. destruct (lits t Ht) as [L0 L1].
  set (Bs := fun r => if r <=? m then B0 else if r =? m + 1 then B1 else B2).
  etransitivity; [refine (det_general_run (intS t) (m + 3) (fun r => framed m (Bs r)) _ _ _)|].
  4:{    assert (EB : Bs (m + 3 - 1) = B2).
    { unfold Bs. destruct (Nat.leb_spec (m + 3 - 1) m); [lia|].
      destruct (Nat.eqb_spec (m + 3 - 1) (m + 1)); [lia|reflexivity]. }
    unfold det_prod. rewrite L1. replace (m + 3) with (S (S (S m))) at 1 by lia.
    rewrite !for_snoc by lia.
    rewrite (for_states 0 m _ (fun _ => 1%Z)).
    + cbn [bind]. rewrite !aget_mk by lia. cbn [bind].
      assert (D : forall k, k < 3 -> framed m B2 (k + m) (k + m) = entry B2 k k).
      { intros k Hk. unfold framed. destruct (Nat.ltb_spec (k + m) m); [lia|]. cbn [orb].
        now replace (k + m - m) with k by lia. }
      pose proof (D 0 ltac:(lia)) as D0. pose proof (D 1 ltac:(lia)) as D1. pose proof (D 2 ltac:(lia)) as D2.
      cbn [Nat.add] in D0, D1, D2. rewrite EB, D0, D1, D2. exact Hd.
    + lia.
    + reflexivity.
    + intros i Hi. rewrite aget_mk by lia. cbn [bind]. unfold framed.
      destruct (Nat.ltb_spec i m); [|lia]. cbn [orb]. rewrite Nat.eqb_refl. exact (one_one t Ht). }
  - lia.
  - intros r Hr. rewrite L0. unfold framed.
    destruct (Nat.ltb_spec r m); cbn [orb]; [rewrite Nat.eqb_refl; reflexivity|].
    unfold Bs. destruct (Nat.leb_spec r m).
    + replace (r - m) with 0 by lia. unfold block_step in H1. apply andb_true_iff in H1.
      destruct H1 as [H1 _]. apply negb_true_iff in H1. exact H1.
    + destruct (Nat.eqb_spec r (m + 1)); [|lia]. replace (r - m) with 1 by lia.
      unfold block_step in H2. apply andb_true_iff in H2.
      destruct H2 as [H2 _]. apply negb_true_iff in H2. exact H2.
  - intros r i j Hr Hi Hj.
    destruct (Nat.ltb_spec r m) as [Hrm|Hrm].
    + (* the identity part: nothing happens *)
      assert (E : forall a b, framed m (Bs (r + 1)) a b = framed m (Bs r) a b).
      { intros a b. unfold Bs. destruct (Nat.leb_spec (r + 1) m); [|lia].
        destruct (Nat.leb_spec r m); [reflexivity|lia]. }
      rewrite E. destruct (Nat.ltb_spec r i); cbn [andb]; [|reflexivity].
      destruct (Nat.leb_spec r j); [|reflexivity].
      rewrite elim_zstep. cbv beta.
      assert (Ei : framed m (Bs r) i r = 0%Z).
      { unfold framed. destruct (Nat.ltb_spec r m); [|lia]. rewrite orb_true_r.
        destruct (Nat.eqb_spec i r); [lia|reflexivity]. }
      assert (Er : framed m (Bs r) r r = 1%Z).
      { unfold framed. destruct (Nat.ltb_spec r m); [|lia]. now rewrite orb_true_r, Nat.eqb_refl. }
      rewrite Ei, Er.
      assert (Br : Bs r = B0) by (unfold Bs; destruct (Nat.leb_spec r m); [reflexivity|lia]).
      rewrite Br. apply zstep_keep; [exact Ht|apply framed_small; auto; lia|apply framed_small; auto; lia].
    + (* the block *)
      assert (G : exists k, r = k + m /\ k < 2 /\ block_step t k (Bs r) (Bs (r + 1)) = true).
      { exists (r - m). split; [lia|]. split; [lia|].
        unfold Bs. destruct (Nat.leb_spec r m).
        - replace (r - m) with 0 by lia. destruct (Nat.leb_spec (r + 1) m); [lia|].
          destruct (Nat.eqb_spec (r + 1) (m + 1)); [exact H1|lia].
        - destruct (Nat.eqb_spec r (m + 1)); [|lia]. replace (r - m) with 1 by lia.
          destruct (Nat.leb_spec (r + 1) m); [lia|].
          destruct (Nat.eqb_spec (r + 1) (m + 1)); [lia|exact H2]. }
      destruct G as [k [-> [Hk G]]]. set (B := Bs (k + m)) in *. set (B' := Bs (k + m + 1)) in *.
      apply andb_true_iff in G. destruct G as [_ G]. rewrite forallb_forall in G.
      assert (F : forall a b, m <= a -> m <= b -> forall X, framed m X a b = entry X (a - m) (b - m)).
      { intros a b Ha Hb X. unfold framed. destruct (Nat.ltb_spec a m); [lia|].
        destruct (Nat.ltb_spec b m); [lia|]. reflexivity. }
      destruct (Nat.ltb_spec (k + m) i).
      * destruct (Nat.leb_spec (k + m) j); cbn [andb].
        -- rewrite elim_zstep. cbv beta. rewrite !F by lia.
           specialize (G (i - m)). rewrite in_seq in G. specialize (G ltac:(lia)).
           rewrite forallb_forall in G. specialize (G (j - m)). rewrite in_seq in G. specialize (G ltac:(lia)).
           cbv beta in G. destruct (Nat.ltb_spec k (i - m)); [|lia]. destruct (Nat.leb_spec k (j - m)); [|lia].
           cbn [andb] in G. replace (k + m - m) with k by lia. apply is_ok_eq. exact G.
        -- destruct (Nat.le_gt_cases m j).
           ++ rewrite !F by lia.
              specialize (G (i - m)). rewrite in_seq in G. specialize (G ltac:(lia)).
              rewrite forallb_forall in G. specialize (G (j - m)). rewrite in_seq in G. specialize (G ltac:(lia)).
              cbv beta in G. destruct (Nat.leb_spec k (j - m)); [lia|]. rewrite andb_false_r in G.
              now apply Z.eqb_eq.
           ++ unfold framed. destruct (Nat.ltb_spec j m); [|lia]. now rewrite orb_true_r.
      * cbn [andb]. destruct (Nat.le_gt_cases m i); [destruct (Nat.le_gt_cases m j)|].
        -- rewrite !F by lia.
           specialize (G (i - m)). rewrite in_seq in G. specialize (G ltac:(lia)).
           rewrite forallb_forall in G. specialize (G (j - m)). rewrite in_seq in G. specialize (G ltac:(lia)).
           cbv beta in G. destruct (Nat.ltb_spec k (i - m)); [lia|]. cbn [andb] in G.
           now apply Z.eqb_eq.
        -- unfold framed. destruct (Nat.ltb_spec j m); [|lia]. now rewrite orb_true_r.
        -- unfold framed. destruct (Nat.ltb_spec i m); [|lia]. reflexivity.
Qed.

(** The three blocks. *)
Definition blk_wrong : list (list Z) := [[1; 0; 0]; [0; 2; 1]; [0; 1; 1]]%Z.
Definition blk_zero : list (list Z) := [[1; 0; 0]; [0; 2; 1]; [0; 1; 0]]%Z.
Definition blk_singular : list (list Z) := [[2; 1; 1]; [1; 1; 0]; [1; 0; 1]]%Z.

Lemma det_general_four n : 3 < n -> forall K A, det K n A = det_general K n A.
Proof. intros H K A. destruct n as [|[|[|[|n]]]]; try lia. reflexivity. Qed.

Ltac each_type H := cbn in H; repeat (destruct H as [<-|H]; [vm_compute; reflexivity|]); destruct H.

Lemma wrong_run t m : In t int_types -> det_general (intS t) (m + 3) (mk (m + 3) (m + 3) (framed m blk_wrong)) = Ok 2%Z.
Proof.
  intros H. apply (det_framed t m _ blk_wrong [[1; 0; 0]; [0; 2; 1]; [0; 0; 1]]%Z); [exact H|reflexivity| | |]; each_type H.
Qed.

Lemma zero_run t m : In t int_types -> det_general (intS t) (m + 3) (mk (m + 3) (m + 3) (framed m blk_zero)) = Ok 0%Z.
Proof.
  intros H. apply (det_framed t m _ blk_zero [[1; 0; 0]; [0; 2; 1]; [0; 0; 0]]%Z); [exact H|reflexivity| | |]; each_type H.
Qed.

Lemma singular_run t m : In t int_types -> det_general (intS t) (m + 3) (mk (m + 3) (m + 3) (framed m blk_singular)) = Ok 2%Z.
Proof.
  intros H. apply (det_framed t m _ [[2; 1; 1]; [0; 1; 0]; [0; 0; 1]]%Z [[2; 1; 1]; [0; 1; 0]; [0; 0; 1]]%Z);
    [exact H|reflexivity| | |]; each_type H.
Qed.

(** ** Upper triangular matrices: nothing is eliminated *)

Lemma types_fact t : In t int_types ->
  (imin (promote t) <= imin t /\ imax t <= imax (promote t) /\ 0 < width t)%Z.
Proof.
  intros Ht.
  assert (H : forallb (fun t => (imin (promote t) <=? imin t)%Z && (imax t <=? imax (promote t))%Z && (0 <? width t)%Z)
    int_types = true) by (vm_compute; reflexivity).
  rewrite forallb_forall in H. specialize (H t Ht). cbv beta in H.
  apply andb_true_iff in H. destruct H as [H H3]. apply andb_true_iff in H. destruct H as [H1 H2].
  apply Z.leb_le in H1, H2. apply Z.ltb_lt in H3. auto.
Qed.

Lemma small_arith t z : In t int_types -> in_range t z = true -> iarith (promote t) z = Ok z /\ iconv t z = z.
Proof.
  intros Ht Hz. destruct (types_fact t Ht) as [F1 [F2 F3]].
  split; [|apply iconv_keep; assumption].
  unfold in_range in Hz. apply andb_true_iff in Hz. destruct Hz as [H1 H2]. apply Z.leb_le in H1, H2.
  unfold iarith. destruct (sgn (promote t)) eqn:E.
  - unfold in_range. destruct (Z.leb_spec (imin (promote t)) z); [|lia].
    destruct (Z.leb_spec z (imax (promote t))); [reflexivity|lia].
  - assert (E1 : imin (promote t) = 0%Z) by (unfold imin; now rewrite E).
    assert (E2 : imax (promote t) = (2 ^ width (promote t) - 1)%Z) by (unfold imax; now rewrite E).
    f_equal. apply Z.mod_small. lia.
Qed.

Lemma det_upper_run t n (f : nat -> nat -> Z) (P : nat -> Z) : In t int_types -> 0 < n ->
  (forall i j, j < i -> i < n -> f i j = 0%Z) ->
  (forall i j, i < n -> j < n -> in_range t (f i j) = true) ->
  (forall i, i < n -> f i i <> 0%Z) ->
  P 0 = 1%Z -> (forall k, k < n -> P (S k) = (P k * f k k)%Z) ->
  (forall k, k <= n -> in_range t (P k) = true) ->
  det_general (intS t) n (mk n n f) = Ok (P n).
Proof.
  intros Ht Hn Hz Hr Hd P0 PS PR. destruct (lits t Ht) as [L0 L1].
  assert (Z0 : in_range t 0 = true) by (clear - Ht; cbn in Ht; intuition; subst; reflexivity).
  etransitivity; [refine (det_general_run (intS t) n (fun _ => f) Hn _ _)|].
  3:{ unfold det_prod. rewrite L1, (for_states 0 n _ P); [|lia|now symmetry|].
      - cbn [bind ld intS xdiv st]. unfold idiv. rewrite Z.quot_1_r.
        destruct (Z.eqb_spec 1 0); [lia|]. destruct (small_arith t (P n) Ht (PR n ltac:(lia))) as [-> E].
        cbn [bind]. now rewrite E.
      - intros i Hi. rewrite aget_mk by lia. cbn [bind ld intS xmul st].
        rewrite <- PS by lia. destruct (small_arith t (P (S i)) Ht (PR (S i) ltac:(lia))) as [-> E].
        cbn [bind]. now rewrite E. }
  - intros r Hr'. rewrite L0. cbn [ld intS xeq]. apply Z.eqb_neq. apply Hd. lia.
  - intros r i j H Hi Hj. destruct (Nat.ltb_spec r i); cbn [andb]; [|reflexivity].
    destruct (r <=? j); [|reflexivity]. rewrite elim_zstep. cbv beta. rewrite (Hz i r) by lia.
    unfold zstep. cbn [intS xmul xdiv xsub st]. rewrite Z.mul_0_l.
    destruct (small_arith t 0 Ht Z0) as [E0 _]. rewrite E0. cbn [bind]. unfold idiv.
    destruct (Z.eqb_spec (f r r) 0); [exfalso; apply (Hd r); [lia|assumption]|].
    rewrite Z.quot_0_l, E0 by assumption. cbn [bind]. rewrite Z.sub_0_r.
    destruct (small_arith t (f i j) Ht (Hr i j Hi Hj)) as [-> E]. cbn [bind]. now rewrite E.
Qed.
