(** * conv2 and its variants: closed forms for an arbitrary element type *)

From Coq Require Import List ZArith Lia Bool Arith.
Import ListNotations.
From Verif Require Import Base Scalar Model Spec Loops Struct Safety.

(** ** The bounds test *)

Lemma conv_index_val it d off :
  (-1 <= d <= 1)%Z -> (0 <= off <= 1)%Z -> (Z.of_nat it + 2 < 2 ^ 64)%Z ->
  conv_index it d off = ((Z.of_nat it + d - off) mod 2 ^ 64)%Z.
Proof.
  intros Hd Ho Hi. unfold conv_index. rewrite Zminus_mod_idemp_l. reflexivity.
Qed.

(** the [int] that the bounds test receives *)
Lemma size_to_int_mod v :
  size_to_int (v mod 2 ^ 64) = ((v + 2 ^ 31) mod 2 ^ 32 - 2 ^ 31)%Z.
Proof.
  unfold size_to_int. f_equal.
  rewrite <- (Zplus_mod_idemp_l v (2 ^ 31) (2 ^ 32)).
  rewrite <- (Zplus_mod_idemp_l (v mod 2 ^ 64) (2 ^ 31) (2 ^ 32)). f_equal. f_equal.
  rewrite <- Znumtheory.Zmod_div_mod; [reflexivity|lia|lia|].
  exists (2 ^ 32)%Z. reflexivity.
Qed.

Lemma isOutOfRange_spec i j p q :
  (Z.of_nat i <= 2 ^ 31)%Z -> (Z.of_nat j <= 2 ^ 31)%Z ->
  (- 2 ^ 31 <= p < 2 ^ 31 + 4)%Z -> (- 2 ^ 31 <= q < 2 ^ 31 + 4)%Z ->
  (isOutOfRange i j (size_to_int (p mod 2 ^ 64)) (size_to_int (q mod 2 ^ 64)) =? 0)
  = inside i j p q.
Proof.
  intros Hi Hj Hp Hq. rewrite !size_to_int_mod.
  assert (W : forall v n, (0 <= n <= 2 ^ 31)%Z -> (- 2 ^ 31 <= v < 2 ^ 31 + 4)%Z ->
    let a := ((v + 2 ^ 31) mod 2 ^ 32 - 2 ^ 31)%Z in
    ((a <? 0) || (n <=? a mod 2 ^ 32) = negb ((0 <=? v) && (v <? n)))%Z).
  { intros v n Hn Hv a. subst a.
    destruct (Z.lt_ge_cases v (2 ^ 31)) as [Hlt|Hge].
    - rewrite (Z.mod_small (v + 2 ^ 31)) by lia. replace (v + 2 ^ 31 - 2 ^ 31)%Z with v by lia.
      destruct (Z.ltb_spec v 0); simpl.
      + destruct (Z.leb_spec 0 v); [lia|reflexivity].
      + rewrite Z.mod_small by lia. destruct (Z.leb_spec 0 v); [|lia]. simpl.
        destruct (Z.leb_spec n v), (Z.ltb_spec v n); try lia; reflexivity.
    - replace (v + 2 ^ 31)%Z with ((v - 2 ^ 31) + 1 * 2 ^ 32)%Z by lia.
      rewrite Z.mod_add by lia. rewrite Z.mod_small by lia.
      destruct (Z.ltb_spec (v - 2 ^ 31 - 2 ^ 31) 0); [|lia]. simpl.
      destruct (Z.ltb_spec v n); [lia|]. rewrite andb_false_r. reflexivity. }
  pose proof (W p (Z.of_nat i) ltac:(lia) Hp) as Wp. cbv zeta in Wp.
  pose proof (W q (Z.of_nat j) ltac:(lia) Hq) as Wq. cbv zeta in Wq. clear W.
  unfold isOutOfRange, inside.
  remember ((p + 2 ^ 31) mod 2 ^ 32 - 2 ^ 31)%Z as a.
  remember ((q + 2 ^ 31) mod 2 ^ 32 - 2 ^ 31)%Z as b.
  destruct (a <? 0)%Z, (Z.of_nat i <=? a mod 2 ^ 32)%Z, (b <? 0)%Z, (Z.of_nat j <=? b mod 2 ^ 32)%Z;
    simpl in Wp, Wq |- *;
    destruct (0 <=? p)%Z, (p <? Z.of_nat i)%Z, (0 <=? q)%Z, (q <? Z.of_nat j)%Z;
    simpl in Wp, Wq |- *; try discriminate; reflexivity.
Qed.

(** beyond 2^31 rows the test misjudges row 2^31 *)
Lemma isOutOfRange_wrong i j q :
  (2 ^ 31 < Z.of_nat i)%Z ->
  inside i j (2 ^ 31) q = ((0 <=? q) && (q <? Z.of_nat j))%Z /\
  isOutOfRange i j (size_to_int (2 ^ 31 mod 2 ^ 64)) q <> 0.
Proof.
  intros Hi. split.
  - unfold inside. destruct (Z.ltb_spec (2 ^ 31) (Z.of_nat i)); [|lia]. reflexivity.
  - unfold isOutOfRange.
    change (size_to_int (2 ^ 31 mod 2 ^ 64) <? 0)%Z with true. simpl. discriminate.
Qed.

Section Conv.
Context (K : scalar).
Notation T := (elt K).

(** one step of the accumulation of [corr] *)
Definition corr_step i j (f k : nat -> nat -> T) (p q : Z) (c : T) (ab : nat * nat) : outcome T :=
    let a := fst ab in let b := snd ab in
    let pa := (p + Z.of_nat a - 1)%Z in
    let qb := (q + Z.of_nat b - 1)%Z in
    let* t := (if inside i j pa qb then xmul (ld (k a b)) (ld (f (Z.to_nat pa) (Z.to_nat qb)))
               else Ok (@lit K 0)) in
    let* v := xadd (ld c) t in
    Ok (st v).

Lemma corr_unfold i j f k p q :
  corr K i j f k p q =
  (let s := corr_step i j f k p q in
  let* c := s (lite K 0) (0, 0) in let* c := s c (0, 1) in let* c := s c (0, 2) in
  let* c := s c (1, 0) in let* c := s c (1, 1) in let* c := s c (1, 2) in
  let* c := s c (2, 0) in let* c := s c (2, 1) in s c (2, 2)).
Proof.
  unfold corr, nine.
  assert (E : forall l c, fold_left (fun acc ab =>
    let a := fst ab in let b := snd ab in
    let pa := (p + Z.of_nat a - 1)%Z in
    let qb := (q + Z.of_nat b - 1)%Z in
    let* c := acc in
    let* t := (if inside i j pa qb then xmul (ld (k a b)) (ld (f (Z.to_nat pa) (Z.to_nat qb)))
               else Ok (@lit K 0)) in
    let* v := xadd (ld c) t in
    Ok (st v)) l c = fold_left (fun acc ab => let* c := acc in corr_step i j f k p q c ab) l c).
  { intros l. induction l as [|x l IH]; intros c; [reflexivity|]. simpl. apply IH. }
  rewrite E. cbn [fold_left]. cbv zeta. cbn [bind]. rewrite !bind_assoc.
  repeat (apply bind_ext; intros ? _; rewrite ?bind_assoc). reflexivity.
Qed.

Lemma conv_line_mk i j n m (f k z : nat -> nat -> T) off it jt ka kb :
  it < n -> jt < m -> ka < 3 -> kb < 3 ->
  (Z.of_nat i <= 2 ^ 31)%Z -> (Z.of_nat j <= 2 ^ 31)%Z ->
  (Z.of_nat n <= 2 ^ 31 + 2)%Z -> (Z.of_nat m <= 2 ^ 31 + 2)%Z ->
  (0 <= off <= 1)%Z ->
  conv_line K i j (mk i j f) (mk 3 3 k) off it jt ka kb (Z.of_nat ka - 1) (Z.of_nat kb - 1) (mk n m z) =
  let* c := corr_step i j f k (Z.of_nat it - off) (Z.of_nat jt - off) (z it jt) (ka, kb) in
  aset (mk n m z) it jt c.
Proof.
  intros Hit Hjt Hka Hkb Hi Hj Hn Hm Ho. unfold conv_line, corr_step. cbv zeta. simpl fst. simpl snd.
  rewrite !conv_index_val by lia.
  rewrite (isOutOfRange_spec i j) by lia.
  rewrite aget_mk by lia. cbn [bind].
  replace (Z.of_nat it - off + Z.of_nat ka - 1)%Z with (Z.of_nat it + (Z.of_nat ka - 1) - off)%Z by lia.
  replace (Z.of_nat jt - off + Z.of_nat kb - 1)%Z with (Z.of_nat jt + (Z.of_nat kb - 1) - off)%Z by lia.
  set (p := (Z.of_nat it + (Z.of_nat ka - 1) - off)%Z).
  set (q := (Z.of_nat jt + (Z.of_nat kb - 1) - off)%Z).
  destruct (inside i j p q) eqn:E.
  - unfold inside in E. rewrite !andb_true_iff in E. destruct E as [[[E1 E2] E3] E4].
    apply Z.leb_le in E1, E3. apply Z.ltb_lt in E2, E4.
    rewrite aget_mk by lia. cbn [bind].
    rewrite !Z.mod_small by lia. rewrite agetz_mk by lia. cbn [bind].
    rewrite !bind_assoc. apply bind_ext. intros t _. rewrite bind_assoc. reflexivity.
  - cbn [bind]. rewrite bind_assoc. reflexivity.
Qed.

Lemma conv_cell_mk i j n m (f k z : nat -> nat -> T) off it jt :
  it < n -> jt < m ->
  (Z.of_nat i <= 2 ^ 31)%Z -> (Z.of_nat j <= 2 ^ 31)%Z ->
  (Z.of_nat n <= 2 ^ 31 + 2)%Z -> (Z.of_nat m <= 2 ^ 31 + 2)%Z ->
  (0 <= off <= 1)%Z ->
  conv_cell K i j (mk i j f) (mk 3 3 k) off it jt (mk n m z) =
  let* c := corr K i j f k (Z.of_nat it - off) (Z.of_nat jt - off) in
  aset (mk n m z) it jt c.
Proof.
  intros Hit Hjt Hi Hj Hn Hm Ho. unfold conv_cell.
  rewrite corr_unfold. cbv zeta.
  assert (Hset : forall c x, aset (mk n m (fun a b => if (a =? it) && (b =? jt) then c else z a b)) it jt x
    = aset (mk n m z) it jt x).
  { intros c x. rewrite !aset_mk by assumption. f_equal. apply mk_ext. intros. nat_cases; reflexivity. }
  assert (Hl : forall ka kb c, ka < 3 -> kb < 3 ->
    conv_line K i j (mk i j f) (mk 3 3 k) off it jt ka kb (Z.of_nat ka - 1) (Z.of_nat kb - 1)
      (mk n m (fun a b => if (a =? it) && (b =? jt) then c else z a b)) =
    let* c := corr_step i j f k (Z.of_nat it - off) (Z.of_nat jt - off) c (ka, kb) in
    Ok (mk n m (fun a b => if (a =? it) && (b =? jt) then c else z a b))).
  { intros ka kb c Ha Hb. rewrite conv_line_mk by assumption. rewrite !Nat.eqb_refl. cbn [andb].
    apply bind_ext. intros c' _. rewrite Hset. apply aset_mk; assumption. }
  rewrite aset_mk by assumption. cbn [bind].
  pose proof (fun c => Hl 0 0 c ltac:(lia) ltac:(lia)) as H00.
  pose proof (fun c => Hl 0 1 c ltac:(lia) ltac:(lia)) as H01.
  pose proof (fun c => Hl 0 2 c ltac:(lia) ltac:(lia)) as H02.
  pose proof (fun c => Hl 1 0 c ltac:(lia) ltac:(lia)) as H10.
  pose proof (fun c => Hl 1 1 c ltac:(lia) ltac:(lia)) as H11.
  pose proof (fun c => Hl 1 2 c ltac:(lia) ltac:(lia)) as H12.
  pose proof (fun c => Hl 2 0 c ltac:(lia) ltac:(lia)) as H20.
  pose proof (fun c => Hl 2 1 c ltac:(lia) ltac:(lia)) as H21.
  pose proof (fun c => Hl 2 2 c ltac:(lia) ltac:(lia)) as H22.
  change (Z.of_nat 0 - 1)%Z with (-1)%Z in *. change (Z.of_nat 1 - 1)%Z with 0%Z in *.
  change (Z.of_nat 2 - 1)%Z with 1%Z in *. clear Hl.
  rewrite H00, !bind_assoc. apply bind_ext. intros c0 _. cbn [bind].
  rewrite H01, !bind_assoc. apply bind_ext. intros c1 _. cbn [bind].
  rewrite H02, !bind_assoc. apply bind_ext. intros c2 _. cbn [bind].
  rewrite H10, !bind_assoc. apply bind_ext. intros c3 _. cbn [bind].
  rewrite H11, !bind_assoc. apply bind_ext. intros c4 _. cbn [bind].
  rewrite H12, !bind_assoc. apply bind_ext. intros c5 _. cbn [bind].
  rewrite H20, !bind_assoc. apply bind_ext. intros c6 _. cbn [bind].
  rewrite H21, !bind_assoc. apply bind_ext. intros c7 _. cbn [bind].
  rewrite H22. apply bind_ext. intros c8 _. rewrite aset_mk by assumption. reflexivity.
Qed.

Lemma conv_loop_mk i j n m (f k : nat -> nat -> T) off :
  (Z.of_nat i <= 2 ^ 31)%Z -> (Z.of_nat j <= 2 ^ 31)%Z ->
  (Z.of_nat n <= 2 ^ 31 + 2)%Z -> (Z.of_nat m <= 2 ^ 31 + 2)%Z ->
  (0 <= off <= 1)%Z ->
  for_ 0 n (fun it R =>
    for_ 0 m (fun jt R => conv_cell K i j (mk i j f) (mk 3 3 k) off it jt R) R)
    (init n m (lite K 0)) =
  tabM n m (fun r c => corr K i j f k (Z.of_nat r - off) (Z.of_nat c - off)).
Proof.
  intros Hi Hj Hn Hm Ho. rewrite init_mk.
  etransitivity; [|exact (tab_loop n m (fun _ _ => lite K 0) _)].
  assert (Hc : forall r c R, r < n -> c < m -> shape n m R ->
    conv_cell K i j (mk i j f) (mk 3 3 k) off r c R =
    let* x := corr K i j f k (Z.of_nat r - off) (Z.of_nat c - off) in aset R r c x).
  { intros r c R Hr Hc HR. destruct (proj1 (shape_mk (lite K 0) n m R) HR) as [z ->].
    apply conv_cell_mk; assumption. }
  apply (for_ext_inv (fun _ R => shape n m R)).
  - apply shape_of_mk.
  - intros r R Hr HR. apply (for_ext_inv (fun _ R => shape n m R)); [assumption| |].
    + intros c R' Hc' HR'. apply Hc; [lia|lia|assumption].
    + intros c R1 R2 Hc' HR1 E. rewrite Hc in E by (try lia; assumption).
      apply bind_inv in E. destruct E as [x [_ E]]. eapply aset_shape; eassumption.
  - intros r R1 R2 Hr HR1 E.
    refine (for_partial (fun _ R => shape n m R) _ _ _ _ _ _ HR1 _ E); [lia|].
    intros c R3 R4 Hc' HR3 E'. cbv beta in E'. rewrite Hc in E' by (try lia; assumption).
    apply bind_inv in E'. destruct E' as [x [_ E']]. eapply aset_shape; eassumption.
Qed.

Lemma conv2_tab i j (f k : nat -> nat -> T) :
  (Z.of_nat i <= 2 ^ 31)%Z -> (Z.of_nat j <= 2 ^ 31)%Z ->
  conv2 K i j (mk i j f) (mk 3 3 k) =
  tabM i j (fun r c => corr K i j f k (Z.of_nat r) (Z.of_nat c)).
Proof.
  intros Hi Hj. unfold conv2. rewrite conv_loop_mk by lia. apply tabM_ext. intros r c _ _.
  f_equal; lia.
Qed.

Lemma conv2_full_tab i j (f k : nat -> nat -> T) :
  (Z.of_nat i <= 2 ^ 31)%Z -> (Z.of_nat j <= 2 ^ 31)%Z ->
  conv2_full K i j (mk i j f) (mk 3 3 k) =
  tabM (i + 2) (j + 2) (fun r c => corr K i j f k (Z.of_nat r - 1) (Z.of_nat c - 1)).
Proof. intros Hi Hj. unfold conv2_full. apply conv_loop_mk; lia. Qed.

Lemma conv2_valid_tab n (f k : nat -> nat -> T) :
  2 <= n -> (Z.of_nat n <= 2 ^ 31)%Z ->
  forall C, conv2 K n n (mk n n f) (mk 3 3 k) = Ok (mk n n C) ->
  conv2_valid K n (mk n n f) (mk 3 3 k) = Ok (mk (n - 2) (n - 2) (fun r c => C (r + 1) (c + 1))).
Proof.
  intros Hn2 Hn C E. unfold conv2_valid. rewrite E. cbn [bind].
  rewrite getminor_mk by lia. cbn [bind]. rewrite getminor_mk by lia. f_equal.
  replace (n - 1 - 1) with (n - 2) by lia. apply mk_ext. intros a b Ha Hb.
  unfold skip. f_equal; nat_cases; lia.
Qed.

Lemma conv2_valid_fail n (f k : nat -> nat -> T) :
  (forall R, conv2 K n n (mk n n f) (mk 3 3 k) <> Ok R) ->
  conv2_valid K n (mk n n f) (mk 3 3 k) = conv2 K n n (mk n n f) (mk 3 3 k).
Proof.
  intros H. unfold conv2_valid. destruct (conv2 _ _ _ _ _) as [R| | | |]; try reflexivity.
  exfalso. apply (H R). reflexivity.
Qed.

(** conv2 is the central part of conv2_full *)
Lemma conv2_from_full i j (f k : nat -> nat -> T) :
  (Z.of_nat i <= 2 ^ 31)%Z -> (Z.of_nat j <= 2 ^ 31)%Z ->
  forall F, conv2_full K i j (mk i j f) (mk 3 3 k) = Ok (mk (i + 2) (j + 2) F) ->
  conv2 K i j (mk i j f) (mk 3 3 k) = Ok (mk i j (fun r c => F (r + 1) (c + 1))).
Proof.
  intros Hi Hj F E. rewrite conv2_full_tab in E by assumption.
  apply (tabM_inv (lite K 0)) in E. destruct E as [G [E H]].
  rewrite conv2_tab by assumption. apply tabM_ok. intros r c Hr Hc.
  rewrite (mk_inj _ _ _ _ E) by lia. rewrite <- H by lia. f_equal; lia.
Qed.

(** safety *)
Lemma safe_corr (HK : scalar_safe K) i j f k p q : safe (fun _ => True) (corr K i j f k p q).
Proof.
  rewrite corr_unfold. cbv zeta.
  assert (Hs : forall c ab, safe (fun _ => True) (corr_step i j f k p q c ab)).
  { intros c ab. unfold corr_step. cbv zeta. eapply safe_bind.
    - destruct (inside _ _ _ _); [apply safe_xmul; exact HK|exact I].
    - intros t _. eapply safe_bind; [apply safe_xadd; exact HK|]. intros; exact I. }
  do 8 (eapply safe_bind; [apply Hs|]; intros ? _). apply Hs.
Qed.

Lemma safe_conv2 (HK : scalar_safe K) i j A k :
  (Z.of_nat i <= 2 ^ 31)%Z -> (Z.of_nat j <= 2 ^ 31)%Z ->
  shape i j A -> shape 3 3 k -> safe (shape i j) (conv2 K i j A k).
Proof.
  intros Hi Hj HA Hk. destruct (proj1 (shape_mk (lite K 0) _ _ A) HA) as [f ->].
  destruct (proj1 (shape_mk (lite K 0) _ _ k) Hk) as [g ->].
  rewrite conv2_tab by assumption. apply safe_tabM. intros. apply safe_corr. exact HK.
Qed.

Lemma safe_conv2_full (HK : scalar_safe K) i j A k :
  (Z.of_nat i <= 2 ^ 31)%Z -> (Z.of_nat j <= 2 ^ 31)%Z ->
  shape i j A -> shape 3 3 k -> safe (shape (i + 2) (j + 2)) (conv2_full K i j A k).
Proof.
  intros Hi Hj HA Hk. destruct (proj1 (shape_mk (lite K 0) _ _ A) HA) as [f ->].
  destruct (proj1 (shape_mk (lite K 0) _ _ k) Hk) as [g ->].
  rewrite conv2_full_tab by assumption. apply safe_tabM. intros. apply safe_corr. exact HK.
Qed.

Lemma safe_conv2_valid (HK : scalar_safe K) n A k :
  2 <= n -> (Z.of_nat n <= 2 ^ 31)%Z ->
  shape n n A -> shape 3 3 k -> safe (shape (n - 2) (n - 2)) (conv2_valid K n A k).
Proof.
  intros H2 Hn HA Hk. unfold conv2_valid.
  eapply safe_bind; [apply safe_conv2; eassumption|]. intros C HC.
  eapply safe_bind; [apply safe_getminor; [exact HC|lia|lia]|]. intros D HD.
  replace (n - 2) with (n - 1 - 1) by lia. apply safe_getminor; [exact HD|lia|lia].
Qed.

End Conv.
