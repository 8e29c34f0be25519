(** * Property C87: printing floating-point matrices *)

From Coq Require Import ZArith Lia List Arith Bool Ascii String Decimal DecimalString DecimalZ DecimalPos Reals Lra.
From Flocq Require Import Core Core.Digits Relative IEEE754.BinarySingleNaN.
Import ListNotations.
From Verif Require Import Base Scalar CInt CFloat CPrint Model Spec Loops Struct PropPrint.
Open Scope string_scope.

(** ** Specification: reading a decimal number *)

Definition digit_val (c : ascii) : option Z :=
  let n := nat_of_ascii c in
  if ((48 <=? n) && (n <=? 57))%nat then Some (Z.of_nat n - 48)%Z else None.

(** the longest prefix of digits, appended to [acc]; how many; what follows *)
Fixpoint read (acc : Z) (k : nat) (s : string) : Z * nat * string :=
  match s with
  | "" => (acc, k, "")
  | String c s' =>
      match digit_val c with
      | Some d => read (acc * 10 + d)%Z (S k) s'
      | None => (acc, k, s)
      end
  end.

(** [digits[.digits][e(+|-)digits]] as [(M, E)], meaning [M * 10^E] *)
Definition parse_exponent (s : string) : option Z :=
  match s with
  | "" => Some 0%Z
  | String "e" (String c s) =>
      match read 0 0 s with
      | (x, S _, "") =>
          if Ascii.eqb c "+" then Some x else if Ascii.eqb c "-" then Some (- x)%Z else None
      | _ => None
      end
  | _ => None
  end.

Definition parse_unsigned (s : string) : option (Z * Z) :=
  match read 0 0 s with
  | (_, O, _) => None
  | (a, S _, String "." s) =>
      match read a 0 s with
      | (_, O, _) => None
      | (a, S k, s) => option_map (fun x => (a, x - Z.of_nat (S k))%Z) (parse_exponent s)
      end
  | (a, S _, s) => option_map (fun x => (a, x)) (parse_exponent s)
  end.

Definition parse_decimal (s : string) : option (Z * Z) :=
  match s with
  | String "-" s => option_map (fun '(m, e) => (- m, e)%Z) (parse_unsigned s)
  | _ => parse_unsigned s
  end.

Example parse_ex : map parse_decimal ["0"; "-12.5"; "1.5e+06"; "3e-05"; "nan"; "-inf"; "1."] =
  [Some (0, 0); Some (-125, -1); Some (15, 5); Some (3, -5); None; None; None]%Z.
Proof. reflexivity. Qed.

Definition dec_value (p : Z * Z) : R := F2R (Float ten (fst p) (snd p)).

(** rounding to six significant decimal digits, ties to even *)
Definition six_digits (x : R) : R := round ten (FLX_exp 6) ZnearestE x.

(** ** Reading what was written *)

(** [s] does not begin with a digit *)
Definition stops (s : string) : Prop :=
  match s with "" => True | String c _ => digit_val c = None end.

Lemma read_stops acc k s : stops s -> read acc k s = (acc, k, s).
Proof. destruct s as [|c s]; [reflexivity|]. simpl. intros ->. reflexivity. Qed.

Lemma read_digit acc k d s : (0 <= d < 10)%Z ->
  read acc k (String (ascii_of_nat (48 + Z.to_nat d)) s) = read (acc * 10 + d) (S k) s.
Proof.
  intros H. cbn [read].
  assert (E : digit_val (ascii_of_nat (48 + Z.to_nat d)) = Some d).
  { unfold digit_val. rewrite nat_ascii_embedding by lia.
    replace ((48 <=? 48 + Z.to_nat d) && (48 + Z.to_nat d <=? 57))%nat with true.
    - f_equal. lia.
    - symmetry. apply andb_true_intro. split; apply Nat.leb_le; lia. }
  rewrite E. reflexivity.
Qed.

Lemma read_digits k n acc c s : (0 <= n < 10 ^ Z.of_nat k)%Z ->
  read acc c (digits k n ++ s) = read (acc * 10 ^ Z.of_nat k + n) (c + k) s.
Proof.
  revert n acc c s. induction k as [|k IH]; intros n acc c s Hn.
  - simpl in *. f_equal; [|lia]. lia.
  - cbn [digits]. rewrite Nat2Z.inj_succ, Z.pow_succ_r in Hn by lia.
    assert (Hd : (0 <= n / 10 < 10 ^ Z.of_nat k)%Z).
    { split; [apply Z.div_pos; lia|apply Z.div_lt_upper_bound; lia]. }
    rewrite app_assoc', IH by exact Hd.
    cbn [append]. rewrite read_digit by (apply Z.mod_pos_bound; lia).
    rewrite Nat2Z.inj_succ, Z.pow_succ_r by lia. f_equal; [|lia].
    pose proof (Z.div_mod n 10 ltac:(lia)). lia.
Qed.

Lemma read_uint d acc c s :
  read acc c (NilEmpty.string_of_uint d ++ s) =
  read (acc * 10 ^ Z.of_N (Unsigned.usize d) + Z.of_N (Unsigned.of_lu (rev d))) (c + nb_digits d) s.
Proof.
  revert acc c. induction d; intros acc c;
    [cbn; rewrite Nat.add_0_r; f_equal; lia|..];
    cbn [NilEmpty.string_of_uint append read];
    match goal with |- context [digit_val ?x] => let v := eval vm_compute in (digit_val x) in change (digit_val x) with v end;
    cbv iota; rewrite IHd;
    match goal with |- context [rev (?D d)] =>
      change (rev (D d)) with (revapp d (D Nil)); rewrite (Unsigned.of_lu_revapp d (D Nil)) end;
    cbn [Unsigned.usize nb_digits]; rewrite N2Z.inj_succ, Z.pow_succ_r by lia; (f_equal; [|lia]);
    rewrite N2Z.inj_add, N2Z.inj_mul, N2Z.inj_pow; cbn [Unsigned.of_lu N.mul N.add Z.of_N Pos.mul Pos.add N.succ Pos.succ];
    lia.
Qed.

Lemma read_decimal z s : (0 <= z)%Z -> exists k, read 0 0 (decimal z ++ s) = read z (S k) s.
Proof.
  intros Hz. unfold decimal. destruct z as [|p|p]; [exists 0%nat; reflexivity| |lia].
  cbn [Z.to_int NilEmpty.string_of_int]. rewrite read_uint. 
  assert (E : Z.of_N (Unsigned.of_lu (rev (Pos.to_uint p))) = Z.pos p).
  { rewrite <- Unsigned.of_uint_alt, Unsigned.of_to. reflexivity. }
  rewrite E. assert (N0 : nb_digits (Pos.to_uint p) <> 0%nat).
  { intros H. assert (Hn : Pos.to_uint p = Nil) by (destruct (Pos.to_uint p); [reflexivity|discriminate..]).
    rewrite Hn in E. discriminate. }
  destruct (nb_digits (Pos.to_uint p)) as [|k]; [congruence|]. exists k. reflexivity.
Qed.

Lemma strip_spec k n : (0 <= n < 10 ^ Z.of_nat k)%Z -> forall k' n', strip k n = (k', n') ->
  (k' <= k)%nat /\ n = (n' * 10 ^ Z.of_nat (k - k'))%Z /\ (0 <= n' < 10 ^ Z.of_nat k')%Z.
Proof.
  revert n. induction k as [|k IH]; intros n Hn k' n' E; cbn [strip] in E.
  - injection E as <- <-. cbn in *. lia.
  - destruct (Z.eqb_spec (n mod 10) 0) as [Z0|Z0].
    + rewrite Nat2Z.inj_succ, Z.pow_succ_r in Hn by lia.
      destruct (IH (n / 10)%Z) with (k' := k') (n' := n') as (h1 & h2 & h3); [|exact E|].
      { split; [apply Z.div_pos; lia|apply Z.div_lt_upper_bound; lia]. }
      split; [lia|]. split; [|exact h3].
      replace (S k - k')%nat with (S (k - k')) by lia. rewrite Nat2Z.inj_succ, Z.pow_succ_r by lia.
      pose proof (Z.div_mod n 10 ltac:(lia)). lia.
    + injection E as <- <-. split; [lia|]. rewrite Nat.sub_diag. cbn [Z.of_nat Z.pow]. split; [|exact Hn]. 
      change (10 ^ 0)%Z with 1%Z. lia.
Qed.

(** what a fraction reads as, up to trailing zeros *)
Lemma parse_positional n k s x : (0 <= n)%Z -> stops s -> (forall c r, s = String c r -> c <> "."%char) ->
  parse_exponent s = Some x -> exists M E,
  parse_unsigned (positional n k ++ s) = Some (M, (x + E)%Z) /\ (E <= 0)%Z /\ (- Z.of_nat k <= E)%Z /\
  n = (M * 10 ^ (Z.of_nat k + E))%Z.
Proof.
  intros Hn Hs Hd Hx. unfold positional.
  assert (Hp : (0 < 10 ^ Z.of_nat k)%Z) by (apply Z.pow_pos_nonneg; lia).
  set (i := (n / 10 ^ Z.of_nat k)%Z). set (f := (n mod 10 ^ Z.of_nat k)%Z).
  assert (Ei : n = (i * 10 ^ Z.of_nat k + f)%Z) by (pose proof (Z.div_mod n (10 ^ Z.of_nat k)); unfold i, f; lia).
  assert (Hi : (0 <= i)%Z) by (apply Z.div_pos; lia).
  assert (Hf : (0 <= f < 10 ^ Z.of_nat k)%Z) by (apply Z.mod_pos_bound; lia).
  clearbody i f. unfold fraction. destruct (strip k f) as [k' f'] eqn:E.
  destruct (strip_spec k f Hf k' f' E) as (h1 & h2 & h3).
  rewrite app_assoc'. destruct (read_decimal i ((match k' with O => "" | _ => "." ++ digits k' f' end) ++ s) Hi) as [c Ec].
  unfold parse_unsigned. rewrite Ec. clear Ec. destruct k' as [|k'].
  - cbn [append]. rewrite read_stops by exact Hs. exists i, 0%Z. rewrite Z.add_0_r. split.
    + destruct s as [|ch r]; [cbn in Hx |- *; injection Hx as <-; reflexivity|].
      destruct (Ascii.eqb_spec ch ".") as [->|Hc]; [destruct (Hd "."%char r eq_refl eq_refl)|].
      rewrite Hx. cbn [option_map].
      destruct ch as [[] [] [] [] [] [] [] []]; try reflexivity. congruence.
    + split; [lia|]. split; [lia|]. cbn in h3. assert (f' = 0)%Z by lia. subst f'. rewrite Z.add_0_r, Ei, h2. lia.
  - rewrite app_assoc'. change ("." ++ digits (S k') f' ++ s) with (String "." (digits (S k') f' ++ s)).
    rewrite (read_stops i (S c) (String "." _)) by reflexivity.
    rewrite read_digits by exact h3. rewrite read_stops by exact Hs. cbn [Nat.add].
    rewrite Hx. exists (i * 10 ^ Z.of_nat (S k') + f')%Z, (- Z.of_nat (S k'))%Z.
    split; [reflexivity|]. split; [lia|]. split; [lia|].
    rewrite Ei, h2. replace (Z.of_nat k + - Z.of_nat (S k'))%Z with (Z.of_nat (k - S k')) by lia.
    rewrite Z.mul_add_distr_r, <- Z.mul_assoc, <- Z.pow_add_r by lia. do 3 f_equal. lia.
Qed.

Lemma parse_exponent_ok X : parse_exponent ("e" ++ exponent X) = Some X.
Proof.
  unfold exponent. cbn [append].
  destruct (read_decimal (Z.abs X) "" ltac:(lia)) as [k E]. rewrite app_nil' in E. cbn [read] in E.
  assert (R : exists k, read 0 0 ((if Z.abs X <? 10 then "0" else "")%Z ++ decimal (Z.abs X)) = (Z.abs X, S k, "")).
  { destruct (Z.abs X <? 10)%Z; [|exists k; exact E]. exists (S k).
    cbn [append read]. change (digit_val "0") with (Some 0%Z). cbv iota.
    assert (G : forall s c a, read a (S c) s = (let '(v, c', r) := read a c s in (v, S c', r))).
    { clear. induction s as [|ch s IH]; intros c a; [reflexivity|]. cbn [read]. destruct (digit_val ch); [apply IH|reflexivity]. }
    rewrite G. change (0 * 10 + 0)%Z with 0%Z. rewrite E. reflexivity. }
  destruct R as [k' R]. destruct (Z.ltb_spec X 0) as [H|H]; cbn [append parse_exponent]; rewrite R.
  - change (Ascii.eqb "-" "+") with false. change (Ascii.eqb "-" "-") with true. cbv iota. f_equal. lia.
  - change (Ascii.eqb "+" "+") with true. cbv iota. f_equal. lia.
Qed.

(** reading what [show_six] writes gives [n * 10^(X-5)] *)
Lemma parse_show_six n X : (0 <= n)%Z -> exists M E,
  parse_unsigned (show_six n X) = Some (M, E) /\ (X - 5 <= E)%Z /\ n = (M * 10 ^ (E - (X - 5)))%Z.
Proof.
  intros Hn. unfold show_six. destruct ((-4 <=? X) && (X <? 6))%Z eqn:B.
  - apply andb_prop in B. destruct B as [B1 B2]. apply Z.leb_le in B1. apply Z.ltb_lt in B2.
    destruct (parse_positional n (Z.to_nat (5 - X)) "" 0 Hn) as (M & E & H1 & H2 & H3 & H4);
      [exact I|discriminate|reflexivity|].
    rewrite app_nil' in H1. exists M, E. split; [exact H1|]. rewrite Z2Nat.id in * by lia.
    split; [lia|]. rewrite H4. do 2 f_equal. lia.
  - destruct (parse_positional n 5 ("e" ++ exponent X) X Hn) as (M & E & H1 & H2 & H3 & H4);
      [reflexivity| |apply parse_exponent_ok|].
    { cbn [append]. intros c r Hc. injection Hc as <- _. discriminate. }
    exists M, (X + E)%Z. split; [exact H1|]. change (Z.of_nat 5) with 5%Z in *. split; [lia|]. rewrite H4. do 2 f_equal. lia.
Qed.

(** ** Six significant digits *)

Local Open Scope R_scope.

Lemma ten_pow k : (0 <= k)%Z -> IZR (10 ^ k) = bpow ten k.
Proof. intros H. change 10%Z with (radix_val ten). apply (IZR_Zpower ten). exact H. Qed.

Lemma scale10_R num den k a b : (0 < den)%Z -> scale10 num den k = (a, b) ->
  (0 < b)%Z /\ IZR a / IZR b = IZR num / IZR den * bpow ten k.
Proof.
  intros Hd E. unfold scale10 in E. injection E as <- <-.
  assert (P : forall j, (0 < 10 ^ Z.max j 0)%Z) by (intros; apply Z.pow_pos_nonneg; lia).
  split; [apply Z.mul_pos_pos; auto|].
  rewrite !mult_IZR, !ten_pow by lia.
  assert (IZR den <> 0) by (apply not_0_IZR; lia).
  assert (bpow ten (Z.max (- k) 0) <> 0) by (apply Rgt_not_eq, bpow_gt_0).
  replace (bpow ten k) with (bpow ten (Z.max k 0) / bpow ten (Z.max (- k) 0)).
  - field. split; assumption.
  - apply Rmult_eq_reg_r with (bpow ten (Z.max (- k) 0)); [|assumption]. unfold Rdiv.
    rewrite Rmult_assoc, Rinv_l, Rmult_1_r by assumption.
    rewrite <- bpow_plus. f_equal. lia.
Qed.

Lemma dec_exp_spec num den : (0 < num)%Z -> (0 < den)%Z ->
  bpow ten (dec_exp num den) <= IZR num / IZR den < bpow ten (dec_exp num den + 1).
Proof.
  intros Hn Hd. unfold dec_exp.
  pose proof (Zdigits_correct ten num) as Dn. pose proof (Zdigits_correct ten den) as Dd.
  rewrite Z.abs_eq in Dn, Dd by lia.
  pose proof (Zdigits_gt_0 ten num ltac:(lia)) as Gn. pose proof (Zdigits_gt_0 ten den ltac:(lia)) as Gd.
  set (dn := Zdigits ten num) in *. set (dd := Zdigits ten den) in *. clearbody dn dd.
  assert (N1 : bpow ten (dn - 1) <= IZR num) by (rewrite <- IZR_Zpower by lia; apply IZR_le; lia).
  assert (N2 : IZR num < bpow ten dn) by (rewrite <- IZR_Zpower by lia; apply IZR_lt; lia).
  assert (D1 : bpow ten (dd - 1) <= IZR den) by (rewrite <- IZR_Zpower by lia; apply IZR_le; lia).
  assert (D2 : IZR den < bpow ten dd) by (rewrite <- IZR_Zpower by lia; apply IZR_lt; lia).
  assert (Pd : 0 < IZR den) by (apply IZR_lt; lia).
  set (k := (dn - dd)%Z).
  assert (U : IZR num / IZR den < bpow ten (k + 1)).
  { apply Rmult_lt_reg_r with (IZR den); [exact Pd|]. unfold Rdiv.
    rewrite Rmult_assoc, Rinv_l, Rmult_1_r by lra.
    eapply Rlt_le_trans; [exact N2|]. replace dn with (k + 1 + (dd - 1))%Z at 1 by (unfold k; lia).
    rewrite bpow_plus. apply Rmult_le_compat_l; [apply bpow_ge_0|exact D1]. }
  assert (L : bpow ten (k - 1) <= IZR num / IZR den).
  { apply Rmult_le_reg_r with (IZR den); [exact Pd|]. unfold Rdiv.
    rewrite Rmult_assoc, Rinv_l, Rmult_1_r by lra.
    eapply Rle_trans; [|exact N1]. replace (dn - 1)%Z with (k - 1 + dd)%Z by (unfold k; lia).
    rewrite bpow_plus. apply Rmult_le_compat_l; [apply bpow_ge_0|lra]. }
  destruct (scale10 num den (- k)) as [a b] eqn:E.
  destruct (scale10_R num den (- k) a b Hd E) as [Hb Eab].
  assert (Pb : 0 < IZR b) by (apply IZR_lt; lia).
  assert (Back : IZR num / IZR den = IZR a / IZR b * bpow ten k).
  { rewrite Eab, Rmult_assoc, <- bpow_plus. replace (- k + k)%Z with 0%Z by lia. simpl. ring. }
  destruct (Z.leb_spec b a) as [H|H].
  - split; [|exact U]. rewrite Back. rewrite <- (Rmult_1_l (bpow ten k)) at 1.
    apply Rmult_le_compat_r; [apply bpow_ge_0|].
    apply Rmult_le_reg_r with (IZR b); [exact Pb|]. unfold Rdiv.
    rewrite Rmult_assoc, Rinv_l, Rmult_1_r, Rmult_1_l by lra. apply IZR_le. exact H.
  - split; [exact L|]. replace (k - 1 + 1)%Z with k by lia. rewrite Back.
    rewrite <- (Rmult_1_l (bpow ten k)) at 2.
    apply Rmult_lt_compat_r; [apply bpow_gt_0|].
    apply Rmult_lt_reg_r with (IZR b); [exact Pb|]. unfold Rdiv.
    rewrite Rmult_assoc, Rinv_l, Rmult_1_r, Rmult_1_l by lra. apply IZR_lt. exact H.
Qed.

Lemma half_even_R a b : (0 < b)%Z -> half_even a b = ZnearestE (IZR a / IZR b).
Proof.
  intros Hb. unfold half_even, Znearest. rewrite Zfloor_div by lia.
  assert (Pb : 0 < IZR b) by (apply IZR_lt; lia).
  pose proof (Z.div_mod a b ltac:(lia)) as DM. pose proof (Z.mod_pos_bound a b Hb) as MB.
  assert (Ex : IZR a / IZR b - IZR (a / b) = IZR (a mod b) / IZR b).
  { rewrite DM at 1. rewrite plus_IZR, mult_IZR. field. lra. }
  rewrite Ex.
  assert (Hc : (a mod b <> 0)%Z -> Zceil (IZR a / IZR b) = (a / b + 1)%Z).
  { intros H0. rewrite Zceil_floor_neq; [rewrite Zfloor_div by lia; reflexivity|].
    rewrite Zfloor_div by lia. intros E. 
    assert (IZR (a mod b) / IZR b = 0) by lra.
    assert (IZR (a mod b) = 0).
    { apply Rmult_eq_reg_r with (/ IZR b); [|apply Rinv_neq_0_compat; lra]. rewrite Rmult_0_l. exact H. }
    apply H0. apply eq_IZR. assumption. }
  assert (Cmp : Rcompare (IZR (a mod b) / IZR b) (/ 2) = (2 * (a mod b) ?= b)%Z).
  { rewrite <- Rcompare_IZR, mult_IZR.
    rewrite <- (Rcompare_mult_r (2 * IZR b)) by lra.
    f_equal; field; lra. }
  rewrite Cmp. destruct (2 * (a mod b) ?= b)%Z eqn:C.
  - apply Z.compare_eq in C. rewrite Hc by lia. destruct (Z.even (a / b)); reflexivity.
  - reflexivity.
  - apply Z.compare_gt_iff in C. rewrite Hc by lia. reflexivity.
Qed.

Lemma F2R_fraction m e :
  F2R (Float radix2 (Z.pos m) e) = IZR (Z.pos m * 2 ^ Z.max e 0) / IZR (2 ^ Z.max (- e) 0).
Proof.
  unfold F2R. simpl Fnum; simpl Fexp. rewrite mult_IZR.
  assert (T : forall k, (0 <= k)%Z -> IZR (2 ^ k) = bpow radix2 k) by (intros; apply (IZR_Zpower radix2); assumption).
  rewrite !T by lia. 
  replace (bpow radix2 e) with (bpow radix2 (Z.max e 0) / bpow radix2 (Z.max (- e) 0)).
  - field. apply Rgt_not_eq, bpow_gt_0.
  - assert (bpow radix2 (Z.max (- e) 0) <> 0) by (apply Rgt_not_eq, bpow_gt_0).
    apply Rmult_eq_reg_r with (bpow radix2 (Z.max (- e) 0)); [|assumption]. unfold Rdiv.
    rewrite Rmult_assoc, Rinv_l, Rmult_1_r by assumption. rewrite <- bpow_plus. f_equal. lia.
Qed.

(** the printed digits are the value rounded to six significant digits *)
Lemma six_spec m e n X : six m e = (n, X) ->
  (10 ^ 5 <= n < 10 ^ 6)%Z /\
  F2R (Float ten n (X - 5)) = six_digits (F2R (Float radix2 (Z.pos m) e)).
Proof.
  unfold six. rewrite F2R_fraction.
  set (num := (Z.pos m * 2 ^ Z.max e 0)%Z). set (den := (2 ^ Z.max (- e) 0)%Z).
  assert (Hd : (0 < den)%Z) by (apply Z.pow_pos_nonneg; lia).
  assert (Hn : (0 < num)%Z) by (apply Z.mul_pos_pos; [lia|apply Z.pow_pos_nonneg; lia]).
  pose proof (dec_exp_spec num den Hn Hd) as B. set (Y := dec_exp num den) in *. clearbody Y.
  destruct (scale10 num den (5 - Y)) as [a b] eqn:E.
  destruct (scale10_R num den (5 - Y) a b Hd E) as [Hb Eab].
  rewrite (half_even_R a b Hb), Eab. clear E Eab Hb a b.
  set (x := IZR num / IZR den) in *. clearbody x. clear Hn Hd num den m e.
  set (r := ZnearestE (x * bpow ten (5 - Y))). intros Er.
  assert (Px : 0 < x) by (eapply Rlt_le_trans; [apply bpow_gt_0|apply B]).
  assert (Mag : mag ten x = (Y + 1)%Z :> Z).
  { apply mag_unique. rewrite Rabs_pos_eq by lra. replace (Y + 1 - 1)%Z with Y by lia. exact B. }
  assert (Rx : six_digits x = IZR r * bpow ten (Y - 5)).
  { unfold six_digits, round, F2R, scaled_mantissa, cexp, FLX_exp. rewrite Mag. simpl.
    unfold r. replace (- (Y + 1 - 6))%Z with (5 - Y)%Z by lia. replace (Y + 1 - 6)%Z with (Y - 5)%Z by lia.
    reflexivity. }
  assert (R1 : (10 ^ 5 <= r)%Z).
  { rewrite <- (Zrnd_IZR ZnearestE (10 ^ 5)). apply Zrnd_le. { apply valid_rnd_N. }
    rewrite ten_pow by lia. replace 5%Z with (Y + (5 - Y))%Z at 1 by lia. rewrite bpow_plus.
    apply Rmult_le_compat_r; [apply bpow_ge_0|apply B]. }
  assert (R2 : (r <= 10 ^ 6)%Z).
  { rewrite <- (Zrnd_IZR ZnearestE (10 ^ 6)). apply Zrnd_le. { apply valid_rnd_N. }
    rewrite ten_pow by lia. 
    replace (bpow ten 6) with (bpow ten (Y + 1) * bpow ten (5 - Y)) by (rewrite <- bpow_plus; f_equal; lia).
    apply Rmult_le_compat_r; [apply bpow_ge_0|lra]. }
  destruct (Z.eqb_spec r (10 ^ 6)) as [H|H]; injection Er as <- <-.
  - split; [lia|]. rewrite Rx, H. unfold F2R; cbn [Fnum Fexp]. change (Z.pow_pos 10 5) with (10 ^ 5)%Z.
    rewrite !ten_pow by lia. rewrite <- !bpow_plus. f_equal.
    lia.
  - split; [lia|]. rewrite Rx. reflexivity.
Qed.

(** ** C87 *)

Section C87.
Variables prec emax : Z.
Context {Hp : Prec_gt_0 prec} {He : Prec_lt_emax prec emax}.
Notation K := (floatS prec emax).

Lemma dec_value_eq M E n k : (k <= E)%Z -> n = (M * 10 ^ (E - k))%Z -> dec_value (M, E) = F2R (Float ten n k).
Proof.
  intros H ->. unfold dec_value, F2R; simpl. rewrite mult_IZR, ten_pow by lia.
  rewrite Rmult_assoc, <- bpow_plus. do 2 f_equal. lia.
Qed.

Lemma parse_decimal_unsigned s p : parse_unsigned s = Some p -> parse_decimal s = Some p.
Proof.
  intros H. destruct s as [|c s]; [exact H|]. cbn [parse_decimal].
  destruct (Ascii.eqb_spec c "-") as [->|Hc]; [discriminate|].
  destruct c as [[] [] [] [] [] [] [] []]; try exact H. congruence.
Qed.

(** The text of a finite element is a decimal number: the element rounded to
    six significant digits. *)
Theorem c87_value (x : fl prec emax) : is_finite x = true -> exists p,
  parse_decimal (show_float x) = Some p /\ dec_value p = six_digits (B2R x).
Proof.
  destruct x as [s|s| |s m e H]; try discriminate; intros _.
  - exists (0, 0)%Z. split; [destruct s; reflexivity|]. unfold six_digits. cbn [B2R]. rewrite round_0 by apply valid_rnd_N.
    unfold dec_value, F2R. simpl. ring.
  - cbn [show_float B2R]. destruct (six m e) as [n X] eqn:E. destruct (six_spec m e n X E) as [Hn V].
    destruct (parse_show_six n X ltac:(lia)) as (M & E' & P & HE & Hv).
    destruct s; cbn [append SpecFloat.cond_Zopp].
    + exists (- M, E')%Z. split; [cbn [parse_decimal]; rewrite P; reflexivity|].
      transitivity (- dec_value (M, E')); [unfold dec_value; simpl; rewrite F2R_Zopp; reflexivity|].
      rewrite (dec_value_eq M E' n (X - 5)) by (lia || assumption).
      rewrite V. change (Z.neg m) with (- Z.pos m)%Z. rewrite F2R_Zopp. unfold six_digits.
      symmetry. apply round_NE_opp.
    + exists (M, E'). split; [apply parse_decimal_unsigned; exact P|].
      rewrite (dec_value_eq M E' n (X - 5)) by (lia || assumption). exact V.
Qed.

(** So it is within five parts in a million. *)
Theorem c87_error (x : fl prec emax) : is_finite x = true -> exists p,
  parse_decimal (show_float x) = Some p /\ Rabs (dec_value p - B2R x) <= 5 / 1000000 * Rabs (B2R x).
Proof.
  intros Hx. destruct (c87_value x Hx) as (p & P & V). exists p. split; [exact P|]. rewrite V.
  unfold six_digits. eapply Rle_trans; [apply relative_error_N_FLX; reflexivity|]. apply Req_le. f_equal.
  change (- (6) + 1)%Z with (-5)%Z. unfold bpow. simpl. lra.
Qed.

(** Larger numbers are not printed as smaller ones. *)
Theorem c87_order (x y : fl prec emax) p q : is_finite x = true -> is_finite y = true -> B2R x <= B2R y ->
  parse_decimal (show_float x) = Some p -> parse_decimal (show_float y) = Some q -> dec_value p <= dec_value q.
Proof.
  intros Hx Hy H Ep Eq. destruct (c87_value x Hx) as (p' & P & Vp). destruct (c87_value y Hy) as (q' & Q & Vq).
  rewrite Ep in P. rewrite Eq in Q. injection P as <-. injection Q as <-. rewrite Vp, Vq.
  unfold six_digits. apply round_le; [apply FLX_exp_valid; reflexivity|apply valid_rnd_N|exact H].
Qed.

(** Two elements with the same text differ by at most ten parts in a million. *)
Theorem c87_distinct (x y : fl prec emax) : is_finite x = true -> is_finite y = true ->
  show_float x = show_float y -> Rabs (B2R x - B2R y) <= 1 / 100000 * Rmax (Rabs (B2R x)) (Rabs (B2R y)).
Proof.
  intros Hx Hy E. destruct (c87_error x Hx) as (p & P & Vp). destruct (c87_error y Hy) as (q & Q & Vq).
  rewrite E, Q in P. injection P as <-.
  pose proof (Rmax_l (Rabs (B2R x)) (Rabs (B2R y))). pose proof (Rmax_r (Rabs (B2R x)) (Rabs (B2R y))).
  replace (B2R x - B2R y) with ((dec_value q - B2R y) - (dec_value q - B2R x)) by ring.
  eapply Rle_trans; [apply Rabs_triang|]. rewrite Rabs_Ropp. lra.
Qed.

(** Integers of up to six digits (except -0) are printed exactly as an integer
    type prints them. *)
Theorem c87_integer (x : fl prec emax) z : is_finite x = true -> B2R x = IZR z -> (z = 0%Z -> Bsign x = false) ->
  (Z.abs z < 1000000)%Z -> show_float x = show_int z.
Proof.
  destruct x as [s|s| |s m e H]; try discriminate; intros _ Ex Hz0 Hb.
  { assert (z = 0%Z) as -> by (apply eq_IZR; symmetry; exact Ex). cbn in Hz0. rewrite (Hz0 eq_refl). reflexivity. }
  assert (Hz : z <> 0%Z).
  { intros ->. assert (P : F2R (Float radix2 (Z.pos m) e) > 0) by (apply F2R_gt_0; reflexivity).
    cbn [B2R] in Ex. destruct s; cbn [SpecFloat.cond_Zopp] in Ex; [|lra].
    change (Z.neg m) with (- Z.pos m)%Z in Ex. rewrite F2R_Zopp in Ex. lra. }
  cbn [show_float]. destruct (six m e) as [n X] eqn:E. destruct (six_spec m e n X E) as [Hn V].
  assert (Ev : F2R (Float radix2 (Z.pos m) e) = IZR (Z.abs z)).
  { rewrite abs_IZR, <- Ex. cbn [B2R]. rewrite <- F2R_Zabs. f_equal. f_equal. destruct s; reflexivity. }
  assert (Es : z = if s then (- Z.abs z)%Z else Z.abs z).
  { assert (P : 0 < F2R (Float radix2 (Z.pos m) e)) by (apply F2R_gt_0; reflexivity).
    cbn [B2R] in Ex. destruct s; cbn [SpecFloat.cond_Zopp] in Ex.
    - change (Z.neg m) with (- Z.pos m)%Z in Ex. rewrite F2R_Zopp in Ex.
      assert (z < 0)%Z by (apply lt_IZR; lra). lia.
    - assert (0 < z)%Z by (apply lt_IZR; lra). lia. }
  rewrite Ev in V.
  assert (G : six_digits (IZR (Z.abs z)) = IZR (Z.abs z)).
  { apply round_generic; [apply valid_rnd_N|]. apply generic_format_FLX.
    exists (Float ten (Z.abs z) 0); [unfold F2R; simpl; ring|]. simpl Fnum. rewrite Z.abs_involutive. exact Hb. }
  rewrite G in V. unfold F2R in V; cbn [Fnum Fexp] in V.
  assert (Pz : 1 <= IZR (Z.abs z)) by (apply IZR_le; lia).
  assert (Bz : IZR (Z.abs z) < bpow ten 6) by (rewrite <- ten_pow by lia; apply IZR_lt; exact Hb).
  assert (N1 : bpow ten 5 <= IZR n) by (rewrite <- ten_pow by lia; apply IZR_le; lia).
  assert (N2 : IZR n < bpow ten 6) by (rewrite <- ten_pow by lia; apply IZR_lt; lia).
  assert (X1 : (X < 6)%Z).
  { apply Z.nle_gt. intros HX. apply (Rlt_irrefl (bpow ten 6)).
    eapply Rle_lt_trans; [|exact Bz]. rewrite <- V.
    replace (bpow ten 6) with (bpow ten 5 * bpow ten 1) by (rewrite <- bpow_plus; reflexivity).
    apply Rmult_le_compat; try apply bpow_ge_0; [exact N1|apply bpow_le; lia]. }
  assert (X2 : (0 <= X)%Z).
  { apply Z.nlt_ge. intros HX. apply (Rlt_irrefl 1). eapply Rle_lt_trans; [exact Pz|]. rewrite <- V.
    replace 1 with (bpow ten 6 * bpow ten (-6)) by (rewrite <- bpow_plus; reflexivity).
    eapply Rle_lt_trans; [apply Rmult_le_compat_l; [apply IZR_le; lia|apply bpow_le with (e2 := (-6)%Z); lia]|].
    apply Rmult_lt_compat_r; [apply bpow_gt_0|exact N2]. }
  assert (En : n = (Z.abs z * 10 ^ (5 - X))%Z).
  { apply eq_IZR. rewrite mult_IZR, ten_pow, <- V by lia. rewrite Rmult_assoc, <- bpow_plus.
    replace (X - 5 + (5 - X))%Z with 0%Z by lia. simpl. ring. }
  unfold show_six. replace ((-4 <=? X) && (X <? 6))%Z with true
    by (symmetry; apply andb_true_intro; split; [apply Z.leb_le|apply Z.ltb_lt]; lia).
  unfold positional. rewrite Z2Nat.id by lia. rewrite En.
  assert (P10 : (10 ^ (5 - X) <> 0)%Z) by (apply Z.pow_nonzero; lia).
  rewrite Z.div_mul, Z.mod_mul by exact P10.
  assert (F0 : forall k, fraction k 0 = "").
  { intros k. unfold fraction. assert (S0 : strip k 0 = (O, 0%Z)) by (induction k; [reflexivity|exact IHk]).
    rewrite S0. reflexivity. }
  rewrite F0, app_nil'. change decimal with show_int.
  destruct s; cbn [append]; [|rewrite <- Es; reflexivity].
  transitivity (show_int (- Z.abs z)); [|rewrite <- Es; reflexivity]. clear - Hz. destruct (Z.abs z) eqn:Ez; [lia|reflexivity|lia].
Qed.

(** Zeros keep their sign; infinities and NaN are words, no numbers. *)
Theorem c87_special (s : bool) :
  show_float (B754_zero s : fl prec emax) = (if s then "-0" else "0") /\
  show_float (B754_infinity s : fl prec emax) = (if s then "-inf" else "inf") /\
  show_float (B754_nan : fl prec emax) = "nan" /\
  (forall x : fl prec emax, is_finite x = false -> parse_decimal (show_float x) = None).
Proof.
  split; [destruct s; reflexivity|]. split; [destruct s; reflexivity|]. split; [reflexivity|].
  intros [?|[]| |] H; try discriminate; reflexivity.
Qed.

(** The sign is the only difference between the texts of [x] and [-x]. *)
Theorem c87_sign (x : fl prec emax) : is_nan x = false -> Bsign x = false ->
  show_float (Bopp x) = "-" ++ show_float x.
Proof. destruct x as [[]|[]| |[] m e H]; try discriminate; reflexivity. Qed.

(** *** The text of a matrix *)

Lemma free_digits sep k n : (forall c, In c (list_ascii_of_string "0123456789") -> c <> sep) -> free sep (digits k n).
Proof.
  intros H. revert n. induction k as [|k IH]; intros n; [exact I|]. cbn [digits].
  apply free_app; [apply IH|]. split; [|exact I]. apply H.
  pose proof (Z.mod_pos_bound n 10 ltac:(lia)) as B. set (d := (n mod 10)%Z) in *. clearbody d.
  assert (D : (d = 0 \/ d = 1 \/ d = 2 \/ d = 3 \/ d = 4 \/ d = 5 \/ d = 6 \/ d = 7 \/ d = 8 \/ d = 9)%Z) by lia.
  repeat (destruct D as [->|D]; [vm_compute; tauto|]). subst d. vm_compute; tauto.
Qed.

Lemma show_float_free sep (x : fl prec emax) : sep = " "%char \/ sep = ascii_of_nat 10 -> free sep (show_float x).
Proof.
  intros H.
  assert (D : forall c, In c (list_ascii_of_string ".e+-infa0123456789") -> c <> sep).
  { intros c Hc. cbn in Hc. destruct H; subst sep; intuition (subst; discriminate). }
  assert (Dg : forall c, In c (list_ascii_of_string "0123456789") -> c <> sep).
  { intros c Hc. apply D. change (".e+-infa0123456789") with (".e+-infa" ++ "0123456789").
    cbn in Hc |- *. tauto. }
  assert (Fm : forall w, (forall c, In c (list_ascii_of_string w) -> In c (list_ascii_of_string ".e+-infa0123456789")) -> free sep w).
  { induction w as [|c w IH]; intros Hw; [exact I|]. split; [apply D, Hw; left; reflexivity|].
    apply IH. intros c' Hc'. apply Hw. right. exact Hc'. }
  assert (Sg : forall s : bool, free sep (if s then "-" else "")).
  { intros []; apply Fm; cbn; tauto. }
  assert (Po : forall n k, free sep (positional n k)).
  { intros n k. unfold positional. apply free_app; [apply (show_free sep _ H)|].
    unfold fraction. destruct (strip k _) as [k' n']. destruct k'; [exact I|].
    apply free_app; [apply Fm; cbn; tauto|apply free_digits; exact Dg]. }
  destruct x as [s|s| |s m e He0]; cbn [show_float]; try (apply free_app; [apply Sg|apply Fm; cbn; tauto]).
  - apply Fm; cbn; tauto.
  - apply free_app; [apply Sg|]. destruct (six m e) as [n X]. unfold show_six.
    destruct (_ && _); [apply Po|]. apply free_app; [apply Po|]. apply free_app; [apply Fm; cbn; tauto|].
    unfold exponent. apply free_app; [destruct (_ <? _)%Z; apply Fm; cbn; tauto|].
    apply free_app; [destruct (_ <? _)%Z; apply Fm; cbn; tauto|]. apply (show_free sep _ H).
Qed.

(** the words of a text, line by line *)
Definition words (text : string) : list (list string) :=
  map (pieces " " "") (pieces (ascii_of_nat 10) "" text).

(** The text of a matrix splits into the texts of its elements, in place. *)
Theorem c87_words n m (A : matrix (fl prec emax)) : shape n m A -> exists text,
  print K show_float n m A = Ok text /\ words text = map (map show_float) A.
Proof.
  intros HA. eexists. split; [apply (c47_text K show_float n m A HA)|]. clear HA. unfold words.
  induction A as [|row A IH]; [reflexivity|].
  cbn [map joined]. unfold line at 1. rewrite app_assoc'.
  change (newline ++ ?s) with (String (ascii_of_nat 10) s).
  rewrite pieces_free.
  - cbn [map append]. rewrite IH. f_equal. clear.
    induction row as [|x row IH]; [reflexivity|]. cbn [map joined]. rewrite app_assoc'.
    change (" " ++ joined ?s) with (String " " (joined s)).
    rewrite pieces_free by (apply show_float_free; now left). cbn [append]. rewrite IH. reflexivity.
  - induction row as [|x row IHr]; cbn [map joined]; [exact I|].
    apply free_app; [|exact IHr]. apply free_app; [apply show_float_free; now right|].
    cbn. split; [discriminate|exact I].
Qed.

(** So reading the text back gives every element to six digits. *)
Theorem c87_read_back n m (A : matrix (fl prec emax)) :
  shape n m A -> Forall (Forall (fun x => is_finite x = true)) A -> exists text,
  print K show_float n m A = Ok text /\
  Forall2 (Forall2 (fun w x => exists p, parse_decimal w = Some p /\
    Rabs (dec_value p - B2R x) <= 5 / 1000000 * Rabs (B2R x))) (words text) A.
Proof.
  intros HA HF. destruct (c87_words n m A HA) as (text & E & W). exists text. split; [exact E|].
  rewrite W. clear HA E W. induction HF as [|row A Hr HF IH]; constructor; [|exact IH].
  induction Hr as [|x row Hx Hr IHr]; constructor; [|exact IHr]. apply c87_error. exact Hx.
Qed.

End C87.

(** A double matrix of small integers prints like the int matrix. *)
Theorem c87_like_int t n m (A : matrix Z) (B : matrix (fl 53 1024)) :
  shape n m A -> shape n m B ->
  Forall2 (Forall2 (fun z x => is_finite x = true /\ B2R x = IZR z /\ (z = 0%Z -> Bsign x = false) /\ (Z.abs z < 1000000)%Z)) A B ->
  print (intS t) show_int n m A = print float64S show_float n m B.
Proof.
  intros HA HB H. rewrite (c47_text (intS t) show_int n m A HA), (c47_text float64S show_float n m B HB).
  f_equal. f_equal. clear HA HB. induction H as [|ra rb A B Hr H IH]; [reflexivity|]. cbn [map]. f_equal; [|exact IH].
  unfold line. f_equal. f_equal. clear - Hr. induction Hr as [|z x ra rb Hx Hr IH]; [reflexivity|]. cbn [map].
  destruct Hx as (h1 & h2 & h3 & h4). f_equal; [|exact IH]. f_equal. symmetry. apply c87_integer; assumption.
Qed.

(** Different elements can have the same text: printing a matrix and reading
    it back loses information, for float and for double. *)
Notation d z := (f_of_Z 53 1024 z).
Notation s z := (f_of_Z 24 128 z).

Theorem c87_lossy :
  (exists x y : fl 53 1024, is_finite x = true /\ is_finite y = true /\ Beqb x y = false /\ show_float x = show_float y) /\
  (exists x y : fl 24 128, is_finite x = true /\ is_finite y = true /\ Beqb x y = false /\ show_float x = show_float y).
Proof.
  split; [exists (d 1000001), (d 1000002)|exists (s 1000001), (s 1000002)]; repeat split; vm_compute; reflexivity.
Qed.

Theorem c87_example :
  print float64S show_float 2 3
    [[d 1; d (-250000); d 1234567]; [@Bdiv 53 1024 _ _ mode_NE (d 1) (d 3); @Bdiv 53 1024 _ _ mode_NE (d 1) (d 100000); B754_infinity true]] =
  Ok ("1 -250000 1.23457e+06 " ++ newline ++ "0.333333 1e-05 -inf " ++ newline).
Proof. vm_compute. reflexivity. Qed.

Print Assumptions c87_value.
Print Assumptions c87_read_back.
Print Assumptions c87_like_int.
