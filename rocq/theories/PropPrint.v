(** * Property C47: print *)

From Coq Require Import ZArith Lia List Arith Ascii String Decimal DecimalString DecimalZ.
Import ListNotations.
From Verif Require Import Base Scalar CInt Model Spec Loops Struct.
Open Scope string_scope.

(** What [std::cout << num] writes for an integer type of 16 bits or more: the
    decimal digits, '-' in front of a negative number (default stream flags and
    the "C" locale).  The 8-bit character types are written as one character. *)
Definition show_int (z : Z) : string := NilEmpty.string_of_int (Z.to_int z).
Definition show_char (z : Z) : string := String (ascii_of_N (Z.to_N (z mod 256))) "".

Example show_int_ex : map show_int [0; 7; -12; 4294967295]%Z = ["0"; "7"; "-12"; "4294967295"].
Proof. reflexivity. Qed.

(** ** The text, for every element type *)

Fixpoint joined (l : list string) : string :=
  match l with [] => "" | s :: l => s ++ joined l end.

(** one line: every element followed by one space, then a newline *)
Definition line {T} (show : T -> string) (row : list T) : string :=
  joined (map (fun x => show x ++ " ") row) ++ newline.

Lemma app_assoc' (a b c : string) : (a ++ b) ++ c = a ++ (b ++ c).
Proof. induction a as [|x a IH]; cbn; [reflexivity|now rewrite IH]. Qed.
Lemma app_nil' (a : string) : a ++ "" = a.
Proof. induction a as [|x a IH]; cbn; [reflexivity|now rewrite IH]. Qed.
Lemma joined_app l l' : joined (l ++ l')%list = joined l ++ joined l'.
Proof. induction l as [|x l IH]; cbn; [reflexivity|now rewrite IH, app_assoc']. Qed.

Lemma seq_last n : seq 0 (S n) = (seq 0 n ++ [n])%list.
Proof. now rewrite seq_S. Qed.

Theorem c47_text (K : scalar) show n m A : shape n m A ->
  print K show n m A = Ok (joined (map (line show) A)).
Proof.
  intros HA. destruct (proj1 (shape_mk (lite K 0) n m A) HA) as [f ->]. unfold print.
  pose (st := fun i => joined (map (fun i => line show (map (f i) (seq 0 m))) (seq 0 i))).
  rewrite (for_states 0 n _ st).
  - unfold st, mk. now rewrite map_map.
  - lia.
  - reflexivity.
  - intros i Hi.
    pose (st' := fun j => st i ++ joined (map (fun x => show x ++ " ") (map (f i) (seq 0 j)))).
    rewrite (for_states 0 m _ st').
    + cbn [bind]. unfold st', st. rewrite seq_last, map_app, joined_app. cbn. unfold line.
      rewrite app_nil', app_assoc'. reflexivity.
    + lia.
    + unfold st'. cbn. now rewrite app_nil'.
    + intros j Hj. rewrite aget_mk by lia. cbn [bind]. unfold st'.
      rewrite seq_last, !map_app, joined_app, app_assoc'. cbn. now rewrite app_nil'.
Qed.
Print Assumptions c47_text.

(** without PRINT_IOSTREAM_ENABLE nothing is written *)
Theorem c47_off (K : scalar) n m A : shape n m A -> print_off K n m A = Ok "".
Proof.
  intros HA. destruct (proj1 (shape_mk (lite K 0) n m A) HA) as [f ->]. unfold print_off.
  rewrite (for_states 0 n _ (fun _ => EmptyString)); [reflexivity|lia|reflexivity|].
  intros i Hi. rewrite (for_states 0 m _ (fun _ => "")); [reflexivity|lia|reflexivity|].
  intros j Hj. now rewrite aget_mk by lia.
Qed.
Print Assumptions c47_off.

(** ** Reading an integer matrix back *)

(** the pieces of a text that end with [sep] *)
Fixpoint pieces (sep : ascii) (acc s : string) : list string :=
  match s with
  | "" => []
  | String c s => if Ascii.eqb c sep then acc :: pieces sep "" s
                  else pieces sep (acc ++ String c "") s
  end.

Fixpoint all_some {A} (l : list (option A)) : option (list A) :=
  match l with
  | [] => Some []
  | Some a :: l => option_map (cons a) (all_some l)
  | None :: _ => None
  end.

Definition parse_int (s : string) : option Z := option_map Z.of_int (NilEmpty.int_of_string s).
Definition parse_line (s : string) : option (list Z) := all_some (map parse_int (pieces " " "" s)).
Definition parse (s : string) : option (list (list Z)) :=
  all_some (map parse_line (pieces (ascii_of_nat 10) "" s)).

Fixpoint free (sep : ascii) (s : string) : Prop :=
  match s with "" => True | String c s => c <> sep /\ free sep s end.

Lemma free_app sep a b : free sep a -> free sep b -> free sep (a ++ b).
Proof. induction a as [|c a IH]; cbn; tauto. Qed.

Lemma pieces_free sep acc w s : free sep w ->
  pieces sep acc (w ++ String sep s) = (acc ++ w) :: pieces sep "" s.
Proof.
  revert acc. induction w as [|c w IH]; intros acc H; cbn.
  - now rewrite Ascii.eqb_refl, app_nil'.
  - destruct H as [H1 H2]. destruct (Ascii.eqb_spec c sep); [contradiction|].
    rewrite IH by assumption. rewrite app_assoc'. reflexivity.
Qed.

Lemma uint_free sep d : (forall c, In c (list_ascii_of_string "0123456789") -> c <> sep) ->
  free sep (NilEmpty.string_of_uint d).
Proof. intros H. induction d; cbn; try (split; [apply H; cbn; tauto|assumption]). exact I. Qed.

Lemma show_free sep z : sep = " "%char \/ sep = ascii_of_nat 10 -> free sep (show_int z).
Proof.
  intros H.
  assert (D : forall c, In c (list_ascii_of_string "-0123456789") -> c <> sep).
  { intros c Hc. cbn in Hc. destruct H; subst sep; intuition (subst; discriminate). }
  unfold show_int. destruct (Z.to_int z) as [d|d]; cbn.
  - apply uint_free. intros c Hc. apply D. right. exact Hc.
  - split; [apply D; left; reflexivity|]. apply uint_free. intros c Hc. apply D. right. exact Hc.
Qed.

Lemma parse_show z : parse_int (show_int z) = Some z.
Proof. unfold parse_int, show_int. rewrite NilEmpty.isi. cbn. now rewrite DecimalZ.of_to. Qed.

Lemma parse_row row : parse_line (joined (map (fun x => show_int x ++ " ") row)) = Some row.
Proof.
  unfold parse_line. induction row as [|x row IH]; [reflexivity|].
  cbn [map joined]. rewrite app_assoc'.
  change (" " ++ joined ?s) with (String " " (joined s)).
  rewrite pieces_free by (apply show_free; now left). cbn [map all_some append].
  rewrite parse_show. cbn [all_some]. now rewrite IH.
Qed.

(** the printed text of an integer matrix determines it, shape included *)
Theorem c47_parse t n m A : shape n m A -> exists text,
  print (intS t) show_int n m A = Ok text /\ parse text = Some A.
Proof.
  intros HA. eexists. split; [apply c47_text; exact HA|]. clear HA. unfold parse.
  change (list (list (elt (intS t)))) with (list (list Z)) in A.
  induction A as [|row A IH]; [reflexivity|].
  cbn [map joined]. unfold line at 1. rewrite app_assoc'.
  change (newline ++ ?s) with (String (ascii_of_nat 10) s).
  rewrite pieces_free.
  - cbn [map all_some append]. rewrite parse_row. cbn [all_some]. now rewrite IH.
  - induction row as [|x row IHr]; cbn [map joined]; [exact I|].
    apply free_app; [|exact IHr]. apply free_app; [apply show_free; now right|].
    cbn. split; [discriminate|exact I].
Qed.
Print Assumptions c47_parse.

(** two shapes and matrices with the same text are the same *)
Theorem c47_injective t n m n' m' A B text : shape n m A -> shape n' m' B ->
  print (intS t) show_int n m A = Ok text -> print (intS t) show_int n' m' B = Ok text -> A = B.
Proof.
  intros HA HB EA EB. destruct (c47_parse t n m A HA) as [x [E1 P1]].
  destruct (c47_parse t n' m' B HB) as [y [E2 P2]]. congruence.
Qed.
Print Assumptions c47_injective.

(** ** Character types: one character per element *)

Lemma joined_char_inj (a b : list Z) s s' : List.length a = List.length b ->
  Forall (fun z => 0 <= z < 256)%Z a -> Forall (fun z => 0 <= z < 256)%Z b ->
  joined (map (fun x => show_char x ++ " ") a) ++ s = joined (map (fun x => show_char x ++ " ") b) ++ s' ->
  a = b /\ s = s'.
Proof.
  revert b. induction a as [|x a IH]; intros [|y b] L Fa Fb E; try discriminate; [now split|].
  inversion_clear Fa. inversion_clear Fb. cbn in E. injection E as E1 E2.
  destruct (IH b ltac:(cbn in L; lia) ltac:(assumption) ltac:(assumption) E2) as [-> ->].
  split; [|reflexivity]. f_equal.
  apply (f_equal N_of_ascii) in E1. rewrite !N_ascii_embedding in E1; try lia.
  - rewrite !Z.mod_small in E1 by lia. lia.
  - pose proof (Z.mod_pos_bound y 256). lia.
  - pose proof (Z.mod_pos_bound x 256). lia.
Qed.

(** unsigned char: for a given shape the text determines the matrix *)
Theorem c47_char n m A B text : shape n m A -> shape n m B ->
  all_elts (fun z => 0 <= z < 256)%Z A -> all_elts (fun z => 0 <= z < 256)%Z B ->
  print (intS uint8) show_char n m A = Ok text -> print (intS uint8) show_char n m B = Ok text -> A = B.
Proof.
  intros HA HB RA RB. rewrite !c47_text by assumption. intros [= <-] [= E].
  change (list (list (elt (intS uint8)))) with (list (list Z)) in *.
  destruct HA as [LA WA], HB as [LB WB]. revert n B LA LB WB RB E.
  induction A as [|r A IH]; intros n [|q B] LA LB WB RB E; try (cbn in *; lia); [reflexivity|].
  cbn [map joined] in E. unfold line at 1 3 in E. rewrite !app_assoc' in E.
  apply joined_char_inj in E.
  - destruct E as [-> E]. cbn in E. injection E as E. f_equal.
    apply (IH ltac:(intros; apply WA; now right) ltac:(intros ? ? ?; apply RA; now right) (pred n) B);
      cbn in *; try lia; try assumption.
    + intros; apply WB; now right.
    + intros ? ? ?; apply RB; now right.
  - rewrite (WA r), (WB q); [reflexivity|now left..].
  - apply Forall_forall. intros z Hz. apply (RB q); [now left|exact Hz].
  - apply Forall_forall. intros z Hz. apply (RA r); [now left|exact Hz].
Qed.
Print Assumptions c47_char.

Example c47_ex : shape 2 2 [[1; -2]; [30; 4]]%Z /\
  print (intS int32) show_int 2 2 [[1; -2]; [30; 4]]%Z =
    Ok ("1 -2 " ++ newline ++ "30 4 " ++ newline).
Proof. split; [|reflexivity]. split; [reflexivity|]. intros r [<-|[<-|[]]]; reflexivity. Qed.
