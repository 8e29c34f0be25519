(** * Threads

    Several threads of one process call the library on matrices they share.
    A thread is a program that reads and writes single elements of named
    matrices and writes pieces of text to [std::cout]; everything else it does
    (arithmetic, its local matrices) is its own.  Threads are interleaved one
    element access at a time.

    C++ gives a meaning only to programs without data races, and to those the
    meaning of such interleavings ([intro.races] of the standard).  So the
    theorems about this file (PropConc.v) say both that there is no race and
    what every interleaving computes.

    /repo/matrix has no mutable static or global object, so the elements of the
    arguments and [std::cout] (matrix_print.hpp:39-45) are all that threads can
    share. *)

From Coq Require Import List ZArith Lia Bool Arith String.
Import ListNotations.
From Verif Require Import Base Scalar Spec Loops.

Section Threads.
Context {T : Type}.

(** variable, row, column *)
Definition loc : Type := (nat * nat * nat)%type.
Definition loc_eqb (c d : loc) : bool :=
  let '(v, i, j) := c in let '(w, k, l) := d in (v =? w) && (i =? k) && (j =? l).

(** The elements of all shared matrices; [None] past the end of an array. *)
Definition mem : Type := loc -> option T.
Definition put (M : mem) (c : loc) (x : T) : mem := fun d => if loc_eqb c d then Some x else M d.

(** A thread, or what remains of it. *)
Inductive prog (A : Type) : Type :=
| Done (o : outcome A)                       (* finished, or ended abnormally *)
| Read (c : loc) (k : T -> prog A)           (* x = A[i][j] *)
| Write (c : loc) (x : T) (k : prog A)       (* A[i][j] = x *)
| Say (s : string) (k : prog A).             (* std::cout << s *)
Arguments Done {A} _.
Arguments Read {A} _ _.
Arguments Write {A} _ _ _.
Arguments Say {A} _ _.

(** ** One thread on its own: final memory, what it wrote to the stream, result *)
Fixpoint alone {A} (p : prog A) (M : mem) : mem * list string * outcome A :=
  match p with
  | Done o => (M, [], o)
  | Read c k =>
      match M c with
      | Some x => alone (k x) M
      | None => (M, [], UB OutOfBounds)
      end
  | Write c x k =>
      match M c with
      | Some _ => alone k (put M c x)
      | None => (M, [], UB OutOfBounds)
      end
  | Say s k => let '(M', out, r) := alone k M in (M', s :: out, r)
  end.

(** the number of its steps *)
Fixpoint steps {A} (p : prog A) (M : mem) : nat :=
  match p with
  | Done o => 0
  | Read c k => match M c with Some x => Datatypes.S (steps (k x) M) | None => 1 end
  | Write c x k => match M c with Some _ => Datatypes.S (steps k (put M c x)) | None => 1 end
  | Say s k => Datatypes.S (steps k M)
  end.

(** ** Interleaving *)

(** The next step of a thread: new memory, text written, remaining program. *)
Definition adv {A} (M : mem) (p : prog A) : option (mem * list string * prog A) :=
  match p with
  | Done _ => None
  | Read c k => Some (M, [], match M c with Some x => k x | None => Done (UB OutOfBounds) end)
  | Write c x k =>
      match M c with
      | Some _ => Some (put M c x, [], k)
      | None => Some (M, [], Done (UB OutOfBounds))
      end
  | Say s k => Some (M, [s], k)
  end.

(** Memory, the threads, and the text written so far, each piece with the
    number of the thread that wrote it. *)
Record config (A : Type) : Type :=
  Config { cmem : mem; threads : list (prog A); written : list (nat * string) }.
Arguments Config {A} _ _ _.
Arguments cmem {A} _.
Arguments threads {A} _.
Arguments written {A} _.

Definition start {A} (M : mem) (ps : list (prog A)) : config A := Config M ps [].

(** Thread i takes a step. *)
Inductive step {A} (i : nat) : config A -> config A -> Prop :=
| Step M ps out p M' o p' : nth_error ps i = Some p -> adv M p = Some (M', o, p') ->
    step i (Config M ps out) (Config M' (upd ps i p') (out ++ map (fun s => (i, s)) o)).

(** A schedule: the threads in the order in which they take steps. *)
Inductive run {A} : list nat -> config A -> config A -> Prop :=
| RunNil C : run [] C C
| RunCons i sched C C' C'' : step i C C' -> run sched C' C'' -> run (i :: sched) C C''.

(** Two threads are about to access the same element and one of them writes it. *)
Definition access {A} (p : prog A) : option (bool * loc) :=
  match p with
  | Read c _ => Some (false, c)
  | Write c _ _ => Some (true, c)
  | _ => None
  end.

Definition race {A} (ps : list (prog A)) : Prop :=
  exists i j p q w w' c, i <> j /\ nth_error ps i = Some p /\ nth_error ps j = Some q /\
    access p = Some (w, c) /\ access q = Some (w', c) /\ (w || w') = true.

Definition finished {A} (ps : list (prog A)) : Prop :=
  forall p, In p ps -> exists o, p = Done o.

(** ** Which elements a program may touch *)
Fixpoint within {A} (R W : loc -> Prop) (p : prog A) : Prop :=
  match p with
  | Done _ => True
  | Read c k => R c /\ forall x, within R W (k x)
  | Write c _ k => W c /\ within R W k
  | Say _ k => within R W k
  end.

(** ** Threads that do not interfere *)

Lemma loc_eqb_eq c d : loc_eqb c d = true <-> c = d.
Proof.
  destruct c as [[v i] j], d as [[w k] l]. simpl. rewrite !andb_true_iff, !Nat.eqb_eq. split.
  - intros [[-> ->] ->]. reflexivity.
  - intros E. injection E as -> -> ->. auto.
Qed.

Lemma put_same M c x : put M c x c = Some x.
Proof. unfold put. rewrite (proj2 (loc_eqb_eq c c) eq_refl). reflexivity. Qed.

Lemma put_other M c d x : c <> d -> put M c x d = M d.
Proof.
  intros N. unfold put. destruct (loc_eqb c d) eqn:E; [|reflexivity].
  apply loc_eqb_eq in E. contradiction.
Qed.

Definition memory {A} (r : mem * list string * outcome A) : mem := fst (fst r).
Definition text {A} (r : mem * list string * outcome A) : list string := snd (fst r).
Definition value {A} (r : mem * list string * outcome A) : outcome A := snd r.

(** what a program does depends only on the elements it may touch *)
Lemma alone_frame {A} (R W : loc -> Prop) (p : prog A) : forall M M',
  within R W p -> (forall c, R c \/ W c -> M c = M' c) ->
  text (alone p M) = text (alone p M') /\ value (alone p M) = value (alone p M') /\
  steps p M = steps p M' /\
  (forall c, R c \/ W c -> memory (alone p M) c = memory (alone p M') c).
Proof.
  induction p as [o|c k IH|c x k IH|s k IH]; intros M M' Hp E; simpl in *.
  - auto.
  - destruct Hp as [Hc Hk]. rewrite <- (E c (or_introl Hc)). destruct (M c) as [x|].
    + destruct (IH x M M' (Hk x) E) as (? & ? & ? & ?). auto.
    + auto.
  - destruct Hp as [Hc Hk]. rewrite <- (E c (or_intror Hc)). destruct (M c) as [y|]; [|auto].
    destruct (IH (put M c x) (put M' c x) Hk) as (? & ? & ? & ?); [|auto].
    intros d Hd. unfold put. destruct (loc_eqb c d); auto.
  - destruct (IH M M' Hp E) as (H1 & H2 & H3 & H4). unfold text, value, memory in *.
    destruct (alone k M) as [[N o] r], (alone k M') as [[N' o'] r']. simpl in *.
    subst. repeat split; auto.
Qed.

(** elements it may not write keep their values *)
Lemma alone_keeps {A} (R W : loc -> Prop) (p : prog A) : forall M c,
  within R W p -> ~ W c -> memory (alone p M) c = M c.
Proof.
  induction p as [o|d k IH|d x k IH|s k IH]; intros M c Hp N; simpl in *.
  - reflexivity.
  - destruct Hp as [_ Hk]. destruct (M d); [apply IH; auto|reflexivity].
  - destruct Hp as [Hd Hk]. destruct (M d); [|reflexivity]. rewrite IH by assumption.
    apply put_other. intros <-. contradiction.
  - specialize (IH M c Hp N). unfold memory in *. destruct (alone k M) as [[? ?] ?]. exact IH.
Qed.

Lemma adv_alone {A} (M M' : mem) (p p' : prog A) o : adv M p = Some (M', o, p') ->
  memory (alone p M) = memory (alone p' M') /\ text (alone p M) = (o ++ text (alone p' M'))%list /\
  value (alone p M) = value (alone p' M') /\ steps p M = Datatypes.S (steps p' M').
Proof.
  destruct p as [r|c k|c x k|s k]; simpl; intros E.
  - discriminate E.
  - injection E as <- <- <-. destruct (M c); auto.
  - destruct (M c); injection E as <- <- <-; auto.
  - injection E as <- <- <-. unfold memory, text, value.
    destruct (alone k M) as [[? ?] ?]. simpl. auto.
Qed.

Lemma adv_within {A} (R W : loc -> Prop) (M M' : mem) (p p' : prog A) o :
  adv M p = Some (M', o, p') -> within R W p -> within R W p'.
Proof.
  destruct p as [r|c k|c x k|s k]; simpl; intros E.
  - discriminate E.
  - injection E as <- <- <-. intros [_ H]. destruct (M c); [apply H|exact Logic.I].
  - intros [_ H]. destruct (M c); injection E as <- <- <-; [exact H|exact Logic.I].
  - injection E as <- <- <-. auto.
Qed.

Lemma adv_mem {A} (R W : loc -> Prop) (M M' : mem) (p p' : prog A) o :
  adv M p = Some (M', o, p') -> within R W p -> forall c, ~ W c -> M' c = M c.
Proof.
  destruct p as [r|c k|c x k|s k]; simpl; intros E.
  - discriminate E.
  - injection E as <- <- <-. auto.
  - intros [H _] d N. destruct (M c); injection E as <- <- <-; [|auto].
    apply put_other. intros <-. contradiction.
  - injection E as <- <- <-. auto.
Qed.

Lemma nth_error_upd {B} (l : list B) i x y : nth_error l i = Some y -> nth_error (upd l i x) i = Some x.
Proof.
  revert i. induction l as [|z l IH]; intros [|i] H; simpl in *; try discriminate H; auto.
Qed.

Lemma nth_error_upd_ne {B} (l : list B) i j x : i <> j -> nth_error (upd l i x) j = nth_error l j.
Proof.
  revert i j. induction l as [|z l IH]; intros [|i] [|j] N; simpl; auto. congruence.
Qed.

(** the pieces of text thread i wrote *)
Definition by_thread (i : nat) (out : list (nat * string)) : list string :=
  map snd (filter (fun p => fst p =? i) out).

Lemma by_thread_app i out out' : by_thread i (out ++ out') = (by_thread i out ++ by_thread i out')%list.
Proof. unfold by_thread. rewrite filter_app, map_app. reflexivity. Qed.

Lemma by_thread_own i (o : list string) : by_thread i (map (fun s => (i, s)) o) = o.
Proof.
  induction o as [|s o IH]; [reflexivity|]. unfold by_thread in *. simpl. rewrite Nat.eqb_refl. simpl.
  f_equal. exact IH.
Qed.

Lemma by_thread_other i j (o : list string) : i <> j -> by_thread j (map (fun s => (i, s)) o) = [].
Proof.
  intros N. induction o as [|s o IH]; [reflexivity|]. unfold by_thread in *. simpl.
  rewrite (proj2 (Nat.eqb_neq i j) N). exact IH.
Qed.

Section Independent.
Context {A : Type} (M0 : mem) (ps0 : list (prog A)) (R W : nat -> loc -> Prop).
Hypothesis Hwithin : forall i p, nth_error ps0 i = Some p -> within (R i) (W i) p.
Hypothesis Hsep : forall i j p q c, i <> j -> nth_error ps0 i = Some p -> nth_error ps0 j = Some q ->
  W i c -> ~ R j c /\ ~ W j c.

(** at every moment, what is left of each thread would alone, from the present
    memory, do the rest of what the thread does alone from the beginning *)
Definition on_track (sched : list nat) (C : config A) : Prop :=
  List.length (threads C) = List.length ps0 /\
  (forall i p0 p, nth_error ps0 i = Some p0 -> nth_error (threads C) i = Some p ->
     within (R i) (W i) p /\
     text (alone p0 M0) = (by_thread i (written C) ++ text (alone p (cmem C)))%list /\
     value (alone p0 M0) = value (alone p (cmem C)) /\
     steps p0 M0 = count_occ Nat.eq_dec sched i + steps p (cmem C) /\
     (forall c, R i c \/ W i c -> memory (alone p0 M0) c = memory (alone p (cmem C)) c)) /\
  (forall c, (forall i p0, nth_error ps0 i = Some p0 -> ~ W i c) -> cmem C c = M0 c).

Lemma on_track_start : on_track [] (start M0 ps0).
Proof.
  split; [reflexivity|]. split; [|reflexivity]. simpl. intros i p0 p E E'. rewrite E in E'.
  injection E' as <-. split; [exact (Hwithin _ _ E)|]. auto.
Qed.

Lemma upd_length {B} (l : list B) i x : List.length (upd l i x) = List.length l.
Proof. revert i. induction l as [|y l IH]; intros [|i]; simpl; auto. Qed.

Lemma nth_error_same_length {B D} (l : list B) (l' : list D) i x :
  List.length l = List.length l' -> nth_error l i = Some x -> exists y, nth_error l' i = Some y.
Proof.
  intros L E. destruct (nth_error l' i) as [y|] eqn:F; [eauto|]. exfalso.
  apply nth_error_None in F. assert (nth_error l i <> None) by congruence.
  apply nth_error_Some in H. lia.
Qed.

Lemma on_track_step sched i C C' : on_track sched C -> step i C C' -> on_track (sched ++ [i]) C'.
Proof.
  intros (L & T0 & K) St. destruct St as [M ps out p M' o p' Ep Ea]. simpl in *.
  destruct (nth_error_same_length _ ps0 _ _ L Ep) as [p0 Ep0].
  destruct (T0 i p0 p Ep0 Ep) as (Win & _).
  pose proof (adv_mem _ _ _ _ _ _ _ Ea Win) as Hm.
  split; [simpl; rewrite upd_length; exact L|]. split.
  - intros j q0 q Eq0 Eq. simpl in *.
    destruct (Nat.eq_dec i j) as [<-|N].
    + rewrite (nth_error_upd _ _ _ _ Ep) in Eq. injection Eq as <-.
      rewrite Ep0 in Eq0. injection Eq0 as <-.
      destruct (T0 i p0 p Ep0 Ep) as (_ & Ht & Hv & Hs & Hc).
      destruct (adv_alone _ _ _ _ _ Ea) as (Am & At & Av & As).
      split; [exact (adv_within _ _ _ _ _ _ _ Ea Win)|].
      split; [rewrite Ht, At, by_thread_app, by_thread_own, app_assoc; reflexivity|].
      split; [rewrite Hv; exact Av|].
      split; [rewrite Hs, As, count_occ_app; simpl; destruct (Nat.eq_dec i i); [lia|congruence]|].
      intros c Hc'. rewrite (Hc c Hc'), Am. reflexivity.
    + rewrite nth_error_upd_ne in Eq by assumption.
      destruct (T0 j q0 q Eq0 Eq) as (Wq & Ht & Hv & Hs & Hc).
      destruct (alone_frame _ _ q M M' Wq) as (Ft & Fv & Fs & Fc).
      { intros c Hc'. symmetry. apply Hm. intros HW.
        destruct (Hsep _ _ _ _ _ N Ep0 Eq0 HW). tauto. }
      split; [exact Wq|].
      split; [rewrite Ht, by_thread_app, (by_thread_other _ _ _ N), app_nil_r, Ft; reflexivity|].
      split; [rewrite Hv; exact Fv|].
      split; [rewrite Hs, Fs, count_occ_app; simpl; destruct (Nat.eq_dec i j); [congruence|lia]|].
      intros c Hc'. rewrite (Hc c Hc'). apply Fc, Hc'.
  - intros c Hc. simpl. rewrite Hm; [apply K, Hc|]. exact (Hc _ _ Ep0).
Qed.

Lemma on_track_run sched C C' : run sched C C' -> forall pre, on_track pre C -> on_track (pre ++ sched) C'.
Proof.
  induction 1 as [C|i sched C C' C'' St _ IH]; intros pre H.
  - rewrite app_nil_r. exact H.
  - replace (pre ++ i :: sched)%list with ((pre ++ [i]) ++ sched)%list by (rewrite <- app_assoc; reflexivity).
    apply IH. exact (on_track_step _ _ _ _ H St).
Qed.

Lemma access_within (i : nat) (p : prog A) w c : within (R i) (W i) p -> access p = Some (w, c) ->
  if w then W i c else R i c.
Proof.
  destruct p; simpl; intros H E; try discriminate E; injection E as <- <-; tauto.
Qed.

Lemma independent_no_race sched C : run sched (start M0 ps0) C -> ~ race (threads C).
Proof.
  intros H. destruct (on_track_run _ _ _ H [] on_track_start) as (L & T0 & _).
  intros (i & j & p & q & w & w' & c & N & Ep & Eq & Ap & Aq & Hw).
  destruct (nth_error_same_length _ ps0 _ _ L Ep) as [p0 Ep0].
  destruct (nth_error_same_length _ ps0 _ _ L Eq) as [q0 Eq0].
  pose proof (access_within _ _ _ _ (proj1 (T0 _ _ _ Ep0 Ep)) Ap) as Hp.
  pose proof (access_within _ _ _ _ (proj1 (T0 _ _ _ Eq0 Eq)) Aq) as Hq.
  destruct w, w'; simpl in Hw; try discriminate Hw.
  - destruct (Hsep _ _ _ _ _ N Ep0 Eq0 Hp). tauto.
  - destruct (Hsep _ _ _ _ _ N Ep0 Eq0 Hp). tauto.
  - destruct (Hsep _ _ _ _ _ (not_eq_sym N) Eq0 Ep0 Hq). tauto.
Qed.

(** no thread takes more steps than it does alone *)
Lemma independent_steps sched C i p0 : run sched (start M0 ps0) C -> nth_error ps0 i = Some p0 ->
  count_occ Nat.eq_dec sched i <= steps p0 M0.
Proof.
  intros H E. destruct (on_track_run _ _ _ H [] on_track_start) as (L & T0 & _). simpl in T0.
  destruct (nth_error_same_length ps0 (threads C) _ _ (eq_sym L) E) as [p Ep].
  destruct (T0 _ _ _ E Ep) as (_ & _ & _ & -> & _). lia.
Qed.

Lemma independent_result sched C : run sched (start M0 ps0) C -> finished (threads C) ->
  (forall i p0, nth_error ps0 i = Some p0 ->
     nth_error (threads C) i = Some (Done (value (alone p0 M0))) /\
     by_thread i (written C) = text (alone p0 M0) /\
     (forall c, W i c -> cmem C c = memory (alone p0 M0) c)) /\
  (forall c, (forall i p0, nth_error ps0 i = Some p0 -> ~ W i c) -> cmem C c = M0 c).
Proof.
  intros H F. destruct (on_track_run _ _ _ H [] on_track_start) as (L & T0 & K). split; [|exact K].
  intros i p0 E.
  destruct (nth_error_same_length ps0 (threads C) _ _ (eq_sym L) E) as [p Ep].
  destruct (F p (nth_error_In _ _ Ep)) as [o ->].
  destruct (T0 _ _ _ E Ep) as (_ & Ht & Hv & _ & Hc). simpl in Ht, Hv, Hc.
  rewrite app_nil_r in Ht. rewrite Ht, Hv. split; [exact Ep|]. split; [reflexivity|].
  intros c Hw. rewrite (Hc c (or_intror Hw)). reflexivity.
Qed.

End Independent.

(** a thread that is not finished can always go on *)
Lemma adv_some {A} M (p : prog A) : (exists o, p = Done o) \/ exists M' o p', adv M p = Some (M', o, p').
Proof.
  destruct p as [r|c k|c x k|s k]; simpl; [left; eauto|right..]; eauto.
  destruct (M c); eauto.
Qed.

End Threads.

Arguments prog T A : clear implicits.
Arguments mem T : clear implicits.
Arguments config T A : clear implicits.
Arguments Done {T A} _.
Arguments Read {T A} _ _.
Arguments Write {T A} _ _ _.
Arguments Say {T A} _ _.
Arguments Config {T A} _ _ _.
Arguments cmem {T A} _ _.
Arguments threads {T A} _.
Arguments written {T A} _.
