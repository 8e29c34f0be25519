(** * C88: threads

    Any number of threads, each performing any sequence of calls on shared
    matrices, under every schedule.  Conc.v defines threads and schedules,
    ConcApi.v the calls as threads. *)

From Coq Require Import List ZArith Lia Bool Arith String.
Import ListNotations.
From Verif Require Import Base Scalar CInt Spec Model Loops Struct PropPrint Conc ConcApi.
Local Open Scope list_scope.
Local Open Scope nat_scope.

Section Calls.
Context (S : scalar).
Notation T := (elt S).
Notation Mat := (matrix (elt S)).
Variable Γ : nat -> nat * nat.
Notation rows v := (fst (Γ v)).
Notation cols v := (snd (Γ v)).
Variable sort : list T -> list T.
Variable show : T -> string.
Notation call := (call S).
Notation store := (store S).
Notation code := (code S Γ sort show).
Notation codes := (codes S Γ sort show).
Notation returned := (returned S Γ sort show).
Notation performs := (performs S Γ sort show).
Notation after := (after S Γ).
Notation printed := (printed S Γ show).
Notation well_typed := (well_typed S Γ).
Notation in_memory := (in_memory S).
Notation mentions := (mentions S).
Notation changes := (changes S).

(** ** One call, one thread *)

Lemma computes_value {A} M (p : prog T A) o : computes M p o ->
  value (alone p M) = o /\ text (alone p M) = [] /\ memory (alone p M) = M.
Proof. unfold computes. intros ->. auto. Qed.

Lemma reader M σ (c : call) : well_typed σ -> in_memory M σ ->
  match c with Print _ _ | SwapRows _ _ _ _ | SwapCols _ _ _ _ => True | _ => computes M (code c) (returned σ c) end.
Proof.
  intros W H.
  assert (C1 : forall v f, computes M (on1 S Γ v f) (f (σ v))).
  { intros v f. change (f (σ v)) with (let* A := Ok (σ v) in f A). apply computes_bind; [|intros; apply computes_done].
    apply run_copy; [apply H|apply W]. }
  assert (C2 : forall v w f, computes M (on2 S Γ v w (fun A B => f (set S (fun _ => B) v A)))
                               (f (set S (fun _ => σ w) v (σ v)))).
  { intros v w f. change (f (set S (fun _ => σ w) v (σ v))) with
      (let* A := Ok (σ v) in let* B := Ok (σ w) in f (set S (fun _ => B) v A)).
    apply computes_bind; [apply run_copy; [apply H|apply W]|]. intros A.
    apply computes_bind; [apply run_copy; [apply H|apply W]|]. intros B. apply computes_done. }
  assert (E : forall v w, set S (fun _ => σ w) v (σ v) v = σ v /\ set S (fun _ => σ w) v (σ v) w = σ w).
  { intros v w. unfold set. rewrite Nat.eqb_refl. split; [reflexivity|].
    destruct (Nat.eqb_spec v w) as [->|]; reflexivity. }
  destruct c; try exact Logic.I; simpl; try exact (C1 _ _);
    try (apply computes_bind; [|intros; apply computes_done]).
  - apply run_sum; apply H.
  - apply run_sum_scalar; apply H.
  - apply run_sub; apply H.
  - apply run_sub_scalar; apply H.
  - apply run_mult; apply H.
  - apply run_mult_scalar; apply H.
  - apply run_div; apply H.
  - specialize (C2 v w (fun s => returned s (Strassen S v w))). simpl in C2.
    destruct (E v w) as [E1 E2]. rewrite E1, E2 in C2. exact C2.
  - apply run_trans; apply H.
  - specialize (C2 v w (fun s => returned s (Below S v w))). simpl in C2.
    destruct (E v w) as [E1 E2]. rewrite E1, E2 in C2. exact C2.
  - specialize (C2 v w (fun s => returned s (Beside S v w))). simpl in C2.
    destruct (E v w) as [E1 E2]. rewrite E1, E2 in C2. exact C2.
  - apply run_chol; apply H.
  - apply run_isSymetric; apply H.
  - apply run_compare; apply H.
  - apply run_mean; apply H.
  - apply run_var; apply H.
  - apply run_stddev; apply H.
  - specialize (C2 v k (fun s => returned s (Conv2 S v k))). simpl in C2.
    destruct (E v k) as [E1 E2]. rewrite E1, E2 in C2. exact C2.
  - specialize (C2 v k (fun s => returned s (Conv2Full S v k))). simpl in C2.
    destruct (E v k) as [E1 E2]. rewrite E1, E2 in C2. exact C2.
  - specialize (C2 v k (fun s => returned s (Conv2Valid S v k))). simpl in C2.
    destruct (E v k) as [E1 E2]. rewrite E1, E2 in C2. exact C2.
Qed.

Lemma exchange_shape n m (A B : Mat) i1 j1 i2 j2 : shape n m A -> exchange S i1 j1 i2 j2 A = Ok B -> shape n m B.
Proof.
  intros H E. unfold exchange in E. apply bind_inv in E. destruct E as (x & _ & E).
  apply bind_inv in E. destruct E as (y & _ & E). apply bind_inv in E. destruct E as (C & E1 & E).
  exact (aset_shape _ _ _ _ _ _ _ (aset_shape _ _ _ _ _ _ _ H E1) E).
Qed.

Lemma swap_rows_shape n m (A B : Mat) r1 r2 : shape n m A -> swap_rows S n m A r1 r2 = Ok B -> shape n m B.
Proof.
  intros H. unfold swap_rows. destruct (r1 =? r2); [intros E; injection E as <-; exact H|].
  apply (for_partial (fun _ A => shape n m A)); [lia|exact H|].
  intros k s s' _ Hs E. exact (exchange_shape _ _ _ _ _ _ _ _ Hs E).
Qed.

Lemma swap_cols_shape n m (A B : Mat) r1 r2 : shape n m A -> swap_cols S n m A r1 r2 = Ok B -> shape n m B.
Proof.
  intros H. destruct (Nat.eq_dec r1 r2) as [->|N].
  - rewrite swap_cols_same. intros E; injection E as <-; exact H.
  - rewrite <- swap_cols_loop by assumption.
    apply (for_partial (fun _ A => shape n m A)); [lia|exact H|].
    intros k s s' _ Hs E. exact (exchange_shape _ _ _ _ _ _ _ _ Hs E).
Qed.

Lemma well_typed_after σ c : well_typed σ -> well_typed (after σ c).
Proof.
  intros W. destruct c; simpl; try exact W.
  - destruct (swap_rows S (rows v) (cols v) (σ v) r1 r2) eqn:E; try exact W.
    intros u. unfold set. destruct (Nat.eqb_spec v u) as [<-|]; [|apply W].
    exact (swap_rows_shape _ _ _ _ _ _ (W v) E).
  - destruct (swap_cols S (rows v) (cols v) (σ v) c1 c2) eqn:E; try exact W.
    intros u. unfold set. destruct (Nat.eqb_spec v u) as [<-|]; [|apply W].
    exact (swap_cols_shape _ _ _ _ _ _ (W v) E).
Qed.

(** A thread touches only the variables it mentions and writes only those it swaps. *)
Lemma within_code c :
  within (fun l => mentions c (fst (fst l))) (fun l => changes c (fst (fst l))) (code c).
Proof.
  assert (RD : forall W (R : loc -> Prop) v i j, R (v, i, j) -> within R W (rd (T := T) v i j)).
  { intros. split; [assumption|]. intros; exact Logic.I. }
  assert (CP : forall W (R : loc -> Prop) v n m, (forall i j, R (v, i, j)) -> within R W (copy_p S n m v)).
  { intros W R v n m H. unfold copy_p. apply within_map. intros i _. apply within_map. intros j _. apply RD, H. }
  assert (RS : forall v r1 r2 k, within (fun l => fst (fst l) = v) (fun l => fst (fst l) = v) (swap_rows_p S k v r1 r2)).
  { intros. eapply within_weaken; [| |apply within_swap_rows]; intros l [E _]; exact E. }
  assert (CS : forall v r1 r2 k, within (fun l => fst (fst l) = v) (fun l => fst (fst l) = v) (swap_cols_p S k v r1 r2)).
  { intros. eapply within_weaken; [| |apply within_swap_cols]; intros l [E _]; exact E. }
  destruct c; simpl;
    unfold sum_p, sum_scalar_p, sub_p, sub_scalar_p, mult_p, mult_scalar_p, div_p, trans_p, isSymetric_p, chol_p,
      compare_p, stddev_p, var_p, mean_p, print_p, on1, on2, say;
    repeat first
    [ exact Logic.I
    | apply RD; simpl; tauto
    | apply CP; intros; simpl; tauto
    | apply RS
    | apply CS
    | match goal with
      | |- within _ _ (match ?x with _ => _ end) => destruct x
      | |- within _ _ (Say _ _) => simpl
      end
    | apply within_bind; [|intros]
    | apply within_for; intros
    | apply within_for_ret; intros ].
Qed.

Lemma within_codes cs :
  within (fun l => exists c, In c cs /\ mentions c (fst (fst l)))
         (fun l => exists c, In c cs /\ changes c (fst (fst l))) (codes cs).
Proof.
  induction cs as [|c cs IH]; simpl; [exact Logic.I|]. apply within_bind.
  - eapply within_weaken; [| |apply within_code]; simpl; eauto.
  - intros a. apply within_bind; [|intros; exact Logic.I].
    eapply within_weaken; [| |exact IH]; simpl; intros l (d & Hd & Hl); eauto.
Qed.

Lemma code_ok M σ c : well_typed σ -> in_memory M σ ->
  value (alone (code c) M) = returned σ c /\
  (returns (returned σ c) ->
     joined (text (alone (code c) M)) = printed σ c /\ in_memory (memory (alone (code c) M)) (after σ c)).
Proof.
  intros W H. pose proof (reader M σ c W H) as R.
  assert (SW : forall v (p : prog T unit) (f : Mat -> outcome Mat) o,
    acts S v p (fun A => let* A' := f A in Ok (tt, A')) ->
    within (fun l => fst (fst l) = v) (fun l => fst (fst l) = v) p ->
    f (σ v) = o ->
    value (alone (let+ _ := p in Done (Ok (ANone S))) M) = (let* _ := o in Ok (ANone S)) /\
    (returns (let* _ := o in Ok (ANone S)) ->
       joined (text (alone (let+ _ := p in Done (Ok (ANone S))) M)) = EmptyString /\
       in_memory (memory (alone (let+ _ := p in Done (Ok (ANone S))) M))
         (match o with Ok A => set S σ v A | _ => σ end))).
  { intros v p f o Ac Wp Eo. destruct (Ac M (σ v) (H v)) as (Tp & Vp & Mp). rewrite Eo in Vp, Mp.
    rewrite alone_bind, Tp, Vp. destruct o as [A'| | | |]; simpl;
      try (split; [reflexivity|]; intros [a Q]; discriminate Q).
    split; [reflexivity|]. intros _. split; [reflexivity|].
    intros u. unfold set. unfold memory at 1. simpl. destruct (Nat.eqb_spec v u) as [<-|N].
    - exact (Mp tt A' eq_refl).
    - intros i j. unfold memory at 1. simpl. rewrite (alone_keeps _ _ _ M (u, i, j) Wp); [apply H|].
      simpl. congruence. }
  destruct c;
    try (apply computes_value in R; destruct R as (Rv & Rt & Rm); split; [exact Rv|]; intros _; rewrite Rt, Rm; split; [reflexivity|exact H]).
  - clear R SW. simpl.
    destruct (run_print S show M v (σ v) (rows v) (cols v) (H v)) as [Pm Pf].
    specialize (Pf EmptyString). change (print S show (rows v) (cols v) (σ v)) with
      (for_ 0 (rows v) (fun i out =>
        let* out := for_ 0 (cols v) (fun j out =>
          let* tmp := aget (σ v) i j in
          Ok (out ++ show tmp ++ " ")%string) out in
        Ok (out ++ newline)%string) EmptyString).
    rewrite Pf, alone_bind, Pm.
    destruct (value (alone (print_p S show (rows v) (cols v) v) M)) as [a| | | |]; simpl;
      try (split; [reflexivity|]; intros [a' Q]; discriminate Q).
    split; [reflexivity|]. intros _. unfold text at 1. simpl. rewrite app_nil_r.
    split; [reflexivity|]. exact H.
  - clear R. exact (SW v (swap_rows_p S (cols v) v r1 r2) (fun A => swap_rows S (rows v) (cols v) A r1 r2) _
      (run_swap_rows S v (rows v) (cols v) r1 r2)
      ltac:(eapply within_weaken; [| |apply within_swap_rows]; intros l [E _]; exact E) eq_refl).
  - clear R. destruct (Nat.eq_dec c1 c2) as [->|N].
    + simpl. unfold swap_cols_p. rewrite Nat.eqb_refl, swap_cols_same. simpl. split; [reflexivity|].
      intros _. split; [reflexivity|]. intros u. unfold set.
      destruct (Nat.eqb_spec v u) as [<-|]; apply H.
    + apply (SW v (swap_cols_p S (rows v) v c1 c2) (fun A => for_ 0 (rows v) (fun i A => exchange S i c1 i c2 A) A) _
        (run_swap_cols S v (rows v) c1 c2 N)
        ltac:(eapply within_weaken; [| |apply within_swap_cols]; intros l [E _]; exact E)).
      apply swap_cols_loop; [apply W|exact N].
Qed.

Lemma codes_ok cs : forall M σ, well_typed σ -> in_memory M σ ->
  value (alone (codes cs) M) = (let* r := performs σ cs in Ok (fst (fst r))) /\
  forall l σ' s, performs σ cs = Ok (l, σ', s) ->
    joined (text (alone (codes cs) M)) = s /\ in_memory (memory (alone (codes cs) M)) σ'.
Proof.
  induction cs as [|c cs IH]; intros M σ W H; simpl.
  - split; [reflexivity|]. intros l σ' s E. injection E as _ <- <-. split; [reflexivity|exact H].
  - destruct (code_ok M σ c W H) as [Vc Rc].
    rewrite alone_bind, Vc. destruct (returned σ c) as [a| | | |] eqn:Er; simpl;
      try (split; [reflexivity|]; intros; discriminate).
    destruct (Rc (ex_intro _ a eq_refl)) as [Tc Mc].
    destruct (IH _ (after σ c) (well_typed_after _ _ W) Mc) as [Vi Ri].
    unfold value at 1, text at 1, memory at 3. simpl.
    rewrite alone_bind, Vi.
    destruct (performs (after σ c) cs) as [[[l σ'] s]| | | |] eqn:Ep; simpl;
      try (split; [reflexivity|]; intros; discriminate).
    split; [reflexivity|]. intros l2 σ2 s2 E. injection E as _ <- <-.
    destruct (Ri l σ' s eq_refl) as [Ti Mi]. unfold text at 2, memory at 1. simpl.
    rewrite app_nil_r, joined_app, Tc, Ti. split; [reflexivity|exact Mi].
Qed.

(** ** Threads that share nothing they change *)

(** The shared matrices in memory. *)
Definition mem_of (σ : store) : mem T := fun l => let '(v, i, j) := l in load (σ v) i j.

Lemma in_mem_of σ : in_memory (mem_of σ) σ.
Proof. intros v i j. reflexivity. Qed.

Definition uses (cs : list call) (v : nat) : Prop := exists c, In c cs /\ mentions c v.
Definition swaps (cs : list call) (v : nat) : Prop := exists c, In c cs /\ changes c v.

(** A matrix that one thread swaps rows or columns of is used by no other thread. *)
Definition separate (ts : list (list call)) : Prop :=
  forall i j cs ds v, i <> j -> nth_error ts i = Some cs -> nth_error ts j = Some ds ->
  swaps cs v -> ~ uses ds v.

(** The threads [ts] run from the matrices [σ] under the schedule [sched] until [C]. *)
Definition runs (σ : store) (ts : list (list call)) (sched : list nat) (C : config T (list (answer S))) : Prop :=
  run sched (start (mem_of σ) (map codes ts)) C.

Lemma nth_error_codes ts i p : nth_error (map codes ts) i = Some p ->
  exists cs, nth_error ts i = Some cs /\ p = codes cs.
Proof.
  rewrite nth_error_map. destruct (nth_error ts i) as [cs|]; simpl; [|discriminate].
  intros E. injection E as <-. eauto.
Qed.

Definition touched (f : list call -> nat -> Prop) (ts : list (list call)) (i : nat) (l : loc) : Prop :=
  exists cs, nth_error ts i = Some cs /\ f cs (fst (fst l)).

Lemma threads_within ts i p : nth_error (map codes ts) i = Some p ->
  within (touched uses ts i) (touched swaps ts i) p.
Proof.
  intros E. apply nth_error_codes in E. destruct E as (cs & E & ->).
  eapply within_weaken; [| |apply within_codes]; intros l H; exists cs; auto.
Qed.

Lemma changes_mentions (c : call) v : changes c v -> mentions c v.
Proof. destruct c; simpl; tauto. Qed.

Lemma threads_apart ts : separate ts -> forall i j p q l, i <> j ->
  nth_error (map codes ts) i = Some p -> nth_error (map codes ts) j = Some q ->
  touched swaps ts i l -> ~ touched uses ts j l /\ ~ touched swaps ts j l.
Proof.
  intros H i j p q l N _ _ (cs & E & Hs). split; intros (ds & F & Hd).
  - exact (H _ _ _ _ _ N E F Hs Hd).
  - apply (H _ _ _ _ _ N E F Hs). destruct Hd as (d & Hd & Hc). exists d. split; [exact Hd|].
    apply changes_mentions, Hc.
Qed.

Theorem c88_no_race σ ts : separate ts ->
  forall sched C, runs σ ts sched C -> ~ race (threads C).
Proof.
  intros H sched C Hr.
  exact (independent_no_race _ _ _ _ (threads_within ts) (threads_apart ts H) sched C Hr).
Qed.

(** Whatever the schedule, each thread returns what it returns when it runs alone
    from the initial matrices, prints what it prints alone, and leaves its own
    matrices as it does alone; matrices nobody swaps are unchanged. *)
Theorem c88_results σ ts : well_typed σ -> separate ts ->
  forall sched C, runs σ ts sched C -> finished (threads C) ->
  (forall i cs, nth_error ts i = Some cs ->
     nth_error (threads C) i = Some (Done (let* r := performs σ cs in Ok (fst (fst r)))) /\
     (forall l σ' s, performs σ cs = Ok (l, σ', s) ->
        joined (by_thread i (written C)) = s /\
        forall v, swaps cs v -> holds S (cmem C) v (σ' v))) /\
  (forall v, (forall cs, In cs ts -> ~ swaps cs v) -> holds S (cmem C) v (σ v)).
Proof.
  intros W H sched C Hr F.
  destruct (independent_result _ _ _ _ (threads_within ts) (threads_apart ts H) sched C Hr F) as [R K].
  split.
  - intros i cs E.
    assert (E' : nth_error (map codes ts) i = Some (codes cs)) by (rewrite nth_error_map, E; reflexivity).
    destruct (R _ _ E') as (Hv & Ht & Hm).
    destruct (codes_ok cs _ σ W (in_mem_of σ)) as [Vc Rc].
    rewrite Hv, Vc. split; [reflexivity|]. intros l σ' s Ep. destruct (Rc _ _ _ Ep) as [Tc Mc].
    rewrite Ht. split; [exact Tc|]. intros v Sv a b. rewrite Hm; [apply Mc|].
    exists cs. split; [exact E|exact Sv].
  - intros v N a b. rewrite K; [reflexivity|]. intros i p E (cs & Ec & Sc).
    exact (N cs (nth_error_In _ _ Ec) Sc).
Qed.

(** Without swaps nothing need be kept apart: any number of threads may call
    anything on the same matrices. *)
Corollary c88_readers σ ts : well_typed σ -> (forall cs c v, In cs ts -> In c cs -> ~ changes c v) ->
  forall sched C, runs σ ts sched C ->
  ~ race (threads C) /\
  (finished (threads C) ->
   (forall i cs, nth_error ts i = Some cs ->
      nth_error (threads C) i = Some (Done (map_out (returned σ) cs))) /\
   forall v, holds S (cmem C) v (σ v)).
Proof.
  intros W N sched C Hr.
  assert (H : separate ts).
  { intros i j cs ds v _ E _ (c & Hc & Hv). exfalso. exact (N cs c v (nth_error_In _ _ E) Hc Hv). }
  split; [exact (c88_no_race σ ts H sched C Hr)|]. intros F.
  destruct (c88_results σ ts W H sched C Hr F) as [R K]. split.
  - intros i cs E. rewrite (proj1 (R i cs E)). do 2 f_equal.
    assert (G : forall c v, In c cs -> ~ changes c v) by (intros c v; apply N, (nth_error_In _ _ E)).
    clear - G. revert G. induction cs as [|c cs IH]; intros G; [reflexivity|]. simpl.
    rewrite bind_assoc. apply bind_ext. intros a _.
    replace (after σ c) with σ.
    + rewrite <- IH by (intros d v Hd; apply G; right; exact Hd). rewrite !bind_assoc.
      apply bind_ext. intros [[l σ'] s] _. reflexivity.
    + specialize (G c). destruct c; try reflexivity; exfalso; exact (G v (or_introl eq_refl) eq_refl).
  - intros v. apply K. intros cs Hcs (c & Hc & Hv). exact (N cs c v Hcs Hc Hv).
Qed.

(** Schedules are finite: under every schedule a thread takes at most as many
    steps as alone, and as long as not all are finished one can go on. *)
Definition length_alone (σ : store) (cs : list call) : nat := steps (codes cs) (mem_of σ).

Lemma count_length (n : nat) (sched : list nat) : (forall i, In i sched -> i < n) ->
  List.length sched = list_sum (map (fun i => count_occ Nat.eq_dec sched i) (seq 0 n)).
Proof.
  intros H. induction sched as [|k sched IH].
  - simpl. clear. symmetry. assert (G : forall lo, list_sum (map (fun _ => 0) (seq lo n)) = 0); [|apply G].
    induction n as [|n IH]; intros lo; simpl; [reflexivity|]. apply IH.
  - simpl List.length. rewrite IH by (intros i Hi; apply H; right; exact Hi).
    assert (Hk : k < n) by (apply H; left; reflexivity). clear - Hk.
    assert (G : forall lo m, list_sum (map (fun i => count_occ Nat.eq_dec (k :: sched) i) (seq lo m)) =
      (if (lo <=? k) && (k <? lo + m) then 1 else 0) + list_sum (map (fun i => count_occ Nat.eq_dec sched i) (seq lo m))).
    { intros lo m. revert lo. induction m as [|m IHm]; intros lo.
      - cbn [seq map]. change (list_sum []) with 0.
        destruct (Nat.leb_spec lo k), (Nat.ltb_spec k (lo + 0)); cbn [andb]; lia.
      - assert (L : forall x l, list_sum (x :: l) = x + list_sum l) by reflexivity.
        cbn [seq map]. rewrite !L, IHm. cbn [count_occ].
        destruct (Nat.eq_dec k lo) as [->|Nk].
        + rewrite (proj2 (Nat.leb_le lo lo)), (proj2 (Nat.ltb_lt lo (lo + Datatypes.S m))) by lia.
          rewrite (proj2 (Nat.leb_gt (Datatypes.S lo) lo)) by lia. simpl. lia.
        + destruct (Nat.leb_spec lo k), (Nat.leb_spec (Datatypes.S lo) k), (Nat.ltb_spec k (lo + Datatypes.S m)),
            (Nat.ltb_spec k (Datatypes.S lo + m)); simpl; lia. }
    rewrite (G 0 n). rewrite (proj2 (Nat.leb_le 0 k)), (proj2 (Nat.ltb_lt k (0 + n))) by lia. reflexivity.
Qed.

Lemma sum_le {X} (ts : list X) : forall (f : nat -> nat) (g : X -> nat),
  (forall i x, nth_error ts i = Some x -> f i <= g x) ->
  list_sum (map f (seq 0 (List.length ts))) <= list_sum (map g ts).
Proof.
  induction ts as [|x ts IH]; intros f g H; [apply le_n|].
  cbn [List.length seq map]. change (f 0 + list_sum (map f (seq 1 (List.length ts))) <= g x + list_sum (map g ts)).
  rewrite <- seq_shift, map_map. specialize (IH (fun i => f (Datatypes.S i)) g).
  assert (f 0 <= g x) by (apply H; reflexivity).
  enough (list_sum (map (fun i => f (Datatypes.S i)) (seq 0 (List.length ts))) <= list_sum (map g ts)) by lia.
  apply IH. intros i y E. apply H. exact E.
Qed.

Lemma run_range {A} sched (C C' : config T A) : run sched C C' ->
  List.length (threads C') = List.length (threads C) /\ forall i, In i sched -> i < List.length (threads C).
Proof.
  induction 1 as [C|i sched C C' C'' St _ [L IH]]; [split; [reflexivity|intros i []]|].
  destruct St as [M ps out p M' o p' E _]. simpl in *. rewrite upd_length in *. split; [exact L|].
  intros k [<-|Hk]; [|apply IH, Hk]. apply nth_error_Some. congruence.
Qed.

Lemma progress {A} (C : config T A) : finished (threads C) \/ exists i C', step i C C'.
Proof.
  destruct C as [M ps out]. simpl.
  assert (G : (forall p, In p ps -> exists o, p = Done o) \/
              exists i p, nth_error ps i = Some p /\ exists M' o p', adv M p = Some (M', o, p')).
  { induction ps as [|p ps IH]; [left; intros p []|].
    destruct (adv_some M p) as [Hd|Ha].
    - destruct IH as [IH|(i & q & E & Ha)].
      + left. intros q [<-|Hq]; [exact Hd|exact (IH q Hq)].
      + right. exists (Datatypes.S i), q. split; [exact E|exact Ha].
    - right. exists 0, p. split; [reflexivity|exact Ha]. }
  destruct G as [G|(i & p & E & M' & o & p' & Ha)]; [left; exact G|right].
  exists i. eexists. econstructor; eassumption.
Qed.

Theorem c88_ends σ ts : separate ts ->
  forall sched C, runs σ ts sched C ->
  List.length sched <= list_sum (map (length_alone σ) ts) /\
  (finished (threads C) \/ exists i C', step i C C').
Proof.
  intros H sched C Hr. split; [|apply progress].
  destruct (run_range _ _ _ Hr) as [_ Rg]. simpl in Rg. rewrite map_length in Rg.
  rewrite (count_length (List.length ts) sched Rg). apply sum_le. intros i cs E.
  apply (independent_steps _ _ _ _ (threads_within ts) (threads_apart ts H) sched C i _ Hr).
  rewrite nth_error_map, E. reflexivity.
Qed.

(** ** Several threads on one matrix: disjoint pairs of rows *)

(** The row that takes the place of row i when the rows of each pair are exchanged. *)
Fixpoint partner (pairs : list (nat * nat)) (i : nat) : nat :=
  match pairs with
  | [] => i
  | (a, b) :: r => if i =? a then b else if i =? b then a else partner r i
  end.

Definition meets (p q : nat * nat) : Prop :=
  fst p = fst q \/ fst p = snd q \/ snd p = fst q \/ snd p = snd q.

Definition disjoint (pairs : list (nat * nat)) : Prop :=
  forall i j p q, i <> j -> nth_error pairs i = Some p -> nth_error pairs j = Some q -> ~ meets p q.

Lemma partner_in pairs k a b : disjoint pairs -> nth_error pairs k = Some (a, b) ->
  partner pairs a = b /\ partner pairs b = a.
Proof.
  revert k. induction pairs as [|[c d] pairs IH]; intros k D E; [destruct k; discriminate E|].
  destruct k as [|k]; simpl in E.
  - injection E as -> ->. simpl. rewrite Nat.eqb_refl. split; [reflexivity|].
    destruct (Nat.eqb_spec b a) as [->|]; [reflexivity|]. rewrite Nat.eqb_refl. reflexivity.
  - assert (D' : disjoint pairs).
    { intros i j p q N Ei Ej. apply (D (Datatypes.S i) (Datatypes.S j)); auto. }
    pose proof (D 0 (Datatypes.S k) (c, d) (a, b) (O_S _) eq_refl E) as N. unfold meets in N. simpl in N.
    simpl. rewrite (proj2 (Nat.eqb_neq a c)), (proj2 (Nat.eqb_neq a d)), (proj2 (Nat.eqb_neq b c)), (proj2 (Nat.eqb_neq b d))
      by (intros ->; apply N; auto). exact (IH k D' E).
Qed.

Lemma partner_out pairs i : (forall p, In p pairs -> i <> fst p /\ i <> snd p) -> partner pairs i = i.
Proof.
  induction pairs as [|[a b] pairs IH]; intros H; [reflexivity|]. simpl.
  destruct (H (a, b) (or_introl eq_refl)) as [Na Nb]. simpl in Na, Nb.
  rewrite (proj2 (Nat.eqb_neq _ _) Na), (proj2 (Nat.eqb_neq _ _) Nb).
  apply IH. intros p Hp. apply H. right. exact Hp.
Qed.

(** the same when one thread exchanges the pairs one after the other *)
Lemma one_after_the_other n m pairs : forall f, disjoint pairs ->
  (forall p, In p pairs -> fst p < n /\ snd p < n) ->
  fold_left (fun o p => let* A := o in swap_rows S n m A (fst p) (snd p)) pairs (Ok (mk n m f)) =
  Ok (mk n m (fun i j => f (partner pairs i) j)).
Proof.
  induction pairs as [|[a b] pairs IH]; intros f D H; [reflexivity|]. simpl.
  destruct (H (a, b) (or_introl eq_refl)) as [Ha Hb]. simpl in Ha, Hb.
  rewrite swap_rows_mk by assumption.
  assert (D' : disjoint pairs).
  { intros i j p q N Ei Ej. apply (D (Datatypes.S i) (Datatypes.S j)); auto. }
  rewrite IH; [|exact D'|intros p Hp; apply H; right; exact Hp].
  f_equal. apply mk_ext. intros i j Hi Hj.
  destruct (in_dec Nat.eq_dec i (flat_map (fun p => [fst p; snd p]) pairs)) as [I|I].
  - apply in_flat_map in I. destruct I as ([c d] & Hp & I). apply In_nth_error in Hp. destruct Hp as [k Ek].
    destruct (partner_in pairs k c d D' Ek) as [E1 E2].
    pose proof (D 0 (Datatypes.S k) (a, b) (c, d) (O_S _) eq_refl Ek) as N. unfold meets in N. simpl in N, I.
    assert (P : (partner pairs i = c \/ partner pairs i = d) /\ i <> a /\ i <> b).
    { destruct I as [<-|[<-|[]]]; rewrite ?E1, ?E2; split; auto; split; intros ->; apply N; auto. }
    destruct P as (P & Na & Nb).
    rewrite (proj2 (Nat.eqb_neq _ _) Na), (proj2 (Nat.eqb_neq _ _) Nb).
    rewrite (proj2 (Nat.eqb_neq (partner pairs i) a)), (proj2 (Nat.eqb_neq (partner pairs i) b)).
    + reflexivity.
    + intros Q. destruct P as [P|P]; rewrite P in Q; subst; apply N; auto.
    + intros Q. destruct P as [P|P]; rewrite P in Q; subst; apply N; auto.
  - rewrite (partner_out pairs i).
    + destruct (i =? a); [reflexivity|]. destruct (i =? b); reflexivity.
    + intros p Hp. split; intros ->; apply I, in_flat_map; exists p; simpl; auto.
Qed.

(** One thread per pair, all on the same matrix: no race, and under every
    schedule the matrix ends as if the pairs had been exchanged one after the
    other. *)
Theorem c88_disjoint_rows σ v pairs : well_typed σ -> disjoint pairs ->
  (forall p, In p pairs -> fst p < rows v /\ snd p < rows v) ->
  forall sched C, runs σ (map (fun p => [SwapRows S v (fst p) (snd p)]) pairs) sched C ->
  ~ race (threads C) /\
  (finished (threads C) ->
   exists A, fold_left (fun o p => let* A := o in swap_rows S (rows v) (cols v) A (fst p) (snd p)) pairs (Ok (σ v)) = Ok A /\
     holds S (cmem C) v A /\ forall w, w <> v -> holds S (cmem C) w (σ w)).
Proof.
  intros W D H sched C Hr.
  set (ts := map (fun p => [SwapRows S v (fst p) (snd p)]) pairs) in *.
  set (R := fun k l => exists p, nth_error pairs k = Some p /\ of_rows v (fst p) (snd p) l).
  assert (Hts : forall k q, nth_error (map codes ts) k = Some q ->
            exists p, nth_error pairs k = Some p /\ q = codes [SwapRows S v (fst p) (snd p)]).
  { intros k q E. unfold ts in E. rewrite map_map, nth_error_map in E.
    destruct (nth_error pairs k) as [p|]; simpl in E; [|discriminate E]. injection E as <-. eauto. }
  assert (H1 : forall k q, nth_error (map codes ts) k = Some q -> within (R k) (R k) q).
  { intros k q E. apply Hts in E. destruct E as (p & E & ->).
    eapply within_weaken with (R := of_rows v (fst p) (snd p)) (W := of_rows v (fst p) (snd p)).
    - intros l Hl. exists p. auto.
    - intros l Hl. exists p. auto.
    - simpl. apply within_bind; [|intros; exact Logic.I]. apply within_bind; [|intros; exact Logic.I].
      apply within_swap_rows. }
  assert (H2 : forall i j p q c, i <> j -> nth_error (map codes ts) i = Some p -> nth_error (map codes ts) j = Some q ->
            R i c -> ~ R j c /\ ~ R j c).
  { intros i j p q c N _ _ (a & Ea & [_ Ha]). assert (~ R j c); [|auto].
    intros (b & Eb & [_ Hb]). apply (D i j a b N Ea Eb). unfold meets.
    destruct Ha as [<-|<-], Hb as [Hb|Hb]; auto. }
  split; [exact (independent_no_race _ _ R R H1 H2 sched C Hr)|]. intros F.
  destruct (independent_result _ _ R R H1 H2 sched C Hr F) as [Rs K].
  pose proof (W v) as Sv. apply (shape_mk (lite S 0)) in Sv. destruct Sv as [f Ef].
  exists (mk (rows v) (cols v) (fun i j => f (partner pairs i) j)).
  split; [rewrite Ef; apply one_after_the_other; assumption|].
  assert (LM : forall n m (g : nat -> nat -> T) i j, load (mk n m g) i j = if (i <? n) && (j <? m) then Some (g i j) else None).
  { intros n m g i j. unfold load, mk. rewrite nth_error_map_seq. destruct (i <? n); simpl; [|reflexivity].
    rewrite nth_error_map_seq. reflexivity. }
  split.
  - intros i j. rewrite LM.
    destruct (in_dec Nat.eq_dec i (flat_map (fun p => [fst p; snd p]) pairs)) as [I|I].
    + apply in_flat_map in I. destruct I as ([a b] & Hp & I).
      destruct (H _ Hp) as [Ha Hb]. simpl in Ha, Hb.
      apply In_nth_error in Hp. destruct Hp as [k Ek].
      assert (E : nth_error (map codes ts) k = Some (codes [SwapRows S v a b])).
      { unfold ts. rewrite map_map, nth_error_map, Ek. reflexivity. }
      destruct (Rs _ _ E) as (_ & _ & Hc).
      rewrite Hc by (exists (a, b); split; [exact Ek|]; split; [reflexivity|]; simpl in *; intuition auto).
      destruct (codes_ok [SwapRows S v a b] _ σ W (in_mem_of σ)) as [_ Q].
      assert (P : performs σ [SwapRows S v a b] = Ok ([ANone S], set S σ v
         (mk (rows v) (cols v) (fun i j => if i =? a then f b j else if i =? b then f a j else f i j)), EmptyString)).
      { simpl. rewrite Ef, swap_rows_mk by assumption. reflexivity. }
      destruct (Q _ _ _ P) as [_ Q2]. rewrite (Q2 v i j). unfold set. rewrite Nat.eqb_refl, LM.
      destruct (partner_in pairs k a b D Ek) as [E1 E2].
      destruct ((i <? rows v) && (j <? cols v)); [|reflexivity]. f_equal.
      destruct I as [<-|[<-|[]]]; simpl; rewrite ?E1, ?E2.
      * rewrite Nat.eqb_refl. reflexivity.
      * rewrite Nat.eqb_refl. destruct (Nat.eqb_spec b a) as [->|]; reflexivity.
    + rewrite K.
      * unfold mem_of. rewrite Ef, LM, (partner_out pairs i); [reflexivity|].
        intros p Hp. split; intros ->; apply I, in_flat_map; exists p; simpl; auto.
      * intros k q _ (p & Ep & [_ Hp]). simpl in Hp. apply I, in_flat_map. exists p.
        split; [exact (nth_error_In _ _ Ep)|]. simpl. intuition auto.
  - intros w N i j. rewrite K; [reflexivity|]. intros k q _ (p & _ & [E _]). simpl in E. contradiction.
Qed.

(** ** Races *)

Inductive advs {A} : mem T -> prog T A -> mem T -> prog T A -> Prop :=
| AdvsNil M p : advs M p M p
| AdvsCons M p M' o p' M'' p'' : adv M p = Some (M', o, p') -> advs M' p' M'' p'' -> advs M p M'' p''.

Lemma advs_trans {A} M (p : prog T A) M' p' M'' p'' : advs M p M' p' -> advs M' p' M'' p'' -> advs M p M'' p''.
Proof. induction 1; intros H2; [exact H2|]. econstructor; eauto. Qed.

Lemma advs_bind {A B} M (p : prog T A) M' p' (k : A -> prog T B) : advs M p M' p' -> advs M (pbind p k) M' (pbind p' k).
Proof.
  induction 1 as [M p|M p M' o p' M'' p'' E _ IH]; [constructor|]. revert E IH.
  destruct p as [r|c f|c x f|s f]; simpl; intros E IH; [discriminate E| | |].
  - injection E as <- <- <-. econstructor; [reflexivity|]. destruct (M c); exact IH.
  - destruct (M c) eqn:Ec; injection E as <- <- <-; (econstructor; [simpl; rewrite Ec; reflexivity|exact IH]).
  - injection E as <- <- <-. econstructor; [reflexivity|]. exact IH.
Qed.

Section Domain.
Variable D : loc -> Prop.
Definition defined (M : mem T) : Prop := forall l, D l -> M l <> None.

Definition visits {A} (w : bool) (c : loc) (p : prog T A) : Prop :=
  forall M, defined M -> exists M' p', advs M p M' p' /\ access p' = Some (w, c) /\ defined M'.

Definition ends {A} (p : prog T A) : Prop :=
  forall M, defined M -> exists M' a, advs M p M' (Done (Ok a)) /\ defined M'.

Lemma visits_first {A B} w c (p : prog T A) (k : A -> prog T B) : visits w c p -> visits w c (pbind p k).
Proof.
  intros H M HM. destruct (H M HM) as (M' & p' & Ha & Hc & HD).
  exists M', (pbind p' k). split; [apply advs_bind, Ha|]. split; [|exact HD].
  destruct p'; simpl in *; try discriminate Hc; exact Hc.
Qed.

Lemma visits_then {A B} w c (p : prog T A) (k : A -> prog T B) : ends p -> (forall a, visits w c (k a)) ->
  visits w c (pbind p k).
Proof.
  intros H Hk M HM. destruct (H M HM) as (M' & a & Ha & HD).
  destruct (Hk a M' HD) as (M2 & p2 & Ha2 & Hc & HD2).
  exists M2, p2. split; [|auto]. eapply advs_trans; [apply advs_bind, Ha|exact Ha2].
Qed.

Lemma ends_bind {A B} (p : prog T A) (k : A -> prog T B) : ends p -> (forall a, ends (k a)) -> ends (pbind p k).
Proof.
  intros H Hk M HM. destruct (H M HM) as (M' & a & Ha & HD).
  destruct (Hk a M' HD) as (M2 & b & Ha2 & HD2).
  exists M2, b. split; [|exact HD2]. eapply advs_trans; [apply advs_bind, Ha|exact Ha2].
Qed.

Lemma ends_done {A} (a : A) : ends (Done (Ok a)).
Proof. intros M HM. exists M, a. split; [constructor|exact HM]. Qed.

Lemma ends_rd v i j : D (v, i, j) -> ends (rd v i j).
Proof.
  intros HD M HM. specialize (HM _ HD) as Hl. destruct (M (v, i, j)) as [x|] eqn:E; [|congruence].
  exists M, x. split; [|exact HM]. eapply AdvsCons with (M' := M) (o := []) (p' := Done (Ok x)); [|constructor].
  unfold rd. simpl. rewrite E. reflexivity.
Qed.

Lemma ends_wr v i j x : D (v, i, j) -> ends (wr v i j x).
Proof.
  intros HD M HM. specialize (HM _ HD) as Hl. destruct (M (v, i, j)) as [y|] eqn:E; [|congruence].
  exists (put M (v, i, j) x), tt. split.
  - eapply AdvsCons; [unfold wr; simpl; rewrite E; reflexivity|constructor].
  - intros l Dl. unfold put. destruct (loc_eqb (v, i, j) l); [discriminate|exact (HM l Dl)].
Qed.

Lemma ends_say s : ends (say s).
Proof. intros M HM. exists M, tt. split; [|exact HM]. eapply AdvsCons; [reflexivity|constructor]. Qed.

Lemma visits_rd v i j : visits false (v, i, j) (rd v i j).
Proof. intros M HM. exists M, (rd v i j). split; [constructor|]. split; [reflexivity|exact HM]. Qed.

Lemma visits_wr v i j x : visits true (v, i, j) (wr v i j x).
Proof. intros M HM. exists M, (wr v i j x). split; [constructor|]. split; [reflexivity|exact HM]. Qed.

Lemma ends_for {St} lo hi (body : nat -> St -> prog T St) s :
  (forall k s, lo <= k < hi -> ends (body k s)) -> ends (pfor lo hi body s).
Proof.
  intros H. unfold pfor.
  assert (G : forall c lo' s, lo <= lo' -> lo' + c <= hi -> ends (piter c lo' body s)).
  { induction c as [|c IH]; intros lo' s' L1 L2; simpl; [apply ends_done|].
    apply ends_bind; [apply H; lia|]. intros a. apply IH; lia. }
  destruct (Nat.le_gt_cases lo hi); [apply G; lia|]. replace (hi - lo) with 0 by lia. apply ends_done.
Qed.

Lemma visits_for {St} w c lo hi i (body : nat -> St -> prog T St) s : lo <= i < hi ->
  (forall k s, lo <= k < i -> ends (body k s)) -> (forall s, visits w c (body i s)) ->
  visits w c (pfor lo hi body s).
Proof.
  intros Hi He Hv. unfold pfor.
  assert (G : forall n lo' s, lo <= lo' <= i -> i < lo' + n -> lo' + n = hi -> visits w c (piter n lo' body s)).
  { induction n as [|n IH]; intros lo' s' L1 L2 L3; [lia|]. simpl.
    destruct (Nat.eq_dec lo' i) as [->|N].
    - apply visits_first, Hv.
    - apply visits_then; [apply He; lia|]. intros a. apply IH; lia. }
  apply G; lia.
Qed.

Lemma ends_map {X Y} (f : X -> prog T Y) l : (forall x, In x l -> ends (f x)) -> ends (pmap f l).
Proof.
  induction l as [|x l IH]; intros H; simpl; [apply ends_done|].
  apply ends_bind; [apply H; left; reflexivity|]. intros y.
  apply ends_bind; [apply IH; intros z Hz; apply H; right; exact Hz|]. intros ys. apply ends_done.
Qed.

Lemma visits_map {X Y} w c (f : X -> prog T Y) l x : In x l -> (forall y, In y l -> ends (f y)) ->
  visits w c (f x) -> visits w c (pmap f l).
Proof.
  induction l as [|z l IH]; intros Hx He Hv; [destruct Hx|]. simpl. destruct Hx as [->|Hx].
  - apply visits_first, Hv.
  - apply visits_then; [apply He; left; reflexivity|]. intros y. apply visits_first, IH; auto.
    intros u Hu. apply He. right. exact Hu.
Qed.

Lemma advs_run {A} M (p : prog T A) M' p' : advs M p M' p' -> forall ps i out, nth_error ps i = Some p ->
  exists sched out', run sched (Config M ps out) (Config M' (upd ps i p') out').
Proof.
  induction 1 as [M p|M p M' o p' M'' p'' E _ IH]; intros ps i out Ei.
  - exists [], out. replace (upd ps i p) with ps; [constructor|].
    revert i Ei. induction ps as [|q ps IH]; intros [|i] Ei; simpl in *; try discriminate Ei.
    + injection Ei as ->. reflexivity.
    + f_equal. apply IH, Ei.
  - destruct (IH (upd ps i p') i (out ++ map (fun s => (i, s)) o)%list) as (sched & out' & R).
    { exact (nth_error_upd _ _ _ _ Ei). }
    exists (i :: sched), out'. econstructor; [econstructor; eassumption|].
    replace (upd ps i p'') with (upd (upd ps i p') i p''); [exact R|].
    clear. revert i. induction ps as [|q ps IH]; intros [|i]; simpl; auto. f_equal. apply IH.
Qed.

Lemma run_app {A} s1 s2 (C C' C'' : config T A) : run s1 C C' -> run s2 C' C'' -> run (s1 ++ s2) C C''.
Proof. induction 1; intros H2; simpl; [exact H2|]. econstructor; eauto. Qed.

Lemma visits_race {A} M (p q : prog T A) w c : defined M -> visits w c p -> visits true c q ->
  exists sched C, run sched (start M [p; q]) C /\ race (threads C).
Proof.
  intros HM Hp Hq. destruct (Hp M HM) as (M1 & p' & A1 & C1 & HM1).
  destruct (Hq M1 HM1) as (M2 & q' & A2 & C2 & _).
  destruct (advs_run _ _ _ _ A1 [p; q] 0 [] eq_refl) as (s1 & o1 & R1). simpl in R1.
  destruct (advs_run _ _ _ _ A2 [p'; q] 1 o1 eq_refl) as (s2 & o2 & R2). simpl in R2.
  exists (s1 ++ s2)%list. eexists. split; [exact (run_app _ _ _ _ _ R1 R2)|].
  exists 0, 1, p', q', w, true, c. simpl. repeat split; auto. apply orb_true_r.
Qed.

End Domain.

(** the elements of variable v *)
Definition cells (v : nat) (l : loc) : Prop := exists i j, l = (v, i, j) /\ i < rows v /\ j < cols v.

Lemma defined_mem_of σ v : well_typed σ -> defined (cells v) (mem_of σ).
Proof.
  intros W l (i & j & -> & Hi & Hj). simpl. pose proof (W v) as H. apply (shape_mk (lite S 0)) in H.
  destruct H as [f ->]. unfold load, mk. rewrite nth_error_map_seq, (proj2 (Nat.ltb_lt _ _) Hi), nth_error_map_seq,
    (proj2 (Nat.ltb_lt _ _) Hj). discriminate.
Qed.

Lemma ends_exchange v i1 j1 i2 j2 : cells v (v, i1, j1) -> cells v (v, i2, j2) ->
  ends (cells v) (let+ x := rd v i1 j1 in let+ y := rd v i2 j2 in let+ _ := wr v i1 j1 y in wr v i2 j2 x).
Proof.
  intros H1 H2. apply ends_bind; [apply ends_rd, H1|]. intros x. apply ends_bind; [apply ends_rd, H2|]. intros y.
  apply ends_bind; [apply ends_wr, H1|]. intros _. apply ends_wr, H2.
Qed.

Lemma visits_exchange v i1 j1 i2 j2 c : cells v (v, i1, j1) -> cells v (v, i2, j2) ->
  c = (v, i1, j1) \/ c = (v, i2, j2) -> 
  visits (cells v) true c (let+ x := rd v i1 j1 in let+ y := rd v i2 j2 in let+ _ := wr v i1 j1 y in wr v i2 j2 x).
Proof.
  intros H1 H2 Hc. apply visits_then; [apply ends_rd, H1|]. intros x. apply visits_then; [apply ends_rd, H2|]. intros y.
  destruct Hc as [->| ->].
  - apply visits_first, visits_wr.
  - apply visits_then; [apply ends_wr, H1|]. intros _. apply visits_wr.
Qed.

Lemma swap_rows_visits v r1 r2 i j : r1 <> r2 -> r1 < rows v -> r2 < rows v -> i = r1 \/ i = r2 -> j < cols v ->
  visits (cells v) true (v, i, j) (codes [SwapRows S v r1 r2]).
Proof.
  intros N L1 L2 Hi Hj. simpl. apply visits_first, visits_first. unfold swap_rows_p.
  rewrite (proj2 (Nat.eqb_neq _ _) N). apply (visits_for _ _ _ _ _ j); [lia| |].
  - intros k _ Hk. apply ends_exchange; unfold cells; do 2 eexists; (split; [reflexivity|]); lia.
  - intros _. apply visits_exchange; [unfold cells; do 2 eexists; (split; [reflexivity|]); lia..|].
    destruct Hi as [->| ->]; auto.
Qed.

Lemma swap_cols_visits v c1 c2 i j : c1 <> c2 -> c1 < cols v -> c2 < cols v -> j = c1 \/ j = c2 -> i < rows v ->
  visits (cells v) true (v, i, j) (codes [SwapCols S v c1 c2]).
Proof.
  intros N L1 L2 Hj Hi. simpl. apply visits_first, visits_first. unfold swap_cols_p.
  rewrite (proj2 (Nat.eqb_neq _ _) N). apply (visits_for _ _ _ _ _ i); [lia| |].
  - intros k _ Hk. apply ends_exchange; unfold cells; do 2 eexists; (split; [reflexivity|]); lia.
  - intros _. apply visits_exchange; [unfold cells; do 2 eexists; (split; [reflexivity|]); lia..|].
    destruct Hj as [->| ->]; auto.
Qed.

(** calls that read every element, whatever the elements are *)
Definition reads_all (c : call) (v : nat) : Prop :=
  match c with
  | Print _ u | Pow _ u _ _ | Median _ u | Histogram _ u => u = v
  | Det _ u => u = v /\ 4 <= rows v
  | _ => False
  end.

Lemma reads_all_visits v c i j : reads_all c v -> i < rows v -> j < cols v ->
  visits (cells v) false (v, i, j) (codes [c]).
Proof.
  intros H Hi Hj. assert (CE : forall a b, a < rows v -> b < cols v -> cells v (v, a, b)).
  { intros a b La Lb. exists a, b. auto. }
  assert (CP : visits (cells v) false (v, i, j) (copy_p S (rows v) (cols v) v)).
  { unfold copy_p. apply (visits_map _ _ _ _ _ i); [apply in_seq; lia| |].
    - intros a Ha. apply in_seq in Ha. apply ends_map. intros b Hb. apply in_seq in Hb. apply ends_rd, CE; lia.
    - apply (visits_map _ _ _ _ _ j); [apply in_seq; lia| |apply visits_rd].
      intros b Hb. apply in_seq in Hb. apply ends_rd, CE; lia. }
  simpl. apply visits_first. destruct c; simpl in *; try contradiction.
  - destruct H as [-> H]. apply visits_first, CP.
  - subst. apply visits_first, CP.
  - subst. apply visits_first, CP.
  - subst. apply visits_first, CP.
  - subst. apply visits_first. unfold print_p. apply (visits_for _ _ _ _ _ i); [lia| |].
    + intros a _ Ha. apply ends_bind; [|intros; apply ends_say]. apply ends_for. intros b _ Hb.
      apply ends_bind; [apply ends_rd, CE; lia|]. intros x. apply ends_bind; [apply ends_say|]. intros _. apply ends_say.
    + intros _. apply visits_first, (visits_for _ _ _ _ _ j); [lia| |].
      * intros b _ Hb. apply ends_bind; [apply ends_rd, CE; lia|]. intros x.
        apply ends_bind; [apply ends_say|]. intros _. apply ends_say.
      * intros _. apply visits_first, visits_rd.
Qed.

(** Swapping rows of a matrix while another thread swaps one of these rows, swaps
    columns, or reads the whole matrix, is a data race. *)
Theorem c88_race σ v r1 r2 c : well_typed σ -> r1 <> r2 -> r1 < rows v -> r2 < rows v -> 0 < cols v ->
  (exists r3 r4, c = SwapRows S v r3 r4 /\ r3 <> r4 /\ r3 < rows v /\ r4 < rows v /\ meets (r1, r2) (r3, r4)) \/
  (exists c1 c2, c = SwapCols S v c1 c2 /\ c1 <> c2 /\ c1 < cols v /\ c2 < cols v) \/
  reads_all c v ->
  exists sched C, runs σ [[c]; [SwapRows S v r1 r2]] sched C /\ race (threads C).
Proof.
  intros W N L1 L2 Lc H.
  assert (G : exists w i j, (i = r1 \/ i = r2) /\ j < cols v /\ visits (cells v) w (v, i, j) (codes [c])).
  { destruct H as [(r3 & r4 & -> & N' & L3 & L4 & Hm)|[(c1 & c2 & -> & N' & L3 & L4)|H]].
    - unfold meets in Hm. simpl in Hm.
      assert (Hi : exists i, (i = r1 \/ i = r2) /\ (i = r3 \/ i = r4)).
      { destruct Hm as [E|[E|[E|E]]]; [exists r1|exists r1|exists r2|exists r2]; auto. }
      destruct Hi as (i & Hi & Hi'). exists true, i, 0. split; [exact Hi|]. split; [exact Lc|].
      apply swap_rows_visits; assumption.
    - exists true, r1, c1. split; [auto|]. split; [exact L3|]. apply swap_cols_visits; auto.
    - exists false, r1, 0. split; [auto|]. split; [exact Lc|]. apply reads_all_visits; assumption. }
  destruct G as (w & i & j & Hi & Hj & Hv).
  exact (visits_race (cells v) (mem_of σ) _ _ w (v, i, j) (defined_mem_of σ v W) Hv
    (swap_rows_visits v r1 r2 i j N L1 L2 Hi Hj)).
Qed.

(** ** One thread: the bridge to the model *)
Theorem c88_alone σ cs : well_typed σ ->
  value (alone (codes cs) (mem_of σ)) = (let* r := performs σ cs in Ok (fst (fst r))) /\
  forall l σ' s, performs σ cs = Ok (l, σ', s) ->
    joined (text (alone (codes cs) (mem_of σ))) = s /\
    forall v, holds S (memory (alone (codes cs) (mem_of σ))) v (σ' v).
Proof. intros W. exact (codes_ok cs _ σ W (in_mem_of σ)). Qed.

End Calls.

(** ** Examples, on int matrices *)

(** a schedule, executed *)
Fixpoint exec {T A} (sched : list nat) (C : config T A) : option (config T A) :=
  match sched with
  | [] => Some C
  | i :: sched =>
      match nth_error (threads C) i with
      | Some p =>
          match adv (cmem C) p with
          | Some (M, o, p') => exec sched (Config M (upd (threads C) i p') (written C ++ map (fun s => (i, s)) o))
          | None => None
          end
      | None => None
      end
  end.

Lemma exec_run {T A} sched : forall (C C' : config T A), exec sched C = Some C' -> run sched C C'.
Proof.
  induction sched as [|i sched IH]; intros C C' E; simpl in E.
  - injection E as <-. constructor.
  - destruct (nth_error (threads C) i) as [p|] eqn:Ep; [|discriminate E].
    destruct (adv (cmem C) p) as [[[M o] p']|] eqn:Ea; [|discriminate E].
    destruct C as [M0 ps out]. simpl in *. econstructor; [econstructor; eassumption|]. apply IH, E.
Qed.

Definition doneb {T A} (p : prog T A) : bool := match p with Done _ => true | _ => false end.

Lemma doneb_finished {T A} (ps : list (prog T A)) : forallb doneb ps = true -> finished ps.
Proof.
  intros H p Hp. apply forallb_forall with (x := p) in H; [|exact Hp].
  destruct p as [o| | |]; try discriminate H. exists o. reflexivity.
Qed.

Notation I32 := (intS int32).
Notation no_sort := (fun l : list Z => l).

(** two swaps that share row 1 of a 3x1 matrix *)
Definition shared_rows : list (list (call I32)) := [[SwapRows I32 0 0 1]; [SwapRows I32 0 1 2]].
Definition column : store I32 := fun _ => [[1]; [2]; [3]]%Z.
Definition both_read_first : list nat := [0; 0; 1; 1; 0; 0; 1; 1].

Lemma c88_lost_check :
  match exec both_read_first (start (mem_of I32 column) (map (codes I32 (fun _ => (3, 1)) no_sort show_int) shared_rows)) with
  | Some C => forallb doneb (threads C) &&
      match cmem C (0, 0, 0), cmem C (0, 1, 0), cmem C (0, 2, 0) with
      | Some a, Some b, Some c => (a =? 2)%Z && (b =? 3)%Z && (c =? 2)%Z
      | _, _, _ => false
      end
  | None => false
  end = true.
Proof. vm_compute. reflexivity. Qed.

(** Overlapping swaps can lose an element: 1, 2, 3 becomes 2, 3, 2.  (The race
    makes the behaviour undefined anyway; this is one thing that can happen.) *)
Theorem c88_lost : exists sched C,
  runs I32 (fun _ => (3, 1)) no_sort show_int column shared_rows sched C /\ finished (threads C) /\
  cmem C (0, 0, 0) = Some 2%Z /\ cmem C (0, 1, 0) = Some 3%Z /\ cmem C (0, 2, 0) = Some 2%Z.
Proof.
  pose proof c88_lost_check as H.
  destruct (exec both_read_first _) as [C|] eqn:E; [|discriminate H].
  apply andb_prop in H. destruct H as [F H].
  exists both_read_first, C. split; [exact (exec_run _ _ _ E)|]. split; [exact (doneb_finished _ F)|].
  destruct (cmem C (0, 0, 0)) as [a|], (cmem C (0, 1, 0)) as [b|], (cmem C (0, 2, 0)) as [c|]; try discriminate H.
  rewrite !andb_true_iff, !Z.eqb_eq in H. destruct H as [[-> ->] ->]. auto.
Qed.

(** Two threads that print: the text can be the same for different matrices. *)
Definition two_prints : list (list (call I32)) := [[Print I32 0]; [Print I32 1]].
Definition prints_12_3 : store I32 := fun v => if v =? 0 then [[12]]%Z else [[3]]%Z.
Definition prints_1_23 : store I32 := fun v => if v =? 0 then [[1]]%Z else [[23]]%Z.
Definition alternate : list nat := [0; 0; 1; 1; 0; 0; 1; 1].

Definition text_of {T A} (C : config T A) : string := joined (map snd (written C)).

Definition after_alternate (σ : store I32) :=
  exec alternate (start (mem_of I32 σ) (map (codes I32 (fun _ => (1, 1)) no_sort show_int) two_prints)).

Definition mixed_text (o : option (config Z (list (answer I32)))) : bool :=
  match o with
  | Some C => forallb doneb (threads C) && (text_of C =? "123 " ++ newline ++ " " ++ newline)%string
  | None => false
  end.

Lemma c88_print_check1 : mixed_text (after_alternate prints_12_3) = true.
Proof. vm_compute. reflexivity. Qed.
Lemma c88_print_check2 : mixed_text (after_alternate prints_1_23) = true.
Proof. vm_compute. reflexivity. Qed.

Lemma mixed σ : mixed_text (after_alternate σ) = true -> exists C,
  runs I32 (fun _ => (1, 1)) no_sort show_int σ two_prints alternate C /\ finished (threads C) /\
  text_of C = ("123 " ++ newline ++ " " ++ newline)%string.
Proof.
  unfold mixed_text. destruct (after_alternate σ) as [C|] eqn:E; intros H; [|discriminate H].
  apply andb_prop in H. destruct H as [F H]. exists C. split; [exact (exec_run _ _ _ E)|].
  split; [exact (doneb_finished _ F)|]. apply String.eqb_eq. exact H.
Qed.

Theorem c88_print_mixes : exists σ1 σ2 sched C1 C2, σ1 0 <> σ2 0 /\ σ1 1 <> σ2 1 /\
  runs I32 (fun _ => (1, 1)) no_sort show_int σ1 two_prints sched C1 /\ finished (threads C1) /\
  runs I32 (fun _ => (1, 1)) no_sort show_int σ2 two_prints sched C2 /\ finished (threads C2) /\
  text_of C1 = text_of C2.
Proof.
  destruct (mixed _ c88_print_check1) as (C1 & R1 & F1 & T1).
  destruct (mixed _ c88_print_check2) as (C2 & R2 & F2 & T2).
  exists prints_12_3, prints_1_23, alternate, C1, C2.
  split; [unfold prints_12_3, prints_1_23; simpl; discriminate|].
  split; [unfold prints_12_3, prints_1_23; simpl; discriminate|].
  split; [exact R1|]. split; [exact F1|]. split; [exact R2|]. split; [exact F2|].
  rewrite T1. symmetry. exact T2.
Qed.

(** three threads that meet the hypotheses of c88_results: all use matrices 0
    and 1, the first swaps rows of its own matrix 2, the third columns of its own 3 *)
Definition three_threads : list (list (call I32)) :=
  [[Mult I32 0 1; SwapRows I32 2 0 1; Sum I32 0 2];
   [Mult I32 1 0; Print I32 0; Det I32 1];
   [SwapCols I32 3 0 1; Mean I32 3; Trans I32 0]].

Example c88_ex_separate : separate I32 three_threads.
Proof.
  intros i j cs ds v N E F (c & Hc & Sc) (d & Hd & Ud).
  destruct i as [|[|[|i]]]; simpl in E; try (destruct i; discriminate E); injection E as <-;
  destruct j as [|[|[|j]]]; simpl in F; try (destruct j; discriminate F); injection F as <-;
  try congruence; simpl in Hc, Hd;
  repeat (destruct Hc as [<-|Hc]; [|]); try contradiction; simpl in Sc; try contradiction; subst;
  repeat (destruct Hd as [<-|Hd]; [|]); try contradiction; simpl in Ud; try discriminate Ud;
  destruct Ud; discriminate.
Qed.

Example c88_ex_result :
  match performs I32 (fun _ => (2, 2)) no_sort show_int
    (fun v => if v =? 1 then [[0; 1]; [1; 0]]%Z else [[1; 2]; [3; 4]]%Z) [Mult I32 0 1; Det I32 1; Print I32 0] with
  | Ok ([AMat _ A; AElt _ d; ANone _], _, s) =>
      mat_eqb I32 A [[2; 1]; [4; 3]]%Z && (d =? -1)%Z && (s =? "1 2 " ++ newline ++ "3 4 " ++ newline)%string
  | _ => false
  end = true.
Proof. vm_compute. reflexivity. Qed.

Print Assumptions c88_no_race.
Print Assumptions c88_results.
Print Assumptions c88_readers.
Print Assumptions c88_ends.
Print Assumptions c88_disjoint_rows.
Print Assumptions c88_race.
Print Assumptions c88_alone.
Print Assumptions c88_lost.
Print Assumptions c88_print_mixes.
