(** C96: sharing of the Python interpreter (src/libpythonsupport, src/libpythoncomponents/wrapper.cpp). *)
From Verif Require Import Base GilModel.

(** the program uses the interpreter only within scopes that have a guard *)
Fixpoint proper (inside : bool) (c : code) : Prop :=
  match c with
  | Done => True
  | Use next => inside = true /\ proper inside next
  | Scope body next => proper true body /\ proper inside next
  end.
(** number of guards that exist after some actions *)
Fixpoint depth (d : nat) (l : list action) : nat :=
  match l with [] => d | Enter :: l' => depth (S d) l' | Leave :: l' => depth (d - 1) l' | Python :: l' => depth d l' end.
(** thread [i] has executed these actions of its program *)
Definition executed (program : nat -> code) (s : state) (i : nat) (l : list action) : Prop := actions (program i) = l ++ todo (threads s i).
(** it is within a guard *)
Definition inside (program : nat -> code) (s : state) (i : nat) : Prop := exists l, executed program s i l /\ 0 < depth 0 l.
Definition finished (s : state) (i : nat) : Prop := todo (threads s i) = [].

Fixpoint guarded (d : nat) (l : list action) : Prop :=
  match l with
  | [] => d = 0
  | Enter :: l' => guarded (S d) l'
  | Leave :: l' => 0 < d /\ guarded (d - 1) l'
  | Python :: l' => 0 < d /\ guarded d l'
  end.
Lemma proper_guarded c : forall d rest, proper (0 <? d) c -> guarded d rest -> guarded d (actions c ++ rest).
Proof.
  induction c as [|c IH|b IHb c IHc]; intros d rest P G; cbn [actions app guarded proper] in *; [exact G| |].
  - destruct P as [P1 P2]. apply Nat.ltb_lt in P1 as L. split; [exact L|]. now apply IH.
  - destruct P as [P1 P2]. rewrite <- app_assoc. apply IHb; [exact P1|]. cbn [app guarded]. split; [lia|]. replace (S d - 1) with d by lia. now apply IHc.
Qed.
Lemma depth_app a b d : depth d (a ++ b) = depth (depth d a) b.
Proof. revert d. induction a as [|[] a IH]; intros d; cbn [app depth]; auto. Qed.

(** the guards of a thread: only the first one found the lock free *)
Definition nested (l : list gilstate) : Prop := match rev l with [] => True | st :: r => st = UNLOCKED /\ Forall (eq LOCKED) r end.
Record thread_ok (program : nat -> code) (s : state) (i : nat) : Prop := {
  ok_exec : exists l, executed program s i l /\ depth 0 l = length (saved (threads s i));
  ok_guarded : guarded (length (saved (threads s i))) (todo (threads s i));
  ok_counter : counter (threads s i) = length (saved (threads s i)) + (if i =? 0 then 1 else 0);
  ok_owner : saved (threads s i) <> [] <-> owner s = Some i;
  ok_nested : nested (saved (threads s i)) }.
Definition valid (program : nat -> code) (s : state) : Prop := forall i, thread_ok program s i.

Lemma valid_initial program : (forall i, proper false (program i)) -> valid program (initialise program).
Proof.
  intros P i. split; cbn.
  - exists []. split; reflexivity.
  - pose proof (proper_guarded (program i) 0 [] (P i) eq_refl) as G. now rewrite app_nil_r in G.
  - reflexivity.
  - split; [congruence|discriminate].
  - exact I.
Qed.
Lemma same_thread f i t : set_thread f i t i = t.
Proof. unfold set_thread. now rewrite Nat.eqb_refl. Qed.
Lemma other_thread f i t j : j <> i -> set_thread f i t j = f j.
Proof. intros N. unfold set_thread. now destruct (Nat.eqb_spec j i). Qed.
Lemma nested_cons st l : nested l -> l <> [] -> st = LOCKED -> nested (st :: l).
Proof.
  unfold nested. cbn [rev]. intros H N ->. destruct (rev l) as [|x r] eqn:E.
  - apply (f_equal (@rev _)) in E. rewrite rev_involutive in E. contradiction.
  - cbn [app]. destruct H as [H1 H2]. split; [exact H1|]. apply Forall_app. split; [exact H2|]. repeat constructor.
Qed.
Lemma nested_tail st l : nested (st :: l) -> nested l /\ (l = [] -> st = UNLOCKED) /\ (l <> [] -> st = LOCKED).
Proof.
  unfold nested. cbn [rev]. destruct (rev l) as [|x r] eqn:E.
  - apply (f_equal (@rev _)) in E. rewrite rev_involutive in E. cbn in E. subst l. cbn. intros [H _]. repeat split; auto. contradiction.
  - cbn [app]. intros [H1 H2]. apply Forall_app in H2 as [H2 H3]. inversion H3; subst. repeat split; auto. intros ->. discriminate.
Qed.
(** replacing thread [i] and the owner keeps the other threads valid *)
Lemma others program s i o t : valid program s -> thread_ok program (State o (set_thread (threads s) i t)) i ->
  (forall j, j <> i -> owner s = Some j <-> o = Some j) -> valid program (State o (set_thread (threads s) i t)).
Proof.
  intros V T O j. destruct (Nat.eq_dec j i) as [->|N]; [exact T|]. destruct (V j) as [V1 V2 V3 V4 V5].
  split; unfold executed; cbn [threads owner]; rewrite ?(other_thread _ _ _ _ N); auto. rewrite V4. now apply O.
Qed.
Lemma executed_next program s i o a rest sv c : todo (threads s i) = a :: rest -> (exists l, executed program s i l /\ depth 0 l = length (saved (threads s i))) ->
  exists l, executed program (State o (set_thread (threads s) i (Thread rest sv c))) i l /\ depth 0 l = depth (length (saved (threads s i))) [a].
Proof.
  intros T (l & E & D). exists (l ++ [a]). unfold executed in *. cbn [threads]. rewrite same_thread. cbn [todo]. split.
  - rewrite E, T, <- app_assoc. reflexivity.
  - now rewrite depth_app, D.
Qed.
Lemma step_valid program s i : valid program s ->
  match step s i with
  | Next s' => valid program s'
  | Waits => finished s i \/ exists j, j <> i /\ owner s = Some j
  | Fatal => False
  end.
Proof.
  intros V. destruct (V i) as [V1 V2 V3 V4 V5]. unfold step. destruct (todo (threads s i)) as [|a rest] eqn:T; [now left|]. destruct a; cbn [guarded] in V2.
  - unfold ensure. destruct (owner s) as [o|] eqn:O.
    + destruct (Nat.eqb_spec o i) as [->|N]; [|right; eauto]. assert (NE : saved (threads s i) <> []) by now apply V4.
      apply others; [exact V| |rewrite O; tauto]. split; cbn [threads owner]; rewrite ?same_thread; cbn [todo saved counter].
      * destruct (executed_next program s i (Some i) _ _ (LOCKED :: saved (threads s i)) (S (counter (threads s i))) T V1) as (l & E & D). exists l. split; [exact E|exact D].
      * exact V2.
      * cbn [length]. lia.
      * split; [reflexivity|discriminate].
      * now apply nested_cons.
    + assert (NE : saved (threads s i) = []) by (destruct (saved (threads s i)); [reflexivity|]; assert (None = Some i) by (apply V4; discriminate); discriminate).
      apply others; [exact V| |intros j N; rewrite O; split; [discriminate|congruence]]. split; cbn [threads owner]; rewrite ?same_thread; cbn [todo saved counter].
      * destruct (executed_next program s i (Some i) _ _ (UNLOCKED :: saved (threads s i)) (S (counter (threads s i))) T V1) as (l & E & D). exists l. split; [exact E|exact D].
      * exact V2.
      * cbn [length]. lia.
      * split; [reflexivity|discriminate].
      * rewrite NE. split; [reflexivity|constructor].
  - destruct V2 as [L G]. unfold release. destruct (saved (threads s i)) as [|st sv] eqn:S; [cbn in L; lia|].
    assert (O : owner s = Some i) by (apply V4; discriminate). unfold holds. rewrite O, Nat.eqb_refl. cbn [negb orb]. cbn [length] in V3.
    destruct (Nat.eqb_spec (counter (threads s i)) 0) as [Z|_]; [lia|]. apply nested_tail in V5 as (N1 & N2 & N3).
    destruct (executed_next program s i (if match st with LOCKED => counter (threads s i) - 1 =? 0 | UNLOCKED => true end then None else Some i) _ _ sv (counter (threads s i) - 1) T) as (l & E & D); [rewrite S; exact V1|].
    rewrite S in D. cbn [length depth] in D. replace (Datatypes.S (length sv) - 1) with (length sv) in D by lia. cbn [length] in G. replace (Datatypes.S (length sv) - 1) with (length sv) in G by lia.
    apply others; [exact V| |intros j N; rewrite O; split; [congruence|intros X; destruct (match st with LOCKED => _ | UNLOCKED => _ end); congruence]].
    split; cbn [threads owner]; rewrite ?same_thread; cbn [todo saved counter].
    + exists l. auto.
    + exact G.
    + lia.
    + destruct sv as [|x sv].
      * rewrite (N2 eq_refl). split; [congruence|discriminate].
      * rewrite (N3 ltac:(discriminate)). destruct (Nat.eqb_spec (counter (threads s i) - 1) 0) as [Z|_]; [cbn [length] in V3; lia|]. split; [reflexivity|discriminate].
    + exact N1.
  - destruct V2 as [L G]. assert (NE : saved (threads s i) <> []) by (intros X; rewrite X in L; cbn in L; lia).
    assert (O : owner s = Some i) by now apply V4. unfold holds. rewrite O, Nat.eqb_refl.
    apply others; [exact V| |rewrite O; tauto]. split; cbn [threads owner]; rewrite ?same_thread; cbn [todo saved counter]; auto.
    + destruct (executed_next program s i (Some i) _ _ (saved (threads s i)) (counter (threads s i)) T V1) as (l & E & D). exists l. split; [exact E|exact D].
    + tauto.
Qed.
Lemma run_valid program schedule : forall s, valid program s -> exists s', run s schedule = Some s' /\ valid program s'.
Proof.
  induction schedule as [|i schedule IH]; intros s V; cbn [run]; [eauto|]. pose proof (step_valid program s i V) as H. destruct (step s i); [apply IH; exact V|contradiction|apply IH; exact H].
Qed.
Lemma inside_saved program s i : valid program s -> (inside program s i <-> owner s = Some i).
Proof.
  intros V. destruct (V i) as [(l & E & D) _ _ V4 _]. rewrite <- V4. split.
  - intros (l' & E' & D'). unfold executed in *. rewrite E in E'. apply app_inv_tail in E'. subst l'. intros X. rewrite X in D. cbn in D. lia.
  - intros N. exists l. split; [exact E|]. rewrite D. destruct (saved (threads s i)); [contradiction|cbn; lia].
Qed.

(** For every number of threads, every program that uses the interpreter only within guards, and every
    schedule: no thread breaks the rules, and a thread within a guard holds the lock, so that there is at
    most one. *)
Theorem C96_exclusive : forall program schedule, (forall i, proper false (program i)) ->
  exists s, run (initialise program) schedule = Some s
    /\ (forall i, inside program s i <-> owner s = Some i) /\ forall i j, inside program s i -> inside program s j -> i = j.
Proof.
  intros program schedule P. destruct (run_valid program schedule _ (valid_initial program P)) as (s & R & V). exists s. split; [exact R|].
  split; [intros i; now apply inside_saved|]. intros i j I J. apply (inside_saved _ _ _ V) in I, J. congruence.
Qed.
(** No deadlock: as long as a thread has something to do, some thread can continue. *)
Theorem C96_progress : forall program schedule s i, (forall i, proper false (program i)) ->
  run (initialise program) schedule = Some s -> ~ finished s i -> exists j s', step s j = Next s'.
Proof.
  intros program schedule s i P R F. destruct (run_valid program schedule _ (valid_initial program P)) as (s0 & R0 & V). assert (s0 = s) by congruence. subst s0. clear R0.
  pose proof (step_valid program s i V) as H. destruct (step s i) as [| |s'] eqn:E; [|contradiction|eauto]. destruct H as [H|(j & N & O)]; [contradiction|].
  exists j. pose proof (step_valid program s j V) as H. destruct (step s j) as [| |s'] eqn:Ej; [|contradiction|eauto]. exfalso. destruct H as [H|(k & Nk & Ok)]; [|congruence].
  destruct (V j) as [_ V2 _ V4 _]. unfold finished in H. rewrite H in V2. cbn in V2. apply V4 in O. destruct (saved (threads s j)); [contradiction|discriminate].
Qed.
(** Hence every execution of finitely many threads can be completed, in at most as many steps as the programs
    have actions. *)
Definition remaining (n : nat) (s : state) : nat := fold_right (fun i k => length (todo (threads s i)) + k) 0 (seq 0 n).
Lemma step_shorter s i s' : step s i = Next s' ->
  length (todo (threads s i)) = S (length (todo (threads s' i))) /\ forall j, j <> i -> todo (threads s' j) = todo (threads s j).
Proof.
  unfold step. destruct (todo (threads s i)) as [|a rest]; [discriminate|]. intros H.
  assert (exists o sv c, s' = State o (set_thread (threads s) i (Thread rest sv c))) as (o & sv & c & ->).
  { destruct a; unfold ensure, release in H.
    - destruct (owner s) as [o|]; [destruct (o =? i); [|discriminate]|]; injection H as <-; eauto.
    - destruct (saved (threads s i)) as [|st sv]; [discriminate|]. destruct (_ || _); [discriminate|]. injection H as <-. eauto.
    - destruct (holds s i); [|discriminate]. injection H as <-. eauto. }
  cbn [threads]. rewrite same_thread. split; [reflexivity|]. intros j N. now rewrite other_thread.
Qed.
Lemma remaining_step n s i s' : step s i = Next s' -> i < n -> remaining n s = S (remaining n s').
Proof.
  intros H L. destruct (step_shorter s i s' H) as [H1 H2]. unfold remaining.
  assert (X : forall l, NoDup l -> fold_right (fun i k => length (todo (threads s i)) + k) 0 l =
    (if in_dec Nat.eq_dec i l then 1 else 0) + fold_right (fun i k => length (todo (threads s' i)) + k) 0 l).
  { induction l as [|j l IH]; intros N; [reflexivity|]. inversion N as [|? ? N1 N2]; subst. cbn [fold_right]. rewrite (IH N2).
    destruct (Nat.eq_dec j i) as [->|D].
    - destruct (in_dec Nat.eq_dec i l); [contradiction|]. destruct (in_dec Nat.eq_dec i (i :: l)) as [_|C]; [|destruct C; now left]. lia.
    - rewrite (H2 j D). destruct (in_dec Nat.eq_dec i l) as [I|I], (in_dec Nat.eq_dec i (j :: l)) as [J|J]; try lia; exfalso; [apply J; now right|destruct J as [J|J]; auto]. }
  rewrite (X _ (seq_NoDup n 0)). destruct (in_dec Nat.eq_dec i (seq 0 n)) as [_|C]; [reflexivity|]. exfalso. apply C, in_seq. lia.
Qed.
Lemma run_app s a b : run s (a ++ b) = match run s a with Some s' => run s' b | None => None end.
Proof. revert s. induction a as [|i a IH]; intros s; cbn [app run]; [reflexivity|]. destruct (step s i); auto. Qed.
Theorem C96_completes : forall program n schedule, (forall i, proper false (program i)) -> (forall i, n <= i -> program i = Done) ->
  exists more s, run (initialise program) (schedule ++ more) = Some s /\ (forall i, finished s i) /\ length more <= fold_right (fun i k => length (actions (program i)) + k) 0 (seq 0 n).
Proof.
  intros program n schedule P B.
  assert (I : forall sched s, run (initialise program) sched = Some s -> (forall i, n <= i -> finished s i) /\ remaining n s <= remaining n (initialise program)).
  { intros sched. induction sched as [|k sched IH] using rev_ind; intros s R.
    - injection R as <-. split; [|lia]. intros i L. unfold finished. cbn. now rewrite (B i L).
    - rewrite run_app in R. destruct (run (initialise program) sched) as [s1|] eqn:R1; [|discriminate]. destruct (IH s1 eq_refl) as [F M]. cbn [run] in R. destruct (step s1 k) as [| |s2] eqn:E; [injection R as <-; auto|discriminate|].
      injection R as <-. destruct (step_shorter _ _ _ E) as [S1 S2]. assert (L : k < n).
      { destruct (Nat.lt_ge_cases k n) as [L|L]; [exact L|]. apply F in L. unfold finished in L. rewrite L in S1. discriminate. }
      split; [|rewrite (remaining_step n _ _ _ E L) in M; lia]. intros i L'. unfold finished. rewrite S2 by lia. now apply F. }
  destruct (run_valid program schedule _ (valid_initial program P)) as (s0 & R0 & _).
  assert (C : forall m sched s, run (initialise program) sched = Some s -> remaining n s = m -> exists more s', run (initialise program) (sched ++ more) = Some s' /\ (forall i, finished s' i) /\ length more = m).
  { induction m as [|m IH]; intros sched s R M.
    - exists [], s. rewrite app_nil_r. split; [exact R|]. split; [|reflexivity]. intros i. destruct (Nat.lt_ge_cases i n) as [L|L]; [|now apply (I sched)].
      unfold remaining in M. assert (X : forall l, In i l -> fold_right (fun i k => length (todo (threads s i)) + k) 0 l = 0 -> finished s i).
      { induction l as [|j l IHl]; intros [] Z; cbn [fold_right] in Z; [subst j; unfold finished; apply length_zero_iff_nil; lia|apply IHl; [assumption|lia]]. }
      apply (X (seq 0 n)); [apply in_seq; lia|exact M].
    - assert (E : exists i, ~ finished s i).
      { unfold remaining in M. assert (X : forall l, fold_right (fun i k => length (todo (threads s i)) + k) 0 l <> 0 -> exists i, ~ finished s i).
        { induction l as [|j l IHl]; intros Z; [contradiction|]. cbn [fold_right] in Z. destruct (todo (threads s j)) eqn:T; [apply IHl; exact Z|]. exists j. unfold finished. rewrite T. discriminate. }
        apply (X (seq 0 n)). lia. }
      destruct E as [i E]. destruct (C96_progress program sched s i P R E) as (j & s' & St).
      assert (L : j < n).
      { destruct (Nat.lt_ge_cases j n) as [L|L]; [exact L|]. destruct (step_shorter _ _ _ St) as [S1 _]. apply (proj1 (I sched s R)) in L. unfold finished in L. rewrite L in S1. discriminate. }
      pose proof (remaining_step n _ _ _ St L) as D. destruct (IH (sched ++ [j]) s') as (more & s2 & R2 & F2 & L2); [rewrite run_app, R; cbn [run]; now rewrite St|lia|].
      exists (j :: more), s2. rewrite <- app_assoc in R2. split; [exact R2|]. split; [exact F2|cbn; lia]. }
  destruct (C _ schedule s0 R0 eq_refl) as (more & s & R & F & L). exists more, s. split; [exact R|]. split; [exact F|]. rewrite L. apply (I schedule s0 R0).
Qed.
(** When no thread is within a guard, in particular at the end, the lock is free, so that the interpreter
    can be finalised. *)
Theorem C96_finalise : forall program schedule s, (forall i, proper false (program i)) ->
  run (initialise program) schedule = Some s ->
  ((forall i, ~ inside program s i) <-> restore_thread s <> None) /\ ((forall i, finished s i) -> restore_thread s <> None).
Proof.
  intros program schedule s P R. destruct (run_valid program schedule _ (valid_initial program P)) as (s0 & R0 & V). assert (s0 = s) by congruence. subst s0. clear R0.
  assert (Q : (forall i, ~ inside program s i) <-> restore_thread s <> None).
  { unfold restore_thread. destruct (owner s) as [o|] eqn:O.
    - split; [intros H; exfalso; apply (H o); now apply inside_saved|congruence].
    - split; [discriminate|]. intros _ i I. apply (inside_saved _ _ _ V) in I. congruence. }
  split; [exact Q|]. intros F. apply Q. intros i I. apply (inside_saved _ _ _ V) in I. destruct (V i) as [_ V2 _ V4 _]. specialize (F i). unfold finished in F. rewrite F in V2. cbn in V2.
  apply V4 in I. destruct (saved (threads s i)); [contradiction|discriminate].
Qed.

(** ** Wrapper *)
Lemma proper_uses n c : proper true c -> proper true (uses n c).
Proof. induction n as [|n IH]; intros P; cbn; auto. Qed.
(** Constructing and destroying components, also after a module could not be loaded, is proper; hence
    the theorems above apply. *)
Theorem C96_wrapper : forall c, proper false c ->
  proper false (constructor None (destructor c)) /\ proper false (constructor (Some Load) c) /\ proper false (destructor c).
Proof. intros c P. cbn. repeat split; auto. Qed.
(** False for the other failures: the members release their objects after the guard is gone. *)
Theorem C96_wrapper_exception_refuted : forall st c, st <> Load ->
  ~ proper false (constructor (Some st) c) /\ exists n, run (initialise (fun i => if i =? 0 then constructor (Some st) c else Done)) (repeat 0 n) = None.
Proof.
  intros st c N. split.
  - destruct st; [contradiction| | | | |]; cbn; intros (_ & H & _); discriminate.
  - destruct st; [contradiction|exists 5|exists 6|exists 6|exists 7|exists 7]; reflexivity.
Qed.
(** The comment in src/apps/python_runner/main.cpp 45-48, that the lock is held after initialise(), is false:
    the thread must not use the interpreter without a guard. *)
Theorem C96_initialise : forall program c, owner (initialise program) = None /\ (program 0 = Use c -> step (initialise program) 0 = Fatal).
Proof. intros program c. split; [reflexivity|]. intros E. unfold step. cbn [initialise save_thread initialize_interpreter threads todo]. rewrite E. reflexivity. Qed.

Definition two_threads (i : nat) : code :=
  match i with 0 => constructor None (destructor Done) | 1 => Scope (Use (Scope (Use Done) (Use Done))) Done | _ => Done end.
Example C96_example_proper : forall i, proper false (two_threads i).
Proof. intros [|[|i]]; cbn; repeat split. Qed.
(** thread 0 waits while thread 1 is within its guards *)
Example C96_example : option_map owner (run (initialise two_threads) [1; 1; 0; 1; 0; 1; 1]) = Some (Some 1)
  /\ option_map owner (run (initialise two_threads) [1; 1; 0; 1; 0; 1; 1; 1; 1]) = Some None
  /\ option_map owner (run (initialise two_threads) [1; 1; 0; 1; 0; 1; 1; 1; 1; 0]) = Some (Some 0)
  /\ option_map (fun s => todo (threads s 0)) (run (initialise two_threads) (repeat 0 12)) = Some [].
Proof. repeat split. Qed.

Print Assumptions C96_exclusive.
Print Assumptions C96_progress.
Print Assumptions C96_completes.
Print Assumptions C96_finalise.
Print Assumptions C96_wrapper.
Print Assumptions C96_wrapper_exception_refuted.
Print Assumptions C96_initialise.
