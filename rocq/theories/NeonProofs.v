(** Proofs about the NEON kernels: every loop computes the elementwise operation on the elements it
    covers, whatever the register width and the unused lanes. *)
From Verif Require Import Base Memory SimdModel SimdProofs NeonModel NeonSpec.
Local Open Scope res_scope.

Section Elements.
  Context {T : Type}.
  Variables (e : nat) (f : list (list T) -> list T).

  Definition elements (n : nat) (srcs : list nat) (y : nat) (m m' : list T) : Prop :=
    length m' = length m
    /\ (forall j, j < y \/ y + n * e <= j -> nth_error m' j = nth_error m j)
    /\ forall i, i < n -> words m' e (y + i * e) = f (map (fun p => words m e (p + i * e)) srcs).

  Lemma elements_unique n srcs y m m1 m2 : elements n srcs y m m1 -> elements n srcs y m m2 -> m1 = m2.
  Proof.
    intros (L1 & O1 & I1) (L2 & O2 & I2).
    apply (elementwise_unique e (fun _ _ c => c) n 0 0 y m1 m1 m2).
    - split; [reflexivity|]. split; [reflexivity|]. intros; reflexivity.
    - split; [congruence|]. split.
      + intros j H. now rewrite O1, O2.
      + intros i H. now rewrite I2, I1.
  Qed.

  Lemma elements_trans k w srcs y m m1 m2 :
    Forall (fun p => p = y \/ p + (k + w) * e <= y \/ y + (k + w) * e <= p) srcs ->
    elements k srcs y m m1 -> elements w (map (fun p => p + k * e) srcs) (y + k * e) m1 m2 ->
    elements (k + w) srcs y m m2.
  Proof.
    intros C (L1 & O1 & I1) (L2 & O2 & I2). split; [congruence|]. split.
    - intros j H. rewrite O2, O1; [reflexivity| |]; lia.
    - intros i H. destruct (lt_dec i k).
      + rewrite <- I1 by assumption. apply words_ext. intros r Hr. apply O2. left. nia.
      + replace (y + i * e) with (y + k * e + (i - k) * e) by nia. rewrite I2 by lia. f_equal.
        rewrite map_map. apply map_ext_in. intros p Hp.
        apply words_ext. intros r Hr.
        replace (p + k * e + (i - k) * e + r) with (p + i * e + r) by nia.
        apply O1. rewrite Forall_forall in C. specialize (C p Hp). nia.
  Qed.

  (** The instructions on registers of [w] elements *)
  Definition acts (k w : nat) (op : list (list T) -> list T) : Prop :=
    forall rs, length rs = k -> Forall (fun r => length r = w * e) rs ->
      length (op rs) = w * e
      /\ forall i, i < w -> firstn e (skipn (i * e) (op rs)) = f (map (fun r => firstn e (skipn (i * e) r)) rs).

  Lemma read_all (m : list T) len srcs :
    Forall (fun p => p + len <= length m) srcs ->
    map_res (fun p => mem_read m p len) srcs = Ok (map (words m len) srcs).
  Proof.
    induction 1 as [|p srcs H _ IH]; [reflexivity|]. simpl.
    rewrite words_read by assumption. cbn [bind]. rewrite IH. reflexivity.
  Qed.

  Lemma execute_ok w op (s : @at_ T) :
    acts (length (sources s)) w op ->
    Forall (fun p => p + w * e <= length (contents s)) (sources s) -> dest s + w * e <= length (contents s) ->
    exists m', execute (w * e) op s = Ok m' /\ elements w (sources s) (dest s) (contents s) m'.
  Proof.
    intros A F Y. destruct s as [n srcs y m]. simpl in *.
    unfold execute. simpl. rewrite read_all by assumption. cbn [bind].
    destruct (A (map (words m (w * e)) srcs)) as (Ld & I).
    { now rewrite map_length. }
    { rewrite Forall_map. eapply Forall_impl; [|exact F]. intros p Hp. now apply words_length. }
    set (d := op _) in *.
    destruct (mem_write_ok m y d) as (m' & E & L & N); [lia|].
    exists m'. split; [exact E|]. split; [exact L|]. split.
    - intros j Hj. rewrite N, Ld.
      destruct (Nat.leb_spec y j), (Nat.ltb_spec j (y + w * e)); simpl; try reflexivity; lia.
    - intros i Hi. transitivity (firstn e (skipn (i * e) d)).
      + apply nth_error_ext. intros r. rewrite words_nth, nth_error_firstn, nth_error_skipn.
        destruct (Nat.ltb_spec r e); [|reflexivity]. rewrite N, Ld.
        destruct (Nat.leb_spec y (y + i * e + r)); [|lia].
        destruct (Nat.ltb_spec (y + i * e + r) (y + w * e)); [|nia]. simpl. f_equal. lia.
      + rewrite I by assumption. f_equal. rewrite map_map. apply map_ext. intros p.
        rewrite words_words by nia. reflexivity.
  Qed.

  Section Run.
    Variables (n : nat) (srcs : list nat) (y : nat) (m0 : list T).
    Hypothesis Hops : operands (n * e) srcs y m0.

    Definition progress (s : at_) : Prop := exists k,
      k <= n /\ left s = n - k /\ sources s = map (fun p => p + k * e) srcs /\ dest s = y + k * e
      /\ elements k srcs y m0 (contents s).

    Lemma progress_start : progress (At n srcs y m0).
    Proof.
      exists 0. simpl. repeat split; try lia.
      rewrite <- (map_id srcs) at 1. apply map_ext. intros. lia.
    Qed.

    Lemma progress_step w op s :
      acts (length srcs) w op -> progress s -> w <= left s ->
      exists m', execute (w * e) op s = Ok m' /\ progress (advance w (w * e) s m').
    Proof.
      intros A (k & Hk & Hl & Hs & Hd & HE) Hw. destruct Hops as (Oy & Os).
      assert (L : length (contents s) = length m0) by apply HE.
      destruct (execute_ok w op s) as (m' & E & EE).
      - now rewrite Hs, map_length.
      - rewrite Hs, Forall_map. eapply Forall_impl; [|exact Os]. intros p (Hp & _). cbn beta. rewrite L. nia.
      - rewrite L. nia.
      - exists m'. split; [exact E|]. exists (k + w). unfold advance. simpl. split; [lia|]. split; [lia|].
        split; [rewrite Hs, map_map; apply map_ext; intros; lia|]. split; [lia|].
        eapply elements_trans; [|exact HE|].
        + eapply Forall_impl; [|exact Os]. intros p (_ & Hp). cbn beta in *. nia.
        + now rewrite <- Hs, <- Hd.
    Qed.

    Lemma loop_ok w op s :
      0 < w -> acts (length srcs) w op -> progress s ->
      exists s', loop w (w * e) op s = Ok s' /\ progress s' /\ left s' < w.
    Proof.
      intros Hw A. unfold loop. remember (left s) as fuel eqn:Hf.
      assert (Hle : left s <= fuel) by lia. clear Hf. revert s Hle.
      induction fuel as [|fuel IH]; intros s Hle P; cbn [repeat_].
      - destruct (Nat.ltb_spec (left s) w); [|lia]. eauto.
      - destruct (Nat.ltb_spec (left s) w); [eauto|].
        destruct (progress_step w op s A P H) as (m' & E & P').
        rewrite E. cbn [bind]. apply IH; [simpl; lia|exact P'].
    Qed.

    Lemma once_ok w op s :
      acts (length srcs) w op -> progress s -> left s < 2 * w ->
      exists s', once w (w * e) op s = Ok s' /\ progress s' /\ left s' < w.
    Proof.
      intros A P H. unfold once. destruct (Nat.ltb_spec (left s) w); [eauto|].
      destruct (progress_step w op s A P) as (m' & E & P'); [assumption|].
      rewrite E. cbn [bind]. eexists. split; [reflexivity|]. split; [exact P'|]. simpl. lia.
    Qed.

    Lemma progress_done s : progress s -> left s < 1 -> elements n srcs y m0 (contents s).
    Proof. intros (k & Hk & Hl & Hs & Hd & HE) H. replace n with k by lia. exact HE. Qed.
  End Run.
End Elements.

Local Notation valid_at e srcs y alignment := (aligned e (srcs ++ [y]) alignment).

Section Kernels.
  Context {T : Type} (junk : nat -> list T).

  Lemma checked_ok debug e srcs y alignment (run : @result T) m spec :
    (exists m', run = Ok (NoError, m') /\ spec m') ->
    computes (checked debug e srcs y alignment run m) debug (valid_at e srcs y alignment) m spec.
  Proof.
    intros H. unfold computes, checked, aligned. destruct (debug && _); [reflexivity|exact H].
  Qed.

  Lemma kernel_float_ok f debug op4 op2 op1 srcs y n alignment (m : list T) :
    operands n srcs y m ->
    acts 1 f (length srcs) 4 op4 -> acts 1 f (length srcs) 2 op2 -> acts 1 f (length srcs) 1 (lane junk op1) ->
    computes (kernel_float junk debug op4 op2 op1 srcs y n alignment m) debug (valid_at 1 srcs y alignment) m
      (elements 1 f n srcs y m).
  Proof.
    intros O A4 A2 A1. apply checked_ok. rewrite <- (Nat.mul_1_r n) in O.
    destruct (loop_ok 1 f n srcs y m O 4 op4 _ ltac:(lia) A4 (progress_start 1 f n srcs y m)) as (s & E & P & L).
    change (4 * 1) with 4 in E. rewrite E. cbn [bind].
    destruct (once_ok 1 f n srcs y m O 2 op2 s A2 P ltac:(lia)) as (s' & E' & P' & L').
    change (2 * 1) with 2 in E'. rewrite E'. cbn [bind].
    destruct (once_ok 1 f n srcs y m O 1 _ s' A1 P' ltac:(lia)) as (s2 & E2 & P2 & L2).
    change (1 * 1) with 1 in E2. rewrite E2. cbn [bind].
    eexists. split; [reflexivity|]. eapply progress_done; eassumption.
  Qed.

  Lemma kernel_complex_add_ok f debug op4 op2 srcs y n alignment (m : list T) :
    operands (n * 2) srcs y m ->
    acts 2 f (length srcs) 2 op4 -> acts 2 f (length srcs) 1 op2 ->
    computes (kernel_complex_add debug op4 op2 srcs y n alignment m) debug (valid_at 2 srcs y alignment) m
      (elements 2 f n srcs y m).
  Proof.
    intros O A4 A2. apply checked_ok.
    destruct (loop_ok 2 f n srcs y m O 2 op4 _ ltac:(lia) A4 (progress_start 2 f n srcs y m)) as (s & E & P & L).
    change (2 * 2) with 4 in E. rewrite E. cbn [bind].
    destruct (once_ok 2 f n srcs y m O 1 op2 s A2 P ltac:(lia)) as (s' & E' & P' & L').
    change (1 * 2) with 2 in E'. rewrite E'. cbn [bind].
    eexists. split; [reflexivity|]. eapply progress_done; eassumption.
  Qed.

  Lemma kernel_complex_ok f debug op4 op2 op1 srcs y n alignment (m : list T) :
    operands (n * 2) srcs y m ->
    acts 2 f (length srcs) 4 (struct op4) -> acts 2 f (length srcs) 2 (struct op2) ->
    acts 2 f (length srcs) 1 (struct_lane junk op1) ->
    computes (kernel_complex junk debug op4 op2 op1 srcs y n alignment m) debug (valid_at 2 srcs y alignment) m
      (elements 2 f n srcs y m).
  Proof.
    intros O A4 A2 A1. apply checked_ok.
    destruct (loop_ok 2 f n srcs y m O 4 _ _ ltac:(lia) A4 (progress_start 2 f n srcs y m)) as (s & E & P & L).
    change (4 * 2) with 8 in E. rewrite E. cbn [bind].
    destruct (once_ok 2 f n srcs y m O 2 _ s A2 P ltac:(lia)) as (s' & E' & P' & L').
    change (2 * 2) with 4 in E'. rewrite E'. cbn [bind].
    destruct (once_ok 2 f n srcs y m O 1 _ s' A1 P' ltac:(lia)) as (s2 & E2 & P2 & L2).
    change (1 * 2) with 2 in E2. rewrite E2. cbn [bind].
    eexists. split; [reflexivity|]. eapply progress_done; eassumption.
  Qed.

  Lemma reference_ok e f op srcs y n alignment (m : list T) :
    operands (n * e) srcs y m -> acts e f (length srcs) 1 op ->
    computes (reference e op srcs y n alignment m) true (valid_at e srcs y alignment) m
      (elements e f n srcs y m).
  Proof.
    intros O A. apply checked_ok.
    destruct (loop_ok e f n srcs y m O 1 _ _ ltac:(lia) A (progress_start e f n srcs y m)) as (s & E & P & L).
    rewrite Nat.mul_1_l in E. rewrite E. cbn [bind].
    eexists. split; [reflexivity|]. eapply progress_done; eassumption.
  Qed.

  (** an in-place function checks its destination once *)
  Lemma aligned_twice e ps y alignment : In y ps -> aligned e (ps ++ [y]) alignment = aligned e ps alignment.
  Proof.
    intros H. unfold aligned. rewrite forallb_app. cbn [forallb].
    destruct (forallb _ ps) eqn:E; [|reflexivity]. rewrite forallb_forall in E. now rewrite (E y H).
  Qed.

  Lemma computes_impl (kernel : @result T) debug valid m (P Q : list T -> Prop) :
    computes kernel debug valid m P -> (forall m', P m' -> Q m') -> computes kernel debug valid m Q.
  Proof. unfold computes. destruct (debug && _); [auto|]. intros (m' & E & H) I. eauto. Qed.

  Lemma replaces_by (kernel ref : @result T) debug valid m e f n srcs y :
    computes kernel debug valid m (elements e f n srcs y m) ->
    computes ref true valid m (elements e f n srcs y m) -> replaces kernel ref valid m.
  Proof.
    unfold computes, replaces. destruct valid; cbn [negb andb]; [|intros _ R; exact R].
    rewrite andb_false_r. intros (m1 & -> & E1) (m2 & -> & E2).
    now rewrite (elements_unique e f n srcs y m m1 m2 E1 E2).
  Qed.

  (** *** Operations given on numbers *)
  Fixpoint singles (rs : list (list T)) : option (list T) :=
    match rs with
    | [] => Some []
    | [x] :: rs => match singles rs with Some xs => Some (x :: xs) | None => None end
    | _ => None
    end.
  Definition real_f (g : list T -> option T) (rs : list (list T)) : list T :=
    match singles rs with Some xs => match g xs with Some v => [v] | None => [] end | None => [] end.
  Fixpoint pairs (rs : list (list T)) : option (list (T * T)) :=
    match rs with
    | [] => Some []
    | [x; y] :: rs => match pairs rs with Some xs => Some ((x, y) :: xs) | None => None end
    | _ => None
    end.
  Definition complex_f (g : list (T * T) -> option (T * T)) (rs : list (list T)) : list T :=
    match pairs rs with Some xs => match g xs with Some v => [fst v; snd v] | None => [] end | None => [] end.

  Lemma words_one (m : list T) p x : nth_error m p = Some x -> words m 1 p = [x].
  Proof.
    intros E. apply nth_error_ext. intros [|i]; rewrite words_nth; simpl.
    - now rewrite Nat.add_0_r.
    - now destruct i.
  Qed.
  Lemma words_two (m : list T) p z : stored m p z -> words m 2 p = [fst z; snd z].
  Proof.
    intros [E1 E2]. apply nth_error_ext. intros [|[|i]]; rewrite words_nth; simpl.
    - now rewrite Nat.add_0_r.
    - exact E2.
    - now destruct i.
  Qed.

  Lemma elements_real g n srcs y m m' :
    (forall xs, length xs = length srcs -> exists v, g xs = Some v) ->
    elements 1 (real_f g) n srcs y m m' -> real_elements g n srcs y m m'.
  Proof.
    intros G (L & O & I). split; [exact L|]. split; [intros; apply O; lia|].
    intros i xs Hi F. specialize (I i Hi). rewrite Nat.mul_1_r in I.
    destruct (G xs) as (v & Ev). { clear -F. induction F; simpl; congruence. }
    exists v. split; [exact Ev|].
    assert (S : singles (map (fun p => words m 1 (p + i)) srcs) = Some xs).
    { clear -F. induction F as [|p x srcs xs E _ IH]; [reflexivity|]. cbn [map].
      rewrite (words_one _ _ _ E). cbn [singles]. now rewrite IH. }
    unfold real_f in I. rewrite S, Ev in I.
    assert (W := words_nth m' 1 (y + i) 0). rewrite I in W. simpl in W.
    rewrite Nat.add_0_r in W. congruence.
  Qed.

  Lemma elements_complex g n srcs y m m' :
    (forall xs, length xs = length srcs -> exists v, g xs = Some v) ->
    elements 2 (complex_f g) n srcs y m m' -> complex_elements g n srcs y m m'.
  Proof.
    intros G (L & O & I). split; [exact L|]. split; [intros; apply O; lia|].
    intros i xs Hi F. specialize (I i Hi). rewrite Nat.mul_comm in I.
    destruct (G xs) as (v & Ev). { clear -F. induction F; simpl; congruence. }
    exists v. split; [exact Ev|].
    assert (S : pairs (map (fun p => words m 2 (p + 2 * i)) srcs) = Some xs).
    { clear -F. induction F as [|p x srcs xs E _ IH]; [reflexivity|]. cbn [map].
      rewrite (words_two _ _ _ E). cbn [pairs]. rewrite IH. now destruct x. }
    assert (S' : pairs (map (fun p => words m 2 (p + i * 2)) srcs) = Some xs)
      by (now rewrite (Nat.mul_comm i 2)).
    unfold complex_f in I. rewrite ?S, ?S', Ev in I.
    split.
    - assert (W := words_nth m' 2 (y + 2 * i) 0). rewrite I in W. cbn in W.
      rewrite Nat.add_0_r in W. symmetry. exact W.
    - assert (W := words_nth m' 2 (y + 2 * i) 1). rewrite I in W. cbn in W. symmetry. exact W.
  Qed.
End Kernels.

(** splits the registers into their lanes *)
Ltac lanes :=
  match goal with
  | H : length ?l = 0 |- _ => destruct l; [clear H|discriminate H]
  | H : length ?l = S _ |- _ => destruct l; [discriminate H|simpl in H; apply eq_add_S in H]
  end.
