From Verif Require Import Base DoubleBufferingModel.

(** ** Specification of double buffering

    No buffers or pointers: the published value, the sender's working value, the
    set of connected receivers, the connected sender and the changed flags. *)
Section Spec.
  Context {A : Type} (in_ty out_ty : nat -> bool).

  Record dspec := MkSpec {
    published : A;
    working : A;
    receiver : nat -> bool;
    sender : option nat;
    flag : nat -> bool
  }.

  Definition is_sender (s : dspec) (p : nat) : bool :=
    match sender s with Some q => Nat.eqb p q | None => false end.

  Definition set_at {B} (f : nat -> B) (p : nat) (b : B) (q : nat) : B :=
    if Nat.eqb q p then b else f q.

  Definition dspec_step (s : dspec) (o : db_op A) : dspec * db_out A :=
    match o with
    | Edit p f => if is_sender s p
        then (MkSpec (published s) (f (working s)) (receiver s) (sender s) (flag s), DDone)
        else (s, DUB)
    | Swap p c => if is_sender s p
        then (MkSpec (working s) (if c then working s else published s)
                     (receiver s) (sender s)
                     (fun q => if receiver s q then true else flag s q), DDone)
        else (s, DUB)
    | Peek p => (s, if is_sender s p then DValue (working s) else DUB)
    | Read p => (s, if receiver s p then DValue (published s) else DUB)
    | Changed p => (s, DBool (flag s p))
    | Reset p => (MkSpec (published s) (working s) (receiver s) (sender s)
                         (set_at (flag s) p false), DDone)
    | DConnIn p => if in_ty p
        then (MkSpec (published s) (working s) (set_at (receiver s) p true)
                     (sender s) (flag s), DDone)
        else (s, DExn InvalidArgument)
    | DConnOut p =>
        match out_ty p, sender s with
        | true, None => (MkSpec (published s) (working s) (receiver s) (Some p) (flag s), DDone)
        | _, _ => (s, DExn InvalidArgument)
        end
    | DDiscIn p => if in_ty p && receiver s p
        then (MkSpec (published s) (working s) (set_at (receiver s) p false)
                     (sender s) (flag s), DBool true)
        else (s, DBool false)
    | DDiscOut p => if out_ty p && is_sender s p
        then (MkSpec (published s) (working s) (receiver s) None (flag s), DBool true)
        else (s, DBool false)
    end.

  Definition dspec_init (v0 : A) : dspec :=
    MkSpec v0 v0 (fun _ => false) None (fun _ => false).
End Spec.
Arguments dspec : clear implicits.

Lemma found_In p l : found p l = true <-> In p l.
Proof.
  unfold found. rewrite existsb_exists. split.
  - intros (x & Hx & E). apply Nat.eqb_eq in E. now subst.
  - intros H; exists p; split; [exact H|apply Nat.eqb_refl].
Qed.

Lemma erase1_In p q l : NoDup l -> (In q (erase1 p l) <-> In q l /\ q <> p).
Proof.
  induction l as [|r l IH]; intros N; simpl; [tauto|].
  inversion N as [|? ? Hn N']; subst. destruct (Nat.eqb_spec p r); subst.
  - split; [|intros [[E|?] Hne]; congruence].
    intros H; split; [now right|]. intros ->; contradiction.
  - simpl. rewrite (IH N'). split; [intros [->|[? ?]]|intros [[->|?] ?]]; auto.
Qed.

Lemma erase1_NoDup p l : NoDup l -> NoDup (erase1 p l).
Proof.
  induction l as [|r l IH]; intros N; simpl; [constructor|].
  inversion N as [|? ? Hn N']; subst. destruct (Nat.eqb_spec p r); [assumption|].
  constructor; [|now apply IH]. rewrite erase1_In by assumption. tauto.
Qed.

Lemma NoDup_snoc (p : nat) l : NoDup l -> ~ In p l -> NoDup (l ++ [p]).
Proof.
  induction l as [|r l IH]; intros N H; simpl; [constructor; [easy|constructor]|].
  inversion N; subst. constructor.
  - rewrite in_app_iff. simpl in *. intuition.
  - apply IH; [assumption|]. simpl in H. tauto.
Qed.

Section Proofs.
  Context {A : Type} (in_ty out_ty : nat -> bool).
  Notation step := (@db_step A in_ty out_ty).
  Notation sstep := (@dspec_step A in_ty out_ty).

  Record rel (s : db A) (a : dspec A) : Prop := MkRel {
    rel_pub : back_value s = published a;
    rel_work : front_value s = working a;
    rel_inproto : forall p, db_in_proto s p = receiver a p;
    rel_inputs : forall p, In p (db_inputs s) <-> receiver a p = true;
    rel_nodup : NoDup (db_inputs s);
    rel_output : db_output s = sender a;
    rel_outproto : forall p, db_out_proto s p = is_sender a p;
    rel_flag : forall p, db_changed s p = flag a p
  }.

  Lemma rel_found s a p : rel s a -> found p (db_inputs s) = receiver a p.
  Proof.
    intros R. apply eq_true_iff_eq. rewrite found_In. apply (rel_inputs _ _ R).
  Qed.

  Lemma db_step_rel s a o :
    rel s a ->
    rel (fst (step s o)) (fst (sstep a o)) /\ snd (step s o) = snd (sstep a o).
  Proof.
    intros R. assert (R' := R).
    destruct R' as [Rp Rw Ri Rl Rn Ro Rq Rf].
    destruct o as [p f|p c|p|p|p|p|p|p|p|p]; simpl.
    - rewrite Rq. destruct (is_sender a p); simpl; [|now split].
      split; [|reflexivity].
      constructor; simpl; auto; unfold back_value, front_value, cell_upd in *; simpl.
      + destruct (db_front s); simpl in *; assumption.
      + rewrite Bool.eqb_reflx. now rewrite Rw.
    - rewrite Rq. destruct (is_sender a p); simpl; [|now split].
      split; [|reflexivity].
      unfold swap_buffers, write_cell, back_value, front_value, cell_upd in *.
      constructor; destruct c, (db_front s); simpl in *; auto;
        intros q; rewrite (rel_found s a q R), Rf; reflexivity.
    - rewrite Rq. destruct (is_sender a p); simpl; [rewrite Rw|]; now split.
    - rewrite Ri. destruct (receiver a p); simpl; [rewrite Rp|]; now split.
    - rewrite Rf. now split.
    - split; [|reflexivity]. constructor; simpl; auto.
      intros q. unfold fupd, set_at. destruct (Nat.eqb q p); auto.
    - destruct (in_ty p); simpl; [|now split]. split; [|reflexivity].
      constructor; simpl; auto.
      + intros q. unfold fupd, set_at. destruct (Nat.eqb q p); auto.
      + intros q. rewrite (rel_found s a p R). unfold set_at.
        destruct (receiver a p) eqn:E.
        * rewrite Rl. destruct (Nat.eqb_spec q p); subst; tauto.
        * rewrite in_app_iff, Rl. simpl. destruct (Nat.eqb_spec q p); subst; intuition.
      + rewrite (rel_found s a p R). destruct (receiver a p) eqn:E; [assumption|].
        apply NoDup_snoc; [assumption|]. rewrite Rl. congruence.
    - rewrite Ro. destruct (out_ty p), (sender a) as [q|] eqn:E; simpl; try now split.
      split; [|reflexivity]. constructor; simpl; auto.
      intros q. unfold fupd, is_sender in *. simpl.
      destruct (Nat.eqb_spec q p); subst; [reflexivity|].
      rewrite Rq, E. reflexivity.
    - destruct (in_ty p); simpl; [|now split].
      rewrite (rel_found s a p R). destruct (receiver a p) eqn:E; simpl; [|now split].
      split; [|reflexivity]. constructor; simpl; auto.
      + intros q. unfold fupd, set_at. destruct (Nat.eqb q p); auto.
      + intros q. rewrite erase1_In by assumption. rewrite Rl. unfold set_at.
        destruct (Nat.eqb_spec q p); subst; intuition congruence.
      + now apply erase1_NoDup.
    - destruct (out_ty p); simpl; [|now split]. rewrite Ro.
      assert (Rq' := Rq). unfold is_sender in *.
      destruct (sender a) as [q|] eqn:E; simpl; [|now split].
      destruct (Nat.eqb_spec p q) as [->|Hne]; simpl; [|now split].
      split; [|reflexivity]. constructor; simpl; auto.
      intros r. unfold fupd, is_sender; simpl.
      destruct (Nat.eqb_spec r q); subst; [reflexivity|].
      rewrite Rq. now apply Nat.eqb_neq.
  Qed.

  Lemma db_init_rel (v0 : A) : rel (db_init v0) (dspec_init v0).
  Proof.
    constructor; simpl; auto; try constructor.
    - intros [].
    - discriminate.
  Qed.

  Lemma db_run_rel ops : forall s a,
    rel s a ->
    rel (final step s ops) (final sstep a ops)
    /\ outputs step s ops = outputs sstep a ops.
  Proof.
    induction ops as [|o os IH]; intros s a R; [now split|].
    rewrite !final_cons, !outputs_cons.
    destruct (db_step_rel s a o R) as [R1 E].
    destruct (IH _ _ R1) as [R2 E2]. now rewrite E, E2.
  Qed.

  Lemma db_refines (v0 : A) ops :
    outputs step (db_init v0) ops = outputs sstep (dspec_init v0) ops.
  Proof. apply db_run_rel, db_init_rel. Qed.

  Lemma db_reach (v0 : A) ops :
    rel (final step (db_init v0) ops) (final sstep (dspec_init v0) ops).
  Proof. apply db_run_rel, db_init_rel. Qed.

  (** *** Consequences in terms of histories *)

  Definition is_swap (o : db_op A) : bool := match o with Swap _ _ => true | _ => false end.

  Lemma spec_noswap_pub ops : forall a,
    forallb (fun o => negb (is_swap o)) ops = true ->
    published (final sstep a ops) = published a.
  Proof.
    induction ops as [|o os IH]; intros a H; [reflexivity|].
    simpl in H. apply andb_true_iff in H as [H1 H2].
    rewrite final_cons, IH by assumption.
    destruct o as [p f|p c|p|p|p|p|p|p|p|p]; simpl in *; try discriminate; try reflexivity.
    - now destruct (is_sender a p).
    - now destruct (in_ty p).
    - now destruct (out_ty p), (sender a).
    - now destruct (in_ty p && receiver a p).
    - now destruct (out_ty p && is_sender a p).
  Qed.

  (** Reading after the last successful swap gives the value the sender saw at the
      swap, whatever is done afterwards. *)
  Lemma db_read_last_swap (v0 : A) pre q copy v post p :
    let s := final step (db_init v0) pre in
    snd (step s (Peek q)) = DValue v ->
    forallb (fun o => negb (is_swap o)) post = true ->
    let t := final step (db_init v0) (pre ++ Swap q copy :: post) in
    forall w, snd (step t (Read p)) = DValue w -> w = v.
  Proof.
    intros s Hpeek Hpost t w Hread.
    pose proof (db_reach v0 pre) as R. fold s in R.
    pose proof (db_reach v0 (pre ++ Swap q copy :: post)) as Rt. fold t in Rt.
    rewrite final_app, final_cons in Rt.
    set (a := final sstep (dspec_init v0) pre) in *.
    destruct (db_step_rel s a (Peek q) R) as [_ E]. rewrite E in Hpeek. simpl in Hpeek.
    destruct (db_step_rel _ _ (Read p) Rt) as [_ E2]. rewrite E2 in Hread. simpl in Hread.
    rewrite spec_noswap_pub in Hread by assumption.
    cbn [dspec_step] in Hread.
    destruct (is_sender a q); [|discriminate]. simpl in Hread.
    destruct (receiver _ p) in Hread; congruence.
  Qed.

  Lemma db_read_before_swap (v0 : A) ops p w :
    forallb (fun o => negb (is_swap o)) ops = true ->
    snd (step (final step (db_init v0) ops) (Read p)) = DValue w -> w = v0.
  Proof.
    intros Hops Hr. pose proof (db_reach v0 ops) as R.
    destruct (db_step_rel _ _ (Read p) R) as [_ E]. rewrite E in Hr. simpl in Hr.
    rewrite spec_noswap_pub in Hr by assumption. simpl in Hr.
    destruct (receiver _ p); congruence.
  Qed.

  (** Changed flag of a receiver that stays connected. *)
  Definition touches (p : nat) (o : db_op A) : bool :=
    match o with DDiscIn q => Nat.eqb q p | _ => false end.
  Definition is_reset (p : nat) (o : db_op A) : bool :=
    match o with Reset q => Nat.eqb q p | _ => false end.

  (** A swap that took effect, with no resetChanged of [p] after it. *)
  Fixpoint fresh_swap (p : nat) (acc : bool) (hist : list (db_op A * db_out A)) : bool :=
    match hist with
    | [] => acc
    | (o, r) :: h =>
        fresh_swap p
          (match o, r with
           | Swap _ _, DDone => true
           | Reset q, _ => if Nat.eqb q p then false else acc
           | _, _ => acc
           end) h
    end.

  Lemma set_at_same {B} (f : nat -> B) p b : set_at f p b p = b.
  Proof. unfold set_at. now rewrite Nat.eqb_refl. Qed.
  Lemma set_at_other {B} (f : nat -> B) p q b : q <> p -> set_at f p b q = f q.
  Proof. unfold set_at. intros H. apply Nat.eqb_neq in H. now rewrite H. Qed.

  Lemma flag_gen p ops : forall a,
    receiver a p = true ->
    forallb (fun o => negb (touches p o)) ops = true ->
    receiver (final sstep a ops) p = true
    /\ flag (final sstep a ops) p
       = fresh_swap p (flag a p) (combine ops (outputs sstep a ops)).
  Proof.
    induction ops as [|o os IH]; intros a Hc Ht; [now split|].
    simpl in Ht. apply andb_true_iff in Ht as [Ht1 Ht2].
    rewrite final_cons, outputs_cons. cbn [combine fresh_swap].
    assert (Hc' : receiver (fst (sstep a o)) p = true).
    { destruct o as [q f|q c|q|q|q|q|q|q|q|q]; simpl in *; try assumption.
      - now destruct (is_sender a q).
      - now destruct (is_sender a q).
      - destruct (in_ty q); simpl; [|assumption]. unfold set_at. now destruct (Nat.eqb p q).
      - now destruct (out_ty q), (sender a).
      - destruct (in_ty q && receiver a q); simpl; [|assumption].
        apply negb_true_iff in Ht1.
        rewrite set_at_other; [assumption|]. apply Nat.eqb_neq in Ht1. congruence.
      - now destruct (out_ty q && is_sender a q). }
    destruct (IH _ Hc' Ht2) as [H1 H2]. split; [exact H1|]. rewrite H2. f_equal.
    destruct o as [q f|q c|q|q|q|q|q|q|q|q]; simpl in *; try reflexivity.
    - now destruct (is_sender a q).
    - destruct (is_sender a q); simpl; [|reflexivity]. now rewrite Hc.
    - unfold set_at. rewrite Nat.eqb_sym. now destruct (Nat.eqb q p).
    - now destruct (in_ty q).
    - now destruct (out_ty q), (sender a).
    - now destruct (in_ty q && receiver a q).
    - now destruct (out_ty q && is_sender a q).
  Qed.

  Lemma db_changed_flag (v0 : A) pre post p :
    let s := final step (db_init v0) pre in
    (exists v, snd (step s (Read p)) = DValue v) ->
    forallb (fun o => negb (touches p o)) post = true ->
    forall b, snd (step s (Changed p)) = DBool b ->
    snd (step (final step (db_init v0) (pre ++ post)) (Changed p))
    = DBool (fresh_swap p b (combine post (outputs step s post))).
  Proof.
    intros s [v Hr] Ht b Hb.
    pose proof (db_reach v0 pre) as R. fold s in R.
    set (a := final sstep (dspec_init v0) pre) in *.
    destruct (db_step_rel s a (Read p) R) as [_ E]. rewrite E in Hr. simpl in Hr.
    destruct (db_step_rel s a (Changed p) R) as [_ Ec]. rewrite Ec in Hb. simpl in Hb.
    destruct (receiver a p) eqn:Ra; [|discriminate].
    rewrite final_app. fold s.
    destruct (db_run_rel post s a R) as [Rp Eo]. rewrite Eo.
    destruct (db_step_rel _ _ (Changed p) Rp) as [_ Ep]. rewrite Ep. simpl.
    f_equal. destruct (flag_gen p post a Ra Ht) as [_ ->]. f_equal. congruence.
  Qed.
End Proofs.

(** ** Incremental editing (C04) *)
Section Incremental.
  Context {A : Type}.

  (** The sender applies a batch of edits, then swaps. *)
  Definition batch_ops (q : nat) (copy : bool) (es : list (A -> A)) : list (db_op A) :=
    map (Edit q) es ++ [Swap q copy].
  Definition session (q : nat) (copy : bool) (batches : list (list (A -> A))) : list (db_op A) :=
    concat (map (batch_ops q copy) batches).
  Definition apply_all (es : list (A -> A)) (v : A) : A := fold_left (fun x f => f x) es v.

  (** Value published after all batches / sender's working value, without copy:
      two independent lanes. *)
  Fixpoint lanes (pub work : A) (batches : list (list (A -> A))) : A * A :=
    match batches with
    | [] => (pub, work)
    | es :: r => lanes (apply_all es work) pub r
    end.

  Notation tt := (fun _ : nat => true).
  Notation sstep := (@dspec_step A tt tt).

  Lemma spec_edits q es : forall a, is_sender a q = true ->
    final sstep a (map (Edit q) es)
    = MkSpec (published a) (apply_all es (working a)) (receiver a) (sender a) (flag a).
  Proof.
    induction es as [|f es IH]; intros a H; [destruct a; reflexivity|].
    cbn [map]. rewrite final_cons. cbn [dspec_step]. rewrite H. simpl fst.
    rewrite IH by exact H. reflexivity.
  Qed.

  Lemma spec_batch q copy es a : is_sender a q = true ->
    let a' := final sstep a (batch_ops q copy es) in
    published a' = apply_all es (working a)
    /\ working a' = (if copy then apply_all es (working a) else published a)
    /\ sender a' = sender a
    /\ receiver a' = receiver a.
  Proof.
    intros H. unfold batch_ops. cbn zeta.
    rewrite final_app, (spec_edits q es a H), final_cons, final_nil.
    cbn [dspec_step]. unfold is_sender in *; simpl. rewrite H. simpl. auto.
  Qed.

  Lemma spec_session_copy q batches : forall a, is_sender a q = true ->
    let a' := final sstep a (session q true batches) in
    working a' = apply_all (concat batches) (working a)
    /\ (batches <> [] -> published a' = apply_all (concat batches) (working a))
    /\ sender a' = sender a /\ receiver a' = receiver a.
  Proof.
    induction batches as [|es r IH]; intros a H; [now repeat split|].
    cbn zeta. unfold session. cbn [map concat]. fold (session q true r).
    rewrite final_app.
    destruct (spec_batch q true es a H) as (Hp & Hw & Hs & Hrec).
    set (a1 := final sstep a (batch_ops q true es)) in *.
    assert (H1 : is_sender a1 q = true) by (unfold is_sender; rewrite Hs; exact H).
    destruct (IH a1 H1) as (Iw & Ip & Is & Ir).
    assert (Ha : apply_all (es ++ concat r) (working a) = apply_all (concat r) (working a1)).
    { unfold apply_all. rewrite fold_left_app. now rewrite Hw. }
    rewrite Iw, Is, Ir, Ha. repeat split; auto.
    intros _. destruct r as [|e2 r2].
    - change (published a1 = working a1). congruence.
    - rewrite Ip by discriminate. reflexivity.
  Qed.

  Lemma spec_session_nocopy q batches : forall a, is_sender a q = true ->
    let a' := final sstep a (session q false batches) in
    (published a', working a') = lanes (published a) (working a) batches
    /\ sender a' = sender a /\ receiver a' = receiver a.
  Proof.
    induction batches as [|es r IH]; intros a H; [now repeat split|].
    cbn zeta. unfold session. cbn [map concat]. fold (session q false r).
    rewrite final_app.
    destruct (spec_batch q false es a H) as (Hp & Hw & Hs & Hrec).
    set (a1 := final sstep a (batch_ops q false es)) in *.
    assert (H1 : is_sender a1 q = true) by (unfold is_sender; rewrite Hs; exact H).
    destruct (IH a1 H1) as (Iw & Is & Ir).
    rewrite Iw, Is, Ir. cbn [lanes]. rewrite Hp, Hw. auto.
  Qed.

  Notation step := (@db_step A tt tt).

  Lemma db_session_read (v0 : A) q p copy batches :
    let s := final step (db_init v0)
                   (DConnOut q :: DConnIn p :: session q copy batches) in
    let a := final sstep (dspec_init v0)
                   (DConnOut q :: DConnIn p :: session q copy batches) in
    snd (step s (Read p)) = DValue (published a)
    /\ snd (step s (Peek q)) = DValue (working a).
  Proof.
    intros s a. assert (R : rel s a) by apply db_reach.
    assert (Hs : is_sender a q = true /\ receiver a p = true).
    { unfold a. rewrite !final_cons.
      set (a0 := fst (sstep (fst (sstep (dspec_init v0) (DConnOut q))) (DConnIn p))).
      assert (H0 : is_sender a0 q = true) by (simpl; unfold is_sender; simpl; apply Nat.eqb_refl).
      assert (H1 : receiver a0 p = true) by (simpl; apply set_at_same).
      destruct copy.
      - destruct (spec_session_copy q batches a0 H0) as (_ & _ & E1 & E2).
        unfold is_sender in *. rewrite E1, E2. auto.
      - destruct (spec_session_nocopy q batches a0 H0) as (_ & E1 & E2).
        unfold is_sender in *. rewrite E1, E2. auto. }
    destruct Hs as [Hs1 Hs2].
    destruct (db_step_rel tt tt s a (Read p) R) as [_ ->].
    destruct (db_step_rel tt tt s a (Peek q) R) as [_ ->].
    simpl. rewrite Hs1, Hs2. auto.
  Qed.

  Lemma db_incremental_copy (v0 : A) q p batches :
    batches <> [] ->
    let s := final step (db_init v0)
                   (DConnOut q :: DConnIn p :: session q true batches) in
    snd (step s (Read p)) = DValue (apply_all (concat batches) v0)
    /\ snd (step s (Peek q)) = DValue (apply_all (concat batches) v0).
  Proof.
    intros Hne s. destruct (db_session_read v0 q p true batches) as [Hr Hp].
    fold s in Hr, Hp. rewrite Hr, Hp. rewrite !final_cons.
    set (a0 := fst (sstep (fst (sstep (dspec_init v0) (DConnOut q))) (DConnIn p))).
    assert (H0 : is_sender a0 q = true) by (simpl; unfold is_sender; simpl; apply Nat.eqb_refl).
    destruct (spec_session_copy q batches a0 H0) as (-> & E & _ & _).
    rewrite (E Hne). auto.
  Qed.

  Lemma db_incremental_nocopy (v0 : A) q p batches :
    let s := final step (db_init v0)
                   (DConnOut q :: DConnIn p :: session q false batches) in
    snd (step s (Read p)) = DValue (fst (lanes v0 v0 batches))
    /\ snd (step s (Peek q)) = DValue (snd (lanes v0 v0 batches)).
  Proof.
    intros s. destruct (db_session_read v0 q p false batches) as [Hr Hp].
    fold s in Hr, Hp. rewrite Hr, Hp. rewrite !final_cons.
    set (a0 := fst (sstep (fst (sstep (dspec_init v0) (DConnOut q))) (DConnIn p))).
    assert (H0 : is_sender a0 q = true) by (simpl; unfold is_sender; simpl; apply Nat.eqb_refl).
    destruct (spec_session_nocopy q batches a0 H0) as (E & _ & _).
    change (published a0) with v0 in E. change (working a0) with v0 in E.
    rewrite <- E. auto.
  Qed.
End Incremental.

Lemma db_nocopy_loses_edits :
  exists (v0 : list nat) (batches : list (list (list nat -> list nat))),
    let s := final (db_step (fun _ => true) (fun _ => true)) (db_init v0)
                   (DConnOut 0 :: DConnIn 1 :: session 0 false batches) in
    batches <> []
    /\ snd (db_step (fun _ => true) (fun _ => true) s (Read 1))
       <> DValue (apply_all (concat batches) v0).
Proof.
  exists [], [[cons 1]; [cons 2]]. split; [discriminate|]. vm_compute. discriminate.
Qed.

(** ** Shared data (C05) *)
Section SharedProofs.
  Context {A : Type} (in_ty out_ty : nat -> bool).
  Notation step := (@sd_step A in_ty out_ty).

  (** The value written last by an accepted sender access. *)
  Fixpoint last_written (v : A) (hist : list (sd_op A * sd_out A)) : A :=
    match hist with
    | [] => v
    | (SEdit _ f, SDone) :: h => last_written (f v) h
    | _ :: h => last_written v h
    end.

  Record sd_inv (s : sd A) : Prop := {
    si_in : forall p, sd_in_proto s p = true <-> In p (sd_inputs s);
    si_nodup : NoDup (sd_inputs s);
    si_out : forall p, sd_out_proto s p = true <-> sd_output s = Some p
  }.

  Lemma sd_step_inv s o : sd_inv s -> sd_inv (fst (step s o)).
  Proof.
    intros I. assert (I' := I). destruct I' as [Hi Hn Ho].
    destruct o as [p f|p|p|p|p|p]; simpl.
    - destruct (sd_out_proto s p); simpl; [constructor; simpl|]; auto.
    - exact I.
    - destruct (in_ty p); simpl; [|exact I].
      destruct (found p (sd_inputs s)) eqn:F; simpl; [exact I|].
      assert (~ In p (sd_inputs s)) by (rewrite <- found_In; congruence).
      constructor; simpl; auto.
      + intros q. rewrite in_app_iff. unfold fupd. simpl.
        destruct (Nat.eqb_spec q p); subst; [intuition|]. rewrite Hi. intuition congruence.
      + now apply NoDup_snoc.
    - destruct (out_ty p); simpl; [|exact I].
      destruct (sd_output s) eqn:E; simpl; [exact I|].
      constructor; simpl; auto. intros q. unfold fupd.
      destruct (Nat.eqb_spec q p); subst; [intuition|].
      rewrite Ho. split; congruence.
    - destruct (in_ty p); simpl; [|exact I].
      destruct (found p (sd_inputs s)) eqn:F; simpl; [|exact I].
      constructor; simpl; auto.
      + intros q. rewrite erase1_In by assumption. unfold fupd.
        destruct (Nat.eqb_spec q p); subst; [intuition congruence|].
        rewrite Hi. intuition.
      + now apply erase1_NoDup.
    - destruct (out_ty p); simpl; [|exact I].
      destruct (sd_output s) as [q|] eqn:E; simpl; [|exact I].
      destruct (Nat.eqb_spec p q); subst; simpl; [|exact I].
      constructor; simpl; auto. intros r. unfold fupd.
      destruct (Nat.eqb_spec r q); subst; [split; discriminate|].
      rewrite Ho. split; congruence.
  Qed.

  Lemma sd_reach_inv (v0 : A) ops : sd_inv (final step (sd_init v0) ops).
  Proof.
    apply final_invariant; [intros; now apply sd_step_inv|].
    constructor; simpl; [|constructor|]; intros; split; intros H; now inversion H.
  Qed.

  Lemma sd_data_gen ops : forall s,
    sd_data (final step s ops)
    = last_written (sd_data s) (combine ops (outputs step s ops)).
  Proof.
    induction ops as [|o os IH]; intros s; [reflexivity|].
    rewrite final_cons, outputs_cons, IH. cbn [combine last_written].
    destruct o as [p f|p|p|p|p|p]; simpl.
    - destruct (sd_out_proto s p); reflexivity.
    - reflexivity.
    - destruct (in_ty p); simpl; [|reflexivity]. now destruct (found p (sd_inputs s)).
    - destruct (out_ty p); simpl; [|reflexivity]. now destruct (sd_output s).
    - destruct (in_ty p); simpl; [|reflexivity]. now destruct (found p (sd_inputs s)).
    - destruct (out_ty p); simpl; [|reflexivity]. destruct (sd_output s); [|reflexivity].
      now destruct (Nat.eqb p n).
  Qed.

  Lemma sd_read_latest (v0 : A) ops p :
    let s := final step (sd_init v0) ops in
    In p (sd_inputs s) ->
    snd (step s (SRead p))
    = SValue (last_written v0 (combine ops (outputs step (sd_init v0) ops))).
  Proof.
    intros s H. simpl. pose proof (sd_reach_inv v0 ops) as I. fold s in I.
    apply (si_in _ I) in H. rewrite H. f_equal. apply sd_data_gen.
  Qed.

  Lemma sd_one_sender (v0 : A) ops p q :
    let s := final step (sd_init v0) ops in
    (snd (step s (SConnOut p)) = SDone <-> out_ty p = true /\ sd_output s = None)
    /\ (sd_out_proto s p = true -> sd_out_proto s q = true -> p = q)
    /\ (sd_out_proto s p = true -> snd (step s (SConnOut q)) = SExn InvalidArgument
                                   /\ fst (step s (SConnOut q)) = s).
  Proof.
    intros s. pose proof (sd_reach_inv v0 ops) as I. fold s in I.
    split; [|split].
    - simpl. destruct (out_ty p), (sd_output s); simpl; intuition congruence.
    - intros H1 H2. apply (si_out _ I) in H1. apply (si_out _ I) in H2. congruence.
    - intros H. apply (si_out _ I) in H. simpl. rewrite H. now destruct (out_ty q).
  Qed.

  (** Who is connected, from the history alone. *)
  Fixpoint connected_in (p : nat) (acc : bool) (hist : list (sd_op A * sd_out A)) : bool :=
    match hist with
    | [] => acc
    | (SConnIn q, SDone) :: h => connected_in p (if Nat.eqb q p then true else acc) h
    | (SDiscIn q, SBool true) :: h => connected_in p (if Nat.eqb q p then false else acc) h
    | _ :: h => connected_in p acc h
    end.

  Lemma sd_connected_gen p ops : forall s, sd_inv s ->
    sd_in_proto (final step s ops) p
    = connected_in p (sd_in_proto s p) (combine ops (outputs step s ops)).
  Proof.
    induction ops as [|o os IH]; intros s I; [reflexivity|].
    rewrite final_cons, outputs_cons, (IH _ (sd_step_inv s o I)).
    cbn [combine connected_in].
    destruct o as [q f|q|q|q|q|q]; simpl.
    - destruct (sd_out_proto s q); reflexivity.
    - reflexivity.
    - destruct (in_ty q); simpl; [|reflexivity].
      destruct (found q (sd_inputs s)) eqn:F; simpl.
      + destruct (Nat.eqb_spec q p); subst; [|reflexivity].
        apply found_In in F. apply (si_in _ I) in F. now rewrite F.
      + unfold fupd. rewrite Nat.eqb_sym. reflexivity.
    - destruct (out_ty q); simpl; [|reflexivity]. now destruct (sd_output s).
    - destruct (in_ty q); simpl; [|reflexivity].
      destruct (found q (sd_inputs s)) eqn:F; simpl; [|reflexivity].
      unfold fupd. now rewrite Nat.eqb_sym.
    - destruct (out_ty q); simpl; [|reflexivity]. destruct (sd_output s); [|reflexivity].
      now destruct (Nat.eqb q n).
  Qed.

  Lemma sd_read_spec (v0 : A) ops p :
    let hist := combine ops (outputs step (sd_init v0) ops) in
    snd (step (final step (sd_init v0) ops) (SRead p))
    = if connected_in p false hist then SValue (last_written v0 hist) else SUB.
  Proof.
    intros hist. simpl.
    rewrite (sd_connected_gen p ops (sd_init v0)) by apply (sd_reach_inv v0 []).
    simpl sd_in_proto. fold hist. destruct (connected_in p false hist); [|reflexivity].
    f_equal. apply sd_data_gen.
  Qed.
End SharedProofs.

(** ** SceneDecoder (C36) *)
Section SceneProofs.
  Context {OV Msg : Type} (update : Msg -> OV -> OV * bool).

  Definition good (m : Msg) : Prop := forall v, snd (update m v) = true.
  Definition apply_msgs (ms : list Msg) (v : OV) : OV :=
    fold_left (fun x m => fst (update m x)) ms v.

  Lemma sd_iters_good ref ms : forall s,
    Forall good ms ->
    let s' := fold_left (sd_iter update ref) ms s in
    db_cell s' ref = apply_msgs ms (db_cell s ref)
    /\ db_cell s' (negb ref) = db_cell s (negb ref)
    /\ db_front s' = if Nat.even (length ms) then db_front s else negb (db_front s).
  Proof.
    induction ms as [|m ms IH]; intros s H; [now repeat split|].
    inversion H as [|? ? Hm Hms]; subst. cbn zeta. cbn [fold_left].
    destruct (IH (sd_iter update ref s m) Hms) as (I1 & I2 & I3).
    cbn zeta in I1, I2, I3. rewrite I1, I2, I3.
    unfold sd_iter. specialize (Hm (db_cell s ref)).
    destruct (update m (db_cell s ref)) as [v ok] eqn:U. simpl in Hm. subst ok.
    unfold swap_buffers, write_cell, cell_upd; simpl.
    rewrite Bool.eqb_reflx, U. simpl.
    repeat split.
    - now destruct ref.
    - change (match length ms with O => false | S n' => Nat.even n' end)
        with (Nat.even (S (length ms))).
      rewrite Nat.even_succ, <- Nat.negb_even.
      now destruct (Nat.even (length ms)), (db_front s).
  Qed.

  (** One process() call with valid messages [ms]: what receivers see afterwards
      and what the sender will start from next time. *)
  Lemma scene_block (s : db OV) (ms : list Msg) :
    Forall good ms ->
    let s' := scene_process update s ms in
    if Nat.even (length ms)
    then back_value s' = back_value s
         /\ front_value s' = apply_msgs ms (front_value s)
    else back_value s' = apply_msgs ms (front_value s)
         /\ front_value s' = back_value s.
  Proof.
    intros H s'. unfold s', scene_process, back_value, front_value.
    destruct (sd_iters_good (db_front s) ms s H) as (I1 & I2 & I3).
    cbn zeta in I1, I2, I3.
    destruct (Nat.even (length ms)); rewrite I3; rewrite ?Bool.negb_involutive, ?I1, ?I2; auto.
  Qed.

  (** Any messages: the working value after trying them in order (failed ones may
      leave a partial update) and the number of accepted ones. *)
  Fixpoint try_msgs (ms : list Msg) (v : OV) : OV * nat :=
    match ms with
    | [] => (v, 0)
    | m :: r => let '(v1, ok) := update m v in
                let '(v2, n) := try_msgs r v1 in
                (v2, (if ok then 1 else 0) + n)
    end.

  Lemma sd_iters_any ref ms : forall s,
    let s' := fold_left (sd_iter update ref) ms s in
    let '(v, n) := try_msgs ms (db_cell s ref) in
    db_cell s' ref = v
    /\ db_cell s' (negb ref) = db_cell s (negb ref)
    /\ db_front s' = (if Nat.even n then db_front s else negb (db_front s))
    /\ db_inputs s' = db_inputs s
    /\ (forall p, db_changed s' p = if (0 <? n) && found p (db_inputs s) then true else db_changed s p).
  Proof.
    induction ms as [|m ms IH]; intros s; [now repeat split|].
    cbn [fold_left try_msgs]. specialize (IH (sd_iter update ref s m)).
    unfold sd_iter in *. destruct (update m (db_cell s ref)) as [v ok] eqn:U.
    destruct ok; unfold swap_buffers, write_cell, cell_upd in IH |- *; cbn [db_cell db_front db_inputs db_changed] in IH |- *;
      rewrite Bool.eqb_reflx in IH; destruct (try_msgs ms v) as [v2 n];
      destruct IH as (I1 & I2 & I3 & I4 & I5);
      rewrite I1, I2, I3, I4; (split; [reflexivity|]); (split; [now destruct ref|]).
    - split; [|split; [reflexivity|]].
      + rewrite Nat.even_succ, <- Nat.negb_even.
        now destruct (Nat.even n), (db_front s).
      + intros p. rewrite I5. simpl. now destruct (found p (db_inputs s)), (0 <? n).
    - split; [reflexivity|]. split; [reflexivity|]. intros p. rewrite I5. reflexivity.
  Qed.

  Lemma scene_block_any (s : db OV) (ms : list Msg) :
    let s' := scene_process update s ms in
    let '(v, n) := try_msgs ms (front_value s) in
    (if Nat.even n
     then back_value s' = back_value s /\ front_value s' = v
     else back_value s' = v /\ front_value s' = back_value s)
    /\ (forall p, db_changed s' p = if (0 <? n) && found p (db_inputs s) then true else db_changed s p).
  Proof.
    intros s'. unfold s', scene_process, back_value, front_value.
    pose proof (sd_iters_any (db_front s) ms s) as H. cbn zeta in H.
    destruct (try_msgs ms (db_cell s (db_front s))) as [v n].
    destruct H as (I1 & I2 & I3 & I4 & I5).
    destruct (Nat.even n); rewrite I3; rewrite ?Bool.negb_involutive, ?I1, ?I2; auto.
  Qed.
End SceneProofs.

(** Concrete message language: "add n" to a list; every message is valid. *)
Definition add_msg (m : nat) (v : list nat) : list nat * bool := (v ++ [m], true).

Lemma scene_cumulative_refuted_blocks :
  exists blocks : list (list nat),
    back_value (fold_left (scene_process add_msg) blocks (db_init []))
    <> apply_msgs add_msg (concat blocks) [].
Proof. exists [[1]; [2]]. vm_compute. discriminate. Qed.

Lemma scene_cumulative_refuted_one_block :
  exists msgs : list nat,
    back_value (scene_process add_msg (db_init []) msgs)
    <> apply_msgs add_msg msgs [].
Proof. exists [1; 2]. vm_compute. discriminate. Qed.

(** Even messages that replace the whole scene are lost. *)
Definition replace_msg (m : nat) (_ : nat) : nat * bool := (m, true).
Lemma scene_replace_refuted :
  exists msgs : list nat,
    msgs <> []
    /\ back_value (scene_process replace_msg (db_init 0) msgs)
       <> last msgs 0.
Proof. exists [1; 2]. split; vm_compute; discriminate. Qed.

(** The value published after blocks with one valid message each: only messages of
    the same parity contribute. *)
Lemma scene_single_messages {OV Msg} (update : Msg -> OV -> OV * bool) :
  forall (msgs : list Msg) (s : db OV),
  Forall (good update) msgs ->
  let s' := fold_left (fun s m => scene_process update s [m]) msgs s in
  (back_value s', front_value s')
  = lanes (back_value s) (front_value s)
      (map (fun m => [fun v => fst (update m v)]) msgs).
Proof.
  induction msgs as [|m msgs IH]; intros s H; [reflexivity|].
  inversion H as [|? ? Hm Hms]; subst. cbn zeta. cbn [fold_left map lanes].
  rewrite IH by assumption.
  destruct (scene_block update s [m] (Forall_cons m Hm (Forall_nil _))) as [-> ->].
  reflexivity.
Qed.
