From Verif Require Import Base MessageQueueModel.

(** Specification automaton: the pending messages, oldest first.  Written without
    the model's helpers. *)
Section FifoSpec.
  Context {A : Type}.

  Definition fifo_step (pending : list A) (o : mq_op A) : list A * mq_out A :=
    match o with
    | Enqueue x => (pending ++ [x], ODone)
    | Front => (pending, match pending with [] => OExn LogicError | x :: _ => OValue x end)
    | Pop => match pending with [] => ([], OExn LogicError) | _ :: r => (r, ODone) end
    | Clear => ([], ODone)
    | Empty => (pending, OBool (match pending with [] => true | _ => false end))
    | Size => (pending, OSize (length pending))
    end.

  (** The messages sent, and the messages the receiver consumed (the value it saw
      with front() right before each successful pop()), over a history without
      clear(). *)
  Fixpoint sent (ops : list (mq_op A)) : list A :=
    match ops with
    | [] => []
    | Enqueue x :: os => x :: sent os
    | _ :: os => sent os
    end.

  Fixpoint consumed (q : queue A) (ops : list (mq_op A)) : list A :=
    match ops with
    | [] => []
    | o :: os =>
        let q' := fst (mq_step q o) in
        match o with
        | Pop => match snd (mq_step q Front) with
                 | OValue x => x :: consumed q' os
                 | _ => consumed q' os
                 end
        | _ => consumed q' os
        end
    end.

  Definition is_clear (o : mq_op A) : bool := match o with Clear => true | _ => false end.
End FifoSpec.

Section Proofs.
  Context {A : Type}.
  Implicit Types q : queue A.

  Lemma back_app q x : deque_back (q ++ [x]) = Some x.
  Proof.
    induction q as [|y q IH]; [reflexivity|].
    simpl. destruct (q ++ [x]) eqn:E; [destruct q; discriminate|exact IH].
  Qed.

  Lemma pop_back_app q x : deque_pop_back (q ++ [x]) = q.
  Proof.
    induction q as [|y q IH]; [reflexivity|].
    simpl. destruct (q ++ [x]) eqn:E; [destruct q; discriminate|].
    now rewrite IH.
  Qed.

  Lemma mq_empty_app q x : mq_empty (q ++ [x]) = false.
  Proof. destruct q; reflexivity. Qed.

  (** Abstraction: pending messages are the deque from back to front. *)
  Lemma step_refines (pending : list A) (o : mq_op A) :
    mq_step (rev pending) o
    = (rev (fst (fifo_step pending o)), snd (fifo_step pending o)).
  Proof.
    destruct o; simpl.
    - now rewrite rev_app_distr.
    - destruct pending as [|x r]; [reflexivity|]. simpl.
      unfold mq_next. now rewrite mq_empty_app, back_app.
    - destruct pending as [|x r]; [reflexivity|]. simpl.
      unfold mq_pop. now rewrite mq_empty_app, pop_back_app.
    - reflexivity.
    - destruct pending as [|x r]; [reflexivity|]. simpl. now rewrite mq_empty_app.
    - unfold mq_size. now rewrite rev_length.
  Qed.

  Lemma run_refines (ops : list (mq_op A)) : forall pending,
    outputs mq_step (rev pending) ops = outputs fifo_step pending ops
    /\ final mq_step (rev pending) ops = rev (final fifo_step pending ops).
  Proof.
    induction ops as [|o os IH]; intros pending; [now split|].
    rewrite !outputs_cons, !final_cons, step_refines. simpl.
    destruct (IH (fst (fifo_step pending o))) as [H1 H2].
    rewrite H1, H2. now split.
  Qed.

  Lemma queue_is_fifo (ops : list (mq_op A)) :
    outputs mq_step mq_init ops = outputs fifo_step [] ops.
  Proof. exact (proj1 (run_refines ops [])). Qed.

  Lemma conservation_gen (ops : list (mq_op A)) : forall pending,
    forallb (fun o => negb (is_clear o)) ops = true ->
    pending ++ sent ops
    = consumed (rev pending) ops ++ rev (final mq_step (rev pending) ops).
  Proof.
    induction ops as [|o os IH]; intros pending Hc.
    - simpl. now rewrite app_nil_r, final_nil, rev_involutive.
    - simpl in Hc. apply andb_true_iff in Hc as [Ho Hos].
      specialize (IH (fst (fifo_step pending o)) Hos).
      rewrite final_cons.
      assert (Hs : fst (mq_step (rev pending) o) = rev (fst (fifo_step pending o)))
        by now rewrite step_refines.
      cbn [consumed]. rewrite Hs.
      destruct o; cbn [sent fifo_step fst] in *; try discriminate.
      + rewrite <- IH, <- app_assoc. reflexivity.
      + exact IH.
      + rewrite (step_refines pending Front). cbn [snd fifo_step].
        destruct pending as [|x r]; cbn [fst] in *.
        * exact IH.
        * rewrite <- !app_comm_cons. f_equal. exact IH.
      + exact IH.
      + exact IH.
  Qed.

  Lemma queue_conserves (ops : list (mq_op A)) :
    forallb (fun o => negb (is_clear o)) ops = true ->
    sent ops = consumed mq_init ops ++ rev (final mq_step mq_init ops).
  Proof. exact (conservation_gen ops []). Qed.

  Lemma queue_never_ub (ops : list (mq_op A)) :
    ~ In OUB (outputs mq_step mq_init ops).
  Proof.
    rewrite queue_is_fifo. generalize (@nil A) as p.
    induction ops as [|o os IH]; intros p; [intros []|].
    rewrite outputs_cons. intros [H|H]; [|exact (IH _ H)].
    destruct o; simpl in H; destruct p; discriminate.
  Qed.
End Proofs.

(** ** Connections *)

(** The caller never hands a port to an instance while it still belongs to a
    different one. *)
Definition disciplined_op (s : world) (o : conn_op) : Prop :=
  match o with
  | ConnIn k p => w_in_proto s p = None \/ w_in_proto s p = Some k
  | ConnOut k p => w_out_proto s p = None \/ w_out_proto s p = Some k
  | _ => True
  end.

Fixpoint disciplined (in_ty out_ty : nat -> bool) (s : world) (ops : list conn_op) : Prop :=
  match ops with
  | [] => True
  | o :: os => disciplined_op s o
               /\ disciplined in_ty out_ty (fst (conn_step in_ty out_ty s o)) os
  end.

(** All calls concern one instance. *)
Definition only_instance (k : nat) (o : conn_op) : Prop :=
  match o with
  | ConnIn j _ | ConnOut j _ | DiscIn j _ | DiscOut j _ => j = k
  end.

(** Ports and protocols agree about who is connected to whom. *)
Definition ownership_consistent (in_ty out_ty : nat -> bool) (s : world) : Prop :=
  (forall k p, w_in_proto s p = Some k <-> w_input s k = Some p)
  /\ (forall k p, w_out_proto s p = Some k <-> w_output s k = Some p)
  /\ (forall k p, w_input s k = Some p -> in_ty p = true)
  /\ (forall k p, w_output s k = Some p -> out_ty p = true).

Section ConnProofs.
  Context (in_ty out_ty : nat -> bool).
  Notation step := (conn_step in_ty out_ty).
  Notation inv := (ownership_consistent in_ty out_ty).

  Lemma half_connect (f g : nat -> option nat) k p :
    (forall k p, g p = Some k <-> f k = Some p) ->
    f k = None -> g p = None \/ g p = Some k ->
    forall j q, upd g p (Some k) q = Some j <-> upd f k (Some p) j = Some q.
  Proof.
    intros H Hf Hg j q. unfold upd.
    assert (Hg' : g p = None).
    { destruct Hg as [|Hg]; [assumption|]. apply H in Hg. congruence. }
    destruct (Nat.eqb_spec q p), (Nat.eqb_spec j k); subst.
    - now split.
    - split; [intros E; inversion E; congruence|].
      intros E. apply H in E. congruence.
    - split; [|intros E; inversion E; congruence].
      intros E. apply H in E. congruence.
    - apply H.
  Qed.

  Lemma half_disconnect (f g : nat -> option nat) k p :
    (forall k p, g p = Some k <-> f k = Some p) ->
    f k = Some p ->
    forall j q, upd g p None q = Some j <-> upd f k None j = Some q.
  Proof.
    intros H Hf j q. unfold upd.
    assert (Hg : g p = Some k) by now apply H.
    destruct (Nat.eqb_spec q p), (Nat.eqb_spec j k); subst.
    - now split.
    - split; [discriminate|]. intros E. apply H in E. congruence.
    - split; [|discriminate]. intros E. apply H in E. congruence.
    - apply H.
  Qed.

  Lemma upd_typed (ty : nat -> bool) (f : nat -> option nat) k p :
    (forall k p, f k = Some p -> ty p = true) -> ty p = true ->
    forall j q, upd f k (Some p) j = Some q -> ty q = true.
  Proof.
    intros H T j q. unfold upd. destruct (Nat.eqb j k); [|apply H].
    intros E; inversion E; now subst.
  Qed.

  Lemma upd_none_typed (ty : nat -> bool) (f : nat -> option nat) k :
    (forall k p, f k = Some p -> ty p = true) ->
    forall j q, upd f k None j = Some q -> ty q = true.
  Proof. intros H j q. unfold upd. destruct (Nat.eqb j k); [discriminate|apply H]. Qed.

  Lemma opt_is_true o p : opt_is o p = true -> o = Some p.
  Proof. destruct o; simpl; [|discriminate]. intros E. apply Nat.eqb_eq in E. now subst. Qed.

  Lemma conn_step_inv s o : disciplined_op s o -> inv s -> inv (fst (step s o)).
  Proof.
    intros D (Hi & Ho & Ti & To).
    assert (I0 : inv s) by (split; [|split; [|split]]; assumption).
    destruct o as [k p|k p|k p|k p]; simpl in D |- *.
    - destruct (in_ty p) eqn:T; simpl; [|exact I0].
      destruct (w_input s k) eqn:Ci; simpl; [exact I0|].
      split; [|split; [|split]]; simpl; try assumption.
      + now apply half_connect.
      + now apply upd_typed.
    - destruct (out_ty p) eqn:T; simpl; [|exact I0].
      destruct (w_output s k) eqn:Ci; simpl; [exact I0|].
      split; [|split; [|split]]; simpl; try assumption.
      + now apply half_connect.
      + now apply upd_typed.
    - destruct (in_ty p) eqn:T; simpl; [|exact I0].
      destruct (opt_is (w_input s k) p) eqn:E; simpl; [|exact I0].
      apply opt_is_true in E.
      split; [|split; [|split]]; simpl; try assumption.
      + now apply half_disconnect.
      + now apply upd_none_typed.
    - destruct (out_ty p) eqn:T; simpl; [|exact I0].
      destruct (opt_is (w_output s k) p) eqn:E; simpl; [|exact I0].
      apply opt_is_true in E.
      split; [|split; [|split]]; simpl; try assumption.
      + now apply half_disconnect.
      + now apply upd_none_typed.
  Qed.

  Lemma conn_init_inv : inv conn_init.
  Proof. split; [|split; [|split]]; simpl; try discriminate; now split. Qed.

  Lemma conn_run_inv ops : forall s,
    inv s -> disciplined in_ty out_ty s ops -> inv (final step s ops).
  Proof.
    induction ops as [|o os IH]; intros s Hs D; [exact Hs|].
    destruct D as [D1 D2]. rewrite final_cons.
    apply IH; [now apply conn_step_inv | exact D2].
  Qed.

  Lemma conn_reachable_inv ops :
    disciplined in_ty out_ty conn_init ops ->
    ownership_consistent in_ty out_ty (final step conn_init ops).
  Proof. apply conn_run_inv, conn_init_inv. Qed.

  (** Histories that only use one instance are disciplined. *)
  Definition mentions_only (k : nat) (s : world) : Prop :=
    forall p, (w_in_proto s p = None \/ w_in_proto s p = Some k)
              /\ (w_out_proto s p = None \/ w_out_proto s p = Some k).

  Lemma upd_mentions (g : nat -> option nat) p k o :
    (forall q, g q = None \/ g q = Some k) -> o = None \/ o = Some k ->
    forall q, upd g p o q = None \/ upd g p o q = Some k.
  Proof. intros H Ho q. unfold upd. destruct (Nat.eqb q p); auto. Qed.

  Lemma step_mentions k s o :
    only_instance k o -> mentions_only k s -> mentions_only k (fst (step s o)).
  Proof.
    intros K M.
    assert (M1 := fun p => proj1 (M p)). assert (M2 := fun p => proj2 (M p)).
    destruct o as [j p|j p|j p|j p]; simpl in K; subst j; simpl;
      [destruct (in_ty p) | destruct (out_ty p) | destruct (in_ty p) | destruct (out_ty p)];
      simpl; try exact M.
    - destruct (is_some _); simpl; [exact M|]. intros q; split; [|apply M2].
      now apply upd_mentions; auto.
    - destruct (is_some _); simpl; [exact M|]. intros q; split; [apply M1|].
      now apply upd_mentions; auto.
    - destruct (opt_is _ _); simpl; [|exact M]. intros q; split; [|apply M2].
      now apply upd_mentions; auto.
    - destruct (opt_is _ _); simpl; [|exact M]. intros q; split; [apply M1|].
      now apply upd_mentions; auto.
  Qed.

  Lemma single_instance_disciplined_gen k ops : forall s,
    mentions_only k s -> Forall (only_instance k) ops -> disciplined in_ty out_ty s ops.
  Proof.
    induction ops as [|o os IH]; intros s M F; [exact I|].
    inversion F; subst. split.
    - destruct o; simpl in *; subst; auto; apply M.
    - apply IH; [now apply step_mentions | assumption].
  Qed.

  Lemma single_instance_inv k ops :
    Forall (only_instance k) ops ->
    ownership_consistent in_ty out_ty (final step conn_init ops).
  Proof.
    intros F. apply conn_reachable_inv. apply (single_instance_disciplined_gen k); [|exact F].
    intros p; split; now left.
  Qed.

  Lemma conn_at_most_one ops k p q :
    disciplined in_ty out_ty conn_init ops ->
    let s := final step conn_init ops in
    (w_in_proto s p = Some k -> w_in_proto s q = Some k -> p = q)
    /\ (w_out_proto s p = Some k -> w_out_proto s q = Some k -> p = q).
  Proof.
    intros D s. destruct (conn_reachable_inv ops D) as (Hi & Ho & _ & _).
    split; intros H1 H2.
    - apply Hi in H1. apply Hi in H2. fold s in H1, H2. congruence.
    - apply Ho in H1. apply Ho in H2. fold s in H1, H2. congruence.
  Qed.

  (** Calls that do not succeed change nothing. *)
  Lemma conn_failed_unchanged s o :
    snd (step s o) <> CDone -> snd (step s o) <> CBool true -> fst (step s o) = s.
  Proof.
    destruct o as [k p|k p|k p|k p]; simpl.
    - destruct (in_ty p), (w_input s k); simpl; congruence.
    - destruct (out_ty p), (w_output s k); simpl; congruence.
    - destruct (in_ty p), (opt_is (w_input s k) p); simpl; congruence.
    - destruct (out_ty p), (opt_is (w_output s k) p); simpl; congruence.
  Qed.

  (** Exact outcome of every call. *)
  Lemma conn_outcomes s k p :
    (snd (step s (ConnIn k p)) = CDone <-> in_ty p = true /\ w_input s k = None)
    /\ (snd (step s (ConnIn k p)) = CExn InvalidArgument
         <-> in_ty p = false \/ w_input s k <> None)
    /\ (snd (step s (ConnOut k p)) = CDone <-> out_ty p = true /\ w_output s k = None)
    /\ (snd (step s (ConnOut k p)) = CExn InvalidArgument
         <-> out_ty p = false \/ w_output s k <> None)
    /\ (snd (step s (DiscIn k p)) = CBool true <-> in_ty p = true /\ w_input s k = Some p)
    /\ (snd (step s (DiscOut k p)) = CBool true <-> out_ty p = true /\ w_output s k = Some p).
  Proof.
    assert (Hop : forall o p, opt_is o p = true <-> o = Some p).
    { intros o q; split; [apply opt_is_true|]. intros ->; apply Nat.eqb_refl. }
    split; [|split; [|split; [|split; [|split]]]]; simpl.
    - destruct (in_ty p), (w_input s k); simpl; intuition congruence.
    - destruct (in_ty p), (w_input s k); simpl; intuition congruence.
    - destruct (out_ty p), (w_output s k); simpl; intuition congruence.
    - destruct (out_ty p), (w_output s k); simpl; intuition congruence.
    - rewrite <- Hop. destruct (in_ty p), (opt_is (w_input s k) p); simpl;
        intuition congruence.
    - rewrite <- Hop. destruct (out_ty p), (opt_is (w_output s k) p); simpl;
        intuition congruence.
  Qed.

  Lemma conn_effects s k p :
    (snd (step s (ConnIn k p)) = CDone ->
       w_input (fst (step s (ConnIn k p))) k = Some p
       /\ w_in_proto (fst (step s (ConnIn k p))) p = Some k)
    /\ (snd (step s (ConnOut k p)) = CDone ->
       w_output (fst (step s (ConnOut k p))) k = Some p
       /\ w_out_proto (fst (step s (ConnOut k p))) p = Some k)
    /\ (snd (step s (DiscIn k p)) = CBool true ->
       w_input (fst (step s (DiscIn k p))) k = None
       /\ w_in_proto (fst (step s (DiscIn k p))) p = None)
    /\ (snd (step s (DiscOut k p)) = CBool true ->
       w_output (fst (step s (DiscOut k p))) k = None
       /\ w_out_proto (fst (step s (DiscOut k p))) p = None).
  Proof.
    split; [|split; [|split]]; simpl.
    - destruct (in_ty p), (w_input s k); simpl; try discriminate.
      intros _; unfold upd; now rewrite !Nat.eqb_refl.
    - destruct (out_ty p), (w_output s k); simpl; try discriminate.
      intros _; unfold upd; now rewrite !Nat.eqb_refl.
    - destruct (in_ty p), (opt_is (w_input s k) p); simpl; try discriminate.
      intros _; unfold upd; now rewrite !Nat.eqb_refl.
    - destruct (out_ty p), (opt_is (w_output s k) p); simpl; try discriminate.
      intros _; unfold upd; now rewrite !Nat.eqb_refl.
  Qed.

End ConnProofs.

(** Without the discipline: instance 1 believes port 7 is its input although the
    port's protocol pointer is null (dereferencing it is undefined behaviour). *)
Lemma conn_shared_port_refuted :
  exists (ops : list conn_op) (p k : nat),
    let ty := fun _ : nat => true in
    let s := final (conn_step ty ty) conn_init ops in
    Forall (fun o => o = CDone \/ o = CBool true) (outputs (conn_step ty ty) conn_init ops)
    /\ w_input s k = Some p /\ w_in_proto s p = None.
Proof.
  exists [ConnIn 0 7; ConnIn 1 7; DiscIn 0 7], 7, 1.
  vm_compute. split; [|split; reflexivity].
  repeat (apply Forall_cons; [first [left; reflexivity | right; reflexivity]|]).
  apply Forall_nil.
Qed.
