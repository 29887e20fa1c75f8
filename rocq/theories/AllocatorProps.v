(** Property C16: object channel allocation. *)
From Verif Require Import Base AllocatorModel AllocatorProofs.
Local Open Scope Z_scope.

(** State after a history of setObjects() calls (exceptions caught by the caller). *)
Definition after (max : nat) (history : list (list Z)) : alloc :=
  fold_left (fun a ids => fst (set_objects a ids)) history (alloc_new max).

Lemma after_inv max history : Forall (@NoDup Z) history ->
  a_inv (after max history) /\ a_max (after max history) = max.
Proof.
  intros H. unfold after.
  assert (G : forall a, a_inv a -> a_max a = max ->
    a_inv (fold_left (fun a ids => fst (set_objects a ids)) history a)
    /\ a_max (fold_left (fun a ids => fst (set_objects a ids)) history a) = max).
  { induction H as [|ids history ND _ IH]; intros a I M; [auto|]. cbn [fold_left].
    destruct (Nat.leb_spec (length ids) (a_max a)) as [L|L].
    - destruct (set_objects_ok a ids I ND L) as (a' & E & I' & M' & _). rewrite E. cbn [fst].
      apply IH; congruence.
    - assert (E : set_objects a ids = (a, Throw InvalidArgument)).
      { unfold set_objects. apply Nat.ltb_lt in L. now rewrite L. }
      rewrite E. auto. }
  apply G; [apply a_new_inv|reflexivity].
Qed.

(** C16: channels are exclusive and in range after any history. *)
Theorem C16_channels_exclusive :
  forall max history, Forall (@NoDup Z) history ->
  let a := after max history in
  (forall i j ch, channel_of a i = Some ch -> channel_of a j = Some ch -> i = j)
  /\ (forall i ch, channel_of a i = Some ch -> (ch < max)%nat)
  /\ (length (active a) <= max)%nat.
Proof.
  intros max history H a. destruct (after_inv max history H) as [I M]. fold a in I, M.
  split; [|split].
  - intros i j ch. now apply channels_exclusive.
  - intros i ch Hc. rewrite <- M. eapply channel_bound; eauto.
  - destruct I as [_ P]. apply Permutation.Permutation_length in P.
    rewrite app_length, map_length, seq_length in P. unfold active. rewrite map_length. lia.
Qed.
Print Assumptions C16_channels_exclusive.

(** C16: a fitting duplicate-free list is always accepted, exactly its objects are active
    afterwards, and every object active before and after keeps its channel. *)
Theorem C16_set_objects_accepted_and_stable :
  forall max history ids, Forall (@NoDup Z) history -> NoDup ids -> (length ids <= max)%nat ->
  let a := after max history in
  exists a', set_objects a ids = (a', Ok tt) /\ a' = after max (history ++ [ids])
    /\ (forall i, (exists ch, channel_of a' i = Some ch) <-> In i ids)
    /\ (forall i ch, In i ids -> channel_of a i = Some ch -> channel_of a' i = Some ch).
Proof.
  intros max history ids H ND L a. destruct (after_inv max history H) as [I M]. fold a in I, M.
  destruct (set_objects_ok a ids I ND) as (a' & E & I' & M' & A & K); [lia|].
  exists a'. split; [exact E|]. split; [|split].
  - unfold after. rewrite fold_left_app. cbn [fold_left]. unfold after in a. fold a. now rewrite E.
  - intros i. now rewrite <- active_channel.
  - intros i ch Hi Hc. rewrite K; auto. apply active_channel. eauto.
Qed.
Print Assumptions C16_set_objects_accepted_and_stable.

(** C16: too large lists are rejected without effect (in any state, duplicates or not). *)
Theorem C16_too_many_objects_rejected :
  forall a ids, (a_max a < length ids)%nat -> set_objects a ids = (a, Throw InvalidArgument).
Proof. intros a ids L. unfold set_objects. apply Nat.ltb_lt in L. now rewrite L. Qed.
Print Assumptions C16_too_many_objects_rejected.

(** C16: the query is the inverse of the assignment. *)
Theorem C16_object_for_channel :
  forall max history ch, Forall (@NoDup Z) history ->
  let a := after max history in
  (exists i, channel_of a i = Some ch /\ get_object a ch = i)
  \/ ((forall i, channel_of a i <> Some ch) /\ get_object a ch = invalid_id).
Proof.
  intros max history ch H a. destruct (after_inv max history H) as [I M]. fold a in I, M.
  destruct (find (fun kv => Nat.eqb (snd kv) ch) (a_lookup a)) as [[k v]|] eqn:F.
  - left. exists k. apply find_some in F as [F1 F2]. apply Nat.eqb_eq in F2. simpl in F2. subst v.
    assert (C : channel_of a k = Some ch) by now apply in_channel.
    split; [exact C|now apply get_object_inverse].
  - right. assert (N : forall i, channel_of a i <> Some ch).
    { intros i C. apply channel_in in C. pose proof (find_none _ _ F _ C) as X. simpl in X.
      now rewrite Nat.eqb_refl in X. }
    split; [exact N|now apply get_object_unused].
Qed.
Print Assumptions C16_object_for_channel.

(** Without the no-duplicates condition a call fails half-way and leaks a channel; after
    that a fitting list is refused.  Also, channels beyond the maximum are not rejected
    by getObjectForChannel() although documented. *)
Theorem C16_duplicates_leak_refuted :
  exists max dup ids,
    (length dup <= max)%nat
    /\ snd (set_objects (alloc_new max) dup) = Throw LogicError
    /\ NoDup ids /\ (length ids <= max)%nat
    /\ snd (set_objects (fst (set_objects (alloc_new max) dup)) ids) = Throw RuntimeError.
Proof.
  exists 2%nat, [7; 7], [1; 2]. split; [simpl; lia|]. split; [vm_compute; reflexivity|].
  split; [repeat constructor; simpl; intuition congruence|]. split; [simpl; lia|].
  vm_compute. reflexivity.
Qed.
Print Assumptions C16_duplicates_leak_refuted.

Theorem C16_channel_out_of_range_not_rejected_refuted :
  exists max ch, (max <= ch)%nat /\ get_object (alloc_new max) ch = invalid_id.
Proof. exists 1%nat, 5%nat. split; [lia|reflexivity]. Qed.
Print Assumptions C16_channel_out_of_range_not_rejected_refuted.

Example C16_example :
  let a := after 3 [[7; 3]; [3; 9; 1]; [1; 2; 3; 4]; [9; 1]] in
  channel_of a 9 = Some 2%nat /\ channel_of a 1 = Some 1%nat /\ channel_of a 3 = None
  /\ channel_of (after 3 [[7; 3]; [3; 9; 1]]) 3 = Some 0%nat.
Proof. vm_compute. repeat split. Qed.
