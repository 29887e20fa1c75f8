(** C03, C04, C05, C36: public statements about double buffering, shared data and
    the scene decoder. *)
From Verif Require Import Base DoubleBufferingModel DoubleBufferingProofs.

(** C03: every history of calls through any ports gives the results of the
    buffer-free specification [dspec_step] (published value, working value, set of
    connected receivers, changed flags). *)
Theorem C03_double_buffering_refines_spec :
  forall (A : Type) (in_ty out_ty : nat -> bool) (v0 : A) (ops : list (db_op A)),
  outputs (db_step in_ty out_ty) (db_init v0) ops
  = outputs (dspec_step in_ty out_ty) (dspec_init v0) ops.
Proof. exact @db_refines. Qed.
Print Assumptions C03_double_buffering_refines_spec.

(** C03: a receiver reads the value the sender's buffer had at the last swap;
    whatever happens after the swap (edits, connects, ...) is invisible. *)
Theorem C03_receiver_sees_value_of_last_swap :
  forall (A : Type) (in_ty out_ty : nat -> bool) (v0 : A) (pre : list (db_op A))
         (q : nat) (copy : bool) (v : A) (post : list (db_op A)) (p : nat),
  let step := db_step in_ty out_ty in
  let s := final step (db_init v0) pre in
  snd (step s (Peek q)) = DValue v ->
  forallb (fun o => negb (is_swap o)) post = true ->
  let t := final step (db_init v0) (pre ++ Swap q copy :: post) in
  forall w, snd (step t (Read p)) = DValue w -> w = v.
Proof. exact @db_read_last_swap. Qed.
Print Assumptions C03_receiver_sees_value_of_last_swap.

Theorem C03_receiver_sees_initial_value_before_swap :
  forall (A : Type) (in_ty out_ty : nat -> bool) (v0 : A) (ops : list (db_op A))
         (p : nat) (w : A),
  forallb (fun o => negb (is_swap o)) ops = true ->
  snd (db_step in_ty out_ty (final (db_step in_ty out_ty) (db_init v0) ops) (Read p))
    = DValue w -> w = v0.
Proof. exact @db_read_before_swap. Qed.
Print Assumptions C03_receiver_sees_initial_value_before_swap.

(** C03: while receiver [p] stays connected its changed flag is: true if a swap
    took effect and was not followed by resetChanged, false if reset since, else
    as before. *)
Theorem C03_changed_flag :
  forall (A : Type) (in_ty out_ty : nat -> bool) (v0 : A) (pre post : list (db_op A))
         (p : nat),
  let step := db_step in_ty out_ty in
  let s := final step (db_init v0) pre in
  (exists v, snd (step s (Read p)) = DValue v) ->
  forallb (fun o => negb (touches p o)) post = true ->
  forall b, snd (step s (Changed p)) = DBool b ->
  snd (step (final step (db_init v0) (pre ++ post)) (Changed p))
  = DBool (fresh_swap p b (combine post (outputs step s post))).
Proof. exact @db_changed_flag. Qed.
Print Assumptions C03_changed_flag.

Example C03_example :
  let ty := fun p => Nat.ltb p 10 in
  outputs (db_step ty ty) (db_init 0)
    [DConnOut 5; DConnIn 1; DConnIn 2; DConnIn 12; Edit 5 S; Read 1; Changed 1; Peek 5;
     Swap 5 false; Edit 5 (fun n => n + 7); Read 1; Read 2; Changed 1; Reset 1;
     Changed 1; Changed 2; DDiscIn 2; Read 2; Swap 5 true; Read 1; Changed 1; Peek 5]
  = [DDone; DDone; DDone; DExn InvalidArgument; DDone; DValue 0; DBool false; DValue 1;
     DDone; DDone; DValue 1; DValue 1; DBool true; DDone; DBool false; DBool true;
     DBool true; DUB; DDone; DValue 7; DBool true; DValue 7].
Proof. reflexivity. Qed.

Example C03_hypotheses_example :
  let ty := fun p => Nat.ltb p 10 in
  let pre := [DConnOut 5; DConnIn 1; Edit 5 S] in
  let post := [Edit 5 S; Reset 1; Read 1] in
  let s := final (db_step ty ty) (db_init 0) pre in
  snd (db_step ty ty s (Peek 5)) = DValue 1
  /\ forallb (fun o => negb (is_swap o)) post = true
  /\ forallb (fun o => negb (touches 1 o)) post = true
  /\ snd (db_step ty ty s (Read 1)) = DValue 0
  /\ snd (db_step ty ty s (Changed 1)) = DBool false
  /\ snd (db_step ty ty (final (db_step ty ty) (db_init 0) (pre ++ Swap 5 false :: post))
            (Read 1)) = DValue 1.
Proof. vm_compute. repeat split. Qed.

(** C04: with swapBuffers(true) after each batch of incremental edits, receivers
    and sender see all edits so far, in order. *)
Theorem C04_incremental_edits_with_copy :
  forall (A : Type) (v0 : A) (q p : nat) (batches : list (list (A -> A))),
  batches <> [] ->
  let step := db_step (fun _ => true) (fun _ => true) in
  let s := final step (db_init v0) (DConnOut q :: DConnIn p :: session q true batches) in
  snd (step s (Read p)) = DValue (apply_all (concat batches) v0)
  /\ snd (step s (Peek q)) = DValue (apply_all (concat batches) v0).
Proof. exact @db_incremental_copy. Qed.
Print Assumptions C04_incremental_edits_with_copy.

(** C04: with swapBuffers(false) the batches go to two alternating lanes. *)
Theorem C04_incremental_edits_without_copy :
  forall (A : Type) (v0 : A) (q p : nat) (batches : list (list (A -> A))),
  let step := db_step (fun _ => true) (fun _ => true) in
  let s := final step (db_init v0) (DConnOut q :: DConnIn p :: session q false batches) in
  snd (step s (Read p)) = DValue (fst (lanes v0 v0 batches))
  /\ snd (step s (Peek q)) = DValue (snd (lanes v0 v0 batches)).
Proof. exact @db_incremental_nocopy. Qed.
Print Assumptions C04_incremental_edits_without_copy.

(** C04: so incremental editing with the default swapBuffers() loses updates. *)
Theorem C04_default_swap_accumulates_refuted :
  exists (v0 : list nat) (batches : list (list (list nat -> list nat))),
    let step := db_step (fun _ => true) (fun _ => true) in
    let s := final step (db_init v0)
                   (DConnOut 0 :: DConnIn 1 :: session 0 false batches) in
    batches <> []
    /\ snd (step s (Read 1)) <> DValue (apply_all (concat batches) v0).
Proof. exact db_nocopy_loses_edits. Qed.
Print Assumptions C04_default_swap_accumulates_refuted.

Example C04_example :
  lanes [] [] [[cons 1]; [cons 2; cons 3]; [cons 4]] = ([4; 1], [3; 2])
  /\ apply_all (concat [[cons 1]; [cons 2; cons 3]; [cons 4]]) [] = [4; 3; 2; 1].
Proof. split; reflexivity. Qed.

(** C05: a receiver reads the value last written by the sender iff it is connected
    (both read off the history of calls and their results). *)
Theorem C05_shared_data_visible :
  forall (A : Type) (in_ty out_ty : nat -> bool) (v0 : A) (ops : list (sd_op A)) (p : nat),
  let step := sd_step in_ty out_ty in
  let hist := combine ops (outputs step (sd_init v0) ops) in
  snd (step (final step (sd_init v0) ops) (SRead p))
  = if connected_in p false hist then SValue (last_written v0 hist) else SUB.
Proof. exact @sd_read_spec. Qed.
Print Assumptions C05_shared_data_visible.

Theorem C05_at_most_one_sender :
  forall (A : Type) (in_ty out_ty : nat -> bool) (v0 : A) (ops : list (sd_op A)) (p q : nat),
  let step := sd_step in_ty out_ty in
  let s := final step (sd_init v0) ops in
  (snd (step s (SConnOut p)) = SDone <-> out_ty p = true /\ sd_output s = None)
  /\ (sd_out_proto s p = true -> sd_out_proto s q = true -> p = q)
  /\ (sd_out_proto s p = true -> snd (step s (SConnOut q)) = SExn InvalidArgument
                                 /\ fst (step s (SConnOut q)) = s).
Proof. exact @sd_one_sender. Qed.
Print Assumptions C05_at_most_one_sender.

Example C05_example :
  let ty := fun _ => true in
  outputs (sd_step ty ty) (sd_init 3)
    [SConnIn 1; SConnIn 2; SConnOut 5; SRead 1; SEdit 5 S; SRead 1; SRead 2; SConnOut 6;
     SDiscIn 1; SRead 1; SRead 2; SEdit 6 S]
  = [SDone; SDone; SDone; SValue 3; SDone; SValue 4; SValue 4; SExn InvalidArgument;
     SBool true; SUB; SValue 4; SUB].
Proof. reflexivity. Qed.

(** C36: scene updates distributed over two blocks are not cumulative. *)
Theorem C36_scene_updates_over_blocks_refuted :
  exists blocks : list (list nat),
    back_value (fold_left (scene_process add_msg) blocks (db_init []))
    <> apply_msgs add_msg (concat blocks) [].
Proof. exact scene_cumulative_refuted_blocks. Qed.
Print Assumptions C36_scene_updates_over_blocks_refuted.

(** C36: nor are two updates in the same block. *)
Theorem C36_scene_updates_in_one_block_refuted :
  exists msgs : list nat,
    back_value (scene_process add_msg (db_init []) msgs)
    <> apply_msgs add_msg msgs [].
Proof. exact scene_cumulative_refuted_one_block. Qed.
Print Assumptions C36_scene_updates_in_one_block_refuted.

(** C36: even messages that replace the complete scene are lost. *)
Theorem C36_scene_snapshots_refuted :
  exists msgs : list nat,
    msgs <> []
    /\ back_value (scene_process replace_msg (db_init 0) msgs) <> last msgs 0.
Proof. exact scene_replace_refuted. Qed.
Print Assumptions C36_scene_snapshots_refuted.

(** C36: what does hold: the exact effect of one process() call with valid
    messages.  An even number of messages publishes nothing new. *)
Theorem C36_scene_block_effect_partial :
  forall (OV Msg : Type) (update : Msg -> OV -> OV * bool) (s : db OV) (ms : list Msg),
  Forall (good update) ms ->
  let s' := scene_process update s ms in
  if Nat.even (length ms)
  then back_value s' = back_value s
       /\ front_value s' = apply_msgs update ms (front_value s)
  else back_value s' = apply_msgs update ms (front_value s)
       /\ front_value s' = back_value s.
Proof. exact @scene_block. Qed.
Print Assumptions C36_scene_block_effect_partial.

(** C36: the effect of one process() call with arbitrary messages, some of which
    may be rejected (possibly after a partial update): receivers get a new value
    iff an odd number was accepted, and are notified iff at least one was. *)
Theorem C36_scene_block_any_messages_partial :
  forall (OV Msg : Type) (update : Msg -> OV -> OV * bool) (s : db OV) (ms : list Msg),
  let s' := scene_process update s ms in
  let '(v, accepted) := try_msgs update ms (front_value s) in
  (if Nat.even accepted
   then back_value s' = back_value s /\ front_value s' = v
   else back_value s' = v /\ front_value s' = back_value s)
  /\ (forall p, db_changed s' p
               = if (0 <? accepted) && found p (db_inputs s) then true else db_changed s p).
Proof. exact @scene_block_any. Qed.
Print Assumptions C36_scene_block_any_messages_partial.

(** C36: with one valid message per block, only messages of equal parity
    accumulate (missing for the full property: the other half). *)
Theorem C36_scene_single_messages_partial :
  forall (OV Msg : Type) (update : Msg -> OV -> OV * bool) (msgs : list Msg) (s : db OV),
  Forall (good update) msgs ->
  let s' := fold_left (fun s m => scene_process update s [m]) msgs s in
  (back_value s', front_value s')
  = lanes (back_value s) (front_value s)
      (map (fun m => [fun v => fst (update m v)]) msgs).
Proof. exact @scene_single_messages. Qed.
Print Assumptions C36_scene_single_messages_partial.

Example C36_example :
  Forall (good add_msg) [1; 2; 3]
  /\ back_value (scene_process add_msg (db_init []) [1; 2; 3]) = [1; 2; 3]
  /\ back_value (scene_process add_msg (db_init []) [1; 2]) = [].
Proof. repeat split; repeat constructor; intros v; reflexivity. Qed.

(** A rejected message between two accepted ones. *)
Definition pos_msg (m : nat) (v : list nat) : list nat * bool := (v ++ [m], negb (m =? 0)).
Example C36_example_rejected :
  try_msgs pos_msg [1; 0; 2; 3] [] = ([1; 0; 2; 3], 3)
  /\ back_value (scene_process pos_msg (db_init []) [1; 0; 2; 3]) = [1; 0; 2; 3]
  /\ back_value (scene_process pos_msg (db_init []) [0]) = [].
Proof. repeat split. Qed.
