(** C01, C02: public statements about MessageQueueProtocol. *)
From Verif Require Import Base MessageQueueModel MessageQueueProofs.

(** C01: every history of calls produces exactly the results of an ideal FIFO
    ([fifo_step]: pending messages oldest first). *)
Theorem C01_queue_is_fifo : forall (A : Type) (ops : list (mq_op A)),
  outputs mq_step mq_init ops = outputs fifo_step [] ops.
Proof. exact @queue_is_fifo. Qed.
Print Assumptions C01_queue_is_fifo.

(** C01: nothing is lost, duplicated or reordered: what was sent is what was
    consumed followed by what is still queued. *)
Theorem C01_queue_conserves_messages : forall (A : Type) (ops : list (mq_op A)),
  forallb (fun o => negb (is_clear o)) ops = true ->
  sent ops = consumed mq_init ops ++ rev (final mq_step mq_init ops).
Proof. exact @queue_conserves. Qed.
Print Assumptions C01_queue_conserves_messages.

Theorem C01_queue_never_undefined : forall (A : Type) (ops : list (mq_op A)),
  ~ In OUB (outputs mq_step mq_init ops).
Proof. exact @queue_never_ub. Qed.
Print Assumptions C01_queue_never_undefined.

Example C01_example :
  let ops := [Pop; Enqueue 1; Enqueue 2; Front; Pop; Enqueue 3; Size; Front; Pop; Front] in
  outputs mq_step mq_init ops
    = [OExn LogicError; ODone; ODone; OValue 1; ODone; ODone; OSize 2; OValue 2;
       ODone; OValue 3]
  /\ forallb (fun o => negb (is_clear o)) ops = true
  /\ sent ops = [1; 2; 3] /\ consumed mq_init ops = [1; 2].
Proof. vm_compute. repeat split. Qed.

(** C02: after every history in which no port is handed to an instance while it
    belongs to another one, ports and protocol instances agree about who is
    connected, and only ports of the right type are ever connected. *)
Theorem C02_connection_invariant :
  forall (in_ty out_ty : nat -> bool) (ops : list conn_op),
  disciplined in_ty out_ty conn_init ops ->
  ownership_consistent in_ty out_ty (final (conn_step in_ty out_ty) conn_init ops).
Proof. exact conn_reachable_inv. Qed.
Print Assumptions C02_connection_invariant.

(** C02: in particular for every history of calls on a single instance. *)
Theorem C02_single_instance_invariant :
  forall (in_ty out_ty : nat -> bool) (k : nat) (ops : list conn_op),
  Forall (only_instance k) ops ->
  ownership_consistent in_ty out_ty (final (conn_step in_ty out_ty) conn_init ops).
Proof. exact single_instance_inv. Qed.
Print Assumptions C02_single_instance_invariant.

(** C02: never two receivers or two senders for one instance. *)
Theorem C02_at_most_one_receiver_and_sender :
  forall (in_ty out_ty : nat -> bool) (ops : list conn_op) (k p q : nat),
  disciplined in_ty out_ty conn_init ops ->
  let s := final (conn_step in_ty out_ty) conn_init ops in
  (w_in_proto s p = Some k -> w_in_proto s q = Some k -> p = q)
  /\ (w_out_proto s p = Some k -> w_out_proto s q = Some k -> p = q).
Proof. exact conn_at_most_one. Qed.
Print Assumptions C02_at_most_one_receiver_and_sender.

(** C02: rejected and unsuccessful calls change nothing. *)
Theorem C02_failed_calls_change_nothing :
  forall (in_ty out_ty : nat -> bool) (s : world) (o : conn_op),
  snd (conn_step in_ty out_ty s o) <> CDone ->
  snd (conn_step in_ty out_ty s o) <> CBool true ->
  fst (conn_step in_ty out_ty s o) = s.
Proof. exact conn_failed_unchanged. Qed.
Print Assumptions C02_failed_calls_change_nothing.

(** C02: exactly when calls succeed; a second connection is rejected. *)
Theorem C02_call_outcomes :
  forall (in_ty out_ty : nat -> bool) (s : world) (k p : nat),
  let step := conn_step in_ty out_ty in
  (snd (step s (ConnIn k p)) = CDone <-> in_ty p = true /\ w_input s k = None)
  /\ (snd (step s (ConnIn k p)) = CExn InvalidArgument
       <-> in_ty p = false \/ w_input s k <> None)
  /\ (snd (step s (ConnOut k p)) = CDone <-> out_ty p = true /\ w_output s k = None)
  /\ (snd (step s (ConnOut k p)) = CExn InvalidArgument
       <-> out_ty p = false \/ w_output s k <> None)
  /\ (snd (step s (DiscIn k p)) = CBool true <-> in_ty p = true /\ w_input s k = Some p)
  /\ (snd (step s (DiscOut k p)) = CBool true <-> out_ty p = true /\ w_output s k = Some p).
Proof. exact conn_outcomes. Qed.
Print Assumptions C02_call_outcomes.

Theorem C02_call_effects :
  forall (in_ty out_ty : nat -> bool) (s : world) (k p : nat),
  let step := conn_step in_ty out_ty in
  (snd (step s (ConnIn k p)) = CDone ->
     w_input (fst (step s (ConnIn k p))) k = Some p
     /\ w_in_proto (fst (step s (ConnIn k p))) p = Some k)
  /\ (snd (step s (ConnOut k p)) = CDone ->
     w_output (fst (step s (ConnOut k p))) k = Some p
     /\ w_out_proto (fst (step s (ConnOut k p))) p = Some k)
  /\ (snd (step s (DiscIn k p)) = CBool true ->
     w_input (fst (step s (DiscIn k p))) k = None
     /\ w_in_proto (fst (step s (DiscIn k p))) p = None)
  /\ (snd (step s (DiscOut k p)) = CBool true ->
     w_output (fst (step s (DiscOut k p))) k = None
     /\ w_out_proto (fst (step s (DiscOut k p))) p = None).
Proof. exact conn_effects. Qed.
Print Assumptions C02_call_effects.

(** C02 is false for ports that are handed to two instances: all calls succeed and
    afterwards instance [k] has an input port whose protocol pointer is null. *)
Theorem C02_shared_port_refuted :
  exists (ops : list conn_op) (p k : nat),
    let ty := fun _ : nat => true in
    let s := final (conn_step ty ty) conn_init ops in
    Forall (fun o => o = CDone \/ o = CBool true) (outputs (conn_step ty ty) conn_init ops)
    /\ w_input s k = Some p /\ w_in_proto s p = None.
Proof. exact conn_shared_port_refuted. Qed.
Print Assumptions C02_shared_port_refuted.

Definition C02_history : list conn_op :=
  [ConnIn 0 3; ConnIn 0 4; ConnIn 0 12; DiscIn 0 4; DiscIn 0 3; ConnIn 1 3;
   ConnIn 0 4; ConnOut 0 5; ConnOut 0 5].

Example C02_example :
  let ty p := Nat.ltb p 10 in
  disciplined ty ty conn_init C02_history
  /\ outputs (conn_step ty ty) conn_init C02_history
  = [CDone; CExn InvalidArgument; CExn InvalidArgument; CBool false; CBool true;
     CDone; CDone; CDone; CExn InvalidArgument].
Proof. vm_compute. intuition. Qed.

Example C02_single_example : Forall (only_instance 0) [ConnIn 0 3; ConnOut 0 4; DiscIn 0 3].
Proof. repeat constructor. Qed.
