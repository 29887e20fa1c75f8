(** What is expected from the set-up of the parameter communication, independent of the code. *)
From Coq Require Import List Relations.
Import ListNotations.
From Verif Require Import FlowModel.

Section Spec.
  Variable o : objects.
  Variable registered : nat -> option bool.
  Variable creatable : nat -> nat -> nat -> bool.

  (** a port inside the flow receives if it is an input, a port of the flow itself if it is an output *)
  Definition receives (q : nat) : Prop :=
    (toplevel o (q_owner o q) = false /\ q_dir o q = Input) \/ (toplevel o (q_owner o q) = true /\ q_dir o q = Output).
  Definition sends (q : nat) : Prop :=
    (toplevel o (q_owner o q) = false /\ q_dir o q = Output) \/ (toplevel o (q_owner o q) = true /\ q_dir o q = Input).
  Definition agree (s r : nat) : Prop :=
    q_protocol o s = q_protocol o r /\ q_type o s = q_type o r /\ config_compare o (q_config o s) (q_config o r) = Some true.

  Section Connections.
    (** pairs receiver, sender *)
    Variable m : list (nat * nat).
    Definition port (q : nat) : Prop := exists e, In e m /\ (q = fst e \/ q = snd e).
    (** two ports that are joined by connections in either direction *)
    Definition joined : nat -> nat -> Prop := clos_refl_sym_trans nat (fun a b => In (a, b) m).
    (** a connection is made twice, or in both directions *)
    Definition repeated : Prop :=
      exists a e b e' c, m = a ++ e :: b ++ e' :: c /\ (e' = e \/ e' = (snd e, fst e)).

    (** Requirements on ports that are joined *)
    Record set_up : Prop := {
      one_sender : forall q, port q -> exists s, (sends s /\ joined s q) /\ forall s', sends s' -> joined s' q -> s' = s;
      fitting : forall s r, port s -> sends s -> receives r -> joined s r -> agree s r;
      known : forall s, port s -> sends s -> registered (q_protocol o s) <> None /\ creatable (q_protocol o s) (q_type o s) (q_config o s) = true;
      one_receiver : forall s r r', port s -> sends s -> registered (q_protocol o s) = Some false ->
                     receives r -> receives r' -> joined s r -> joined s r' -> r = r' }.

    (** connections from senders to receivers *)
    Definition flat : Prop := forall r s, In (r, s) m -> receives r /\ sends s.
  End Connections.

  (** Requirements in terms of the connections: [conn r s], receiver [r] is connected to sender [s] *)
  Record served (conn : nat -> nat -> Prop) : Prop := {
    sv_sender : forall r s s', conn r s -> conn r s' -> s' = s;
    sv_fit : forall r s, conn r s -> agree s r;
    sv_known : forall r s, conn r s -> registered (q_protocol o s) <> None /\ creatable (q_protocol o s) (q_type o s) (q_config o s) = true;
    sv_queue : forall r r' s, conn r s -> conn r' s -> registered (q_protocol o s) = Some false -> r = r' }.
End Spec.
