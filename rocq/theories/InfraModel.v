(** Model of the set-up of the parameter communication of a signal flow:
    rrl::ParameterConnectionGraph (src/librrl/parameter_connection_graph.cpp/.hpp) and
    AudioSignalFlow::initialiseParameterInfrastructure() with the access to the external parameter
    ports (src/librrl/audio_signal_flow.cpp 385-575).

    The connections are those of FlowModel.v ([pmap], pairs receiver, sender in the order of the
    multimap), as are the attributes of the ports.  boost::connected_components() is modelled by
    merging the labels of the vertices along the edges.  A protocol object is represented by what is
    connected to it; the protocol port of a port and the endpoint that is created for an external
    port are identified with the port.

    Simplified: names (unique within a component), so that external endpoints are found by the port;
    the parameter factory is an arbitrary predicate; messages are not modelled. *)
From Verif Require Import Base FlowModel.
Local Open Scope res_scope.

(** *** ParameterConnectionGraph *)
(** mVertexLookup, mConnectionGraph: vertices in the order of their creation, edges *)
Record graph := Graph { g_vertices : list nat; g_edges : list (nat * nat) }.
(** parameter_connection_graph.cpp 31-42, 43-54 *)
Definition add_vertex (q : nat) (l : list nat) : list nat := if mem q l then l else l ++ [q].
(** edge( u, v, g ) of an undirected graph *)
Definition has_edge (u v : nat) (l : list (nat * nat)) : bool :=
  existsb (fun e => ((fst e =? u) && (snd e =? v)) || ((fst e =? v) && (snd e =? u))) l.
(** 27-73: one connection *)
Definition add_connection (g : graph) (e : nat * nat) : res graph :=
  let '(receiver, sender) := e in
  let vs := add_vertex receiver (add_vertex sender (g_vertices g)) in
  if has_edge sender receiver (g_edges g) then Throw LogicError
  else Ok (Graph vs (g_edges g ++ [(sender, receiver)])).
Definition connection_graph (m : pmap) : res graph :=
  fold_left (fun r e => g <- r ;; add_connection g e) m (Ok (Graph [] [])).

(** boost::connected_components(): two vertices have the same label iff they are connected *)
Definition merge (lab : nat -> nat) (e : nat * nat) : nat -> nat :=
  fun q => if lab q =? lab (fst e) then lab (snd e) else lab q.
Definition labels (edges : list (nat * nat)) : nat -> nat := fold_left merge edges (fun q => q).
(** the labels in the order of their first vertex *)
Fixpoint firsts (seen : list nat) (l : list nat) : list nat :=
  match l with
  | [] => []
  | x :: l' => if mem x seen then firsts seen l' else x :: firsts (x :: seen) l'
  end.
(** the vertices of each component *)
Definition groups (g : graph) : list (list nat) :=
  let lab := labels (g_edges g) in
  map (fun l => filter (fun q => lab q =? l) (g_vertices g)) (firsts [] (map lab (g_vertices g))).

Section Infrastructure.
  Variable o : objects.
  (** registered protocols: Some true if several inputs can be connected (DoubleBufferingProtocol,
      SharedDataProtocol), Some false if only one (MessageQueueProtocol) *)
  Variable registered : nat -> option bool.
  (** protocol, parameter type and configuration for which the constructor of the protocol succeeds:
      DoubleBufferingProtocol and SharedDataProtocol call ParameterFactory::create(),
      MessageQueueProtocol does not *)
  Variable creatable : nat -> nat -> nat -> bool.

  (** isToplevelPort, port_utilities.cpp 35-38 *)
  Definition toplevel_port (q : nat) : bool := toplevel o (q_owner o q).
  (** parameter_connection_graph.cpp 93-102 *)
  Definition is_receiver (q : nat) : bool :=
    (negb (toplevel_port q) && is_input (q_dir o q)) || (toplevel_port q && negb (is_input (q_dir o q))).
  (** ConnectedPorts, parameter_connection_graph.hpp 33-53 *)
  Record connected_ports := ConnectedPorts { sendPorts : list nat; receivePorts : list nat }.
  Definition numSenders (c : connected_ports) : nat := length (sendPorts c).
  Definition numReceivers (c : connected_ports) : nat := length (sendPorts c).
  Definition connectedPorts (g : graph) : list connected_ports :=
    map (fun vs => ConnectedPorts (filter (fun q => negb (is_receiver q)) vs) (filter is_receiver vs)) (groups g).

  (** *** Protocol instances *)
  Record protocol := Protocol {
    i_kind : nat; i_type : nat; i_config : nat; i_multi : bool;
    i_output : option nat; i_inputs : list nat
  }.
  (** CommunicationProtocolFactory::createProtocol(), communication_protocol_factory.cpp 99-112 *)
  Definition createProtocol (kind type config : nat) : res protocol :=
    match registered kind with
    | None => Throw OutOfRange
    | Some multi => if creatable kind type config then Ok (Protocol kind type config multi None []) else Throw InvalidArgument
    end.
  (** connectOutput() of the protocols (double_buffering_protocol.cpp 76-89, shared_data_protocol.cpp
      50-62, message_queue_protocol.cpp 84-97) with an object of protocol [kind] *)
  Definition connectOutput (i : protocol) (kind q : nat) : res protocol :=
    if negb (kind =? i_kind i) then Throw InvalidArgument
    else match i_output i with
         | Some _ => Throw InvalidArgument
         | None => Ok (Protocol (i_kind i) (i_type i) (i_config i) (i_multi i) (Some q) (i_inputs i))
         end.
  (** connectInput(), double_buffering_protocol.cpp 62-74, shared_data_protocol.cpp 36-48,
      message_queue_protocol.cpp 69-82 *)
  Definition connectInput (i : protocol) (kind q : nat) : res protocol :=
    if negb (kind =? i_kind i) then Throw InvalidArgument
    else if negb (i_multi i) && negb (length (i_inputs i) =? 0) then Throw InvalidArgument
    else if mem q (i_inputs i) then Ok i
    else Ok (Protocol (i_kind i) (i_type i) (i_config i) (i_multi i) (i_output i) (i_inputs i ++ [q])).

  (** *** initialiseParameterInfrastructure() *)
  (** the result, mCommunicationProtocols, mProtocolReceiveEndpoints, mProtocolSendEndpoints *)
  Record infra := Infra {
    n_result : bool; n_protocols : list protocol; n_receive : list nat; n_send : list nat
  }.

  (** 488-514: the senders of a connection; an exception for an external port leaves the try block *)
  Fixpoint connect_senders (st : infra) (i : protocol) (l : list nat) : infra * res protocol :=
    match l with
    | [] => (st, Ok i)
    | q :: l' =>
        if toplevel_port q then
          match connectOutput i (i_kind i) q with
          | Ok i' => connect_senders (Infra (n_result st) (n_protocols st) (n_receive st ++ [q]) (n_send st)) i' l'
          | e => (st, e)
          end
        else
          match connectOutput i (q_protocol o q) q with
          | Ok i' => connect_senders st i' l'
          | _ => connect_senders (Infra false (n_protocols st) (n_receive st) (n_send st)) i l'
          end
    end.
  (** 515-538: the receivers *)
  Fixpoint connect_receivers (st : infra) (i : protocol) (l : list nat) : infra * res protocol :=
    match l with
    | [] => (st, Ok i)
    | q :: l' =>
        if toplevel_port q then
          let st' := Infra (n_result st) (n_protocols st) (n_receive st) (n_send st ++ [q]) in
          match connectInput i (i_kind i) q with
          | Ok i' => connect_receivers st' i' l'
          | e => (st', e)
          end
        else
          match connectInput i (q_protocol o q) q with
          | Ok i' => connect_receivers st i' l'
          | _ => connect_receivers (Infra false (n_protocols st) (n_receive st) (n_send st)) i l'
          end
    end.
  Definition fail (st : infra) : infra := Infra false (n_protocols st) (n_receive st) (n_send st).
  (** 429-547: one connection *)
  Definition connect (st : infra) (c : connected_ports) : infra :=
    let st1 := if numSenders c <? 1 then fail st else st in
    let st2 := if numReceivers c <? 1 then fail st1 else st1 in
    match sendPorts c with
    | [] => st2
    | ref :: others =>
        let st3 := if forallb (compatible o ref) others && forallb (compatible o ref) (receivePorts c) then st2 else fail st2 in
        match createProtocol (q_protocol o ref) (q_type o ref) (q_config o ref) with
        | Ok i =>
            match connect_senders st3 i (sendPorts c) with
            | (st4, Ok i4) =>
                match connect_receivers st4 i4 (receivePorts c) with
                | (st5, Ok i5) => Infra (n_result st5) (n_protocols st5 ++ [i5]) (n_receive st5) (n_send st5)
                | (st5, _) => fail st5
                end
            | (st4, _) => fail st4
            end
        | _ => fail st3
        end
    end.
  (** the case of a composite flow, 427-552 *)
  Definition infra_composite (m : pmap) : res infra :=
    g <- connection_graph m ;;
    Ok (fold_left connect (connectedPorts g) (Infra true [] [] [])).
  (** the case of an atomic flow, 389-425: exceptions are not caught *)
  Definition connect_atomic (r : res infra) (q : nat) : res infra :=
    st <- r ;;
    i <- createProtocol (q_protocol o q) (q_type o q) (q_config o q) ;;
    i1 <- connectInput i (q_protocol o q) q ;;
    i2 <- connectOutput i1 (q_protocol o q) q ;;
    Ok (if is_input (q_dir o q)
        then Infra (n_result st) (n_protocols st ++ [i2]) (n_receive st ++ [q]) (n_send st)
        else Infra (n_result st) (n_protocols st ++ [i2]) (n_receive st) (n_send st ++ [q])).
  Definition infra_atomic (ports : list nat) : res infra := fold_left connect_atomic ports (Ok (Infra true [] [] [])).
  Definition initialiseParameterInfrastructure (root : comp) (m : pmap) : res infra :=
    match root with
    | Atomic _ _ ports => infra_atomic ports
    | Composite _ _ _ _ _ _ => infra_composite m
    end.

  (** externalParameterReceivePort(), externalParameterSendPort(), 554-575 *)
  Definition externalParameterReceivePort (st : infra) (q : nat) : res nat :=
    if mem q (n_receive st) then Ok q else Throw OutOfRange.
  Definition externalParameterSendPort (st : infra) (q : nat) : res nat :=
    if mem q (n_send st) then Ok q else Throw OutOfRange.
End Infrastructure.
