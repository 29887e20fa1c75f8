(** Model of the UDP components as transition systems over all interleavings of the
    processing thread, the network thread and the operating system.

    Sources (all below /repo/src): librcl/udp_sender.cpp 163-235,
    librcl/udp_receiver.cpp 156-188, libpml/string_parameter.cpp 30-54.

    Granularity: process() and the completion handlers touch the shared deque only
    while holding mMutex, so each is one atomic step; an asynchronous operation started
    inside them is performed later in separate steps.  An asynchronous send keeps a
    pointer to the characters of a deque element, which is read only when the datagram
    is transmitted: operations therefore name the element by its absolute position, and
    an element that has been removed in the meantime makes the step undefined.
    Not modelled: sockets, address resolution, io_service start and stop, loss or
    reordering of datagrams by the network. *)
From Verif Require Import Base.

(** The characters of a message. *)
Definition msg := list nat.

(** std::string( char const * ): the characters before the first NUL
    (udp_sender.cpp 191-192) *)
Fixpoint c_string (m : msg) : msg :=
  match m with
  | [] => []
  | O :: _ => []
  | c :: m' => c :: c_string m'
  end.

(** ** UdpSender *)

(** An outstanding asynchronous send: the element it points to and whether the datagram
    has been handed to the network (with its number of bytes). *)
Record sendop := SendOp { so_elem : nat; so_sent : option nat }.

Record sender := Sender {
  s_in : list msg;         (* the queue of the input port *)
  s_buf : list msg;        (* mInternalMessageBuffer *)
  s_popped : nat;          (* elements removed from the front so far (ghost) *)
  s_ops : list sendop;     (* outstanding operations *)
  s_wire : list msg;       (* datagrams handed to the network *)
  s_dead : bool }.         (* an exception left the network thread: std::terminate *)

Definition s_init : sender := Sender [] [] 0 [] [] false.

(** udp_sender.cpp 186-204: Asynchronous mode *)
Definition s_process (s : sender) : sender :=
  let transmissionPending := negb (match s_buf s with [] => true | _ => false end) in
  let buf := s_buf s ++ map c_string (s_in s) in
  let start := negb (match buf with [] => true | _ => false end) && negb transmissionPending in
  Sender [] buf (s_popped s)
    (if start then s_ops s ++ [SendOp (s_popped s) None] else s_ops s)
    (s_wire s) (s_dead s).

Fixpoint remove_at {A} (k : nat) (l : list A) : list A :=
  match l, k with
  | [], _ => []
  | _ :: l', O => l'
  | a :: l', S k' => a :: remove_at k' l'
  end.
Fixpoint set_at {A} (k : nat) (x : A) (l : list A) : list A :=
  match l, k with
  | [], _ => []
  | _ :: l', O => x :: l'
  | a :: l', S k' => a :: set_at k' x l'
  end.

Definition s_kill (s : sender) : sender :=
  Sender (s_in s) (s_buf s) (s_popped s) (s_ops s) (s_wire s) true.

(** udp_sender.cpp 209-235: the handler of operation [k], called without error *)
Definition s_handler (k : nat) (numBytesTransferred : nat) (s : sender) : res sender :=
  let ops := remove_at k (s_ops s) in
  match s_buf s with
  | [] => UB                                        (* front() of an empty deque *)
  | currMsg :: rest =>
      if Nat.eqb (length currMsg) numBytesTransferred then
        Ok (Sender (s_in s) rest (S (s_popped s))
              (match rest with
               | [] => ops
               | _ => ops ++ [SendOp (S (s_popped s)) None]
               end) (s_wire s) (s_dead s))
      else Ok (s_kill s)
  end.

Inductive sevent :=
| SEnqueue (m : msg)       (* a message arrives at the input port *)
| SProcess                 (* process() in asynchronous mode *)
| STransmit (k : nat)      (* the datagram of outstanding operation k is transmitted *)
| SComplete (k : nat)      (* its completion handler runs *)
| SError (k : nat).        (* its completion handler runs with an error *)

(** Events that are not possible in a state leave it unchanged. *)
Definition s_step (s : sender) (e : sevent) : res sender :=
  if s_dead s then Ok s
  else match e with
  | SEnqueue m =>
      Ok (Sender (s_in s ++ [m]) (s_buf s) (s_popped s) (s_ops s) (s_wire s) (s_dead s))
  | SProcess => Ok (s_process s)
  | STransmit k =>
      match nth_error (s_ops s) k with
      | Some (SendOp i None) =>
          (* reads the characters the operation points to *)
          if Nat.ltb i (s_popped s) then UB
          else match nth_error (s_buf s) (i - s_popped s) with
               | Some m =>
                   Ok (Sender (s_in s) (s_buf s) (s_popped s)
                         (set_at k (SendOp i (Some (length m))) (s_ops s))
                         (s_wire s ++ [m]) (s_dead s))
               | None => UB
               end
      | _ => Ok s
      end
  | SComplete k =>
      match nth_error (s_ops s) k with
      | Some (SendOp _ (Some n)) => s_handler k n s
      | _ => Ok s
      end
  | SError k =>
      match nth_error (s_ops s) k with
      | Some _ => Ok (s_kill s)                     (* 212-215 *)
      | None => Ok s
      end
  end.

Fixpoint s_run (s : sender) (es : list sevent) : res sender :=
  match es with
  | [] => Ok s
  | e :: es' => match s_step s e with Ok s' => s_run s' es' | Throw x => Throw x | UB => UB end
  end.

(** udp_sender.cpp 167-180: Synchronous mode; [send i] tells whether the i-th send of
    this call succeeds (a failing send_to throws boost::system::system_error). *)
Fixpoint sync_process (send : nat -> bool) (i : nat) (queue : list msg) (wire : list msg)
  : list msg * list msg * bool :=
  match queue with
  | [] => ([], wire, true)
  | m :: q' =>
      if send i then sync_process send (S i) q' (wire ++ [m])
      else (queue, wire, false)
  end.

(** ** UdpReceiver *)
Section Receiver.
  Variable cMaxMessageLength : nat.   (* udp_receiver.hpp 41 *)

  (** The receive operation: armed, or completed with the number of bytes written to
      mReceiveBuffer (or an error). *)
  Inductive recvop := Armed | Filled (n : nat) | Failed.

  Record receiver := Receiver {
    r_os : list msg;         (* datagrams queued by the operating system *)
    r_ops : list recvop;     (* outstanding receive operations *)
    r_mem : msg;             (* mReceiveBuffer *)
    r_buf : list msg;        (* mInternalMessageBuffer *)
    r_out : list msg }.      (* messages put into the output queue so far *)

  (** udp_receiver.cpp 126-131: the constructor starts one operation *)
  Definition r_init : receiver := Receiver [] [Armed] [] [] [].

  Inductive revent :=
  | RArrive (m : msg)        (* a datagram arrives *)
  | RReceive (k : nat)       (* operation k takes the next datagram into the buffer *)
  | RFail (k : nat)          (* operation k ends with an error, no bytes *)
  | RHandle (k : nat)        (* the completion handler of operation k *)
  | RProcess.                (* process() *)

  (** udp_receiver.cpp 173-188; the error code is not looked at.  [n] characters are
      taken from the front of the buffer. *)
  Definition r_handler (k n : nat) (r : receiver) : receiver :=
    Receiver (r_os r) (remove_at k (r_ops r) ++ [Armed]) (r_mem r)
      (r_buf r ++ [firstn n (r_mem r)]) (r_out r).

  (** udp_receiver.cpp 156-171.  In Synchronous mode poll() runs handlers first, i.e.
      [RReceive]/[RHandle] events immediately precede this one. *)
  Definition r_process (r : receiver) : receiver :=
    Receiver (r_os r) (r_ops r) (r_mem r) [] (r_out r ++ r_buf r).

  Definition r_step (r : receiver) (e : revent) : receiver :=
    match e with
    | RArrive m => Receiver (r_os r ++ [m]) (r_ops r) (r_mem r) (r_buf r) (r_out r)
    | RReceive k =>
        match nth_error (r_ops r) k, r_os r with
        | Some Armed, m :: os =>
            (* excess characters are discarded; the rest of the buffer is kept *)
            let m' := firstn cMaxMessageLength m in
            Receiver os (set_at k (Filled (length m')) (r_ops r))
              (m' ++ skipn (length m') (r_mem r)) (r_buf r) (r_out r)
        | _, _ => r
        end
    | RFail k =>
        match nth_error (r_ops r) k with
        | Some Armed => Receiver (r_os r) (set_at k Failed (r_ops r)) (r_mem r) (r_buf r) (r_out r)
        | _ => r
        end
    | RHandle k =>
        match nth_error (r_ops r) k with
        | Some (Filled n) => r_handler k n r
        | Some Failed => r_handler k 0 r
        | _ => r
        end
    | RProcess => r_process r
    end.
  Definition r_run (es : list revent) : receiver := fold_left r_step es r_init.
End Receiver.
