(** Model of visr::pml::MessageQueueProtocol
    (src/libpml/message_queue_protocol.cpp, .hpp).

    Simplifications: payloads are values of an arbitrary type (the code stores
    unique_ptr<ParameterBase> clones); one protocol instance; a port is a number
    and [ty p] tells whether the dynamic_cast to this protocol's port class
    succeeds. *)

From Verif Require Import Base.

Section Queue.
  Context {A : Type}.

  (** mQueue, in deque order: head = front(), last = back().
      message_queue_protocol.hpp "using QueueType = std::deque<...>" *)
  Definition queue := list A.

  (** std::deque::back() / pop_back() on a non-empty deque. *)
  Fixpoint deque_back (q : queue) : option A :=
    match q with
    | [] => None
    | [x] => Some x
    | _ :: q' => deque_back q'
    end.

  Fixpoint deque_pop_back (q : queue) : queue :=
    match q with
    | [] => []
    | [_] => []
    | x :: q' => x :: deque_pop_back q'
    end.

  (** cpp 31-34 clear() *)
  Definition mq_clear (_ : queue) : queue := [].
  (** cpp 36-39 empty() *)
  Definition mq_empty (q : queue) : bool := match q with [] => true | _ => false end.
  (** cpp 41-44 numberOfElements() *)
  Definition mq_size (q : queue) : nat := length q.
  (** cpp 46-49 enqueue(): push_front *)
  Definition mq_enqueue (x : A) (q : queue) : queue := x :: q.
  (** cpp 51-58 nextElement() *)
  Definition mq_next (q : queue) : res A :=
    if mq_empty q then Throw LogicError
    else match deque_back q with Some x => Ok x | None => UB end.
  (** cpp 60-67 popNextElement() *)
  Definition mq_pop (q : queue) : res queue :=
    if mq_empty q then Throw LogicError else Ok (deque_pop_back q).

  (** Operations available through the ports: Output::enqueue, Input::front,
      Input::pop, Input::clear, empty, size (hpp 128-260). *)
  Inductive mq_op :=
  | Enqueue (x : A)
  | Front
  | Pop
  | Clear
  | Empty
  | Size.

  Inductive mq_out :=
  | ODone
  | OValue (x : A)
  | OBool (b : bool)
  | OSize (n : nat)
  | OExn (e : exn)
  | OUB.

  Definition mq_step (q : queue) (o : mq_op) : queue * mq_out :=
    match o with
    | Enqueue x => (mq_enqueue x q, ODone)
    | Front => (q, match mq_next q with
                   | Ok x => OValue x | Throw e => OExn e | UB => OUB end)
    | Pop => match mq_pop q with
             | Ok q' => (q', ODone) | Throw e => (q, OExn e) | UB => (q, OUB) end
    | Clear => (mq_clear q, ODone)
    | Empty => (q, OBool (mq_empty q))
    | Size => (q, OSize (mq_size q))
    end.

  (** ctor, cpp 12-20: empty deque *)
  Definition mq_init : queue := [].
End Queue.
Arguments mq_op : clear implicits.
Arguments mq_out : clear implicits.
Arguments queue : clear implicits.

(** ** Port connections (cpp 69-131)

    A world of arbitrarily many protocol instances and ports, both identified by
    numbers.  connectInput/connectOutput do not look at the port's own protocol
    pointer, so a port may be handed to several instances. *)

Section Connections.
  (** [in_ty p]/[out_ty p]: dynamic_cast of p to InputBase / OutputBase works. *)
  Context (in_ty out_ty : nat -> bool).

  Record world := MkWorld {
    w_input : nat -> option nat;      (* protocol k: mInput *)
    w_output : nat -> option nat;     (* protocol k: mOutput *)
    w_in_proto : nat -> option nat;   (* input port p: mProtocol (None = nullptr) *)
    w_out_proto : nat -> option nat   (* output port p: mProtocol *)
  }.

  Definition upd (f : nat -> option nat) (p : nat) (b : option nat) : nat -> option nat :=
    fun q => if Nat.eqb q p then b else f q.

  (** Method call on protocol instance [k] with port [p]. *)
  Inductive conn_op :=
  | ConnIn (k p : nat) | ConnOut (k p : nat) | DiscIn (k p : nat) | DiscOut (k p : nat).

  Inductive conn_out := CDone | CBool (b : bool) | CExn (e : exn).

  Definition is_some {A} (o : option A) : bool :=
    match o with Some _ => true | None => false end.
  Definition opt_is (o : option nat) (p : nat) : bool :=
    match o with Some q => Nat.eqb q p | None => false end.

  Definition conn_step (s : world) (o : conn_op) : world * conn_out :=
    match o with
    | ConnIn k p =>                                   (* cpp 69-82 *)
        if negb (in_ty p) then (s, CExn InvalidArgument)
        else if is_some (w_input s k) then (s, CExn InvalidArgument)
        else (MkWorld (upd (w_input s) k (Some p)) (w_output s)
                      (upd (w_in_proto s) p (Some k)) (w_out_proto s), CDone)
    | ConnOut k p =>                                  (* cpp 84-97 *)
        if negb (out_ty p) then (s, CExn InvalidArgument)
        else if is_some (w_output s k) then (s, CExn InvalidArgument)
        else (MkWorld (w_input s) (upd (w_output s) k (Some p)) (w_in_proto s)
                      (upd (w_out_proto s) p (Some k)), CDone)
    | DiscIn k p =>                                   (* cpp 99-114 *)
        if negb (in_ty p) then (s, CBool false)
        else if negb (opt_is (w_input s k) p) then (s, CBool false)
        else (MkWorld (upd (w_input s) k None) (w_output s)
                      (upd (w_in_proto s) p None) (w_out_proto s), CBool true)
    | DiscOut k p =>                                  (* cpp 116-131 *)
        if negb (out_ty p) then (s, CBool false)
        else if negb (opt_is (w_output s k) p) then (s, CBool false)
        else (MkWorld (w_input s) (upd (w_output s) k None) (w_in_proto s)
                      (upd (w_out_proto s) p None), CBool true)
    end.

  (** Fresh protocols (mInput, mOutput null) and ports (mProtocol null). *)
  Definition conn_init : world :=
    MkWorld (fun _ => None) (fun _ => None) (fun _ => None) (fun _ => None).
End Connections.
