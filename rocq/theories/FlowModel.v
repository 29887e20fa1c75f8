(** Model of the signal flow graph as seen by the runtime engine: component hierarchy, port
    lookup (src/librrl/port_utilities.cpp), connection maps
    (src/librrl/audio_connection_map.cpp, parameter_connection_map.cpp) and integrity checks
    (src/librrl/integrity_checking.cpp).

    Components and ports are objects with addresses (nat); the attributes of the objects are
    functions of the address ([objects]).  The diagnostic messages are not modelled. *)
From Verif Require Import Base.
Local Open Scope res_scope.

Inductive direction := Input | Output.
Definition is_input (d : direction) : bool := match d with Input => true | Output => false end.

(** Attributes of port and component objects: AudioPortBaseImplementation
    (src/libvisr/impl/audio_port_base_implementation.hpp), ParameterPortBaseImplementation,
    ComponentImplementation::isComposite/isTopLevel *)
Record objects := Objects {
  a_dir : nat -> direction; a_width : nat -> nat; a_type : nat -> nat; a_owner : nat -> nat;
  q_dir : nat -> direction; q_protocol : nat -> nat; q_type : nat -> nat; q_owner : nat -> nat;
  q_config : nat -> nat;
  config_compare : nat -> nat -> option bool;   (* ParameterConfigBase::compare; None: throws *)
  composite : nat -> bool; toplevel : nat -> bool }.

(** impl::AudioConnection, src/libvisr/impl/audio_connection_descriptor.hpp *)
Record aconn := AConn { c_sender : nat; c_receiver : nat; c_send : list nat; c_receive : list nat }.
(** impl::ParameterConnection: sender, receiver *)
Definition pconn := (nat * nat)%type.

(** Component hierarchy: address, audio ports, parameter ports; composites
    (CompositeComponentImplementation) also contain components and connections. *)
Inductive comp :=
| Atomic (c : nat) (audio params : list nat)
| Composite (c : nat) (audio params : list nat) (children : list comp) (conns : list aconn) (pconns : list pconn).

Definition comp_id (c : comp) : nat := match c with Atomic c _ _ | Composite c _ _ _ _ _ => c end.
Definition comp_audio (c : comp) : list nat := match c with Atomic _ a _ | Composite _ a _ _ _ _ => a end.
Definition comp_params (c : comp) : list nat := match c with Atomic _ _ p | Composite _ _ p _ _ _ => p end.

Definition mem (x : nat) (l : list nat) : bool := existsb (Nat.eqb x) l.

(** *** PortLookup for one composite without recursion, port_utilities.cpp 105-160 *)
Section Lookup.
  Variable o : objects.
  (** allNonPlaceholderSendPorts: outputs of the contained components, inputs of the
      composite itself; allNonPlaceholderReceivePorts: vice versa *)
  Definition send_ports (audio : list nat) (children : list comp) : list nat :=
    filter (fun p => negb (is_input (a_dir o p))) (flat_map comp_audio children)
    ++ filter (fun p => is_input (a_dir o p)) audio.
  Definition receive_ports (audio : list nat) (children : list comp) : list nat :=
    filter (fun p => is_input (a_dir o p)) (flat_map comp_audio children)
    ++ filter (fun p => negb (is_input (a_dir o p))) audio.
  Definition send_params (params : list nat) (children : list comp) : list nat :=
    filter (fun p => negb (is_input (q_dir o p))) (flat_map comp_params children)
    ++ filter (fun p => is_input (q_dir o p)) params.
  Definition receive_params (params : list nat) (children : list comp) : list nat :=
    filter (fun p => is_input (q_dir o p)) (flat_map comp_params children)
    ++ filter (fun p => negb (is_input (q_dir o p))) params.

  (** isPlaceholderPort, port_utilities.cpp 18-31, given the owner of the port *)
  Definition placeholder (owner : nat) : bool := composite o owner && negb (toplevel o owner).
End Lookup.

(** *** AudioConnectionMap *)
(** AudioChannel, audio_connection_map.hpp 30-58 *)
Definition channel := (nat * nat)%type.
Definition channel_eqb (a b : channel) : bool := (fst a =? fst b) && (snd a =? snd b).
Definition channel_ltb (a b : channel) : bool :=
  (fst a <? fst b) || ((fst a =? fst b) && (snd a <? snd b)).
(** std::multimap< AudioChannel, AudioChannel >::insert: after the entries with equal keys *)
Definition amap := list (channel * channel).
Fixpoint amap_insert (x : channel * channel) (m : amap) : amap :=
  match m with
  | [] => [x]
  | y :: m' => if channel_ltb (fst x) (fst y) then x :: y :: m' else y :: amap_insert x m'
  end.

Section Maps.
  Variable o : objects.

  (** body of the loop of fillRecursive, audio_connection_map.cpp 101-152 *)
  Definition fill_one (sends receives : list nat) (st : bool * amap) (c : aconn) : bool * amap :=
    let '(result, m) := st in
    if negb (mem (c_sender c) sends) then (false, m)
    else if negb (mem (c_receiver c) receives) then (false, m)
    else if negb (length (c_receive c) =? length (c_send c)) then (false, m)
    else if 0 <? length (c_receive c)
    then if a_width o (c_sender c) <=? list_max (c_send c) then (false, m)
         else if a_width o (c_receiver c) <=? list_max (c_receive c) then (false, m)
         else (result, fold_left (fun m p => amap_insert ((c_sender c, fst p), (c_receiver c, snd p)) m)
                                 (combine (c_send c) (c_receive c)) m)
    else (result, m).
  (** fillRecursive with [recursive] = false (98-152) *)
  Definition fill_local (audio : list nat) (children : list comp) (conns : list aconn) (m : amap) : bool * amap :=
    fold_left (fill_one (send_ports o audio children) (receive_ports o audio children)) conns (true, m).
  (** fillRecursive, 86-165, with [recursive] = true; the evaluation of further components
      stops at the first failure *)
  Fixpoint fill_recursive (c : comp) (m : amap) : bool * amap :=
    match c with
    | Atomic _ _ _ => (true, m)
    | Composite _ audio _ children conns _ =>
        fold_left (fun (st : bool * amap) child => if fst st then fill_recursive child (snd st) else st)
                  children (fill_local audio children conns m)
    end.
  (** constructor, 40-48 *)
  Definition amap_new (c : comp) : res amap :=
    let '(ok, m) := fill_recursive c [] in if ok then Ok m else Throw InvalidArgument.

  (** findReceiveChannel, 167-171 *)
  Definition findReceiveChannel (m : amap) (signal : channel) : option (channel * channel) :=
    find (fun e => channel_eqb (snd e) signal) m.

  Definition placeholder_channel (c : channel) : bool := placeholder o (a_owner o (fst c)).

  (** loop 193-222: [trace] is connectionTrace (in reverse order), [entry] is *findIt.
      The number of iterations is bounded by [fuel]; running out of fuel would be an
      endless loop and is reported as undefined, C29_terminates shows that it does not
      happen. *)
  Fixpoint trace_sender (fuel : nat) (m : amap) (trace : list channel) (entry : channel * channel) : res channel :=
    match fuel with
    | 0 => UB
    | S fuel' =>
        if negb (placeholder_channel (fst entry)) then Ok (fst entry)
        else
          let trace' := fst entry :: trace in
          match findReceiveChannel m (fst entry) with
          | None => Throw LogicError
          | Some entry' =>
              if existsb (channel_eqb (fst entry')) trace' then Throw InvalidArgument
              else trace_sender fuel' m trace' entry'
          end
    end.
  (** resolvePlaceholders, 173-226 *)
  Definition resolve_one (m : amap) (resolved : amap) (raw : channel * channel) : res amap :=
    if placeholder_channel (snd raw) then Ok resolved
    else if negb (placeholder_channel (fst raw)) then Ok (amap_insert raw resolved)
    else match findReceiveChannel m (fst raw) with
         | None => Throw InvalidArgument
         | Some entry =>
             s <- trace_sender (S (S (length m))) m [fst raw] entry ;;
             Ok (amap_insert (s, snd raw) resolved)
         end.
  Definition resolvePlaceholders (m : amap) : res amap :=
    fold_left (fun r raw => resolved <- r ;; resolve_one m resolved raw) m (Ok []).

  (** *** ParameterConnectionMap: std::multimap, receiver -> sender *)
  Definition pmap := list (nat * nat).
  Fixpoint pmap_insert (x : nat * nat) (m : pmap) : pmap :=
    match m with
    | [] => [x]
    | y :: m' => if fst x <? fst y then x :: y :: m' else y :: pmap_insert x m'
    end.

  (** checkParameterPortCompatibility, port_utilities.cpp 48-93 *)
  Definition compatible (s r : nat) : bool :=
    (q_protocol o s =? q_protocol o r)
    && (if q_type o s =? q_type o r
        then match config_compare o (q_config o s) (q_config o r) with Some b => b | None => false end
        else false).

  (** fillRecursive, parameter_connection_map.cpp 19-90 *)
  Definition pfill_one (sends receives : list nat) (st : bool * pmap) (c : pconn) : bool * pmap :=
    let '(result, m) := st in
    let '(s, r) := c in
    if negb (mem s sends) then (false, m)
    else if negb (mem r receives) then (false, m)
    else (result && compatible s r, pmap_insert (r, s) m).
  Fixpoint pfill_recursive (c : comp) (m : pmap) : bool * pmap :=
    match c with
    | Atomic _ _ _ => (true, m)
    | Composite _ _ params children _ pconns =>
        fold_left (fun (st : bool * pmap) child => if fst st then pfill_recursive child (snd st) else st) children
          (fold_left (pfill_one (send_params o params children) (receive_params o params children)) pconns (true, m))
    end.

  (** multimap::find; the standard leaves open which of several entries is returned,
      the implementations return the first *)
  Definition pfind (m : pmap) (r : nat) : option (nat * nat) := find (fun e => fst e =? r) m.
  Definition placeholder_param (q : nat) : bool := placeholder o (q_owner o q).
  (** resolvePlaceholders, parameter_connection_map.cpp 93-136 *)
  Fixpoint ptrace (fuel : nat) (m : pmap) (limit count : nat) (entry : option (nat * nat)) : res nat :=
    match fuel with
    | 0 => UB
    | S fuel' =>
        match entry with
        | None => Throw InvalidArgument
        | Some e =>
            if negb (placeholder_param (snd e)) then Ok (snd e)
            else if limit <=? S count then Throw RuntimeError
            else ptrace fuel' m limit (S count) (pfind m (snd e))
        end
    end.
  Definition presolve_one (m : pmap) (flat : pmap) (raw : nat * nat) : res pmap :=
    if placeholder_param (fst raw) then Ok flat
    else if negb (placeholder_param (snd raw)) then Ok (pmap_insert raw flat)
    else s <- ptrace (S (length m)) m (length m) 1 (pfind m (snd raw)) ;;
         Ok (pmap_insert (fst raw, s) flat).
  Definition presolve (m : pmap) : res pmap :=
    fold_left (fun r raw => flat <- r ;; presolve_one m flat raw) m (Ok []).
End Maps.

(** *** Integrity checks, integrity_checking.cpp *)
Section Integrity.
  Variable o : objects.

  (** AudioConnectionCountTable, 100-114; std::map::insert leaves existing entries alone *)
  Definition table := list (channel * nat).
  Definition table_find (t : table) (c : channel) : option nat :=
    match find (fun e => channel_eqb (fst e) c) t with Some e => Some (snd e) | None => None end.
  Definition table_insert (t : table) (c : channel) : table :=
    match table_find t c with Some _ => t | None => t ++ [(c, 0)] end.
  Definition table_count (t : table) (c : channel) : table :=
    map (fun e => if channel_eqb (fst e) c then (fst e, S (snd e)) else e) t.
  Definition fillTable (ports : list nat) : table :=
    fold_left (fun t p => fold_left (fun t k => table_insert t (p, k)) (seq 0 (a_width o p)) t) ports [].

  (** body of the loop 129-156 *)
  Definition count_connection (st : bool * table * table) (c : channel * channel) : bool * table * table :=
    let '(result, sends, receives) := st in
    match table_find sends (fst c) with
    | None => (false, sends, receives)
    | Some _ =>
        match table_find receives (snd c) with
        | None => (false, sends, receives)
        | Some n =>
            (result && negb (0 <? n), table_count sends (fst c), table_count receives (snd c))
        end
    end.
  (** checkAudioConnectionsLocal, 116-192.  Line 173 compares the sample type of the
      receive port with itself. *)
  Definition check_audio_local (audio : list nat) (children : list comp) (conns : list aconn) : bool :=
    let sends := fillTable (send_ports o audio children) in
    let receives := fillTable (receive_ports o audio children) in
    let '(ok, m) := fill_local o audio children conns [] in
    if negb ok then false
    else
      let '(result, sends', receives') := fold_left count_connection m (true, sends, receives) in
      result
      && forallb (fun e => if snd e =? 0 then false
                           else if 1 <? snd e then false
                           else a_type o (fst (fst e)) =? a_type o (fst (fst e))) receives'
      && forallb (fun e => negb (snd e =? 0)) sends'.

  (** std::set comparison *)
  Definition same_set (a b : list nat) : bool := forallb (fun x => mem x b) a && forallb (fun x => mem x a) b.
  (** checkParameterConnectionsLocal, 194-277 *)
  Definition check_param (sends receives : list nat) (st : bool * list nat * list nat) (c : pconn)
    : bool * list nat * list nat :=
    let '(result, usedSend, usedReceive) := st in
    let '(s, r) := c in
    if negb (mem s sends) then (false, usedSend, usedReceive)
    else if negb (mem r receives) then (false, s :: usedSend, usedReceive)
    else (result && compatible o s r, s :: usedSend, r :: usedReceive).
  Definition check_params_local (params : list nat) (children : list comp) (pconns : list pconn) : bool :=
    let sends := send_params o params children in
    let receives := receive_params o params children in
    let '(result, usedSend, usedReceive) := fold_left (check_param sends receives) pconns (true, [], []) in
    result && same_set usedSend sends && same_set usedReceive receives.

  (** checkAudioConnectionIntegrity / checkParameterConnectionIntegrity (54-92), hierarchical *)
  Fixpoint check_audio (c : comp) : bool :=
    match c with
    | Atomic _ _ _ => true
    | Composite _ audio _ children conns _ =>
        check_audio_local audio children conns && forallb check_audio children
    end.
  Fixpoint check_params (c : comp) : bool :=
    match c with
    | Atomic _ _ _ => true
    | Composite _ _ params children _ pconns =>
        check_params_local params children pconns && forallb check_params children
    end.
  (** checkConnectionIntegrity, 48-52 *)
  Definition checkConnectionIntegrity (c : comp) : bool := check_audio c && check_params c.
End Integrity.

(** collectAllComponents, scheduling_graph.cpp 51-68 *)
Fixpoint collectAllComponents (c : comp) : list nat :=
  match c with
  | Atomic a _ _ => [a]
  | Composite _ _ _ children _ _ => flat_map collectAllComponents children
  end.
