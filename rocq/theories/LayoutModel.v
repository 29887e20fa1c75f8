(** Model of AudioSignalFlow::initialiseAudioConnections, src/librrl/audio_signal_flow.cpp
    608-1014, as compiled (WORKAROUND_CYCLIC_DEPENDENCIES is defined, line 55).

    Ports and components are addresses as in FlowModel.  Three things the C++ code gets from
    outside are parameters: [type_size] (AudioSampleType::typeSize), [partition]
    (std::partition with the predicate isToplevelPort; the standard leaves the order of the
    result open) and [alloc], the addresses of the n-th inserted routing component and of its
    ports "in" and "out".  Buffer positions are byte offsets from the start of the pool. *)
From Verif Require Import Base FlowModel SchedModel.
Local Open Scope res_scope.

(** efl::nextAlignedSize, libefl/alignment.hpp 70-86 *)
Definition nextAlignedSize (size alignment : nat) : nat :=
  match alignment with
  | 0 => size
  | _ => if size mod alignment =? 0 then size else (size / alignment + 1) * alignment
  end.

(** PortOffsetLookup, line 617: std::map from port to offset; the width of the port is kept
    beside it *)
Record entry := Entry { e_port : nat; e_width : nat; e_offset : nat }.
Definition offsets := list entry.
Fixpoint offsets_insert (e : entry) (l : offsets) : offsets :=
  match l with
  | [] => [e]
  | f :: l' => if e_port e <? e_port f then e :: l
               else if e_port e =? e_port f then l
               else f :: offsets_insert e l'
  end.
Definition offsets_find (l : offsets) (p : nat) : option nat :=
  match find (fun e => e_port e =? p) l with Some e => Some (e_offset e) | None => None end.

(** SignalRoutingInternal, signal_routing_internal.hpp; [r_for] is the receive port the
    component is named after, [r_type] the sample type *)
Record routing := Routing { r_comp : nat; r_in : nat; r_out : nat; r_for : nat; r_type : nat;
                            r_inwidth : nat; r_indices : list nat }.

(** state of the first run for one sample type *)
Record lstate := LState { l_send : offsets; l_receive : offsets; l_next : nat;
                          l_conns : amap; l_routings : list routing }.

Fixpoint list_set {A} (l : list A) (k : nat) (x : A) : list A :=
  match l, k with
  | [], _ => []
  | _ :: l', 0 => x :: l'
  | a :: l', S k' => a :: list_set l' k' x
  end.

Section Layout.
  Variable o : objects.
  Variable type_size : nat -> nat.
  Variables block alignment : nat.
  Variable partition : list nat -> list nat.
  Variable alloc : nat -> nat * nat * nat.

  (** offsetTable.at( port ) + channel (631); a channel with a null port is not in the table *)
  Definition offset_at (table : offsets) (c : option channel) : res nat :=
    match c with
    | None => Throw OutOfRange
    | Some (p, k) => match offsets_find table p with Some off => Ok (off + k) | None => Throw OutOfRange end
    end.
  (** contiguousRange, 625-636 *)
  Fixpoint contiguousRange (channels : list (option channel)) (table : offsets) : res bool :=
    match channels with
    | a :: ((b :: _) as rest) =>
        x <- offset_at table a ;; y <- offset_at table b ;;
        if negb (x + 1 =? y) then Ok false else contiguousRange rest table
    | _ => Ok true
    end.

  (** sendChannels, 686-713 *)
  Definition sendChannels (port : nat) (conns : amap) : res (list (option channel)) :=
    let receiving := filter (fun c => fst (snd c) =? port) conns in
    let width := a_width o port in
    if negb (length receiving =? width) then Throw LogicError
    else fold_left (fun r c =>
           range <- r ;;
           let k := snd (snd c) in
           if width <=? k then Throw LogicError
           else match nth k range None with
                | Some _ => Throw LogicError
                | None => Ok (list_set range k (Some (fst c)))
                end) receiving (Ok (repeat None width)).

  (** createSignalRoutingComponent, signal_routing_internal.cpp 72-93 (no complex types), and the
      constructor, 18-39 *)
  Definition createSignalRoutingComponent (n type port inwidth : nat) (indices : list nat) : res routing :=
    if 8 <? type then Throw InvalidArgument
    else if negb (length indices =? 0) && (inwidth <=? list_max indices) then Throw InvalidArgument
    else let '(c, i, out) := alloc n in Ok (Routing c i out port type inwidth indices).

  (** index list, 802-815: std::map::find, then [logic_error] *)
  Definition send_index (table : offsets) (c : option channel) : res nat :=
    match c with
    | None => Throw LogicError
    | Some (p, k) => match offsets_find table p with Some off => Ok (off + k) | None => Throw LogicError end
    end.
  Fixpoint send_indices (table : offsets) (sends : list (option channel)) : res (list nat) :=
    match sends with
    | [] => Ok []
    | c :: rest => x <- send_index table c ;; xs <- send_indices table rest ;; Ok (x :: xs)
    end.
  Definition list_min (l : list nat) : nat := match l with [] => 0 | x :: l' => fold_left Nat.min l' x end.

  (** connections to the routing component, 847-867 *)
  Definition connect_input (table : offsets) (minIndex routingIn : nat) (indices : list nat)
             (r : res amap) (inputIdx : nat) : res amap :=
    m <- r ;;
    let channelIndex := minIndex + inputIdx in
    match find (fun e => (e_offset e <=? channelIndex) && (channelIndex <? e_offset e + e_width e)) table with
    | None => Throw LogicError
    | Some e => if mem inputIdx indices
                then Ok (amap_insert ((e_port e, channelIndex - e_offset e), (routingIn, inputIdx)) m)
                else Ok m
    end.

  (** body of the loop over the receive ports, 774-903 *)
  Definition place_receive (type : nat) (typed : amap) (st : lstate) (port : nat) : res lstate :=
    let width := a_width o port in
    if width =? 0 then Ok st
    else
      let local := filter (fun c => fst (snd c) =? port) typed in
      sends <- sendChannels port local ;;
      contiguous <- contiguousRange sends (l_send st) ;;
      if contiguous then
        match nth 0 sends None with
        | None => Throw LogicError
        | Some (p, k) =>
            match offsets_find (l_send st) p with
            | None => Throw LogicError
            | Some off =>
                Ok (LState (l_send st) (offsets_insert (Entry port width (off + k)) (l_receive st)) (l_next st)
                           (fold_left (fun m c => amap_insert c m) local (l_conns st)) (l_routings st))
            end
        end
      else
        absolute <- send_indices (l_send st) sends ;;
        let minIndex := list_min absolute in
        let indices := map (fun x => x - minIndex) absolute in
        let inwidth := list_max indices + 1 in
        routing <- createSignalRoutingComponent (length (l_routings st)) type port inwidth indices ;;
        conns <- fold_left (connect_input (l_send st) minIndex (r_in routing) indices) (seq 0 inwidth) (Ok (l_conns st)) ;;
        let conns' := fold_left (fun m k => amap_insert ((r_out routing, k), (port, k)) m) (seq 0 width) conns in
        Ok (LState (offsets_insert (Entry (r_out routing) width (l_next st)) (l_send st))
                   (offsets_insert (Entry port width (l_next st))
                      (offsets_insert (Entry (r_in routing) inwidth minIndex) (l_receive st)))
                   (l_next st + width) conns' (l_routings st ++ [routing])).

  (** std::sort and std::unique, then std::partition *)
  Definition port_list (ports : list nat) : list nat := partition (fold_left (fun s p => set_add p s) ports []).
  (** 749-757 and the atomic case, 906-914 *)
  Definition place_sends (ports : list nat) : offsets * nat :=
    fold_left (fun st p => (offsets_insert (Entry p (a_width o p) (snd st)) (fst st), snd st + a_width o p)) ports ([], 0).

  (** table of one sample type: type, send and receive offsets, number of channels *)
  Record typed := Typed { t_type : nat; t_send : offsets; t_receive : offsets; t_count : nat }.
  Definition lacc := (list typed * amap * list routing)%type.
  (** first run, 737-921, for one sample type of a composite flow *)
  Definition layout_type (conns : amap) (r : res lacc) (type : nat) : res lacc :=
    acc <- r ;;
    let '(tables, final, routings) := acc in
    let typed := filter (fun c => a_type o (fst (fst c)) =? type) conns in
    let '(sends, next) := place_sends (port_list (map (fun c => fst (fst c)) typed)) in
    st <- fold_left (fun r p => st <- r ;; place_receive type typed st p)
                    (port_list (map (fun c => fst (snd c)) typed)) (Ok (LState sends [] next final routings)) ;;
    Ok (tables ++ [Typed type (l_send st) (l_receive st) (l_next st)], l_conns st, l_routings st).
  (** ... and of an atomic flow: every port in the table of every type *)
  Definition layout_atomic (audio : list nat) (type : nat) : typed :=
    let '(sends, next) := place_sends audio in Typed type sends [] next.

  Definition channelSizeBytes (type : nat) : nat := nextAlignedSize (block * type_size type) alignment.

  (** second run, 924-975: assignments setBufferConfig( base, stride in samples ) in order *)
  Definition config := (nat * (nat * nat))%type.
  Definition assign_type (r : res (nat * list config)) (t : typed) : res (nat * list config) :=
    st <- r ;;
    let '(offset, configs) := st in
    let bytes := channelSizeBytes (t_type t) in
    if negb (bytes mod type_size (t_type t) =? 0) then Throw LogicError
    else
      let one e := (e_port e, (offset + bytes * e_offset e, bytes / type_size (t_type t))) in
      Ok (offset + fold_left (fun n e => n + e_width e) (t_send t) 0 * bytes,
          configs ++ map one (t_send t) ++ map one (t_receive t)).

  Record layout := Layout { y_pool : nat; y_configs : list config; y_conns : amap; y_routings : list routing;
                            y_capture : list nat; y_playback : list nat }.

  (** the last setBufferConfig call of a port *)
  Definition config_of (configs : list config) (p : nat) : option (nat * nat) :=
    match find (fun c => fst c =? p) (rev configs) with Some c => Some (snd c) | None => None end.
  (** AudioPortBaseImplementation::sampleType *)
  Definition port_type (routings : list routing) (p : nat) : nat :=
    match find (fun r => (r_in r =? p) || (r_out r =? p)) routings with Some r => r_type r | None => a_type o p end.
  (** address of a channel: basePointer() + channel * channelStrideBytes(); undefined for a
      port without buffer *)
  Definition address (configs : list config) (routings : list routing) (c : channel) : res nat :=
    match config_of configs (fst c) with
    | None => UB
    | Some (base, stride) => Ok (base + snd c * (stride * type_size (port_type routings (fst c))))
    end.

  (** mCaptureChannels / mPlaybackChannels, 985-1008 *)
  Definition external_channels (configs : list config) (routings : list routing) (ports : list nat) : res (list nat) :=
    fold_left (fun r c => l <- r ;; a <- address configs routings c ;; Ok (l ++ [a]))
              (flat_map (fun p => map (fun k => (p, k)) (seq 0 (a_width o p))) ports) (Ok []).

  (** usedSampleTypes, 720-735 *)
  Definition used_types (types : list nat) : list nat := fold_left (fun s t => set_add t s) types [].

  Definition finish (audio : list nat) (tables : list typed) (conns : amap) (routings : list routing) : res layout :=
    let total := fold_left (fun n t => n + t_count t * channelSizeBytes (t_type t)) tables 0 in
    'st <- fold_left assign_type tables (Ok (0, [])) ;;
    let '(offset, configs) := st in
    if negb (offset =? total) then Throw LogicError
    else
      capture <- external_channels configs routings (filter (fun p => is_input (a_dir o p)) audio) ;;
      playback <- external_channels configs routings (filter (fun p => negb (is_input (a_dir o p))) audio) ;;
      Ok (Layout total configs conns routings capture playback).

  (** initialiseAudioConnections, 718-1014 *)
  Definition initialiseAudioConnections (root : comp) (conns : amap) : res layout :=
    match root with
    | Composite _ audio _ _ _ _ =>
        acc <- fold_left (layout_type conns) (used_types (map (fun c => a_type o (fst (fst c))) conns)) (Ok ([], [], [])) ;;
        let '(tables, final, routings) := acc in
        finish audio tables final routings
    | Atomic _ audio _ =>
        finish audio (map (layout_atomic audio) (used_types (map (a_type o) audio))) [] []
    end.
End Layout.
