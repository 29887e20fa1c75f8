(** Model of the execution of a signal flow: constructor and process() of AudioSignalFlow
    (src/librrl/audio_signal_flow.cpp 61-261) and SignalRoutingInternal::process()
    (src/librrl/signal_routing_internal.cpp 53-66).

    The audio pool is a byte memory, addressed relative to the start of the pool; [pool_base] is
    the address of the pool itself.  The process() methods of the components of the flow are a
    parameter: a component reads its input channels, may change the rest of the world ([W]:
    internal states, parameter ports, ...), may throw, and then fills its output channels.

    Not modelled: names, the parameter infrastructure (an arbitrary check of the flat parameter
    connections), the profiler and the block counter (RuntimeModel). *)
From Verif Require Import Base FlowModel SchedModel LayoutModel.
Local Open Scope res_scope.

(** cVectorAlignmentSamples = 64 / sizeof( float ), libvisr/constants.hpp 26-31 *)
Definition cVectorAlignmentSamples : nat := 16.
(** AudioSampleType::floatId, the id of visr::SampleType *)
Definition floatId : nat := 0.

(** *** Objects after the insertion of the routing components *)
(** port attributes set by SignalRoutingInternal, signal_routing_internal.cpp 18-39 *)
Definition with_routings (o : objects) (rs : list routing) : objects :=
  let port p := find (fun r => (r_in r =? p) || (r_out r =? p)) rs in
  let inserted c := existsb (fun r => r_comp r =? c) rs in
  Objects (fun p => match port p with Some r => if r_in r =? p then Input else Output | None => a_dir o p end)
          (fun p => match port p with Some r => if r_in r =? p then r_inwidth r else length (r_indices r) | None => a_width o p end)
          (port_type o rs)
          (fun p => match port p with Some r => r_comp r | None => a_owner o p end)
          (q_dir o) (q_protocol o) (q_type o) (q_owner o) (q_config o) (config_compare o)
          (fun c => if inserted c then false else composite o c)
          (fun c => if inserted c then false else toplevel o c).
(** CompositeComponentImplementation::registerChildComponent: appended to the top-level composite *)
Definition add_components (root : comp) (rs : list routing) : comp :=
  match root with
  | Atomic _ _ _ => root
  | Composite c audio params children conns pconns =>
      Composite c audio params (children ++ map (fun r => Atomic (r_comp r) [r_in r; r_out r] []) rs) conns pconns
  end.

Record flow := Flow { f_layout : layout; f_schedule : list nat }.

Section Construct.
  Variable o : objects.
  Variable type_size : nat -> nat.
  Variables block alignment : nat.
  Variable partition : list nat -> list nat.
  Variable alloc : nat -> nat * nat * nat.
  (** initialiseParameterInfrastructure, 385-552: hands on the connections unchanged *)
  Variable infrastructure : pmap -> bool.

  (** 91-113 *)
  Definition construct_flat (root : comp) (conns : amap) (params : pmap) : res flow :=
    y <- initialiseAudioConnections o type_size block alignment partition alloc root conns ;;
    if negb (infrastructure params) then Throw RuntimeError
    else
      sched <- initialiseSchedule (with_routings o (y_routings y)) (add_components root (y_routings y)) (y_conns y) params ;;
      Ok (Flow y sched).
  (** AudioSignalFlow::AudioSignalFlow, 61-118 *)
  Definition construct (root : comp) : res flow :=
    if negb (checkConnectionIntegrity o root) then Throw RuntimeError
    else
      m <- amap_new o root ;;
      conns <- resolvePlaceholders o m ;;
      let '(ok, pm) := pfill_recursive o root [] in
      if negb ok then Throw RuntimeError
      else params <- presolve o pm ;; construct_flat root conns params.
End Construct.

(** *** Byte memory *)
Section Bytes.
  Context {B : Type}.
  Definition memory := nat -> B.
  Definition fetch (m : memory) (a n : nat) : list B := map m (seq a n).
  Definition store (m : memory) (a : nat) (l : list B) : memory :=
    fun x => if x <? a then m x else nth (x - a) l (m x).
End Bytes.
Arguments memory : clear implicits.

(** ports of the atomic component with address [c] *)
Fixpoint atoms_ports (c : comp) : list (nat * list nat) :=
  match c with
  | Atomic a audio _ => [(a, audio)]
  | Composite _ _ _ children _ _ => flat_map atoms_ports children
  end.
Definition component_ports (root : comp) (c : nat) : list nat :=
  match find (fun e => fst e =? c) (atoms_ports root) with Some e => snd e | None => [] end.

Section Execute.
  Context {W B : Type}.
  Variable o : objects.
  Variable type_size : nat -> nat.
  Variables block pool_base : nat.
  Variable root : comp.
  Variable fl : flow.
  (** AtomicComponent::process() of the component with the given address *)
  Variable behaviour : nat -> W -> list (list B) -> res (W * list (list B)).

  Definition channel_address (c : channel) : res nat :=
    address o type_size (y_configs (f_layout fl)) (y_routings (f_layout fl)) c.
  (** period() samples *)
  Definition channel_bytes (c : channel) : nat :=
    block * type_size (port_type o (y_routings (f_layout fl)) (fst c)).
  Definition port_channels (ports : list nat) : list channel :=
    flat_map (fun p => map (fun k => (p, k)) (seq 0 (a_width o p))) ports.

  Fixpoint read_channels (m : memory B) (cs : list channel) : res (list (list B)) :=
    match cs with
    | [] => Ok []
    | c :: cs' => a <- channel_address c ;; rest <- read_channels m cs' ;; Ok (fetch m a (channel_bytes c) :: rest)
    end.
  Fixpoint write_channels (m : memory B) (cs : list channel) (data : list (list B)) : res (memory B) :=
    match cs, data with
    | c :: cs', d :: data' => a <- channel_address c ;; write_channels (store m a d) cs' data'
    | _, _ => Ok m
    end.

  (** efl::checkAlignment, libefl/alignment.hpp 44-57, for a power of two [n] * sizeof *)
  Definition checkAlignment (size a n : nat) : bool :=
    match n with 0 => true | _ => (pool_base + a) mod (n * size) =? 0 end.
  (** SignalRoutingInternal::process, signal_routing_internal.cpp 53-66, with efl::vectorCopy,
      reference/vector_functions_impl.hpp 85-91 *)
  Definition route_channel (r : routing) (st : res (memory B)) (out_in : nat * nat) : res (memory B) :=
    m <- st ;;
    src <- channel_address (r_in r, snd out_in) ;;
    dest <- channel_address (r_out r, fst out_in) ;;
    let size := type_size (r_type r) in
    if checkAlignment size src cVectorAlignmentSamples && checkAlignment size dest cVectorAlignmentSamples
    then Ok (store m dest (fetch m src (block * size)))
    else Throw RuntimeError.
  Definition route (r : routing) (m : memory B) : res (memory B) :=
    fold_left (route_channel r) (combine (seq 0 (length (r_indices r))) (r_indices r)) (Ok m).

  (** pc->process() for one entry of the schedule *)
  Definition run_component (st : W * memory B) (c : nat) : res (W * memory B) :=
    let '(w, m) := st in
    match find (fun r => r_comp r =? c) (y_routings (f_layout fl)) with
    | Some r => m' <- route r m ;; Ok (w, m')
    | None =>
        let ports := component_ports root c in
        ins <- read_channels m (port_channels (filter (fun p => is_input (a_dir o p)) ports)) ;;
        result <- behaviour c w ins ;;
        m' <- write_channels m (port_channels (filter (fun p => negb (is_input (a_dir o p))) ports)) (snd result) ;;
        Ok (fst result, m')
    end.
  Definition run_schedule (sched : list nat) (st : W * memory B) : res (W * memory B) :=
    fold_left (fun r c => st <- r ;; run_component st c) sched (Ok st).
  (** executeComponents, 225-261: every exception becomes a runtime_error *)
  Definition executeComponents (st : W * memory B) : res (W * memory B) :=
    match run_schedule (f_schedule fl) st with Throw _ => Throw RuntimeError | r => r end.

  (** Sample arrays of the caller: position (array, index) -> bytes of the sample.  Sample [i] of
      channel [ch] is at [pos ch i]. *)
  Definition samples := nat * nat -> list B.
  Definition pos_eqb (a b : nat * nat) : bool := (fst a =? fst b) && (snd a =? snd b).
  (** vectorCopy( Strided ) into the pool *)
  Definition copy_in (pos : nat -> nat -> nat * nat) (src : samples) (m : memory B) : memory B :=
    fold_left (fun m ch_a => store m (snd ch_a) (flat_map (fun i => src (pos (fst ch_a) i)) (seq 0 block)))
              (combine (seq 0 (length (y_capture (f_layout fl)))) (y_capture (f_layout fl))) m.
  (** ... and out of the pool *)
  Definition copy_out (pos : nat -> nat -> nat * nat) (m : memory B) (dest : samples) : samples :=
    fold_left (fun dest ch_a =>
        fold_left (fun dest i x => if pos_eqb x (pos (fst ch_a) i)
                                   then fetch m (snd ch_a + i * type_size floatId) (type_size floatId) else dest x)
                  (seq 0 block) dest)
      (combine (seq 0 (length (y_playback (f_layout fl)))) (y_playback (f_layout fl))) dest.
  Definition process_with (failure : exn) (capture_pos playback_pos : nat -> nat -> nat * nat)
             (captureSamples playbackSamples : samples) (st : W * memory B) : res (W * memory B * samples) :=
    st' <- match executeComponents (fst st, copy_in capture_pos captureSamples (snd st)) with
           | Throw _ => Throw failure
           | r => r
           end ;;
    Ok (st', copy_out playback_pos (snd st') playbackSamples).

  (** process, 137-180: one array per channel; vectorCopy is used for stride 1 *)
  Definition process (captureStride playbackStride : nat) : samples -> samples -> W * memory B -> res (W * memory B * samples) :=
    process_with InvalidArgument (fun ch i => (ch, i * captureStride)) (fun ch i => (ch, i * playbackStride)).
  (** process, 182-223: all channels in one array *)
  Definition process_strided (captureChannelStride captureSampleStride playbackChannelStride playbackSampleStride : nat)
    : samples -> samples -> W * memory B -> res (W * memory B * samples) :=
    process_with RuntimeError (fun ch i => (0, ch * captureChannelStride + i * captureSampleStride))
                 (fun ch i => (0, ch * playbackChannelStride + i * playbackSampleStride)).
End Execute.
