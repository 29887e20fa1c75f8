(** Model of the signal flow built by the constructor of BaselineRenderer
    (src/libsignalflows/baseline_renderer.cpp): a core renderer (CoreModel) with a receiver and a
    decoder for the object metadata and, with tracking, for the listener position.

    Not modelled: what the components compute and the exceptions of their constructors (an address
    that is in use, for instance).  The protocol and parameter types that CoreModel does not have
    get new numbers. *)
From Verif Require Import Base FlowModel CoreModel.
Local Open Scope res_scope.

(** the components of the renderer in addition to those of the core renderer, 45-47, 63-64 *)
Definition Baseline := 19.
Definition SceneReceiver := 20.
Definition SceneDecoder := 21.
Definition TrackingReceiver := 22.
Definition TrackingPositionDecoder := 23.

(** ports input and output, 50-51 *)
Definition base_in := 32.
Definition base_out := 33.
Definition base_audio_info (c : config) (p : nat) : nat * direction * nat :=
  if p =? base_in then (Baseline, Input, inputs c)
  else if p =? base_out then (Baseline, Output, outputs c)
  else audio_info c p.

(** message_queue_protocol.hpp, string_parameter.hpp *)
Definition MessageQueue := 2.
Definition StringT := 5.
Definition scene_message := 25.
Definition scene_datagram := 26.
Definition scene_objects := 27.
Definition tracker_message := 28.
Definition tracker_datagram := 29.
Definition tracker_position := 30.
Definition base_param_info (c : config) (p : nat) : nat * direction * nat * nat * pconfig :=
  if p =? scene_message then (SceneReceiver, Output, MessageQueue, StringT, Empty)          (* udp_receiver.cpp 85 *)
  else if p =? scene_datagram then (SceneDecoder, Input, MessageQueue, StringT, Empty)      (* scene_decoder.cpp 21 *)
  else if p =? scene_objects then (SceneDecoder, Output, DoubleBuffering, ObjectVectorT, Empty)   (* scene_decoder.cpp 22 *)
  else if p =? tracker_message then (TrackingReceiver, Output, MessageQueue, StringT, Empty)      (* udp_receiver.cpp 85 *)
  else if p =? tracker_datagram then (TrackingPositionDecoder, Input, MessageQueue, StringT, Empty)   (* position_decoder.cpp 29 *)
  else if p =? tracker_position then (TrackingPositionDecoder, Output, DoubleBuffering, ListenerPositionT, Empty)   (* position_decoder.cpp 30 *)
  else param_info c p.

(** the attributes of the ports and components; the core renderer is no longer the top level *)
Definition base_objects (c : config) : objects :=
  {| a_dir := fun p => snd (fst (base_audio_info c p));
     a_width := fun p => snd (base_audio_info c p);
     a_type := fun _ => 0;
     a_owner := fun p => fst (fst (base_audio_info c p));
     q_dir := fun p => snd (fst (fst (fst (base_param_info c p))));
     q_protocol := fun p => snd (fst (fst (base_param_info c p)));
     q_type := fun p => snd (fst (base_param_info c p));
     q_owner := fun p => fst (fst (fst (fst (base_param_info c p))));
     q_config := fun p => p;
     config_compare := fun p q => pconfig_compare (snd (base_param_info c p)) (snd (base_param_info c q));
     composite := fun i => (i =? Core) || (i =? Baseline);
     toplevel := fun i => i =? Baseline |}.

Definition base_audio : list nat := [base_in; base_out].
(** the components in the order of their construction, 45-49, 63-64 *)
Definition base_children (c : config) (core : comp) : list comp :=
  [Atomic SceneReceiver [] [scene_message];
   Atomic SceneDecoder [] [scene_datagram; scene_objects];
   core]
  ++ (if tracking c then [Atomic TrackingReceiver [] [tracker_message];
                          Atomic TrackingPositionDecoder [] [tracker_datagram; tracker_position]] else []).

(** audioConnection with two ports (composite_component_implementation.cpp 258-309) and
    parameterConnection (169-199) inside a composite with these ports and components *)
Definition base_connect (o : objects) (audio params : list nat) (children : list comp) (w : wiring) (x : wire) : res wiring :=
  let audio_known p := mem p (audio ++ flat_map comp_audio children) in
  let param_known p := mem p (params ++ flat_map comp_params children) in
  let channels s si r ri :=
    if negb (length si =? length ri) then Throw InvalidArgument
    else if length si =? 0 then Ok w
    else if a_width o s <=? list_max si then Throw InvalidArgument
    else if a_width o r <=? list_max ri then Throw InvalidArgument
    else Ok (fst w ++ [AConn s r si ri], snd w) in
  match x with
  | All s r =>
      if negb (audio_known s && audio_known r) then Throw InvalidArgument
      else if negb (a_width o s =? a_width o r) then Throw InvalidArgument
      else channels s (seq 0 (a_width o s)) r (seq 0 (a_width o s))
  | Chans s si r ri => if negb (audio_known s && audio_known r) then Throw InvalidArgument else channels s si r ri
  | Param s r => if negb (param_known s && param_known r) then Throw InvalidArgument else Ok (fst w, snd w ++ [(s, r)])
  end.
Fixpoint base_connect_list (o : objects) (audio params : list nat) (children : list comp) (w : wiring) (l : list wire) : res wiring :=
  match l with
  | [] => Ok w
  | x :: l' => w' <- base_connect o audio params children w x ;; base_connect_list o audio params children w' l'
  end.

(** lines 54-57 and 65; there is no connection from the receiver to the decoder of the listener position *)
Definition base_wires (c : config) : list wire :=
  [All base_in audioIn;
   All audioOut base_out;
   Param scene_message scene_datagram;
   Param scene_objects objectData]
  ++ (if tracking c then [Param tracker_position trackingPosition] else []).

(** the constructor, lines 32-67 *)
Definition baseline_new (c : config) : res comp :=
  core <- core_new c ;;
  w <- base_connect_list (base_objects c) base_audio [] (base_children c core) ([], []) (base_wires c) ;;
  Ok (Composite Baseline base_audio [] (base_children c core) (fst w) (snd w)).
