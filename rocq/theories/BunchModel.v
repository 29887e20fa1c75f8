(** Model of the signal flow built by the constructor of BunchRenderer
    (src/libsignalflows/bunch_renderer.cpp): a core renderer (CoreModel) with a receiver and a decoder
    for the object metadata.  The numbers of components and ports are those of BaselineModel, where
    Baseline stands for the renderer. *)
From Verif Require Import Base FlowModel CoreModel BaselineModel.
Local Open Scope res_scope.

(** the components, lines 33-38; there are none for tracking *)
Definition bunch_children (core : comp) : list comp :=
  [Atomic SceneReceiver [] [scene_message];
   Atomic SceneDecoder [] [scene_datagram; scene_objects];
   core].
(** the connections, lines 47-51; the channels of the output are numbered up to numberOfInputs *)
Definition bunch_wires (c : config) : list wire :=
  [Param scene_message scene_datagram;
   Param scene_objects objectData;
   Chans base_in (seq 0 (inputs c)) audioIn (seq 0 (inputs c));
   Chans audioOut (seq 0 (outputs c)) base_out (seq 0 (inputs c))].
(** the constructor, lines 20-52.  The core renderer is constructed without output equalisation: [c]
    has none *)
Definition bunch_new (c : config) : res comp :=
  core <- core_new c ;;
  w <- base_connect_list (base_objects c) base_audio [] (bunch_children core) ([], []) (bunch_wires c) ;;
  Ok (Composite Baseline base_audio [] (bunch_children core) (fst w) (snd w)).
