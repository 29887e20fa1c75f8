(** What the baseline renderer is meant to connect. *)
From Verif Require Import Base FlowModel CoreModel CoreProps BaselineModel.

(** the channel of the core renderer that stands for a channel of the renderer *)
Definition into (s : channel) : channel :=
  (if fst s =? base_in then audioIn else if fst s =? base_out then audioOut else fst s, snd s).

(** the parameter port [d] receives what the port [s] sends: messages go to the decoder of the
    metadata, decoded objects to the calculators that get the objects of the core renderer, decoded
    listener positions likewise, everything else is as in the core renderer *)
Definition base_drives (c : config) (s d : nat) : Prop :=
  (s = scene_message /\ d = scene_datagram)
  \/ (s = scene_objects /\ drives c objectData d)
  \/ (s = tracker_position /\ drives c trackingPosition d)
  \/ (s <> objectData /\ s <> trackingPosition /\ drives c s d).
