(** Model of the signal flow built by the constructor of CoreRenderer
    (src/libsignalflows/core_renderer.cpp): which components it creates, which ports they have
    and which connections it makes, as a function of the configuration.

    Not modelled: what the components compute; exceptions thrown by the constructors and
    setup() functions of the components; the interior of the ReverbObjectRenderer, which appears
    as one component with the ports of reverb_object_renderer.cpp 148-150.  setup() precedes the
    use of the ports of a component in all cases, so that ports have the width and exist as
    after setup().  The number of outputs and the channel indices are assumed to fit into an
    int. *)
From Coq Require Import ZArith.
From Verif Require Import Base FlowModel.
Local Open Scope res_scope.

(** parameters of the constructor, core_renderer.cpp 67-78, and what it reads from the
    LoudspeakerArray: channel indices of the regular loudspeakers and of the subwoofers, number
    of filters of the output equalisation (if present) *)
Record config := Config {
  inputs : nat; outputs : nat; lsp_channels : list Z; sub_channels : list Z;
  eq_filters : option nat; eq_sections : nat;
  tracking : bool; reverb : bool; dualband : bool }.
Definition nLsp (c : config) : nat := length (lsp_channels c).
Definition nSub (c : config) : nat := length (sub_channels c).
Definition nOut (c : config) : nat := nLsp c + nSub c.
Definition has_eq (c : config) : bool := match eq_filters c with Some _ => true | None => false end.

(** *** Components *)
Definition Core := 0.
Definition ObjectGainEqCalculator := 1.
Definition GainCalculator := 2.
Definition AllRad := 3.
Definition ListenerCompensation := 4.
Definition ObjectGain := 5.
Definition ObjectEq := 6.
Definition PanningFilterbank := 7.
Definition VbapMatrix := 8.
Definition VbipMatrix := 9.
Definition DiffuseMatrix := 10.
Definition Decorrelator := 11.
Definition Reverb := 12.
Definition DirectDiffuseMix := 13.
Definition ListenerGainDelay := 14.
Definition SubwooferMix := 15.
Definition OutputEq := 16.
Definition OutputAdjustment := 17.
Definition NullSource := 18.

(** *** Audio ports: owner, direction, width *)
Definition audioIn := 0.            Definition audioOut := 1.
Definition gain_in := 2.            Definition gain_out := 3.
Definition eq_in := 4.              Definition eq_out := 5.
Definition adjust_in := 6.          Definition adjust_out := 7.
Definition vbap_in := 8.            Definition vbap_out := 9.
Definition vbip_in := 10.           Definition vbip_out := 11.
Definition diffuse_in := 12.        Definition diffuse_out := 13.
Definition decorr_in := 14.         Definition decorr_out := 15.
Definition mix_out := 16.           Definition mix_in (k : nat) := 17 + k.
Definition sub_in := 21.            Definition sub_out := 22.
Definition null_out := 23.
Definition listener_in := 24.       Definition listener_out := 25.
Definition outeq_in := 26.          Definition outeq_out := 27.
Definition bank_in := 28.           Definition bank_out := 29.
Definition reverb_in := 30.         Definition reverb_out := 31.

Definition audio_info (c : config) (p : nat) : nat * direction * nat :=
  match p with
  | 0 => (Core, Input, inputs c)                        (* core_renderer.cpp 80 *)
  | 1 => (Core, Output, outputs c)                      (* 81 *)
  | 2 => (ObjectGain, Input, inputs c)                  (* gain_vector.cpp 24, 51; core 153 *)
  | 3 => (ObjectGain, Output, inputs c)                 (* gain_vector.cpp 25, 52 *)
  | 4 => (ObjectEq, Input, inputs c)                    (* biquad_iir_filter.cpp 28; core 85-90 *)
  | 5 => (ObjectEq, Output, inputs c)                   (* biquad_iir_filter.cpp 29 *)
  | 6 => (OutputAdjustment, Input, nOut c)              (* delay_vector.cpp 24, 77; core 236 *)
  | 7 => (OutputAdjustment, Output, nOut c)             (* delay_vector.cpp 25, 78 *)
  | 8 => (VbapMatrix, Input, inputs c)                  (* gain_matrix.cpp 20, 31; core 160 *)
  | 9 => (VbapMatrix, Output, nLsp c)                   (* gain_matrix.cpp 21, 32 *)
  | 10 => (VbipMatrix, Input, inputs c)                 (* gain_matrix.cpp 20, 31; core 173 *)
  | 11 => (VbipMatrix, Output, nLsp c)                  (* gain_matrix.cpp 21, 32 *)
  | 12 => (DiffuseMatrix, Input, inputs c)              (* gain_matrix.cpp 20, 31; core 223 *)
  | 13 => (DiffuseMatrix, Output, nLsp c)               (* gain_matrix.cpp 21, 32 *)
  | 14 => (Decorrelator, Input, nLsp c)                 (* fir_filter_matrix.cpp 53; core 97 *)
  | 15 => (Decorrelator, Output, nLsp c)                (* fir_filter_matrix.cpp 54; core 98 *)
  | 16 => (DirectDiffuseMix, Output, nLsp c)            (* add.cpp 27; core 101-102 *)
  | 17 | 18 | 19 | 20 => (DirectDiffuseMix, Input, nLsp c)   (* add.cpp 36 *)
  | 21 => (SubwooferMix, Input, nLsp c)                 (* gain_matrix.cpp 20, 53; core 245 *)
  | 22 => (SubwooferMix, Output, nSub c)                (* gain_matrix.cpp 21, 54 *)
  | 23 => (NullSource, Output, if outputs c =? nOut c then 0 else 1)  (* null_source.cpp 18; core 105-106 *)
  | 24 => (ListenerGainDelay, Input, nLsp c)            (* delay_vector.cpp 24, 77; core 126 *)
  | 25 => (ListenerGainDelay, Output, nLsp c)           (* delay_vector.cpp 25, 78 *)
  | 26 => (OutputEq, Input, nOut c)                     (* biquad_iir_filter.cpp 97; core 147-149 *)
  | 27 => (OutputEq, Output, nOut c)
  | 28 => (PanningFilterbank, Input, 2 * inputs c)      (* core 171-172 *)
  | 29 => (PanningFilterbank, Output, 2 * inputs c)
  | 30 => (Reverb, Input, inputs c)                     (* reverb_object_renderer.cpp 148 *)
  | 31 => (Reverb, Output, nLsp c)                      (* reverb_object_renderer.cpp 149 *)
  | _ => (Core, Input, 0)
  end.

(** *** Parameter ports: owner, direction, protocol, type, configuration *)
Inductive pconfig := Empty | Vec (n : nat) | Mat (rows columns : nat).
(** ParameterConfigBase::compare: EmptyParameterConfig (empty_parameter_config.cpp 27-40),
    VectorParameterConfig (30-43), MatrixParameterConfig (29-42); None: throws *)
Definition pconfig_compare (a b : pconfig) : option bool :=
  match a, b with
  | Empty, Empty => Some true
  | Vec n, Vec n' => Some (n' =? n)
  | Mat r k, Mat r' k' => Some ((r' =? r) && (k' =? k))
  | _, _ => None
  end.
Definition SharedData := 0.      Definition DoubleBuffering := 1.
Definition ObjectVectorT := 0.   Definition ListenerPositionT := 1.
Definition VectorT := 2.         Definition MatrixT := 3.       Definition BiquadMatrixT := 4.

Definition objectData := 0.         Definition trackingPosition := 1.
Definition gaineq_object := 2.      Definition gaineq_gain := 3.     Definition gaineq_eq := 4.
Definition gain_gain := 5.          Definition eq_eq := 6.
Definition calc_object := 7.        Definition calc_vbap := 8.       Definition calc_vbip := 9.
Definition calc_diffuse := 10.      Definition calc_listener := 11.
Definition vbap_gain := 12.         Definition vbip_gain := 13.      Definition diffuse_gain := 14.
Definition allrad_object := 15.     Definition allrad_in := 16.      Definition allrad_out := 17.
Definition allrad_listener := 18.
Definition comp_position := 19.     Definition comp_gain := 20.      Definition comp_delay := 21.
Definition listener_gain := 22.     Definition listener_delay := 23.
Definition reverb_object := 24.

Definition param_info (c : config) (p : nat) : nat * direction * nat * nat * pconfig :=
  let n := inputs c in
  match p with
  | 0 => (Core, Input, DoubleBuffering, ObjectVectorT, Empty)                     (* core 82 *)
  | 1 => (Core, Input, DoubleBuffering, ListenerPositionT, Empty)                 (* core 130 *)
  | 2 => (ObjectGainEqCalculator, Input, DoubleBuffering, ObjectVectorT, Empty)   (* object_gain_eq_calculator.cpp 25 *)
  | 3 => (ObjectGainEqCalculator, Output, DoubleBuffering, VectorT, Vec n)        (* 26 *)
  | 4 => (ObjectGainEqCalculator, Output, DoubleBuffering, BiquadMatrixT, Mat n (eq_sections c))  (* 27-28 *)
  | 5 => (ObjectGain, Input, DoubleBuffering, VectorT, Vec n)                     (* gain_vector.cpp 56 *)
  | 6 => (ObjectEq, Input, DoubleBuffering, BiquadMatrixT, Mat n (eq_sections c)) (* biquad_iir_filter.cpp 30-38 *)
  | 7 => (GainCalculator, Input, DoubleBuffering, ObjectVectorT, Empty)           (* panning_calculator.cpp 95 *)
  | 8 => (GainCalculator, Output, SharedData, MatrixT, Mat (nLsp c) n)            (* 99 *)
  | 9 => (GainCalculator, Output, SharedData, MatrixT, Mat (nLsp c) n)            (* 103 *)
  | 10 => (GainCalculator, Output, SharedData, MatrixT, Mat (nLsp c) n)           (* 107 *)
  | 11 => (GainCalculator, Input, DoubleBuffering, ListenerPositionT, Empty)      (* 112 *)
  | 12 => (VbapMatrix, Input, SharedData, MatrixT, Mat (nLsp c) n)                (* gain_matrix.cpp 38-39 *)
  | 13 => (VbipMatrix, Input, SharedData, MatrixT, Mat (nLsp c) n)
  | 14 => (DiffuseMatrix, Input, SharedData, MatrixT, Mat (nLsp c) n)
  | 15 => (AllRad, Input, DoubleBuffering, ObjectVectorT, Empty)                  (* hoa_allrad_gain_calculator.cpp 34 *)
  | 16 => (AllRad, Input, SharedData, MatrixT, Mat (nLsp c) n)                    (* 35 *)
  | 17 => (AllRad, Output, SharedData, MatrixT, Mat (nLsp c) n)                   (* 36 *)
  | 18 => (AllRad, Input, DoubleBuffering, ListenerPositionT, Empty)              (* 37 *)
  | 19 => (ListenerCompensation, Input, DoubleBuffering, ListenerPositionT, Empty)    (* listener_compensation.cpp 51 *)
  | 20 => (ListenerCompensation, Output, DoubleBuffering, VectorT, Vec (nLsp c))      (* 52, 58 *)
  | 21 => (ListenerCompensation, Output, DoubleBuffering, VectorT, Vec (nLsp c))      (* 53, 59 *)
  | 22 => (ListenerGainDelay, Input, DoubleBuffering, VectorT, Vec (nLsp c))      (* delay_vector.cpp 82 *)
  | 23 => (ListenerGainDelay, Input, DoubleBuffering, VectorT, Vec (nLsp c))      (* delay_vector.cpp 87 *)
  | 24 => (Reverb, Input, DoubleBuffering, ObjectVectorT, Empty)                  (* reverb_object_renderer.cpp 150 *)
  | _ => (Core, Input, SharedData, ObjectVectorT, Empty)
  end.

(** the attributes of the ports and components; all audio ports carry floats *)
Definition core_objects (c : config) : objects :=
  {| a_dir := fun p => snd (fst (audio_info c p));
     a_width := fun p => snd (audio_info c p);
     a_type := fun _ => 0;
     a_owner := fun p => fst (fst (audio_info c p));
     q_dir := fun p => snd (fst (fst (fst (param_info c p))));
     q_protocol := fun p => snd (fst (fst (param_info c p)));
     q_type := fun p => snd (fst (param_info c p));
     q_owner := fun p => fst (fst (fst (fst (param_info c p))));
     q_config := fun p => p;
     config_compare := fun p q => pconfig_compare (snd (param_info c p)) (snd (param_info c q));
     composite := fun i => i =? Core;
     toplevel := fun i => i =? Core |}.

(** the ports of the renderer itself *)
Definition core_audio : list nat := [audioIn; audioOut].
Definition core_params (c : config) : list nat := objectData :: (if tracking c then [trackingPosition] else []).
(** number of inputs of the mixer, 102-103 *)
Definition mix_inputs (c : config) : nat := 2 + (if dualband c then 1 else 0) + (if reverb c then 1 else 0).
(** the components in the order of their construction, 83-106, 119-120, 147, 171, 213, 249;
    the panning mode (92-93) selects the gain outputs *)
Definition core_children (c : config) : list comp :=
  [Atomic ObjectGainEqCalculator [] [gaineq_object; gaineq_gain; gaineq_eq];
   Atomic ObjectGain [gain_in; gain_out] [gain_gain];
   Atomic ObjectEq [eq_in; eq_out] [eq_eq];
   Atomic OutputAdjustment [adjust_in; adjust_out] [];
   Atomic GainCalculator [] ([calc_object; calc_vbap] ++ (if dualband c then [calc_vbip] else [])
                             ++ [calc_diffuse] ++ (if tracking c then [calc_listener] else []));
   Atomic VbapMatrix [vbap_in; vbap_out] [vbap_gain]]
  ++ (if dualband c then [Atomic VbipMatrix [vbip_in; vbip_out] [vbip_gain]] else [])
  ++ [Atomic DiffuseMatrix [diffuse_in; diffuse_out] [diffuse_gain];
      Atomic Decorrelator [decorr_in; decorr_out] [];
      Atomic DirectDiffuseMix (mix_out :: map mix_in (seq 0 (mix_inputs c))) [];
      Atomic SubwooferMix [sub_in; sub_out] [];
      Atomic NullSource [null_out] []]
  ++ (if tracking c then [Atomic ListenerCompensation [] [comp_position; comp_gain; comp_delay];
                          Atomic ListenerGainDelay [listener_in; listener_out] [listener_gain; listener_delay]] else [])
  ++ (if has_eq c then [Atomic OutputEq [outeq_in; outeq_out] []] else [])
  ++ (if dualband c then [Atomic PanningFilterbank [bank_in; bank_out] []] else [])
  ++ [Atomic AllRad [] ([allrad_object; allrad_in; allrad_out] ++ (if tracking c then [allrad_listener] else []))]
  ++ (if reverb c then [Atomic Reverb [reverb_in; reverb_out] [reverb_object]] else []).

(** *** Connections *)
(** audioConnection with two ports, audioConnection with ports and channels,
    parameterConnection *)
Inductive wire :=
| All (s r : nat)
| Chans (s : nat) (si : list nat) (r : nat) (ri : list nat)
| Param (s r : nat).

(** the ports that audioPort( name ) and parameterPort( name ) find *)
Definition audio_exists (c : config) (p : nat) : bool := mem p (core_audio ++ flat_map comp_audio (core_children c)).
Definition param_exists (c : config) (p : nat) : bool := mem p (core_params c ++ flat_map comp_params (core_children c)).

Definition wiring := (list aconn * list pconn)%type.
(** composite_component_implementation.cpp 258-291 *)
Definition connect_channels (c : config) (w : wiring) (s : nat) (si : list nat) (r : nat) (ri : list nat) : res wiring :=
  if negb (length si =? length ri) then Throw InvalidArgument
  else if length si =? 0 then Ok w
  else if a_width (core_objects c) s <=? list_max si then Throw InvalidArgument
  else if a_width (core_objects c) r <=? list_max ri then Throw InvalidArgument
  else Ok (fst w ++ [AConn s r si ri], snd w).
Definition connect (c : config) (w : wiring) (x : wire) : res wiring :=
  match x with
  | All s r =>                                          (* 293-309 *)
      if negb (audio_exists c s && audio_exists c r) then Throw InvalidArgument
      else
        let k := a_width (core_objects c) s in
        if negb (k =? a_width (core_objects c) r) then Throw InvalidArgument
        else connect_channels c w s (seq 0 k) r (seq 0 k)
  | Chans s si r ri =>
      if negb (audio_exists c s && audio_exists c r) then Throw InvalidArgument
      else connect_channels c w s si r ri
  | Param s r =>                                        (* 169-199 *)
      if negb (param_exists c s && param_exists c r) then Throw InvalidArgument
      else Ok (fst w, snd w ++ [(s, r)])
  end.
Fixpoint connect_list (c : config) (w : wiring) (l : list wire) : res wiring :=
  match l with
  | [] => Ok w
  | x :: l' => w' <- connect c w x ;; connect_list c w' l'
  end.

(** ChannelRange( a, b ) *)
Definition range (a b : nat) : list nat := seq a (b - a).

(** lines 114-134 *)
Definition wires_tracking (c : config) : list wire :=
  [Param objectData calc_object]
  ++ (if tracking c then
        [Param trackingPosition comp_position; Param trackingPosition calc_listener;
         Param comp_delay listener_delay; Param comp_gain listener_gain] else []).
(** lines 152-186 *)
Definition wires_objects (c : config) : list wire :=
  let n := inputs c in
  [Param objectData gaineq_object;
   All audioIn gain_in;
   Param gaineq_gain gain_gain;
   All gain_out eq_in;
   Param gaineq_eq eq_eq;
   All vbap_out (mix_in 0)]
  ++ (if dualband c then
        [Param calc_vbip vbip_gain;
         Chans eq_out (range 0 n) bank_in (range 0 n);
         Chans eq_out (range 0 n) bank_in (range n (2 * n));
         Chans bank_out (range 0 n) vbap_in (range 0 n);
         Chans bank_out (range n (2 * n)) vbip_in (range 0 n);
         All vbip_out (mix_in 1)]
      else [All eq_out vbap_in]).
(** lines 217-227 *)
Definition wires_gains (c : config) : list wire :=
  [Param objectData allrad_object;
   Param calc_vbap allrad_in;
   Param allrad_out vbap_gain;
   Param calc_diffuse diffuse_gain;
   All eq_out diffuse_in].
(** lines 247-263 *)
Definition wires_diffuse (c : config) : list wire :=
  (if reverb c then
     [All eq_out reverb_in;
      All reverb_out (mix_in (if dualband c then 3 else 2));
      Param objectData reverb_object] else [])
  ++ [All diffuse_out decorr_in;
      All decorr_out (mix_in (if dualband c then 2 else 1))].
(** lines 265-301 *)
Definition wires_output (c : config) : list wire :=
  if tracking c then
    [All mix_out listener_in;
     All listener_out sub_in]
    ++ (if has_eq c then [All listener_out outeq_in]
        else [Chans listener_out (range 0 (nLsp c)) adjust_in (range 0 (nLsp c))])
  else
    [All mix_out sub_in]
    ++ (if has_eq c then
          [Chans mix_out (range 0 (nLsp c)) outeq_in (range 0 (nLsp c));
           Chans sub_out (range 0 (nSub c)) outeq_in (range (nLsp c) (nLsp c + nSub c));
           All outeq_out adjust_in]
        else
          [Chans mix_out (range 0 (nLsp c)) adjust_in (range 0 (nLsp c));
           Chans sub_out (range 0 (nSub c)) adjust_in (range (nLsp c) (nLsp c + nSub c))]).

(** *** Playback channels *)
(** lines 310-329: the channel indices are compared as int and stored as size_t *)
Definition to_size (z : Z) : Z := (z mod 2 ^ 64)%Z.
Definition invalidIdx : Z := (2 ^ 64 - 1)%Z.
Fixpoint assign (m : nat) (l : list Z) : res (list Z) :=
  match l with
  | [] => Ok []
  | i :: l' =>
      let chIdx := (i - 1)%Z in
      if (Z.of_nat m <=? chIdx)%Z then Throw InvalidArgument
      else rest <- assign m l' ;; Ok (to_size chIdx :: rest)
  end.
(** std::sort, std::unique (334-339) *)
Fixpoint insert (x : Z) (l : list Z) : list Z :=
  match l with
  | [] => [x]
  | y :: l' => if (x <=? y)%Z then x :: l else y :: insert x l'
  end.
Definition sort (l : list Z) : list Z := fold_right insert [] l.
Fixpoint adjacent_equal (l : list Z) : bool :=
  match l with
  | x :: ((y :: _) as l') => (x =? y)%Z || adjacent_equal l'
  | _ => false
  end.
(** loop 350-365 *)
Fixpoint silent_loop (idx : nat) (steps : nat) (runIt : list Z) : list nat :=
  match steps with
  | 0 => []
  | S steps' =>
      match runIt with
      | [] => idx :: silent_loop (S idx) steps' runIt
      | x :: r =>
          if (Z.of_nat idx <? x)%Z then idx :: silent_loop (S idx) steps' runIt
          else silent_loop (S idx) steps' r
      end
  end.
(** lines 304-373; writing behind the end of silencedPlaybackChannels is undefined *)
Definition connect_outputs (c : config) (w : wiring) : res wiring :=
  if outputs c <? nLsp c + nSub c then Throw InvalidArgument
  else
    lsp <- assign (outputs c) (lsp_channels c) ;;
    sub <- assign (outputs c) (sub_channels c) ;;
    let active := lsp ++ sub in
    if existsb (Z.eqb invalidIdx) active then Throw InvalidArgument
    else
      let sorted := sort active in
      if adjacent_equal sorted then Throw InvalidArgument
      else
        w <- connect c w (Chans adjust_out (range 0 (nLsp c + nSub c)) audioOut (map Z.to_nat active)) ;;
        let numSilent := outputs c - (nLsp c + nSub c) in
        if 0 <? numSilent then
          let silent := silent_loop 0 (outputs c) sorted in
          if numSilent <? length silent then UB
          else if negb (length silent =? numSilent) then Throw LogicError
          else connect c w (Chans null_out (repeat 0 numSilent) audioOut silent)
        else Ok w.

(** *** The constructor, lines 66-374.  Lines 232-234 read the largest element of the vector of
    delays, which has an element for each loudspeaker and subwoofer. *)
Definition core_new (c : config) : res comp :=
  w <- connect_list c ([], []) (wires_tracking c) ;;
  _ <- (match eq_filters c with
        | Some k => if negb (nOut c =? k) then Throw InvalidArgument else Ok tt
        | None => Ok tt
        end) ;;
  w <- connect_list c w (wires_objects c) ;;
  w <- connect_list c w (wires_gains c) ;;
  _ <- (if nOut c =? 0 then UB else Ok tt) ;;
  w <- connect_list c w (wires_diffuse c) ;;
  w <- connect_list c w (wires_output c) ;;
  w <- connect_outputs c w ;;
  Ok (Composite Core core_audio (core_params c) (core_children c) (fst w) (snd w)).
