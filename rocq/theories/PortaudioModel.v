(** Model of the PortAudio interface: PortaudioInterface
    (src/libaudiointerfaces/portaudio_interface.{hpp,cpp}) and the buffer it owns,
    CommunicationArea (src/librrl/communication_area.{hpp,cpp}).

    Simplifications:
    - reading the JSON configuration text (parseSpecificConf) is left out; the
      configuration is the record of the five values read;
    - PortAudio itself is an environment: the list of host APIs and devices, the answers of
      Pa_Initialize, Pa_IsFormatSupported and Pa_OpenStream, and a stream that is stopped,
      running, finished or closed.  Using a closed stream is undefined;
    - a callback and its user data are an abstract value; a call gets the captured channels
      and returns the played channels or throws, and changes an abstract world.  A callback
      reads and writes as many channels as the interface has, [period] samples each, through
      the pointers it is given, and writes nothing when it throws
      (AudioSignalFlow::processFunction, audio_signal_flow.cpp 126-179);
    - samples are values of an abstract type, bit-wise copies;
    - taking the address of the first element of an empty pointer array (522) is harmless;
    - the frame count passed by PortAudio is the period requested in Pa_OpenStream (the code
      does not look at it, 509-537). *)
From Coq Require Import String.
From Verif Require Import Base Memory CircularBufferModel.
Local Open Scope res_scope.

(** ** Names *)
(** SampleFormat::Type, hpp 32-47 *)
Inductive format :=
  SInt8 | UInt8 | SInt16 | UInt16 | SInt24 | UInt24 | SInt32 | UInt32 | Float32.
(** cTranslateSampleFormatMapString, hpp 50-61 *)
Definition format_names : list (string * format) :=
  [("signedInt8Bit", SInt8); ("unsignedInt8Bit", UInt8); ("signedInt16Bit", SInt16);
   ("unsignedInt16Bit", UInt16); ("signedInt24Bit", SInt24); ("unsignedInt24Bit", UInt24);
   ("signedInt32Bit", SInt32); ("unsignedInt32Bit", UInt32); ("float32Bit", Float32)]%string.
(** std::map::find *)
Definition lookup {V} (t : list (string * V)) (k : string) : option V :=
  match find (fun e => String.eqb (fst e) k) t with Some e => Some (snd e) | None => None end.
(** translateToSampleFormat, hpp 63-70 *)
Definition format_of (name : string) : res format :=
  match lookup format_names name with Some f => Ok f | None => Throw InvalidArgument end.
(** translateSampleFormat, cpp 30-58: a PortAudio format and its non-interleaved flag *)
Inductive pa_format := PaInt8 | PaUInt8 | PaInt16 | PaInt24 | PaInt32 | PaFloat32.
Definition pa_format_of (f : format) (interleaved : bool) : res (pa_format * bool) :=
  p <- match f with
       | SInt8 => Ok PaInt8
       | UInt8 => Ok PaUInt8
       | SInt16 => Ok PaInt16
       | SInt24 => Ok PaInt24
       | SInt32 => Ok PaInt32
       | Float32 => Ok PaFloat32
       | _ => Throw InvalidArgument
       end ;;
  Ok (p, negb interleaved).
(** translateHostApiName, cpp 61-88 ([ApiDefault] is paInDevelopment) *)
Inductive api := ApiDefault | DirectSound | MME | ASIO | SoundManager | CoreAudio | OSS | ALSA
               | AL | BeOS | WDMKS | JACK | WASAPI | AudioScienceHPI.
Definition api_names : list (string * api) :=
  [("default", ApiDefault); ("DirectSound", DirectSound); ("MME", MME); ("ASIO", ASIO);
   ("SoundManager", SoundManager); ("CoreAudio", CoreAudio); ("OSS", OSS); ("ALSA", ALSA);
   ("AL", AL); ("BeOS", BeOS); ("WDMKS", WDMKS); ("JACK", JACK); ("WASAPI", WASAPI);
   ("AudioScienceHPI", AudioScienceHPI)]%string.
Definition api_of (name : string) : res api :=
  match lookup api_names name with Some a => Ok a | None => Throw InvalidArgument end.

(** ** Devices *)
Record device := Device { d_name : string; d_in : nat; d_out : nat }.
Record host := Host { h_devices : list device; h_default_in : option device; h_default_out : option device }.
Definition channels_of (input : bool) (d : device) : nat := if input then d_in d else d_out d.
(** findDevice, cpp 224-303; strncmp( name, info->name, strlen( info->name ) ) == 0 *)
Definition find_device (name : string) (h : host) (min : nat) (input : bool) : res device :=
  let found :=
    if String.eqb name EmptyString then (if input then h_default_in h else h_default_out h)
    else find (fun d => String.prefix (d_name d) name) (h_devices h) in
  match found with
  | None => Throw InvalidArgument
  | Some d => if channels_of input d <? min then Throw RuntimeError else Ok d
  end.

(** PortAudio as seen by the constructor *)
Record environment := Env {
  e_initialises : bool;                 (* Pa_Initialize() == paNoError *)
  e_hosts : list host;                  (* host APIs by index *)
  e_default_host : option nat;          (* Pa_GetDefaultHostApi(), None: an error code *)
  e_host_index : api -> option nat;     (* Pa_HostApiTypeIdToHostApiIndex() *)
  e_supported : device -> nat -> device -> nat -> pa_format * bool -> nat -> bool; (* Pa_IsFormatSupported *)
  e_opens : bool }.                     (* Pa_OpenStream() == paNoError *)
Record config := Config {
  cf_format : string; cf_interleaved : bool; cf_api : string; cf_in : string; cf_out : string }.
(** the defaults of parseSpecificConf, cpp 439-445 *)
Definition default_config : config := Config "float32Bit" false "default" EmptyString EmptyString.

(** [Finished]: the callback has returned paAbort; PortAudio calls it no more, and the stream
    must be stopped before it can be started again *)
Inductive stream := Stopped | Running | Finished | Closed.
Inductive answer := Continue | Abort.

Section Portaudio.
  Context {A F W : Type} (zero : A) (feq : F -> F -> bool)
          (call : F -> W -> list (list A) -> W * res (list (list A))).

  (** *** Memory *)
  Definition load (m : list A) (i : nat) : res A :=
    match nth_error m i with Some x => Ok x | None => UB end.
  Definition store (m : list A) (i : nat) (x : A) : res (list A) :=
    if i <? length m then Ok (firstn i m ++ x :: skipn (S i) m) else UB.
  (** the inner loops 555-559 and 579-583 *)
  Fixpoint copy_strided (n : nat) (src : list A) (so ss : nat) (dst : list A) (d ds : nat) : res (list A) :=
    match n with
    | 0 => Ok dst
    | S n' =>
        x <- load src so ;;
        dst' <- store dst d x ;;
        copy_strided n' src (so + ss) ss dst' (d + ds) ds
    end.

  (** the void* arguments: an array of samples or an array of pointers to arrays *)
  Inductive devmem := Flat (l : list A) | Planar (l : list (list A)).

  (** *** Data members, cpp 143-178; a sample pointer is an offset into the storage of the
      communication area *)
  Record pa := MkPa {
    a_cap : nat; a_play : nat; a_period : nat; a_rate : nat;
    a_format : format; a_interleaved : bool;
    a_storage : list A;                    (* mCommunicationBuffer *)
    a_cap_ptr : list nat; a_play_ptr : list nat;
    a_callback : option F;                 (* mCallback, mCallbackUserData *)
    a_stream : stream }.
  Definition with_storage (s : pa) (m : list A) : pa :=
    MkPa (a_cap s) (a_play s) (a_period s) (a_rate s) (a_format s) (a_interleaved s) m
      (a_cap_ptr s) (a_play_ptr s) (a_callback s) (a_stream s).
  Definition with_callback (s : pa) (f : option F) : pa :=
    MkPa (a_cap s) (a_play s) (a_period s) (a_rate s) (a_format s) (a_interleaved s) (a_storage s)
      (a_cap_ptr s) (a_play_ptr s) f (a_stream s).
  Definition with_stream (s : pa) (t : stream) : pa :=
    MkPa (a_cap s) (a_play s) (a_period s) (a_rate s) (a_format s) (a_interleaved s) (a_storage s)
      (a_cap_ptr s) (a_play_ptr s) (a_callback s) t.

  (** CommunicationArea::at, communication_area.hpp 72-79, 62-65 *)
  Definition area_at (signals stride i : nat) : res nat :=
    if signals <=? i then Throw OutOfRange else Ok (stride * i).

  (** *** Constructor, cpp 307-412 *)
  Definition pa_new (env : environment) (cap play period rate alignment : nat) (c : config) : res pa :=
    let stride := next_aligned_size period alignment in   (* communication_area.cpp 20-33 *)
    let signals := cap + play in
    f <- format_of (cf_format c) ;;
    cp <- map_res (area_at signals stride) (seq 0 cap) ;;
    pp <- map_res (fun i => area_at signals stride (cap + i)) (seq 0 play) ;;
    if negb (e_initialises env) then Throw RuntimeError
    else
      a <- api_of (cf_api c) ;;
      match (match a with ApiDefault => e_default_host env | _ => e_host_index env a end) with
      | None => Throw LogicError
      | Some i =>
          match nth_error (e_hosts env) i with
          | None => Throw LogicError
          | Some h =>
              di <- find_device (cf_in c) h cap true ;;
              do <- find_device (cf_out c) h play false ;;
              p <- pa_format_of f (cf_interleaved c) ;;
              if negb (e_supported env di cap do play p rate) then Throw InvalidArgument
              else if negb (e_opens env) then Throw RuntimeError
              else Ok (MkPa cap play period rate f (cf_interleaved c) (repeat zero (signals * stride))
                         cp pp None Stopped)
          end
      end.

  (** *** Streams, cpp 449-473 *)
  (** [fails]: Pa_StartStream fails for a reason of its own *)
  Definition pa_start (fails : bool) (s : pa) : res unit * pa :=
    match a_stream s with
    | Closed => (UB, s)
    | Running | Finished => (Throw RuntimeError, s)
    | Stopped => if fails then (Throw RuntimeError, s) else (Ok tt, with_stream s Running)
    end.
  Definition pa_stop (s : pa) : res unit * pa :=
    match a_stream s with
    | Closed => (UB, s)
    | Stopped => (Throw RuntimeError, s)
    | Running | Finished => (Ok tt, with_stream s Closed)
    end.
  (** cpp 475-494 *)
  Definition pa_register (f : F) (s : pa) : pa := with_callback s (Some f).
  Definition pa_unregister (f : F) (s : pa) : bool * pa :=
    match a_callback s with
    | Some g => if feq g f then (true, with_callback s None) else (false, s)
    | None => (false, s)
    end.

  (** *** Transfer of samples *)
  (** transferCaptureBuffers, cpp 563-585 *)
  Definition capture_channel (s : pa) (input : devmem) (m : list A) (ch : nat) : res (list A) :=
    match nth_error (a_cap_ptr s) ch with
    | None => UB
    | Some p =>
        match a_interleaved s, input with
        | true, Flat l => copy_strided (a_period s) l ch (a_cap s) m p 1
        | false, Planar ls =>
            match nth_error ls ch with
            | None => UB
            | Some l => copy_strided (a_period s) l 0 1 m p 1
            end
        | _, _ => UB
        end
    end.
  Fixpoint fold_res {S I} (f : S -> I -> res S) (s : S) (l : list I) : res S :=
    match l with [] => Ok s | i :: r => s' <- f s i ;; fold_res f s' r end.
  Definition transfer_capture (s : pa) (input : devmem) : res pa :=
    match a_format s with
    | Float32 =>
        m <- fold_res (capture_channel s input) (a_storage s) (seq 0 (a_cap s)) ;;
        Ok (with_storage s m)
    | _ => Throw InvalidArgument
    end.
  (** transferPlaybackBuffers, cpp 539-561 *)
  Definition playback_channel (s : pa) (out : devmem) (ch : nat) : res devmem :=
    match nth_error (a_play_ptr s) ch with
    | None => UB
    | Some p =>
        match a_interleaved s, out with
        | true, Flat l =>
            l' <- copy_strided (a_period s) (a_storage s) p 1 l ch (a_play s) ;; Ok (Flat l')
        | false, Planar ls =>
            match nth_error ls ch with
            | None => UB
            | Some l =>
                l' <- copy_strided (a_period s) (a_storage s) p 1 l 0 1 ;;
                Ok (Planar (firstn ch ls ++ l' :: skipn (S ch) ls))
            end
        | _, _ => UB
        end
    end.
  Definition transfer_playback (s : pa) (out : devmem) : res devmem :=
    match a_format s with
    | Float32 => fold_res (playback_channel s) out (seq 0 (a_play s))
    | _ => Throw InvalidArgument
    end.
  (** the writes of the callback through the playback pointers *)
  Definition write_output (s : pa) (ys : list (list A)) : res pa :=
    m <- fold_res (fun m py => mem_write m (fst py) (snd py)) (a_storage s) (combine (a_play_ptr s) ys) ;;
    Ok (with_storage s m).

  (** sEngineCallback and engineCallbackFunction, cpp 496-537.  [Throw]: an exception leaves
      the function called by the C library. *)
  Definition engine_callback (s : pa) (w : W) (input out : devmem) : res (answer * pa * W * devmem) :=
    match a_callback s with
    | None => Ok (Continue, s, w, out)
    | Some f =>
        s1 <- transfer_capture s input ;;
        xs <- map_res (fun p => mem_read (a_storage s1) p (a_period s1)) (a_cap_ptr s1) ;;
        match call f w xs with
        | (w', Ok ys) =>
            s2 <- write_output s1 ys ;;
            out' <- transfer_playback s2 out ;;
            Ok (Continue, s2, w', out')
        | (w', Throw _) => Ok (Abort, s1, w', out)
        | (_, UB) => UB
        end
    end.

  (** *** PortAudio calling the interface, for sequences of calls *)
  Inductive op := Register (f : F) | Unregister (f : F) | Start (fails : bool) | Stop
                | Block (input out : devmem).
  Inductive event := Returned (r : res unit) | Answered (b : bool)
                   | Played (a : answer) (out : devmem)
                   | Quiet            (* the stream does not run, the callback is not called *)
                   | Escaped (e : exn) | Undefined.
  Definition pa_step (sw : pa * W) (o : op) : (pa * W) * event :=
    let (s, w) := sw in
    match o with
    | Register f => ((pa_register f s, w), Answered true)
    | Unregister f => let (b, s') := pa_unregister f s in ((s', w), Answered b)
    | Start fails => let (r, s') := pa_start fails s in ((s', w), Returned r)
    | Stop => let (r, s') := pa_stop s in ((s', w), Returned r)
    | Block input out =>
        match a_stream s with
        | Running =>
            match engine_callback s w input out with
            | Ok (Continue, s', w', out') => ((s', w'), Played Continue out')
            | Ok (Abort, s', w', out') => ((with_stream s' Finished, w'), Played Abort out')
            | Throw e => (sw, Escaped e)
            | UB => (sw, Undefined)
            end
        | _ => (sw, Quiet)
        end
    end.
End Portaudio.
Arguments pa A F : clear implicits.
Arguments devmem A : clear implicits.
Arguments op A F : clear implicits.
Arguments event A : clear implicits.
