(** Objects that are created by name: FFT implementations, fractional delay algorithms, audio interfaces;
    the search path of Python modules.

    Sources: src/librbbl/fft_wrapper_factory.{hpp,cpp}, src/librbbl/fractional_delay_factory.{hpp,cpp},
    src/librbbl/multichannel_delay_line.cpp 22-42, src/libaudiointerfaces/audio_interface_factory.{hpp,cpp},
    src/libpythonsupport/load_module.cpp 64-86.

    Simplifications: an object is represented by its class; the static initialisation has run; the
    locale of to_lower() is the C locale; that a path exists is a parameter. *)
From Coq Require Import Ascii String.
From Verif Require Import Base.
Local Open Scope res_scope.

Definition name := list ascii.
(** operator< and operator== of std::string *)
Fixpoint ltb (a b : name) : bool :=
  match a, b with
  | _, [] => false
  | [], _ :: _ => true
  | x :: a', y :: b' =>
      if (nat_of_ascii x <? nat_of_ascii y)%nat then true
      else if (nat_of_ascii y <? nat_of_ascii x)%nat then false else ltb a' b'
  end.
(** boost::algorithm::to_lower() *)
Definition lower_char (c : ascii) : ascii :=
  let n := nat_of_ascii c in if (65 <=? n)%nat && (n <=? 90)%nat then ascii_of_nat (n + 32) else c.
Definition to_lower (s : name) : name := map lower_char s.

Section Tables.
  Context {A : Type}.
  (** std::map< std::string, Creator > *)
  Definition creators := list (name * A).
  (** std::map::insert(): an existing entry is kept *)
  Fixpoint insert (k : name) (v : A) (m : creators) : creators :=
    match m with
    | [] => [(k, v)]
    | (k', v') :: r => if ltb k k' then (k, v) :: m
                       else if ltb k' k then (k', v') :: insert k v r else m
    end.
  Fixpoint find (k : name) (m : creators) : option A :=
    match m with
    | [] => None
    | (k', v) :: r => if ltb k k' || ltb k' k then find k r else Some v
    end.

  (** FftWrapperFactory::registerWrapper(), fft_wrapper_factory.hpp 94-101; create(), cpp 61-78 *)
  Definition registerWrapper (n : name) (v : A) (m : creators) : creators := insert (to_lower n) v m.
  Definition createWrapper (m : creators) (n : name) : res A :=
    match find (to_lower n) m with None => Throw InvalidArgument | Some v => Ok v end.
  (** listImplementations(), cpp 36-51 *)
  Fixpoint listImplementations (m : creators) : name :=
    match m with
    | [] => []
    | [(k, _)] => k
    | (k, _) :: r => k ++ [","%char; " "%char] ++ listImplementations r
    end.

  (** FractionalDelayFactory::registerAlgorithm(), fractional_delay_factory.hpp 66-71; create(), cpp
      50-58: None is the null pointer *)
  Definition registerAlgorithm (n : name) (v : A) (m : creators) : creators := insert n v m.
  Definition createAlgorithm (m : creators) (n : name) : option A := find n m.

  (** AudioInterfaceFactory::registerAudioInterfaceType(), audio_interface_factory.hpp 96-100;
      create(), cpp 50-66; audioInterfacesList(), cpp 33-42 *)
  Definition registerAudioInterfaceType (n : name) (v : A) (m : creators) : creators := insert n v m.
  Definition createInterface (m : creators) (n : name) : res A :=
    match find n m with None => Throw InvalidArgument | Some v => Ok v end.
  Definition audioInterfacesList (m : creators) : list name := map fst m.
End Tables.
Arguments creators A : clear implicits.

Definition str (s : string) : name := list_ascii_of_string s.
Inductive sample := Float | Double.
Inductive library := KissFft | Ffts | Ipp.
(** InstantiateFftWrapperFactory, fft_wrapper_factory.cpp 86-109, with the options BUILD_FFTS and
    BUILD_USE_IPP *)
Definition fft_table (ffts ipp : bool) (t : sample) : creators library :=
  let m := registerWrapper (str "kissfft") KissFft [] in
  let m := if ffts then match t with Float => registerWrapper (str "ffts") Ffts m | Double => m end else m in
  let m := if ipp then registerWrapper (str "ipp") Ipp m else m in
  registerWrapper (str "default") KissFft m.
(** TableInitializer, fractional_delay_factory.cpp 17-38, which is instantiated for float only: the
    order of the LagrangeInterpolator *)
Definition delay_algorithms : list (string * nat) :=
  [("nearestSample", 0); ("lagrangeOrder0", 0); ("lagrangeOrder1", 1); ("lagrangeOrder2", 2); ("lagrangeOrder3", 3);
   ("lagrangeOrder4", 4); ("lagrangeOrder5", 5); ("lagrangeOrder6", 6); ("lagrangeOrder7", 7); ("lagrangeOrder8", 8);
   ("lagrangeOrder9", 9)]%string.
Definition delay_table (t : sample) : creators nat :=
  match t with
  | Float => fold_left (fun m e => registerAlgorithm (str (fst e)) (snd e) m) delay_algorithms []
  | Double => []
  end.
(** the constructor of MultichannelDelayLine, multichannel_delay_line.cpp 22-42: the order of its
    interpolator *)
Definition new_delay_line (t : sample) (interpolationMethod : name) : res nat :=
  match createAlgorithm (delay_table t) interpolationMethod with
  | None => Throw InvalidArgument
  | Some order => Ok order
  end.
Inductive audio_interface := JackInterface | PortaudioInterface.
(** InstantiateAudioInterfaceFactory, audio_interface_factory.cpp 72-85, with the options
    VISR_AUDIOINTERFACES_JACK_SUPPORT and VISR_AUDIOINTERFACES_PORTAUDIO_SUPPORT *)
Definition interface_table (jack portaudio : bool) : creators audio_interface :=
  let m := if jack then registerAudioInterfaceType (str "Jack") JackInterface [] else [] in
  if portaudio then registerAudioInterfaceType (str "PortAudio") PortaudioInterface m else m.

(** *** pathStringToSequence(), load_module.cpp 64-86 *)
(** boost::algorithm::is_any_of( ", " ) *)
Definition is_sep (c : ascii) : bool := (c =? ",")%char || (c =? " ")%char.
(** boost::algorithm::split() with token_compress_on: a sequence of separators counts as one;
    [cur] is the token that is read, in reverse order *)
Fixpoint split (l cur : name) (after_sep : bool) : list name :=
  match l with
  | [] => [rev cur]
  | c :: r =>
      if is_sep c then if after_sep then split r cur true else rev cur :: split r [] true
      else split r (c :: cur) false
  end.
Definition nonempty (s : name) : bool := match s with [] => false | _ => true end.
Definition pathStringToSequence (exists_path : name -> bool) (l : name) : res (list name) :=
  let searchPath := filter nonempty (split l [] false) in
  if forallb exists_path searchPath then Ok searchPath else Throw InvalidArgument.
