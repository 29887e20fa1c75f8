(** Model of src/librcl/time_frequency_transform.cpp and
    src/librcl/time_frequency_inverse_transform.cpp.

    Samples are elements of a type [T] with its operations.  The FFT library is a pair of
    functions between blocks of samples and spectra (its error codes are not modelled);
    the time-frequency matrix passed between the components is a list of frames, each a
    list with one spectrum per channel.  The ports are reduced to the data written. *)
From Verif Require Import Base Memory CircularBufferModel.
Local Open Scope res_scope.

Section TimeFrequency.
  Context {T S : Type} (zero : T) (add mul : T -> T -> T).
  Variable forward : list T -> S.         (* mFftWrapper->forwardTransform *)
  Variable inverse : S -> list T.         (* mFftWrapper->inverseTransform *)

  (** libefl vectorMultiply / vectorAddInplace on the first [n] elements of two arrays *)
  Definition combine2 (f : T -> T -> T) (x y : list T) (n : nat) : res (list T) :=
    a <- mem_read x 0 n ;; b <- mem_read y 0 n ;;
    Ok (map (fun p => f (fst p) (snd p)) (combine a b)).

  (** *** TimeFrequencyTransform, time_frequency_transform.hpp 125-177 *)
  Record tft := Tft {
    t_channels : nat; t_period : nat; t_dft : nat; t_winlen : nat; t_frames : nat; t_hop : nat;
    t_buffer : cb T;         (* mInputBuffer *)
    t_window : list T;       (* mWindow *)
    t_calc : list T }.       (* mCalcBuffer *)

  (** inputBufferSize, cpp 49-61 *)
  Definition inputBufferSize (windowLen hopSize period : nat) : res nat :=
    if (hopSize =? 0) || negb (period mod hopSize =? 0) then Throw LogicError
    else Ok (windowLen + (period / hopSize - 1) * hopSize).

  (** constructor, cpp 87-164.  [scaleFactor] is computed at 128-139; [alignment] is
      cVectorAlignmentSamples.  The division in the initialiser of cFramesPerPeriod (103)
      precedes all checks; the exception of 119-124 can no longer occur after 106. *)
  Definition tft_new (channels period dft : nat) (window : list T) (hop : nat) (scaleFactor : T)
             (alignment : nat) : res tft :=
    if hop =? 0 then UB
    else
      let frames := period / hop in
      size <- inputBufferSize (length window) hop period ;;
      let buf := cb_new zero channels size alignment in
      let win := map (mul scaleFactor) window in
      buf' <- (if hop <? dft
               then cb_write buf (repeat (repeat zero (dft - hop)) channels) channels (dft - hop)
               else Ok buf) ;;
      Ok (Tft channels period dft (length window) frames hop buf' win (repeat zero dft)).

  (** process, cpp 168-198: inner loop over the channels for one frame *)
  Fixpoint tft_channels_loop (buf : cb T) (window calc : list T) (winlen blockStart : nat) (todo ch : nat)
    : res (list T * list S) :=
    match todo with
    | 0 => Ok (calc, [])
    | Datatypes.S todo' =>
        x <- cb_read buf ch blockStart winlen ;;
        y <- combine2 mul x window winlen ;;
        calc' <- mem_write calc 0 y ;;
        ' (calc'', specs) <- tft_channels_loop buf window calc' winlen blockStart todo' (Datatypes.S ch) ;;
        Ok (calc'', forward calc' :: specs)
    end.
  Fixpoint tft_frames_loop (t : tft) (buf : cb T) (calc : list T) (todo frameIdx : nat)
    : res (list T * list (list S)) :=
    match todo with
    | 0 => Ok (calc, [])
    | Datatypes.S todo' =>
        let blockStart := t_winlen t + (t_frames t - frameIdx - 1) * t_hop t in
        ' (calc', specs) <- tft_channels_loop buf (t_window t) calc (t_winlen t) blockStart (t_channels t) 0 ;;
        ' (calc'', rest) <- tft_frames_loop t buf calc' todo' (Datatypes.S frameIdx) ;;
        Ok (calc'', specs :: rest)
    end.
  Definition tft_process (t : tft) (input : list (list T)) : res (tft * list (list S)) :=
    buf <- cb_write (t_buffer t) input (t_channels t) (t_period t) ;;
    ' (calc, out) <- tft_frames_loop t buf (t_calc t) (t_frames t) 0 ;;
    Ok (Tft (t_channels t) (t_period t) (t_dft t) (t_winlen t) (t_frames t) (t_hop t) buf (t_window t) calc, out).

  (** *** TimeFrequencyInverseTransform, time_frequency_inverse_transform.hpp 88-136 *)
  Record itf := Itf {
    i_channels : nat; i_period : nat; i_dft : nat; i_frames : nat; i_hop : nat;
    i_accu : list (list T);   (* mAccumulationBuffer *)
    i_scale : T }.            (* cScalingFactor *)

  (** constructor, cpp 45-81.  A hop size larger than the transform size makes the unsigned
      number of columns [dftSize - cHopSize] wrap around; this is treated as undefined. *)
  Definition itf_new (channels period dft hop : nat) (scale : T) : res itf :=
    if hop =? 0 then UB
    else if dft <? hop then UB
    else if negb (period mod hop =? 0) then Throw InvalidArgument
    else Ok (Itf channels period dft (period / hop) hop (repeat (repeat zero (dft - hop)) channels) scale).

  (** cpp 95-122, one frame of one channel: new calculation buffer and accumulator row *)
  Definition itf_frame (dft hop : nat) (accu : list T) (spec : S) : res (list T * list T) :=
    let n := dft - hop in
    let calc := inverse spec in
    s <- combine2 add accu calc n ;;
    calc' <- mem_write calc 0 s ;;
    d <- mem_read calc' hop n ;;
    accu' <- mem_write accu 0 d ;;
    Ok (calc', accu').
  Fixpoint itf_frames (dft hop ch : nat) (frames : list (list S)) (todo : nat) (calc accu : list T)
    : res (list T * list T) :=
    match todo with
    | 0 => Ok (calc, accu)
    | Datatypes.S todo' =>
        match frames with
        | [] => UB
        | fr :: rest =>
            match nth_error fr ch with
            | None => UB
            | Some spec =>
                ' (calc', accu') <- itf_frame dft hop accu spec ;;
                itf_frames dft hop ch rest todo' calc' accu'
            end
        end
    end.
  (** loop over the channels, cpp 91-134.  The calculation buffer has no defined contents
      before the first frame, therefore it starts empty. *)
  Fixpoint itf_channels (i : itf) (frames : list (list S)) (accus : list (list T)) (ch : nat)
    : res (list (list T) * list (list T)) :=
    match accus with
    | [] => Ok ([], [])
    | accu :: rest =>
        ' (calc, accu') <- itf_frames (i_dft i) (i_hop i) ch frames (i_frames i) [] accu ;;
        o <- mem_read calc 0 (i_period i) ;;
        ' (accus', outs) <- itf_channels i frames rest (Datatypes.S ch) ;;
        Ok (accu' :: accus', map (mul (i_scale i)) o :: outs)
    end.
  Definition itf_process (i : itf) (frames : list (list S)) : res (itf * list (list T)) :=
    ' (accus, outs) <- itf_channels i frames (i_accu i) 0 ;;
    Ok (Itf (i_channels i) (i_period i) (i_dft i) (i_frames i) (i_hop i) accus (i_scale i), outs).

  (** histories *)
  Fixpoint tft_run (t : tft) (inputs : list (list (list T))) : res (tft * list (list (list S))) :=
    match inputs with
    | [] => Ok (t, [])
    | x :: rest => ' (t', y) <- tft_process t x ;; ' (t'', ys) <- tft_run t' rest ;; Ok (t'', y :: ys)
    end.
  Fixpoint itf_run (i : itf) (inputs : list (list (list S))) : res (itf * list (list (list T))) :=
    match inputs with
    | [] => Ok (i, [])
    | x :: rest => ' (i', y) <- itf_process i x ;; ' (i'', ys) <- itf_run i' rest ;; Ok (i'', y :: ys)
    end.
End TimeFrequency.

(** *** Default window and scaling, over the reals *)
From Coq Require Import Reals.
Local Open Scope R_scope.

(** unityHannWindow, time_frequency_transform.cpp 30-44 *)
Definition unityHannWindow (length : nat) : list R :=
  map (fun idx => 0.5 - 0.5 * cos ((2 * PI * INR idx) / INR length)) (seq 0 length).

(** TimeFrequencyTransform::Normalisation, time_frequency_transform.hpp 47-55, and
    TimeFrequencyInverseTransform::Normalisation, time_frequency_inverse_transform.hpp 46-54 *)
Inductive normalisation := One | Unitary | OneOverN.
Definition desiredNormalisation (n : normalisation) (dftSize : nat) : R :=
  match n with
  | One => 1
  | Unitary => 1 / sqrt (INR dftSize)
  | OneOverN => 1 / INR dftSize
  end.
(** time_frequency_transform.cpp 128-139 *)
Definition forwardScale (n : normalisation) (forwardScalingFactor : R) (dftSize : nat) : R :=
  desiredNormalisation n dftSize / forwardScalingFactor.
(** calculateScalingFactor, time_frequency_inverse_transform.cpp 26-41 *)
Definition calculateScalingFactor (n : normalisation) (actualDftScaling : R) (dftSize : nat) : R :=
  desiredNormalisation n dftSize / actualDftScaling.
(** default arguments: time_frequency_transform.hpp 85, 116 and
    time_frequency_inverse_transform.hpp 83 *)
Definition default_forward_normalisation := Unitary.
Definition default_inverse_normalisation := OneOverN.
