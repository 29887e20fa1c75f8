(** rcl::CAPGainCalculator (src/librcl/cap_gain_calculator.hpp, cap_gain_calculator.cpp), over the
    real numbers.  Not modelled: floating-point rounding, messages to the console. *)
From Verif Require Import Base QuaternionModel ListenerModel VbapModel CapModel CapVbapModel.
From Coq Require Import Reals.
Local Open Scope R_scope.
Local Open Scope res_scope.

(** The parts of an audio object that the component reads; objectmodel::ObjectTypeId *)
Inductive kind :=
  | PointSource (p : pos3 R)
  | PointSourceWithDiffuseness (p : pos3 R) (diffuseness : R)
  | PlaneWave (azimuth elevation distance : R)
  | OtherType.
Record object := Object { o_channels : list nat; o_kind : kind }.

(** spherical2cartesian, libefl/cartesian_spherical_conversion.hpp 30-36 *)
Definition spherical2cartesian (az el radius : R) : pos3 R := P3 (cos az * cos el * radius) (sin az * cos el * radius) (sin el * radius).
(** degree2radian, libefl/degree_radian_conversion.hpp 22-26 *)
Definition degree2radian (x : R) : R := x * PI / 180.

(** one entry of mLevels and mSourcePositions *)
Record source := Source { s_level : R; s_position : xyz }.
(** process( objects, gainMatrix ), cap_gain_calculator.cpp 118-124 *)
Definition default_source : source := Source 0 (XYZ (P3 1 0 0) false).
Definition update (l : list source) (i : nat) (f : source -> source) : list source :=
  firstn i l ++ match skipn i l with [] => [] | s :: rest => f s :: rest end.
(** body of the loop over the objects, 128-182; the level of a source with diffuseness is overwritten
    in the next case of the switch *)
Definition set_object (n : nat) (l : list source) (o : object) : list source :=
  match o_channels o with
  | [channelId] =>
      if Nat.leb n channelId then l
      else update l channelId (fun s =>
        match o_kind o with
        | PointSource p | PointSourceWithDiffuseness p _ => Source 1 (XYZ p false)
        | PlaneWave az el _ => Source 1 (XYZ (spherical2cartesian (degree2radian az) (degree2radian el) 1) true)
        | OtherType => Source 0 (s_position s)
        end)
  | _ => l
  end.
Definition assign (n : nat) (objects : list object) : list source := fold_left (set_object n) objects (repeat default_source n).

(** pml::ListenerPosition *)
Record listener := Listener { l_pos : pos3 R; l_yaw : R; l_pitch : R; l_roll : R }.
(** The component: panning algorithms, gain matrices of both outputs (one list per object channel) *)
Record calculator := Calculator { g_objects : nat; g_loudspeakers : nat; g_cap : cap; g_vbip : option capvbap;
                                  g_gains : list (list R); g_hf : list (list R) }.

Section Calculator.
  (** std::numeric_limits<SampleType>::epsilon() *)
  Variable epsilon : R.

  (** constructor, 31-66.  The number of columns of the gains of CAP counts the virtual loudspeakers,
      too (CAP.h 97-104).  [hf] is the parameter hfGainOutput, [mode] means PanningMode::HF. *)
  Definition construct (a : array) (numberOfObjects : nat) (mode hf : bool) : res calculator :=
    let zero := repeat (repeat 0 (a_regular a)) numberOfObjects in
    vbip <- (if hf then v <- cv_construct epsilon a (P3 0 0 0) ;; Ok (Some v) else Ok None) ;;
    Ok (Calculator numberOfObjects (a_regular a)
          (Cap (firstn (a_regular a) (a_positions a)) (length (a_positions a)) (P3 0 0 0) (P3 1 0 0) (3 / 2) 10 mode) vbip zero zero).

  (** 190-203: transposition and multiplication by the level *)
  Definition gain_column (loudspeakers : nat) (level : R) (row : list R) : list R := map (fun i => level * nth i row 0) (seq 0 loudspeakers).
  (** 208-225; the result of the square root is discarded by std::for_each *)
  Definition hf_column (v : capvbap) (s : source) : res (list R) :=
    g <- cv_calculateGainsUnNormalised v (x_pos (s_position s)) (x_infinite (s_position s)) ;;
    let sigNorm := sqrt (fold_left (fun acc val => acc + val * val) g 0) in
    let normedLevel := s_level s / Rmax sigNorm epsilon in
    Ok (map (fun x => normedLevel * x) g).
  (** process( objects, gainMatrix ), 115-228 *)
  Definition process_objects (c : calculator) (objects : list object) : res calculator :=
    let sources := assign (g_objects c) objects in
    rows <- calcGains (g_cap c) (map s_position sources) ;;
    let gains := map (fun p => gain_column (g_loudspeakers c) (s_level (fst p)) (snd p)) (combine sources rows) in
    hf <- match g_vbip c with Some v => map_res (hf_column v) sources | None => Ok (g_hf c) end ;;
    Ok (Calculator (g_objects c) (g_loudspeakers c) (g_cap c) (g_vbip c) gains hf).
  (** process(), 83-99: a new listener position *)
  Definition set_listener (c : calculator) (l : listener) : res calculator :=
    let k := g_cap c in
    let k := Cap (c_speakers k) (c_width k) (l_pos l) (c_axis k) (c_maxGainPreComp k) (c_maxGain k) (c_HFmode k) in
    let k := setListenerOrientation k (l_yaw l) (l_pitch l) (l_roll l) in
    vbip <- match g_vbip c with
            | Some v => v' <- cv_setListenerPosition epsilon (k_array v) (k_threshold v) (k_fade v) (l_pos l) ;; Ok (Some v')
            | None => Ok None
            end ;;
    Ok (Calculator (g_objects c) (g_loudspeakers c) k vbip (g_gains c) (g_hf c)).
  (** process(), 81-113: [Some] stands for changed(); the flag of the listener is reset before it is
      read for the second time *)
  Definition process (c : calculator) (input : option listener * option (list object)) : res calculator :=
    c <- match fst input with Some l => set_listener c l | None => Ok c end ;;
    match snd input with Some objects => process_objects c objects | None => Ok c end.
  (** a sequence of blocks *)
  Fixpoint run (c : calculator) (inputs : list (option listener * option (list object))) : res calculator :=
    match inputs with [] => Ok c | i :: rest => c <- process c i ;; run c rest end.
End Calculator.
