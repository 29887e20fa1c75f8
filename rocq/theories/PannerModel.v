(** rcl::PanningCalculator (src/librcl/panning_calculator.hpp, panning_calculator.cpp, the branch
    compiled by #if 1), over the real numbers.  A result that is not a number (the square root of a
    negative gain) is UB.  Not modelled: floating-point rounding, status messages, the state after an
    exception, the members that the compiled branch does not use (mLoudspeakerPositions). *)
From Verif Require Import Base QuaternionModel ListenerModel VbapModel.
From Verif Require CircularBufferModel.
From Coq Require Import Reals.
From Coq Require String.
Local Open Scope R_scope.
Local Open Scope res_scope.

(** The parts of an audio object that the component reads: the channels and the type with its
    attributes.  PointSourceWithReverb is a PointSource, PointSourceExtent a
    PointSourceWithDiffuseness.  The labels of a ChannelObject are listed for each of its channels. *)
Inductive content :=
  | ChannelObject (diffuseness : R) (labels : list (list String.string))
  | DiffuseSource
  | PlaneWave (azimuth elevation distance : R)
  | PointSource (p : pos3 R)
  | PointSourceWithDiffuseness (p : pos3 R) (diffuseness : R)
  | OtherContent.
Record scene_object := SceneObject { so_channels : list nat; so_content : content }.

(** efl::spherical2cartesian, libefl/cartesian_spherical_conversion.hpp 30-36 *)
Definition spherical2cartesian (az el radius : R) : pos3 R := P3 (cos az * cos el * radius) (sin az * cos el * radius) (sin el * radius).

(** Normalisation, panning_calculator.hpp 64-69 *)
Inductive normalisation := Default | Amplitude | Energy.
(** the outputs, panning_calculator.hpp 54-62: PanningMode as a set of flags *)
Record panning_mode := Mode { md_lf : bool; md_hf : bool; md_diffuse : bool }.

(** A gain matrix: the number of object channels and the data, row after row with padding;
    MatrixParameter( config ), libpml/matrix_parameter.cpp 54-58, and BasicMatrix 41-48 with
    cVectorAlignmentSamples = 16 *)
Definition stride (columns : nat) : nat := CircularBufferModel.matrix_stride columns 16.
Definition zero_matrix (rows columns : nat) : list R := repeat 0 (rows * stride columns).

(** loudspeakerId, LoudspeakerArray.cpp 584-596: [ids] is m_id in the order of the map *)
Definition loudspeakerId (ids : list (String.string * nat)) (index : nat) : res String.string :=
  match find (fun p => Nat.eqb (snd p) index) ids with Some p => Ok (fst p) | None => Throw OutOfRange end.
Definition lookup (table : list (String.string * nat)) (label : String.string) : option nat :=
  match find (fun p => String.eqb (fst p) label) table with Some p => Some (snd p) | None => None end.
(** fillLabelLookup, panning_calculator.cpp 496-516 *)
Fixpoint fill_from (ids : list (String.string * nat)) (numSpeakers channelIndex : nat) (table : list (String.string * nat)) : res (list (String.string * nat)) :=
  match numSpeakers with
  | O => Ok table
  | S m => lspId <- loudspeakerId ids channelIndex ;;
           match lookup table lspId with
           | Some _ => Throw InvalidArgument
           | None => fill_from ids m (S channelIndex) (table ++ [(lspId, channelIndex)])
           end
  end.
Definition fillLabelLookup (ids : list (String.string * nat)) (numSpeakers : nat) := fill_from ids numSpeakers 0 [].

Section Panner.
  (** std::numeric_limits<SampleType>::epsilon() *)
  Variable epsilon : R.

  (** *out = normFactor * *in with an output stride, panning_calculator.cpp 165-169 *)
  Fixpoint write_strided (data : list R) (out outputStride : nat) (values : list R) : res (list R) :=
    match values with
    | [] => Ok data
    | x :: rest => data <- vset data out x ;; write_strided data (out + outputStride) outputStride rest
    end.
  (** normalise, 147-170 *)
  Definition sig_norm (mode : normalisation) (g : list R) : R :=
    match mode with
    | Amplitude => fold_left (fun acc val => acc + Rabs val) g 0
    | Energy => sqrt (fold_left (fun acc val => acc + val * val) g 0)
    | Default => 1
    end.
  Definition normalise_into (g : list R) (data : list R) (out : nat) (mode : normalisation) (outputStride : nat) (targetLevel : R) : res (list R) :=
    let normFactor := targetLevel / Rmax (sig_norm mode g) epsilon in
    write_strided data out outputStride (map (fun x => normFactor * x) g).

  (** The component.  Outputs that do not exist are [None] *)
  Record panner := Panner {
    n_objects : nat; n_loudspeakers : nat; n_table : list (String.string * nat); n_vbap : vbap;
    n_lfNorm : normalisation; n_hfNorm : normalisation; n_diffuseNorm : normalisation;
    n_lf : option (list R); n_hf : option (list R); n_diffuse : option (list R) }.
  (** constructor, 45-115 *)
  Definition construct (a : array) (ids : list (String.string * nat)) (numberOfObjects : nat) (mode : panning_mode)
      (lfNorm hfNorm diffuseNorm : normalisation) (listenerPosition : pos3 R) : res panner :=
    table <- fillLabelLookup ids (a_regular a) ;;
    v <- setListenerPosition epsilon a listenerPosition ;;
    let zero := fun b : bool => if b then Some (zero_matrix (a_regular a) numberOfObjects) else None in
    Ok (Panner numberOfObjects (a_regular a) table v
          (match lfNorm with Default => if md_hf mode then Amplitude else Energy | x => x end)
          (match hfNorm with Default => Energy | x => x end)
          (match diffuseNorm with Default => Energy | x => x end)
          (zero (md_lf mode)) (zero (md_hf mode)) (zero (md_diffuse mode))).

  Definition write_to (m : option (list R)) (g : list R) (ch : nat) (mode : normalisation) (columns : nat) (level : R) : res (option (list R)) :=
    match m with None => Ok None | Some d => d <- normalise_into g d ch mode (stride columns) level ;; Ok (Some d) end.
  (** the three blocks that write the gains of one channel, 239-253 and 299-315 *)
  Definition write_gains (p : panner) (ch : nat) (lf hf diffuse : list R) (directRatio diffuseRatio : R) : res panner :=
    l <- write_to (n_lf p) lf ch (n_lfNorm p) (n_objects p) directRatio ;;
    h <- write_to (n_hf p) hf ch (n_hfNorm p) (n_objects p) directRatio ;;
    d <- write_to (n_diffuse p) diffuse ch (n_diffuseNorm p) (n_objects p) diffuseRatio ;;
    Ok (Panner (n_objects p) (n_loudspeakers p) (n_table p) (n_vbap p) (n_lfNorm p) (n_hfNorm p) (n_diffuseNorm p) l h d).
  (** 226-237: an unknown label is only reported; its iterator is used nevertheless *)
  Fixpoint label_gains (table : list (String.string * nat)) (labels : list String.string) (g : list R) : res (list R) :=
    match labels with
    | [] => Ok g
    | outLabel :: rest =>
        match lookup table outLabel with None => UB | Some i => g <- vset g i 1 ;; label_gains table rest g end
    end.
  (** 214-256; the check of the channel index only reports *)
  Fixpoint channel_object (p : panner) (channels : list nat) (diffuseRatio : R) (labels : list (list String.string)) (chIdx : nat) : res panner :=
    match channels with
    | [] => Ok p
    | objChannelIdx :: rest =>
        match nth_error labels chIdx with
        | None => Throw OutOfRange                                     (* channel_object.cpp 42-49 *)
        | Some ls => g <- label_gains (n_table p) ls (repeat 0 (n_loudspeakers p)) ;;
                     p <- write_gains p objChannelIdx g g g (1 - diffuseRatio) diffuseRatio ;;
                     channel_object p rest diffuseRatio labels (S chIdx)
        end
    end.
  (** std::sqrt *)
  Definition square_root (x : R) : res R := if Rltb x 0 then UB else Ok (sqrt x).
  (** 297-316 for a source with panning gains [g]; the square roots are only computed for the output HF *)
  Definition panned (p : panner) (ch : nat) (g diffuse : list R) (diffuseRatio : R) : res panner :=
    hf <- match n_hf p with Some _ => map_res square_root g | None => Ok [] end ;;
    write_gains p ch g hf diffuse (1 - diffuseRatio) diffuseRatio.
  (** body of the loop over the objects, 207-317 *)
  Definition process_object (p : panner) (o : scene_object) : res panner :=
    match so_content o with
    | ChannelObject d labels => channel_object p (so_channels o) d labels 0
    | c =>
        match so_channels o with
        | [ch] =>
            let zeros := repeat 0 (n_loudspeakers p) in
            match c with
            | DiffuseSource =>
                match n_diffuse p with
                | None => Ok p
                | Some d => d <- normalise_into (repeat 1 (n_loudspeakers p)) d ch (n_diffuseNorm p) (stride (n_objects p)) 1 ;;
                            Ok (Panner (n_objects p) (n_loudspeakers p) (n_table p) (n_vbap p) (n_lfNorm p) (n_hfNorm p) (n_diffuseNorm p) (n_lf p) (n_hf p) (Some d))
                end
            | PlaneWave az el dist =>
                g <- calculateGainsUnNormalised (n_vbap p) (spherical2cartesian az el dist) true ;; panned p ch g zeros 0
            | PointSource pos =>
                g <- calculateGainsUnNormalised (n_vbap p) pos false ;; panned p ch g zeros 0
            | PointSourceWithDiffuseness pos d =>
                g <- calculateGainsUnNormalised (n_vbap p) pos false ;;
                panned p ch g (if Rleb epsilon d then repeat 1 (n_loudspeakers p) else zeros) d
            | _ => Ok p
            end
        | _ => Ok p
        end
    end.
  Fixpoint process_each (p : panner) (objects : list scene_object) : res panner :=
    match objects with [] => Ok p | o :: rest => p <- process_object p o ;; process_each p rest end.
  (** 187-318: all gains are set to zero first *)
  Definition process_objects (p : panner) (objects : list scene_object) : res panner :=
    let clear := fun m : option (list R) => match m with None => None | Some d => Some (repeat 0 (length d)) end in
    process_each (Panner (n_objects p) (n_loudspeakers p) (n_table p) (n_vbap p) (n_lfNorm p) (n_hfNorm p) (n_diffuseNorm p)
                         (clear (n_lf p)) (clear (n_hf p)) (clear (n_diffuse p))) objects.
  (** setListenerPosition, 132-140 *)
  Definition set_listener (p : panner) (l : pos3 R) : res panner :=
    v <- setListenerPosition epsilon (v_array (n_vbap p)) l ;;
    Ok (Panner (n_objects p) (n_loudspeakers p) (n_table p) v (n_lfNorm p) (n_hfNorm p) (n_diffuseNorm p) (n_lf p) (n_hf p) (n_diffuse p)).
  (** process, 176-482: [Some] stands for changed() *)
  Definition process (p : panner) (input : option (pos3 R) * option (list scene_object)) : res panner :=
    p <- match fst input with Some l => set_listener p l | None => Ok p end ;;
    match snd input with Some objects => process_objects p objects | None => Ok p end.
  Fixpoint run (p : panner) (inputs : list (option (pos3 R) * option (list scene_object))) : res panner :=
    match inputs with [] => Ok p | i :: rest => p <- process p i ;; run p rest end.
End Panner.
(** element of a gain matrix: loudspeaker [row], object channel [col]; BasicMatrix 159-167 *)
Definition element (columns : nat) (data : list R) (row col : nat) : R := nth (row * stride columns + col) data 0.
