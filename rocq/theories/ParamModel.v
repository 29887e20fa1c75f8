(** Parameter types, their ids, their configurations, and the factories of parameters and protocols.

    Sources: src/libvisr/detail/compile_time_hash_fnv1.hpp, src/libvisr/parameter_factory.{hpp,cpp},
    src/libvisr/communication_protocol_factory.{hpp,cpp}, src/libvisr/typed_parameter_base.hpp,
    the parameter and configuration classes of src/libpml, src/libpanningdsp/panning_matrix_parameter.cpp,
    src/libreverbobject/late_reverb_parameter.{hpp,cpp}, src/libpml/initialise_parameter_library.cpp,
    src/libpanningdsp/initialise_parameter_library.cpp.

    Simplifications: an std::map is an association list without repeated keys (its order is not
    observed by the functions below); the contents of a parameter object apart from its dimensions are
    a value of an arbitrary type; allocation does not fail; distinct objects do not share memory. *)
From Coq Require Import String Ascii NArith.
From Verif Require Import Base.
Local Open Scope res_scope.

(** *** Ids *)
Definition word : N := 18446744073709551616.
(** the conversion of a (signed) char to uint64_t *)
Definition char_word (c : ascii) : N :=
  let n := N_of_ascii c in if (n <? 128)%N then n else (word - 256 + n)%N.
(** fnv1(), compile_time_hash_fnv1.hpp 35-49 *)
Definition fnv_step (h : N) (c : ascii) : N := N.lxor ((h * 1099511628211) mod word) (char_word c).
Fixpoint fnv1 (h : N) (s : string) : N :=
  match s with
  | EmptyString => h
  | String c s' => fnv1 (fnv_step h c) s'
  end.
(** compileTimeHashFNV1(), 25-30 *)
Definition hash (s : string) : N := fnv1 14695981039346656037 s.

(** *** Parameter types *)
Inductive precision := Single | Double.
Inductive element := RealEl (p : precision) | ComplexEl (p : precision).
Inductive scalar := SBool | SInt | SUnsigned | SElement (e : element).
Inductive ptype :=
| BiquadCoefficient (p : precision) | BiquadCoefficientList (p : precision) | BiquadMatrix (p : precision)
| FilterRouting | FilterRoutingList | IndexedVector (p : precision) | IndexedString | Interpolation
| ListenerPosition | Matrix (e : element) | ObjectVector | Scalar (s : scalar) | SignalRouting
| SparseGainRouting | SparseGainRoutingList | StringParameter | TimeFrequency (p : precision)
| Vector (e : element) | PanningMatrix | LateReverb.

(** the names: biquad_parameter.hpp 37-95, filter_routing_parameter.hpp 29 47, indexed_value_parameter.hpp
    27-32, interpolation_parameter.hpp 54, listener_position.hpp 31, matrix_parameter.hpp 28-43,
    object_vector.hpp 26, scalar_parameter.hpp 28-51, signal_routing_parameter.hpp 32,
    sparse_gain_routing_parameter.hpp 35 51, string_parameter.hpp 23, time_frequency_parameter.hpp 27-36,
    vector_parameter.hpp 25-38, panning_matrix_parameter.hpp 26-27, late_reverb_parameter.hpp 28 *)
Local Open Scope string_scope.
Definition type_name (t : ptype) : string :=
  match t with
  | BiquadCoefficient Single => "BiquadCoefficientFloat"
  | BiquadCoefficient Double => "BiquadCoefficientDouble"
  | BiquadCoefficientList Single => "BiquadCoefficientListFloat"
  | BiquadCoefficientList Double => "BiquadCoefficientListDouble"
  | BiquadMatrix Single => "BiquadFloatMatrix"
  | BiquadMatrix Double => "BiquadDoubleMatrix"
  | FilterRouting => "FilterRoutingParameter"
  | FilterRoutingList => "FilterRoutingListParameter"
  | IndexedVector Single => "IndexedFloatVector"
  | IndexedVector Double => "IndexedDoubleVector"
  | IndexedString => "IndexedString"
  | Interpolation => "InterpolationParameter"
  | ListenerPosition => "ListenerPosition"
  | Matrix (RealEl Single) => "FloatMatrix"
  | Matrix (RealEl Double) => "DoubleMatrix"
  | Matrix (ComplexEl Single) => "ComplexFloatMatrix"
  | Matrix (ComplexEl Double) => "ComplexDoubleMatrix"
  | ObjectVector => "ObjectVector"
  | Scalar SBool => "Boolean"
  | Scalar SInt => "Integer"
  | Scalar SUnsigned => "UnsignedInteger"
  | Scalar (SElement (RealEl Single)) => "Float"
  | Scalar (SElement (RealEl Double)) => "Double"
  | Scalar (SElement (ComplexEl Single)) => "ComplexFloat"
  | Scalar (SElement (ComplexEl Double)) => "ComplexDouble"
  | SignalRouting => "SignalRouting"
  | SparseGainRouting => "SparseGainRouting"
  | SparseGainRoutingList => "SparseGainRoutingLIst"
  | StringParameter => "String"
  | TimeFrequency Single => "TimeFrequencyParameterFloat"
  | TimeFrequency Double => "TimeFrequencyParameterDouble"
  | Vector (RealEl Single) => "FloatVector"
  | Vector (RealEl Double) => "DoubleVector"
  | Vector (ComplexEl Single) => "ComplexFloatVector"
  | Vector (ComplexEl Double) => "ComplexDoubleVector"
  | PanningMatrix => "panningdsp::PanningMatrixParameter"
  | LateReverb => "reverbobject::LateReverbParameter"
  end.
Local Close Scope string_scope.
(** TypedParameterBase::staticType(), typed_parameter_base.hpp 38-41 *)
Definition type_id (t : ptype) : N := hash (type_name t).

(** *** Configurations: the classes derived from ParameterConfigBase *)
Inductive config :=
| CEmpty
| CVector (elements : nat)
| CMatrix (rows columns : nat)
| CTimeFrequency (bins channels frames : nat)
| CInterpolation (interpolants : nat).
Inductive config_class := KEmpty | KVector | KMatrix | KTimeFrequency | KInterpolation.

(** the third argument of DEFINE_PARAMETER_TYPE, which is the type of the configuration that a typed
    parameter port holds (parameter_type.hpp 61-83); biquad_parameter.hpp 219-240, matrix_parameter.hpp
    124-127, vector_parameter.hpp 109-112, time_frequency_parameter.hpp 226-227,
    interpolation_parameter.hpp 72, panning_matrix_parameter.hpp 157, late_reverb_parameter.hpp 71,
    otherwise EmptyParameterConfig *)
Definition declared_config (t : ptype) : config_class :=
  match t with
  | BiquadCoefficient _ | BiquadCoefficientList _ | BiquadMatrix _ | Matrix _ | PanningMatrix => KMatrix
  | Vector _ => KVector
  | TimeFrequency _ => KTimeFrequency
  | Interpolation => KInterpolation
  | _ => KEmpty
  end.

(** compare(): empty_parameter_config.cpp 27-40, vector_parameter_config.cpp 30-43,
    matrix_parameter_config.cpp 29-42, time_frequency_parameter_config.cpp 34-49; None stands for
    std::invalid_argument.  interpolation_parameter.cpp 28-39: the comparison is commented out. *)
Definition compare (a b : config) : option bool :=
  match a, b with
  | CEmpty, CEmpty => Some true
  | CVector n, CVector n' => Some (n' =? n)
  | CMatrix r c, CMatrix r' c' => Some ((r' =? r) && (c' =? c))
  | CTimeFrequency b c f, CTimeFrequency b' c' f' => Some ((b' =? b) && (c' =? c) && (f' =? f))
  | CInterpolation _, _ => Some true
  | _, _ => None
  end.

(** *** Objects *)
Inductive failure := E (e : exn) | BadCast.
Inductive outcome (A : Type) := Done (a : A) | Failed (f : failure).
Arguments Done {A} a. Arguments Failed {A} f.

Inductive shape :=
| NoShape
| VectorShape (elements : nat)
| MatrixShape (rows columns : nat)
| SpectraShape (rows columns channels : nat)   (* TimeFrequencyParameter: mData, mNumberOfChannels *)
| InterpolationShape (interpolants : nat).

Section Objects.
  Context {V : Type}.
  (** the contents of a new object *)
  Variable initial : ptype -> shape -> V.
  (** the contents of a PanningMatrixParameter with all gains set to zero *)
  Variable zero_gains : V -> V.

  Record object := Object { o_type : ptype; o_shape : shape; o_value : V }.
  Definition new (t : ptype) (s : shape) : outcome object := Done (Object t s (initial t s)).

  (** the constructors with an argument of type ParameterConfigBase const &.
      dynamic_cast of a reference: scalar_parameter.cpp 22-32, indexed_value_parameter.cpp 23-33,
      listener_position.cpp 25-35, object_vector.cpp 15-18, string_parameter.cpp 17-28,
      matrix_parameter.cpp 52-63, vector_parameter.cpp 28-38, time_frequency_parameter.cpp 30-43,
      interpolation_parameter.cpp 46-54, panning_matrix_parameter.cpp 132-142;
      std::bad_cast translated to std::invalid_argument or dynamic_cast of a pointer:
      biquad_parameter.cpp 21-33 47-66 81-98, filter_routing_parameter.cpp 23-46,
      sparse_gain_routing_parameter.cpp 10-35;
      not checked: signal_routing_parameter.cpp 35-39, late_reverb_parameter.cpp 16-19 *)
  Definition construct (t : ptype) (c : config) : outcome object :=
    match t with
    | Scalar _ | IndexedVector _ | IndexedString | ListenerPosition | ObjectVector | StringParameter =>
        match c with CEmpty => new t NoShape | _ => Failed BadCast end
    | BiquadCoefficient _ | FilterRouting | FilterRoutingList | SparseGainRouting | SparseGainRoutingList =>
        match c with CEmpty => new t NoShape | _ => Failed (E InvalidArgument) end
    | BiquadCoefficientList _ =>
        match c with CVector n => new t (VectorShape n) | _ => Failed (E InvalidArgument) end
    (* the number of sections is that of the first row, biquad_coefficient.hpp 347-348 *)
    | BiquadMatrix _ =>
        match c with CMatrix r n => new t (MatrixShape r (if r =? 0 then 0 else n)) | _ => Failed (E InvalidArgument) end
    | Matrix _ | PanningMatrix => match c with CMatrix r n => new t (MatrixShape r n) | _ => Failed BadCast end
    | Vector _ => match c with CVector n => new t (VectorShape n) | _ => Failed BadCast end
    | TimeFrequency _ => match c with CTimeFrequency b n f => new t (SpectraShape (f * n) b n) | _ => Failed BadCast end
    | Interpolation => match c with CInterpolation n => new t (InterpolationShape n) | _ => Failed BadCast end
    | SignalRouting | LateReverb => new t NoShape
    end.

  Definition precision_eqb (a b : precision) : bool := match a, b with Single, Single | Double, Double => true | _, _ => false end.
  Definition element_eqb (a b : element) : bool :=
    match a, b with RealEl p, RealEl q | ComplexEl p, ComplexEl q => precision_eqb p q | _, _ => false end.
  Definition scalar_eqb (a b : scalar) : bool :=
    match a, b with SBool, SBool | SInt, SInt | SUnsigned, SUnsigned => true | SElement e, SElement f => element_eqb e f | _, _ => false end.
  (** the C++ types are equal, which is what the dynamic_cast of assign() tests *)
  Definition ptype_eqb (a b : ptype) : bool :=
    match a, b with
    | BiquadCoefficient p, BiquadCoefficient q | BiquadCoefficientList p, BiquadCoefficientList q
    | BiquadMatrix p, BiquadMatrix q | IndexedVector p, IndexedVector q | TimeFrequency p, TimeFrequency q => precision_eqb p q
    | Matrix e, Matrix f | Vector e, Vector f => element_eqb e f
    | Scalar s, Scalar r => scalar_eqb s r
    | FilterRouting, FilterRouting | FilterRoutingList, FilterRoutingList | IndexedString, IndexedString
    | Interpolation, Interpolation | ListenerPosition, ListenerPosition | ObjectVector, ObjectVector
    | SignalRouting, SignalRouting | SparseGainRouting, SparseGainRouting
    | SparseGainRoutingList, SparseGainRoutingList | StringParameter, StringParameter
    | PanningMatrix, PanningMatrix | LateReverb, LateReverb => true
    | _, _ => false
    end.

  (** TypedParameterBase::assign(), typed_parameter_base.hpp 63-71, with the copy assignment of the
      class: vector_parameter.cpp 53-61, matrix_parameter.cpp 75-81 with basic_matrix.hpp 145-169,
      panning_matrix_parameter.cpp 154-167, time_frequency_parameter.cpp 68-80, BiquadCoefficientList:
      biquad_coefficient.hpp 217-225 (the exception is constructed, but not thrown), otherwise the
      members are copied.  The state of the target after the call and the exception, if any. *)
  Definition assign (a b : object) : object * option failure :=
    if negb (ptype_eqb (o_type a) (o_type b)) then (a, Some (E InvalidArgument))
    else match o_type a, o_shape a, o_shape b with
         | Vector _, VectorShape n, VectorShape n' =>
             if negb (n =? n') then (a, Some (E OutOfRange)) else (b, None)
         | Matrix _, MatrixShape r c, MatrixShape r' c' =>
             if negb (r =? r') || negb (c =? c') then (a, Some (E InvalidArgument)) else (b, None)
         | PanningMatrix, _, MatrixShape objects loudspeakers =>
             (* mGains.resize( numberOfLoudspeakers(), numberOfObjects() ); mGains.copy() *)
             if negb (loudspeakers =? objects) || negb (objects =? loudspeakers)
             then (Object PanningMatrix (MatrixShape loudspeakers objects) (zero_gains (o_value b)), Some (E InvalidArgument))
             else (b, None)
         | _, _, _ => (b, None)
         end.

  (** *** ParameterFactory: creatorTable(), a map from ids to classes *)
  Definition table := list (N * ptype).
  Fixpoint find (i : N) (m : table) : option ptype :=
    match m with
    | [] => None
    | (j, t) :: m' => if (i =? j)%N then Some t else find i m'
    end.
  (** registerParameterType( type ): std::map::insert, parameter_factory.hpp 131-135 *)
  Definition register (i : N) (t : ptype) (m : table) : table :=
    match find i m with Some _ => m | None => (m ++ [(i, t)])%list end.
  (** unregisterParameterType( type ), 143-152 *)
  Definition unregister (i : N) (m : table) : table := filter (fun e => negb (i =? fst e)%N) m.
  (** create(), parameter_factory.cpp 55-67 *)
  Definition create (m : table) (i : N) (c : config) : outcome object :=
    match find i m with
    | None => Failed (E InvalidArgument)
    | Some t => construct t c
    end.
  (** typeExists(), 75-79, numberOfParameterTypes(), 69-72 *)
  Definition typeExists (m : table) (i : N) : bool := match find i m with Some _ => true | None => false end.
  Definition numberOfParameterTypes (m : table) : nat := List.length m.

  (** ParameterRegistrar< Parameters... >, parameter_factory.hpp 180-231: the constructor of the base
      class, i.e. for the other types, runs before, its destructor after that of the class *)
  Fixpoint registrar (l : list ptype) (m : table) : table :=
    match l with
    | [] => m
    | t :: l' => register (type_id t) t (registrar l' m)
    end.
  Fixpoint registrar_end (l : list ptype) (m : table) : table :=
    match l with
    | [] => m
    | t :: l' => registrar_end l' (unregister (type_id t) m)
    end.

  (** histories of calls *)
  Inductive op := Register (i : N) (t : ptype) | Unregister (i : N).
  Definition step (m : table) (o : op) : table :=
    match o with Register i t => register i t m | Unregister i => unregister i m end.
  Definition after (h : list op) : table := fold_left step h [].

  (** pml::initialiseParameterLibrary(), initialise_parameter_library.cpp 33-73 *)
  Definition pml_types : list ptype :=
    [ BiquadMatrix Single; BiquadMatrix Double; FilterRouting; FilterRoutingList; IndexedVector Double;
      IndexedVector Single; IndexedString; Interpolation; ListenerPosition;
      Matrix (RealEl Single); Matrix (RealEl Double); Matrix (ComplexEl Single); Matrix (ComplexEl Double);
      ObjectVector; ListenerPosition;
      Scalar SBool; Scalar SInt; Scalar SUnsigned; Scalar (SElement (RealEl Single)); Scalar (SElement (RealEl Double));
      Scalar (SElement (ComplexEl Single)); Scalar (SElement (ComplexEl Double));
      SignalRouting; SparseGainRoutingList; SparseGainRouting; StringParameter;
      TimeFrequency Single; TimeFrequency Double;
      Vector (RealEl Single); Vector (RealEl Double); Vector (ComplexEl Single); Vector (ComplexEl Double) ].
  (** panningdsp::initialiseParameterLibrary(), initialise_parameter_library.cpp 14-20 *)
  Definition panningdsp_types : list ptype := [ PanningMatrix ].

  (** *** CommunicationProtocolFactory *)
  Inductive pkind := DoubleBuffering | MessageQueue | SharedData.
  (** sProtocolName, double_buffering_protocol.hpp 128, message_queue_protocol.hpp 107,
      shared_data_protocol.hpp 80 *)
  Definition kind_name (k : pkind) : string :=
    match k with DoubleBuffering => "DoubleBuffering" | MessageQueue => "MessageQueue" | SharedData => "SharedData" end%string.
  Definition kind_id (k : pkind) : N := hash (kind_name k).

  Record pentry := PEntry { e_id : N; e_name : string; e_kind : pkind }.
  Definition ptable := list pentry.
  Definition pfind (i : N) (m : ptable) : option pentry := List.find (fun e => (i =? e_id e)%N) m.
  Definition pfind_name (s : string) (m : ptable) : option pentry := List.find (fun e => (e_name e =? s)%string) m.
  (** registerCommunicationProtocol(), communication_protocol_factory.cpp 18-41 *)
  Definition pregister (e : pentry) (m : ptable) : res ptable :=
    match pfind (e_id e) m with
    | Some _ => Throw InvalidArgument
    | None => match pfind_name (e_name e) m with
              | Some _ => Throw InvalidArgument
              | None => Ok (m ++ [e])%list
              end
    end.
  (** unregisterCommunicationProtocol(), 43-52 *)
  Definition punregister (i : N) (m : ptable) : ptable := filter (fun e => negb (i =? e_id e)%N) m.
  (** typeFromName(), 149-159; typeToName(), 161-170; typeExists(), 172-176; numberOfProtocols(), 143-146 *)
  Definition typeFromName (m : ptable) (s : string) : res N :=
    match pfind_name s m with None => Throw OutOfRange | Some e => Ok (e_id e) end.
  Definition typeToName (m : ptable) (i : N) : res string :=
    match pfind i m with None => Throw OutOfRange | Some e => Ok (e_name e) end.

  (** CommunicationProtocolRegistrar< Protocols... >, communication_protocol_factory.hpp 257-298.  If
      the body of the constructor throws, the destructor of the base class runs. *)
  Fixpoint pregistrar_end (l : list pentry) (m : ptable) : ptable :=
    match l with
    | [] => m
    | e :: l' => pregistrar_end l' (punregister (e_id e) m)
    end.
  Fixpoint pregistrar (l : list pentry) (m : ptable) : ptable * option exn :=
    match l with
    | [] => (m, None)
    | e :: l' =>
        match pregistrar l' m with
        | (m1, Some x) => (m1, Some x)
        | (m1, None) =>
            match pregister e m1 with
            | Ok m2 => (m2, None)
            | Throw x => (pregistrar_end l' m1, Some x)
            | UB => (m1, None)
            end
        end
    end.
  (** registerCommunicationProtocol<Protocol>(), 238-244 *)
  Definition own_entry (k : pkind) : pentry := PEntry (kind_id k) (kind_name k) k.
  (** initialise_parameter_library.cpp 75-79 *)
  Definition pml_protocols : list pkind := [DoubleBuffering; MessageQueue; SharedData].

  Inductive pop := PRegister (e : pentry) | PUnregister (i : N).
  Definition pstep (m : ptable) (o : pop) : ptable :=
    match o with
    | PRegister e => match pregister e m with Ok m' => m' | _ => m end
    | PUnregister i => punregister i m
    end.
  Definition pafter (h : list pop) : ptable := fold_left pstep h [].

  (** the constructors of the protocols: the parameter objects they hold.
      double_buffering_protocol.cpp 14-24 (mBackData, mFrontData), shared_data_protocol.cpp 14-23,
      message_queue_protocol.cpp 10-17 *)
  Definition construct_protocol (m : table) (k : pkind) (i : N) (c : config) : outcome (list object) :=
    match k with
    | DoubleBuffering =>
        match create m i c with
        | Failed f => Failed f
        | Done back => match create m i c with Failed f => Failed f | Done front => Done [back; front] end
        end
    | SharedData => match create m i c with Failed f => Failed f | Done d => Done [d] end
    | MessageQueue => Done []
    end.
  (** createProtocol(), communication_protocol_factory.cpp 100-112 *)
  Definition createProtocol (pm : ptable) (m : table) (kid i : N) (c : config) : outcome (pkind * list object) :=
    match pfind kid pm with
    | None => Failed (E OutOfRange)
    | Some e => match construct_protocol m (e_kind e) i c with
                | Failed f => Failed f
                | Done l => Done (e_kind e, l)
                end
    end.
  (** swapBuffers( copyValue ), double_buffering_protocol.cpp 52-60: the new front and back object *)
  Definition swapBuffers (copyValue : bool) (back front : object) : (object * object) * option failure :=
    if copyValue then
      match assign back front with
      | (back', Some f) => ((front, back'), Some f)
      | (back', None) => ((back', front), None)
      end
    else ((back, front), None).
End Objects.
Arguments object V : clear implicits.
