(** Model of the selection of the vector functions at run time: the function wrappers
    (src/libefl/function_wrapper.hpp, vector_functions.cpp), the detection of the processor's
    instruction sets (src/libefl/intel_x86_64/cpu_features.cpp) and the initialisation of the library
    (src/libefl/initialise_library.cpp, intel_x86_64/initialise_library.cpp,
    armv7l_neon_32bit/initialise_library.cpp).

    A function pointer is represented by the function template it points to: name space, function,
    element type.  Simplified: the processor architecture, a preprocessor symbol in the code, is a
    parameter; the registers returned by the CPUID instruction are a function of the machine; the
    static initialisation of the wrappers is complete before the first call. *)
From Coq Require Import String.
From Verif Require Import Base.
From Coq Require Import ZArith.

(** vector_functions.cpp 19-25 *)
Inductive vfn :=
| Zero | Fill | Copy | Ramp | Add | AddInplace | AddConstant | AddConstantInplace
| Subtract | SubtractInplace | SubtractConstant | SubtractConstantInplace
| Multiply | MultiplyInplace | MultiplyConstant | MultiplyConstantInplace
| MultiplyAdd | MultiplyAddInplace | MultiplyConstantAdd | MultiplyConstantAddInplace
| CopyStrided | FillStrided | RampScaling.
(** vector_functions.cpp 30-31, 55-56 *)
Inductive dtype :=
| Float | Double | ComplexFloat | ComplexDouble
| Int8 | UInt8 | Int16 | UInt16 | Int32 | UInt32 | Int64 | UInt64 | LongDouble.
Scheme Equality for vfn.
Scheme Equality for dtype.

(** intel_x86_64/vector_functions.hpp 17-22 *)
Inductive feature := FMA | AVX | SSE.
(** the name space of an implementation *)
Inductive space := Reference | Intel (f : feature) | Neon.
Record fptr := Ptr { ns : space; fn : vfn; ty : dtype }.

(** The static members sPtr; None if the wrapper is not instantiated *)
Definition table := vfn -> dtype -> option fptr.
(** function_wrapper.hpp 27 set *)
Definition set (t : table) (f : vfn) (d : dtype) (p : fptr) : table :=
  fun f' d' => if vfn_beq f f' && dtype_beq d d' then Some p else t f' d'.
Definition assign (t : table) (a : vfn * dtype * fptr) : table := set t (fst (fst a)) (snd (fst a)) (snd a).

(** vector_functions.cpp 45-58: every function for the numeric types, Copy for the others *)
Definition numeric (d : dtype) : bool :=
  match d with Float | Double | ComplexFloat | ComplexDouble => true | _ => false end.
Definition initial : table := fun f d =>
  if numeric d || vfn_beq f Copy then Some (Ptr Reference f d) else None.

(** *** cpu_features.cpp *)
(** The registers EAX, EBX, ECX, EDX (0 to 3) as the ints returned for a function and a count; whether
    the operating system saves the upper halves of the vector registers *)
Record machine := Machine { cpuid : Z -> Z -> nat -> Z; os_saves_ymm : bool }.

Local Open Scope Z_scope.
(** 43-46 bitIsSet *)
Definition bit_is_set (vec : nat -> Z) (reg : nat) (bit : Z) : bool :=
  negb (Z.land (vec reg) (Z.shiftl 1 bit) =? 0).

Record cpu_features := Features {
  hasMMX : bool; hasSSE : bool; hasSSE2 : bool; hasSSE3 : bool; hasSSE41 : bool; hasSSE42 : bool;
  hasAVX : bool; hasAVX2 : bool; hasFMA3 : bool; hasAVX512F : bool }.
(** 50-86 CpuFeatures::CpuFeatures *)
Definition detect (mc : machine) : cpu_features :=
  let maxInfoId := cpuid mc 0 0 0%nat in
  let basic := cpuid mc 1 0 in
  let extended := cpuid mc 7 0 in
  let has1 := 1 <=? maxInfoId in
  let has7 := 7 <=? maxInfoId in
  Features (has1 && bit_is_set basic 3 23)
           (has1 && bit_is_set basic 3 25)
           (has1 && bit_is_set basic 3 26)
           (has1 && bit_is_set basic 2 9)
           (has1 && bit_is_set basic 2 19)
           (has1 && bit_is_set basic 2 20)
           (has1 && bit_is_set basic 2 28)
           (has7 && bit_is_set extended 1 5)
           (has1 && bit_is_set basic 2 12)
           (has7 && bit_is_set extended 1 16).
Local Close Scope Z_scope.

(** *** intel_x86_64/initialise_library.cpp *)
(** 20-34 initialiseFeatureFunctions *)
Definition feature_functions (f : feature) : list (vfn * dtype * fptr) :=
  [ (Multiply, Float, Ptr (Intel f) Multiply Float);
    (Multiply, Double, Ptr (Intel f) Multiply Double);
    (Multiply, ComplexFloat, Ptr (Intel f) Multiply ComplexFloat);
    (MultiplyAddInplace, Float, Ptr (Intel f) MultiplyAddInplace Float);
    (MultiplyAddInplace, Double, Ptr (Intel f) MultiplyAddInplace Double);
    (MultiplyAddInplace, ComplexFloat, Ptr (Intel f) MultiplyAddInplace ComplexFloat);
    (MultiplyConstantAddInplace, Float, Ptr (Intel f) MultiplyConstantAddInplace Float);
    (MultiplyConstantAddInplace, ComplexFloat, Ptr (Intel f) MultiplyConstantAddInplace ComplexFloat);
    (RampScaling, Float, Ptr (Intel f) RampScaling Float) ].
(** 36-72 initialiseLibrary *)
Definition initialise_x86 (mc : machine) (processor : string) (t : table) : bool * table :=
  let features := detect mc in
  let t :=
    if hasFMA3 features && hasAVX2 features && hasAVX features && hasSSE42 features
    then fold_left assign (feature_functions FMA) t
    else if hasAVX features && hasSSE42 features
    then fold_left assign (feature_functions AVX) t
    else if hasSSE42 features
    then fold_left assign (feature_functions SSE) t
    else t in
  (true, t).
(** 74-97 uninitialiseLibrary *)
Definition uninitialise_x86 (t : table) : bool * table :=
  (true, fold_left assign
    [ (Multiply, Float, Ptr Reference Multiply Float);
      (Multiply, Double, Ptr Reference Multiply Double);
      (Multiply, ComplexFloat, Ptr Reference Multiply ComplexFloat);
      (MultiplyInplace, Float, Ptr Reference MultiplyInplace Float);
      (MultiplyInplace, ComplexFloat, Ptr Reference MultiplyInplace ComplexFloat);
      (MultiplyConstant, Float, Ptr Reference MultiplyConstant Float);
      (MultiplyConstant, ComplexFloat, Ptr Reference MultiplyConstant ComplexFloat);
      (MultiplyConstantInplace, Float, Ptr Reference MultiplyConstantInplace Float);
      (MultiplyConstantInplace, ComplexFloat, Ptr Reference MultiplyConstantInplace ComplexFloat);
      (MultiplyAdd, Float, Ptr Reference MultiplyAdd Float);
      (MultiplyAdd, ComplexFloat, Ptr Reference MultiplyAdd ComplexFloat);
      (MultiplyAddInplace, Float, Ptr Reference MultiplyAddInplace Float);
      (MultiplyAddInplace, ComplexFloat, Ptr Reference MultiplyAddInplace ComplexFloat);
      (MultiplyConstantAdd, Float, Ptr Reference MultiplyConstantAdd Float);
      (MultiplyConstantAdd, ComplexFloat, Ptr Reference MultiplyConstantAdd ComplexFloat);
      (MultiplyConstantAddInplace, Float, Ptr Reference MultiplyConstantAddInplace Float);
      (MultiplyConstantAddInplace, ComplexFloat, Ptr Reference MultiplyConstantAddInplace ComplexFloat);
      (RampScaling, Float, Ptr Reference RampScaling Float) ] t).

(** *** armv7l_neon_32bit/initialise_library.cpp *)
(** 16-46 initialiseLibrary *)
Definition initialise_arm (processor : string) (t : table) : bool * table :=
  (true, fold_left assign
    [ (Add, Float, Ptr Neon Add Float); (Add, ComplexFloat, Ptr Neon Add ComplexFloat);
      (AddInplace, Float, Ptr Neon AddInplace Float); (AddInplace, ComplexFloat, Ptr Neon AddInplace ComplexFloat);
      (AddConstant, Float, Ptr Neon AddConstant Float); (AddConstant, ComplexFloat, Ptr Neon AddConstant ComplexFloat);
      (AddConstantInplace, Float, Ptr Neon AddConstantInplace Float);
      (AddConstantInplace, ComplexFloat, Ptr Neon AddConstantInplace ComplexFloat);
      (Multiply, Float, Ptr Neon Multiply Float); (Multiply, ComplexFloat, Ptr Neon Multiply ComplexFloat);
      (MultiplyInplace, Float, Ptr Neon MultiplyInplace Float);
      (MultiplyInplace, ComplexFloat, Ptr Neon MultiplyInplace ComplexFloat);
      (MultiplyConstant, Float, Ptr Neon MultiplyConstant Float);
      (MultiplyConstant, ComplexFloat, Ptr Neon MultiplyConstant ComplexFloat);
      (MultiplyConstantInplace, Float, Ptr Neon MultiplyConstantInplace Float);
      (MultiplyConstantInplace, ComplexFloat, Ptr Neon MultiplyConstantInplace ComplexFloat);
      (MultiplyAdd, Float, Ptr Neon MultiplyAdd Float); (MultiplyAdd, ComplexFloat, Ptr Neon MultiplyAdd ComplexFloat);
      (MultiplyAddInplace, Float, Ptr Neon MultiplyAddInplace Float);
      (MultiplyAddInplace, ComplexFloat, Ptr Neon MultiplyAddInplace ComplexFloat);
      (MultiplyConstantAdd, Float, Ptr Neon MultiplyConstantAdd Float);
      (MultiplyConstantAdd, ComplexFloat, Ptr Neon MultiplyConstantAdd ComplexFloat);
      (MultiplyConstantAddInplace, Float, Ptr Neon MultiplyConstantAddInplace Float);
      (MultiplyConstantAddInplace, ComplexFloat, Ptr Neon MultiplyConstantAddInplace ComplexFloat) ] t).
(** 48-78 uninitialiseLibrary *)
Definition uninitialise_arm (t : table) : bool * table :=
  (true, fold_left assign
    [ (Add, Float, Ptr Reference Add Float); (Add, ComplexFloat, Ptr Reference Add ComplexFloat);
      (AddInplace, Float, Ptr Reference AddInplace Float); (AddInplace, ComplexFloat, Ptr Reference AddInplace ComplexFloat);
      (AddConstant, Float, Ptr Reference AddConstant Float); (AddConstant, ComplexFloat, Ptr Reference AddConstant ComplexFloat);
      (AddConstantInplace, Float, Ptr Reference AddConstantInplace Float);
      (AddConstantInplace, ComplexFloat, Ptr Reference AddConstantInplace ComplexFloat);
      (Multiply, Float, Ptr Reference Multiply Float); (Multiply, ComplexFloat, Ptr Reference Multiply ComplexFloat);
      (MultiplyInplace, Float, Ptr Reference MultiplyInplace Float);
      (MultiplyInplace, ComplexFloat, Ptr Reference MultiplyInplace ComplexFloat);
      (MultiplyConstant, Float, Ptr Reference MultiplyConstant Float);
      (MultiplyConstant, ComplexFloat, Ptr Reference MultiplyConstant ComplexFloat);
      (MultiplyConstantInplace, Float, Ptr Reference MultiplyConstantInplace Float);
      (MultiplyConstantInplace, ComplexFloat, Ptr Reference MultiplyConstantInplace ComplexFloat);
      (MultiplyAdd, Float, Ptr Reference MultiplyAdd Float); (MultiplyAdd, ComplexFloat, Ptr Reference MultiplyAdd ComplexFloat);
      (MultiplyAddInplace, Float, Ptr Reference MultiplyAddInplace Float);
      (MultiplyAddInplace, ComplexFloat, Ptr Reference MultiplyAddInplace ComplexFloat);
      (MultiplyConstantAdd, Float, Ptr Reference MultiplyConstantAdd Float);
      (MultiplyConstantAdd, ComplexFloat, Ptr Reference MultiplyConstantAdd ComplexFloat);
      (MultiplyConstantAddInplace, Float, Ptr Reference MultiplyConstantAddInplace Float);
      (MultiplyConstantAddInplace, ComplexFloat, Ptr Reference MultiplyConstantAddInplace ComplexFloat) ] t).

(** *** initialise_library.cpp *)
(** VISR_SYSTEM_PROCESSOR_x86_64, VISR_SYSTEM_PROCESSOR_armv7l, neither *)
Inductive platform := X86 | Armv7 | OtherProcessor.
Inductive op := Initialise (processor : string) | Uninitialise.
(** 18-27 initialiseLibrary, 29-38 uninitialiseLibrary *)
Definition step (p : platform) (mc : machine) (t : table) (o : op) : bool * table :=
  match o with
  | Initialise processor =>
      match p with
      | X86 => initialise_x86 mc processor t
      | Armv7 => initialise_arm processor t
      | OtherProcessor => (true, t)
      end
  | Uninitialise =>
      match p with
      | X86 => uninitialise_x86 t
      | Armv7 => uninitialise_arm t
      | OtherProcessor => (true, t)
      end
  end.
(** A program that calls these functions any number of times in any order *)
Definition after (p : platform) (mc : machine) (ops : list op) : table :=
  fold_left (fun t o => snd (step p mc t o)) ops initial.
