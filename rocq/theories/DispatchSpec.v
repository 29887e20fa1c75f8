(** Specification of the selection of vector functions, independent of the code that performs it. *)
From Verif Require Import Base DispatchModel.
From Coq Require Import ZArith.

(** Instruction sets, and the CPUID bits that announce them: Intel 64 and IA-32 Architectures Software
    Developer's Manual, CPUID: the leaf must not exceed the maximal leaf in EAX of leaf 0 *)
Inductive instructions := MMX | SSE1 | SSE2 | SSE3 | SSE41 | SSE42 | AVX1 | AVX2 | FMA3 | AVX512F.
Definition announced (mc : machine) (leaf : Z) (reg : nat) (bit : Z) : Prop :=
  (leaf <= cpuid mc 0 0 0)%Z /\ Z.testbit (cpuid mc leaf 0 reg) bit = true.
Definition supports (mc : machine) (i : instructions) : Prop :=
  match i with
  | MMX => announced mc 1 3 23
  | SSE1 => announced mc 1 3 25
  | SSE2 => announced mc 1 3 26
  | SSE3 => announced mc 1 2 0
  | SSE41 => announced mc 1 2 19
  | SSE42 => announced mc 1 2 20
  | AVX1 => announced mc 1 2 28
  | FMA3 => announced mc 1 2 12
  | AVX2 => announced mc 7 1 5
  | AVX512F => announced mc 7 1 16
  end.
(** The instruction sets a version is compiled for, src/libefl/intel_x86_64/CMakeLists.txt 51-53 *)
Definition compiled_for (f : feature) : list instructions :=
  match f with
  | FMA => [FMA3; AVX2; AVX1; SSE42]
  | AVX => [AVX1; SSE42]
  | SSE => [SSE42]
  end.
Definition usable (mc : machine) (f : feature) : Prop := Forall (supports mc) (compiled_for f).
(** no usable version is compiled for more instruction sets *)
Definition best (mc : machine) (f : feature) : Prop :=
  usable mc f /\ forall f', usable mc f' -> length (compiled_for f') <= length (compiled_for f).

(** the wrappers the API provides *)
Definition provided (f : vfn) (d : dtype) : Prop :=
  In d [Float; Double; ComplexFloat; ComplexDouble] \/ f = Copy.

(** the functions for which there are versions with vector instructions, i.e. explicit
    specialisations in the sources of intel_x86_64 and armv7l_neon_32bit *)
Definition accelerated (p : platform) (f : vfn) (d : dtype) : Prop :=
  match p with
  | X86 => In (f, d)
      [ (Multiply, Float); (Multiply, Double); (Multiply, ComplexFloat);
        (MultiplyAddInplace, Float); (MultiplyAddInplace, Double); (MultiplyAddInplace, ComplexFloat);
        (MultiplyConstantAddInplace, Float); (MultiplyConstantAddInplace, ComplexFloat);
        (RampScaling, Float) ]
  | Armv7 =>
      In f [Add; AddInplace; AddConstant; AddConstantInplace; Multiply; MultiplyInplace; MultiplyConstant;
            MultiplyConstantInplace; MultiplyAdd; MultiplyAddInplace; MultiplyConstantAdd; MultiplyConstantAddInplace]
      /\ In d [Float; ComplexFloat]
  | OtherProcessor => False
  end.
(** the implementation is in that name space, and is of that function and type *)
Definition installed (t : table) (f : vfn) (d : dtype) (n : space) : Prop := t f d = Some (Ptr n f d).

(** The AVX instructions additionally need an operating system that saves the registers (bits 1 and 2
    of XCR0, ibid. 14.3) *)
Definition executable (mc : machine) (f : feature) : Prop :=
  usable mc f /\ (In AVX1 (compiled_for f) -> os_saves_ymm mc = true).
