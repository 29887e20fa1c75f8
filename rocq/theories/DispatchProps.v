(** Property C82: whatever sequence of initialisations and deinitialisations a program performs, every
    vector function is implemented by a version of that function for that type which the processor
    can execute, initialisation selects the best one, and the results do not depend on the selection. *)
From Coq Require Import String.
From Verif Require Import Base Memory SimdModel SimdProofs SimdKernels SimdCompose SimdProps DispatchModel DispatchSpec DispatchProofs.
From Coq Require Import ZArith.

(** the detected features are those the processor announces.  Missing: SSE3, for which the code looks
    at the bit of SSSE3; see the refutation. *)
Theorem C82_detection_partial mc :
  let features := detect mc in
  (hasMMX features = true <-> supports mc MMX) /\ (hasSSE features = true <-> supports mc SSE1)
  /\ (hasSSE2 features = true <-> supports mc SSE2) /\ (hasSSE41 features = true <-> supports mc SSE41)
  /\ (hasSSE42 features = true <-> supports mc SSE42) /\ (hasAVX features = true <-> supports mc AVX1)
  /\ (hasAVX2 features = true <-> supports mc AVX2) /\ (hasFMA3 features = true <-> supports mc FMA3)
  /\ (hasAVX512F features = true <-> supports mc AVX512F).
Proof. cbn zeta. repeat apply conj; apply announced_spec; lia. Qed.
Print Assumptions C82_detection_partial.

(** every wrapper holds an implementation of its own function for its own type, on every platform,
    and no wrapper is added or lost *)
Theorem C82_own_function p mc ops f d :
  (provided f d -> exists n, installed (after p mc ops) f d n)
  /\ (~ provided f d -> after p mc ops f d = None).
Proof.
  destruct (entries_after p mc ops f d) as [E|(A & n & S & E)].
  - unfold installed. rewrite E. split.
    + intros P. apply provided_spec in P. eauto.
    + intros P. destruct (initial_shape f d) as [I|I]; [exact I|]. exfalso. apply P. now apply provided_spec.
  - unfold installed. rewrite E. split; [eauto|]. intros P. exfalso. apply P. apply provided_spec. now apply (accel_provided p).
Qed.
Print Assumptions C82_own_function.

(** no version is installed that needs an instruction set the processor does not announce *)
Theorem C82_supported p mc ops f d q :
  after p mc ops f d = Some q ->
  match ns q with
  | Reference => True
  | Intel ft => p = X86 /\ accelerated p f d /\ usable mc ft
  | Neon => p = Armv7 /\ accelerated p f d
  end.
Proof.
  intros H. destruct (entries_after p mc ops f d) as [E|(A & n & S & E)].
  - rewrite H in E. destruct (initial_shape f d) as [I|I]; rewrite I in E; [discriminate|]. injection E as ->. constructor.
  - rewrite H in E. injection E as ->. cbn [ns]. apply accel_spec in A.
    destruct p; cbn [accel_space option_map] in S.
    + destruct (choice mc) as [ft|] eqn:C; [|discriminate]. injection S as <-.
      apply choice_best in C as [U _]. auto.
    + injection S as <-. auto.
    + discriminate.
Qed.
Print Assumptions C82_supported.

(** after an initialisation, whatever preceded it, exactly the functions with an accelerated version
    use it, in the best version for the processor *)
Theorem C82_initialise p mc ops s f d :
  provided f d ->
  let t := after p mc (ops ++ [Initialise s]) in
  (forall ft, installed t f d (Intel ft) <-> p = X86 /\ accelerated p f d /\ best mc ft)
  /\ (installed t f d Neon <-> p = Armv7 /\ accelerated p f d)
  /\ (installed t f d Reference
      <-> ~ accelerated p f d \/ p = X86 /\ forall ft, ~ usable mc ft).
Proof.
  intros P t. apply provided_spec in P. unfold installed, t. rewrite after_snoc, step_initialise.
  assert (E := entries_after p mc ops f d). setoid_rewrite <- accel_spec.
  destruct p; cbn [accel_space option_map] in *.
  - rewrite <- choice_none.
    assert (CB : forall ft, choice mc = Some ft <-> best mc ft) by (intros; apply choice_best).
    destruct (choice mc) as [c|] eqn:C; cbn [option_map] in *.
    + destruct (accel_b X86 f d) eqn:A.
      * split; [|split].
        -- intros ft. rewrite <- CB. split; [intros H; injection H as ->; auto|intros (_ & _ & H); now injection H as ->].
        -- split; [discriminate|intros [H _]; discriminate].
        -- split; [discriminate|]. intros [H|[_ H]]; [now destruct H|discriminate].
      * destruct E as [E|(H & _)]; [|discriminate H]. rewrite E, P.
        split; [|split].
        -- intros ft. split; [discriminate|intros (_ & H & _); discriminate].
        -- split; [discriminate|intros [H _]; discriminate].
        -- split; [left; discriminate|reflexivity].
    + destruct E as [E|(_ & n & H & _)]; [|discriminate H]. rewrite E, P.
      split; [|split].
      * intros ft. rewrite <- CB. split; [discriminate|intros (_ & _ & H); discriminate].
      * split; [discriminate|intros [H _]; discriminate].
      * split; [right; auto|reflexivity].
  - destruct (accel_b Armv7 f d) eqn:A.
    + split; [|split].
      * intros ft. split; [discriminate|intros [H _]; discriminate].
      * tauto.
      * split; [discriminate|]. intros [H|[H _]]; [now destruct H|discriminate].
    + destruct E as [E|(H & _)]; [|discriminate H]. rewrite E, P.
      split; [|split].
      * intros ft. split; [discriminate|intros [H _]; discriminate].
      * split; [discriminate|intros [_ H]; discriminate].
      * split; [left; discriminate|reflexivity].
  - destruct E as [E|(H & _)]; [|discriminate H]. rewrite E, P.
    split; [|split].
    + intros ft. split; [discriminate|intros [H _]; discriminate].
    + split; [discriminate|intros [H _]; discriminate].
    + split; [left; discriminate|reflexivity].
Qed.
Print Assumptions C82_initialise.

(** the functions report success for every processor, also if no version was installed *)
Theorem C82_success p mc ops o : fst (step p mc (after p mc ops) o) = true.
Proof. destruct o, p; reflexivity. Qed.
Print Assumptions C82_success.

(** Deinitialisation restores the reference functions.  Missing: the multiply-add function for double
    on x86, which keeps its implementation; see the refutation. *)
Theorem C82_uninitialise_partial p mc ops f d :
  provided f d ->
  let t := after p mc (ops ++ [Uninitialise]) in
  (p = X86 /\ f = MultiplyAddInplace /\ d = Double -> t f d = after p mc ops f d)
  /\ (~ (p = X86 /\ f = MultiplyAddInplace /\ d = Double) -> installed t f d Reference).
Proof.
  intros P t. apply provided_spec in P. unfold installed, t. rewrite after_snoc. split.
  - intros (-> & -> & ->). apply step_uninitialise_double.
  - intros N. destruct (step_uninitialise p mc (after p mc ops) f d) as [H|[H [A|A]]]; [exact H| |now destruct N].
    rewrite H. destruct (entries_after p mc ops f d) as [E|(B & _)]; [now rewrite E|congruence].
Qed.
Print Assumptions C82_uninitialise_partial.

(** *** Machines *)
(** registers with the given maximal leaf, ECX of leaf 1 and EBX of leaf 7 *)
Definition registers (leaf ecx ebx : Z) (f : Z) (c : Z) (reg : nat) : Z :=
  match f, reg with
  | 0%Z, 0 => leaf
  | 1%Z, 2 => ecx
  | 7%Z, 1 => ebx
  | _, _ => 0%Z
  end.
Definition haswell := Machine (registers 13 (2 ^ 12 + 2 ^ 20 + 2 ^ 28) (2 ^ 5)) true.
Definition sandy_bridge := Machine (registers 13 (2 ^ 20 + 2 ^ 28) 0) true.
Definition nehalem := Machine (registers 11 (2 ^ 20) 0) true.
Definition pentium4 := Machine (registers 2 0 (2 ^ 5)) true.
Definition old_system := Machine (registers 13 (2 ^ 12 + 2 ^ 20 + 2 ^ 28) (2 ^ 5)) false.

Definition space_of (t : table) (f : vfn) (d : dtype) : option space := option_map ns (t f d).

Example C82_ex_versions :
  map (fun mc => space_of (after X86 mc [Initialise ""]) MultiplyAddInplace Float) [haswell; sandy_bridge; nehalem; pentium4]
  = [Some (Intel FMA); Some (Intel AVX); Some (Intel SSE); Some Reference].
Proof. vm_compute. reflexivity. Qed.
Example C82_ex_best : best sandy_bridge AVX /\ ~ usable sandy_bridge FMA /\ (forall f, ~ usable pentium4 f).
Proof.
  split; [now apply choice_best|]. split.
  - intros U. apply usable_FMA in U. discriminate U.
  - apply choice_none. reflexivity.
Qed.
(** a leaf beyond the maximal one is not looked at: this machine has no leaf 7 *)
Example C82_ex_leaf : hasAVX2 (detect pentium4) = false /\ hasAVX2 (detect haswell) = true.
Proof. split; reflexivity. Qed.
Example C82_ex_other_functions :
  space_of (after X86 haswell [Initialise ""; Initialise ""]) Add Float = Some Reference
  /\ space_of (after Armv7 haswell [Initialise ""]) Add Float = Some Neon
  /\ space_of (after Armv7 haswell [Initialise ""; Uninitialise]) Add Float = Some Reference
  /\ space_of (after X86 haswell [Initialise ""; Uninitialise]) Multiply Double = Some Reference
  /\ space_of (after X86 haswell [Initialise ""]) Copy LongDouble = Some Reference
  /\ space_of (after X86 haswell [Initialise ""]) Add LongDouble = None.
Proof. repeat split; reflexivity. Qed.

(** a processor with SSE3 is not recognised, one without it is taken to have it *)
Theorem C82_sse3_refuted :
  exists with_sse3 without_sse3,
    supports with_sse3 SSE3 /\ hasSSE3 (detect with_sse3) = false
    /\ ~ supports without_sse3 SSE3 /\ hasSSE3 (detect without_sse3) = true.
Proof.
  exists (Machine (registers 2 1 0) true), (Machine (registers 2 (2 ^ 9) 0) true).
  repeat apply conj; try reflexivity; [cbn; lia|]. intros [_ H]. discriminate H.
Qed.
Print Assumptions C82_sse3_refuted.

(** after a deinitialisation some function may still use vector instructions *)
Theorem C82_uninitialise_refuted :
  exists mc ops f d ft, provided f d /\ installed (after X86 mc (ops ++ [Uninitialise])) f d (Intel ft).
Proof.
  exists haswell, [Initialise ""], MultiplyAddInplace, Double, FMA. split; [left; cbn; tauto|]. reflexivity.
Qed.
Print Assumptions C82_uninitialise_refuted.

(** the support of the operating system for the vector registers is not checked *)
Theorem C82_executable_refuted :
  exists mc ops f d ft, installed (after X86 mc ops) f d (Intel ft) /\ ~ executable mc ft.
Proof.
  exists old_system, [Initialise ""], Multiply, Float, FMA. split; [reflexivity|].
  intros [_ H]. assert (K : In AVX1 (compiled_for FMA)) by (cbn; tauto). now specialize (H K).
Qed.
Print Assumptions C82_executable_refuted.

(** *** Calls through the wrappers on x86 *)
Section Calls.
  Context {T : Type} (zero : T) (add sub mul : T -> T -> T) (fma : T -> T -> T -> T).
  Hypothesis add_comm : forall x y, add x y = add y x.
  Hypothesis mul_comm : forall x y, mul x y = mul y x.

  (** the preprocessor symbols of the versions *)
  Definition with_avx (f : feature) : bool := match f with FMA | AVX => true | SSE => false end.
  Definition with_avx2 (f : feature) : bool := match f with FMA => true | AVX | SSE => false end.

  (** function_wrapper.hpp 30 call, for the functions modelled in property C18; other
      pointers do not occur in these wrappers *)
  Definition call (t : table) (f : vfn) (d : dtype) (run : space -> result) : @result T :=
    match t f d with
    | Some (Ptr n f' d') => if vfn_beq f f' && dtype_beq d d' then run n else UB
    | None => UB
    end.
  Definition on_x86 (ref : @result T) (kernel : feature -> @result T) (n : space) : @result T :=
    match n with Reference => ref | Intel f => kernel f | Neon => UB end.

  Lemma call_independent mc ops f d ref kernel :
    provided f d -> (forall ft, usable mc ft -> kernel ft = ref) ->
    call (after X86 mc ops) f d (on_x86 ref kernel) = ref.
  Proof.
    intros P K. unfold call.
    destruct (proj1 (C82_own_function X86 mc ops f d) P) as [n I]. unfold installed in I. rewrite I.
    rewrite (internal_vfn_dec_lb f f eq_refl), (internal_dtype_dec_lb d d eq_refl). cbn [andb].
    assert (S := C82_supported X86 mc ops f d _ I). cbn [ns] in S.
    destruct n as [|ft|]; cbn [on_x86]; [reflexivity|apply K, S|destruct S; discriminate].
  Qed.

  Theorem C82_call_multiply_float mc ops f1 f2 r n alignment (m : list T) :
    operands_ok n f1 f2 r m ->
    call (after X86 mc ops) Multiply Float
      (on_x86 (ref_multiply 1 (rmul mul) f1 f2 r n alignment m)
              (fun ft => multiply_float zero mul (with_avx ft) f1 f2 r n alignment m))
    = ref_multiply 1 (rmul mul) f1 f2 r n alignment m.
  Proof. intros O. apply call_independent; [left; cbn; tauto|]. intros ft _. now apply C18_multiply_float. Qed.

  Theorem C82_call_multiply_double mc ops f1 f2 r n alignment (m : list T) :
    operands_ok n f1 f2 r m ->
    call (after X86 mc ops) Multiply Double
      (on_x86 (ref_multiply 1 (rmul mul) f1 f2 r n alignment m)
              (fun ft => multiply_double zero mul (with_avx ft) f1 f2 r n alignment m))
    = ref_multiply 1 (rmul mul) f1 f2 r n alignment m.
  Proof. intros O. apply call_independent; [left; cbn; tauto|]. intros ft _. now apply C18_multiply_double. Qed.

  Theorem C82_call_multiply_complex mc ops f1 f2 r n alignment (m : list T) :
    operands_ok (n * 2) f1 f2 r m ->
    call (after X86 mc ops) Multiply ComplexFloat
      (on_x86 (ref_multiply 2 (cmul add sub mul) f1 f2 r n alignment m)
              (fun ft => multiply_complex add sub mul (with_avx ft) f1 f2 r n alignment m))
    = ref_multiply 2 (cmul add sub mul) f1 f2 r n alignment m.
  Proof. intros O. apply call_independent; [left; cbn; tauto|]. intros ft _. now apply C18_multiply_complex. Qed.

  (** the fused multiply-add must not round differently on machines for which that version is selected *)
  Theorem C82_call_multiply_add_float mc ops f1 f2 acc n alignment (m : list T) :
    (usable mc FMA -> forall x y z, fma x y z = add (mul x y) z) -> operands_ok n f1 f2 acc m ->
    call (after X86 mc ops) MultiplyAddInplace Float
      (on_x86 (ref_multiply_add 1 (rmul mul) (radd add) f1 f2 acc n alignment m)
              (fun ft => multiply_add_float zero add mul fma (with_avx ft) (with_avx2 ft) f1 f2 acc n alignment m))
    = ref_multiply_add 1 (rmul mul) (radd add) f1 f2 acc n alignment m.
  Proof.
    intros F O. apply call_independent; [left; cbn; tauto|]. intros ft U. apply C18_multiply_add_float; auto.
    unfold fma_exact. destruct ft; cbn; try discriminate; auto.
  Qed.

  Theorem C82_call_multiply_add_double mc ops f1 f2 acc n alignment (m : list T) :
    (usable mc FMA -> forall x y z, fma x y z = add (mul x y) z) -> operands_ok n f1 f2 acc m ->
    call (after X86 mc ops) MultiplyAddInplace Double
      (on_x86 (ref_multiply_add 1 (rmul mul) (radd add) f1 f2 acc n alignment m)
              (fun ft => multiply_add_double zero add mul fma (with_avx ft) (with_avx2 ft) f1 f2 acc n alignment m))
    = ref_multiply_add 1 (rmul mul) (radd add) f1 f2 acc n alignment m.
  Proof.
    intros F O. apply call_independent; [left; cbn; tauto|]. intros ft U. apply C18_multiply_add_double; auto.
    unfold fma_exact. destruct ft; cbn; try discriminate; auto.
  Qed.

  Theorem C82_call_multiply_add_complex mc ops f1 f2 acc n alignment (m : list T) :
    operands_ok (n * 2) f1 f2 acc m ->
    call (after X86 mc ops) MultiplyAddInplace ComplexFloat
      (on_x86 (ref_multiply_add 2 (cmul add sub mul) (cadd add) f1 f2 acc n alignment m)
              (fun ft => multiply_add_complex add sub mul (with_avx ft) f1 f2 acc n alignment m))
    = ref_multiply_add 2 (cmul add sub mul) (cadd add) f1 f2 acc n alignment m.
  Proof. intros O. apply call_independent; [left; cbn; tauto|]. intros ft _. now apply C18_multiply_add_complex. Qed.

  Theorem C82_call_ramp_scaling mc ops debug accumulate base gain x ramp y n alignment (m : list T) :
    (usable mc FMA -> forall x y z, fma x y z = add (mul x y) z) -> operands_ok n x ramp y m ->
    debug = true \/ check_ptr 1 x alignment && check_ptr 1 ramp alignment && check_ptr 1 y alignment = true ->
    call (after X86 mc ops) RampScaling Float
      (on_x86 (ref_ramp add mul debug accumulate base gain x ramp y n alignment m)
              (fun ft => ramp_float zero add mul fma (with_avx ft) (with_avx2 ft) debug accumulate base gain x ramp y n alignment m))
    = ref_ramp add mul debug accumulate base gain x ramp y n alignment m.
  Proof.
    intros F O V. apply call_independent; [left; cbn; tauto|]. intros ft U. apply C18_ramp_scaling; auto.
    unfold fma_exact. destruct ft; cbn; try discriminate; auto.
  Qed.
End Calls.
Print Assumptions C82_call_multiply_float.
Print Assumptions C82_call_multiply_double.
Print Assumptions C82_call_multiply_complex.
Print Assumptions C82_call_multiply_add_float.
Print Assumptions C82_call_multiply_add_double.
Print Assumptions C82_call_multiply_add_complex.
Print Assumptions C82_call_ramp_scaling.

(** three products of whole numbers through the wrapper, with the version for AVX *)
Example C82_ex_call :
  let m := map Z.of_nat (seq 1 9) in
  operands_ok 3 0 3 6 m
  /\ call (after X86 sandy_bridge [Uninitialise; Initialise ""]) Multiply Float
       (on_x86 (ref_multiply 1 (rmul Z.mul) 0 3 6 3 0 m)
               (fun ft => multiply_float 0%Z Z.mul (with_avx ft) 0 3 6 3 0 m))
     = Ok (NoError, [1; 2; 3; 4; 5; 6; 4; 10; 18]%Z).
Proof. split; [unfold operands_ok, compatible; cbn; lia|]. vm_compute. reflexivity. Qed.
