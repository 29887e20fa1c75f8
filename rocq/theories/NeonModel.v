(** Model of the ARM NEON vector kernels (src/libefl/armv7l_neon_32bit/vector_add.cpp,
    vector_multiply.cpp, vector_multiply_add.cpp) and of the reference functions they replace
    (src/libefl/reference/vector_functions_impl.hpp 93-149, 205-335).

    Memory, pointers and alignment check as in SimdModel.v: one array of words (float), a complex
    number occupies two words, operands may overlap, access outside the memory is undefined behaviour;
    the NEON loads and stores used need no alignment.  The arithmetic operations are parameters; vmla
    and vmls round after the multiplication.  The pointers of a function are a list of sources, among
    them the destination for in-place functions, and the destination.  [debug] is the absence of
    NDEBUG.  [junk] are the lanes of a register that a load of a single lane leaves: old or
    uninitialised contents, which C++ does not allow to read; here they are arbitrary values. *)
From Verif Require Import Base Memory SimdModel.
Local Open Scope res_scope.

Section Neon.
  Context {T : Type} (add sub mul : T -> T -> T) (junk : nat -> list T).

  (** *** Registers *)
  Definition vadd (a b : list T) : list T := map2 add a b.
  Definition vmul (a b : list T) : list T := map2 mul a b.
  Definition vmla (acc a b : list T) : list T := map2 add acc (map2 mul a b).
  Definition vmls (acc a b : list T) : list T := map2 sub acc (map2 mul a b).
  (** vld2: even words, odd words; vst2 *)
  Fixpoint deinterleave (l : list T) : list T * list T :=
    match l with a :: b :: l' => let '(x, y) := deinterleave l' in (a :: x, b :: y) | _ => ([], []) end.
  Fixpoint interleave (x y : list T) : list T :=
    match x, y with a :: x', b :: y' => a :: b :: interleave x' y' | _, _ => [] end.

  (** an instruction sequence on loaded registers: result register *)
  Definition sequence := list (list T) -> list T.
  (** vld1_lane, vst1_lane: lane 0 of registers with other contents *)
  Definition with_junk (rs : list (list T)) : list (list T) :=
    map (fun p => snd p ++ junk (fst p)) (combine (seq 0 (length rs)) rs).
  Definition lane (op : sequence) : sequence := fun rs => firstn 1 (op (with_junk rs)).
  (** vld2, vst2: pairs of registers with real and imaginary parts *)
  Definition sequence2 := list (list T * list T) -> list T * list T.
  Definition struct (op : sequence2) : sequence := fun rs =>
    let '(x, y) := op (map deinterleave rs) in interleave x y.
  (** vld2_lane, vst2_lane *)
  Definition struct_lane (op : sequence2) : sequence := fun rs =>
    let '(x, y) := op (map (fun p => let '(x, y) := deinterleave (snd p) in (x ++ junk (fst p), y ++ junk (fst p)))
                           (combine (seq 0 (length rs)) rs)) in
    interleave (firstn 1 x) (firstn 1 y).

  (** *** Loops *)
  Record at_ := At { left : nat; sources : list nat; dest : nat; contents : list T }.
  Definition advance (w step : nat) (s : at_) (m : list T) : at_ :=
    At (left s - w) (map (fun p => p + step) (sources s)) (dest s + step) m.
  (** load [step] words from all sources, execute, store *)
  Definition execute (step : nat) (op : sequence) (s : at_) : res (list T) :=
    rs <- map_res (fun p => mem_read (contents s) p step) (sources s) ;;
    mem_write (contents s) (dest s) (op rs).
  (** if( numElements >= w ) { ... } *)
  Definition once (w step : nat) (op : sequence) (s : at_) : res at_ :=
    if left s <? w then Ok s else m <- execute step op s ;; Ok (advance w step s m).
  (** for(; numElements >= w; numElements -= w ) { ... } *)
  Fixpoint repeat_ (fuel w step : nat) (op : sequence) (s : at_) : res at_ :=
    if left s <? w then Ok s
    else match fuel with
         | 0 => UB
         | S f => m <- execute step op s ;; repeat_ f w step op (advance w step s m)
         end.
  Definition loop (w step : nat) (op : sequence) (s : at_) : res at_ := repeat_ (left s) w step op s.

  Definition checked (debug : bool) (e : nat) (srcs : list nat) (y alignment : nat) (run : result) (m : list T) : @result T :=
    if debug && negb (forallb (fun p => check_ptr e p alignment) (srcs ++ [y])) then Ok (AlignmentError, m) else run.

  (** four, two, one float *)
  Definition kernel_float (debug : bool) (op4 op2 op1 : sequence) (srcs : list nat) (y n alignment : nat) (m : list T) : result :=
    checked debug 1 srcs y alignment
      (s <- loop 4 4 op4 (At n srcs y m) ;; s <- once 2 2 op2 s ;; s <- once 1 1 (lane op1) s ;; Ok (NoError, contents s)) m.
  (** two, one complex number in a register *)
  Definition kernel_complex_add (debug : bool) (op4 op2 : sequence) (srcs : list nat) (y n alignment : nat) (m : list T) : result :=
    checked debug 2 srcs y alignment
      (s <- loop 2 4 op4 (At n srcs y m) ;; s <- once 1 2 op2 s ;; Ok (NoError, contents s)) m.
  (** four, two, one complex number in a pair of registers *)
  Definition kernel_complex (debug : bool) (op4 op2 op1 : sequence2) (srcs : list nat) (y n alignment : nat) (m : list T) : result :=
    checked debug 2 srcs y alignment
      (s <- loop 4 8 (struct op4) (At n srcs y m) ;; s <- once 2 4 (struct op2) s ;; s <- once 1 2 (struct_lane op1) s ;;
       Ok (NoError, contents s)) m.

  Definition set (w : nat) (x : T) : list T := repeat x w.
  Definition unary (f : list T -> list T) : sequence := fun rs => match rs with [a] => f a | _ => [] end.
  Definition binary (f : list T -> list T -> list T) : sequence := fun rs => match rs with [a; b] => f a b | _ => [] end.
  Definition ternary (f : list T -> list T -> list T -> list T) : sequence :=
    fun rs => match rs with [a; b; c] => f a b c | _ => [] end.

  (** *** vector_add.cpp *)
  (** 17-76 vectorAdd *)
  Definition add_float (debug : bool) (a b y : nat) :=
    kernel_float debug (binary (fun a1 a2 => vadd a1 a2)) (binary (fun a1 a2 => vadd a1 a2)) (binary (fun a1 a2 => vadd a1 a2)) [a; b] y.
  (** 78-115 *)
  Definition add_complex (debug : bool) (a b y : nat) :=
    kernel_complex_add debug (binary (fun a1 a2 => vadd a1 a2)) (binary (fun a1 a2 => vadd a1 a2)) [a; b] y.
  (** 118-171 vectorAddInplace *)
  Definition add_inplace_float (debug : bool) (a y : nat) :=
    kernel_float debug (binary (fun a1 a2 => vadd a1 a2)) (binary (fun a1 a2 => vadd a1 a2)) (binary (fun a1 a2 => vadd a1 a2)) [a; y] y.
  (** 173-205 *)
  Definition add_inplace_complex (debug : bool) (a y : nat) :=
    kernel_complex_add debug (binary (fun a1 a2 => vadd a1 a2)) (binary (fun a1 a2 => vadd a1 a2)) [a; y] y.
  (** 207-252 vectorAddConstant *)
  Definition add_constant_float (debug : bool) (c : T) (a y : nat) :=
    kernel_float debug (unary (fun x => vadd x (set 4 c))) (unary (fun x => vadd (set 2 c) x)) (unary (fun x => vadd (set 2 c) x)) [a] y.
  (** 255-290 *)
  Definition add_constant_complex (debug : bool) (re im : T) (a y : nat) :=
    kernel_complex_add debug (unary (fun x => vadd x [re; im; re; im])) (unary (fun x => vadd x [re; im])) [a] y.
  (** 292-332 vectorAddConstantInplace *)
  Definition add_constant_inplace_float (debug : bool) (c : T) (y : nat) :=
    kernel_float debug (unary (fun x => vadd x (set 4 c))) (unary (fun x => vadd (set 2 c) x)) (unary (fun x => vadd (set 2 c) x)) [y] y.
  (** 334-364 *)
  Definition add_constant_inplace_complex (debug : bool) (re im : T) (y : nat) :=
    kernel_complex_add debug (unary (fun x => vadd [re; im; re; im] x)) (unary (fun x => vadd [re; im] x)) [y] y.

  (** *** vector_multiply.cpp *)
  (** 17-76 vectorMultiply *)
  Definition multiply_float (debug : bool) (a b y : nat) :=
    kernel_float debug (binary (fun f1 f2 => vmul f1 f2)) (binary (fun f1 f2 => vmul f1 f2)) (binary (fun f1 f2 => vmul f1 f2)) [a; b] y.
  (** the complex product, 119-122, 138-141, 152-155 *)
  Definition cproduct (f1 f2 : list T * list T) : list T * list T :=
    let re := vmul (fst f1) (fst f2) in
    let im := vmul (fst f1) (snd f2) in
    let re := vmls re (snd f1) (snd f2) in
    let im := vmla im (snd f1) (fst f2) in
    (re, im).
  Definition cproduct2 : sequence2 := fun rs => match rs with [f1; f2] => cproduct f1 f2 | _ => ([], []) end.
  (** 78-162 *)
  Definition multiply_complex (debug : bool) (a b y : nat) := kernel_complex debug cproduct2 cproduct2 cproduct2 [a; b] y.
  (** 164-217 vectorMultiplyInplace *)
  Definition multiply_inplace_float (debug : bool) (a y : nat) :=
    kernel_float debug (binary (fun f1 f2 => vmul f1 f2)) (binary (fun f1 f2 => vmul f1 f2)) (binary (fun f1 f2 => vmul f1 f2)) [a; y] y.
  (** 219-278 *)
  Definition multiply_inplace_complex (debug : bool) (a y : nat) := kernel_complex debug cproduct2 cproduct2 cproduct2 [a; y] y.
  (** 280-326 vectorMultiplyConstant *)
  Definition multiply_constant_float (debug : bool) (c : T) (a y : nat) :=
    kernel_float debug (unary (fun x => vmul x (set 4 c))) (unary (fun x => vmul (set 2 c) x)) (unary (fun x => vmul (set 2 c) x)) [a] y.
  (** 329-389 *)
  Definition cproduct_constant (w : nat) (re im : T) : sequence2 := fun rs =>
    match rs with [f1] => cproduct f1 (set w re, set w im) | _ => ([], []) end.
  Definition multiply_constant_complex (debug : bool) (re im : T) (a y : nat) :=
    kernel_complex debug (cproduct_constant 4 re im) (cproduct_constant 2 re im) (cproduct_constant 2 re im) [a] y.
  (** 391-431 vectorMultiplyConstantInplace *)
  Definition multiply_constant_inplace_float (debug : bool) (c : T) (y : nat) :=
    kernel_float debug (unary (fun x => vmul x (set 4 c))) (unary (fun x => vmul (set 2 c) x)) (unary (fun x => vmul (set 2 c) x)) [y] y.
  (** 433-486 *)
  Definition multiply_constant_inplace_complex (debug : bool) (re im : T) (y : nat) :=
    kernel_complex debug (cproduct_constant 4 re im) (cproduct_constant 2 re im) (cproduct_constant 2 re im) [y] y.

  (** *** vector_multiply_add.cpp *)
  (** 17-85 vectorMultiplyAdd *)
  Definition multiply_add_float (debug : bool) (a b c y : nat) :=
    kernel_float debug (ternary (fun f1 f2 acc => vmla acc f1 f2)) (ternary (fun f1 f2 acc => vmla acc f1 f2))
      (ternary (fun f1 f2 acc => vmla acc f1 f2)) [a; b; c] y.
  (** 114-117, 135-138, 150-153 *)
  Definition caccumulate (f1 f2 acc : list T * list T) : list T * list T :=
    let re := vmla (fst acc) (fst f1) (fst f2) in
    let im := vmla (snd acc) (fst f1) (snd f2) in
    let re := vmls re (snd f1) (snd f2) in
    let im := vmla im (snd f1) (fst f2) in
    (re, im).
  Definition caccumulate3 : sequence2 := fun rs => match rs with [f1; f2; acc] => caccumulate f1 f2 acc | _ => ([], []) end.
  (** 87-159 *)
  Definition multiply_add_complex (debug : bool) (a b c y : nat) := kernel_complex debug caccumulate3 caccumulate3 caccumulate3 [a; b; c] y.
  (** 161-223 vectorMultiplyAddInplace *)
  Definition multiply_add_inplace_float (debug : bool) (a b y : nat) :=
    kernel_float debug (ternary (fun f1 f2 acc => vmla acc f1 f2)) (ternary (fun f1 f2 acc => vmla acc f1 f2))
      (ternary (fun f1 f2 acc => vmla acc f1 f2)) [a; b; y] y.
  (** 225-291: checks the alignment in all builds *)
  Definition multiply_add_inplace_complex (a b y : nat) := kernel_complex true caccumulate3 caccumulate3 caccumulate3 [a; b; y] y.
  (** 293-354 vectorMultiplyConstantAdd *)
  Definition multiply_constant_add_float (debug : bool) (k : T) (a c y : nat) :=
    kernel_float debug (binary (fun f1 acc => vmla acc f1 (set 4 k))) (binary (fun f1 acc => vmla acc f1 (set 2 k)))
      (binary (fun f1 acc => vmla acc f1 (set 2 k))) [a; c] y.
  (** 356-424 *)
  Definition caccumulate_constant (w : nat) (re im : T) : sequence2 := fun rs =>
    match rs with [f1; acc] => caccumulate f1 (set w re, set w im) acc | _ => ([], []) end.
  Definition multiply_constant_add_complex (debug : bool) (re im : T) (a c y : nat) :=
    kernel_complex debug (caccumulate_constant 4 re im) (caccumulate_constant 2 re im) (caccumulate_constant 2 re im) [a; c] y.
  (** 426-481 vectorMultiplyConstantAddInplace *)
  Definition multiply_constant_add_inplace_float (debug : bool) (k : T) (a y : nat) :=
    kernel_float debug (binary (fun f1 acc => vmla acc f1 (set 4 k))) (binary (fun f1 acc => vmla acc f1 (set 2 k)))
      (binary (fun f1 acc => vmla acc f1 (set 2 k))) [a; y] y.
  (** 483-545 *)
  Definition multiply_constant_add_inplace_complex (debug : bool) (re im : T) (a y : nat) :=
    kernel_complex debug (caccumulate_constant 4 re im) (caccumulate_constant 2 re im) (caccumulate_constant 2 re im) [a; y] y.

  (** *** Reference functions, vector_functions_impl.hpp: one element of [e] words after the other *)
  Definition reference (e : nat) (op : sequence) (srcs : list nat) (y n alignment : nat) (m : list T) : result :=
    checked true e srcs y alignment (s <- loop 1 e op (At n srcs y m) ;; Ok (NoError, contents s)) m.
  Local Notation radd := (radd add).
  Local Notation rmul := (rmul mul).
  Local Notation cadd := (cadd add).
  Local Notation cmul := (cmul add sub mul).
  (** 93-107, 109-122, 124-137, 139-149 *)
  Definition ref_add (e : nat) (ea : list T -> list T -> list T) (a b y : nat) := reference e (binary ea) [a; b] y.
  Definition ref_add_inplace (e : nat) (ea : list T -> list T -> list T) (a y : nat) := reference e (binary (fun x r => ea r x)) [a; y] y.
  Definition ref_add_constant (e : nat) (ea : list T -> list T -> list T) (c : list T) (a y : nat) := reference e (unary (fun x => ea x c)) [a] y.
  Definition ref_add_constant_inplace (e : nat) (ea : list T -> list T -> list T) (c : list T) (y : nat) := reference e (unary (fun x => ea x c)) [y] y.
  (** 205-220, 222-235, 237-251, 253-265 *)
  Definition ref_mul (e : nat) (em : list T -> list T -> list T) (a b y : nat) := reference e (binary em) [a; b] y.
  Definition ref_mul_inplace (e : nat) (em : list T -> list T -> list T) (a y : nat) := reference e (binary (fun x r => em r x)) [a; y] y.
  Definition ref_mul_constant (e : nat) (em : list T -> list T -> list T) (c : list T) (a y : nat) := reference e (unary (fun x => em c x)) [a] y.
  Definition ref_mul_constant_inplace (e : nat) (em : list T -> list T -> list T) (c : list T) (y : nat) := reference e (unary (fun x => em x c)) [y] y.
  (** 267-284, 286-301, 303-319, 321-335 *)
  Definition ref_madd (e : nat) (em ea : list T -> list T -> list T) (a b c y : nat) :=
    reference e (ternary (fun f1 f2 acc => ea acc (em f1 f2))) [a; b; c] y.
  Definition ref_madd_inplace (e : nat) (em ea : list T -> list T -> list T) (a b y : nat) :=
    reference e (ternary (fun f1 f2 acc => ea acc (em f1 f2))) [a; b; y] y.
  Definition ref_constant_madd (e : nat) (em ea : list T -> list T -> list T) (k : list T) (a c y : nat) :=
    reference e (binary (fun f acc => ea acc (em k f))) [a; c] y.
  Definition ref_constant_madd_inplace (e : nat) (em ea : list T -> list T -> list T) (k : list T) (a y : nat) :=
    reference e (binary (fun f acc => ea acc (em k f))) [a; y] y.
End Neon.
