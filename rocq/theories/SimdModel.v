(** Model of the x86 vector kernels (src/libefl/intel_x86_64/vector_multiply.cpp,
    vector_multiply_add.cpp, vector_ramp_scaling.cpp) and of the reference functions
    they replace (src/libefl/reference/vector_functions_impl.hpp).

    Memory is one array of machine words (float or double); a pointer is the index of a
    word, i.e. its address divided by the word size, so source and destination may
    overlap.  A complex number occupies two words.  The arithmetic operations of the word
    type are parameters; [fma] is the fused multiply-add instruction.  Vector registers
    are lists of lanes.  An aligned load or store of w words at an address that is not a
    multiple of w words faults: undefined behaviour, as is access outside the memory.
    [avx] and [avx2] are the preprocessor symbols __AVX__ and __AVX2__, [debug] is the
    absence of NDEBUG. *)
From Verif Require Import Base Memory.
Local Open Scope res_scope.

Inductive error_code := NoError | AlignmentError.

(** alignment.hpp 26-58 (the bit mask test is treated in property C46); [e] words per
    element *)
Definition power_of_two (a : nat) : bool := negb (a =? 0) && (a =? 2 ^ Nat.log2 a).
Definition check_ptr (e ptr alignment : nat) : bool :=
  if alignment =? 0 then true
  else power_of_two alignment && (ptr mod (alignment * e) =? 0).

Section Simd.
  Context {T : Type} (zero : T) (add sub mul : T -> T -> T) (fma : T -> T -> T -> T).

  Definition memory := list T.
  Definition result := res (error_code * memory).

  (** *** Instructions *)
  Definition map2 (f : T -> T -> T) (a b : list T) : list T :=
    map (fun p => f (fst p) (snd p)) (combine a b).
  Definition mul_ps := map2 mul.
  Definition add_ps := map2 add.
  Definition fmadd_ps (a b c : list T) : list T :=
    map (fun p => fma (fst (fst p)) (snd (fst p)) (snd p)) (combine (combine a b) c).
  (** even lanes subtract, odd lanes add *)
  Fixpoint addsub_ps (a b : list T) : list T :=
    match a, b with
    | a0 :: a1 :: a', b0 :: b1 :: b' => sub a0 b0 :: add a1 b1 :: addsub_ps a' b'
    | _, _ => []
    end.
  (** permutations 0xA0 (even lanes duplicated), 0xF5 (odd lanes duplicated), 0xB1 (pairs
      exchanged) within 128 bit lanes *)
  Fixpoint permute_A0 (a : list T) : list T :=
    match a with a0 :: a1 :: a' => a0 :: a0 :: permute_A0 a' | _ => [] end.
  Fixpoint permute_F5 (a : list T) : list T :=
    match a with a0 :: a1 :: a' => a1 :: a1 :: permute_F5 a' | _ => [] end.
  Fixpoint permute_B1 (a : list T) : list T :=
    match a with a0 :: a1 :: a' => a1 :: a0 :: permute_B1 a' | _ => [] end.
  (** scalar instructions act on lane 0, the others come from the first operand *)
  Definition mul_ss (a b : list T) : list T :=
    match a, b with x :: r, y :: _ => mul x y :: r | _, _ => [] end.
  Definition add_ss (a b : list T) : list T :=
    match a, b with x :: r, y :: _ => add x y :: r | _, _ => [] end.
  Definition fmadd_ss (a b c : list T) : list T :=
    match a, b, c with x :: r, y :: _, z :: _ => fma x y z :: r | _, _, _ => [] end.
  Definition set1 (w : nat) (x : T) : list T := repeat x w.

  Definition load (aligned : bool) (w : nat) (m : memory) (p : nat) : res (list T) :=
    if aligned && negb (p mod w =? 0) then UB else mem_read m p w.
  Definition store (aligned : bool) (w : nat) (m : memory) (p : nat) (v : list T) : res memory :=
    if aligned && negb (p mod w =? 0) then UB else mem_write m p (firstn w v).
  (** _mm_load_ss/_mm_load_sd: remaining lanes are zero; [w] lanes in the register *)
  Definition load_ss (w : nat) (m : memory) (p : nat) : res (list T) :=
    x <- mem_read m p 1 ;; Ok (x ++ repeat zero (w - 1)).
  Definition store_ss (m : memory) (p : nat) (v : list T) : res memory := mem_write m p (firstn 1 v).
  (** _mm_loadl_pi( a, p ), _mm_storel_pi: two words *)
  Definition loadl (a : list T) (m : memory) (p : nat) : res (list T) :=
    x <- mem_read m p 2 ;; Ok (x ++ skipn 2 a).
  Definition storel (m : memory) (p : nat) (v : list T) : res memory := mem_write m p (firstn 2 v).
  Definition load1 (m : memory) (p : nat) : res T :=
    x <- mem_read m p 1 ;; match x with [v] => Ok v | _ => UB end.

  (** *** Loops: while( cnt >= w ) { body; pointers += step; cnt -= w; } *)
  Record pos := MkPos { cnt : nat; p1 : nat; p2 : nat; py : nat; mem : memory }.
  Definition body_t := nat -> nat -> nat -> memory -> res memory.
  Fixpoint while_ge (fuel w step : nat) (body : body_t) (s : pos) : res pos :=
    if cnt s <? w then Ok s
    else match fuel with
         | 0 => UB
         | S f =>
             m <- body (p1 s) (p2 s) (py s) (mem s) ;;
             while_ge f w step body
               (MkPos (cnt s - w) (p1 s + step) (p2 s + step) (py s + step) m)
         end.
  Definition loop (w step : nat) (body : body_t) (s : pos) : res pos :=
    while_ge (cnt s) w step body s.
  Definition finish (s : pos) : result := Ok (NoError, mem s).

  (** *** Reference functions; [e] words per element *)
  Definition ref_loop (e : nat) (f : list T -> list T -> list T -> list T)
             (n q1 q2 y : nat) (m : memory) : result :=
    s <- loop 1 e (fun a b c m =>
           x1 <- mem_read m a e ;; x2 <- mem_read m b e ;; x3 <- mem_read m c e ;;
           mem_write m c (f x1 x2 x3)) (MkPos n q1 q2 y m) ;;
    finish s.
  (** std::complex multiplication and addition *)
  Definition cmul (a b : list T) : list T :=
    match a, b with
    | [ar; ai], [br; bi] => [sub (mul ar br) (mul ai bi); add (mul ar bi) (mul ai br)]
    | _, _ => []
    end.
  Definition cadd (a b : list T) : list T :=
    match a, b with [ar; ai], [br; bi] => [add ar br; add ai bi] | _, _ => [] end.
  Definition rmul (a b : list T) : list T := match a, b with [x], [y] => [mul x y] | _, _ => [] end.
  Definition radd (a b : list T) : list T := match a, b with [x], [y] => [add x y] | _, _ => [] end.

  (** vector_functions_impl.hpp 205-220 vectorMultiply *)
  Definition ref_multiply (e : nat) (emul : list T -> list T -> list T)
             (f1 f2 r n alignment : nat) (m : memory) : result :=
    if check_ptr e f1 alignment && check_ptr e f2 alignment && check_ptr e r alignment
    then ref_loop e (fun a b _ => emul a b) n f1 f2 r m
    else Ok (AlignmentError, m).
  (** 286-301 vectorMultiplyAddInplace *)
  Definition ref_multiply_add (e : nat) (emul eadd : list T -> list T -> list T)
             (f1 f2 acc n alignment : nat) (m : memory) : result :=
    if check_ptr e f1 alignment && check_ptr e f2 alignment && check_ptr e acc alignment
    then ref_loop e (fun a b c => eadd c (emul a b)) n f1 f2 acc m
    else Ok (AlignmentError, m).
  (** 321-335 vectorMultiplyConstantAddInplace *)
  Definition ref_constant_add (e : nat) (emul eadd : list T -> list T -> list T)
             (c : list T) (x acc n alignment : nat) (m : memory) : result :=
    if check_ptr e x alignment && check_ptr e acc alignment
    then ref_loop e (fun a _ y => eadd y (emul c a)) n x x acc m
    else Ok (AlignmentError, m).
  (** 363-398 vectorRampScaling *)
  Definition ref_ramp (debug accumulate : bool) (base gain : T)
             (x ramp y n alignment : nat) (m : memory) : result :=
    if debug && negb (check_ptr 1 x alignment && check_ptr 1 ramp alignment && check_ptr 1 y alignment)
    then Ok (AlignmentError, m)
    else if accumulate
    then ref_loop 1 (fun a r o => match a, r, o with
           | [a], [r], [o] => [add o (mul (add base (mul gain r)) a)] | _, _, _ => [] end) n x ramp y m
    else ref_loop 1 (fun a r _ => match a, r with
           | [a], [r] => [mul (add base (mul gain r)) a] | _, _ => [] end) n x ramp y m.

  (** *** vector_multiply.cpp *)
  Definition multiply_body (al : bool) (w : nat) : body_t := fun a b y m =>
    va <- load al w m a ;; vb <- load al w m b ;; store al w m y (mul_ps va vb).
  Definition multiply_ss_body (lanes : nat) : body_t := fun a b y m =>
    va <- load_ss lanes m a ;; vb <- load_ss lanes m b ;; store_ss m y (mul_ss va vb).
  (** 24-84 float ([big] = 8, [lanes] = 4), 86-145 double ([big] = 4, [lanes] = 2) *)
  Definition multiply_real (avx : bool) (big lanes : nat) (f1 f2 r n alignment : nat) (m : memory)
    : result :=
    if check_ptr 1 f1 alignment && check_ptr 1 f2 alignment && check_ptr 1 r alignment then
      s <- (if avx then loop big big (multiply_body (big <=? alignment) big) (MkPos n f1 f2 r m)
            else Ok (MkPos n f1 f2 r m)) ;;
      s <- loop 1 1 (multiply_ss_body lanes) s ;;
      finish s
    else Ok (AlignmentError, m).
  Definition multiply_float (avx : bool) := multiply_real avx 8 4.
  Definition multiply_double (avx : bool) := multiply_real avx 4 2.

  (** the products of [w] words of complex numbers, 169-176 *)
  Definition complex_product (a b : list T) : list T :=
    addsub_ps (mul_ps b (permute_A0 a)) (mul_ps (permute_B1 b) (permute_F5 a)).
  Definition cmultiply_body (lal sal : bool) (w : nat) : body_t := fun a b y m =>
    va <- load lal w m a ;; vb <- load lal w m b ;; store sal w m y (complex_product va vb).
  (** 233-251: one complex number *)
  Definition complex_product1 (creal cimag ab : list T) : list T :=
    addsub_ps (mul_ps creal ab) (mul_ps cimag (permute_B1 ab)).
  Definition cmultiply1_body : body_t := fun a b y m =>
    re <- load1 m a ;; im <- load1 m (a + 1) ;;
    ab <- loadl (set1 4 re) m b ;;
    storel m y (complex_product1 (set1 4 re) (set1 4 im) ab).
  (** 147-254 *)
  Definition multiply_complex (avx : bool) (f1 f2 r n alignment : nat) (m : memory) : result :=
    if check_ptr 2 f1 alignment && check_ptr 2 f2 alignment && check_ptr 2 r alignment then
      s <- (if avx then
              s <- loop 4 8 (cmultiply_body (4 <=? alignment) (4 <=? alignment) 8) (MkPos n f1 f2 r m) ;;
              if 2 <=? alignment then loop 2 4 (cmultiply_body false true 4) s else Ok s
            else Ok (MkPos n f1 f2 r m)) ;;
      s <- loop 1 2 cmultiply1_body s ;;
      finish s
    else Ok (AlignmentError, m).

  (** *** vector_multiply_add.cpp *)
  Definition madd_ps (avx2 : bool) (a b acc : list T) : list T :=
    if avx2 then fmadd_ps a b acc else add_ps (mul_ps a b) acc.
  Definition madd_ss (avx2 : bool) (a b acc : list T) : list T :=
    if avx2 then fmadd_ss a b acc else add_ss (mul_ss a b) acc.
  Definition madd_body (avx2 lal sal : bool) (w : nat) : body_t := fun a b y m =>
    va <- load lal w m a ;; vb <- load lal w m b ;; vc <- load lal w m y ;;
    store sal w m y (madd_ps avx2 va vb vc).
  Definition madd_ss_body (avx2 : bool) (lanes : nat) : body_t := fun a b y m =>
    va <- load_ss lanes m a ;; vb <- load_ss lanes m b ;; vc <- load_ss lanes m y ;;
    store_ss m y (madd_ss avx2 va vb vc).
  (** 24-121 float (8, 4), 123-221 double (4, 2) *)
  Definition multiply_add_real (avx avx2 : bool) (big small : nat) (f1 f2 acc n alignment : nat)
             (m : memory) : result :=
    if check_ptr 1 f1 alignment && check_ptr 1 f2 alignment && check_ptr 1 acc alignment then
      let al := big <=? alignment in
      s <- (if avx then loop big big (madd_body avx2 al al big) (MkPos n f1 f2 acc m)
            else Ok (MkPos n f1 f2 acc m)) ;;
      s <- loop small small (madd_body avx2 false false small) s ;;
      s <- loop 1 1 (madd_ss_body avx2 small) s ;;
      finish s
    else Ok (AlignmentError, m).
  Definition multiply_add_float (avx avx2 : bool) := multiply_add_real avx avx2 8 4.
  Definition multiply_add_double (avx avx2 : bool) := multiply_add_real avx avx2 4 2.

  (** 226-339 complex *)
  Definition cmadd_body (al : bool) (w : nat) : body_t := fun a b y m =>
    va <- load al w m a ;; vb <- load al w m b ;; vc <- load al w m y ;;
    store al w m y (add_ps (complex_product va vb) vc).
  (** 294-311: the operands of the addition are exchanged *)
  Definition cmadd4_body : body_t := fun a b y m =>
    va <- load true 4 m a ;; vb <- load true 4 m b ;; vc <- load true 4 m y ;;
    store true 4 m y (add_ps vc (complex_product va vb)).
  Definition cmadd1_body : body_t := fun a b y m =>
    re <- load1 m a ;; im <- load1 m (a + 1) ;;
    ab <- loadl (set1 4 re) m b ;;
    acc <- loadl (set1 4 re) m y ;;
    storel m y (add_ps (complex_product1 (set1 4 re) (set1 4 im) ab) acc).
  Definition multiply_add_complex (avx : bool) (f1 f2 acc n alignment : nat) (m : memory) : result :=
    if check_ptr 2 f1 alignment && check_ptr 2 f2 alignment && check_ptr 2 acc alignment then
      s <- (if avx then
              s <- loop 4 8 (cmadd_body (4 <=? alignment) 8) (MkPos n f1 f2 acc m) ;;
              if 2 <=? alignment then loop 2 4 cmadd4_body s else Ok s
            else Ok (MkPos n f1 f2 acc m)) ;;
      s <- loop 1 2 cmadd1_body s ;;
      finish s
    else Ok (AlignmentError, m).

  (** 341-432 vectorMultiplyConstantAddInplace<float>: alignment not checked, and the
      store in the SSE loop (413) is an aligned one *)
  Definition constant_add_body (avx2 lal sal : bool) (w : nat) (c : T) : body_t := fun x _ y m =>
    va <- load lal w m x ;; vc <- load lal w m y ;;
    store sal w m y (madd_ps avx2 va (set1 w c) vc).
  Definition constant_add_ss_body (avx2 : bool) (c : T) : body_t := fun x _ y m =>
    va <- load_ss 4 m x ;; vc <- load_ss 4 m y ;;
    store_ss m y (madd_ss avx2 va (set1 4 c) vc).
  Definition constant_add_float (avx avx2 : bool) (c : T) (x acc n alignment : nat) (m : memory)
    : result :=
    let al := 8 <=? alignment in
    s <- (if avx then loop 8 8 (constant_add_body avx2 al al 8 c) (MkPos n x x acc m)
          else Ok (MkPos n x x acc m)) ;;
    s <- loop 4 4 (constant_add_body avx2 false true 4 c) s ;;
    s <- loop 1 1 (constant_add_ss_body avx2 c) s ;;
    finish s.

  (** 434-532 vectorMultiplyConstantAddInplace<std::complex<float>> *)
  Definition cconstant_add_body (al : bool) (w : nat) (re im : T) : body_t := fun x _ y m =>
    ab <- load al w m x ;; acc <- load al w m y ;;
    store al w m y (add_ps (complex_product1 (set1 w re) (set1 w im) ab) acc).
  Definition cconstant_add1_body (re im : T) : body_t := fun x _ y m =>
    ab <- loadl (set1 4 re) m x ;; acc <- loadl (set1 4 re) m y ;;
    storel m y (add_ps (complex_product1 (set1 4 re) (set1 4 im) ab) acc).
  Definition constant_add_complex (avx : bool) (re im : T) (x acc n alignment : nat) (m : memory)
    : result :=
    s <- (if avx then loop 4 8 (cconstant_add_body (4 <=? alignment) 8 re im) (MkPos n x x acc m)
          else Ok (MkPos n x x acc m)) ;;
    s <- (if 2 <=? alignment then loop 2 4 (cconstant_add_body true 4 re im) s else Ok s) ;;
    s <- loop 1 2 (cconstant_add1_body re im) s ;;
    finish s.

  (** *** vector_ramp_scaling.cpp 20-263 *)
  Definition ramp_body (avx2 accumulate al : bool) (w : nat) (base gain : T) : body_t := fun x r y m =>
    vr <- load al w m r ;; vx <- load al w m x ;;
    let scale := madd_ps avx2 vr (set1 w gain) (set1 w base) in
    if accumulate then
      vo <- load al w m y ;; store al w m y (madd_ps avx2 scale vx vo)
    else store al w m y (mul_ps scale vx).
  Definition ramp_ss_body (accumulate : bool) (base gain : T) : body_t := fun x r y m =>
    vr <- load_ss 4 m r ;; vx <- load_ss 4 m x ;;
    let scale := add_ss (mul_ps vr (set1 4 gain)) (set1 4 base) in
    if accumulate then
      vo <- load_ss 4 m y ;; store_ss m y (add_ss (mul_ps scale vx) vo)
    else store_ss m y (mul_ps scale vx).
  Definition ramp_float (avx avx2 debug accumulate : bool) (base gain : T)
             (x ramp y n alignment : nat) (m : memory) : result :=
    if debug && negb (check_ptr 1 x alignment && check_ptr 1 ramp alignment && check_ptr 1 y alignment)
    then Ok (AlignmentError, m)
    else
      s <- (if avx then loop 8 8 (ramp_body avx2 accumulate (8 <=? alignment) 8 base gain)
                             (MkPos n x ramp y m)
            else Ok (MkPos n x ramp y m)) ;;
      s <- loop 4 4 (ramp_body avx2 accumulate (4 <=? alignment) 4 base gain) s ;;
      s <- loop 1 1 (ramp_ss_body accumulate base gain) s ;;
      finish s.
End Simd.
