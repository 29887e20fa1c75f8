(** Model of visr::rbbl::CircularBuffer (src/librbbl/circular_buffer.{hpp,cpp}),
    efl::nextAlignedSize and the alignment helpers (src/libefl/alignment.hpp),
    AlignedArray (src/libefl/aligned_array.hpp) and the BasicMatrix layout
    (src/libefl/basic_matrix.hpp).

    Simplifications: size_t is unbounded [nat] (no wrap-around of sizes); the
    storage of one channel is one bounds-checked row of 2*mAllocatedLength samples
    (row separation inside the BasicMatrix is the subject of C46); the alignment
    errors of vectorCopy cannot occur because alignment 0 or 1 is passed. *)
From Verif Require Import Base Memory.
From Coq Require Import NArith.

(** alignment.hpp 70-85 *)
Definition next_aligned_size (size alignment : nat) : nat :=
  if alignment =? 0 then size
  else if size mod alignment =? 0 then size
  else (size / alignment + 1) * alignment.

(** alignment.hpp 27-30, on 64 bit std::size_t: a != 0 && (a & (~a + 1)) == a *)
Definition alignment_is_power_of_two (a : N) : bool :=
  (negb (a =? 0) && (N.land a ((N.lxor a (N.ones 64) + 1) mod 2 ^ 64) =? a))%N.

(** alignment.hpp 45-60: [ptr] is the address, [size] is sizeof(T).
    (alignment * sizeof(T) is assumed not to overflow.) *)
Definition check_alignment (ptr size alignment : N) : bool :=
  (if alignment =? 0 then true
   else if negb (alignment_is_power_of_two alignment) then false
   else (N.land ptr (alignment * size - 1) =? 0))%N.

(** aligned_array.hpp 284-306 allocate(): raw storage at address [raw], returns the
    aligned address.  std::align (C++ standard [ptr.align]): if [length] bytes fit
    after rounding up, the pointer is rounded up, otherwise it is unchanged.
    [al] = alignof(T), [sz] = sizeof(T), addresses in bytes. *)
Definition std_align (alignment size ptr space : nat) : option nat :=
  let p := next_aligned_size ptr alignment in
  if p - ptr + size <=? space then Some p else None.

Definition worst_case_elements (length alignment al sz : nat) : nat :=
  if al =? sz then length + alignment - 1 else length + alignment.

Definition aligned_storage (length alignment al sz raw : nat) : option nat :=
  std_align (alignment * sz) (length * sz) raw
            (worst_case_elements length alignment al sz * sz).

(** basic_matrix.hpp 41-48, 173-176, 212: layout of a matrix *)
Definition matrix_stride (columns alignment : nat) : nat := next_aligned_size columns alignment.
Definition matrix_elements (rows columns alignment : nat) : nat :=
  matrix_stride columns alignment * rows.
Definition matrix_offset (columns alignment row col : nat) : nat :=
  row * matrix_stride columns alignment + col.

Section CircularBuffer.
  Context {A : Type} (zero : A).

  Record cb := MkCb {
    cb_length : nat;            (* mLength *)
    cb_alloc : nat;             (* mAllocatedLength *)
    cb_rows : list (list A);    (* mBuffer, one row per channel *)
    cb_head : nat               (* mWriteHeadIndex *)
  }.

  (** cpp 29-33, 95-105: zero-initialised rows of 2*allocated samples *)
  Definition cb_new (channels length alignment : nat) : cb :=
    let alloc := next_aligned_size length alignment in
    MkCb length alloc (repeat (repeat zero (2 * alloc)) channels) 0.

  Definition cb_channels (b : cb) : nat := List.length (cb_rows b).

  Local Open Scope res_scope.

  (** cpp 53-93 advanceWriteIndex, the copying of one row *)
  Definition advance_row (alloc w n : nat) (row : list A) : res (list A) :=
    let first_end := Nat.min (w + n) alloc in
    let m := first_end - w in
    d1 <- mem_read row w m ;;
    row1 <- mem_write row (w + alloc) d1 ;;
    if m <? n then
      d2 <- mem_read row1 alloc (n - m) ;;
      mem_write row1 0 d2
    else Ok row1.

  (** cpp 53-93 with the modulo of line 92 (division by zero is undefined).
      The code copies the first block of all rows before the second block of all
      rows; rows are separate, so doing it row by row is the same. *)
  Definition advance (b : cb) (n : nat) : res cb :=
    rows <- map_res (advance_row (cb_alloc b) (cb_head b) n) (cb_rows b) ;;
    if cb_alloc b =? 0 then UB
    else Ok (MkCb (cb_length b) (cb_alloc b) rows ((cb_head b + n) mod cb_alloc b)).

  (** Copy [n] samples from the source array of a channel to the write position. *)
  Definition place_row (w n : nat) (row src : list A) : res (list A) :=
    d <- src_read src n ;; mem_write row w d.

  (** cpp 113-139 write( T const * const * , numberOfChannels, numberOfSamples ) *)
  Definition cb_write (b : cb) (data : list (list A)) (channels n : nat) : res cb :=
    if negb (channels =? cb_channels b) then Throw InvalidArgument
    else if cb_length b <? n then Throw InvalidArgument
    else
      rows <- map2_res (place_row (cb_head b) n) (cb_rows b) data ;;
      advance (MkCb (cb_length b) (cb_alloc b) rows (cb_head b)) n.

  (** cpp 208-225 getWritePointers + filling [n] samples per channel, then
      commitWrite( n ) *)
  Definition cb_place (b : cb) (data : list (list A)) (n : nat) : res cb :=
    rows <- map2_res (place_row (cb_head b) n) (cb_rows b) data ;;
    Ok (MkCb (cb_length b) (cb_alloc b) rows (cb_head b)).

  Definition cb_commit (b : cb) (n : nat) : res cb :=
    if cb_length b <? n then Throw InvalidArgument else advance b n.

  (** hpp 157-163 getReadPointer( channel, delay ): offset of the pointer inside
      the channel's row.  The subtraction of an unsigned delay larger than
      allocated + writeHead would leave the row: undefined. *)
  Definition read_offset (b : cb) (delay : nat) : res nat :=
    if cb_alloc b + cb_head b <? delay then UB
    else Ok (cb_alloc b + cb_head b - delay).

  (** Reading [n] samples through getReadPointer( ch, delay ).  The assertions of
      the C++ code (debug builds only) are not checked. *)
  Definition cb_read (b : cb) (ch delay n : nat) : res (list A) :=
    match nth_error (cb_rows b) ch with
    | None => UB
    | Some row => off <- read_offset b delay ;; mem_read row off n
    end.

  (** cpp 228-251 getReadPointers( delay ): throws if delay >= length *)
  Definition cb_read_all (b : cb) (delay n : nat) : res (list (list A)) :=
    if cb_length b <=? delay then Throw InvalidArgument
    else map_res (fun row => off <- read_offset b delay ;; mem_read row off n) (cb_rows b).
End CircularBuffer.
Arguments cb : clear implicits.
