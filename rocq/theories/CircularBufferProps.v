(** C06, C07, C46: public statements about CircularBuffer and memory layout. *)
From Verif Require Import Base Memory CircularBufferModel CircularBufferProofs.
From Coq Require Import NArith.

(** C06: after any sequence of write calls (accepted or rejected) and direct
    fill-and-commit operations, reading [n] samples at delay [d] of channel [ch]
    returns the first [n] of the [d] most recent samples written to that channel,
    zeros standing for the time before the first sample. *)
Theorem C06_circular_buffer_is_delay_memory :
  forall (A : Type) (zero : A) (channels len al : nat) (ops : list (cb_op A)),
  1 <= len -> Forall (caller_ok channels len) ops ->
  exists b, cb_run (cb_new zero channels len al) ops = Ok b
    /\ forall ch d n, ch < channels -> n <= d <= len ->
         cb_read b ch d n
         = Ok (firstn n (recent zero d (history channels len ch ops))).
Proof. exact @cb_delay_memory. Qed.
Print Assumptions C06_circular_buffer_is_delay_memory.

(** C06: the same for getReadPointers, which rejects delays >= length. *)
Theorem C06_read_pointers_of_all_channels :
  forall (A : Type) (zero : A) (channels len al : nat) (ops : list (cb_op A)),
  1 <= len -> Forall (caller_ok channels len) ops ->
  exists b, cb_run (cb_new zero channels len al) ops = Ok b
    /\ forall d n, n <= d ->
         cb_read_all b d n
         = if d <? len then
             Ok (map (fun ch => firstn n (recent zero d (history channels len ch ops)))
                     (seq 0 channels))
           else Throw InvalidArgument.
Proof. exact @cb_delay_memory_all. Qed.
Print Assumptions C06_read_pointers_of_all_channels.

Definition C06_ops : list (cb_op nat) :=
  [WriteOp [[1;2;3];[11;12;13]] 2 3; WriteOp [[4;5];[14;15]] 2 2;
   WriteOp [[9];[9]] 3 1; FillCommit [[6;7;8;0];[16;17;18;0]] 3].

Example C06_example :
  Forall (caller_ok 2 4) C06_ops
  /\ (exists b, cb_run (cb_new 0 2 4 0) C06_ops = Ok b
        /\ cb_read b 0 4 4 = Ok [5;6;7;8] /\ cb_read b 1 3 2 = Ok [16;17]
        /\ cb_head b = 0)
  /\ history 2 4 0 C06_ops = [1;2;3;4;5;6;7;8].
Proof.
  split; [|split; [|reflexivity]].
  - repeat (apply Forall_cons || apply Forall_nil); simpl; intros; repeat split; repeat (apply Forall_cons || apply Forall_nil); simpl; try lia.
  - eexists; split; [vm_compute; reflexivity|]. vm_compute. repeat split.
Qed.

(** C07: no reachable state, no allowed call and no read within the length touches
    memory outside the row. *)
Theorem C07_circular_buffer_memory_safe :
  forall (A : Type) (zero : A) (channels len al : nat) (ops : list (cb_op A)),
  1 <= len -> Forall (caller_ok channels len) ops ->
  cb_run (cb_new zero channels len al) ops <> UB
  /\ forall b, cb_run (cb_new zero channels len al) ops = Ok b ->
     (forall o, caller_ok channels len o -> cb_exec b o <> UB)
     /\ (forall ch d n, ch < channels -> d <= len -> n <= d -> cb_read b ch d n <> UB).
Proof. exact @cb_safe. Qed.
Print Assumptions C07_circular_buffer_memory_safe.

(** C07: calls violating the limits throw invalid_argument (and, returning no new
    buffer, change nothing). *)
Theorem C07_limit_violations_throw :
  forall (A : Type) (b : cb A) (data : list (list A)) (c n d k : nat),
  (c <> cb_channels b \/ cb_length b < n -> cb_write b data c n = Throw InvalidArgument)
  /\ (cb_length b < n -> cb_commit b n = Throw InvalidArgument)
  /\ (cb_length b <= d -> cb_read_all b d k = Throw InvalidArgument).
Proof. exact @cb_violations. Qed.
Print Assumptions C07_limit_violations_throw.

(** C07: getReadPointer only asserts its delay limit; in a release build a larger
    delay reads outside the row. *)
Theorem C07_unchecked_read_pointer_refuted :
  exists (b : cb nat) d n,
    cb_run (cb_new 0 1 4 0) [] = Ok b /\ n <= d /\ cb_read b 0 d n = UB.
Proof. exact cb_read_beyond_refuted. Qed.
Print Assumptions C07_unchecked_read_pointer_refuted.

(** C46: nextAlignedSize is the least multiple not below the size. *)
Theorem C46_next_aligned_size :
  forall size al : nat, al <> 0 ->
  size <= next_aligned_size size al
  /\ (next_aligned_size size al) mod al = 0
  /\ (forall m, size <= m -> m mod al = 0 -> next_aligned_size size al <= m).
Proof. exact next_aligned_spec. Qed.
Print Assumptions C46_next_aligned_size.

(** C46: matrix elements are inside the storage, distinct elements have distinct
    addresses, rows are aligned. *)
Theorem C46_matrix_layout :
  forall rows cols al r c : nat, r < rows -> c < cols ->
  matrix_offset cols al r c < matrix_elements rows cols al
  /\ (forall r' c', c' < cols -> matrix_offset cols al r c = matrix_offset cols al r' c' ->
        r = r' /\ c = c')
  /\ (al <> 0 -> (matrix_offset cols al r 0) mod al = 0).
Proof. exact matrix_layout_ok. Qed.
Print Assumptions C46_matrix_layout.

(** C46: the over-allocation of AlignedArray always suffices: std::align succeeds
    and the aligned area lies inside the raw allocation. *)
Theorem C46_aligned_array_allocation :
  forall length alignment al sz raw : nat,
  1 <= alignment -> 1 <= sz -> raw mod al = 0 -> 1 <= al ->
  exists p, aligned_storage length alignment al sz raw = Some p
    /\ raw <= p
    /\ p mod (alignment * sz) = 0
    /\ p + length * sz <= raw + worst_case_elements length alignment al sz * sz.
Proof. exact aligned_storage_ok. Qed.
Print Assumptions C46_aligned_array_allocation.

(** C46: the bit trick of alignmentIsPowerOfTwo is right for 64 bit values. *)
Theorem C46_power_of_two_test :
  forall a : N, (a < 2 ^ 64)%N ->
  alignment_is_power_of_two a = true <-> exists k, (a = 2 ^ k)%N.
Proof. exact power_of_two_correct. Qed.
Print Assumptions C46_power_of_two_test.

(** C46: checkAlignment tests divisibility of the address. *)
Theorem C46_check_alignment :
  forall (ptr al sz i j : N),
  (al = 2 ^ i)%N -> (al < 2 ^ 64)%N -> (sz = 2 ^ j)%N ->
  check_alignment ptr sz al = true <-> (ptr mod (al * sz) = 0)%N.
Proof. exact check_alignment_correct. Qed.
Print Assumptions C46_check_alignment.

Example C46_example :
  next_aligned_size 13 8 = 16 /\ next_aligned_size 16 8 = 16 /\ next_aligned_size 0 8 = 0
  /\ alignment_is_power_of_two 64 = true /\ alignment_is_power_of_two 24 = false
  /\ check_alignment 96 4 8 = true /\ check_alignment 100 4 8 = false
  /\ aligned_storage 10 8 4 4 1004 = Some 1024
  /\ matrix_offset 13 8 2 5 = 37 /\ matrix_elements 3 13 8 = 48.
Proof. vm_compute. repeat split. Qed.
