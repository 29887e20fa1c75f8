(** Model of the handling of denormalised numbers, src/libefl/denormalised_number_handling.hpp 26-75 and
    .cpp 20-63, for Intel processors.  The control word MXCSR of a thread is a 32 bit number that
    _mm_getcsr() reads and _mm_setcsr() writes.  Not modelled: the other bits of the word are set by
    other instructions, and what the bits do to arithmetic. *)
From Coq Require Import NArith.
From Verif Require Import Base.
Local Open Scope N_scope.

(** struct State, hpp 32-52 *)
Record state := State { flushToZero : bool; denormalsAreZero : bool }.
(** cpp 24-28; bitwise complement of a 32 bit number *)
Definition cDenormsAreZeroMask : N := N.shiftl 1 6.
Definition cFlushToZeroMask : N := N.shiftl 1 15.
Definition complement (x : N) : N := N.ldiff (N.ones 32) x.
Definition cCwMask : N := complement (N.lor cDenormsAreZeroMask cFlushToZeroMask).
(** setDenormHandling( State ), cpp 43-63: the new control word and the result *)
Definition setDenormHandling (oldCW : N) (newState : state) : N * state :=
  let oldDAZ := negb (N.land oldCW cDenormsAreZeroMask =? 0) in
  let oldFTZ := negb (N.land oldCW cFlushToZeroMask =? 0) in
  let newCW := N.land oldCW cCwMask in
  let newCW := if denormalsAreZero newState then N.lor newCW cDenormsAreZeroMask else newCW in
  let newCW := if flushToZero newState then N.lor newCW cFlushToZeroMask else newCW in
  (newCW, State oldFTZ oldDAZ).
(** setDenormHandling(), cpp 33-36 *)
Definition setDenormHandling_default (cw : N) : N * state := setDenormHandling cw (State true true).
(** resetDenormHandling(), cpp 38-41 *)
Definition resetDenormHandling (cw : N) (stateToRestore : state) : N := fst (setDenormHandling cw stateToRestore).
