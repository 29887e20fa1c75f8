(** Model of efl::vectorRamp, reference implementation
    (src/libefl/reference/vector_functions_impl.hpp 62-82).
    Exact rational arithmetic instead of floating point; alignment errors not
    modelled (they return before touching dest). *)
From Verif Require Import Base Num.
Local Open Scope Qc_scope.

Definition b2n (b : bool) : nat := if b then 1%nat else 0%nat.

Definition vector_ramp (n : nat) (startVal endVal : Qc) (si ei : bool) : list Qc :=
  if Nat.eqb n 0 then []
  else if Nat.eqb n 1 then
    (* line 72-73 writes the mean of both, line 74 overwrites it *)
    [if si then startVal else endVal]
  else
    let num_steps := (n + 1 - b2n si - b2n ei)%nat in
    let step := (endVal - startVal) / nq num_steps in
    let first := if si then 0%nat else 1%nat in
    map (fun i => startVal + nq (first + i) * step) (seq 0 n).
