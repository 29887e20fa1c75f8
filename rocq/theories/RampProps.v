(** Property C17: vectorRamp. *)
From Verif Require Import Base Num RampModel RampProofs.
Local Open Scope Qc_scope.

(** C17 (partial: single-element ramps with equal flags are excluded, see below).
    The values are the requested part of an equidistant grid between the end points. *)
Theorem C17_ramp_is_equidistant_partial :
  forall n a b si ei, (2 <= n)%nat \/ (n = 1%nat /\ si <> ei) ->
  equidistant (vector_ramp n a b si ei) n a b si ei.
Proof. exact ramp_equidistant. Qed.
Print Assumptions C17_ramp_is_equidistant_partial.

Theorem C17_ramp_end_points_partial :
  forall n a b si ei, (1 <= n)%nat ->
  (si = true -> nth_error (vector_ramp n a b si ei) 0 = Some a)
  /\ (ei = true -> (2 <= n)%nat \/ si = false ->
      nth_error (vector_ramp n a b si ei) (n - 1) = Some b).
Proof. exact ramp_ends. Qed.
Print Assumptions C17_ramp_end_points_partial.

(** C17: consecutive ramps join without jump or repeated value. *)
Theorem C17_consecutive_ramps_join :
  forall n m a b, (1 <= n)%nat -> (1 <= m)%nat ->
  let mid := a + (b - a) * nq n / nq (n + m) in
  vector_ramp n a mid false true ++ vector_ramp m mid b false true
  = vector_ramp (n + m) a b false true.
Proof. exact ramp_concat. Qed.
Print Assumptions C17_consecutive_ramps_join.

Theorem C17_ramp_stays_between_end_points :
  forall n a b si ei x, In x (vector_ramp n a b si ei) ->
  exists t, 0 <= t /\ t <= 1 /\ x = a + t * (b - a).
Proof. exact ramp_range. Qed.
Print Assumptions C17_ramp_stays_between_end_points.

(** C17 is false for one element if both end points are included (the end point is
    not reached) or both excluded (the value is the end point, although that is
    excluded; the intended mean value is overwritten). *)
Theorem C17_single_element_ramp_refuted :
  exists a b, nth_error (vector_ramp 1 a b true true) 0 <> Some b
    /\ ~ equidistant (vector_ramp 1 a b false false) 1 a b false false.
Proof.
  exists 0, 1. split; [vm_compute; discriminate|].
  intros (_ & step & Hs & H). specialize (H 0%nat ltac:(lia)).
  change (Some (1 : Qc) = Some (0 + nq 1 * step)) in H. change (step * nq 2 = 1 - 0) in Hs.
  assert (H1 : 1 = 0 + nq 1 * step) by congruence. rewrite nq_1 in H1.
  assert (E : step = 1) by (rewrite H1 at 1; ring). rewrite E in Hs. discriminate.
Qed.
Print Assumptions C17_single_element_ramp_refuted.

Example C17_example :
  map this (vector_ramp 4 (nq 1) (nq 3) false true) = [3 # 2; 2; 5 # 2; 3]%Q
  /\ map this (vector_ramp 3 (nq 1) (nq 3) true true) = [1; 2; 3]%Q.
Proof. split; vm_compute; reflexivity. Qed.
