(** Model of rbbl::LagrangeInterpolator (src/librbbl/lagrange_interpolator.cpp) and
    rbbl::MultichannelDelayLine (src/librbbl/multichannel_delay_line.cpp).
    Exact rational arithmetic instead of floating point.  The maximum delay is
    assumed non-negative.  Reading outside the memory of the channel's ring-buffer
    row is undefined behaviour. *)
From Verif Require Import Base Num Memory CircularBufferModel RampModel LagrangeModel.
Local Open Scope Qc_scope.

(** Conversion of a floating point number to ptrdiff_t: truncation. *)
Definition trunc (q : Qc) : Z := if qlt q 0 then (- qfloor (- q))%Z else qfloor q.

(** lagrange_interpolator.cpp 70-75: rounding *)
Definition round_away (d : Qc) : Z :=
  if qlt 0 d then trunc (d + 1 / nq 2) else trunc (d - 1 / nq 2).

(** Read memory at a (possibly negative) address. *)
Definition read_at (row : list Qc) (addr : Z) : res Qc :=
  if (addr <? 0)%Z then UB
  else match nth_error row (Z.to_nat addr) with Some x => Ok x | None => UB end.

Fixpoint inner_product (coeffs xs : list Qc) : Qc :=
  match coeffs, xs with c :: cs, x :: r => c * x + inner_product cs r | _, _ => 0 end.

Section Interpolator.
  Context (order : nat).
  Local Open Scope res_scope.

  (** cpp 66-86: loop body for one output sample, [base] is the address of
      basePointer in the row *)
  Definition lagrange_sample (row : list Qc) (base : Z) (delay gain : Qc) : res Qc :=
    let base_offset := round_away delay in
    let mu := (delay - zq base_offset)%Qc in
    let coeffs := calculate_coefficients true order mu in
    xs <- map_res (fun k => read_at row (base + base_offset + Z.of_nat k)%Z) (seq 0 (S order)) ;;
    Ok (gain * inner_product (rev coeffs) xs)%Qc.

  (** cpp 33-87 interpolate(); [maxn] is the size passed to the constructor *)
  Definition lagrange_interpolate (maxn : nat) (row : list Qc) (base : Z) (n : nat)
             (startDelay endDelay startGain endGain : Qc) : res (list Qc) :=
    if Nat.ltb maxn n then Throw InvalidArgument
    else
      let gains := vector_ramp n startGain endGain false true in
      let delays := vector_ramp n (- nq (n + order) - startDelay)%Qc (- nq order - endDelay)%Qc
                                false true in
      map_res (fun dg => lagrange_sample row base (fst dg) (snd dg)) (combine delays gains).
End Interpolator.

Inductive policy := PAdd | PLimit | PReject.

Record dline := MkDline {
  dl_ring : cb Qc;          (* mRingbuffer *)
  dl_block : nat;           (* cBlockLength *)
  dl_fs : Qc;               (* cSamplingFrequency *)
  dl_max : nat;             (* cMaxDelaySamples *)
  dl_policy : policy;
  dl_order : nat            (* order of the interpolator chosen by its name *)
}.

(** cpp 23-43 constructor; [max] = ceil( maxDelaySeconds * samplingFrequency ) *)
Definition dl_new (channels : nat) (fs : Qc) (block max order alignment : nat) (p : policy) : dline :=
  MkDline (cb_new 0 channels (max + block) alignment) block fs max p order.

Definition ceil_nat (q : Qc) : nat := Z.to_nat (- qfloor (- q)).

(** lagrange_interpolator.hpp 60: 0.5 * order *)
Definition method_delay (order : nat) : Qc := (1 / nq 2) * nq order.

(** std::numeric_limits<float>::epsilon() *)
Definition epsilon : Qc := 1 / nq 2 ^ 23.

(** cpp 103-130 adjustDelay() *)
Definition adjust_delay (dl : dline) (raw_seconds : Qc) : res Qc :=
  let raw := raw_seconds * dl_fs dl in
  if qlt (nq (dl_max dl)) raw then Throw OutOfRange
  else match dl_policy dl with
  | PAdd => if qlt raw (- epsilon) then Throw OutOfRange else Ok raw
  | PLimit => let a := raw - method_delay (dl_order dl) in Ok (if qlt a 0 then 0 else a)
  | PReject => if qlt raw (method_delay (dl_order dl)) then Throw OutOfRange
               else Ok (raw - method_delay (dl_order dl))
  end.

Local Open Scope res_scope.

(** cpp 72-82 write() *)
Definition dl_write (dl : dline) (data : list (list Qc)) (channels : nat) : res dline :=
  if negb (Nat.eqb channels (cb_channels (dl_ring dl))) then Throw InvalidArgument
  else
    ring <- cb_write (dl_ring dl) data channels (dl_block dl) ;;
    Ok (MkDline ring (dl_block dl) (dl_fs dl) (dl_max dl) (dl_policy dl) (dl_order dl)).

(** cpp 85-101 interpolate() *)
Definition dl_interpolate (dl : dline) (ch n : nat)
           (startDelay endDelay startGain endGain : Qc) : res (list Qc) :=
  match nth_error (cb_rows (dl_ring dl)) ch with
  | None => Throw InvalidArgument
  | Some row =>
      base <- read_offset (dl_ring dl) 1 ;;
      sd <- adjust_delay dl startDelay ;;
      ed <- adjust_delay dl endDelay ;;
      lagrange_interpolate (dl_order dl) (dl_block dl) row (Z.of_nat base) n sd ed
                           startGain endGain
  end.
