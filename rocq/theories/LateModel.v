(** Model of reverbobject::LateReverbFilterCalculator
    (src/libreverbobject/late_reverb_filter_calculator.{hpp,cpp}).
    Parameters are exact rationals as in ReverbModel.v, samples are real numbers. The white
    noise of each object and band is an arbitrary sequence. Parameters and filters are passed
    through unbounded queues. *)
From Coq Require Export Reals.
From Coq Require Import Qreals.
From Verif Require Import Base Num DelayLineModel ReverbModel.
Local Open Scope res_scope.
Local Open Scope R_scope.

(** A parameter as a real number *)
Definition real (x : Qc) : R := Q2R (this x).

(** BiquadCoefficient with a0 = 1 *)
Record section := MkSection { k_b0 : R; k_b1 : R; k_b2 : R; k_a1 : R; k_a2 : R }.

(** filterBiquad(), cpp:36-56; [x2 x1] are inputBuffer[1], inputBuffer[2] and [y2 y1] are
    state[0], state[1] *)
Fixpoint biquad_loop (k : section) (x2 x1 y2 y1 : R) (input : list R) : list R :=
  match input with
  | [] => []
  | x :: r =>
      let y := k_b0 k * x + k_b1 k * x1 + k_b2 k * x2 - k_a1 k * y1 - k_a2 k * y2 in
      y :: biquad_loop k x1 x y1 y r
  end.
Definition filter_biquad (k : section) (past : R * R) (state : R * R) (input : list R) : list R :=
  biquad_loop k (fst past) (snd past) (fst state) (snd state) input.

(** nextAlignedSize(), libefl/alignment.hpp:73-85 *)
Definition next_aligned (size alignment : nat) : nat :=
  if (alignment =? 0)%nat then size
  else let rem := (size mod alignment)%nat in
       if (rem =? 0)%nat then size else ((size / alignment + 1) * alignment)%nat.

(** Conversion of a rounded number to size_t: undefined for negative numbers. Numbers too
    large for size_t are not modelled; a sum with the other addend below the filter length
    cannot wrap, because floating point numbers below 2^64 are at most 2^64 - 2^40. *)
Definition to_size (z : Z) : res nat := if (z <? 0)%Z then UB else Ok (Z.to_nat z).

(** createEnvelope(), cpp:261-292 *)
Definition envelope (n : nat) (delay gain attack decay fs : Qc) : res (list R) :=
  d <- to_size (round_away (delay * fs)%Qc) ;;
  a <- to_size (round_away (attack * fs)%Qc) ;;
  let dec := real (decay / fs)%Qc in
  if ((n <=? d) || (n <=? d + a))%nat then Throw InvalidArgument
  else Ok (repeat 0 d
           ++ map (fun k => real gain * (INR (k - d) / INR a)) (seq d a)
           ++ map (fun k => real gain * exp (dec * INR (k - a - d))) (seq (a + d) (n - (a + d)))).

Record lconfig := MkLConfig {
  f_objects : nat;                       (* mNumberOfObjects *)
  f_length : nat;                        (* mFilterLength *)
  f_updates : nat;                       (* mMaxUpdatesPerIteration *)
  f_fs : Qc;                             (* samplingFrequency() *)
  f_noise : list (list R)               (* mSubBandNoiseSequences, one row per object and band *)
}.

(** mFilterLength, cpp:100 *)
Definition filter_length (seconds fs : Qc) : nat := Z.to_nat (Z.max (- qfloor (- (seconds * fs))%Qc) 1).
(** The constructor, cpp:86-137; [octave_bands] is cOctaveBandFilters, cpp:73-82, with nine
    entries, and [white] gives the samples drawn for each object and band *)
Definition late_setup (octave_bands : list section) (white : nat -> nat -> nat -> R) (alignment objects subbands updates : nat) (seconds fs : Qc) : res lconfig :=
  let len := filter_length seconds fs in
  let extra := next_aligned 20 alignment in
  if negb (length octave_bands =? subbands)%nat then Throw InvalidArgument
  else
    let row o b k := skipn extra (filter_biquad k (0, 0) (0, 0) (map (white o b) (seq 0 (len + extra)))) in
    Ok (MkLConfig objects len (if (updates =? 0)%nat then objects else updates) fs
          (flat_map (fun o => map (fun bk => row o (fst bk) (snd bk)) (combine (seq 0 subbands) octave_bands)) (seq 0 objects))).

(** subBandNoiseSequence(), hpp:154-157 *)
Definition noise_row (c : lconfig) (obj band : nat) : res (list R) :=
  match nth_error (f_noise c) (obj * bands + band) with Some r => Ok r | None => UB end.

(** vectorMultiply() and vectorMultiplyAddInplace() *)
Fixpoint multiply (a b : list R) : list R :=
  match a, b with x :: a', y :: b' => x * y :: multiply a' b' | _, _ => [] end.
Fixpoint multiply_add (a b acc : list R) : list R :=
  match a, b, acc with x :: a', y :: b', z :: r => z + x * y :: multiply_add a' b' r | _, _, _ => [] end.

Definition elem (l : list Qc) (i : nat) : res Qc := match nth_error l i with Some x => Ok x | None => UB end.
(** The loop over the bands, cpp:195-219; the state at an exception is kept *)
Fixpoint ir_loop (c : lconfig) (obj : nat) (l : late) (bs : list nat) (ir : list R) : list R * res unit :=
  match bs with
  | [] => (ir, Ok tt)
  | b :: bs' =>
      match (lv <- elem (l_levels l) b ;; at' <- elem (l_attacks l) b ;; dc <- elem (l_decays l) b ;;
             env <- envelope (f_length c) (l_onset l) lv at' dc (f_fs c) ;;
             noise <- noise_row c obj b ;;
             Ok (if (b =? 0)%nat then multiply noise env else multiply_add noise env ir)) with
      | Ok ir' => ir_loop c obj l bs' ir'
      | Throw e => (ir, Throw e)
      | UB => (ir, UB)
      end
  end.
(** calculateImpulseResponse(), cpp:177-233: exceptions are caught and reported only. The
    buffer has exactly the filter length. *)
Definition impulse_response (c : lconfig) (obj : nat) (l : late) (ir : list R) : res (list R) :=
  match ir_loop c obj l (seq 0 bands) ir with
  | (ir', UB) => UB
  | (ir', _) => Ok ir'
  end.

(** The two queues *)
Record lstate := MkLState { q_in : list (nat * late); q_out : list (nat * list R) }.
(** process(), cpp:143-175; [n] is the number of updates left, at least one is made *)
Fixpoint late_loop (c : lconfig) (queue : list (nat * late)) (out : list (nat * list R)) (cnt : nat)
  : lstate * res unit :=
  match queue with
  | [] => (MkLState [] out, Ok tt)
  | (idx, l) :: rest =>
      if (f_objects c <=? idx)%nat then (MkLState queue out, Throw OutOfRange)
      else match impulse_response c idx l (repeat 0 (f_length c)) with
           | Ok f => if (f_updates c <=? S cnt)%nat then (MkLState rest (out ++ [(idx, f)]), Ok tt)
                     else late_loop c rest (out ++ [(idx, f)]) (S cnt)
           | Throw e => (MkLState queue out, Throw e)
           | UB => (MkLState queue out, UB)
           end
  end.
Definition late_process (c : lconfig) (s : lstate) : lstate * res unit := late_loop c (q_in s) (q_out s) 0.
(** enqueue() on the sending side of the parameter queue *)
Definition late_receive (s : lstate) (ms : list (nat * late)) : lstate := MkLState (q_in s ++ ms) (q_out s).
