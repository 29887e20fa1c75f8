(** Model of the block execution of a signal flow, its block counter and the runtime
    profiler.

    Sources (all below /repo/src):
    - libvisr/impl/time_implementation.cpp 11-46
    - librrl/audio_signal_flow.cpp 113-114, 137-261, 1043-1060
    - librrl/runtime_profiler.cpp 27-305

    Simplifications:
    - timings are exact rationals instead of double; NaN is [None];
    - the vector kernels are pointwise operations on lists (their memory behaviour
      and alignment checks are the subject of the Simd files);
    - the world changed by the components (buffers, component states) is an abstract
      type; a component's process() maps the block time and the world to a new world
      and possibly an exception, so effects before an exception are kept;
    - every access is serialised by the parameter exchange mutex, as in the code
      (reading the counter in getMean outside the lock is not modelled). *)
From Verif Require Import Base Num.
Local Open Scope res_scope.
Local Open Scope Qc_scope.

(** ** TimeImplementation *)

(** time_implementation.hpp: mPeriod and mBlockCounter.  The counter has no
    initialiser in the constructor (time_implementation.cpp 11-18): [None] is an
    indeterminate value. *)
Record timeimpl := Time { t_period : nat; t_block : option nat }.
(** time_implementation.cpp 11-18 *)
Definition t_make (period : nat) : timeimpl := Time period None.
(** time_implementation.cpp 22-25; reading an indeterminate value is undefined *)
Definition blockCount (t : timeimpl) : res nat :=
  match t_block t with Some b => Ok b | None => UB end.
(** time_implementation.cpp 27-30 *)
Definition sampleCount (t : timeimpl) : res nat :=
  b <- blockCount t ;; Ok (b * t_period t)%nat.
(** time_implementation.cpp 32-35 *)
Definition resetCounter (t : timeimpl) : timeimpl := Time (t_period t) (Some 0%nat).
(** time_implementation.cpp 37-40 *)
Definition advanceBlockCounter (t : timeimpl) : res timeimpl :=
  b <- blockCount t ;; Ok (Time (t_period t) (Some (S b))).

(** ** RuntimeProfiler *)

(** Pointwise operation on vectors of equal length
    (efl::vectorSubtract, vectorAddInplace, vectorMultiply...). *)
Fixpoint map2 {A B C} (f : A -> B -> C) (l1 : list A) (l2 : list B) : list C :=
  match l1, l2 with
  | a :: l1', b :: l2' => f a b :: map2 f l1' l2'
  | _, _ => []
  end.

(** Assignment v[i] = x. *)
Fixpoint put {A} (i : nat) (x : A) (l : list A) : list A :=
  match l, i with
  | [], _ => []
  | _ :: l', O => x :: l'
  | a :: l', S i' => a :: put i' x l'
  end.

(** runtime_profiler.hpp 205-240: the data members (the two temporary vectors are
    local to finishIteration). *)
Record prof := Prof {
  p_n : nat;                 (* cNumberOfAtomicComponents *)
  p_meas : nat;              (* mMeasurementSampleCounter *)
  p_stat : nat;              (* mStatisticsSampleCounter *)
  p_cur : list Qc;           (* mCurrentData *)
  p_buf : list (list Qc);    (* mCurrentMeasurementBuffer, one list per row *)
  p_back : list (list Qc);   (* mBackMeasurementBuffer *)
  p_mean : list Qc;          (* mRunningMean *)
  p_m2 : list Qc }.          (* mRunningM2 *)

(** runtime_profiler.cpp 27-43; BasicVector and BasicMatrix zero their elements. *)
Definition p_make (n size : nat) : prof :=
  Prof n 0 0 (repeat 0 n) (repeat (repeat 0 n) size) (repeat (repeat 0 n) size)
    (repeat 0 n) (repeat 0 n).

(** runtime_profiler.cpp 195-198 *)
Definition measurementBufferSize (p : prof) : nat := length (p_buf p).

(** runtime_profiler.cpp 52-59 *)
Definition setTime (p : prof) (i : nat) (t : Qc) : res prof :=
  if Nat.leb (p_n p) i then Throw OutOfRange
  else Ok (Prof (p_n p) (p_meas p) (p_stat p) (put i t (p_cur p)) (p_buf p) (p_back p)
             (p_mean p) (p_m2 p)).

(** runtime_profiler.cpp 64-116: the updated mean and sum of squared deviations *)
Definition welford (p : prof) : list Qc * list Qc :=
  if Nat.eqb (p_stat p) 0 then (p_cur p, p_m2 p)
  else
    let invCount := 1 / nq (p_stat p + 1) in
    let tmp := map2 (fun a b => a - b) (p_cur p) (p_mean p) in
    let tmp2 := map (fun x => invCount * x) tmp in
    let mean := map2 (fun m d => m + d) (p_mean p) tmp2 in
    let tmp2' := map2 (fun a b => a - b) (p_cur p) mean in
    (mean, map2 (fun acc d => acc + d) (p_m2 p) (map2 (fun a b => a * b) tmp tmp2')).

(** runtime_profiler.cpp 61-131 *)
Definition finishIteration (p : prof) : prof :=
  let '(mean, m2) := welford p in
  let buf :=
    if Nat.eqb (measurementBufferSize p) 0 then p_buf p
    else put (p_meas p mod measurementBufferSize p) (p_cur p) (p_buf p) in
  Prof (p_n p) (S (p_meas p)) (S (p_stat p)) (p_cur p) buf (p_back p) mean m2.

(** runtime_profiler.cpp 133-138 *)
Definition resetMeasurements (p : prof) : prof :=
  Prof (p_n p) 0 (p_stat p) (p_cur p) (p_buf p) (p_back p) (p_mean p) (p_m2 p).

(** runtime_profiler.cpp 186-193 *)
Definition resetStatistics (p : prof) : prof :=
  Prof (p_n p) (p_meas p) 0 (p_cur p) (p_buf p) (p_back p)
    (repeat 0 (length (p_mean p))) (repeat 0 (length (p_m2 p))).

(** runtime_profiler.cpp 285-305; [None] is NaN *)
Definition calculateVariance (p : prof) : list (option Qc) :=
  if Nat.ltb (p_stat p) 2 then repeat None (p_n p)
  else
    let scaleFactor := 1 / nq (p_stat p - 1) in
    map (fun x => Some (scaleFactor * x)) (p_m2 p).

(** runtime_profiler.cpp 254-269; [size] is the size of the result vector.  The NaN
    values written first (262) are overwritten by the copy (267). *)
Definition getMean (p : prof) (size : nat) : res (list (option Qc)) :=
  if negb (Nat.eqb size (p_n p)) then Throw InvalidArgument
  else
    let val := if Nat.ltb (p_stat p) 1 then repeat None size else repeat (Some 0) size in
    if Nat.eqb (length val) (length (p_mean p)) then Ok (map Some (p_mean p))
    else Throw InvalidArgument.

(** runtime_profiler.cpp 271-283 *)
Definition getVariance (p : prof) (size : nat) : res (list (option Qc)) :=
  if negb (Nat.eqb size (p_n p)) then Throw InvalidArgument
  else Ok (calculateVariance p).

(** runtime_profiler.cpp 140-159 *)
Definition getStatistics (p : prof) (sm sv : nat)
  : res (list (option Qc) * list (option Qc) * nat) :=
  if negb (Nat.eqb sm (p_n p)) then Throw InvalidArgument
  else if negb (Nat.eqb sv (p_n p)) then Throw InvalidArgument
  else Ok (map Some (p_mean p), calculateVariance p, p_stat p).

(** runtime_profiler.cpp 161-184 *)
Definition getAndResetStatistics (p : prof) (sm sv : nat)
  : prof * res (list (option Qc) * list (option Qc) * nat) :=
  if negb (Nat.eqb sm (p_n p)) then (p, Throw InvalidArgument)
  else if negb (Nat.eqb sv (p_n p)) then (p, Throw InvalidArgument)
  else
    let numCycles := p_stat p in
    let mean := map Some (p_mean p) in
    let variance := calculateVariance p in
    (Prof (p_n p) (p_meas p) 0 (p_cur p) (p_buf p) (p_back p)
       (repeat 0 (length (p_mean p))) (repeat 0 (length (p_m2 p))),
     Ok (mean, variance, numCycles)).

(** runtime_profiler.cpp 243-252 *)
Definition getMeasurements (p : prof) : prof * (nat * list (list Qc)) :=
  let numIterations := p_meas p in
  (Prof (p_n p) 0 (p_stat p) (p_cur p) (p_back p) (p_buf p) (p_mean p) (p_m2 p),
   (numIterations, p_buf p)).

(** The calls on a profiler, in the order given by the mutex. *)
Inductive pop :=
| PSetTime (i : nat) (t : Qc)
| PFinish
| PResetMeasurements
| PResetStatistics
| PGetMean (size : nat)
| PGetVariance (size : nat)
| PGetStatistics (sm sv : nat)
| PGetAndReset (sm sv : nat)
| PGetMeasurements
| PMeasurementSamples
| PStatisticsSamples.

Inductive pout :=
| VUnit
| VErr (e : exn)
| VVec (l : list (option Qc))
| VStat (mean variance : list (option Qc)) (n : nat)
| VMeas (n : nat) (buf : list (list Qc))
| VCount (n : nat)
| VUB.

Definition vout {A} (f : A -> pout) (r : res A) : pout :=
  match r with Ok a => f a | Throw e => VErr e | UB => VUB end.

Definition p_step (p : prof) (o : pop) : prof * pout :=
  match o with
  | PSetTime i t =>
      match setTime p i t with
      | Ok p' => (p', VUnit) | Throw e => (p, VErr e) | UB => (p, VUB)
      end
  | PFinish => (finishIteration p, VUnit)
  | PResetMeasurements => (resetMeasurements p, VUnit)
  | PResetStatistics => (resetStatistics p, VUnit)
  | PGetMean size => (p, vout VVec (getMean p size))
  | PGetVariance size => (p, vout VVec (getVariance p size))
  | PGetStatistics sm sv => (p, vout (fun '(m, v, n) => VStat m v n) (getStatistics p sm sv))
  | PGetAndReset sm sv =>
      let '(p', r) := getAndResetStatistics p sm sv in
      (p', vout (fun '(m, v, n) => VStat m v n) r)
  | PGetMeasurements => let '(p', (n, b)) := getMeasurements p in (p', VMeas n b)
  | PMeasurementSamples => (p, VCount (p_meas p))
  | PStatisticsSamples => (p, VCount (p_stat p))
  end.

(** ** Block execution *)
Section Flow.
  Context {comp world input output : Type}.
  (** process() of a component, given the block time *)
  Variable proc : comp -> timeimpl -> world -> world * option exn.
  (** copying the capture samples in and the playback samples out
      (audio_signal_flow.cpp 144-155, 165-176); the copies cannot fail with alignment 0 *)
  Variable capture : input -> world -> world.
  Variable playback : world -> output.

  Record flow := Flow {
    f_time : timeimpl;             (* mFlow.timeImplementation() *)
    f_schedule : list comp;        (* mProcessingSchedule *)
    f_prof : option prof }.        (* mRuntimeProfiler *)

  (** audio_signal_flow.cpp 62-115: the last action of the constructor resets the
      counter of the top-level component. *)
  Definition f_make (t : timeimpl) (schedule : list comp) : flow :=
    Flow (resetCounter t) schedule None.

  (** audio_signal_flow.cpp 232-241: the profiled loop.  [clock i] is the time measured
      around the call of component [i]. *)
  Fixpoint run_timed (clock : nat -> Qc) (t : timeimpl) (i : nat) (cs : list comp)
      (timing : list Qc) (w : world) : list Qc * world * option exn :=
    match cs with
    | [] => (timing, w, None)
    | c :: cs' =>
        let '(w', r) := proc c t w in
        match r with
        | Some e => (timing, w', Some e)
        | None => run_timed clock t (S i) cs' (put i (clock i) timing) w'
        end
    end.

  (** audio_signal_flow.cpp 247-250 *)
  Fixpoint run_plain (t : timeimpl) (cs : list comp) (w : world) : world * option exn :=
    match cs with
    | [] => (w, None)
    | c :: cs' =>
        let '(w', r) := proc c t w in
        match r with
        | Some e => (w', Some e)
        | None => run_plain t cs' w'
        end
    end.

  (** std::exception and derived classes are replaced by the given class, other
      exceptions pass through. *)
  Definition rethrow (to e : exn) : exn :=
    match e with CharPointer => CharPointer | _ => to end.

  Definition set_cur (p : prof) (cur : list Qc) : prof :=
    Prof (p_n p) (p_meas p) (p_stat p) cur (p_buf p) (p_back p) (p_mean p) (p_m2 p).

  (** audio_signal_flow.cpp 220-261 *)
  Definition executeComponents (clock : nat -> Qc) (f : flow) (w : world)
    : flow * world * res unit :=
    let '(pr, w', r) :=
      match f_prof f with
      | Some p =>
          let '(timing, w', r) := run_timed clock (f_time f) 0 (f_schedule f) (p_cur p) w in
          let p1 := set_cur p timing in
          match r with
          | Some e => (Some p1, w', Some e)
          | None => (Some (finishIteration p1), w', None)
          end
      | None =>
          let '(w', r) := run_plain (f_time f) (f_schedule f) w in (None, w', r)
      end in
    match r with
    | Some e => (Flow (f_time f) (f_schedule f) pr, w', Throw (rethrow RuntimeError e))
    | None =>
        match advanceBlockCounter (f_time f) with
        | Ok t => (Flow t (f_schedule f) pr, w', Ok tt)
        | Throw e => (Flow (f_time f) (f_schedule f) pr, w', Throw (rethrow RuntimeError e))
        | UB => (Flow (f_time f) (f_schedule f) pr, w', UB)
        end
    end.

  (** audio_signal_flow.cpp 137-179 (pointer version, [strided = false]) and 181-218 *)
  Definition process (strided : bool) (clock : nat -> Qc) (x : input) (f : flow) (w : world)
    : flow * world * res output :=
    let '(f', w', r) := executeComponents clock f (capture x w) in
    match r with
    | Ok _ => (f', w', Ok (playback w'))
    | Throw e =>
        (f', w', Throw (rethrow (if strided then RuntimeError else InvalidArgument) e))
    | UB => (f', w', UB)
    end.

  (** audio_signal_flow.cpp 1048-1053, 1055-1060 *)
  Definition enableRuntimeProfiling (size : nat) (f : flow) : flow :=
    Flow (f_time f) (f_schedule f) (Some (p_make (length (f_schedule f)) size)).
  Definition disableRuntimeProfiling (f : flow) : flow :=
    Flow (f_time f) (f_schedule f) None.

  Inductive fop :=
  | FProcess (strided : bool) (clock : nat -> Qc) (x : input)
  | FEnable (size : nat)
  | FDisable
  | FProfiler (o : pop).    (* a call of the profiler; logic_error if there is none *)

  Inductive fout := FOut (r : res output) | FUnit | FProf (o : pout).

  Definition f_step (s : flow * world) (o : fop) : (flow * world) * fout :=
    let '(f, w) := s in
    match o with
    | FProcess strided clock x =>
        let '(f', w', r) := process strided clock x f w in ((f', w'), FOut r)
    | FEnable size => ((enableRuntimeProfiling size f, w), FUnit)
    | FDisable => ((disableRuntimeProfiling f, w), FUnit)
    | FProfiler o =>
        match f_prof f with
        | None => ((f, w), FProf (VErr LogicError))
        | Some p =>
            let '(p', v) := p_step p o in
            ((Flow (f_time f) (f_schedule f) (Some p'), w), FProf v)
        end
    end.
End Flow.
