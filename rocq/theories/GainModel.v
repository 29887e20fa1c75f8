(** Model of rbbl::GainFader (src/librbbl/gain_fader.cpp), rbbl::GainMatrix
    (src/librbbl/gain_matrix.cpp), rcl::GainMatrix (src/librcl/gain_matrix.cpp) and
    rcl::GainVector (src/librcl/gain_vector.cpp).
    Exact rational arithmetic instead of floating point.  A signal block is a list,
    reading past its end is undefined behaviour.  Alignment errors are not modelled. *)
From Verif Require Import Base Num Memory RampModel.
Local Open Scope Qc_scope.
Local Open Scope res_scope.

(** efl::vectorRampScaling, reference implementation
    (src/libefl/reference/vector_functions_impl.hpp 364-397); [acc] is the previous
    content of the output if accumulating *)
Definition ramp_scaling (n : nat) (input ramp : list Qc) (acc : option (list Qc))
           (base gain : Qc) : res (list Qc) :=
  x <- src_read input n ;;
  r <- src_read ramp n ;;
  let scaled := map (fun p => (base + gain * snd p) * fst p) (combine x r) in
  match acc with
  | None => Ok scaled
  | Some o => o' <- src_read o n ;; Ok (map (fun p => fst p + snd p) (combine o' scaled))
  end.

Record fader := MkFader {
  f_block : nat;        (* mBlockSize *)
  f_samples : nat;      (* mInterpolationSamples *)
  f_periods : nat;      (* mInterpolationPeriods *)
  f_ramp : list Qc      (* mInterpolationRamp *)
}.

(** gain_fader.cpp 15-27 constructor and 75-102 setupRamp(); division by a zero
    block size is undefined *)
Definition fader_new (block steps : nat) : res fader :=
  if Nat.eqb block 0 then UB
  else
    let periods := ((steps + block - 1) / block)%nat in
    let size := ((periods + 1) * block)%nat in
    let zeros := repeat 0 size in
    r1 <- (if Nat.ltb 0 periods then mem_write zeros 0 (vector_ramp steps 0 1 false true)
           else Ok zeros) ;;
    r2 <- mem_write r1 steps (repeat 1 (size - steps)%nat) ;;
    Ok (MkFader block steps periods r2).

(** gain_fader.cpp 45-73 scale() ([acc] = None) and scaleAndAccumulate() *)
Definition fader_scale (f : fader) (input : list Qc) (acc : option (list Qc))
           (startGain endGain : Qc) (blockIndex : nat) : res (list Qc) :=
  let blockIndex := Nat.min blockIndex (f_periods f) in
  ramp_scaling (f_block f) input (skipn (blockIndex * f_block f) (f_ramp f)) acc
               startGain (endGain - startGain).

(** Matrices are lists of rows (one per output). *)
Definition matrix := list (list Qc).
Definition has_shape (m : matrix) (rows cols : nat) : bool :=
  Nat.eqb (length m) rows && forallb (fun r => Nat.eqb (length r) cols) m.

Record gm := MkGm {
  gm_outputs : nat;
  gm_inputs : nat;
  gm_prev : matrix;       (* mPreviousGains *)
  gm_next : matrix;       (* mNextGains *)
  gm_counter : nat;       (* mInterpolationCounter *)
  gm_fader : fader
}.

(** gain_matrix.cpp 35-49 constructor with initial matrix *)
Definition gm_new_matrix (inputs outputs block steps : nat) (m : matrix) : res gm :=
  f <- fader_new block steps ;;
  if has_shape m outputs inputs then Ok (MkGm outputs inputs m m 0 f)
  else Throw InvalidArgument.

(** gain_matrix.cpp 16-32 constructor with uniform initial value *)
Definition gm_new (inputs outputs block steps : nat) (v : Qc) : res gm :=
  f <- fader_new block steps ;;
  let m := repeat (repeat v inputs) outputs in
  Ok (MkGm outputs inputs m m 0 f).

(** gain_matrix.cpp 88-117 processAudio(): the accumulation for one output; without
    any input the output is zeroed *)
Fixpoint mix_row (f : fader) (idx : nat) (gains : list (Qc * Qc)) (inputs : list (list Qc))
         (acc : option (list Qc)) : res (list Qc) :=
  match gains, inputs with
  | [], _ => Ok (match acc with Some o => o | None => repeat 0 (f_block f) end)
  | _ :: _, [] => UB
  | (p, n) :: gains', x :: inputs' =>
      o <- fader_scale f x acc p n idx ;;
      mix_row f idx gains' inputs' (Some o)
  end.

Definition process_audio (g : gm) (inputs : list (list Qc)) : res (list (list Qc)) :=
  map_res (fun rows => mix_row (gm_fader g) (gm_counter g)
                               (combine (fst rows) (snd rows)) inputs None)
          (combine (gm_prev g) (gm_next g)).

(** gain_matrix.cpp 54-63 process() *)
Definition gm_process (g : gm) (inputs : list (list Qc)) : res (gm * list (list Qc)) :=
  out <- process_audio g inputs ;;
  let c := if Nat.ltb (gm_counter g) (f_periods (gm_fader g))
           then S (gm_counter g) else gm_counter g in
  Ok (MkGm (gm_outputs g) (gm_inputs g) (gm_prev g) (gm_next g) c (gm_fader g), out).

(** gain_matrix.cpp 119-158 setGainsInternal(): update of one matrix element;
    [eps] is std::numeric_limits<ElementType>::epsilon() *)
Definition qabs (q : Qc) : Qc := if qlt q 0 then - q else q.
Definition update_previous (eps ratio prev next : Qc) : Qc :=
  let newScale := ratio * (next - prev) in
  if qle eps (qabs newScale) then prev + newScale else next.

Definition set_gains_internal (eps : Qc) (g : gm) (m : matrix) : gm :=
  let f := gm_fader g in
  let prev :=
    if Nat.leb (f_periods f) (gm_counter g) then gm_next g
    else
      let r := nq (gm_counter g * f_block f) / nq (f_samples f) in
      let ratio := if qlt r 1 then r else 1 in
      map (fun rows => map (fun pn => update_previous eps ratio (fst pn) (snd pn))
                           (combine (fst rows) (snd rows)))
          (combine (gm_prev g) (gm_next g)) in
  MkGm (gm_outputs g) (gm_inputs g) prev m 0 f.

(** gain_matrix.cpp 79-87 setNewGains() *)
Definition gm_set (eps : Qc) (g : gm) (m : matrix) : res gm :=
  if has_shape m (gm_outputs g) (gm_inputs g) then Ok (set_gains_internal eps g m)
  else Throw InvalidArgument.

(** gain_matrix.cpp 66-77 process() with new gains *)
Definition gm_process_new (eps : Qc) (g : gm) (inputs : list (list Qc)) (m : matrix)
  : res (gm * list (list Qc)) :=
  g' <- gm_set eps g m ;; gm_process g' inputs.

(** Calls of the public interface. *)
Inductive gm_op := GSet (m : matrix) | GProcess (inputs : list (list Qc)).

Fixpoint gm_run (eps : Qc) (g : gm) (ops : list gm_op) : res (gm * list (list (list Qc))) :=
  match ops with
  | [] => Ok (g, [])
  | GSet m :: r => g' <- gm_set eps g m ;; gm_run eps g' r
  | GProcess x :: r =>
      ' (g', o) <- gm_process g x ;;
      ' (g'', os) <- gm_run eps g' r ;;
      Ok (g'', o :: os)
  end.

(** rcl/gain_matrix.cpp 66-96 process() with control input; [m] is the content of
    the parameter port in this block.  (The early return for zero output width and
    the zeroing for zero input width coincide with process_audio, except that the
    counter does not advance.) *)
Definition rcl_gm_process (eps : Qc) (g : gm) (m : matrix) (inputs : list (list Qc))
  : res (gm * list (list Qc)) :=
  g' <- gm_set eps g m ;;
  if Nat.eqb (gm_outputs g) 0 then Ok (g', [])
  else if Nat.eqb (gm_inputs g) 0
  then Ok (g', repeat (repeat 0 (f_block (gm_fader g))) (gm_outputs g))
  else gm_process g' inputs.

(** Consecutive calls of process(), one pair of control and audio input per block. *)
Fixpoint rcl_gm_run (eps : Qc) (g : gm) (blocks : list (matrix * list (list Qc)))
  : res (gm * list (list (list Qc))) :=
  match blocks with
  | [] => Ok (g, [])
  | (m, x) :: r =>
      ' (g', o) <- rcl_gm_process eps g m x ;;
      ' (g'', os) <- rcl_gm_run eps g' r ;;
      Ok (g'', o :: os)
  end.

(** rcl/gain_vector.cpp *)
Record gvec := MkGvec {
  gv_cur : list Qc;       (* mCurrentGains *)
  gv_next : list Qc;      (* mNextGains *)
  gv_counter : nat;
  gv_fader : fader        (* its periods = mInterpolationPeriods (72) *)
}.

(** cpp 40-76 setup *)
Definition gv_new (block steps : nat) (gains : list Qc) : res gvec :=
  f <- fader_new block steps ;; Ok (MkGvec gains gains 0 f).

(** cpp 99-117 setGain() *)
Definition gv_set (v : gvec) (gains : list Qc) : res gvec :=
  if Nat.eqb (length gains) (length (gv_cur v))
  then Ok (MkGvec (gv_next v) gains 0 (gv_fader v))
  else Throw InvalidArgument.

(** cpp 78-97 process() after the handling of the parameter port *)
Definition gv_process (v : gvec) (inputs : list (list Qc)) : res (gvec * list (list Qc)) :=
  if Nat.ltb (length inputs) (length (gv_cur v)) then UB
  else
    out <- map_res (fun p => fader_scale (gv_fader v) (snd p) None (fst (fst p)) (snd (fst p))
                                         (gv_counter v))
                   (combine (combine (gv_cur v) (gv_next v)) inputs) ;;
    Ok (MkGvec (gv_cur v) (gv_next v)
               (Nat.min (gv_counter v + 1) (f_periods (gv_fader v))) (gv_fader v), out).

Inductive gv_op := VSet (g : list Qc) | VProcess (inputs : list (list Qc)).
Fixpoint gv_run (v : gvec) (ops : list gv_op) : res (gvec * list (list (list Qc))) :=
  match ops with
  | [] => Ok (v, [])
  | VSet m :: r => v' <- gv_set v m ;; gv_run v' r
  | VProcess x :: r =>
      ' (v', o) <- gv_process v x ;;
      ' (v'', os) <- gv_run v' r ;;
      Ok (v'', o :: os)
  end.
