(** Model of the wrappers through which Matlab, Max and Python run signal flows:
    mexsupport::MexWrapper (src/libmexsupport/mex_wrapper.cpp 21-192), maxmsp::SignalFlowWrapper
    (src/maxmspexternals/libmaxsupport/signal_flow_wrapper.cpp 20-88) with its use in perform()
    (src/maxmspexternals/gain_matrix/gain_matrix.cpp 190-215; the other externals are alike), and
    wrapProcess() of the Python binding (src/python/rrl/audio_signal_flow.cpp 31-77).

    The signal flow behind rrl::AudioSignalFlow is an arbitrary state machine.  Conversion of sample
    types (reference/vector_conversions_impl.hpp 97-113) is an arbitrary function.
    Not modelled: allocation failures, alignment (all calls pass 0). *)
From Coq Require Import ZArith.
From Verif Require Import Base Memory.
Local Open Scope res_scope.

(** *** Strided access to memory *)
Section Strided.
  Context {B : Type}.
  (** [n] elements, beginning at [off] *)
  Fixpoint read_strided (mem : list B) (off stride n : nat) : res (list B) :=
    match n with
    | O => Ok []
    | S n' =>
        match nth_error mem off with
        | None => UB
        | Some x => xs <- read_strided mem (off + stride) stride n' ;; Ok (x :: xs)
        end
    end.
  Fixpoint write_at (mem : list B) (k : nat) (x : B) : res (list B) :=
    match mem, k with
    | [], _ => UB
    | _ :: mem', O => Ok (x :: mem')
    | y :: mem', S k' => r <- write_at mem' k' x ;; Ok (y :: r)
    end.
  Fixpoint write_strided (mem : list B) (off stride : nat) (xs : list B) : res (list B) :=
    match xs with
    | [] => Ok mem
    | x :: xs' => mem' <- write_at mem off x ;; write_strided mem' (off + stride) stride xs'
    end.
End Strided.

Section Host.
  (** internal samples [A], samples of the host [E] *)
  Context {A E F : Type} (to_internal : E -> A) (to_host : A -> E) (zero : E).
  (** one block of the schedule, None if a component throws; number of capture and playback
      channels, period *)
  Variables (exec : F -> list (list A) -> option (F * list (list A))) (ins outs period : nat).

  (** *** AudioSignalFlow::process() with pointers, librrl/audio_signal_flow.cpp 137-180 *)
  Definition asf_process (f : F) (x : list (list A)) : res (F * list (list A) * bool) :=
    match exec f x with
    | Some (f', y) => Ok (f', y, true)
    | None => Throw InvalidArgument
    end.

  (** *** MexWrapper *)
  Inductive mx_class := Double | Single | OtherClass.
  (** column-major *)
  Record mx := Mx { mx_type : mx_class; mx_m : nat; mx_n : nat; mx_data : list E }.

  (** constructor, mex_wrapper.cpp 21-89; [setup] tells whether the AudioSignalFlow can be
      constructed.  Returns the output matrix; mxCreateNumericMatrix sets it to zero. *)
  Definition mex_construct (setup : bool) (input : mx) : res mx :=
    match mx_type input with
    | OtherClass => Throw InvalidArgument
    | _ =>
        if negb setup then Throw InvalidArgument
        else if negb (mx_m input =? ins) then Throw LogicError
        else if period =? 0 then UB
        else if negb (mx_n input mod period =? 0) then Throw LogicError
        else Ok (Mx (mx_type input) outs (mx_n input) (repeat zero (outs * mx_n input)))
    end.

  (** transferInputSamples(), 160-173 *)
  Definition transfer_in (input : mx) (blk : nat) : res (list (list A)) :=
    map_res (fun ch => x <- read_strided (mx_data input) (blk * period * ins + ch) ins period ;; Ok (map to_internal x))
            (seq 0 ins).
  (** transferOutputSamples(), 175-188 *)
  Fixpoint transfer_out (data : list E) (blk ch : nat) (y : list (list A)) : res (list E) :=
    match y with
    | [] => Ok data
    | y0 :: y' =>
        data' <- write_strided data (blk * period * outs + ch) outs (map to_host y0) ;;
        transfer_out data' blk (S ch) y'
    end.

  (** process(), 95-131, with [run] in place of AudioSignalFlow::processFunction(): its status must
      be 0.  &mInputBufferPtrs[0] is undefined for an empty vector.  The result consists of the
      state of the flow and the content of the output matrix. *)
  Fixpoint mex_blocks (run : F -> list (list A) -> res (F * list (list A) * bool))
      (input : mx) (n blk : nat) (f : F) (data : list E) : F * list E * res unit :=
    match n with
    | O => (f, data, Ok tt)
    | S n' =>
        match transfer_in input blk with
        | Ok x =>
            if (ins =? 0) || (outs =? 0) then (f, data, UB)
            else
              match run f x with
              | Ok (f', y, status) =>
                  if status then (f', data, Throw RuntimeError)
                  else
                    match transfer_out data blk 0 y with
                    | Ok data' => mex_blocks run input n' (S blk) f' data'
                    | Throw e => (f', data, Throw e)
                    | UB => (f', data, UB)
                    end
              | Throw e => (f, data, Throw e)
              | UB => (f, data, UB)
              end
        | Throw e => (f, data, Throw e)
        | UB => (f, data, UB)
        end
    end.
  Definition mex_process (run : F -> list (list A) -> res (F * list (list A) * bool)) (input : mx) (f : F) (output : mx)
    : F * list E * res unit := mex_blocks run input (mx_n input / period) 0 f (mx_data output).

  (** *** SignalFlowWrapper, signal_flow_wrapper.cpp *)
  Inductive outcome := Returned | ThrowsString | Undefined.
  (** transferInputSamples(), 60-72: [bufs] are the blocks that the host provides *)
  Definition max_in (bufs : list (list E)) : res (list (list A)) :=
    map_res (fun ch => match nth_error bufs ch with
                       | None => UB
                       | Some b => x <- read_strided b 0 1 period ;; Ok (map to_internal x)
                       end) (seq 0 ins).
  (** transferOutputSamples(), 74-87, into the blocks of the host *)
  Fixpoint max_out (bufs : list (list E)) (y : list (list A)) : res (list (list E)) :=
    match y, bufs with
    | [], _ => Ok bufs
    | _ :: _, [] => UB
    | y0 :: y', b :: bufs' =>
        b' <- write_strided b 0 1 (map to_host y0) ;;
        r <- max_out bufs' y' ;; Ok (b' :: r)
    end.
  (** processBlock(), 39-58: the handler throws a std::string *)
  Definition process_block (f : F) (inBufs outBufs : list (list E)) : F * list (list E) * outcome :=
    match max_in inBufs with
    | Ok x =>
        match asf_process f x with
        | Ok (f', y, _) =>
            match max_out outBufs y with
            | Ok bufs => (f', bufs, Returned)
            | _ => (f', outBufs, Undefined)
            end
        | Throw _ => (f, outBufs, ThrowsString)
        | UB => (f, outBufs, Undefined)
        end
    | Throw _ => (f, outBufs, ThrowsString)
    | UB => (f, outBufs, Undefined)
    end.
  (** perform(), gain_matrix.cpp 190-215: error() prints a message and returns; the handler
      catches std::exception only.  The first component is the number of messages. *)
  Definition perform (f : F) (numins numouts sampleframes : nat) (inBufs outBufs : list (list E))
    : nat * (F * list (list E) * outcome) :=
    let b := fun c : bool => if c then 0 else 1 in
    (b (numins =? ins) + b (numouts =? outs) + b (sampleframes =? period), process_block f inBufs outBufs).
End Host.

(** *** Python: wrapProcess() *)
Section Python.
  Context {A F : Type}.
  Variables (exec : F -> list (list A) -> option (F * list (list A))) (ins outs period : nat).
  Local Open Scope Z_scope.
  Definition word : Z := 2 ^ 64.
  (** sizeof( SampleType ) *)
  Definition sample_size : Z := 4.
  (** a numpy array: address, shape and strides in bytes; [nd_float] tells whether its data type is
      that of SampleType *)
  Record ndarray := Nd { nd_float : bool; nd_base : Z; nd_shape : list nat; nd_strides : list Z }.
  (** the sample at an address *)
  Variable load : Z -> A.

  (** ssize_t divided by size_t: the operand is converted to the unsigned type *)
  Definition stride_elements (s : Z) : Z := (s mod word) / sample_size.
  (** pointer plus size_t *)
  Definition advance (p k : Z) : Z := (p + k * sample_size) mod word.
  (** vectorCopyStrided, reference/vector_functions_impl.hpp 337-350 *)
  Fixpoint copy_strided (p stride : Z) (n : nat) : list A :=
    match n with
    | O => []
    | S n' => load p :: copy_strided (advance p stride) stride n'
    end.
  (** the loop over the playback channels, audio_signal_flow.cpp 208-217 *)
  Fixpoint copy_out (ch : nat) (y : list (list A)) (out : list (option A)) (outChannelStride outSampleStride : nat)
    : res (list (option A)) :=
    match y with
    | [] => Ok out
    | y0 :: y' =>
        out' <- write_strided out (ch * outChannelStride)%nat outSampleStride (map Some y0) ;;
        copy_out (S ch) y' out' outChannelStride outSampleStride
    end.
  (** AudioSignalFlow::process() with strides, audio_signal_flow.cpp 182-218: the playback channels
      are written to consecutive rows of a new array *)
  Definition asf_process_strided (f : F) (base channelStride sampleStride : Z) (out : list (option A))
      (outChannelStride outSampleStride : nat) : res (F * list (option A)) :=
    let x := map (fun ch => copy_strided (advance base ((Z.of_nat ch * channelStride) mod word)) sampleStride period) (seq 0 ins) in
    match exec f x with
    | None => Throw RuntimeError
    | Some (f', y) =>
        out' <- copy_out O y out outChannelStride outSampleStride ;;
        Ok (f', out')
    end.
  (** wrapProcess(), 31-77: the new array has the strides period * 4, 4 and uninitialised content *)
  Definition wrap_process (f : F) (input : ndarray) : res (F * list (option A)) :=
    if negb (nd_float input) then Throw InvalidArgument
    else if negb (length (nd_shape input) =? 2)%nat then Throw InvalidArgument
    else if negb (nth 0 (nd_shape input) 0 =? ins)%nat then Throw InvalidArgument
    else if negb (nth 1 (nd_shape input) 0 =? period)%nat then Throw InvalidArgument
    else
      match asf_process_strided f (nd_base input)
              (stride_elements (nth 0 (nd_strides input) 0)) (stride_elements (nth 1 (nd_strides input) 0))
              (repeat None (outs * period)) period 1%nat with
      | Throw _ => Throw InvalidArgument
      | r => r
      end.
End Python.
