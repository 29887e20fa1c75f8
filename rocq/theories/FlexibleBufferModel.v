(** Model of visr::rrl::FlexibleBufferWrapper (src/librrl/flexible_buffer_wrapper.cpp)
    on top of the CircularBuffer model.

    The wrapped AudioSignalFlow is an arbitrary function [flow] from a state and
    one period of capture samples per channel to the next state and one period of
    playback samples per channel.  Simplifications: capture and playback memory do
    not alias; the assertions (debug only) are not modelled; the two overloads
    contain the same loop and differ only in how samples are fetched ([rd]) and
    stored ([wr]), which is how they are modelled. *)
From Verif Require Import Base Memory CircularBufferModel.

Section Wrapper.
  Context {A : Type} (zero : A) {S : Type}.
  Context (P ncap nplay : nat).
  Context (flow : S -> list (list A) -> S * list (list A)).

  Record fbw := MkFbw {
    f_in : cb A;           (* mInputBuffer *)
    f_out : cb A;          (* mOutputBuffer *)
    f_inlvl : nat;         (* mInputBufferLevel *)
    f_outlvl : nat;        (* mOutputBufferLevel *)
    f_flow : S             (* state of mFlow *)
  }.

  Local Open Scope res_scope.

  (** cpp 19-31 constructor *)
  Definition fb_new (s0 : S) : res fbw :=
    let inb := cb_new zero ncap (2 * P) 0 in
    let outb := cb_new zero nplay (2 * P) 0 in
    outb' <- cb_write outb (repeat (repeat zero P) nplay) nplay P ;;
    Ok (MkFbw inb outb' 0 P s0).

  (** Reading [n] samples at [delay] from every channel of a buffer through the
      pointer of channel 0 and the stride. *)
  Definition read_channels (b : cb A) (channels delay n : nat) : res (list (list A)) :=
    map_res (fun ch => cb_read b ch delay n) (seq 0 channels).

  (** Body of the while loop (cpp 65-107 and 126-170) without the transfers from and
      to the caller's memory: [data] are the fetched capture samples, the result is
      what is copied to the playback memory. *)
  Definition fb_chunk (w : fbw) (data : list (list A)) (chunk : nat)
    : res (fbw * list (list A)) :=
    in1 <- cb_place (f_in w) data chunk ;;
    in2 <- cb_commit in1 chunk ;;
    let lvl := f_inlvl w + chunk in
    w1 <- (if lvl =? P then
             rows <- read_channels in2 ncap P P ;;
             let '(s', o) := flow (f_flow w) rows in
             out1 <- cb_place (f_out w) o P ;;
             out2 <- cb_commit out1 P ;;
             Ok (MkFbw in2 out2 (lvl - P) (f_outlvl w + P) s')
           else Ok (MkFbw in2 (f_out w) lvl (f_outlvl w) (f_flow w))) ;;
    rows <- read_channels (f_out w1) nplay (f_outlvl w1) chunk ;;
    Ok (MkFbw (f_in w1) (f_out w1) (f_inlvl w1) (f_outlvl w1 - chunk) (f_flow w1), rows).

  (** The while loop.  [fuel] bounds the number of iterations; exhausting it is
      reported as [UB], which the theorems exclude. *)
  Section Loop.
    Context {M : Type}.
    Context (rd : nat -> nat -> res (list (list A))).         (* processed, chunk *)
    Context (wr : M -> nat -> list (list A) -> res M).        (* memory, processed, rows *)

    Fixpoint fb_loop (fuel processed remaining : nat) (w : fbw) (m : M) : res (fbw * M) :=
      if remaining =? 0 then Ok (w, m)
      else match fuel with
      | O => UB
      | Datatypes.S fuel' =>
          let chunk := Nat.min remaining (P - f_inlvl w) in
          data <- rd processed chunk ;;
          wo <- fb_chunk w data chunk ;;
          m' <- wr m processed (snd wo) ;;
          fb_loop fuel' (processed + chunk) (remaining - chunk) (fst wo) m'
      end.
  End Loop.

  (** Pointer-array overload, cpp 55-109 *)
  Definition rd_ptr (capture : list (list A)) (processed chunk : nat) : res (list (list A)) :=
    map_res (fun ch => match nth_error capture ch with
                       | Some arr => mem_read arr processed chunk
                       | None => UB
                       end) (seq 0 ncap).

  Definition wr_ptr (play : list (list A)) (processed : nat) (rows : list (list A))
    : res (list (list A)) :=
    if length play =? length rows
    then map2_res (fun arr row => mem_write arr processed row) play rows
    else UB.

  Definition fb_process (w : fbw) (capture play : list (list A)) (n : nat)
    : res (fbw * list (list A)) :=
    fb_loop (rd_ptr capture) wr_ptr n 0 n w play.

  (** Strided overload, cpp 111-172.  Flat memories; vectorCopyStrided copies
      element by element. *)
  Definition rd_strided (capture : list A) (cs ss processed chunk : nat)
    : res (list (list A)) :=
    map_res (fun ch =>
      map_res (fun i => match nth_error capture (processed * ss + ch * cs + i * ss) with
                        | Some x => Ok x
                        | None => UB
                        end) (seq 0 chunk)) (seq 0 ncap).

  Fixpoint store_strided (mem : list A) (addr stride : nat) (d : list A) : res (list A) :=
    match d with
    | [] => Ok mem
    | x :: r => mem' <- mem_write mem addr [x] ;; store_strided mem' (addr + stride) stride r
    end.

  (** cpp 161-167: outputWritePtr = playbackSamples + processedFrames (sic: not
      multiplied by the sample stride) *)
  Fixpoint wr_rows (mem : list A) (addr cs ss : nat) (rows : list (list A)) : res (list A) :=
    match rows with
    | [] => Ok mem
    | row :: r => mem' <- store_strided mem addr ss row ;; wr_rows mem' (addr + cs) cs ss r
    end.

  Definition wr_strided (cs ss : nat) (mem : list A) (processed : nat) (rows : list (list A))
    : res (list A) := wr_rows mem processed cs ss rows.

  Definition fb_process_strided (w : fbw) (capture : list A) (ccs css : nat)
             (play : list A) (pcs pss n : nat) : res (fbw * list A) :=
    fb_loop (rd_strided capture ccs css) (wr_strided pcs pss) n 0 n w play.
End Wrapper.
