(** Model of PanningGainMatrix (src/libpanningdsp/panning_gain_matrix.cpp/.hpp) and of the
    assignment of its parameter type (src/libpanningdsp/panning_matrix_parameter.cpp).

    Samples and gains are exact rationals.  Times are naturals, [None] is cTimeStampInfinity
    (types.hpp 31); wrap-around of times is modelled only for the addition of an infinite
    duration.  A failing assert() is undefined behaviour: without NDEBUG the program is aborted,
    with NDEBUG the block is processed with an underflown duration.  Not modelled: alignment,
    construction of the ports, the check of the port configuration. *)
From Verif Require Import Base Memory Num.
Local Open Scope res_scope.

Definition time := option nat.
Definition before (a : nat) (t : time) : bool := match t with None => true | Some b => a <? b end.
Definition is_at (a : nat) (t : time) : bool := match t with None => false | Some b => b =? a end.
(** std::min( t, b ) *)
Definition tmin (t : time) (b : nat) : nat := match t with None => b | Some a => Nat.min a b end.
(** addition of size_t: infinity is the largest value, hence it acts as -1 *)
Definition tadd (a : nat) (d : time) : time :=
  match d with
  | Some d => Some (a + d)%nat
  | None => match a with O => None | S a' => Some a' end
  end.

(** *** State of an object: panning_gain_matrix.hpp 212-240, mPendingTransitions[0] *)
Record row := Row {
  prevT : nat; targT : time; prevG : list Qc; targG : list Qc;
  pendT : time; pendD : time; pendG : list Qc }.

(** PanningMatrixParameter: the sizes of its parts may differ (98-106) *)
Record message := Message { m_stamps : list time; m_durs : list time; m_gains : list (list Qc) }.

Local Open Scope Qc_scope.
(** interpolationRatio, 122-129 *)
Definition ratio (cur prev : nat) (targ : time) : Qc :=
  match targ with
  | None => 0
  | Some t => nq (cur - prev)%nat / nq (t - prev)%nat
  end.
(** gainIncRatio, 131-137 *)
Definition inc_ratio (prev : nat) (targ : time) : Qc :=
  match targ with
  | None => 0
  | Some t => 1 / nq (t - prev)%nat
  end.

(** scaleSignal, 355-368, with vectorRampScaling (reference/vector_functions_impl.hpp 363-395)
    and the ramp 1, 2, ..., period (78-80).  Accesses outside of the buffers are undefined. *)
Definition scale_signal (period : nat) (inp out : list Qc) (start dur : nat) (gain inc : Qc) (acc : bool) : res (list Qc) :=
  if (length inp <? start + dur)%nat || (length out <? start + dur)%nat || (period <? dur)%nat then UB
  else Ok (firstn start out
           ++ map (fun k => (if acc then nth (start + k)%nat out 0 else 0)
                            + (gain + inc * (1 + nq k * 1)) * nth (start + k)%nat inp 0) (seq 0 dur)
           ++ skipn (start + dur)%nat out).

(** processAudioSingleSlope, 235-256 *)
Definition single_slope (period : nat) (r : row) (cur start dur : nat) (acc : bool)
           (inp : list Qc) (outs : list (list Qc)) : res (list (list Qc)) :=
  let startRatio := ratio cur (prevT r) (targT r) in
  let incRatio := inc_ratio (prevT r) (targT r) in
  map_res (fun x => let '(p, t, out) := x in
             scale_signal period inp out start dur (p + startRatio * (t - p)) (incRatio * (t - p)) acc)
          (combine (combine (prevG r) (targG r)) outs).

(** 196-230 *)
Definition advance (r : row) (cur : nat) : row :=
  if is_at cur (pendT r) then
    match pendD r with
    | Some O => Row cur None (pendG r) (pendG r) None None (pendG r)
    | d => Row cur (tadd cur d) (targG r) (pendG r) None None (pendG r)
    end
  else Row cur (pendT r) (targG r) (targG r) (pendT r) (pendD r) (pendG r).

(** the loop 182-231; [fuel] bounds the number of iterations, each of which processes at least
    one sample *)
Fixpoint row_loop (fuel period : nat) (r : row) (cur stop offset : nat) (acc : bool)
         (inp : list Qc) (outs : list (list Qc)) : res (row * list (list Qc)) :=
  if (cur <? stop)%nat then
    match fuel with
    | O => UB
    | S fuel' =>
        if negb (before (prevT r) (targT r)) || (cur <? prevT r)%nat
           || negb (before cur (targT r)) || negb (before cur (pendT r)) then UB
        else
          let dur := (tmin (targT r) stop - cur)%nat in
          outs' <- single_slope period r cur offset dur acc inp outs ;;
          let cur' := (cur + dur)%nat in
          row_loop fuel' period (if is_at cur' (targT r) then advance r cur' else r)
                   cur' stop (offset + dur)%nat acc inp outs'
    end
  else Ok (r, outs).

(** processAudio, 154-233; [outs] is what the output buffers contain before *)
Fixpoint rows_loop (period now : nat) (idx : nat) (rows : list row) (ins : list (list Qc))
         (outs : list (list Qc)) : res (list row * list (list Qc)) :=
  match rows with
  | [] => Ok ([], outs)
  | r :: rows' =>
      match nth_error ins idx with
      | None => UB
      | Some inp =>
          ' p <- row_loop period period r now (now + period)%nat 0 (negb (idx =? 0)%nat) inp outs ;;
          ' q <- rows_loop period now (S idx) rows' ins (snd p) ;;
          Ok (fst p :: fst q, snd q)
      end
  end.
Definition process_audio (period now : nat) (rows : list row) (ins outs : list (list Qc)) : res (list row * list (list Qc)) :=
  match rows with
  | [] => Ok ([], map (map (fun _ => 0)) outs)
  | _ => rows_loop period now 0 rows ins outs
  end.

(** updateTransition, 282-353; status( Error ) throws *)
Definition update_transition (r : row) (cur : nat) (start dur : time) (gains : list Qc) : res row :=
  match start with
  | None => Ok r
  | Some s =>
      if (s <? cur)%nat then Throw RuntimeError
      else if (length gains <? length (targG r))%nat then UB
      else
        let g := firstn (length (targG r)) gains in
        if (s =? cur)%nat then
          match dur with
          | Some O => Ok (Row cur None g g None None g)
          | _ =>
              let alpha := ratio cur cur (targT r) in
              Ok (Row cur (tadd cur dur)
                      (map (fun x => alpha * snd x + (1 - alpha) * fst x) (combine (prevG r) (targG r)))
                      g None None g)
          end
        else if before s (targT r) then
          let alpha := ratio cur (prevT r) (targT r) in
          Ok (Row (prevT r) (Some s) (prevG r)
                  (map (fun x => alpha * snd x + (1 - alpha) * fst x) (combine (prevG r) (targG r)))
                  (Some s) dur g)
        else Ok (Row (prevT r) (targT r) (prevG r) (targG r) (Some s) dur g)
  end.
(** updateTransitions, 268-280: the rows after the call, also if it throws *)
Fixpoint update_transitions (idx : nat) (rows : list row) (cur : nat) (m : message) : list row * res unit :=
  match rows with
  | [] => ([], Ok tt)
  | r :: rows' =>
      match nth_error (m_stamps m) idx, nth_error (m_durs m) idx, nth_error (m_gains m) idx with
      | Some s, Some d, Some g =>
          match update_transition r cur s d g with
          | Ok r' => let q := update_transitions (S idx) rows' cur m in (r' :: fst q, snd q)
          | Throw e => (rows, Throw e)
          | UB => (rows, UB)
          end
      | _, _, _ => (rows, UB)
      end
  end.

(** *** The component.  [s_port]: the parameter if changed() holds. *)
Record state := State { s_rows : list row; s_port : option message }.

(** constructors, 51-103 *)
Definition new_rows (n m : nat) (initial : list (list Qc)) : res (list row) :=
  if negb ((length initial =? n)%nat && forallb (fun g => length g =? m)%nat initial) then Throw InvalidArgument
  else Ok (map (fun g => Row 0 None g g None None (repeat 0 m)) initial).
Definition new (n m : nat) (initial : list (list Qc)) : res state :=
  rows <- new_rows n m initial ;; Ok (State rows None).
Definition new_transitions (n m : nat) (initial : list (list Qc)) (t : message) : res state :=
  rows <- new_rows n m initial ;;
  let q := update_transitions 0 rows 0 t in
  _ <- snd q ;;
  Ok (State (fst q) None).

(** process(), 107-111, with processParameters(), 258-266.  [arrived]: a parameter received since
    the last call.  [now] = time().sampleCount().  The state is also given after an exception. *)
Definition process (period : nat) (s : state) (now : nat) (arrived : option message)
           (ins outs : list (list Qc)) : state * res (list (list Qc)) :=
  let port := match arrived with Some m => Some m | None => s_port s end in
  let q := match port with
           | Some m => update_transitions 0 (s_rows s) now m
           | None => (s_rows s, Ok tt)
           end in
  match snd q with
  | Throw e => (State (fst q) port, Throw e)
  | UB => (State (fst q) port, UB)
  | Ok _ =>
      match process_audio period now (fst q) ins outs with
      | Ok p => (State (fst p) None, Ok (snd p))
      | Throw e => (State (fst q) None, Throw e)
      | UB => (State (fst q) None, UB)
      end
  end.

(** blocks of [period] samples one after the other: what arrives, inputs, contents of the output
    buffers *)
Definition block := (option message * list (list Qc) * list (list Qc))%type.
Fixpoint run_blocks (period : nat) (s : state) (now : nat) (l : list block) : state * list (res (list (list Qc))) :=
  match l with
  | [] => (s, [])
  | (m, ins, outs) :: l' =>
      let p := process period s now m ins outs in
      let q := run_blocks period (fst p) (now + period)%nat l' in
      (fst q, snd p :: snd q)
  end.

(** *** panning_matrix_parameter.cpp *)
(** a matrix with its dimensions *)
Record parameter := Param {
  p_rows : nat; p_columns : nat; p_gains : list (list Qc);
  p_stamps : list time; p_durs : list time }.
(** BasicMatrix::resize (basic_matrix.hpp 89-104) *)
Definition zero_gains (r c : nat) : list (list Qc) := repeat (repeat 0 c) r.
(** BasicMatrix::copy (basic_matrix.hpp 145-169) *)
Definition copy_gains (r c : nat) (src : parameter) : res (list (list Qc)) :=
  if negb ((r =? p_rows src)%nat && (c =? p_columns src)%nat) then Throw InvalidArgument
  else Ok (p_gains src).
(** operator=, 153-166: [dst] after the call and whether it returned; the copying of the times
    asserts that the sizes are equal (31-36) *)
Definition assign (dst src : parameter) : parameter * res unit :=
  let n := p_rows src in
  if negb ((length (p_stamps src) =? n)%nat && (length (p_durs src) =? n)%nat) then (dst, UB)
  else
    let rows := p_columns src in
    let columns := p_rows src in
    match copy_gains rows columns src with
    | Ok g => (Param rows columns g (p_stamps src) (p_durs src), Ok tt)
    | Throw e => (Param rows columns (zero_gains rows columns) (p_stamps src) (p_durs src), Throw e)
    | UB => (dst, UB)
    end.
