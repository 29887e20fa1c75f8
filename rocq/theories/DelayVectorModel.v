(** Model of rcl::DelayVector (src/librcl/delay_vector.cpp) and rcl::DelayMatrix
    (src/librcl/delay_matrix.cpp) on top of the delay line model.
    The parameter ports are represented by calls of setGain()/setDelay() before
    process() (delay_vector.cpp 152-161, delay_matrix.cpp 189-198).
    Exact rational arithmetic instead of floating point. *)
From Verif Require Import Base Num Memory DelayLineModel GainModel.
Local Open Scope Qc_scope.
Local Open Scope res_scope.

(** delay_vector.cpp 136-147 vectorCombinationInplace( ratio, op1, op2result ) *)
Definition combination_inplace (ratio : Qc) (op1 op2 : list Qc) : list Qc :=
  map (fun p => ratio * (snd p - fst p) + fst p) (combine op1 op2).

(** Interpolated parameter value, process() 186-189 *)
Definition blend (ratio cur next : Qc) : Qc := (1 - ratio) * cur + ratio * next.

(** A parameter (gains or delays) with its transition. *)
Record param := MkParam { p_cur : list Qc; p_next : list Qc; p_counter : nat }.

Definition counter_ratio (blocks counter : nat) : Qc := nq counter / nq blocks.

(** delay_vector.cpp 201-235 setDelay(), 237-271 setGain() (the ratio expressions
    differ, [gain_ratio] and [delay_ratio]) *)
Definition delay_ratio (blocks counter : nat) : Qc := nq counter / nq blocks.
Definition gain_ratio (blocks counter : nat) : Qc := 1 - nq (blocks - counter) / nq blocks.
Definition set_param (ratio : nat -> nat -> Qc) (blocks channels : nat) (p : param) (new : list Qc)
  : res param :=
  if negb (Nat.eqb (length new) channels) then Throw InvalidArgument
  else
    let cur := if Nat.ltb (p_counter p) blocks
               then combination_inplace (ratio blocks (p_counter p)) (p_next p) (p_cur p)
               else p_next p in
    Ok (MkParam cur new 0).

(** start and end value of channel [ch] in the next block (162-176, 183-189) *)
Definition param_start (blocks : nat) (p : param) (ch : nat) : res Qc :=
  match nth_error (p_cur p) ch, nth_error (p_next p) ch with
  | Some c, Some n => Ok (blend (counter_ratio blocks (p_counter p)) c n)
  | _, _ => UB
  end.
Definition param_end (blocks : nat) (p : param) (ch : nat) : res Qc :=
  match nth_error (p_cur p) ch, nth_error (p_next p) ch with
  | Some c, Some n => Ok (blend (counter_ratio blocks (Nat.min (p_counter p + 1) blocks)) c n)
  | _, _ => UB
  end.
(** 191-192 *)
Definition advance (blocks : nat) (p : param) : param :=
  MkParam (p_cur p) (p_next p) (Nat.min blocks (p_counter p + 1)).

Record dvec := MkDvec {
  dv_line : dline;         (* mDelayLine *)
  dv_channels : nat;
  dv_blocks : nat;         (* mInterpolationBlocks *)
  dv_gain : param;
  dv_delay : param
}.

(** delay_vector.cpp 50-115 setup(); [max], [order], [alignment], [pol] are passed on
    to the delay line *)
Definition dv_new (channels : nat) (fs : Qc) (block max order alignment : nat) (pol : policy)
           (steps : nat) (delays gains : list Qc) : res dvec :=
  if Nat.eqb block 0 then UB
  else if negb (Nat.eqb (steps mod block) 0) then Throw InvalidArgument
  else
    let blocks := (steps / block)%nat in
    if Nat.ltb blocks 1 then Throw InvalidArgument
    else
      let line := dl_new channels fs block max order alignment pol in
      g <- src_read gains channels ;;
      d <- src_read delays channels ;;
      Ok (MkDvec line channels blocks (MkParam g g 0) (MkParam d d 0)).

Definition dv_set_gain (v : dvec) (new : list Qc) : res dvec :=
  g <- set_param gain_ratio (dv_blocks v) (dv_channels v) (dv_gain v) new ;;
  Ok (MkDvec (dv_line v) (dv_channels v) (dv_blocks v) g (dv_delay v)).
Definition dv_set_delay (v : dvec) (new : list Qc) : res dvec :=
  d <- set_param delay_ratio (dv_blocks v) (dv_channels v) (dv_delay v) new ;;
  Ok (MkDvec (dv_line v) (dv_channels v) (dv_blocks v) (dv_gain v) d).

(** delay_vector.cpp 163-193 process() *)
Definition dv_process (v : dvec) (inputs : list (list Qc)) : res (dvec * list (list Qc)) :=
  line <- dl_write (dv_line v) inputs (dv_channels v) ;;
  out <- map_res (fun ch =>
    sd <- param_start (dv_blocks v) (dv_delay v) ch ;;
    ed <- param_end (dv_blocks v) (dv_delay v) ch ;;
    sg <- param_start (dv_blocks v) (dv_gain v) ch ;;
    eg <- param_end (dv_blocks v) (dv_gain v) ch ;;
    dl_interpolate line ch (dl_block line) sd ed sg eg) (seq 0 (dv_channels v)) ;;
  Ok (MkDvec line (dv_channels v) (dv_blocks v)
             (advance (dv_blocks v) (dv_gain v)) (advance (dv_blocks v) (dv_delay v)), out).

Inductive dv_op := DvGain (g : list Qc) | DvDelay (d : list Qc) | DvProcess (x : list (list Qc)).
Fixpoint dv_run (v : dvec) (ops : list dv_op) : res (dvec * list (list (list Qc))) :=
  match ops with
  | [] => Ok (v, [])
  | DvGain g :: r => v' <- dv_set_gain v g ;; dv_run v' r
  | DvDelay d :: r => v' <- dv_set_delay v d ;; dv_run v' r
  | DvProcess x :: r =>
      ' (v', o) <- dv_process v x ;;
      ' (v'', os) <- dv_run v' r ;;
      Ok (v'', o :: os)
  end.

(** ** DelayMatrix *)

Record mparam := MkMparam { mp_cur : matrix; mp_next : matrix; mp_counter : nat }.

(** delay_matrix.cpp 248-292 setDelay(), 294-338 setGain() *)
Definition set_mparam (ratio : nat -> nat -> Qc) (blocks outputs inputs : nat) (p : mparam)
           (new : matrix) : res mparam :=
  if negb (has_shape new outputs inputs) then Throw InvalidArgument
  else
    let cur := if Nat.ltb (mp_counter p) blocks
               then map (fun rows => combination_inplace (ratio blocks (mp_counter p))
                                                         (fst rows) (snd rows))
                        (combine (mp_next p) (mp_cur p))
               else mp_next p in
    Ok (MkMparam cur new 0).

Definition mentry (m : matrix) (o i : nat) : option Qc :=
  match nth_error m o with Some r => nth_error r i | None => None end.

(** delay_matrix.cpp 205-218 and 227-236 *)
Definition mparam_at (blocks : nat) (p : mparam) (counter o i : nat) : res Qc :=
  match mentry (mp_cur p) o i, mentry (mp_next p) o i with
  | Some c, Some n => Ok (blend (counter_ratio blocks counter) c n)
  | _, _ => UB
  end.
Definition madvance (blocks : nat) (p : mparam) : mparam :=
  MkMparam (mp_cur p) (mp_next p) (Nat.min blocks (mp_counter p + 1)).

Record dmat := MkDmat {
  dm_line : dline;
  dm_inputs : nat;
  dm_outputs : nat;
  dm_blocks : nat;
  dm_gain : mparam;
  dm_delay : mparam
}.

(** delay_matrix.cpp 113-168 setup(); BasicMatrix::copy throws if the shapes differ
    (src/libefl/basic_matrix.hpp) *)
Definition dm_new (inputs outputs : nat) (fs : Qc) (block max order alignment : nat) (pol : policy)
           (steps : nat) (delays gains : matrix) : res dmat :=
  if Nat.eqb block 0 then UB
  else if negb (Nat.eqb (steps mod block) 0) then Throw InvalidArgument
  else
    let blocks := (steps / block)%nat in
    if Nat.ltb blocks 1 then Throw InvalidArgument
    else if negb (has_shape gains outputs inputs && has_shape delays outputs inputs)
    then Throw InvalidArgument
    else Ok (MkDmat (dl_new inputs fs block max order alignment pol) inputs outputs blocks
                    (MkMparam gains gains 0) (MkMparam delays delays 0)).

Definition dm_set_gain (v : dmat) (new : matrix) : res dmat :=
  g <- set_mparam gain_ratio (dm_blocks v) (dm_outputs v) (dm_inputs v) (dm_gain v) new ;;
  Ok (MkDmat (dm_line v) (dm_inputs v) (dm_outputs v) (dm_blocks v) g (dm_delay v)).
Definition dm_set_delay (v : dmat) (new : matrix) : res dmat :=
  d <- set_mparam delay_ratio (dm_blocks v) (dm_outputs v) (dm_inputs v) (dm_delay v) new ;;
  Ok (MkDmat (dm_line v) (dm_inputs v) (dm_outputs v) (dm_blocks v) (dm_gain v) d).

Definition add_blocks (a b : list Qc) : list Qc := map (fun p => fst p + snd p) (combine a b).

(** delay_matrix.cpp 200-247 process() *)
Definition dm_process (v : dmat) (inputs : list (list Qc)) : res (dmat * list (list Qc)) :=
  line <- dl_write (dm_line v) inputs (dm_inputs v) ;;
  let b := dm_blocks v in
  let next c := Nat.min (c + 1) b in
  out <- map_res (fun o =>
    contributions <- map_res (fun i =>
      sd <- mparam_at b (dm_delay v) (mp_counter (dm_delay v)) o i ;;
      ed <- mparam_at b (dm_delay v) (next (mp_counter (dm_delay v))) o i ;;
      sg <- mparam_at b (dm_gain v) (mp_counter (dm_gain v)) o i ;;
      eg <- mparam_at b (dm_gain v) (next (mp_counter (dm_gain v))) o i ;;
      dl_interpolate line i (dl_block line) sd ed sg eg) (seq 0 (dm_inputs v)) ;;
    Ok (fold_left add_blocks contributions (repeat 0 (dl_block line)))) (seq 0 (dm_outputs v)) ;;
  Ok (MkDmat line (dm_inputs v) (dm_outputs v) b
             (madvance b (dm_gain v)) (madvance b (dm_delay v)), out).

Inductive dm_op := DmGain (g : matrix) | DmDelay (d : matrix) | DmProcess (x : list (list Qc)).
Fixpoint dm_run (v : dmat) (ops : list dm_op) : res (dmat * list (list (list Qc))) :=
  match ops with
  | [] => Ok (v, [])
  | DmGain g :: r => v' <- dm_set_gain v g ;; dm_run v' r
  | DmDelay d :: r => v' <- dm_set_delay v d ;; dm_run v' r
  | DmProcess x :: r =>
      ' (v', o) <- dm_process v x ;;
      ' (v'', os) <- dm_run v' r ;;
      Ok (v'', o :: os)
  end.
