(** Model of the recursive filters: src/libefl/reference/filter_functions_impl.hpp and
    src/librcl/biquad_iir_filter.cpp.

    The sample type is a parameter with its operations.  The coefficient and state rows
    of the two BasicMatrix members are kept as flat arrays addressed as in the code.
    Not modelled: the alignment argument (the port buffers satisfy it by construction of
    the signal pool), the padding of matrix rows. *)
From Verif Require Import Base Memory.
Local Open Scope res_scope.

Section Biquad.
  Context {T : Type} (zero : T) (add sub mul : T -> T -> T).

  (** biquad_coefficient.hpp 28-171; [data] is the array in the order b0 b1 b2 a1 a2 *)
  Record coefficient := MkCoeff { b0 : T; b1 : T; b2 : T; a1 : T; a2 : T }.
  Definition data (c : coefficient) : list T := [b0 c; b1 c; b2 c; a1 c; a2 c].
  Definition num_coeffs := 5.      (* biquad_coefficient.hpp 33 *)
  Definition coeff_stride := 5.    (* biquad_iir_filter.hpp 273-274 *)
  Definition state_stride := 2.    (* biquad_iir_filter.hpp 276 *)

  (** filter_functions_impl.hpp 35-46 *)
  Fixpoint biquad_loop (c0 c1 c2 c3 c4 v1 v2 : T) (input : list T) : list T * (T * T) :=
    match input with
    | [] => ([], (v1, v2))
    | x :: rest =>
        let y := add (mul c0 x) v1 in
        let v1' := sub (add v2 (mul c1 x)) (mul c3 y) in
        let v2' := sub (mul c2 x) (mul c4 y) in
        let '(out, s) := biquad_loop c0 c1 c2 c3 c4 v1' v2' rest in
        (y :: out, s)
    end.

  (** iirBiquadInternal (22-47) and iirBiquadInternalInplace (49-73): [states] and [coeffs]
      are arrays, the section's part starts at the given offsets *)
  Definition iir_biquad (input : list T) (states : list T) (soff : nat) (coeffs : list T) (coff : nat)
    : res (list T * list T) :=
    c <- mem_read coeffs coff 5 ;;
    s <- mem_read states soff 2 ;;
    match c, s with
    | [c0; c1; c2; c3; c4], [v1; v2] =>
        let '(out, (w1, w2)) := biquad_loop c0 c1 c2 c3 c4 v1 v2 input in
        states' <- mem_write states soff [w1; w2] ;;
        Ok (out, states')
    | _, _ => UB
    end.

  (** iirFilterBiquadsSingleChannel, 78-104; the loop over secIdx *)
  Fixpoint further_sections (todo secIdx : nat) (out states coeffs : list T) (sstride cstride : nat)
    : res (list T * list T) :=
    match todo with
    | 0 => Ok (out, states)
    | S todo' =>
        ' (out', states') <- iir_biquad out states (secIdx * sstride) coeffs (secIdx * cstride) ;;
        further_sections todo' (S secIdx) out' states' coeffs sstride cstride
    end.
  Definition iir_single_channel (input states coeffs : list T) (sections sstride cstride : nat)
    : res (list T * list T) :=
    if sections =? 0 then Ok (input, states)
    else
      ' (out, states') <- iir_biquad input states 0 coeffs 0 ;;
      further_sections (sections - 1) 1 out states' coeffs sstride cstride.

  (** BiquadIirFilter, biquad_iir_filter.hpp 253-276 *)
  Record filter := MkFilter {
    channels : nat;
    sections : nat;
    coeff_rows : list (list T);
    state_rows : list (list T) }.

  Definition row {A} (l : list A) (i : nat) : res A :=
    match nth_error l i with Some r => Ok r | None => UB end.
  Fixpoint replace_row {A} (l : list A) (i : nat) (x : A) : list A :=
    match l, i with
    | [], _ => []
    | _ :: r, 0 => x :: r
    | y :: r, S i' => y :: replace_row r i' x
    end.

  (** ctor 21-49; BasicMatrix zero-fills (basic_matrix.hpp 43-50) *)
  Definition construct (nch nsec : nat) : filter :=
    MkFilter nch nsec
      (repeat (repeat zero (nsec * coeff_stride)) nch) (repeat (repeat zero (nsec * state_stride)) nch).

  (** setCoefficientsInternal 137-148 *)
  Definition set_coefficients_internal (f : filter) (ch bq : nat) (c : coefficient) : res filter :=
    r <- row (coeff_rows f) ch ;;
    r' <- mem_write r (bq * coeff_stride) (data c) ;;
    Ok (MkFilter (channels f) (sections f) (replace_row (coeff_rows f) ch r') (state_rows f)).
  (** setCoefficients 118-135 *)
  Definition set_coefficients (f : filter) (ch bq : nat) (c : coefficient) : res filter :=
    if channels f <=? ch then Throw InvalidArgument
    else if sections f <=? bq then Throw InvalidArgument
    else set_coefficients_internal f ch bq c.

  (** setChannelCoefficientsInternal 168-177; coeffs[ biquadIdx ] is unchecked *)
  Fixpoint set_channel_loop (todo bq : nat) (f : filter) (ch : nat) (cs : list coefficient) : res filter :=
    match todo with
    | 0 => Ok f
    | S todo' =>
        c <- row cs bq ;;
        f' <- set_coefficients_internal f ch bq c ;;
        set_channel_loop todo' (S bq) f' ch cs
    end.
  Definition set_channel_internal (f : filter) (ch : nat) (cs : list coefficient) : res filter :=
    set_channel_loop (sections f) 0 f ch cs.
  (** setChannelCoefficients 150-166 *)
  Definition set_channel_coefficients (f : filter) (ch : nat) (cs : list coefficient) : res filter :=
    if channels f <=? ch then Throw InvalidArgument
    else if negb (length cs =? sections f) then Throw InvalidArgument
    else set_channel_internal f ch cs.

  (** BiquadCoefficientMatrix: a list of rows; numberOfSections() looks at the first row
      only (biquad_coefficient.hpp 347-348) *)
  Definition coeff_matrix := list (list coefficient).
  Definition number_of_sections (m : coeff_matrix) : nat :=
    match m with [] => 0 | r :: _ => length r end.
  (** setCoefficientMatrixInternal 199-207 *)
  Fixpoint set_matrix_loop (todo ch : nat) (f : filter) (m : coeff_matrix) : res filter :=
    match todo with
    | 0 => Ok f
    | S todo' =>
        r <- row m ch ;;
        f' <- set_channel_internal f ch r ;;
        set_matrix_loop todo' (S ch) f' m
    end.
  Definition set_matrix_internal (f : filter) (m : coeff_matrix) : res filter :=
    set_matrix_loop (channels f) 0 f m.
  (** setCoefficientMatrix 179-197 *)
  Definition set_coefficient_matrix (f : filter) (m : coeff_matrix) : res filter :=
    if negb (length m =? channels f) then Throw InvalidArgument
    else if (0 <? channels f) && negb (number_of_sections m =? sections f) then Throw InvalidArgument
    else set_matrix_internal f m.

  (** ctors 51-71, 73-95, 97-116 *)
  Definition construct_uniform (nch nsec : nat) (c : coefficient) : res filter :=
    fold_left (fun r ch => f <- r ;;
      fold_left (fun r bq => f <- r ;; set_coefficients_internal f ch bq c) (seq 0 nsec) (Ok f))
      (seq 0 nch) (Ok (construct nch nsec)).
  Definition construct_list (nch nsec : nat) (cs : list coefficient) : res filter :=
    if negb (length cs =? nsec) then Throw InvalidArgument
    else fold_left (fun r ch => f <- r ;; set_channel_internal f ch cs) (seq 0 nch) (Ok (construct nch nsec)).
  Definition construct_matrix (nch nsec : nat) (m : coeff_matrix) : res filter :=
    if negb (length m =? nch) || negb (number_of_sections m =? nsec) then Throw InvalidArgument
    else set_matrix_internal (construct nch nsec) m.

  (** process 209-230: [eq] is the coefficient matrix if the control input has changed *)
  Fixpoint process_channels (todo ch : nat) (f : filter) (input : list (list T))
    : res (filter * list (list T)) :=
    match todo with
    | 0 => Ok (f, [])
    | S todo' =>
        x <- row input ch ;;
        st <- row (state_rows f) ch ;;
        co <- row (coeff_rows f) ch ;;
        ' (y, st') <- iir_single_channel x st co (sections f) state_stride coeff_stride ;;
        let f' := MkFilter (channels f) (sections f) (coeff_rows f) (replace_row (state_rows f) ch st') in
        ' (f'', ys) <- process_channels todo' (S ch) f' input ;;
        Ok (f'', y :: ys)
    end.
  Definition process (f : filter) (eq : option coeff_matrix) (input : list (list T))
    : res (filter * list (list T)) :=
    f' <- match eq with Some m => set_coefficient_matrix f m | None => Ok f end ;;
    process_channels (channels f') 0 f' input.
End Biquad.
Arguments coefficient T : clear implicits.
Arguments filter T : clear implicits.
Arguments coeff_matrix T : clear implicits.
