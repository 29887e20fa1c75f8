(** Model of the control inputs of the FIR filter matrix components.

    Sources (all below /repo/src): librcl/fir_filter_matrix.cpp 76-159,
    librcl/crossfading_fir_filter_matrix.cpp 78-106,
    librcl/interpolating_fir_filter_matrix.cpp 92-146,
    libvisr/impl/component_implementation.cpp 73-82.

    One component type with all four control inputs stands for the three classes:
    FirFilterMatrix has the filter, all-routings and single-routing inputs, the
    crossfading matrix the filter input, the interpolating matrix the filter and the
    interpolant input; an input a class does not have never receives a message.  The
    convolver behind it is abstract here; [fir_*] below instantiate it with the models
    of the Convolver files.  Ports are reduced to their queue (C01, C02) or to the
    current value and its changed flag (C03). *)
From Verif Require Import Base ConvolverModel.

Inductive statusKind := SInformation | SWarning | SError | SCritical.
(** component_implementation.cpp 73-82: errors are printed and thrown *)
Definition status (k : statusKind) : res unit :=
  match k with SError | SCritical => Throw RuntimeError | _ => Ok tt end.

(** catch( std::exception const & ) *)
Definition std_exception (e : exn) : bool := match e with CharPointer => false | _ => true end.

Section Control.
  (** convolver state, filter message, routing entry, interpolant message, audio *)
  Context {C F R I X Y : Type}.
  Variable setFilter : C -> F -> res C.
  Variable clearRoutings : C -> C.
  Variable addRouting : C -> R -> res unit * C.
  Variable setInterpolant : C -> I -> res C.
  Variable convolve : C -> X -> res (C * Y).

  Record matrix := Matrix {
    x_conv : C;
    x_filters : list F;            (* mSetFilterInput: queue *)
    x_all : list R * bool;         (* mAllRoutingsInput: value, changed flag *)
    x_single : list R;             (* mSingleRoutingInput: queue *)
    x_interp : list I }.           (* mInterpolantInput: queue *)

  (** fir_filter_matrix.cpp 80-94 (crossfading 82-100, interpolating 96-115, and 123-140
      for the interpolants): the message is popped inside the try block.  If status()
      returned, the loop would start over with the same message forever. *)
  Fixpoint filter_loop {M} (set : C -> M -> res C) (c : C) (q : list M)
    : C * list M * res unit :=
    match q with
    | [] => (c, [], Ok tt)
    | m :: q' =>
        match set c m with
        | Ok c' => filter_loop set c' q'
        | Throw e =>
            if std_exception e then
              match status SError with
              | Throw e' => (c, q, Throw e')
              | _ => (c, q, UB)
              end
            else (c, q, Throw e)
        | UB => (c, q, UB)
        end
    end.

  (** fir_filter_matrix.cpp 147-159 *)
  Fixpoint addRoutings (c : C) (l : list R) : res unit * C :=
    match l with
    | [] => (Ok tt, c)
    | r :: l' =>
        match addRouting c r with
        | (Ok _, c') => addRoutings c' l'
        | other => other
        end
    end.
  Definition setRoutings (c : C) (l : list R) : res unit * C := addRoutings (clearRoutings c) l.

  (** fir_filter_matrix.cpp 98-110 *)
  Definition all_routings (c : C) (p : list R * bool) : C * (list R * bool) * res unit :=
    if snd p then
      match setRoutings c (fst p) with
      | (Ok _, c') => (c', (fst p, false), Ok tt)
      | (Throw e, c') =>
          if std_exception e then
            match status SError with
            | Throw e' => (c', p, Throw e')
            | _ => (c', (fst p, false), Ok tt)
            end
          else (c', p, Throw e)
      | (UB, c') => (c', p, UB)
      end
    else (c, p, Ok tt).

  (** fir_filter_matrix.cpp 113-125: here the message is popped after the try block *)
  Fixpoint single_loop (c : C) (q : list R) : C * list R * res unit :=
    match q with
    | [] => (c, [], Ok tt)
    | m :: q' =>
        match addRouting c m with
        | (Ok _, c') => single_loop c' q'
        | (Throw e, c') =>
            if std_exception e then
              match status SError with
              | Throw e' => (c', q, Throw e')
              | _ => single_loop c' q'
              end
            else (c', q, Throw e)
        | (UB, c') => (c', q, UB)
        end
    end.

  (** process() *)
  Definition m_process (s : matrix) (x : X) : matrix * res Y :=
    let '(c1, fq, r1) := filter_loop setFilter (x_conv s) (x_filters s) in
    match r1 with
    | Throw e => (Matrix c1 fq (x_all s) (x_single s) (x_interp s), Throw e)
    | UB => (Matrix c1 fq (x_all s) (x_single s) (x_interp s), UB)
    | Ok _ =>
    let '(c2, al, r2) := all_routings c1 (x_all s) in
    match r2 with
    | Throw e => (Matrix c2 fq al (x_single s) (x_interp s), Throw e)
    | UB => (Matrix c2 fq al (x_single s) (x_interp s), UB)
    | Ok _ =>
    let '(c3, sq, r3) := single_loop c2 (x_single s) in
    match r3 with
    | Throw e => (Matrix c3 fq al sq (x_interp s), Throw e)
    | UB => (Matrix c3 fq al sq (x_interp s), UB)
    | Ok _ =>
    let '(c4, iq, r4) := filter_loop setInterpolant c3 (x_interp s) in
    match r4 with
    | Throw e => (Matrix c4 fq al sq iq, Throw e)
    | UB => (Matrix c4 fq al sq iq, UB)
    | Ok _ =>
        match convolve c4 x with
        | Ok (c5, y) => (Matrix c5 fq al sq iq, Ok y)
        | Throw e => (Matrix c4 fq al sq iq, Throw e)
        | UB => (Matrix c4 fq al sq iq, UB)
        end
    end end end end.

  Inductive mop :=
  | MFilter (f : F)            (* a message arrives *)
  | MAll (l : list R)          (* a new value is swapped in *)
  | MSingle (r : R)
  | MInterp (i : I)
  | MProcess (x : X).

  Inductive mout := MNone | MOut (r : res Y).

  Definition m_step (s : matrix) (o : mop) : matrix * mout :=
    match o with
    | MFilter f => (Matrix (x_conv s) (x_filters s ++ [f]) (x_all s) (x_single s) (x_interp s), MNone)
    | MAll l => (Matrix (x_conv s) (x_filters s) (l, true) (x_single s) (x_interp s), MNone)
    | MSingle r => (Matrix (x_conv s) (x_filters s) (x_all s) (x_single s ++ [r]) (x_interp s), MNone)
    | MInterp i => (Matrix (x_conv s) (x_filters s) (x_all s) (x_single s) (x_interp s ++ [i]), MNone)
    | MProcess x => let '(s', y) := m_process s x in (s', MOut y)
    end.
End Control.

(** ** FirFilterMatrix over the multichannel convolver *)
Section Fir.
  Context {T K : Type} (zero : T) (tmul : T -> T -> T) (fwd : list T -> list K).
  (** fir_filter_matrix.cpp 87, 171-174: the address of element 0 of the message's vector
      is taken, which is undefined for an empty vector *)
  Definition fir_setFilter (m : multi T K) (f : nat * list T) : res (multi T K) :=
    match snd f with
    | [] => UB
    | _ =>
        match set_ir zero tmul fwd (m_core m) (snd f) (fst f) with
        | Ok c => Ok (MkMulti c (m_outputs m) (m_max m) (m_table m))
        | Throw e => Throw e
        | UB => UB
        end
    end.
  (** 132-135 *)
  Definition fir_clearRoutings (m : multi T K) : multi T K :=
    MkMulti (m_core m) (m_outputs m) (m_max m) [].
  (** 142-145 *)
  Definition fir_addRouting (m : multi T K) (r : routing T) : res unit * multi T K :=
    let '(e, t) := set_routing (c_inputs (m_core m)) (m_outputs m)
                     (length (c_filters (m_core m))) (m_max m) (m_table m) r in
    (e, MkMulti (m_core m) (m_outputs m) (m_max m) t).
End Fir.
