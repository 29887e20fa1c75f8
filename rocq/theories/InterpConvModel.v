(** Model of the interpolating convolver:
    InterpolationParameter (src/librbbl/interpolation_parameter.{hpp,cpp}),
    InterpolatingConvolverUniform (src/librbbl/interpolating_convolver_uniform.{hpp,cpp}),
    InterpolatingFirFilterMatrix (src/librcl/interpolating_fir_filter_matrix.cpp).

    Built on the crossfading convolver of [ConvolverModel].  Simplifications as there; in
    addition: the float weight of an interpolant is a value of the sample type [T]
    (weights of type float in a convolver of type double are exactly representable);
    scaling the real and the imaginary part of a spectral value by a real number is the
    multiplication with the injection of that number; the scratch member mTempFilter is a
    local value; std::size_t is unbounded, so cInvalidIndex is not a value here (an
    invalid index behaves like any other index beyond the bank). *)
From Verif Require Import Base Memory CircularBufferModel ConvolverModel.
Local Open Scope res_scope.

(** ** InterpolationParameter, interpolation_parameter.hpp 24-81 *)
Section Param.
  Context {T : Type} (zero : T).
  Record iparam := MkParam { p_id : nat; p_indices : list nat; p_weights : list T }.
  (** cpp 23-28; the initial index is cInvalidIndex, an argument here *)
  Definition param_blank (invalid id n : nat) : iparam := MkParam id (repeat invalid n) (repeat zero n).
  (** cpp 30-54 *)
  Definition param_new (id : nat) (indices : list nat) (weights : list T) : res iparam :=
    if negb (length indices =? length weights) then Throw InvalidArgument
    else Ok (MkParam id indices weights).
  (** cpp 61-64, 93-96, 98-105 (107-114), 116-119, 121-128 (130-137): the parameter after
      the call is unchanged if it throws *)
  Definition param_set_id (p : iparam) (id : nat) : iparam := MkParam id (p_indices p) (p_weights p).
  Definition param_set_index (p : iparam) (i x : nat) : res iparam :=
    if i <? length (p_indices p) then Ok (MkParam (p_id p) (set_nth (p_indices p) i x) (p_weights p))
    else Throw OutOfRange.
  Definition param_set_indices (p : iparam) (l : list nat) : res iparam :=
    if negb (length l =? length (p_weights p)) then Throw InvalidArgument
    else Ok (MkParam (p_id p) l (p_weights p)).
  Definition param_set_weight (p : iparam) (i : nat) (x : T) : res iparam :=
    if i <? length (p_weights p) then Ok (MkParam (p_id p) (p_indices p) (set_nth (p_weights p) i x))
    else Throw OutOfRange.
  Definition param_set_weights (p : iparam) (l : list T) : res iparam :=
    if negb (length l =? length (p_weights p)) then Throw InvalidArgument
    else Ok (MkParam (p_id p) (p_indices p) l).
  (** cpp 73-76, 88-91: std::vector::at *)
  Definition param_index (p : iparam) (i : nat) : res nat :=
    match nth_error (p_indices p) i with Some x => Ok x | None => Throw OutOfRange end.
  Definition param_weight (p : iparam) (i : nat) : res T :=
    match nth_error (p_weights p) i with Some x => Ok x | None => Throw OutOfRange end.
  (** InterpolationParameterSet, hpp 80-92: std::set ordered by the id, which does not
      replace an equivalent element *)
  Fixpoint pset_insert (p : iparam) (l : list iparam) : list iparam :=
    match l with
    | [] => [p]
    | q :: r => if p_id p <? p_id q then p :: l
                else if p_id q <? p_id p then q :: pset_insert p r
                else l
    end.
  Definition pset_of (l : list iparam) : list iparam := fold_left (fun s p => pset_insert p s) l [].
End Param.
Arguments iparam T : clear implicits.

Section Interp.
  Context {T K : Type} (zero one : T) (tadd tmul : T -> T -> T)
          (kzero : K) (kadd kmul : K -> K -> K) (inj : T -> K)
          (fwd : list T -> list K) (inv : list K -> list T) (dsize : nat -> nat).
  Local Notation spectrum := (list (list K)).
  Local Notation iparam := (iparam T).

  (** interpolating_convolver_uniform.hpp, data members *)
  Record interp := MkInterp {
    i_x : cross T K;               (* mConvolver *)
    i_bank : list spectrum;        (* mFilters *)
    i_num : nat }.                 (* mNumberOfInterpolants *)
  Definition with_x (s : interp) (x : cross T K) : interp := MkInterp x (i_bank s) (i_num s).
  Definition with_bank (s : interp) (b : list spectrum) : interp := MkInterp (i_x s) b (i_num s).
  Definition with_x_core (x : cross T K) (c : core T K) : cross T K :=
    MkCross c (x_outputs x) (x_max x) (x_table x) (x_filters x) (x_blocks x)
      (x_current x) (x_ramp x) (x_up x) (x_down x).
  Definition with_x_table (x : cross T K) (t : list (routing T)) : cross T K :=
    MkCross (x_core x) (x_outputs x) (x_max x) t (x_filters x) (x_blocks x)
      (x_current x) (x_ramp x) (x_up x) (x_down x).

  (** *** The filter bank *)
  (** a zeroed row of mFilters *)
  Definition blank (c : core T K) : spectrum := repeat (zero_block kzero dsize c) (c_parts c).
  (** initFilters, cpp 181-216: the bank after the call *)
  Fixpoint transform_rows (c : core T K) (rows : list (list T)) : res (list spectrum) :=
    match rows with
    | [] => Ok []
    | ir :: rest =>
        h <- transform_ir zero tmul fwd c ir ;;
        hs <- transform_rows c rest ;;
        Ok (h :: hs)
    end.
  Definition interp_init_filters (s : interp) (rows : list (list T)) (cols : nat) : res interp :=
    let c := x_core (i_x s) in
    if length (i_bank s) <? length rows then Throw InvalidArgument
    else if c_maxlen c <? cols then Throw InvalidArgument
    else
      hs <- transform_rows c rows ;;
      Ok (with_bank s (hs ++ repeat (blank c) (length (i_bank s) - length rows))).
  (** setImpulseResponse, cpp 218-243 *)
  Definition interp_set_ir (s : interp) (ir : list T) (idx : nat) : res interp :=
    let c := x_core (i_x s) in
    if length (i_bank s) <=? idx then Throw InvalidArgument
    else if c_maxlen c <? length ir then Throw InvalidArgument
    else h <- transform_ir zero tmul fwd c ir ;; Ok (with_bank s (set_nth (i_bank s) idx h)).
  (** clearInterpolants, cpp 337-341: CrossfadingConvolverUniform::clearFilters,
      crossfading 266-270 *)
  Definition interp_clear_interpolants (s : interp) : interp :=
    with_x s (with_x_core (i_x s) (clear_filters kzero dsize (x_core (i_x s)))).
  (** clearFilters, cpp 173-179 *)
  Definition interp_clear_filters (s : interp) : interp :=
    interp_clear_interpolants
      (with_bank s (repeat (blank (x_core (i_x s))) (length (i_bank s)))).

  (** *** setInterpolant, cpp 252-325 *)
  Definition scaled (w : T) (h : spectrum) : spectrum := map (map (kmul (inj w))) h.
  Definition add_scaled (w : T) (h acc : spectrum) : spectrum :=
    map2 (map2 (fun a x => kadd a (kmul (inj w) x))) acc h.
  (** 305-321 *)
  Fixpoint mix_rest (bank : list spectrum) (p : iparam) (todo i : nat) (acc : spectrum) : res spectrum :=
    match todo with
    | 0 => Ok acc
    | S todo' =>
        w <- param_weight p i ;;
        x <- param_index p i ;;
        h <- get bank x ;;
        mix_rest bank p todo' (S i) (add_scaled w h acc)
    end.
  Definition mixed (bank : list spectrum) (p : iparam) (n : nat) : res spectrum :=
    w <- param_weight p 0 ;;
    x <- param_index p 0 ;;
    h <- get bank x ;;
    mix_rest bank p (n - 1) 1 (scaled w h).
  Definition interp_set_interpolant (s : interp) (p : iparam) (start : bool) : res interp :=
    (* maxNumberOfRoutingPoints() is that of the crossfading convolver, hpp 98-101 *)
    if x_max (i_x s) <=? p_id p then Throw OutOfRange
    else if negb (length (p_weights p) =? i_num s) then Throw InvalidArgument
    else match p_indices p with
         | [] => UB                                (* *max_element of an empty range, 273-274 *)
         | i0 :: rest =>
             if length (i_bank s) <=? fold_left Nat.max rest i0 then Throw RuntimeError
             else
               h <- mixed (i_bank s) p (i_num s) ;;
               x' <- cross_set_filter (i_x s) h (p_id p) start ;;
               Ok (with_x s x')
         end.
  (** setInterpolants, cpp 327-335: the state after the call as well *)
  Fixpoint interp_set_interpolants (s : interp) (l : list iparam) (start : bool) : res unit * interp :=
    match l with
    | [] => (Ok tt, s)
    | p :: rest =>
        match interp_set_interpolant s p start with
        | Ok s' => interp_set_interpolants s' rest start
        | Throw e => (Throw e, s)
        | UB => (UB, s)
        end
    end.

  (** *** The routing table, cpp 136-171 *)
  Definition interp_set_routing (s : interp) (r : routing T) : res unit * interp :=
    let '(e, x') := cross_set_routing (i_x s) r in (e, with_x s x').
  Definition interp_remove_routing (s : interp) (i o : nat) : interp :=
    with_x s (with_x_table (i_x s) (snd (remove_routing zero (x_table (i_x s)) i o))).
  Definition interp_init_routings (s : interp) (l : list (routing T)) : res unit * interp :=
    let x := i_x s in
    let '(e, t) := init_routings (c_inputs (x_core x)) (x_outputs x) (length (c_filters (x_core x))) (x_max x) l in
    (e, with_x s (with_x_table x t)).

  (** process, cpp 60-70 *)
  Definition interp_process (s : interp) (input : list (list T)) : res (interp * list (list T)) :=
    r <- cross_process zero tadd tmul kadd kmul inj fwd inv (i_x s) input ;;
    Ok (with_x s (fst r), snd r).

  (** constructor, cpp 15-54.  The crossfading convolver is given maxFilterEntries for its
      parameter maxRoutingPoints and maxRoutingPoints for its parameter maxFilterEntries
      (cpp 36-37; crossfading_convolver_uniform.cpp 20-21).  [initial] is the range of the
      set of initial interpolants. *)
  Definition interp_new (up down : list T) (inputs outputs block maxlen max_routings max_filters num transition : nat)
             (alignment : nat) (scale : T) (routings : list (routing T)) (initial : list iparam)
             (rows : list (list T)) (cols : nat) : res interp :=
    let x0 := cross_new zero kzero dsize one up down inputs outputs block maxlen
                max_filters max_routings alignment scale transition in
    match cross_init_filters zero tmul kzero fwd dsize x0 [] 0 with
    | (Ok _, x1) =>
        let s0 := MkInterp x1 (repeat (blank (x_core x1)) max_filters) num in
        match interp_init_routings s0 routings with
        | (Ok _, s1) =>
            s2 <- interp_init_filters s1 rows cols ;;
            match interp_set_interpolants s2 initial false with
            | (Ok _, s3) => Ok s3
            | (Throw e, _) => Throw e
            | (UB, _) => UB
            end
        | (Throw e, _) => Throw e
        | (UB, _) => UB
        end
    | (Throw e, _) => Throw e
    | (UB, _) => UB
    end.

  (** ** InterpolatingFirFilterMatrix::process, interpolating_fir_filter_matrix.cpp 92-146 *)
  (** One of the two loops "while not empty: try { apply front; pop } catch { status }".  A
      message whose application throws stays at the front.  [None]: not finished after
      [fuel] rounds. *)
  Fixpoint drain {M} (apply : interp -> M -> res interp) (fuel : nat) (s : interp) (q : list M)
    : option (res interp) :=
    match fuel with
    | 0 => None
    | S fuel' =>
        match q with
        | [] => Some (Ok s)
        | m :: r =>
            match apply s m with
            | Ok s' => drain apply fuel' s' r
            | Throw _ => drain apply fuel' s q
            | UB => Some UB
            end
        end
    end.
  (** 98-106: index and samples; &value()[ 0 ] of an empty vector is undefined *)
  Definition apply_filter_message (s : interp) (m : nat * list T) : res interp :=
    match snd m with
    | [] => UB
    | _ => interp_set_ir s (snd m) (fst m)
    end.
  Definition apply_interpolant_message (s : interp) (p : iparam) : res interp :=
    interp_set_interpolant s p true.
  Definition node_process (fuel : nat) (s : interp) (filters : list (nat * list T)) (interpolants : list iparam)
             (input : list (list T)) : option (res (interp * list (list T))) :=
    match drain apply_filter_message fuel s filters with
    | Some (Ok s1) =>
        match drain apply_interpolant_message fuel s1 interpolants with
        | Some (Ok s2) => Some (interp_process s2 input)
        | Some (Throw e) => Some (Throw e)
        | Some UB => Some UB
        | None => None
        end
    | Some (Throw e) => Some (Throw e)
    | Some UB => Some UB
    | None => None
    end.
End Interp.
Arguments interp T K : clear implicits.
