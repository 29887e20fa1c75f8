(** Model of reverbobject::ReverbParameterCalculator
    (src/libreverbobject/reverb_parameter_calculator.{hpp,cpp}) and of the late reverberation
    parameters of objectmodel::PointSourceWithReverb
    (src/libobjectmodel/point_source_with_reverb.{hpp,cpp}).
    Numbers are exact rationals. Biquad sections and positions are arbitrary types; the VBAP
    calculator is an arbitrary function from positions to lists of gains. The six outputs
    using the double buffering protocol are swapped together, and therefore kept in one
    record per side. *)
From Verif Require Import Base.
From Coq Require Import QArith Qcanon.
From Coq Require Export ZArith.
From Verif Require Import OrdSet SignalRoutingModel AllocatorModel.
Local Open Scope res_scope.
Local Open Scope nat_scope.

(** cNumberOfSubBands, point_source_with_reverb.hpp:37 *)
Definition bands : nat := 9.
(** cNumDiscreteReflectionBiquads, point_source_with_reverb.hpp:44 *)
Definition sections : nat := 10.

Notation q0 := (Q2Qc 0).
Notation q1 := (Q2Qc 1).

(** PointSourceWithReverb::LateReverb; the coefficients are arrays of [bands] elements *)
Record late := MkLate { l_onset : Qc; l_levels : list Qc; l_decays : list Qc; l_attacks : list Qc }.

(** initializeCoeffVector(), point_source_with_reverb.cpp:123-141: an empty list first
    fills the array and then reaches the last branch, which throws. *)
Definition initialize_coeffs (init : list Qc) : res (list Qc) :=
  match init with
  | [v] => Ok (repeat v bands)
  | _ => if length init =? bands then Ok init else Throw InvalidArgument
  end.
(** LateReverb( onset, levels, decays, attacks ), point_source_with_reverb.cpp:145-154 *)
Definition late_new (onset : Qc) (levels decays attacks : list Qc) : res late :=
  lv <- initialize_coeffs levels ;;
  dc <- initialize_coeffs decays ;;
  at' <- initialize_coeffs attacks ;;
  Ok (MkLate onset lv dc at').
(** LateReverb(), point_source_with_reverb.cpp:109-115 *)
Definition late_default : late := MkLate q0 (repeat q0 bands) (repeat q0 bands) (repeat q0 bands).
(** cDefaultLateReverbParameter, cpp:58-59 *)
Definition default_parameter : res late := late_new q0 [q0] [q0] [q0].
(** The value of mPreviousLateReverbs after setup(), cpp:117-119 *)
Definition unsent : late :=
  let d := the late_default default_parameter in MkLate (- q1)%Qc (l_levels d) (l_decays d) (l_attacks d).

Definition qabs (x : Qc) : Qc := if Qclt_le_dec x q0 then (- x)%Qc else x.
Definition qmax (x y : Qc) : Qc := if Qclt_le_dec x y then y else x.
Definition qleb (x y : Qc) : bool := if Qclt_le_dec y x then false else true.

(** maxDiff(), cpp:34-41 *)
Fixpoint max_diff_from (acc : Qc) (l r : list Qc) : Qc :=
  match l, r with
  | x :: l', y :: r' => max_diff_from (qmax acc (qabs (x - y))) l' r'
  | _, _ => acc
  end.
Definition max_diff (l r : list Qc) : Qc := max_diff_from q0 l r.
(** cLateReverbParameterComparisonLimit, cpp:73 *)
Definition limit : Qc := Q2Qc (1 # 8388608).
(** equal(), cpp:46-54 *)
Definition late_equal (l r : late) : bool :=
  qleb (qabs (l_onset l - l_onset r)) limit
  && qleb (max_diff (l_levels l) (l_levels r)) limit
  && qleb (max_diff (l_decays l) (l_decays r)) limit
  && qleb (max_diff (l_attacks l) (l_attacks r)) limit.

Section Calculator.
  Context {B P : Type} (flat : B) (vbap : P -> list Qc) (invalid : nat).

  (** DiscreteReflection, point_source_with_reverb.hpp:55-153 *)
  Record reflection := MkReflection { r_position : P; r_delay : Qc; r_level : Qc; r_filters : list B }.
  (** What the calculator looks at: sources with reverberation have channel indices,
      reflections and late parameters; all other objects are ignored. *)
  Inductive source :=
  | Reverb (channels : list nat) (reflections : list reflection) (l : late)
  | Other.
  (** ObjectVector: identifiers are unique *)
  Definition scene := list (Z * source).
  (** ObjectVector::at(), object_vector.cpp:41-49 *)
  Definition object_at (sc : scene) (id : Z) : res source :=
    match find (fun o => Z.eqb (fst o) id) sc with
    | Some o => Ok (snd o)
    | None => Throw InvalidArgument
    end.

  (** setup(), cpp:91-134 *)
  Record config := MkConfig {
    c_objects : nat;        (* mMaxNumberOfObjects *)
    c_reflections : nat;    (* mNumberOfDiscreteReflectionsPerSource *)
    c_speakers : nat;       (* mNumberOfPanningLoudspeakers *)
    c_stride : nat          (* discretePanningMatrix.stride() *)
  }.
  Record outs := MkOuts {
    o_routing : routings;
    o_gains : list Qc;
    o_delays : list Qc;
    o_eqs : list (list B);
    o_late_gains : list Qc;
    o_late_delays : list Qc
  }.
  Record state := MkState {
    s_alloc : alloc;                  (* mChannelAllocator *)
    s_previous : list late;           (* mPreviousLateReverbs *)
    s_back : outs;                    (* written by the calculator *)
    s_front : outs;                   (* seen by the receivers *)
    s_panning : list Qc;              (* elements of the panning matrix, shared with the receiver *)
    s_sent : list (nat * late)        (* all messages enqueued so far, oldest first *)
  }.
  Definition with_back (s : state) o :=
    MkState (s_alloc s) (s_previous s) o (s_front s) (s_panning s) (s_sent s).
  Definition with_alloc (s : state) a :=
    MkState a (s_previous s) (s_back s) (s_front s) (s_panning s) (s_sent s).
  Definition with_panning (s : state) p :=
    MkState (s_alloc s) (s_previous s) (s_back s) (s_front s) p (s_sent s).

  Definition outs_new (c : config) : outs :=
    MkOuts [] (repeat q0 (c_reflections c * c_objects c)) (repeat q0 (c_reflections c * c_objects c))
      (repeat (repeat flat sections) (c_reflections c * c_objects c))
      (repeat q0 (c_objects c)) (repeat q0 (c_objects c)).
  (** setup() with the given number of biquad sections, cpp:91-134 *)
  Definition setup (c : config) (biquads : nat) : res state :=
    if negb (biquads =? sections) then Throw InvalidArgument
    else Ok (MkState (alloc_new (c_objects c)) (repeat unsent (c_objects c)) (outs_new c) (outs_new c)
               (repeat q0 (c_speakers c * c_stride c)) []).

  (** ** Statements with exceptions: what was written before an exception stays *)
  Definition act := state -> state * res unit.
  Definition skip_act : act := fun s => (s, Ok tt).
  Definition raise (e : exn) : act := fun s => (s, Throw e).
  Definition andthen (a b : act) : act := fun s =>
    let (s', r) := a s in match r with Ok _ => b s' | _ => (s', r) end.
  Fixpoint each {X} (f : X -> act) (l : list X) : act :=
    match l with
    | [] => skip_act
    | x :: r => andthen (f x) (each f r)
    end.

  (** writing an element: outside the array undefined *)
  Definition poke {X} (l : list X) (i : nat) (x : X) : list X := firstn i l ++ x :: skipn (S i) l.
  Definition set_gain (i : nat) (v : Qc) : act := fun s =>
    let o := s_back s in
    if i <? length (o_gains o)
    then (with_back s (MkOuts (o_routing o) (poke (o_gains o) i v) (o_delays o) (o_eqs o) (o_late_gains o) (o_late_delays o)), Ok tt)
    else (s, UB).
  Definition set_delay (i : nat) (v : Qc) : act := fun s =>
    let o := s_back s in
    if i <? length (o_delays o)
    then (with_back s (MkOuts (o_routing o) (o_gains o) (poke (o_delays o) i v) (o_eqs o) (o_late_gains o) (o_late_delays o)), Ok tt)
    else (s, UB).
  Definition set_eq (i j : nat) (b : B) : act := fun s =>
    let o := s_back s in
    match nth_error (o_eqs o) i with
    | Some row => if j <? length row
                  then (with_back s (MkOuts (o_routing o) (o_gains o) (o_delays o) (poke (o_eqs o) i (poke row j b)) (o_late_gains o) (o_late_delays o)), Ok tt)
                  else (s, UB)
    | None => (s, UB)
    end.
  Definition set_late_gain (i : nat) (v : Qc) : act := fun s =>
    let o := s_back s in
    if i <? length (o_late_gains o)
    then (with_back s (MkOuts (o_routing o) (o_gains o) (o_delays o) (o_eqs o) (poke (o_late_gains o) i v) (o_late_delays o)), Ok tt)
    else (s, UB).
  Definition set_late_delay (i : nat) (v : Qc) : act := fun s =>
    let o := s_back s in
    if i <? length (o_late_delays o)
    then (with_back s (MkOuts (o_routing o) (o_gains o) (o_delays o) (o_eqs o) (o_late_gains o) (poke (o_late_delays o) i v)), Ok tt)
    else (s, UB).
  Definition set_routing (f : routings -> routings) : act := fun s =>
    let o := s_back s in
    (with_back s (MkOuts (f (o_routing o)) (o_gains o) (o_delays o) (o_eqs o) (o_late_gains o) (o_late_delays o)), Ok tt).
  Definition set_panning (i : nat) (v : Qc) : act := fun s =>
    if i <? length (s_panning s) then (with_panning s (poke (s_panning s) i v), Ok tt) else (s, UB).

  (** vectorCopyStrided() with source stride 1, libefl/reference/vector_functions_impl.hpp:337-350;
      [at'] is the index of the first element written *)
  Fixpoint copy_strided (src : list Qc) (at' stride : nat) : act :=
    match src with
    | [] => skip_act
    | v :: r => andthen (set_panning at' v) (copy_strided r (at' + stride) stride)
    end.
  (** vectorFillStrided(), libefl/reference/vector_functions_impl.hpp:352-361 *)
  Fixpoint fill_strided (v : Qc) (at' stride n : nat) : act :=
    match n with
    | 0 => skip_act
    | S n => andthen (set_panning at' v) (fill_strided v (at' + stride) stride n)
    end.

  (** reflectionFilter(), point_source_with_reverb.cpp:52-60 *)
  Definition reflection_filter (r : reflection) (j : nat) : res B :=
    if sections <=? j then Throw OutOfRange
    else match nth_error (r_filters r) j with Some b => Ok b | None => UB end.
  Definition with_value {X} (m : res X) (k : X -> act) : act := fun s =>
    match m with Ok x => k x s | Throw e => (s, Throw e) | UB => (s, UB) end.

  (** One discrete reflection at index [i] of the outputs, cpp:227-251 *)
  Definition put_reflection (c : config) (i : nat) (r : reflection) : act :=
    andthen (copy_strided (vbap (r_position r)) i (c_stride c))
   (andthen (each (fun j => with_value (reflection_filter r j) (set_eq i j)) (seq 0 sections))
   (andthen (set_gain i (r_level r))
            (set_delay i (r_delay r)))).
  (** An unused reflection of a used channel, cpp:255-270 *)
  Definition clear_reflection (c : config) (i : nat) : act :=
    andthen (each (fun j => set_eq i j flat) (seq 0 sections))
   (andthen (set_gain i q0)
   (andthen (set_delay i q0)
            (each (fun k => set_panning (k * c_stride c + i) q0) (seq 0 (c_speakers c))))).
  (** An unused reflection of an unused channel, cpp:302-319 *)
  Definition zero_reflection (c : config) (i : nat) : act :=
    andthen (fill_strided q0 i (c_stride c) (c_speakers c))
   (andthen (each (fun j => set_eq i j flat) (seq 0 sections))
   (andthen (set_gain i q0)
            (set_delay i q0))).
  (** Sending of changed late parameters, cpp:282-286 and 324-328 *)
  Definition send_late (ch : nat) (l : late) : act := fun s =>
    match nth_error (s_previous s) ch with
    | Some p => if late_equal p l then (s, Ok tt)
                else (MkState (s_alloc s) (poke (s_previous s) ch l) (s_back s) (s_front s) (s_panning s)
                        (s_sent s ++ [(ch, l)]), Ok tt)
    | None => (s, UB)
    end.

  (** processSingleObject(), cpp:207-287 *)
  Fixpoint put_reflections (c : config) (i : nat) (rs : list reflection) : act :=
    match rs with
    | [] => skip_act
    | r :: rs' => andthen (put_reflection c i r) (put_reflections c (S i) rs')
    end.
  Definition process_single (c : config) (ch : nat) (rs : list reflection) (l : late) : act :=
    if c_reflections c <? length rs then raise InvalidArgument
    else
      let start := ch * c_reflections c in
      andthen (put_reflections c start rs)
     (andthen (each (fun k => clear_reflection c (start + k)) (seq (length rs) (c_reflections c - length rs)))
     (andthen (set_late_delay ch q0)
     (andthen (set_late_gain ch q1)
              (send_late ch l)))).
  (** clearSingleObject(), cpp:289-330 *)
  Definition clear_single (c : config) (ch : nat) : act :=
    let start := ch * c_reflections c in
    andthen (each (fun k => zero_reflection c (start + k)) (seq 0 (c_reflections c)))
   (andthen (set_late_delay ch q0)
   (andthen (set_late_gain ch q0)
            (with_value default_parameter (send_late ch)))).

  (** The reverb objects of a scene, cpp:151-173 *)
  Definition found (sc : scene) : list Z :=
    flat_map (fun o => match snd o with
                       | Reverb channels _ _ => if length channels =? 1 then [fst o] else []
                       | Other => []
                       end) sc.
  (** One channel of process(), cpp:183-196. A failing dynamic_cast throws std::bad_cast. *)
  Definition process_channel (c : config) (sc : scene) (ch : nat) : act := fun s =>
    let id := get_object (s_alloc s) ch in
    if Z.eqb id invalid_id
    then andthen (set_routing (fun t => fst (p_remove invalid t ch))) (clear_single c ch) s
    else with_value (object_at sc id) (fun o =>
           match o with
           | Other => raise RuntimeError
           | Reverb channels rs l =>
               match channels with
               | [] => raise InvalidArgument
               | input :: _ => andthen (set_routing (fun t => p_add t (MkEntry input ch)))
                                       (process_single c ch rs l)
               end
           end) s.
  (** The swapBuffers() calls, cpp:198-204 *)
  Definition swap_outputs : act := fun s =>
    (MkState (s_alloc s) (s_previous s) (s_front s) (s_back s) (s_panning s) (s_sent s), Ok tt).
  (** process(), cpp:140-205 *)
  Definition process (c : config) (s : state) (sc : scene) : state * res unit :=
    let ids := found sc in
    if c_objects c <? length ids then (s, Throw RuntimeError)
    else
      let (a, r) := set_objects (s_alloc s) ids in
      match r with
      | Ok _ => andthen (each (process_channel c sc) (seq 0 (c_objects c))) swap_outputs (with_alloc s a)
      | Throw e => (with_alloc s a, Throw e)
      | UB => (with_alloc s a, UB)
      end.
End Calculator.
