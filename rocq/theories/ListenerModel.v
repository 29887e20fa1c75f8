(** rcl::PositionDecoder (src/librcl/position_decoder.cpp) and rcl::ListenerCompensation
    (src/librcl/listener_compensation.cpp), over the real numbers. *)
From Verif Require Import Base QuaternionModel.
From Coq Require Import Reals.
Local Open Scope R_scope.
Local Open Scope res_scope.

(** ** rcl::PositionDecoder *)
Section Decoder.
  Context {Msg : Type}.
  (** pml::ListenerPosition::parseJson applied to the text of a message: a listener position
      or an exception derived from std::exception *)
  Variable parse : Msg -> res (listener R).
  (** std::numeric_limits<unsigned int>::max() *)
  Variable uintMax : nat.
  (** constructor, lines 21-46 *)
  Variable cOffsetPosition : pos3 R.
  Variable cOrientationRotation : quat R.

  (** local variables of process(), lines 52-55 *)
  Record scan := Scan { s_found : listener R; s_face : nat; s_time : nat }.
  Definition scan0 : scan := Scan (l_default 0 1) uintMax 0.
  (** loop body, lines 58-79 *)
  Definition scan_step (s : scan) (m : Msg) : scan :=
    match parse m with
    | Ok newPos =>
        if Nat.leb (l_face newPos) (s_face s) then
          if Nat.leb (s_time s) (l_time newPos) then Scan newPos (l_face newPos) (l_time newPos) else s
        else s
    | _ => s (* reported on std::cerr *)
    end.
  (** lines 89-94 *)
  Definition translatePosition (pos : listener R) : listener R :=
    l_transform 0 Rplus Rmult Rminus Ropp pos cOrientationRotation cOffsetPosition.
  (** lines 50-87: all messages of the block are consumed; the result is the position
      published (written to the output port, followed by swapBuffers()), if any *)
  Definition decode (msgs : list Msg) : option (listener R) :=
    let s := fold_left scan_step msgs scan0 in
    if Nat.eqb (s_face s) uintMax then None else Some (translatePosition (s_found s)).
End Decoder.

(** ** rcl::ListenerCompensation *)
Section Compensation.
  (** BasicVector::operator[] is unchecked: writing outside the vector is undefined *)
  Definition vset (v : list R) (i : nat) (x : R) : res (list R) :=
    if Nat.ltb i (length v) then Ok (firstn i v ++ x :: skipn (S i) v) else UB.
  Definition vget (v : list R) (i : nat) : res R :=
    match nth_error v i with Some x => Ok x | None => UB end.

  (** lines 113, 144 *)
  Definition distance (l pos : pos3 R) : R :=
    sqrt ((px l - px pos) ^ 2 + (py l - py pos) ^ 2 + (pz l - pz pos) ^ 2).

  (** lines 109-119, 140-150; the loop runs over m_array.getNumSpeakers(), which counts
      virtual loudspeakers (src/libpanning/LoudspeakerArray.h 190) *)
  Fixpoint radii (speakers : list (pos3 R)) (i : nat) (pos : pos3 R) (v : list R) (max_rad : R) : res (list R * R) :=
    match speakers with
    | [] => Ok (v, max_rad)
    | l1 :: rest =>
        let rad := distance l1 pos in
        v <- vset v i rad ;;
        radii rest (S i) pos v (if Rltb max_rad rad then rad else max_rad)
    end.
  (** lines 121-124, 152-155 *)
  Fixpoint each (f : R -> res R) (n i : nat) (v : list R) : res (list R) :=
    match n with
    | O => Ok v
    | S n' => x <- vget v i ;; y <- f x ;; v <- vset v i y ;; each f n' (S i) v
    end.
  (** lines 99-126 *)
  Definition calcGainComp (speakers : list (pos3 R)) (pos : pos3 R) (gains : list R) : res (list R) :=
    ' p <- radii speakers 0 pos gains 0 ;;
    each (fun x => rdiv x (snd p)) (length speakers) 0 (fst p).
  (** lines 129-157; c_0 is 344 *)
  Definition calcDelayComp (speakers : list (pos3 R)) (pos : pos3 R) (delays : list R) : res (list R) :=
    ' p <- radii speakers 0 pos delays 0 ;;
    each (fun x => Ok (Rabs (x - snd p) / 344)) (length speakers) 0 (fst p).

  (** Constructor (44-60): the array (all loudspeakers, the regular ones first) and the
      number of regular ones *)
  Record compensation := Comp { c_speakers : list (pos3 R); c_regular : nat }.
  (** lines 62-97: [Some (gains, delays)] is what is written to the output ports *)
  Definition comp_process (c : compensation) (input : option (pos3 R)) (gains delays : list R)
    : res (option (list R * list R)) :=
    match input with
    | None => Ok None (* position input unchanged *)
    | Some pos =>
        if negb (Nat.eqb (length gains) (c_regular c)) || negb (Nat.eqb (length delays) (c_regular c))
        then Throw InvalidArgument
        else
          gains <- calcGainComp (c_speakers c) pos gains ;;
          delays <- calcDelayComp (c_speakers c) pos delays ;;
          Ok (Some (gains, delays))
    end.
End Compensation.
