(** Model of the object messages of libobjectmodel: the parsers and writers of all object
    types (src/libobjectmodel/*_parser.cpp), the lists of filter parameters they contain
    (src/librbbl/parametric_iir_coefficient.cpp, biquad_coefficient.cpp), the names and the
    registration of the types (object_type.cpp, object_factory.cpp) and the encoding of an
    object vector (object_vector_parser.cpp:123-141).  The loop over the objects of a
    message is the model of ObjectVectorModel.v, instantiated here with the parsers.

    Simplifications.  Floating point numbers and their textual conversions are a parameter
    [floats]; so are the constructor of rbbl::FloatSequence and the JSON reader and writer
    of Boost.  Integer conversions, channel lists and output channel lists are modelled
    down to the characters.  A path "a.b" of boost::property_tree is the list of its
    fragments. *)
From Coq Require Import String Ascii ZArith.
From Verif Require Import Base IndexSequenceModel ChannelListModel ObjectVectorModel.
Local Open Scope Z_scope.
Local Open Scope res_scope.

Notation "'txt' s" := (list_ascii_of_string s%string) (at level 0, s at level 0, only parsing).

(** ** boost::property_tree::ptree *)
Inductive tree := Node (data : text) (kids : list (string * tree)).
Definition t_data (t : tree) : text := let 'Node d _ := t in d.
Definition t_kids (t : tree) : list (string * tree) := let 'Node _ k := t in k.
Definition empty_tree : tree := Node [] [].

(** find(): the first child of that name *)
Fixpoint kid (k : string) (l : list (string * tree)) : option tree :=
  match l with
  | [] => None
  | (k', t) :: r => if String.eqb k k' then Some t else kid k r
  end.
(** equal_range(), count() *)
Definition kids_named (k : string) (t : tree) : list tree :=
  map snd (filter (fun p => String.eqb k (fst p)) (t_kids t)).
Definition t_count (k : string) (t : tree) : nat := length (kids_named k t).
(** get_child_optional() *)
Fixpoint child_opt (path : list string) (t : tree) : option tree :=
  match path with
  | [] => Some t
  | k :: p => match kid k (t_kids t) with Some t' => child_opt p t' | None => None end
  end.
(** get_child(): ptree_bad_path is a std::runtime_error *)
Definition child (path : list string) (t : tree) : res tree :=
  match child_opt path t with Some t' => Ok t' | None => Throw RuntimeError end.

(** replace the first child of that name, or append one *)
Fixpoint at_kid (k : string) (f : tree -> tree) (l : list (string * tree)) : list (string * tree) :=
  match l with
  | [] => [(k, f empty_tree)]
  | (k', t) :: r => if String.eqb k k' then (k', f t) :: r else (k', t) :: at_kid k f r
  end.
(** put(): missing nodes on the way are created, an existing one keeps its children *)
Fixpoint put (path : list string) (v : text) (t : tree) : tree :=
  match path with
  | [] => Node v (t_kids t)
  | k :: p => Node (t_data t) (at_kid k (put p v) (t_kids t))
  end.
(** put_child(), for a path of one fragment *)
Definition put_child (k : string) (c : tree) (t : tree) : tree :=
  Node (t_data t) (at_kid k (fun _ => c) (t_kids t)).
(** push_back(); add_child() for a path of one fragment *)
Definition add_child (k : string) (c : tree) (t : tree) : tree :=
  Node (t_data t) (t_kids t ++ [(k, c)]).

(** get< std::string >() *)
Definition get_text (path : list string) (t : tree) : res text :=
  c <- child path t ;; Ok (t_data c).

(** ** Integers *)
Definition UINT_MAX : Z := 4294967295.
(** std::istream >> unsigned, followed by optional white space: a sign is accepted, and a
    negative number is taken modulo 2^32 *)
Definition read_unsigned (l : text) : option Z :=
  let (neg, l2) := parse_sign (skip l) in
  let (ds, rest) := span_digits l2 in
  match ds, skip rest with
  | _ :: _, [] =>
      let v := digits_value ds in
      if v <=? UINT_MAX then Some (if neg then (- v) mod (UINT_MAX + 1) else v) else None
  | _, _ => None
  end.
(** get< unsigned int >() *)
Definition get_unsigned (path : list string) (t : tree) : res Z :=
  s <- get_text path t ;;
  match read_unsigned s with Some v => Ok v | None => Throw RuntimeError end.
(** get< unsigned char >(): read as unsigned, out of range is an error *)
Definition get_byte (path : list string) (t : tree) : res Z :=
  v <- get_unsigned path t ;; if v <=? 255 then Ok v else Throw RuntimeError.

(** catch( std::exception ) -> std::invalid_argument; other exceptions pass *)
Definition try_ {A} (m : res A) : res A :=
  match m with Throw e => Throw (rethrow e) | _ => m end.

(** ** Parameters: floating point numbers, FloatSequence, JSON *)
Record floats := {
  num : Type;
  f0 : num;                              (* 0.0 *)
  f1 : num;                              (* 1.0 *)
  is0 : num -> bool;                     (* x == 0.0 *)
  tiny : num -> bool;                    (* not( std::abs( x ) >= epsilon ) *)
  fdiv : num -> num -> num;              (* x / y *)
  sph : num -> num -> num -> num * num * num; (* spherical2cartesian( degree2radian( az ), degree2radian( el ), r ) *)
  showf : num -> text;                   (* ptree::put< float >() *)
  readf : text -> option num;            (* ptree::get< float >() *)
  show6 : num -> text;                   (* std::ostream << float *)
  fseq : text -> res (list num);         (* rbbl::FloatSequence( std::string ) *)
  junk : num;                            (* content of uninitialised members *)
  to_json : tree -> text;                (* write_json() *)
  of_json : text -> option tree          (* read_json() *)
}.

Inductive obj_type := TPoint | TExtent | TPlane | TDiffuse | TPointDiffuse | TExtended | THoa | TChannel | TReverb.
Definition type_eqb (a b : obj_type) : bool :=
  match a, b with
  | TPoint, TPoint | TExtent, TExtent | TPlane, TPlane | TDiffuse, TDiffuse | TPointDiffuse, TPointDiffuse
  | TExtended, TExtended | THoa, THoa | TChannel, TChannel | TReverb, TReverb => true
  | _, _ => false
  end.
(** object_type.cpp:19-32, 54-62 *)
Definition type_name (t : obj_type) : text :=
  match t with
  | TPoint => txt "point" | TExtent => txt "pointextent" | TPlane => txt "plane"
  | TDiffuse => txt "diffuse" | TPointDiffuse => txt "pointdiffuse" | TExtended => txt "extended"
  | THoa => txt "hoa" | TChannel => txt "channel" | TReverb => txt "pointreverb"
  end.
Definition all_types : list obj_type := [TPoint; TExtent; TPlane; TDiffuse; TPointDiffuse; TExtended; THoa; TChannel; TReverb].
Definition text_eqb (a b : text) : bool := if list_eq_dec ascii_dec a b then true else false.
(** stringToObjectType(), object_type.cpp:35-50, 64-72 *)
Definition type_of_name (s : text) : res obj_type :=
  match find (fun t => text_eqb s (type_name t)) all_types with
  | Some t => Ok t
  | None => Throw LogicError
  end.

Inductive eq_type := Lowpass | Highpass | Bandpass | Bandstop | Peak | Lowshelf | Highshelf | Allpass.
(** parametric_iir_coefficient.cpp:60-72 *)
Definition eq_name (t : eq_type) : text :=
  match t with
  | Lowpass => txt "lowpass" | Highpass => txt "highpass" | Bandpass => txt "bandpass" | Bandstop => txt "bandstop"
  | Peak => txt "peak" | Lowshelf => txt "lowshelf" | Highshelf => txt "highshelf" | Allpass => txt "allpass"
  end.
Definition all_eqs : list eq_type := [Lowpass; Highpass; Bandpass; Bandstop; Peak; Lowshelf; Highshelf; Allpass].
(** idToType(), parametric_iir_coefficient.cpp:38-46 *)
Definition eq_of_name (s : text) : res eq_type :=
  match find (fun t => text_eqb s (eq_name t)) all_eqs with
  | Some t => Ok t
  | None => Throw InvalidArgument
  end.

(** ** Output channels of channel objects, channel_object_parser.cpp *)
(** the set "a-zA-Z0-9+-&@+_-" of line 61; the range "+-&" contains no character *)
Definition label_char (c : ascii) : bool :=
  let n := nat_of_ascii c in
  (Nat.leb 97 n && Nat.leb n 122) || (Nat.leb 65 n && Nat.leb n 90) || (Nat.leb 48 n && Nat.leb n 57)
  || Ascii.eqb c "&" || Ascii.eqb c "@" || Ascii.eqb c "+" || Ascii.eqb c "_" || Ascii.eqb c "-".
(** line 61: the skipper also applies between the characters of a label *)
Fixpoint label_chars (l : text) : text * text :=
  match l with
  | c :: r => if is_space c then label_chars r
              else if label_char c then let (a, b) := label_chars r in (c :: a, b) else ([], l)
  | [] => ([], [])
  end.
Definition parse_label (l : text) : option (text * text) :=
  match label_chars l with
  | ([], _) => None
  | p => Some p
  end.
(** continuation of  label % ','  *)
Fixpoint more_labels (fuel : nat) (l : text) : res (list text * text) :=
  match fuel with
  | O => UB
  | S f =>
      match parse_char "," l with
      | None => Ok ([], l)
      | Some r =>
          match parse_label r with
          | None => Ok ([], l)
          | Some (a, r') => p <- more_labels f r' ;; Ok (a :: fst p, snd p)
          end
      end
  end.
(** lines 63-64: a label, or an optional list of labels in brackets *)
Definition parse_output (l : text) : res (option (list text * text)) :=
  match parse_label l with
  | Some (a, r) => Ok (Some ([a], r))
  | None =>
      match parse_char "[" l with
      | None => Ok None
      | Some r =>
          p <- match parse_label r with
               | None => Ok ([], r)
               | Some (a, r') => p <- more_labels (S (length r')) r' ;; Ok (a :: fst p, snd p)
               end ;;
          match parse_char "]" (snd p) with
          | None => Ok None
          | Some r' => Ok (Some (fst p, r'))
          end
      end
  end.
(** continuation of  output % ','  *)
Fixpoint more_outputs (fuel : nat) (l : text) : res (list (list text) * text) :=
  match fuel with
  | O => UB
  | S f =>
      match parse_char "," l with
      | None => Ok ([], l)
      | Some r =>
          o <- parse_output r ;;
          match o with
          | None => Ok ([], l)
          | Some (a, r') => p <- more_outputs f r' ;; Ok (a :: fst p, snd p)
          end
      end
  end.
(** lines 66, 76-90 *)
Definition parse_outputs (l : text) : res (list (list text)) :=
  o <- parse_output l ;;
  p <- match o with
       | None => Ok ([], l)
       | Some (a, r) => p <- more_outputs (S (length r)) r ;; Ok (a :: fst p, snd p)
       end ;;
  match skip (snd p) with
  | [] => Ok (fst p)
  | _ => Throw InvalidArgument
  end.

(** text with a separator between the elements *)
Fixpoint join (sep : text) (l : list text) : text :=
  match l with
  | [] => []
  | [a] => a
  | a :: r => a ++ sep ++ join sep r
  end.
(** lines 127-148 *)
Definition print_output (l : list text) : text :=
  match l with
  | [] => txt "[]"
  | [a] => a
  | _ => txt "[ " ++ join (txt ", ") l ++ txt " ]"
  end.
(** lines 150-162: begin() + 1 of an empty container is undefined *)
Definition print_outputs (l : list (list text)) : res text :=
  match l with
  | [] => UB
  | _ => Ok (join (txt ", ") (map print_output l))
  end.

Section Messages.
  Context (E : floats).
  Local Notation F := (num E).

  (** get< float >(), get_optional< float >(), get< float >( path, default ) *)
  Definition opt_float (path : list string) (t : tree) : option F :=
    match child_opt path t with Some c => readf E (t_data c) | None => None end.
  Definition get_float (path : list string) (t : tree) : res F :=
    match opt_float path t with Some v => Ok v | None => Throw RuntimeError end.
  Definition float_or (path : list string) (d : F) (t : tree) : F :=
    match opt_float path t with Some v => v | None => d end.
  Definition put_float (path : list string) (v : F) (t : tree) : tree := put path (showf E v) t.

  (** ** Equaliser parameters *)
  Record eqc := MkEq { q_type : eq_type; q_freq : F; q_qual : F; q_gain : F }.
  (** ParametricIirCoefficient::loadJson(), lines 200-212 *)
  Definition load_eq (t : tree) : res eqc :=
    s <- get_text ["type"%string] t ;;
    f <- get_float ["f"%string] t ;;
    q <- get_float ["q"%string] t ;;
    ty <- eq_of_name s ;;
    Ok (MkEq ty f q (float_or ["gain"%string] (f0 E) t)).
  (** writeJson(), lines 282-292 *)
  Definition write_eq (q : eqc) : tree :=
    let t := put_float ["q"%string] (q_qual q)
             (put_float ["f"%string] (q_freq q) (put ["type"%string] (eq_name (q_type q)) empty_tree)) in
    if tiny E (q_gain q) then t else put_float ["gain"%string] (q_gain q) t.
  (** ParametricIirCoefficientList::loadJson(), lines 343-354: all children *)
  Fixpoint load_eqs (l : list (string * tree)) : res (list eqc) :=
    match l with
    | [] => Ok []
    | (_, t) :: r => q <- load_eq t ;; qs <- load_eqs r ;; Ok (q :: qs)
    end.
  (** ParametricIirCoefficientList::writeXml(), lines 448-457 *)
  Definition write_eqs (l : list eqc) : tree :=
    fold_left (fun t q => add_child "eq" (write_eq q) t) l empty_tree.

  (** ** Biquad sections *)
  Record biquad := MkBiquad { b_b0 : F; b_b1 : F; b_b2 : F; b_a1 : F; b_a2 : F }.
  (** BiquadCoefficient(), biquad_coefficient.hpp *)
  Definition flat : biquad := MkBiquad (f1 E) (f0 E) (f0 E) (f0 E) (f0 E).
  (** BiquadCoefficient::loadJson(), biquad_coefficient.cpp:76-87 *)
  Definition load_biquad (t : tree) : res biquad :=
    let a0 := float_or ["a0"%string] (f1 E) t in
    b0 <- get_float ["b0"%string] t ;;
    b1 <- get_float ["b1"%string] t ;;
    b2 <- get_float ["b2"%string] t ;;
    a1 <- get_float ["a1"%string] t ;;
    a2 <- get_float ["a2"%string] t ;;
    Ok (MkBiquad (fdiv E b0 a0) (fdiv E b1 a0) (fdiv E b2 a0) (fdiv E a1 a0) (fdiv E a2 a0)).
  (** writeJson(), lines 155-163 *)
  Definition write_biquad (b : biquad) : tree :=
    put_float ["a2"%string] (b_a2 b) (put_float ["a1"%string] (b_a1 b) (put_float ["b2"%string] (b_b2 b)
      (put_float ["b1"%string] (b_b1 b) (put_float ["b0"%string] (b_b0 b) empty_tree)))).
  Fixpoint load_biquads (l : list tree) : res (list biquad) :=
    match l with
    | [] => Ok []
    | t :: r => b <- load_biquad t ;; bs <- load_biquads r ;; Ok (b :: bs)
    end.
  (** BiquadCoefficientList::writeJson(), lines 340-349 *)
  Definition write_biquads (l : list biquad) : tree :=
    fold_left (fun t b => add_child "" (write_biquad b) t) l empty_tree.

  (** ** Objects *)
  (** the members of PointSource which are parsed and written *)
  Record point := MkPoint { p_x : F; p_y : F; p_z : F; p_lock : F }.
  (** PointSourceWithReverb::DiscreteReflection; always ten filters *)
  Record reflection := MkReflection { r_x : F; r_y : F; r_z : F; r_delay : F; r_level : F; r_filters : list biquad }.
  (** PointSourceWithReverb::LateReverb; arrays of nine values *)
  Record late := MkLate { l_onset : F; l_levels : list F; l_attack : list F; l_decay : list F }.
  Inductive payload :=
  | Point (p : point)
  | PointDiffuse (p : point) (diffuseness : F)
  | Extent (p : point) (diffuseness width height depth : F)
  | Reverb (p : point) (early : list reflection) (lat : late)
  | Plane (az el dist : F)
  | Diffuse
  | Hoa (order : Z)
  | Channel (outputs : list (list text)) (diffuseness : F).
  Record body := MkBody { o_group : Z; o_level : F; o_priority : Z; o_channels : list Z; o_eq : list eqc; o_load : payload }.
  Definition load_type (p : payload) : obj_type :=
    match p with
    | Point _ => TPoint | PointDiffuse _ _ => TPointDiffuse | Extent _ _ _ _ _ => TExtent | Reverb _ _ _ => TReverb
    | Plane _ _ _ => TPlane | Diffuse => TDiffuse | Hoa _ => THoa | Channel _ _ => TChannel
    end.
  Definition with_load (b : body) (p : payload) : body :=
    MkBody (o_group b) (o_level b) (o_priority b) (o_channels b) (o_eq b) p.

  (** ObjectParser::parse(), object_parser.cpp:22-52: an exception while the channels are
      read leaves those of the object; setting the members of the object is the result *)
  Definition parse_channels (t : tree) (old : list Z) : res (list Z) :=
    match (s <- get_text ["channels"%string] t ;; index_sequence s) with
    | Ok l => Ok l
    | Throw CharPointer => Throw CharPointer
    | Throw _ => Ok old
    | UB => UB
    end.
  Definition parse_common (t : tree) (b : body) : res body :=
    ch <- parse_channels t (o_channels b) ;;
    g <- get_unsigned ["group"%string] t ;;
    lv <- get_float ["level"%string] t ;;
    pr <- get_byte ["priority"%string] t ;;
    eqs <- match kid "eq" (t_kids t) with Some c => load_eqs (t_kids c) | None => Ok [] end ;;
    Ok (MkBody g lv pr ch eqs (o_load b)).
  (** ObjectParser::write(), object_parser.cpp:54-80 *)
  Definition write_common (ty : obj_type) (id : nat) (b : body) (t : tree) : tree :=
    let t1 := put ["type"%string] (type_name ty) t in
    let t2 := put ["channels"%string] (join (txt ", ") (map print_size (o_channels b))) t1 in
    let t3 := put ["id"%string] (print_size (Z.of_nat id)) t2 in
    let t4 := put ["group"%string] (print_size (o_group b)) t3 in
    let t5 := put_float ["level"%string] (o_level b) t4 in
    let t6 := put ["priority"%string] (print_size (o_priority b)) t5 in
    match o_eq b with
    | [] => t6
    | _ => add_child "eq" (write_eqs (o_eq b)) t6
    end.

  (** PointSourceParser::parsePosition(), point_source_parser.cpp:62-109 *)
  Definition is_some {A} (o : option A) : bool := match o with Some _ => true | None => false end.
  Definition parse_position (t : tree) : res (F * F * F) :=
    let x := opt_float ["x"%string] t in
    let y := opt_float ["y"%string] t in
    let z := opt_float ["z"%string] t in
    let az := opt_float ["az"%string] t in
    let el := opt_float ["el"%string] t in
    let rad := opt_float ["radius"%string] t in
    let anyCart := is_some x || is_some y || is_some z in
    let anySph := is_some az || is_some el || is_some rad in
    if negb (anyCart || anySph) then Throw InvalidArgument
    else if anyCart && anySph then Throw InvalidArgument
    else if anyCart then
      match x, y with
      | Some x, Some y => Ok (x, y, match z with Some z => z | None => f0 E end)
      | _, _ => Throw InvalidArgument
      end
    else
      match az, el with
      | Some az, Some el => Ok (sph E az el (match rad with Some r => r | None => f1 E end))
      | _, _ => Throw InvalidArgument
      end.

  (** PointSourceParser::parse(), lines 19-43; the parsers of the derived classes share it *)
  Definition parse_point (t : tree) (b : body) : res (body * point) :=
    b' <- parse_common t b ;;
    try_ (c <- child ["position"%string] t ;;
          '(x, y, z) <- parse_position c ;;
          Ok (b', MkPoint x y z (float_or ["channelLock"%string] (f0 E) t))).
  (** PointSourceParser::write(), lines 45-60 *)
  Definition write_point (ty : obj_type) (id : nat) (b : body) (p : point) (t : tree) : tree :=
    let t1 := write_common ty id b t in
    let t2 := put_float ["position"; "x"]%string (p_x p) t1 in
    let t3 := put_float ["position"; "y"]%string (p_y p) t2 in
    let t4 := put_float ["position"; "z"]%string (p_z p) t3 in
    if is0 E (p_lock p) then t4 else put_float ["channelLock"%string] (p_lock p) t4.

  (** PointSourceWithDiffusenessParser::parse(), lines 15-34 *)
  Definition parse_point_diffuse (t : tree) (b : body) : res (body * point * F) :=
    try_ ('(b', p) <- parse_point t b ;;
          d <- get_float ["diffuseness"%string] t ;;
          Ok (b', p, d)).
  (** PointSourceExtentParser::parse(), lines 15-36 *)
  Definition parse_extent (t : tree) (b : body) : res body :=
    try_ ('(b', p, d) <- parse_point_diffuse t b ;;
          w <- get_float ["width"%string] t ;;
          h <- get_float ["height"%string] t ;;
          Ok (with_load b' (Extent p d w h (float_or ["depth"%string] (f0 E) t)))).
  (** PlaneWaveParser::parse(), lines 14-35 *)
  Definition parse_plane (t : tree) (b : body) : res body :=
    b' <- parse_common t b ;;
    try_ (az <- get_float ["direction"; "az"]%string t ;;
          el <- get_float ["direction"; "el"]%string t ;;
          d <- get_float ["direction"; "refdist"]%string t ;;
          Ok (with_load b' (Plane az el d))).
  (** HoaSourceParser::parse(), lines 14-38: unsigned arithmetic *)
  Definition parse_hoa (t : tree) (b : body) : res body :=
    b' <- parse_common t b ;;
    try_ (n <- get_unsigned ["order"%string] t ;;
          let m := (n + 1) mod (UINT_MAX + 1) in
          if (m * m) mod (UINT_MAX + 1) =? Z.of_nat (length (o_channels b'))
          then Ok (with_load b' (Hoa n)) else Throw InvalidArgument).
  (** DiffuseSourceParser::parse(), lines 14-29 *)
  Definition parse_diffuse (t : tree) (b : body) : res body :=
    try_ (b' <- parse_common t b ;; Ok (with_load b' Diffuse)).
  (** ChannelObjectParser::parse(), lines 94-120 *)
  Definition parse_channel (t : tree) (b : body) : res body :=
    try_ (b' <- parse_common t b ;;
          let d := float_or ["diffuseness"%string] (f0 E) t in
          s <- get_text ["outputChannels"%string] t ;;
          outs <- parse_outputs s ;;
          if Nat.eqb (length outs) (length (o_channels b'))
          then Ok (with_load b' (Channel outs d)) else Throw InvalidArgument).

  (** setReflectionFilters(), point_source_with_reverb.cpp: filled up to ten sections *)
  Definition ten : nat := 10.
  Definition nine : nat := 9.
  Definition pad_filters (l : list biquad) : res (list biquad) :=
    if Nat.ltb ten (length l) then Throw InvalidArgument
    else Ok (l ++ repeat flat (ten - length l)).
  (** PointSourceWithReverbParser::parse(), lines 83-101 *)
  Definition parse_reflection (t : tree) : res reflection :=
    c <- child ["position"%string] t ;;
    '(x, y, z) <- parse_position c ;;
    d <- get_float ["delay"%string] t ;;
    lv <- get_float ["level"%string] t ;;
    bt <- child ["biquadsos"%string] t ;;
    bs <- load_biquads (kids_named "" bt) ;;
    fs <- pad_filters bs ;;
    Ok (MkReflection x y z d lv fs).
  Fixpoint parse_reflections (l : list tree) : res (list reflection) :=
    match l with
    | [] => Ok []
    | t :: r => a <- parse_reflection t ;; rs <- parse_reflections r ;; Ok (a :: rs)
    end.
  (** lines 110-132: a list of exactly nine values *)
  Definition get_nine (k : string) (t : tree) : res (list F) :=
    s <- get_text [k] t ;;
    l <- fseq E s ;;
    if Nat.eqb (length l) nine then Ok l else Throw InvalidArgument.
  (** lines 53-139 *)
  Definition parse_reverb (t : tree) (b : body) : res body :=
    try_ ('(b', p) <- parse_point t b ;;
          if negb (Nat.eqb (t_count "room" t) 1) then Throw InvalidArgument else
          room <- child ["room"%string] t ;;
          early <- (if Nat.eqb (t_count "ereflect" room) 0 then Ok []
                    else er <- child ["ereflect"%string] room ;;
                         parse_reflections (kids_named "" er)) ;;
          if negb (Nat.eqb (t_count "lreverb" room) 1) then Throw InvalidArgument else
          lt <- child ["lreverb"%string] room ;;
          onset <- get_float ["delay"%string] lt ;;
          lev <- get_nine "level" lt ;;
          att <- get_nine "attacktime" lt ;;
          dec <- get_nine "decayconst" lt ;;
          Ok (with_load b' (Reverb p early (MkLate onset lev att dec)))).
  (** FloatSequence::toString( ", " ), float_sequence.cpp:126-134, of a nonempty sequence *)
  Definition seq_text (l : list F) : text := join (txt ", ") (map (show6 E) l).
  (** lines 157-168 *)
  Definition write_reflection (r : reflection) : tree :=
    add_child "biquadsos" (write_biquads (r_filters r))
      (put_float ["position"; "z"]%string (r_z r) (put_float ["position"; "y"]%string (r_y r)
        (put_float ["position"; "x"]%string (r_x r)
          (put_float ["level"%string] (r_level r) (put_float ["delay"%string] (r_delay r) empty_tree))))).
  (** lines 141-195 *)
  Definition write_reverb (ty : obj_type) (id : nat) (b : body) (p : point) (early : list reflection) (lat : late)
      (t : tree) : tree :=
    let t1 := write_point ty id b p t in
    let room := match early with
                | [] => empty_tree
                | _ => add_child "ereflect"
                         (fold_left (fun e r => add_child "" (write_reflection r) e) early empty_tree) empty_tree
                end in
    let lt := put ["decayconst"%string] (seq_text (l_decay lat))
                (put ["attacktime"%string] (seq_text (l_attack lat))
                  (put ["level"%string] (seq_text (l_levels lat))
                    (put_float ["delay"%string] (l_onset lat) empty_tree))) in
    put_child "room" (put_child "lreverb" lt room) t1.

  (** ** Dispatch *)
  (** ObjectFactory::create(), object_factory.cpp:84-95 with the constructors of the object
      classes; the type "extended" is not registered *)
  Definition new_point : point := MkPoint (f0 E) (f0 E) (f0 E) (f0 E).
  Definition create (ty : obj_type) : res body :=
    p <- match ty with
         | TPoint => Ok (Point new_point)
         | TPointDiffuse => Ok (PointDiffuse new_point (f0 E))
         | TExtent => Ok (Extent new_point (f0 E) (f0 E) (f0 E) (f0 E))
         | TReverb => Ok (Reverb new_point [] (MkLate (f0 E) (repeat (f0 E) nine) (repeat (f0 E) nine) (repeat (f0 E) nine)))
         | TPlane => Ok (Plane (junk E) (junk E) (junk E))
         | TDiffuse => Ok Diffuse
         | THoa => Ok (Hoa 0)
         | TChannel => Ok (Channel [] (f0 E))
         | TExtended => Throw InvalidArgument
         end ;;
    Ok (MkBody 0 (junk E) 0 [] [] p).
  (** ObjectFactory::parser(), lines 95-130, and the virtual parse(); the dynamic_cast to
      the class of the parser succeeds because the object has the type of the parser *)
  Definition parse_as (ty : obj_type) : res (tree -> body -> res body) :=
    match ty with
    | TPoint => Ok (fun t b => '(b', p) <- parse_point t b ;; Ok (with_load b' (Point p)))
    | TPointDiffuse => Ok (fun t b => '(b', p, d) <- parse_point_diffuse t b ;; Ok (with_load b' (PointDiffuse p d)))
    | TExtent => Ok parse_extent
    | TReverb => Ok parse_reverb
    | TPlane => Ok parse_plane
    | TDiffuse => Ok parse_diffuse
    | THoa => Ok parse_hoa
    | TChannel => Ok parse_channel
    | TExtended => Throw InvalidArgument
    end.
  (** ObjectParser::write() of the parser for the type of the object *)
  Definition write_object (id : nat) (b : body) : res tree :=
    let ty := load_type (o_load b) in
    match o_load b with
    | Point p => Ok (write_point ty id b p empty_tree)
    (* point_source_with_diffuseness_parser.cpp:36-44 *)
    | PointDiffuse p d => Ok (put_float ["diffuseness"%string] d (write_point ty id b p empty_tree))
    (* point_source_extent_parser.cpp:38-48: PointSourceParser::write() is called *)
    | Extent p _ w h d =>
        Ok (put_float ["depth"%string] d (put_float ["height"%string] h (put_float ["width"%string] w
             (write_point ty id b p empty_tree))))
    | Reverb p early lat => Ok (write_reverb ty id b p early lat empty_tree)
    (* plane_wave_parser.cpp:37-47 *)
    | Plane az el d =>
        Ok (put_float ["direction"; "refdist"]%string d (put_float ["direction"; "el"]%string el
             (put_float ["direction"; "az"]%string az (write_common ty id b empty_tree))))
    (* diffuse_source_parser.cpp:31-36 *)
    | Diffuse => Ok (write_common ty id b empty_tree)
    (* hoa_source_parser.cpp:40-48 *)
    | Hoa n => Ok (put ["order"%string] (print_size n) (write_common ty id b empty_tree))
    (* channel_object_parser.cpp:166-186 *)
    | Channel outs d =>
        let t := write_common ty id b empty_tree in
        if negb (Nat.eqb (length (o_channels b)) (length outs)) then Throw InvalidArgument
        else
          let t' := if is0 E d then t else put_float ["diffuseness"%string] d t in
          s <- print_outputs outs ;;
          Ok (put ["outputChannels"%string] s t')
    end.

  (** ** Messages *)
  Definition obj := object obj_type body.
  (** encodeObjectVector(), object_vector_parser.cpp:123-141 *)
  Fixpoint write_objects (l : list obj) : res (list (string * tree)) :=
    match l with
    | [] => Ok []
    | o :: r => t <- write_object (o_id o) (o_body o) ;; ts <- write_objects r ;; Ok ((""%string, t) :: ts)
    end.
  Definition encode (l : list obj) : res text :=
    ts <- write_objects l ;;
    Ok (to_json E (put_child "objects" (Node [] ts) empty_tree)).
  (** what updateObjectVector() and parseObject() see of a message, lines 57-84, 92-107 *)
  Definition node_of (t : tree) : node text tree :=
    MkNode (match get_text ["type"%string] t with Ok s => Some s | _ => None end)
           (match get_unsigned ["id"%string] t with Ok v => Some (Z.to_nat v) | _ => None end) t.
  Definition message_of (s : text) : res (option (list (node text tree))) :=
    match of_json E s with
    | None => Throw RuntimeError
    | Some t => Ok (option_map (fun c => map (fun p => node_of (snd p)) (t_kids c)) (kid "objects" (t_kids t)))
    end.
  Definition update (l : list obj) (s : text) : list obj * res unit :=
    v_update type_eqb type_of_name create parse_as l (message_of s).
  Definition fill (l : list obj) (s : text) : list obj * res unit :=
    v_fill type_eqb type_of_name create parse_as l (message_of s).
End Messages.
Arguments MkEq {E}. Arguments MkBiquad {E}. Arguments MkPoint {E}. Arguments MkReflection {E}. Arguments MkLate {E}.
Arguments MkBody {E}. Arguments Point {E}. Arguments PointDiffuse {E}. Arguments Extent {E}. Arguments Reverb {E}.
Arguments Plane {E}. Arguments Diffuse {E}. Arguments Hoa {E}. Arguments Channel {E}.
Arguments q_type {E}. Arguments q_freq {E}. Arguments q_qual {E}. Arguments q_gain {E}.
Arguments b_b0 {E}. Arguments b_b1 {E}. Arguments b_b2 {E}. Arguments b_a1 {E}. Arguments b_a2 {E}.
Arguments p_x {E}. Arguments p_y {E}. Arguments p_z {E}. Arguments p_lock {E}.
Arguments r_x {E}. Arguments r_y {E}. Arguments r_z {E}. Arguments r_delay {E}. Arguments r_level {E}. Arguments r_filters {E}.
Arguments l_onset {E}. Arguments l_levels {E}. Arguments l_attack {E}. Arguments l_decay {E}.
Arguments o_group {E}. Arguments o_level {E}. Arguments o_priority {E}. Arguments o_channels {E}. Arguments o_eq {E}. Arguments o_load {E}.
Arguments load_type {E}. Arguments with_load {E}.
