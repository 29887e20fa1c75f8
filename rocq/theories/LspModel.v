(** Loudspeaker array descriptions: panning::LoudspeakerArray.

    src/libpanning/LoudspeakerArray.cpp lines 49-560, src/libpanning/LoudspeakerArray.h,
    and the containers it fills: src/libefl/basic_matrix.hpp lines 85-170,
    src/libefl/basic_vector.hpp lines 75-125, src/librbbl/biquad_coefficient.cpp lines 410-476.

    The XML text itself is not modelled: the input is the content of the element
    "panningConfiguration" as boost::property_tree presents it, with the children of each
    kind in document order (equal_range).  An attribute is [None] when it is absent or, for
    a number, when it cannot be read as one; ptree::get then throws ptree_bad_path or
    ptree_bad_data, both std::runtime_error, and get_optional returns none.

    Numbers are elements of a type [V] that are only stored and passed on.  The conversions
    from decibels and from polar coordinates, the reading of weight lists by
    rbbl::FloatSequence and the reading of a filter specification are parameters. *)

From Coq Require Import Ascii String NArith.
From Verif Require Import Base.
Local Open Scope res_scope.

(** std::map<std::string, std::size_t>: entries in the order of their keys. *)
Definition idmap := list (string * nat).

(** std::map::find. *)
Fixpoint mget (m : idmap) (k : string) : option nat :=
  match m with
  | [] => None
  | (k', v) :: rest => if String.eqb k' k then Some v else mget rest k
  end.

(** m[k] = v. *)
Fixpoint mset (m : idmap) (k : string) (v : nat) : idmap :=
  match m with
  | [] => [(k, v)]
  | (k', v') :: rest =>
      match String.compare k k' with
      | Lt => (k, v) :: m
      | Eq => (k, v) :: rest
      | Gt => (k', v') :: mset rest k v
      end
  end.

(** boost::is_any_of( "\t " ): LoudspeakerArray.cpp line 325. *)
Definition blank (c : ascii) : bool := orb (Ascii.eqb c "009"%char) (Ascii.eqb c " "%char).

(** boost::trim_if( s, boost::is_any_of( "\t " ) ). *)
Fixpoint trim_left (s : string) : string :=
  match s with
  | EmptyString => EmptyString
  | String c rest => if blank c then trim_left rest else s
  end.
Fixpoint trim_right (s : string) : string :=
  match s with
  | EmptyString => EmptyString
  | String c rest =>
      match trim_right rest with
      | EmptyString => if blank c then EmptyString else String c EmptyString
      | rest' => String c rest'
      end
  end.
Definition trim (s : string) : string := trim_right (trim_left s).

(** Characters of the regular expression of LoudspeakerArray.cpp line 316 (the std::regex
    variant): letters, digits and @ & ( ) + / : _ - *)
Definition in_range (lo hi : ascii) (c : ascii) : bool :=
  andb (Nat.leb (nat_of_ascii lo) (nat_of_ascii c)) (Nat.leb (nat_of_ascii c) (nat_of_ascii hi)).
Definition id_char (c : ascii) : bool :=
  orb (in_range "0" "9" c) (orb (in_range "A" "Z" c) (orb (in_range "a" "z" c)
    (List.existsb (Ascii.eqb c) ["@"; "&"; "("; ")"; "+"; "/"; ":"; "_"; "-"]%char))).
Fixpoint all_chars (p : ascii -> bool) (s : string) : bool :=
  match s with
  | EmptyString => true
  | String c rest => andb (p c) (all_chars p rest)
  end.
Definition is_empty (s : string) : bool := match s with EmptyString => true | _ => false end.
(** std::regex_match( id, idExpression ). *)
Definition regex_match (s : string) : bool := andb (negb (is_empty s)) (all_chars id_char s).

(** ::isspace in the C locale. *)
Definition isspace (c : ascii) : bool :=
  orb (Ascii.eqb c " "%char) (in_range "009" "013" c).
(** boost::find_format_all( s, token_finder( ::isspace ), const_formatter( "" ) ): line 481. *)
Fixpoint remove_spaces (s : string) : string :=
  match s with
  | EmptyString => EmptyString
  | String c rest => if isspace c then remove_spaces rest else String c (remove_spaces rest)
  end.

(** boost::split( out, s, is_any_of( "," ), token_compress_on ): line 482.  [start] is set
    just after a separator, where further separators are skipped. *)
Fixpoint split_at (start : bool) (s : string) : list string :=
  match s with
  | EmptyString => [EmptyString]
  | String c rest =>
      if Ascii.eqb c ","%char then
        if start then split_at true rest else EmptyString :: split_at true rest
      else
        match split_at false rest with
        | [] => [String c EmptyString]
        | w :: ws => String c w :: ws
        end
  end.
Definition split (s : string) : list string := split_at false s.

(** std::numeric_limits<std::size_t>::max(): line 281. *)
Definition cInvalidChannel : N := 18446744073709551615%N.

(** std::sort on channel numbers. *)
Fixpoint insert (c : N) (l : list N) : list N :=
  match l with
  | [] => [c]
  | d :: rest => if N.leb c d then c :: l else d :: insert c rest
  end.
Definition sort (l : list N) : list N := fold_right insert [] l.

(** std::distance( begin, std::find( begin, end, c ) ). *)
Fixpoint find_index (l : list N) (c : N) : nat :=
  match l with
  | [] => 0
  | d :: rest => if N.eqb d c then 0 else S (find_index rest c)
  end.

(** std::adjacent_find( ... ) != end. *)
Fixpoint adjacent_equal (l : list N) : bool :=
  match l with
  | c :: ((d :: _) as rest) => if N.eqb c d then true else adjacent_equal rest
  | _ => false
  end.

(** std::set_intersection of two sorted ranges, without repeated elements, is not empty. *)
Definition collide (l r : list N) : bool := List.existsb (fun c => List.existsb (N.eqb c) r) l.

(** ptree::get: throws ptree_bad_path or ptree_bad_data. *)
Definition get {A} (x : option A) : res A :=
  match x with Some v => Ok v | None => Throw RuntimeError end.

(** Unchecked element access: vector::operator[], BasicVector::operator[]. *)
Fixpoint set_at {A} (l : list A) (k : nat) (v : A) : res (list A) :=
  match l, k with
  | [], _ => UB
  | _ :: rest, 0 => Ok (v :: rest)
  | x :: rest, S k => rest' <- set_at rest k v ;; Ok (x :: rest')
  end.
Definition get_at {A} (l : list A) (k : nat) : res A :=
  match nth_error l k with Some v => Ok v | None => UB end.

(** std::vector::resize. *)
Definition vector_resize {A} (l : list A) (n : nat) (d : A) : list A := firstn n l ++ repeat d (n - length l).

(** efl::BasicMatrix with no alignment: the stride is the number of columns
    (src/libefl/alignment.hpp lines 70-75). *)
Record matrix (V : Type) := Matrix { m_rows : nat; m_columns : nat; m_data : list V }.
Arguments Matrix {V}. Arguments m_rows {V}. Arguments m_columns {V}. Arguments m_data {V}.

(** BasicMatrix::resize (basic_matrix.hpp lines 84-100): all elements become zero. *)
Definition matrix_resize {V} (zero : V) (rows columns : nat) : matrix V :=
  Matrix rows columns (repeat zero (columns * rows)).
(** BasicMatrix::operator()(row, col) = v (basic_matrix.hpp lines 176-179): no check. *)
Definition matrix_set {V} (m : matrix V) (row col : nat) (v : V) : res (matrix V) :=
  d <- set_at (m_data m) (row * m_columns m + col) v ;; Ok (Matrix (m_rows m) (m_columns m) d).
(** BasicMatrix::at (basic_matrix.hpp lines 186-203). *)
Definition matrix_at {V} (m : matrix V) (row col : nat) : res V :=
  if orb (Nat.leb (m_rows m) row) (Nat.leb (m_columns m) col) then Throw OutOfRange
  else get_at (m_data m) (row * m_columns m + col).

(** What the loader uses but does not define:
    0.0f and 1.0f; std::pow( 10.0f, x / 20.0f ) of line 157; efl::dB2linear of line 414;
    efl::spherical2cartesian( degree2radian( az ), degree2radian( el ), r ) of line 131;
    rbbl::FloatSequence<SampleType>( string ), src/librbbl/float_sequence.cpp lines 44-138;
    the biquad that BiquadCoefficient() makes. *)
Record kit (V B : Type) := Kit {
  k_zero : V; k_one : V; k_pow_dB : V -> V; k_dB2linear : V -> V; k_polar2cart : V -> V -> V -> V * V * V;
  k_float_sequence : string -> res (list V); k_no_biquad : B }.
Arguments Kit {V B}. Arguments k_zero {V B}. Arguments k_one {V B}. Arguments k_pow_dB {V B}. Arguments k_dB2linear {V B}.
Arguments k_polar2cart {V B}. Arguments k_float_sequence {V B}. Arguments k_no_biquad {V B}.

Section LoudspeakerArray.
  Context {V B : Type} (K : kit V B).
  Local Notation zero := (k_zero K).
  Local Notation one := (k_one K).
  Local Notation pow_dB := (k_pow_dB K).
  Local Notation dB2linear := (k_dB2linear K).
  Local Notation polar2cart := (k_polar2cart K).
  Local Notation float_sequence := (k_float_sequence K).
  Local Notation no_biquad := (k_no_biquad K).

  (** ** The document *)

  Record cart := Cart { c_x : option V; c_y : option V; c_z : option V }.
  Record polar := Polar { p_az : option V; p_el : option V; p_r : option V }.
  Record place := Place { pl_cart : list cart; pl_polar : list polar }.
  Record adjust := Adjust { ad_gain : option V; ad_gainDB : option V; ad_delay : option V }.
  Record speaker := Speaker {
    sp_id : option string; sp_channel : option N; sp_place : place; sp_adjust : adjust; sp_eq : option string }.
  Record route := Route { rt_lspId : option string; rt_gainDB : option V }.
  Record virtual := Virtual { vi_id : option string; vi_routes : list route; vi_place : place }.
  Record triplet := Triplet { tr_l1 : option string; tr_l2 : option string; tr_l3 : option string }.
  Record subwoofer := Subwoofer {
    sb_channel : option N; sb_assigned : option string; sb_weights : option string; sb_adjust : adjust; sb_eq : option string }.
  (** A "filterSpec" element: its name and what BiquadCoefficientList::fromXml makes of it. *)
  Record filter_spec := FilterSpec { fs_name : option string; fs_biquads : res (list B) }.
  Record eq_config := EqConfig { eq_biquads : option nat; eq_specs : list filter_spec }.
  Record config := Config {
    cf_dimension : option string; cf_infinite : option bool; cf_speakers : list speaker; cf_virtuals : list virtual;
    cf_triplets : list triplet; cf_subwoofers : list subwoofer; cf_eqs : list eq_config }.

  (** ** The array *)

  (** struct XYZ: src/libpanning/XYZ.h. *)
  Definition xyz := (V * V * V * bool)%type.
  Definition xyz0 : xyz := (zero, zero, zero, false).

  (** Members of LoudspeakerArray (LoudspeakerArray.h lines 336-372).  The third index of a
      triplet is [None] for the value -1 that marks it as unused (line 451 of the .cpp).
      [a_eqs] is the unique pointer mOutputEqs: the rows of the biquad matrix. *)
  Record array := Array {
    a_is2D : bool; a_isInfinite : bool; a_position : list xyz; a_triplet : list (nat * nat * option nat);
    a_channel : list N; a_id : idmap; a_subChannels : list N; a_subGains : matrix V; a_reRouting : matrix V;
    a_gain : list V; a_delay : list V; a_eqs : option (list (list B)) }.

  (** LoudspeakerArray::LoudspeakerArray() (lines 49-53). *)
  Definition new_array : array :=
    Array false false [] [] [] [] [] (Matrix 0 0 []) (Matrix 0 0 []) [] [] None.

  (** LoudspeakerArray::operator= (lines 60-76): mOutputEqs is left as it was. *)
  Definition assign (lhs rhs : array) : array :=
    Array (a_is2D rhs) (a_isInfinite rhs) (a_position rhs) (a_triplet rhs) (a_channel rhs) (a_id rhs)
      (a_subChannels rhs) (a_subGains rhs) (a_reRouting rhs) (a_gain rhs) (a_delay rhs) (a_eqs lhs).

  (** parseCoordNode (lines 91-135). *)
  Definition parseCoordNode (node : place) (isInfinite is2D : bool) : res xyz :=
    let numCart := length (pl_cart node) in
    let numPolar := length (pl_polar node) in
    if orb (Nat.ltb 1 numCart) (orb (Nat.ltb 1 numPolar) (negb (xorb (Nat.eqb numCart 1) (Nat.eqb numPolar 1))))
    then Throw InvalidArgument
    else match pl_cart node, pl_polar node with
         | c :: _, _ =>
             x <- get (c_x c) ;;
             y <- get (c_y c) ;;
             z <- (if is2D then Ok (match c_z c with Some z => z | None => zero end) else get (c_z c)) ;;
             Ok (x, y, z, isInfinite)
         | [], p :: _ =>
             az <- get (p_az p) ;;
             el <- (if is2D then Ok (match p_el p with Some el => el | None => zero end) else get (p_el p)) ;;
             r <- get (p_r p) ;;
             Ok (polar2cart az el r, isInfinite)
         | [], [] => UB
         end.

  (** parseGainDelayAdjustments (lines 144-167): the pair (gain, delay). *)
  Definition parseGainDelayAdjustments (node : adjust) : res (V * V) :=
    g <- match ad_gain node, ad_gainDB node with
         | Some _, Some _ => Throw InvalidArgument
         | Some g, None => Ok g
         | None, Some dB => Ok (pow_dB dB)
         | None, None => Ok one
         end ;;
    Ok (g, match ad_delay node with Some d => d | None => zero end).

  (** ChannelEqLookupTable and parseChannelLookup (lines 169-189): std::map::insert keeps the
      first entry of a name. *)
  Definition eq_table := list (string * list B).
  Fixpoint eq_find (t : eq_table) (name : string) : option (list B) :=
    match t with
    | [] => None
    | (k, v) :: rest => if String.eqb k name then Some v else eq_find rest name
    end.
  Fixpoint parseChannelLookup (specs : list filter_spec) (t : eq_table) : res eq_table :=
    match specs with
    | [] => Ok t
    | s :: rest =>
        name <- get (fs_name s) ;;
        biquads <- fs_biquads s ;;
        parseChannelLookup rest (match eq_find t name with Some _ => t | None => t ++ [(name, biquads)] end)
    end.

  (** BiquadCoefficientMatrix::setFilter (biquad_coefficient.cpp lines 461-476). *)
  Definition sections (m : list (list B)) : nat := match m with [] => 0 | row :: _ => length row end.
  Definition setFilter (m : list (list B)) (filterIdx : nat) (f : list B) : res (list (list B)) :=
    if Nat.leb (length m) filterIdx then Throw OutOfRange
    else if Nat.ltb (sections m) (length f) then Throw InvalidArgument
    else set_at m filterIdx (f ++ repeat no_biquad (sections m - length f)).

  (** parseEqFilter (lines 191-210), guarded by eqConfigPresent as in lines 373 and 517. *)
  Definition parseEqFilter (eq : option string) (t : eq_table) (channelIndex : nat) (eqs : option (list (list B))) :
    res (option (list (list B))) :=
    match eqs with
    | None => Ok None
    | Some m =>
        m' <- match eq with
              | Some name =>
                  match eq_find t name with
                  | None => Throw InvalidArgument
                  | Some f => setFilter m channelIndex f
                  end
              | None => setFilter m channelIndex []
              end ;;
        Ok (Some m')
    end.

  (** Reading of the dimension (lines 245-263). *)
  Definition parse_dimension (d : option string) : res bool :=
    match d with
    | None => Ok false
    | Some s => if String.eqb s "2" then Ok true else if String.eqb s "3" then Ok false else Throw InvalidArgument
    end.

  (** The output equaliser section (lines 284-302): the table and a matrix of default biquads. *)
  Definition parse_eqs (eqs : list eq_config) (numOutputs : nat) : res (eq_table * option (list (list B))) :=
    match eqs with
    | [] => Ok ([], None)
    | [e] =>
        numSections <- get (eq_biquads e) ;;
        t <- parseChannelLookup (eq_specs e) [] ;;
        Ok (t, Some (repeat (repeat no_biquad numSections) numOutputs))
    | _ => Throw InvalidArgument
    end.

  (** First pass over the loudspeakers: ids and channels (lines 319-348). *)
  Fixpoint name_speakers (i : nat) (nodes : list speaker) (ids : idmap) (channels : list N) : res (idmap * list N) :=
    match nodes with
    | [] => Ok (ids, channels)
    | s :: rest =>
        id0 <- get (sp_id s) ;;
        let id := trim id0 in
        if orb (negb (regex_match id)) (match mget ids id with Some _ => true | None => false end)
        then Throw InvalidArgument
        else
          c <- get_at channels i ;;
          if negb (N.eqb c cInvalidChannel) then Throw InvalidArgument
          else
            chIdx <- get (sp_channel s) ;;
            if N.ltb chIdx 1 then Throw InvalidArgument
            else
              channels <- set_at channels i chIdx ;;
              name_speakers (S i) rest (mset ids id 0) channels
    end.

  (** What the second pass fills in. *)
  Record filling := Filling {
    f_id : idmap; f_position : list xyz; f_gain : list V; f_delay : list V; f_eqs : option (list (list B)) }.

  (** Second pass over the loudspeakers (lines 357-377): the id is read again and not trimmed. *)
  Definition fill_speaker (channels : list N) (isInfinite is2D : bool) (t : eq_table) (f : filling) (s : speaker) : res filling :=
    id <- get (sp_id s) ;;
    chIdx <- get (sp_channel s) ;;
    let offset := find_index channels chIdx in
    pos <- parseCoordNode (sp_place s) isInfinite is2D ;;
    position <- set_at (f_position f) offset pos ;;
    ' (g, d) <- parseGainDelayAdjustments (sp_adjust s) ;;
    gain <- set_at (f_gain f) offset g ;;
    delay <- set_at (f_delay f) offset d ;;
    eqs <- parseEqFilter (sp_eq s) t offset (f_eqs f) ;;
    Ok (Filling (mset (f_id f) id offset) position gain delay eqs).
  Fixpoint fill_speakers (channels : list N) (isInfinite is2D : bool) (t : eq_table) (f : filling) (nodes : list speaker) : res filling :=
    match nodes with
    | [] => Ok f
    | s :: rest => f <- fill_speaker channels isInfinite is2D t f s ;; fill_speakers channels isInfinite is2D t f rest
    end.

  (** The routes of one virtual loudspeaker (lines 399-415). *)
  Fixpoint add_routes (ids : idmap) (row : nat) (routes : list route) (m : matrix V) : res (matrix V) :=
    match routes with
    | [] => Ok m
    | r :: rest =>
        lspId <- get (rt_lspId r) ;;
        gainDB <- get (rt_gainDB r) ;;
        let lspId := trim lspId in
        match mget ids lspId with
        | None => Throw InvalidArgument
        | Some k =>
            if is_empty lspId then Throw InvalidArgument
            else m <- matrix_set m row k (dB2linear gainDB) ;; add_routes ids row rest m
        end
    end.

  (** The virtual loudspeakers (lines 381-428); [i] goes on from the number of loudspeakers. *)
  Fixpoint add_virtuals (numRegular : nat) (isInfinite is2D : bool) (i : nat) (nodes : list virtual)
    (ids : idmap) (position : list xyz) (m : matrix V) : res (idmap * list xyz * matrix V) :=
    match nodes with
    | [] => Ok (ids, position, m)
    | v :: rest =>
        id0 <- get (vi_id v) ;;
        let id := trim id0 in
        if orb (negb (regex_match id)) (match mget ids id with Some _ => true | None => false end)
        then Throw InvalidArgument
        else
          let ids := mset ids id i in
          m <- add_routes ids (i - numRegular) (vi_routes v) m ;;
          pos <- parseCoordNode (vi_place v) isInfinite is2D ;;
          position <- set_at position i pos ;;
          add_virtuals numRegular isInfinite is2D (S i) rest ids position m
    end.

  (** m_id.find( tid ) with the tests of lines 443-446 and 457. *)
  Definition find_id (ids : idmap) (tid : string) : res nat :=
    match mget ids (trim tid) with
    | None => Throw InvalidArgument
    | Some k => if is_empty (trim tid) then Throw InvalidArgument else Ok k
    end.

  (** The triplets (lines 434-466). *)
  Definition parse_triplet (is2D : bool) (ids : idmap) (t : triplet) : res (nat * nat * option nat) :=
    tid1 <- get (tr_l1 t) ;;
    tid2 <- get (tr_l2 t) ;;
    k1 <- find_id ids tid1 ;;
    k2 <- find_id ids tid2 ;;
    if is2D then Ok (k1, k2, None)
    else
      tid3 <- get (tr_l3 t) ;;
      k3 <- find_id ids tid3 ;;
      Ok (k1, k2, Some k3).
  Fixpoint parse_triplets (is2D : bool) (ids : idmap) (nodes : list triplet) : res (list (nat * nat * option nat)) :=
    match nodes with
    | [] => Ok []
    | t :: rest => x <- parse_triplet is2D ids t ;; xs <- parse_triplets is2D ids rest ;; Ok (x :: xs)
    end.

  (** m_subwooferGains( subIdx, m_id[name] ) = weight for all entries (lines 500-512). *)
  Fixpoint add_weights (ids : idmap) (row : nat) (names : list string) (weights : list V) (m : matrix V) : res (matrix V) :=
    match names, weights with
    | name :: names, w :: weights =>
        m <- matrix_set m row (match mget ids name with Some k => k | None => 0 end) w ;;
        add_weights ids row names weights m
    | _, _ => Ok m
    end.

  (** What the subwoofer loop fills in. *)
  Record subs := Subs {
    u_channels : list N; u_gains : matrix V; u_gain : list V; u_delay : list V; u_eqs : option (list (list B)) }.

  (** One subwoofer (lines 472-521). *)
  Definition add_subwoofer (numRegular : nat) (ids : idmap) (t : eq_table) (subIdx : nat) (s : subwoofer) (u : subs) : res subs :=
    c <- get (sb_channel s) ;;
    channels <- set_at (u_channels u) subIdx c ;;
    str <- get (sb_assigned s) ;;
    let names := split (remove_spaces str) in
    if List.existsb (fun n => orb (match mget ids n with Some _ => false | None => true end) (is_empty n)) names
    then Throw InvalidArgument
    else
      weights <- match sb_weights s with
                 | Some w =>
                     ws <- float_sequence w ;;
                     if negb (Nat.eqb (length ws) (length names)) then Throw InvalidArgument else Ok ws
                 | None => Ok (repeat one (length names))
                 end ;;
      gains <- add_weights ids subIdx names weights (u_gains u) ;;
      ' (g, d) <- parseGainDelayAdjustments (sb_adjust s) ;;
      gain <- set_at (u_gain u) (numRegular + subIdx) g ;;
      delay <- set_at (u_delay u) (numRegular + subIdx) d ;;
      eqs <- parseEqFilter (sb_eq s) t (numRegular + subIdx) (u_eqs u) ;;
      Ok (Subs channels gains gain delay eqs).
  Fixpoint add_subwoofers (numRegular : nat) (ids : idmap) (t : eq_table) (subIdx : nat) (nodes : list subwoofer) (u : subs) : res subs :=
    match nodes with
    | [] => Ok u
    | s :: rest => u <- add_subwoofer numRegular ids t subIdx s u ;; add_subwoofers numRegular ids t (S subIdx) rest u
    end.

  (** The tests on the channels (lines 522-549). *)
  Definition channels_distinct (channels subChannels : list N) : bool :=
    negb (orb (adjacent_equal (sort channels)) (orb (adjacent_equal (sort subChannels)) (collide (sort channels) (sort subChannels)))).

  (** LoudspeakerArray::loadXmlStream (lines 233-550).  What an array holds after an exception
      is not modelled. *)
  Definition load (a : array) (cf : config) : res array :=
    is2D <- parse_dimension (cf_dimension cf) ;;
    let isInfinite := match cf_infinite cf with Some b => b | None => false end in
    let numRegular := length (cf_speakers cf) in
    let numVirtual := length (cf_virtuals cf) in
    let numSubwoofers := length (cf_subwoofers cf) in
    let position := vector_resize (a_position a) (numRegular + numVirtual) xyz0 in
    let gain := repeat zero (numRegular + numSubwoofers) in
    let delay := repeat zero (numRegular + numSubwoofers) in
    ' (t, eqs) <- parse_eqs (cf_eqs cf) (numRegular + numSubwoofers) ;;
    ' (ids, channels) <- name_speakers 0 (cf_speakers cf) (a_id a) (repeat cInvalidChannel numRegular) ;;
    let channels := sort channels in
    f <- fill_speakers channels isInfinite is2D t (Filling ids position gain delay eqs) (cf_speakers cf) ;;
    ' (ids, position, reRouting) <-
      add_virtuals numRegular isInfinite is2D numRegular (cf_virtuals cf) (f_id f) (f_position f)
        (matrix_resize zero numVirtual numRegular) ;;
    triplets <- parse_triplets is2D ids (cf_triplets cf) ;;
    u <- add_subwoofers numRegular ids t 0 (cf_subwoofers cf)
           (Subs (vector_resize (a_subChannels a) numSubwoofers 0%N) (matrix_resize zero numSubwoofers numRegular)
              (f_gain f) (f_delay f) (f_eqs f)) ;;
    if channels_distinct channels (u_channels u) then
      Ok (Array is2D isInfinite position triplets channels ids (u_channels u) (u_gains u) reRouting (u_gain u) (u_delay u) (u_eqs u))
    else Throw InvalidArgument.

  (** ** Queries *)

  (** getSpeakerIndexFromId (lines 600-602). *)
  Definition getSpeakerIndexFromId (a : array) (id : string) : res nat :=
    match mget (a_id a) id with Some k => Ok k | None => Throw OutOfRange end.
  (** loudspeakerId (lines 585-598). *)
  Definition loudspeakerId (a : array) (index : nat) : res string :=
    match List.find (fun e : string * nat => Nat.eqb (snd e) index) (a_id a) with
    | Some e => Ok (fst e)
    | None => Throw OutOfRange
    end.
  (** getPosition( index ), getPosition( id ) (LoudspeakerArray.h lines 116-127). *)
  Definition getPosition (a : array) (k : nat) : res xyz := get_at (a_position a) k.
  Definition getPositionFromId (a : array) (id : string) : res xyz := k <- getSpeakerIndexFromId a id ;; getPosition a k.
  (** channelIndex, getSpeakerChannel (LoudspeakerArray.h lines 147, 165). *)
  Definition channelIndex (a : array) (k : nat) : res N := get_at (a_channel a) k.
  (** getSpeakerChannelFromId (LoudspeakerArray.h line 172). *)
  Definition getSpeakerChannelFromId (a : array) (id : string) : res N := k <- getSpeakerIndexFromId a id ;; channelIndex a k.
  (** getNumSpeakers, getNumRegularSpeakers, getNumSubwoofers, getNumTriplets. *)
  Definition getNumSpeakers (a : array) : nat := length (a_position a).
  Definition getNumRegularSpeakers (a : array) : nat := length (a_channel a).
  Definition getNumSubwoofers (a : array) : nat := m_rows (a_subGains a).
  Definition getNumTriplets (a : array) : nat := length (a_triplet a).
  (** getTriplet. *)
  Definition getTriplet (a : array) (k : nat) := get_at (a_triplet a) k.
  (** getSubwooferChannel (vector::at), getSubwooferGain, getReroutingCoefficient. *)
  Definition vector_at {A} (l : list A) (k : nat) : res A :=
    match nth_error l k with Some v => Ok v | None => Throw OutOfRange end.
  Definition getSubwooferChannel (a : array) (k : nat) : res N := vector_at (a_subChannels a) k.
  Definition getSubwooferGain (a : array) (sub spk : nat) : res V := matrix_at (a_subGains a) sub spk.
  Definition getReroutingCoefficient (a : array) (virt real : nat) : res V := matrix_at (a_reRouting a) virt real.
  (** The adjustments (LoudspeakerArray.h lines 253-259). *)
  Definition getLoudspeakerGainAdjustment (a : array) (k : nat) : res V := vector_at (a_gain a) k.
  Definition getLoudspeakerDelayAdjustment (a : array) (k : nat) : res V := vector_at (a_delay a) k.
  Definition getSubwooferGainAdjustment (a : array) (k : nat) : res V := vector_at (a_gain a) (k + getNumRegularSpeakers a).
  Definition getSubwooferDelayAdjustment (a : array) (k : nat) : res V := vector_at (a_delay a) (k + getNumRegularSpeakers a).
  (** outputEqualisationPresent, outputEqualisationNumberOfBiquads, outputEqualisationBiquads (lines 557-583). *)
  Definition outputEqualisationPresent (a : array) : bool := match a_eqs a with Some _ => true | None => false end.
  Definition outputEqualisationNumberOfBiquads (a : array) : nat := match a_eqs a with Some m => sections m | None => 0 end.
  Definition outputEqualisationBiquads (a : array) : res (list (list B)) :=
    match a_eqs a with Some m => Ok m | None => Throw LogicError end.
End LoudspeakerArray.
