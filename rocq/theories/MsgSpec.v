(** Specification of object messages: which objects survive being written and read. *)
From Coq Require Import String Ascii ZArith.
From Verif Require Import Base IndexSequenceModel ChannelListModel ObjectVectorModel MsgModel.
Local Open Scope Z_scope.

(** Seven bit characters. *)
Definition seven_bit (t : text) : Prop := Forall (fun c => (nat_of_ascii c < 128)%nat) t.

(** A tree a JSON document can stand for: a node has either data or children.  Boost
    escapes the bytes above 127 one by one and decodes them to UTF-8, so that texts with
    such bytes are not preserved. *)
Inductive json_tree : tree -> Prop :=
| json_leaf d : seven_bit d -> json_tree (Node d [])
| json_inner l : Forall (fun p => seven_bit (list_ascii_of_string (fst p)) /\ json_tree (snd p)) l -> json_tree (Node [] l).

(** What is assumed of the libraries. *)
Record libraries (E : floats) : Prop := {
  lib_json : forall l, json_tree (Node [] l) -> of_json E (to_json E (Node [] l)) = Some (Node [] l);
  lib_show : forall x, seven_bit (showf E x);
  lib_show6 : forall x, seven_bit (show6 E x);
  lib_div : forall x, fdiv E x (f1 E) = x
}.

Section Faithful.
  Context (E : floats).
  (** A number that can be read back from its text: all finite floating point numbers. *)
  Definition exact (x : num E) : Prop := readf E (showf E x) = Some x.
  (** A number which is left out under condition [c], and then read as zero. *)
  Definition optional_exact (c : num E -> bool) (x : num E) : Prop := if c x then x = f0 E else exact x.
  (** Nine numbers which FloatSequence reads back as it prints them. *)
  Definition exact_nine (l : list (num E)) : Prop :=
    length l = 9%nat /\ fseq E (join (txt ", ") (map (show6 E) l)) = Ok l.

  Definition eq_faithful (q : eqc E) : Prop :=
    exact (q_freq q) /\ exact (q_qual q) /\ optional_exact (tiny E) (q_gain q).
  Definition biquad_faithful (b : biquad E) : Prop :=
    exact (b_b0 b) /\ exact (b_b1 b) /\ exact (b_b2 b) /\ exact (b_a1 b) /\ exact (b_a2 b).
  Definition point_faithful (p : point E) : Prop :=
    exact (p_x p) /\ exact (p_y p) /\ exact (p_z p) /\ optional_exact (is0 E) (p_lock p).
  Definition reflection_faithful (r : reflection E) : Prop :=
    exact (r_x r) /\ exact (r_y r) /\ exact (r_z r) /\ exact (r_delay r) /\ exact (r_level r)
    /\ length (r_filters r) = 10%nat /\ Forall biquad_faithful (r_filters r).
  Definition late_faithful (l : late E) : Prop :=
    exact (l_onset l) /\ exact_nine (l_levels l) /\ exact_nine (l_attack l) /\ exact_nine (l_decay l).

  (** A loudspeaker label: letters, digits and the characters & @ + _ - only. *)
  Definition label_letter (c : ascii) : Prop :=
    In c (list_ascii_of_string "abcdefghijklmnopqrstuvwxyzABCDEFGHIJKLMNOPQRSTUVWXYZ0123456789&@+_-").
  Definition label (t : text) : Prop := t <> [] /\ Forall label_letter t.

  Definition load_faithful (channels : nat) (p : payload E) : Prop :=
    match p with
    | Point p => point_faithful p
    | PointDiffuse p d => point_faithful p /\ exact d
    | Extent _ _ _ _ _ => False
    | Reverb p early lat => point_faithful p /\ Forall reflection_faithful early /\ late_faithful lat
    | Plane az el d => exact az /\ exact el /\ exact d
    | Diffuse => True
    | Hoa n => 0 <= n < 65535 /\ Z.of_nat channels = (n + 1) * (n + 1)
    | Channel outs d => length outs = channels /\ outs <> [] /\ Forall (Forall label) outs /\ optional_exact (is0 E) d
    end.
  (** An object that survives: the ranges are those of the C++ types but for the channel
      indices, which have to be representable as int. *)
  Definition body_faithful (b : body E) : Prop :=
    0 <= o_group b <= UINT_MAX /\ 0 <= o_priority b <= 255
    /\ exact (o_level b)
    /\ Forall (fun c => 0 <= c <= INT_MAX) (o_channels b)
    /\ Forall eq_faithful (o_eq b)
    /\ load_faithful (length (o_channels b)) (o_load b).
  Definition object_faithful (o : obj E) : Prop :=
    Z.of_nat (o_id o) <= UINT_MAX /\ o_type o = load_type (o_load (o_body o)) /\ body_faithful (o_body o).
End Faithful.

(** ** What a message can contain *)
(** a text of the message *)
Inductive datum : tree -> text -> Prop :=
| datum_here d l : datum (Node d l) d
| datum_kid d l k t c : In (k, t) l -> datum t c -> datum (Node d l) c.

Section Decoded.
  Context (E : floats).
  (** What holds of the content of each decoded object, whatever the message. *)
  Definition load_consistent (channels : nat) (p : payload E) : Prop :=
    match p with
    | Reverb _ early lat => Forall (fun r => length (r_filters r) = 10%nat) early
        /\ length (l_levels lat) = 9%nat /\ length (l_attack lat) = 9%nat /\ length (l_decay lat) = 9%nat
    | Hoa n => 0 <= n <= UINT_MAX /\ exists k, (n + 1) * (n + 1) = Z.of_nat channels + k * 2 ^ 32
    | Channel outs _ => length outs = channels /\ Forall (Forall label) outs
    | _ => True
    end.
  Definition body_consistent (b : body E) : Prop :=
    0 <= o_group b <= UINT_MAX /\ 0 <= o_priority b <= 255 /\ load_consistent (length (o_channels b)) (o_load b).
  Definition object_consistent (o : obj E) : Prop :=
    o_type o = load_type (o_load (o_body o)) /\ body_consistent (o_body o).

  (** The exceptions that are not derived from std::exception, and undefined behaviour,
      come from reading a sequence of indices or numbers. *)
  Definition sequence_fails (t : tree) (m : forall A, res A) : Prop :=
    exists c, datum t c /\ (index_sequence c = m _ \/ fseq E c = m _).
End Decoded.

Section Writing.
  Context (E : floats).
  (** the values a position may be given by; [None] if missing or not a number *)
  Definition value (k : string) (t : tree) : option (num E) :=
    match kid k (t_kids t) with Some (Node s _) => readf E s | None => None end.
  (** Cartesian coordinates or angles, not both; the third coordinate is optional *)
  Inductive position_of (t : tree) : num E * num E * num E -> Prop :=
  | cartesian x y : value "az" t = None -> value "el" t = None -> value "radius" t = None ->
      value "x" t = Some x -> value "y" t = Some y ->
      position_of t (x, y, match value "z" t with Some z => z | None => f0 E end)
  | spherical az el : value "x" t = None -> value "y" t = None -> value "z" t = None ->
      value "az" t = Some az -> value "el" t = Some el ->
      position_of t (sph E az el (match value "radius" t with Some r => r | None => f1 E end)).

  (** an object that can be written *)
  Definition writable (o : obj E) : Prop :=
    match o_load (o_body o) with
    | Channel outs _ => length outs = length (o_channels (o_body o)) /\ outs <> []
    | _ => True
    end.
End Writing.
