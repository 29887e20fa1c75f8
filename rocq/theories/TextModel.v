(** Matrices and vectors from texts and from audio files.

    Sources: src/libpml/vector_parameter.cpp 99-145 205-253, src/libpml/matrix_parameter.cpp 91-223
    268-320.

    Simplifications: the number parser qi::real_parser is a parameter; the Boost.Spirit parsers behave
    as documented; the stream of fromStream() is that of fromString(), i.e. reading does not fail; the
    memory of a new array holds arbitrary numbers. *)
From Coq Require Import Ascii.
From Verif Require Import Base IndexSequenceModel.
Local Open Scope res_scope.
Local Open Scope nat_scope.

Section Texts.
  Context {num : Type}.
  (** qi::real_parser at a character that is no space: the number and the remaining text *)
  Variable lex : text -> option (num * text).
  Definition real (l : text) : option (num * text) := lex (skip l).

  (** the repetition in [real % -char_( ',' )], after an element: the separator is taken back if no
      element follows *)
  Fixpoint list_rest (fuel : nat) (l : text) : list num * text :=
    match fuel with
    | O => ([], l)
    | S f =>
        let l1 := match parse_char "," l with Some r => r | None => l end in
        match real l1 with
        | None => ([], l)
        | Some (x, r) => let (xs, u) := list_rest f r in (x :: xs, u)
        end
    end.
  Definition one_list (l : text) : option (list num * text) :=
    match real l with
    | None => None
    | Some (x, r) => let (xs, u) := list_rest (length r) r in Some (x :: xs, u)
    end.
  (** [*( ... )] around the list *)
  Fixpoint lists (fuel : nat) (l : text) : list num * text :=
    match fuel with
    | O => ([], l)
    | S f =>
        match one_list l with
        | None => ([], l)
        | Some (xs, r) => let (ys, u) := lists f r in (xs ++ ys, u)
        end
    end.
  (** [*( char_( '%' ) >> *char_ )]: the inner repetition takes everything *)
  Definition comment (l : text) : text :=
    match parse_char "%" l with Some _ => [] | None => l end.
  (** qi::phrase_parse() and the test startIt != endIt: vector_parameter.cpp 110-128,
      matrix_parameter.cpp 157-176 *)
  Definition parse_row (l : text) : option (list num) :=
    let (v, r) := lists (length l) l in
    match skip (comment r) with
    | [] => Some v
    | _ => None
    end.

  (** VectorParameter::fromString(), vector_parameter.cpp 99-136 *)
  Definition vector_fromString (l : text) : res (list num) :=
    match parse_row l with
    | None => Throw InvalidArgument
    | Some v => Ok v
    end.

  (** the pieces of a text between the characters for which [sep] holds: std::getline() until eof()
      for the lines, find_first_of( ";" ) in a line *)
  Fixpoint pieces (sep : ascii -> bool) (l : text) : list text :=
    match l with
    | [] => [[]]
    | c :: r =>
        if sep c then [] :: pieces sep r
        else match pieces sep r with
             | p :: ps => (c :: p) :: ps
             | [] => [[c]]
             end
    end.
  Definition newline : ascii := ascii_of_nat 10.
  Definition is_newline (c : ascii) : bool := Ascii.eqb c newline.
  Definition is_semicolon (c : ascii) : bool := Ascii.eqb c ";".

  Record storage := Storage { tmpStorage : list (list num); minSize : option nat; maxSize : nat }.
  (** the body of the inner loop, matrix_parameter.cpp 148-188; minSize = None is
      numeric_limits<size_t>::max() *)
  Definition add_row (s : storage) (l : text) : res storage :=
    match parse_row l with
    | None => Throw InvalidArgument
    | Some v =>
        let n := length v in
        if n =? 0 then Ok s
        else Ok (Storage (tmpStorage s ++ [v])
                         (Some (match minSize s with None => n | Some k => Nat.min k n end))
                         (Nat.max (maxSize s) n))
    end.
  Fixpoint add_rows (s : storage) (ls : list text) : res storage :=
    match ls with
    | [] => Ok s
    | l :: ls' => s' <- add_row s l ;; add_rows s' ls'
    end.
  Fixpoint add_lines (s : storage) (lines : list text) : res storage :=
    match lines with
    | [] => Ok s
    | l :: ls' => s' <- add_rows s (pieces is_semicolon l) ;; add_lines s' ls'
    end.
  Record matrix := Matrix { m_rows : nat; m_columns : nat; m_data : list (list num) }.
  (** MatrixParameter::fromString(), fromStream(), matrix_parameter.cpp 91-212 *)
  Definition matrix_fromString (l : text) : res matrix :=
    s <- add_lines (Storage [] None 0) (pieces is_newline l) ;;
    match minSize s with
    | None => Ok (Matrix 0 0 [])
    | Some k =>
        if negb (k =? maxSize s) then Throw InvalidArgument
        else Ok (Matrix (length (tmpStorage s)) k (tmpStorage s))
    end.

  (** *** Audio files *)
  (** what exists() and sf_open() tell about the file, and the samples that sf_read_float() delivers *)
  Record sound := Sound { channels : nat; frames : nat; samples : list num }.
  Inductive file := NoFile | Unreadable | SoundFile (s : sound).
  (** the contents of an array of [n] elements after reading; [old] is what the memory held before *)
  Definition read_samples (old : nat -> num) (s : sound) (n : nat) : list num :=
    map (fun i => nth i (samples s) (old i)) (seq 0 n).
  (** VectorParameter::fromAudioFile(), vector_parameter.cpp 205-253: an exception for a wrong number
      of samples is constructed, but not thrown *)
  Definition vector_fromAudioFile (old : nat -> num) (f : file) : res (list num) :=
    match f with
    | NoFile | Unreadable => Throw InvalidArgument
    | SoundFile s =>
        if negb (channels s =? 1) then Throw InvalidArgument
        else Ok (read_samples old s (frames s))
    end.
  (** MatrixParameter::fromAudioFile(), matrix_parameter.cpp 268-320 *)
  Definition matrix_fromAudioFile (old : nat -> num) (f : file) : res matrix :=
    match f with
    | NoFile | Unreadable => Throw InvalidArgument
    | SoundFile s =>
        let numRows := channels s in
        let numCols := frames s in
        let tmp := read_samples old s (numRows * numCols) in
        Ok (Matrix numRows numCols
              (map (fun row => map (fun col => nth (col * numRows + row) tmp (old 0)) (seq 0 numCols)) (seq 0 numRows)))
    end.
End Texts.
Arguments matrix num : clear implicits.
Arguments file num : clear implicits.
Arguments sound num : clear implicits.
