(** Model of initFilterMatrix() of the matrix convolver (src/apps/matrix_convolver/
    init_filter_matrix.cpp; src/maxmspexternals/matrix_convolver contains a copy) and of
    MatrixParameter::fromAudioFile() (src/libpml/matrix_parameter.cpp 268-320), for a build with
    sndfile support.

    Simplifications: the file system is a function from names (relative to the working
    directory) to files, which does not change during the call; indices do not exceed the range
    of size_t; allocation does not fail. *)
From Coq Require Import Ascii.
From Verif Require Import Base Memory.
Local Open Scope res_scope.

Definition text := list ascii.
Definition comma : ascii := ",".
(** line 42: boost::is_any_of, quotation mark or space *)
Definition is_quote_or_space (c : ascii) : bool := Ascii.eqb c """" || Ascii.eqb c " ".

(** boost::split at commas: one field more than commas *)
Fixpoint split (l : text) : list text :=
  match l with
  | [] => [[]]
  | c :: l' =>
      if Ascii.eqb c comma then [] :: split l'
      else match split l' with
           | f :: fs => (c :: f) :: fs
           | [] => [[c]]
           end
  end.
(** boost::algorithm::trim_if *)
Fixpoint trim_left (l : text) : text :=
  match l with
  | c :: l' => if is_quote_or_space c then trim_left l' else l
  | [] => []
  end.
Definition trim (l : text) : text := rev (trim_left (rev (trim_left l))).
(** stringListToVec(), lines 30-45 *)
Definition string_list_to_vec (l : text) : list text :=
  match l with
  | [] => []
  | _ => map trim (split l)
  end.

(** efl::nextAlignedSize, libefl/alignment.hpp 70-86 *)
Definition next_aligned (size alignment : nat) : nat :=
  match alignment with
  | 0 => size
  | _ => if size mod alignment =? 0 then size else (size / alignment + 1) * alignment
  end.

Section FilterInit.
  Context {D : Type} (zero : D).

  (** a name can refer to something that libsndfile cannot open (or a directory), or to a sound
      file: its header announces [channels] and [frames], [samples] is what sf_read_float
      obtains, interleaved *)
  Inductive file := Unreadable | Sound (channels frames : nat) (samples : list D).
  Variable lookup : text -> option file.

  (** a MatrixParameter: number of columns, rows *)
  Definition loaded := (nat * list (list D))%type.

  (** MatrixParameter::fromAudioFile(), matrix_parameter.cpp 270-320.  The buffer that receives
      the samples is not initialised: elements that sf_read_float does not provide are
      indeterminate.  Lines 292-300 construct exceptions, but do not throw them. *)
  Definition from_audio_file (name : text) : res loaded :=
    match lookup name with
    | None | Some Unreadable => Throw InvalidArgument
    | Some (Sound numRows numCols samples) =>
        rows <- map_res (fun row =>
                  map_res (fun col =>
                    match nth_error samples (col * numRows + row) with Some x => Ok x | None => UB end)
                    (seq 0 numCols)) (seq 0 numRows) ;;
        Ok (numCols, rows)
    end.

  (** efl::BasicMatrix, libefl/basic_matrix.hpp: row(), 211, is a pointer into mData *)
  Record matrix := Matrix { m_rows : nat; m_cols : nat; m_stride : nat; m_data : list D }.
  (** resize(), 89-104 *)
  Definition m_resize (alignment rows cols : nat) : matrix :=
    let stride := next_aligned cols alignment in
    Matrix rows cols stride (repeat zero (stride * rows)).
  (** vectorCopy( src, matrix.row( row ), ... ) *)
  Definition m_write_row (m : matrix) (row : nat) (src : list D) : res matrix :=
    d <- mem_write (m_data m) (row * m_stride m) src ;; Ok (Matrix (m_rows m) (m_cols m) (m_stride m) d).

  (** lengths[ fileIdx ], startIndex[ fileIdx ], endIndex[ fileIdx ] *)
  Record info := Info { i_length : nat; i_start : nat; i_end : nat }.

  (** the first loop, lines 85-114; [offsets] are the remaining indexOffsets, if provided *)
  Fixpoint first_run (offsets : option (list nat)) (previous_end : nat) (names : list text) : res (list info) :=
    match names with
    | [] => Ok []
    | name :: names' =>
        match lookup name with
        | None => Throw InvalidArgument
        | Some _ =>
            mat <- from_audio_file name ;;
            start <- (match offsets with
                      | None => Ok previous_end
                      | Some (o :: _) => Ok o
                      | Some [] => UB
                      end) ;;
            let stop := start + length (snd mat) in
            rest <- first_run (option_map (@tl nat) offsets) stop names' ;;
            Ok (Info (fst mat) start stop :: rest)
        end
    end.

  (** the test for overlaps, lines 135-141, for the elements of orderByStartIndex from the second
      one on.  startIndex[ orderByStartIndex[ runIdx ] - 1 ] is outside the vector for file 0. *)
  Fixpoint overlap_loop (infos : list info) (order : list nat) : res unit :=
    match order with
    | [] => Ok tt
    | 0 :: _ => UB
    | S k :: order' =>
        match nth_error infos k, nth_error infos (S k) with
        | Some a, Some b => if i_end b <? i_start a then Throw InvalidArgument else overlap_loop infos order'
        | _, _ => UB
        end
    end.

  (** the inner loop of the second run, lines 157-165 *)
  Fixpoint copy_rows (m : matrix) (start : nat) (rows : list (list D)) : res matrix :=
    match rows with
    | [] => Ok m
    | row :: rows' => m' <- m_write_row m start row ;; copy_rows m' (S start) rows'
    end.
  (** lines 151-170 *)
  Fixpoint second_run (m : matrix) (names : list text) (infos : list info) : res matrix :=
    match names, infos with
    | [], _ => Ok m
    | name :: names', i :: infos' =>
        mat <- from_audio_file name ;;
        m' <- copy_rows m (i_start i) (snd mat) ;;
        second_run m' names' infos'
    | _ :: _, [] => UB
    end.

  (** std::sort of the file indices by startIndex, lines 129-134: returns orderByStartIndex *)
  Variable order_by_start : list nat -> list nat.

  Definition max_list (l : list nat) : nat := fold_right Nat.max 0 l.
  Definition exceeds (n : nat) (limit : option nat) : bool :=
    match limit with Some l => l <? n | None => false end.
  Definition or_default (limit : option nat) (n : nat) : nat := match limit with Some l => l | None => n end.

  (** initFilterMatrix(), lines 49-173.  maxFilterLength and maxFilterEntries are None for the
      special value; [alignment] is the alignment of the matrix. *)
  Definition init_filter_matrix (alignment : nat) (filterList : text) (maxFilterLength maxFilterEntries : option nat)
      (indexOffsets : list nat) : res matrix :=
    let names := string_list_to_vec filterList in
    let offsetsProvided := 0 <? length indexOffsets in
    if offsetsProvided && negb (length indexOffsets =? length names) then Throw InvalidArgument
    else
      match names with
      | [] =>
          match maxFilterLength, maxFilterEntries with
          | Some len, Some n => Ok (m_resize alignment n len)
          | _, _ => Throw InvalidArgument
          end
      | _ =>
          infos <- first_run (if offsetsProvided then Some indexOffsets else None) 0 names ;;
          let maxFilterFileLength := max_list (map i_length infos) in
          if exceeds maxFilterFileLength maxFilterLength then Throw InvalidArgument
          else
            let filterLength := or_default maxFilterLength maxFilterFileLength in
            _ <- overlap_loop infos (tl (order_by_start (map i_start infos))) ;;
            let maxUsedIndex := last (map i_end infos) 0 in
            if exceeds maxUsedIndex maxFilterEntries then Throw InvalidArgument
            else
              let numFilterEntries := or_default maxFilterEntries maxUsedIndex in
              second_run (m_resize alignment numFilterEntries filterLength) names infos
      end.
End FilterInit.
