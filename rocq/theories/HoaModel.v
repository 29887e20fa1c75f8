(** Model of the decoding of higher-order Ambisonics objects, rcl::HoaAllRadGainCalculator
    (src/librcl/hoa_allrad_gain_calculator.cpp/.hpp), panning::AllRAD (src/libpanning/AllRAD.cpp/.h),
    efl::product (src/libefl/matrix_functions.cpp) with efl::BasicMatrix (src/libefl/basic_matrix.hpp),
    and of rcl::DiffusionGainCalculator (src/librcl/diffusion_gain_calculator.cpp).

    The sample type and its operations are arbitrary.  The gains of the panning::VBAP object are an
    arbitrary function of listener and source position (VbapModel.v has the calculation).  Accesses
    outside the memory of a matrix are undefined behaviour.  Simplified: the status message of an
    error is a flag; sizes do not overflow, except in the comparison of the order of an object, which
    is of type unsigned int; std::sqrt and std::ceil are exact; the
    alignment of the pointers given to vectorCopy() is right. *)
From Coq Require Import ZArith.
From Verif Require Import Base Memory.
Local Open Scope res_scope.

Section Hoa.
  Variable F : Type.
  Variables (zero one : F) (add mul : F -> F -> F).

  (** *** efl::BasicMatrix *)
  Record matrix := Matrix { m_rows : nat; m_cols : nat; m_stride : nat; m_data : list F }.
  (** nextAlignedSize, alignment.hpp 70-86 *)
  Definition nextAlignedSize (size alignment : nat) : nat :=
    if alignment =? 0 then size
    else let rem := size mod alignment in if rem =? 0 then size else size + alignment - rem.
  (** constructor, basic_matrix.hpp 43-50: the elements are zero *)
  Definition matrix_new (rows cols alignment : nat) : matrix :=
    let stride := nextAlignedSize cols alignment in Matrix rows cols stride (repeat zero (stride * rows)).
  (** operator(), 179-187: no check *)
  Definition get (m : matrix) (r c : nat) : res F :=
    match nth_error (m_data m) (r * m_stride m + c) with Some x => Ok x | None => UB end.
  Definition with_data (m : matrix) (d : list F) : matrix := Matrix (m_rows m) (m_cols m) (m_stride m) d.
  Definition set (m : matrix) (r c : nat) (x : F) : res matrix :=
    d <- mem_write (m_data m) (r * m_stride m + c) [x] ;; Ok (with_data m d).
  (** row() with a write of all elements of [l], 211 *)
  Definition set_row (m : matrix) (r : nat) (l : list F) : res matrix :=
    d <- mem_write (m_data m) (r * m_stride m) l ;; Ok (with_data m d).
  (** copy(), 145-169 *)
  Definition copy (m rhs : matrix) : res matrix :=
    if negb (m_rows m =? m_rows rhs) || negb (m_cols m =? m_cols rhs) then Throw InvalidArgument
    else if m_stride rhs =? m_stride m then
      l <- mem_read (m_data rhs) 0 (m_rows m * m_stride m) ;; set_row m 0 l
    else
      fold_left (fun r row => m' <- r ;; l <- mem_read (m_data rhs) (row * m_stride rhs) (m_cols m) ;; set_row m' row l)
        (seq 0 (m_rows m)) (Ok m).

  (** *** efl::product, matrix_functions.cpp 19-53, with column strides 1 *)
  Definition product_cell (op1 op2 : list F) (stride1 stride2 n row col : nat) : res F :=
    fold_left (fun r k => v <- r ;;
                 x <- match nth_error op1 (row * stride1 + k) with Some x => Ok x | None => UB end ;;
                 y <- match nth_error op2 (col + k * stride2) with Some y => Ok y | None => UB end ;;
                 Ok (add v (mul x y))) (seq 0 n) (Ok zero).
  Definition product (op1 op2 out : list F) (rows cols n stride1 stride2 stride : nat) : res (list F) :=
    fold_left (fun r row => out <- r ;;
      fold_left (fun r col => out <- r ;;
        v <- product_cell op1 op2 stride1 stride2 n row col ;;
        mem_write out (row * stride + col) [v]) (seq 0 cols) (Ok out)) (seq 0 rows) (Ok out).

  (** *** panning::AllRAD *)
  Definition pos := (F * F * F)%type.
  (** panning::LoudspeakerArray: positions of the regular loudspeakers followed by the virtual ones,
      number of regular ones *)
  Record array := Array { a_positions : list pos; a_regular : nat }.
  Definition getNumSpeakers (a : array) : nat := length (a_positions a).
  (** the gains that VBAP::calculateGains() writes for the real array, given the position of the
      listener and of the source; their number is [real] *)
  Variable real : nat.
  Variable vbap : pos -> pos -> list F.

  Record allrad := AllRad {
    r_positions : matrix;      (* mRegularLoudspeakerPositions *)
    r_listener : pos;          (* position of the listener in mRealDecoder *)
    r_harmonics : nat;         (* mNumberOfHarmonics *)
    r_coefficients : matrix;   (* mRegularDecodeCoefficients *)
    r_decode : matrix;         (* mRealDecodeCoefficients *)
    r_size : nat;              (* mRegularArraySize *)
    r_transfer : matrix        (* mRegularToRealDecodeCoefficients *)
  }.
  (** updateDecodingCoefficients(), AllRAD.cpp 62-91 *)
  Definition updateDecodingCoefficients (a : allrad) : res allrad :=
    t <- fold_left (fun r spk => t <- r ;;
           x <- get (r_positions a) spk 0 ;; y <- get (r_positions a) spk 1 ;; z <- get (r_positions a) spk 2 ;;
           set_row t spk (vbap (r_listener a) (x, y, z))) (seq 0 (r_size a)) (Ok (r_transfer a)) ;;
    d <- product (m_data (r_coefficients a)) (m_data t) (m_data (r_decode a)) (r_harmonics a) (m_cols (r_decode a)) (r_size a)
           (m_stride (r_coefficients a)) (m_stride t) (m_stride (r_decode a)) ;;
    Ok (AllRad (r_positions a) (r_listener a) (r_harmonics a) (r_coefficients a) (with_data (r_decode a) d) (r_size a) t).
  (** setListenerPosition(), 51-55 *)
  Definition set_listener (a : allrad) (p : pos) : res allrad :=
    updateDecodingCoefficients (AllRad (r_positions a) p (r_harmonics a) (r_coefficients a) (r_decode a) (r_size a) (r_transfer a)).
  (** copy of the positions of the regular loudspeakers, 40-46; getPosition() is within the list *)
  Definition store_positions (a : array) (m : matrix) : res matrix :=
    fold_left (fun r spk => m <- r ;;
        match nth_error (a_positions a) spk with
        | Some (x, y, z) => m1 <- set m spk 0 x ;; m2 <- set m1 spk 1 y ;; set m2 spk 2 z
        | None => UB
        end) (seq 0 (a_regular a)) (Ok m).
  (** constructor, 20-49; the listener of the VBAP object is in the origin (VBAP.h) *)
  Definition allrad_new (regular : array) (coeffs : matrix) (alignment order : nat) : res allrad :=
    let harmonics := (order + 1) * (order + 1) in
    let size := getNumSpeakers regular in
    if negb (m_rows coeffs =? harmonics) then Throw InvalidArgument
    else if negb (m_cols coeffs =? size) then Throw InvalidArgument
    else
      positions <- store_positions regular (matrix_new (a_regular regular) 3 alignment) ;;
      c <- copy (matrix_new (m_rows coeffs) (m_cols coeffs) alignment) coeffs ;;
      updateDecodingCoefficients
        (AllRad positions (zero, zero, zero) harmonics c (matrix_new harmonics real alignment) size (matrix_new size real alignment)).

  (** *** rcl::HoaAllRadGainCalculator *)
  Record hoa := Hoa { h_allrad : allrad; h_output : matrix }.
  (** constructor, hoa_allrad_gain_calculator.cpp 23-65; the matrix of the gain output has [real] rows and [channels] columns *)
  Definition hoa_new (channels : nat) (regular : array) (decode : matrix) (alignment : nat) (listener : pos) : res hoa :=
    let numHarmonics := m_rows decode in
    let order := Nat.sqrt_up numHarmonics - 1 in
    if negb ((order + 1) * (order + 1) =? numHarmonics) || (numHarmonics =? 0) then Throw InvalidArgument
    else if negb (m_cols decode =? getNumSpeakers regular) then Throw InvalidArgument
    else
      c <- copy (matrix_new (m_rows decode) (a_regular regular) alignment) decode ;;
      a <- allrad_new regular c alignment order ;;
      a' <- set_listener a listener ;;
      Ok (Hoa a' (matrix_new real channels alignment)).

  (** objectmodel::HoaSource: channel indices, order; all other types *)
  Inductive object := HoaSource (channels : list nat) (order : Z) | OtherObject.
  Definition word32 : Z := (2 ^ 32)%Z.
  (** 120-131: the signals of an object from index [sig] on; false: exception *)
  Fixpoint decode_signals (gains out : matrix) (sig : nat) (channels : list nat) : res (matrix * bool) :=
    match channels with
    | [] => Ok (out, true)
    | ch :: channels' =>
        if m_cols out <=? ch then Ok (out, false)
        else
          out' <- fold_left (fun r spk => o <- r ;; x <- get gains sig spk ;; set o spk ch x) (seq 0 (m_rows out)) (Ok out) ;;
          decode_signals gains out' (S sig) channels'
    end.
  (** 104-138: false: return after an exception *)
  Fixpoint decode_objects (gains out : matrix) (objects : list object) : res (matrix * bool) :=
    match objects with
    | [] => Ok (out, true)
    | OtherObject :: objects' => decode_objects gains out objects'
    | HoaSource channels order :: objects' =>
        if negb (Z.of_nat (length channels) =? (((order + 1) mod word32) * ((order + 1) mod word32)) mod word32)%Z then Ok (out, false)
        else
          ' (out', ok) <- decode_signals gains out 0 channels ;;
          if ok : bool then decode_objects gains out' objects' else Ok (out', false)
    end.
  (** process(), 81-140: [changed] is the listener position if it has changed; the result tells
      whether the changed flag of the object input is reset *)
  Definition process (h : hoa) (changed : option pos) (input : matrix) (objects : list object) : res (hoa * bool) :=
    a <- match changed with Some p => set_listener (h_allrad h) p | None => Ok (h_allrad h) end ;;
    out <- copy (h_output h) input ;;
    ' (out', ok) <- decode_objects (r_decode a) out objects ;;
    Ok (Hoa a out', ok).

  (** *** rcl::DiffusionGainCalculator *)
  Inductive diffuse_type := DiffuseSource | PointSourceWithDiffuseness (diffuseness : F) | OtherType.
  (** processInternal(), diffusion_gain_calculator.cpp 50-91: channels and type of the objects *)
  Definition diffuse_object (channels : nat) (gains : list F) (o : list nat * diffuse_type) : list F :=
    match fst o with
    | [ch] =>
        if channels <=? ch then gains
        else
          let v := match snd o with DiffuseSource => one | PointSourceWithDiffuseness d => d | OtherType => zero end in
          firstn ch gains ++ v :: skipn (S ch) gains
    | _ => gains
    end.
  (** process(), 38-48: the first row of the matrix of the gain output *)
  Definition diffuse_process (channels : nat) (gains : list F) (objects : list (list nat * diffuse_type)) : res (list F) :=
    if negb (length gains =? channels) then Throw InvalidArgument
    else Ok (fold_left (diffuse_object channels) objects (repeat zero (length gains))).
End Hoa.
