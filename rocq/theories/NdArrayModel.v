(** Model of the conversions between numpy arrays and the containers of libefl, below
    src/python/libpythonbindinghelpers: matrix_from_ndarray.hpp, ndarray_from_basic_matrix.hpp,
    vector_from_ndarray.hpp, ndarray_from_basic_vector.hpp, container_access.hpp.

    A numpy array is a view into a buffer.  Simplifications: offsets and strides are multiples of the
    element size (they are counted in elements here, in bytes in the code); alignments are 0 or a power of two;
    allocation does not fail. *)
From Coq Require Import ZArith.
From Verif Require Import Base Memory FilterInitModel.
Local Open Scope res_scope.

Section NdArray.
  Context {D : Type} (zero : D).
  (** the buffer, the position of the element with all indices 0, numbers of elements and strides for each
      dimension, whether the element type is D, whether the array is writeable *)
  Record ndarray := NdArray { buffer : list D; offset : Z; shape : list nat; strides : list Z; same_dtype : bool; writeable : bool }.
  (** address of an element: array.data( i, ... ) of pybind11 *)
  Fixpoint address (base : Z) (strides : list Z) (index : list nat) : Z :=
    match strides, index with
    | s :: ss, i :: is => address (base + Z.of_nat i * s)%Z ss is
    | _, _ => base
    end.
  Definition load (a : ndarray) (index : list nat) : res D :=
    let p := address (offset a) (strides a) index in
    if (p <? 0)%Z then UB else match nth_error (buffer a) (Z.to_nat p) with Some x => Ok x | None => UB end.
  Definition ndim (a : ndarray) : nat := length (shape a).

  (** ret( row, col ) = x *)
  Definition m_set (m : matrix (D := D)) (row col : nat) (x : D) : res (matrix (D := D)) :=
    d <- mem_write (m_data m) (row * m_stride m + col) [x] ;; Ok (Matrix (m_rows m) (m_cols m) (m_stride m) d).
  (** the loops, matrix_from_ndarray.hpp 38-44, as one loop over the pairs of indices in their order *)
  Fixpoint fill (a : ndarray) (idxs : list (nat * nat)) (m : matrix (D := D)) : res (matrix (D := D)) :=
    match idxs with
    | [] => Ok m
    | (row, col) :: idxs' => x <- load a [row; col] ;; m' <- m_set m row col x ;; fill a idxs' m'
    end.
  (** matrixFromNdArray, matrix_from_ndarray.hpp 23-46 *)
  Definition matrixFromNdArray (a : ndarray) (alignment : nat) : res (matrix (D := D)) :=
    match shape a with
    | [numRows; numCols] =>
        if negb (same_dtype a) then Throw InvalidArgument
        else fill a (list_prod (seq 0 numRows) (seq 0 numCols)) (m_resize zero alignment numRows numCols)
    | _ => Throw InvalidArgument
    end.
  (** ndArrayFromBasicMatrix, ndarray_from_basic_matrix.hpp 22-43: pybind11 copies the elements that shape and strides
      describe; simplification: the model keeps the layout of the matrix, the copy may be denser *)
  Definition ndArrayFromBasicMatrix (m : matrix (D := D)) : ndarray :=
    NdArray (m_data m) 0 [m_rows m; m_cols m] [Z.of_nat (m_stride m); 1%Z] true true.

  (** vectorFromNdArray, vector_from_ndarray.hpp 25-44; a BasicVector is the list of its elements *)
  Fixpoint fill_vector (a : ndarray) (idxs : list nat) (v : list D) : res (list D) :=
    match idxs with
    | [] => Ok v
    | i :: idxs' => x <- load a [i] ;; v' <- mem_write v i [x] ;; fill_vector a idxs' v'
    end.
  Definition vectorFromNdArray (a : ndarray) : res (list D) :=
    match shape a with
    | [n] => if negb (same_dtype a) then Throw InvalidArgument else fill_vector a (seq 0 n) (repeat zero n)
    | _ => Throw InvalidArgument
    end.
  (** ndArrayFromBasicVector, ndarray_from_basic_vector.hpp 24-29 *)
  Definition ndArrayFromBasicVector (v : list D) : ndarray := NdArray v 0 [length v] [1%Z] true true.

  (** static_cast< ssize_t > of a std::size_t *)
  Definition to_ssize (n : Z) : Z := if (n <? 2 ^ 63)%Z then n else (n - 2 ^ 64)%Z.
  (** ContainerAccess< PyArray, T >::mutablePointer and constantPointer, container_access.hpp 72-108.  The result is a
      position in the buffer.  mutable_data() of pybind11 throws std::domain_error, a std::logic_error, for an array
      that is not writeable. *)
  Definition pointer (mutable : bool) (a : ndarray) (requestedSize : Z) : res Z :=
    if negb (ndim a =? 1) then Throw InvalidArgument
    else
      match strides a, shape a with
      | s :: _, n :: _ =>
          if negb (s =? 1)%Z then Throw InvalidArgument
          else if (Z.of_nat n <? to_ssize requestedSize)%Z then Throw InvalidArgument
          else if mutable && negb (writeable a) then Throw LogicError
          else Ok (offset a)
      | _, _ => UB
      end.
  (** ContainerAccess< efl::BasicVector, T >::mutablePointer and constantPointer, 48-66 *)
  Definition vector_pointer (v : list D) (requestedSize : Z) : res nat :=
    if (Z.of_nat (length v) <? requestedSize)%Z then Throw InvalidArgument else Ok 0.
End NdArray.
