(** C97: conversions between numpy arrays and containers (src/python/libpythonbindinghelpers). *)
From Coq Require Import ZArith.
From Verif Require Import Base Memory FilterInitModel FilterInitSpec FilterInitProofs NdArrayModel.

Section Props.
  Context {D : Type} (zero : D).
  (** the element of an array: in numpy the one at the position offset + sum of index times stride *)
  Fixpoint dot (index : list nat) (strides : list Z) : Z :=
    match index, strides with i :: is, s :: ss => (Z.of_nat i * s + dot is ss)%Z | _, _ => 0%Z end.
  Definition value (a : ndarray (D := D)) (index : list nat) : option D :=
    let p := (offset a + dot index (strides a))%Z in if (p <? 0)%Z then None else nth_error (buffer a) (Z.to_nat p).
  (** the indices of an array *)
  Definition index_of (a : ndarray (D := D)) (index : list nat) : Prop := Forall2 lt index (NdArrayModel.shape a).
  (** numpy guarantees that there is a stride for each dimension, and that all elements are in the buffer *)
  Definition well_formed (a : ndarray (D := D)) : Prop :=
    length (strides a) = ndim a /\ forall index, index_of a index -> value a index <> None.

  Lemma address_dot ss : forall index base, address base ss index = (base + dot index ss)%Z.
  Proof. induction ss as [|s ss IH]; intros [|i index] base; cbn [address dot]; try lia. rewrite IH. lia. Qed.
  Lemma load_value a index x : value a index = Some x -> load a index = Ok x.
  Proof. unfold value, load. rewrite address_dot. destruct (_ <? 0)%Z; [discriminate|]. now intros ->. Qed.

  (** Accesses outside the buffer, on either side, are errors in the model. *)
  Theorem C97_load : forall a index x, load a index = Ok x <-> value a index = Some x.
  Proof.
    intros a index x. split; [|apply load_value]. unfold value, load. rewrite address_dot. destruct (_ <? 0)%Z; [discriminate|]. destruct (nth_error _ _); congruence.
  Qed.

  Lemma set_ok m r c x : FilterInitProofs.shape m -> r < m_rows m -> c < m_cols m ->
    exists m', m_set (D := D) m r c x = Ok m' /\ FilterInitProofs.shape m' /\ m_rows m' = m_rows m /\ m_cols m' = m_cols m
      /\ forall i j, j < m_cols m -> element m' i j = if (i =? r) && (j =? c) then Some x else element m i j.
  Proof.
    intros [S1 S2] Hr Hc. unfold m_set. destruct (mem_write_ok (m_data m) (r * m_stride m + c) [x]) as (d & E & L & N); [cbn [length]; nia|].
    rewrite E. cbn [bind]. eexists. split; [reflexivity|]. split; [split; cbn [m_data m_stride m_rows m_cols]; [lia|exact S2]|]. split; [reflexivity|]. split; [reflexivity|].
    intros i j Hj. unfold element. cbn [m_data m_stride]. rewrite N. cbn [length].
    destruct (Nat.leb_spec (r * m_stride m + c) (i * m_stride m + j)), (Nat.ltb_spec (i * m_stride m + j) (r * m_stride m + c + 1)); cbn [andb];
      destruct (Nat.eqb_spec i r) as [->|Ni], (Nat.eqb_spec j c) as [->|Nj]; cbn [andb]; try reflexivity; try (exfalso; nia).
    replace (r * m_stride m + c - (r * m_stride m + c)) with 0 by lia. reflexivity.
  Qed.
  Lemma fill_ok a idxs : forall m, FilterInitProofs.shape m ->
    (forall i j, In (i, j) idxs -> i < m_rows m /\ j < m_cols m /\ value a [i; j] <> None) ->
    exists m', fill a idxs m = Ok m' /\ FilterInitProofs.shape m' /\ m_rows m' = m_rows m /\ m_cols m' = m_cols m
      /\ forall i j, j < m_cols m -> (In (i, j) idxs -> element m' i j = value a [i; j]) /\ (~ In (i, j) idxs -> element m' i j = element m i j).
  Proof.
    induction idxs as [|[r c] idxs IH]; intros m S B; cbn [fill].
    - exists m. split; [reflexivity|]. split; [exact S|]. repeat split; auto. intros [].
    - destruct (B r c) as (Hr & Hc & Hv); [now left|]. destruct (value a [r; c]) as [x|] eqn:V; [|contradiction]. rewrite (load_value _ _ _ V). cbn [bind].
      destruct (set_ok m r c x S Hr Hc) as (m1 & E1 & S1 & R1 & C1 & X1). rewrite E1. cbn [bind].
      destruct (IH m1 S1) as (m2 & E2 & S2 & R2 & C2 & X2); [intros i j I; rewrite R1, C1; apply B; now right|].
      exists m2. split; [exact E2|]. split; [exact S2|]. split; [congruence|]. split; [congruence|]. intros i j Hj. specialize (X1 i j Hj). rewrite <- C1 in Hj. destruct (X2 i j Hj) as [Y1 Y2].
      assert (Dec : In (i, j) idxs \/ ~ In (i, j) idxs) by (destruct (in_dec (fun p q : nat * nat => ltac:(decide equality; apply Nat.eq_dec)) (i, j) idxs); auto).
      destruct Dec as [I|I].
      + split; [auto|]. intros N. exfalso. apply N. now right.
      + rewrite (Y2 I), X1. clear Y1 Y2 X1 X2. destruct (Nat.eqb_spec i r) as [Ei|Ni]; cbn [andb]; [destruct (Nat.eqb_spec j c) as [Ej|Nj]|].
        * rewrite Ei, Ej, V. split; intros H; [reflexivity|]. exfalso. apply H. now left.
        * split; intros H; [|reflexivity]. destruct H as [H|H]; [congruence|contradiction].
        * split; intros H; [|reflexivity]. destruct H as [H|H]; [congruence|contradiction].
  Qed.
  (** Every two-dimensional array of the element type, whatever its strides, becomes a matrix with the same
      elements; everything else is rejected. *)
  Theorem C97_matrix : forall a alignment r c, well_formed a -> NdArrayModel.shape a = [r; c] -> same_dtype a = true ->
    exists m, matrixFromNdArray zero a alignment = Ok m /\ FilterInitProofs.shape m /\ m_rows m = r /\ m_cols m = c
      /\ forall i j, i < r -> j < c -> element m i j = value a [i; j].
  Proof.
    intros a alignment r c [W1 W2] S T. unfold matrixFromNdArray. rewrite S, T. cbn [negb].
    destruct (fill_ok a (list_prod (seq 0 r) (seq 0 c)) (m_resize zero alignment r c) (resize_shape zero alignment r c)) as (m & E & Sm & R & C & X).
    - intros i j I. apply in_prod_iff in I as [I J]. apply in_seq in I, J. unfold m_resize. cbn [m_rows m_cols]. split; [lia|]. split; [lia|].
      apply W2. unfold index_of. rewrite S. repeat constructor; lia.
    - exists m. split; [exact E|]. split; [exact Sm|]. split; [exact R|]. split; [exact C|]. intros i j Hi Hj. apply X; [unfold m_resize; cbn [m_cols]; exact Hj|].
      apply in_prod_iff. split; apply in_seq; lia.
  Qed.
  Theorem C97_matrix_rejected : forall a alignment, length (NdArrayModel.shape a) <> 2 \/ same_dtype a = false ->
    matrixFromNdArray zero a alignment = Throw InvalidArgument.
  Proof.
    intros a alignment H. unfold matrixFromNdArray. destruct (NdArrayModel.shape a) as [|r [|c [|]]]; try reflexivity. destruct H as [H|H]; [cbn in H; lia|]. now rewrite H.
  Qed.
  (** The array for a matrix has its elements. *)
  Theorem C97_from_matrix : forall m, FilterInitProofs.shape m ->
    let a := ndArrayFromBasicMatrix (D := D) m in
    well_formed a /\ NdArrayModel.shape a = [m_rows m; m_cols m] /\ forall i j, i < m_rows m -> j < m_cols m -> value a [i; j] = element m i j.
  Proof.
    intros m [S1 S2]. cbv zeta.
    assert (V : forall i j, i < m_rows m -> j < m_cols m -> value (ndArrayFromBasicMatrix m) [i; j] = element m i j).
    { intros i j Hi Hj. unfold value, element. cbn [ndArrayFromBasicMatrix offset strides buffer dot].
      replace (0 + (Z.of_nat i * Z.of_nat (m_stride m) + (Z.of_nat j * 1 + 0)))%Z with (Z.of_nat (i * m_stride m + j)) by lia.
      destruct (Z.ltb_spec (Z.of_nat (i * m_stride m + j)) 0); [lia|]. now rewrite Nat2Z.id. }
    split; [|split; [reflexivity|exact V]]. split; [reflexivity|]. intros index I. unfold index_of in I. cbn [ndArrayFromBasicMatrix NdArrayModel.shape] in I.
    inversion I as [|i ? is ? Hi I1]; subst. inversion I1 as [|j ? js ? Hj I2]; subst. inversion I2; subst. rewrite V by assumption. unfold element. apply nth_error_Some. nia.
  Qed.
  (** Array to matrix to array keeps shape and elements. *)
  Theorem C97_round_trip : forall a alignment r c m, well_formed a -> NdArrayModel.shape a = [r; c] -> matrixFromNdArray zero a alignment = Ok m ->
    NdArrayModel.shape (ndArrayFromBasicMatrix m) = [r; c] /\ forall i j, i < r -> j < c -> value (ndArrayFromBasicMatrix m) [i; j] = value a [i; j].
  Proof.
    intros a alignment r c m W S E. destruct (same_dtype a) eqn:T; [|rewrite C97_matrix_rejected in E by auto; discriminate].
    destruct (C97_matrix a alignment r c W S T) as (m' & E' & Sm & R & C & X). assert (m' = m) by congruence. subst m'. destruct (C97_from_matrix m Sm) as (_ & S' & V).
    rewrite R, C in *. split; [exact S'|]. intros i j Hi Hj. rewrite V, X; auto.
  Qed.

  (** ** Vectors *)
  Lemma fill_vector_ok a idxs : forall v, (forall i, In i idxs -> i < length v /\ value a [i] <> None) ->
    exists v', fill_vector a idxs v = Ok v' /\ length v' = length v /\ forall i, (In i idxs -> nth_error v' i = value a [i]) /\ (~ In i idxs -> nth_error v' i = nth_error v i).
  Proof.
    induction idxs as [|k idxs IH]; intros v B; cbn [fill_vector].
    - exists v. repeat split; auto. intros [].
    - destruct (B k) as [Hk Hv]; [now left|]. destruct (value a [k]) as [x|] eqn:V; [|contradiction]. rewrite (load_value _ _ _ V). cbn [bind].
      destruct (mem_write_ok v k [x]) as (v1 & E1 & L1 & X1); [cbn [length]; lia|]. rewrite E1. cbn [bind].
      destruct (IH v1) as (v2 & E2 & L2 & X2); [intros i I; rewrite L1; apply B; now right|]. exists v2. split; [exact E2|]. split; [congruence|]. intros i. destruct (X2 i) as [Y1 Y2].
      destruct (in_dec Nat.eq_dec i idxs) as [I|I]; [split; [auto|intros N; exfalso; apply N; now right]|]. rewrite (Y2 I), X1. cbn [length].
      destruct (Nat.leb_spec k i), (Nat.ltb_spec i (k + 1)); cbn [andb]; split; intros H'; try reflexivity;
        try (assert (i = k) by lia; subst i; rewrite V, Nat.sub_diag; reflexivity); try (exfalso; apply H'; left; lia); destruct H' as [H'|H']; try lia; contradiction.
  Qed.
  Theorem C97_vector : forall a n, well_formed a -> NdArrayModel.shape a = [n] -> same_dtype a = true ->
    exists v, vectorFromNdArray zero a = Ok v /\ length v = n /\ (forall i, i < n -> nth_error v i = value a [i])
      /\ NdArrayModel.shape (ndArrayFromBasicVector v) = [n] /\ forall i, i < n -> value (ndArrayFromBasicVector v) [i] = value a [i].
  Proof.
    intros a n [W1 W2] S T. unfold vectorFromNdArray. rewrite S, T. cbn [negb].
    destruct (fill_vector_ok a (seq 0 n) (repeat zero n)) as (v & E & L & X).
    - intros i I. apply in_seq in I. rewrite repeat_length. split; [lia|]. apply W2. unfold index_of. rewrite S. repeat constructor. lia.
    - rewrite repeat_length in L. assert (V : forall i, i < n -> nth_error v i = value a [i]) by (intros i Hi; apply X, in_seq; lia).
      exists v. split; [exact E|]. split; [exact L|]. split; [exact V|]. split; [cbn; now rewrite L|]. intros i Hi. rewrite <- V by exact Hi.
      unfold value. cbn [ndArrayFromBasicVector offset strides buffer dot]. replace (0 + (Z.of_nat i * 1 + 0))%Z with (Z.of_nat i) by lia.
      destruct (Z.ltb_spec (Z.of_nat i) 0); [lia|]. now rewrite Nat2Z.id.
  Qed.
  Theorem C97_vector_rejected : forall a, length (NdArrayModel.shape a) <> 1 \/ same_dtype a = false -> vectorFromNdArray zero a = Throw InvalidArgument.
  Proof.
    intros a H. unfold vectorFromNdArray. destruct (NdArrayModel.shape a) as [|n [|]]; try reflexivity. destruct H as [H|H]; [cbn in H; lia|]. now rewrite H.
  Qed.

  (** ** Access to arrays by pointers *)
  (** For sizes below 2^63, a pointer is returned if and only if the array has one dimension, is contiguous, large
      enough, and writeable if that is needed; then the elements behind the pointer are those of the array. *)
  Theorem C97_pointer_partial : forall mutable a n, well_formed a -> (0 <= n < 2 ^ 63)%Z ->
    let accessible := exists size, NdArrayModel.shape a = [size] /\ strides a = [1%Z] /\ (n <= Z.of_nat size)%Z in
    match pointer mutable a n with
    | Ok p => accessible /\ (mutable = true -> writeable a = true)
        /\ forall k, (Z.of_nat k < n)%Z -> (0 <= p + Z.of_nat k)%Z /\ nth_error (buffer a) (Z.to_nat (p + Z.of_nat k)) = value a [k] /\ value a [k] <> None
    | Throw LogicError => accessible /\ mutable = true /\ writeable a = false
    | Throw x => x = InvalidArgument /\ ~ accessible
    | UB => False
    end.
  Proof.
    intros mutable a n [W1 W2] B. cbv zeta. unfold pointer, to_ssize. unfold ndim in *. destruct (Z.ltb_spec n (2 ^ 63)); [|lia].
    destruct (Nat.eqb_spec (length (NdArrayModel.shape a)) 1) as [L|N]; cbn [negb].
    - destruct (NdArrayModel.shape a) as [|size [|]] eqn:S; try discriminate. destruct (strides a) as [|s [|]] eqn:R; try discriminate.
      destruct (Z.eqb_spec s 1) as [->|N]; cbn [negb]; [|split; [reflexivity|intros (? & _ & X & _); congruence]].
      destruct (Z.ltb_spec (Z.of_nat size) n) as [X|X]; [split; [reflexivity|]; intros (size' & E & _ & Y); injection E as <-; lia|].
      assert (A : exists size0, [size] = [size0] /\ [1%Z] = [1%Z] /\ (n <= Z.of_nat size0)%Z) by (exists size; auto).
      destruct mutable, (writeable a) eqn:Wr; cbn [andb negb]; try (split; [exact A|split; reflexivity]);
        (split; [exact A|]; split; [congruence|]; intros k Hk; assert (V : value a [k] <> None) by (apply W2; unfold index_of; rewrite S; repeat constructor; lia);
         revert V; unfold value; rewrite R; cbn [dot]; replace (offset a + (Z.of_nat k * 1 + 0))%Z with (offset a + Z.of_nat k)%Z by lia;
         destruct (Z.ltb_spec (offset a + Z.of_nat k) 0); [contradiction|]; auto).
    - split; [reflexivity|]. intros (size & S & _). rewrite S in N. contradiction N. reflexivity.
  Qed.
  (** From 2^63 on, the conversion to a signed number makes the check of the size succeed for every array. *)
  Theorem C97_pointer_refuted : forall (a : ndarray (D := D)) size n, NdArrayModel.shape a = [size] -> strides a = [1%Z] -> (2 ^ 63 <= n < 2 ^ 64)%Z ->
    pointer false a n = Ok (offset a).
  Proof.
    intros a size n S R B. unfold pointer, ndim, to_ssize. rewrite S, R. cbn [length Nat.eqb negb Z.eqb Pos.eqb andb]. destruct (Z.ltb_spec n (2 ^ 63)); [lia|].
    destruct (Z.ltb_spec (Z.of_nat size) (n - 2 ^ 64)); [lia|]. reflexivity.
  Qed.
  (** The check for vectors is right for all sizes. *)
  Theorem C97_vector_pointer : forall (v : list D) n,
    match vector_pointer v n with
    | Ok p => forall k, (Z.of_nat k < n)%Z -> p + k < length v
    | Throw x => x = InvalidArgument /\ exists k, (Z.of_nat k < n)%Z /\ nth_error v k = None
    | UB => False
    end.
  Proof.
    intros v n. unfold vector_pointer. destruct (Z.ltb_spec (Z.of_nat (length v)) n); [|intros; lia]. split; [reflexivity|]. exists (length v). split; [assumption|]. now apply nth_error_None.
  Qed.
End Props.

(** a transposed and reversed view: element (i, j) is at 5 - i - 3 j *)
Definition view : ndarray (D := nat) := NdArray [10; 11; 12; 13; 14; 15] 5 [3; 2] [(-1)%Z; (-3)%Z] true true.
Example C97_example_view : well_formed view.
Proof.
  split; [reflexivity|]. intros index I. inversion I as [|i ? is ? Hi I1]; subst. inversion I1 as [|j ? js ? Hj I2]; subst. inversion I2; subst.
  destruct i as [|[|[|]]]; [| | |lia]; (destruct j as [|[|]]; [| |lia]); discriminate.
Qed.
Example C97_example : matrixFromNdArray 0 view 4 = Ok (Matrix 3 2 4 [15; 12; 0; 0; 14; 11; 0; 0; 13; 10; 0; 0])
  /\ vectorFromNdArray 0 (NdArray [1; 2; 3; 4] 3 [2] [(-2)%Z] true true) = Ok [4; 2]
  /\ pointer false (NdArray [1; 2; 3; 4] 1 [3] [1%Z] true false) 3%Z = Ok 1%Z /\ pointer false (NdArray [1; 2; 3; 4] 1 [3] [1%Z] true false) 4%Z = Throw InvalidArgument
  /\ pointer false (NdArray [1; 2; 3; 4] 3 [2] [(-2)%Z] true true) 2%Z = Throw InvalidArgument
  /\ pointer true (NdArray [1; 2; 3; 4] 1 [3] [1%Z] true false) 3%Z = Throw LogicError
  /\ pointer true (NdArray [1; 2] 0 [2] [1%Z] true true) (2 ^ 63)%Z = Ok 0%Z.
Proof. repeat split. Qed.

Print Assumptions C97_load.
Print Assumptions C97_matrix.
Print Assumptions C97_matrix_rejected.
Print Assumptions C97_from_matrix.
Print Assumptions C97_round_trip.
Print Assumptions C97_vector.
Print Assumptions C97_vector_rejected.
Print Assumptions C97_pointer_partial.
Print Assumptions C97_pointer_refuted.
Print Assumptions C97_vector_pointer.
