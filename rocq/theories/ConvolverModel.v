(** Model of the uniformly partitioned convolvers of librbbl:
    CoreConvolverUniform (src/librbbl/core_convolver_uniform.{hpp,cpp}),
    MultichannelConvolverUniform (src/librbbl/multichannel_convolver_uniform.{hpp,cpp}),
    CrossfadingConvolverUniform (src/librbbl/crossfading_convolver_uniform.{hpp,cpp}).

    The sample type [T], the frequency-domain type [K], their operations and the FFT
    wrapper ([fwd], [inv]) are parameters.
    Simplifications: a row holding the DFT blocks of all partitions is a list of blocks
    (the padding between blocks, which stays zero and is never transformed, is left
    out); the efl vector functions are element-wise maps (C18), their alignment errors
    cannot occur because all rows and block offsets are multiples of the alignment (for
    the crossfading convolver this presupposes a block length that is a multiple of the
    alignment: ramp block n starts at n * blockLength, crossfading 141-157);
    ceil( double(a)/b ) is exact; the scratch members mTimeDomainTransformBuffer and
    mFrequencyDomainAccumulator are local values. *)
From Verif Require Import Base Memory CircularBufferModel.
Local Open Scope res_scope.

Definition get {A} (l : list A) (i : nat) : res A :=
  match nth_error l i with Some x => Ok x | None => UB end.
Definition set_nth {A} (l : list A) (i : nat) (x : A) : list A :=
  if i <? length l then firstn i l ++ x :: skipn (S i) l else l.
Definition map2 {A B C} (f : A -> B -> C) (l : list A) (m : list B) : list C :=
  map (fun p => f (fst p) (snd p)) (combine l m).

(** *** The routing table, multichannel_convolver_uniform.hpp 157-188 *)
Section Table.
  Context {T : Type}.
  Record routing := MkRouting { r_in : nat; r_out : nat; r_filter : nat; r_gain : T }.
  (** CompareRoutings, hpp 173-186 *)
  Definition r_less (a b : routing) : bool :=
    if r_out a =? r_out b then r_in a <? r_in b else r_out a <? r_out b.
  Definition r_equiv (a b : routing) : bool := negb (r_less a b) && negb (r_less b a).
  (** std::multiset: a sorted list.  insert() puts the element at the upper bound,
      find() and erase( iterator ) affect one equivalent element, erase( equal_range )
      all of them. *)
  Fixpoint ms_insert (x : routing) (l : list routing) : list routing :=
    match l with
    | [] => [x]
    | y :: r => if r_less x y then x :: l else y :: ms_insert x r
    end.
  Fixpoint ms_erase_one (x : routing) (l : list routing) : list routing :=
    match l with
    | [] => []
    | y :: r => if r_equiv x y then r else y :: ms_erase_one x r
    end.
  Definition ms_erase_range (x : routing) (l : list routing) : list routing :=
    filter (fun y => negb (r_equiv x y)) l.

  (** setRoutingEntry, multichannel_convolver_uniform.cpp 94-124 (identical:
      crossfading_convolver_uniform.cpp 216-254).  On an exception the table after the
      call is returned as well: find/erase precede the last check. *)
  Definition set_routing (inputs outputs filters max : nat) (t : list routing) (x : routing)
    : res unit * list routing :=
    if inputs <=? r_in x then (Throw InvalidArgument, t)
    else if outputs <=? r_out x then (Throw InvalidArgument, t)
    else if filters <=? r_filter x then (Throw InvalidArgument, t)
    else
      let t' := ms_erase_one x t in
      if max <=? length t' then (Throw InvalidArgument, t')
      else (Ok tt, ms_insert x t').

  (** removeRoutingEntry, multichannel 126-133, crossfading 256-264: eraseRange.first is
      compared with end() AFTER the erasure.  [zero] is the gain of the test entry.  If
      the range is non-empty its first iterator is invalidated by the erasure, so the
      comparison is undefined behaviour ([UB] as the result). *)
  Definition lower_bound_is_end (x : routing) (l : list routing) : bool :=
    forallb (fun y => r_less y x) l.
  Definition remove_routing (zero : T) (t : list routing) (i o : nat) : res bool * list routing :=
    let x := MkRouting i o 0 zero in
    let t' := ms_erase_range x t in
    (if existsb (r_equiv x) t then UB else Ok (negb (lower_bound_is_end x t)), t').

  (** initRoutingTable, multichannel 75-86, crossfading 187-202 *)
  Fixpoint set_routings (inputs outputs filters max : nat) (t : list routing) (l : list routing)
    : res unit * list routing :=
    match l with
    | [] => (Ok tt, t)
    | x :: r =>
        match set_routing inputs outputs filters max t x with
        | (Ok _, t') => set_routings inputs outputs filters max t' r
        | other => other
        end
    end.
  Definition init_routings (inputs outputs filters max : nat) (l : list routing)
    : res unit * list routing :=
    if max <? length l then (Throw InvalidArgument, [])
    else set_routings inputs outputs filters max [] l.
End Table.
Arguments routing T : clear implicits.

Section Convolver.
  Context {T K : Type} (zero : T) (tadd tmul : T -> T -> T)
          (kzero : K) (kadd kmul : K -> K -> K) (inj : T -> K)
          (fwd : list T -> list K) (inv : list K -> list T)
          (dsize : nat -> nat).   (* DFT representation size for a block length *)

  (** hpp 208-270 *)
  Record core := MkCore {
    c_inputs : nat;
    c_block : nat;
    c_maxlen : nat;
    c_parts : nat;
    c_ring : cb T;
    c_fdl : list (list (list K));        (* per input: the partitions *)
    c_offset : nat;
    c_filters : list (list (list K));    (* per filter: the partitions *)
    c_scale : T }.

  (** cpp 135-140 *)
  Definition number_of_partitions (len block : nat) : nat := (len + block - 1) / block.

  (** cpp 181-185 *)
  Definition advance_fdl (c : core) : res core :=
    if c_parts c =? 0 then UB
    else Ok (MkCore (c_inputs c) (c_block c) (c_maxlen c) (c_parts c) (c_ring c) (c_fdl c)
               ((c_offset c + c_parts c - 1) mod c_parts c) (c_filters c) (c_scale c)).

  (** hpp 274-294 getFdlBlock, 296-316 getFdFilterPartition *)
  Definition fdl_index (c : core) (blockIdx : nat) : nat := (c_offset c + blockIdx) mod c_parts c.
  Definition fdl_block (c : core) (input blockIdx : nat) : res (list K) :=
    r <- get (c_fdl c) input ;; get r (fdl_index c blockIdx).
  Definition filter_part (c : core) (filter blockIdx : nat) : res (list K) :=
    r <- get (c_filters c) filter ;; get r blockIdx.

  (** 56-59: transform of the channels *)
  Fixpoint transform_inputs (todo ch : nat) (c : core) : res core :=
    match todo with
    | 0 => Ok c
    | S todo' =>
        x <- cb_read (c_ring c) ch (2 * c_block c) (2 * c_block c) ;;
        r <- get (c_fdl c) ch ;;
        _ <- get r (fdl_index c 0) ;;
        let fdl' := set_nth (c_fdl c) ch (set_nth r (fdl_index c 0) (fwd x)) in
        transform_inputs todo' (S ch)
          (MkCore (c_inputs c) (c_block c) (c_maxlen c) (c_parts c) (c_ring c) fdl'
             (c_offset c) (c_filters c) (c_scale c))
    end.
  (** processInputs, cpp 50-60 *)
  Definition process_inputs (c : core) (input : list (list T)) : res core :=
    ring' <- cb_write (c_ring c) input (c_inputs c) (c_block c) ;;
    c' <- advance_fdl (MkCore (c_inputs c) (c_block c) (c_maxlen c) (c_parts c) ring' (c_fdl c)
                         (c_offset c) (c_filters c) (c_scale c)) ;;
    transform_inputs (c_inputs c') 0 c'.

  (** processFilter, cpp 62-121 *)
  Fixpoint accumulate (c : core) (input filter todo blockIdx : nat) (acc : list K) : res (list K) :=
    match todo with
    | 0 => Ok acc
    | S todo' =>
        x <- fdl_block c input blockIdx ;;
        h <- filter_part c filter blockIdx ;;
        accumulate c input filter todo' (S blockIdx) (map2 kadd acc (map2 kmul x h))
    end.
  Definition process_filter (c : core) (input filter : nat) (gain : T) (result : list K) (add : bool)
    : res (list K) :=
    x <- fdl_block c input 0 ;;
    h <- filter_part c filter 0 ;;
    acc <- accumulate c input filter (c_parts c - 1) 1 (map2 kmul x h) ;;
    Ok (if add then map2 (fun r a => kadd r (kmul (inj gain) a)) result acc
        else map (kmul (inj gain)) acc).

  (** transformOutput, cpp 123-133 *)
  Definition transform_output (c : core) (fd : list K) : list T := skipn (c_block c) (inv fd).

  (** transformImpulseResponse, cpp 222-248 *)
  Definition ir_partition (c : core) (ir : list T) (p : nat) : list T :=
    let startIdx := p * c_block c in
    let endIdx := Nat.min ((p + 1) * c_block c) (length ir) in
    let seg := map (tmul (c_scale c)) (firstn (endIdx - startIdx) (skipn startIdx ir)) in
    seg ++ repeat zero (2 * c_block c - length seg).
  Definition transform_ir (c : core) (ir : list T) : res (list (list K)) :=
    if c_maxlen c <? length ir then Throw InvalidArgument
    else Ok (map (fun p => fwd (ir_partition c ir p)) (seq 0 (c_parts c))).

  Definition with_filters (c : core) (f : list (list (list K))) : core :=
    MkCore (c_inputs c) (c_block c) (c_maxlen c) (c_parts c) (c_ring c) (c_fdl c) (c_offset c) f (c_scale c).

  (** setImpulseResponse, cpp 250-261 *)
  Definition set_ir (c : core) (ir : list T) (idx : nat) : res core :=
    if length (c_filters c) <=? idx then Throw InvalidArgument
    else h <- transform_ir c ir ;; Ok (with_filters c (set_nth (c_filters c) idx h)).
  (** setFilter, cpp 263-273 *)
  Definition set_filter (c : core) (h : list (list K)) (idx : nat) : res core :=
    if length (c_filters c) <=? idx then Throw InvalidArgument
    else Ok (with_filters c (set_nth (c_filters c) idx h)).

  (** clearFilters, cpp 187-191 *)
  Definition zero_block (c : core) : list K := repeat kzero (dsize (c_block c)).
  Definition clear_filters (c : core) : core :=
    with_filters c (repeat (repeat (zero_block c) (c_parts c)) (length (c_filters c))).
  (** initFilters, cpp 193-220: the core after the call and the outcome; the filters are
      cleared before the checks.  [cols] is numberOfColumns() of the matrix [rows]. *)
  Fixpoint set_irs (c : core) (idx : nat) (rows : list (list T)) : res core :=
    match rows with
    | [] => Ok c
    | ir :: rest => c' <- set_ir c ir idx ;; set_irs c' (S idx) rest
    end.
  Definition init_filters (c : core) (rows : list (list T)) (cols : nat) : res unit * core :=
    let c0 := clear_filters c in
    if length (c_filters c) <? length rows then (Throw InvalidArgument, c0)
    else if c_maxlen c <? cols then (Throw InvalidArgument, c0)
    else match set_irs c0 0 rows with
         | Ok c' => (Ok tt, c')
         | Throw e => (Throw e, c0)
         | UB => (UB, c0)
         end.

  (** constructor, cpp 14-45, before initFilters; [scale] is calculateFilterScalingFactor() *)
  Definition core_new (inputs block maxlen entries alignment : nat) (scale : T) : core :=
    let parts := number_of_partitions maxlen block in
    let zb := repeat kzero (dsize block) in
    MkCore inputs block maxlen parts (cb_new zero inputs (2 * block) alignment)
      (repeat (repeat zb parts) inputs) 0 (repeat (repeat zb parts) entries) scale.

  (** *** MultichannelConvolverUniform *)
  Record multi := MkMulti {
    m_core : core;
    m_outputs : nat;
    m_max : nat;
    m_table : list (routing T) }.

  (** processOutputs, cpp 47-61 *)
  Fixpoint route_all (c : core) (t : list (routing T)) (fd : list (list K)) : res (list (list K)) :=
    match t with
    | [] => Ok fd
    | r :: rest =>
        acc <- get fd (r_out r) ;;
        acc' <- process_filter c (r_in r) (r_filter r) (r_gain r) acc true ;;
        route_all c rest (set_nth fd (r_out r) acc')
    end.
  Definition multi_outputs (m : multi) : res (list (list T)) :=
    fd <- route_all (m_core m) (m_table m) (repeat (zero_block (m_core m)) (m_outputs m)) ;;
    Ok (map (transform_output (m_core m)) fd).
  (** process, cpp 37-45 *)
  Definition multi_process (m : multi) (input : list (list T)) : res (multi * list (list T)) :=
    c' <- process_inputs (m_core m) input ;;
    let m' := MkMulti c' (m_outputs m) (m_max m) (m_table m) in
    y <- multi_outputs m' ;;
    Ok (m', y).

  (** *** CrossfadingConvolverUniform *)
  Record cross := MkCross {
    x_core : core;                (* with 2 * maxFilterEntries filters *)
    x_outputs : nat;
    x_max : nat;
    x_table : list (routing T);
    x_filters : nat;              (* mMaxNumFilters *)
    x_blocks : nat;               (* mNumRampBlocks *)
    x_current : list nat;         (* mCurrentFilterOutput *)
    x_ramp : list nat;            (* mCurrentRampBlock *)
    x_up : list T;                (* mCrossoverRamps.row( 0 ) *)
    x_down : list T }.            (* mCrossoverRamps.row( 1 ) *)

  (** cpp 40-41 *)
  Definition ramp_blocks (transition block : nat) : nat := (transition + block - 1) / block + 1.

  (** processOutputs, cpp 119-171: one routing entry *)
  Definition cross_entry (x : cross) (r : routing T) (out : list (list T)) : res (list (list T)) :=
    let c := x_core x in
    cur <- get (x_current x) (r_filter r) ;;
    let fade_in := if cur =? 0 then r_filter r else r_filter r + x_filters x in
    let fade_out := if cur =? 0 then r_filter r + x_filters x else r_filter r in
    f0 <- process_filter c (r_in r) fade_in (r_gain r) [] false ;;
    f1 <- process_filter c (r_in r) fade_out (r_gain r) [] false ;;
    let t0 := transform_output c f0 in
    let t1 := transform_output c f1 in
    rb <- get (x_ramp x) (r_filter r) ;;
    up <- mem_read (x_up x) (rb * c_block c) (c_block c) ;;
    down <- mem_read (x_down x) (rb * c_block c) (c_block c) ;;
    let t0 := map2 tmul up t0 in
    let t0 := map2 (fun acc p => tadd acc p) t0 (map2 tmul down t1) in
    y <- get out (r_out r) ;;
    Ok (set_nth out (r_out r) (map2 tadd y t0)).
  Fixpoint cross_entries (x : cross) (t : list (routing T)) (out : list (list T)) : res (list (list T)) :=
    match t with
    | [] => Ok out
    | r :: rest => out' <- cross_entry x r out ;; cross_entries x rest out'
    end.
  (** process, cpp 90-100, processOutputs 102-180 *)
  Definition cross_process (x : cross) (input : list (list T)) : res (cross * list (list T)) :=
    c' <- process_inputs (x_core x) input ;;
    let x' := MkCross c' (x_outputs x) (x_max x) (x_table x) (x_filters x) (x_blocks x)
                (x_current x) (x_ramp x) (x_up x) (x_down x) in
    out <- cross_entries x' (x_table x) (repeat (repeat zero (c_block c')) (x_outputs x)) ;;
    let ramp' := map (fun v => Nat.min (v + 1) (x_blocks x - 1)) (x_ramp x) in
    Ok (MkCross c' (x_outputs x) (x_max x) (x_table x) (x_filters x) (x_blocks x)
          (x_current x) ramp' (x_up x) (x_down x), out).

  (** setImpulseResponse 289-319 and setTransformedFilter 321-345 *)
  Definition cross_switch (x : cross) (idx : nat) (start : bool)
             (install : core -> nat -> res core) : res cross :=
    old <- get (x_current x) idx ;;
    let new := if old =? 0 then 1 else 0 in
    let pos := if new =? 0 then idx else idx + x_filters x in
    c' <- install (x_core x) pos ;;
    Ok (MkCross c' (x_outputs x) (x_max x) (x_table x) (x_filters x) (x_blocks x)
          (set_nth (x_current x) idx new)
          (if start then set_nth (x_ramp x) idx 0 else x_ramp x) (x_up x) (x_down x)).
  Definition cross_set_ir (x : cross) (ir : list T) (idx : nat) (start : bool) : res cross :=
    cross_switch x idx start (fun c pos => set_ir c ir pos).
  Definition cross_set_filter (x : cross) (h : list (list K)) (idx : nat) (start : bool) : res cross :=
    cross_switch x idx start (fun c pos => set_filter c h pos).

  (** initFilters, cpp 272-277 *)
  Definition cross_init_filters (x : cross) (rows : list (list T)) (cols : nat) : res unit * cross :=
    let '(r, c') := init_filters (x_core x) rows cols in
    (r, MkCross c' (x_outputs x) (x_max x) (x_table x) (x_filters x) (x_blocks x)
          (x_current x) (x_ramp x) (x_up x) (x_down x)).

  (** setRoutingEntry: the number of filters passed to the check is that of the core
      convolver, i.e. 2 * maxFilterEntries (hpp 113-116) *)
  Definition cross_set_routing (x : cross) (r : routing T) : res unit * cross :=
    let '(e, t') := set_routing (c_inputs (x_core x)) (x_outputs x) (length (c_filters (x_core x)))
                      (x_max x) (x_table x) r in
    (e, MkCross (x_core x) (x_outputs x) (x_max x) t' (x_filters x) (x_blocks x)
          (x_current x) (x_ramp x) (x_up x) (x_down x)).

  (** constructor, cpp 14-84, with the external efl::vectorRamp: [up] = vectorRamp( n, 0,
      1 ), [down] = vectorRamp( n, 1, 0 ); no initial routings; initial filters are
      installed with initFilters of the core *)
  Definition cross_new (one : T) (up down : list T) (inputs outputs block maxlen maxrout entries alignment : nat)
             (scale : T) (transition : nat) : cross :=
    let nb := ramp_blocks transition block in
    MkCross (core_new inputs block maxlen (2 * entries) alignment scale) outputs maxrout []
      entries nb (repeat 0 entries) (repeat (nb - 1) entries)
      (up ++ repeat one (block * nb - transition)) (down ++ repeat zero (block * nb - transition)).
End Convolver.
Arguments core T K : clear implicits.
Arguments multi T K : clear implicits.
Arguments cross T K : clear implicits.
