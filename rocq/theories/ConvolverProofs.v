(** Partitioned convolution: specification and proofs about the core convolver. *)
From Verif Require Import Base Memory CircularBufferModel CircularBufferProofs RingSum ConvolverModel.
From Coq Require Import Ring.
Local Open Scope res_scope.

(** *** Lists *)
Lemma map2_length {A B C} (f : A -> B -> C) l m : length l = length m -> length (map2 f l m) = length l.
Proof. intros E. unfold map2. rewrite map_length, combine_length, <- E. apply Nat.min_id. Qed.
Lemma map2_nth {A B C} (f : A -> B -> C) da db dc : forall i l m,
  length l = length m -> i < length l -> nth i (map2 f l m) dc = f (nth i l da) (nth i m db).
Proof.
  unfold map2. intros i l; revert i. induction l as [|x l IH]; intros i [|y m] E H; simpl in *; try lia.
  destruct i; [reflexivity|]. apply IH; lia.
Qed.
Lemma map_nth' {A B} (f : A -> B) da db i l : i < length l -> nth i (map f l) db = f (nth i l da).
Proof.
  revert i; induction l as [|x l IH]; intros i H; simpl in *; [lia|]. destruct i; [reflexivity|]. apply IH; lia.
Qed.
Lemma map_seq_nth {A} (f : nat -> A) d i n : i < n -> nth i (map f (seq 0 n)) d = f i.
Proof. intros H. rewrite (map_nth' f 0 d) by (now rewrite seq_length). f_equal. now rewrite seq_nth. Qed.
Lemma set_nth_length {A} (l : list A) i x : length (set_nth l i x) = length l.
Proof.
  unfold set_nth. destruct (Nat.ltb_spec i (length l)); [|reflexivity].
  rewrite app_length, firstn_length. cbn [length]. rewrite skipn_length. lia.
Qed.
Lemma set_nth_error {A} (l : list A) i x j :
  nth_error (set_nth l i x) j = if (j =? i) && (i <? length l) then Some x else nth_error l j.
Proof.
  unfold set_nth. destruct (Nat.ltb_spec i (length l)) as [L|L]; [|now rewrite andb_false_r].
  rewrite andb_true_r.
  destruct (Nat.eqb_spec j i) as [->|N].
  - rewrite nth_error_app2 by (rewrite firstn_length; lia). rewrite firstn_length.
    replace (i - Nat.min i (length l)) with 0 by lia. reflexivity.
  - destruct (lt_dec j i) as [H|H].
    + rewrite nth_error_app1 by (rewrite firstn_length; lia). rewrite nth_error_firstn.
      destruct (Nat.ltb_spec j i); [reflexivity|lia].
    + rewrite nth_error_app2 by (rewrite firstn_length; lia). rewrite firstn_length.
      replace (j - Nat.min i (length l)) with (S (j - S i)) by lia. cbn [nth_error].
      change (nth_error (skipn (S i) l) (j - S i) = nth_error l j).
      rewrite nth_error_skipn. f_equal. lia.
Qed.
Lemma get_ok {A} (l : list A) i x : nth_error l i = Some x -> get l i = Ok x.
Proof. unfold get. now intros ->. Qed.
Lemma list_ext {A} (d : A) l m : length l = length m ->
  (forall i, i < length l -> nth i l d = nth i m d) -> l = m.
Proof. intros E H. apply (nth_ext l m d d E H). Qed.
Lemma map2_scaled {A B C D} (f : A -> B -> C) (g : D -> B) l m :
  map2 (fun a x => f a (g x)) l m = map2 f l (map g m).
Proof.
  unfold map2. revert m; induction l as [|a l IH]; intros [|x m]; simpl; try reflexivity. now rewrite IH.
Qed.

Section Conv.
  Context {T : Type} (rO rI : T) (radd rmul rsub : T -> T -> T) (ropp : T -> T).
  Variable RT : ring_theory rO rI radd rmul rsub ropp (@eq T).
  Add Ring TRing2 : RT.
  Local Notation "0" := rO. Local Notation "1" := rI.
  Local Infix "+" := radd. Local Infix "*" := rmul.
  Local Notation sum := (sum rO radd).
  Local Notation at_ l i := (nth i l 0).

  (** *** Specification *)
  (** sample [n] of the linear convolution of the signal [xs] with the filter [h] *)
  Definition conv (h xs : list T) (n : nat) : T :=
    sum (length h) (fun k => if k <=? n then at_ h k * at_ xs (n - k)%nat else 0).
  (** the newest [b] samples of the convolution of the signal received so far *)
  Definition conv_block (b : nat) (h xs : list T) : list T :=
    map (fun i => conv h xs (length xs - b + i)%nat) (seq 0 b).

  (** cyclic convolution of two sequences of length [n] *)
  Definition cyclic (n : nat) (x h : list T) : list T :=
    map (fun k => sum n (fun m => at_ h m * at_ x ((k + n - m) mod n))) (seq 0 n).

  Context {K : Type} (kzero : K) (kadd kmul : K -> K -> K) (inj : T -> K)
          (fwd : list T -> list K) (inv : list K -> list T) (dsize : nat -> nat).

  (** An FFT wrapper for block length [b] (transform size 2b) with DFT representations of
      [dsize b] values: linear, and obeying the convolution theorem up to a factor [c]. *)
  Record transform_ok (b : nat) (c : T) : Prop := {
    t_fwd_length : forall x, length x = (2 * b)%nat -> length (fwd x) = dsize b;
    t_inv_length : forall X, length X = dsize b -> length (inv X) = (2 * b)%nat;
    t_fwd_zero : fwd (repeat 0 (2 * b)) = repeat kzero (dsize b);
    t_inv_zero : inv (repeat kzero (dsize b)) = repeat 0 (2 * b);
    t_inv_add : forall X Y, length X = dsize b -> length Y = dsize b ->
                  inv (map2 kadd X Y) = map2 radd (inv X) (inv Y);
    t_inv_scale : forall g X, length X = dsize b -> inv (map (kmul (inj g)) X) = map (rmul g) (inv X);
    t_conv : forall x h, length x = (2 * b)%nat -> length h = (2 * b)%nat ->
               inv (map2 kmul (fwd x) (fwd h)) = map (rmul c) (cyclic (2 * b) x h) }.

  (** *** Partitions of an impulse response *)
  Definition segment (b : nat) (ir : list T) (p : nat) : list T :=
    let s := firstn b (skipn (p * b) ir) in s ++ repeat 0 (2 * b - length s).

  Lemma segment_length b ir p : length (segment b ir p) = (2 * b)%nat.
  Proof.
    unfold segment. rewrite app_length, repeat_length.
    assert (length (firstn b (skipn (p * b) ir)) <= b) by (rewrite firstn_length; lia). lia.
  Qed.
  Lemma nth_firstn_skipn (l : list T) b o m : m < b -> at_ (firstn b (skipn o l)) m = at_ l (o + m)%nat.
  Proof.
    intros H. destruct (lt_dec (o + m) (length l)) as [L|L].
    - apply nth_error_nth. rewrite nth_error_firstn, nth_error_skipn.
      destruct (Nat.ltb_spec m b); [|lia]. now apply nth_error_nth'.
    - rewrite !nth_overflow; try reflexivity; try lia. rewrite firstn_length, skipn_length. lia.
  Qed.
  Lemma nth_app_zeros (l : list T) n m : at_ (l ++ repeat 0 n) m = at_ l m.
  Proof.
    destruct (lt_dec m (length l)) as [L|L].
    - now rewrite app_nth1.
    - rewrite app_nth2 by lia. rewrite (nth_overflow l) by lia. apply nth_repeat.
  Qed.
  Lemma segment_nth b ir p m : at_ (segment b ir p) m = if m <? b then at_ ir (p * b + m)%nat else 0.
  Proof.
    unfold segment. rewrite nth_app_zeros. destruct (Nat.ltb_spec m b).
    - now apply nth_firstn_skipn.
    - apply nth_overflow. rewrite firstn_length. lia.
  Qed.

  (** second half of the cyclic convolution with a segment: no wrap-around *)
  Lemma cyclic_segment b x ir p i : length x = (2 * b)%nat -> i < b ->
    at_ (cyclic (2 * b) x (segment b ir p)) (b + i)%nat
    = sum b (fun m => at_ ir (p * b + m)%nat * at_ x (b + i - m)%nat).
  Proof.
    intros L H. unfold cyclic. rewrite map_seq_nth by lia.
    rewrite (sum_cut rO rI radd rmul rsub ropp RT (2 * b) b); [|lia|].
    2:{ intros m Hm. rewrite segment_nth. destruct (Nat.ltb_spec m b); [lia|ring]. }
    apply sum_ext. intros m Hm. rewrite segment_nth. destruct (Nat.ltb_spec m b); [|lia].
    f_equal. f_equal. replace (b + i + 2 * b - m)%nat with (b + i - m + 1 * (2 * b))%nat by lia.
    rewrite Nat.mod_add by lia. apply Nat.mod_small. lia.
  Qed.

  Lemma recent_nth d h j : j < d -> at_ (recent 0 d h) j = sample_at 0 h (d - j).
  Proof.
    intros H. apply nth_error_nth. rewrite nth_error_recent. destruct (Nat.ltb_spec j d); [reflexivity|lia].
  Qed.

  (** window [p] of the delay line: the 2b samples up to the block p blocks ago *)
  Definition window (b : nat) (xs : list T) (p : nat) : list T :=
    recent 0 (2 * b) (firstn (length xs - p * b) xs).

  Lemma window_length b xs p : length (window b xs p) = (2 * b)%nat.
  Proof. apply recent_length. Qed.

  Lemma window_nth b xs p i m : b <= length xs -> i < b -> m < b ->
    at_ (window b xs p) (b + i - m)%nat
    = if (p * b + m)%nat <=? (length xs - b + i)%nat then at_ xs (length xs - b + i - (p * b + m))%nat else 0.
  Proof.
    intros L Hi Hm. unfold window. rewrite recent_nth by lia. unfold sample_at.
    rewrite firstn_length. replace (Nat.min (length xs - p * b) (length xs)) with (length xs - p * b)%nat by lia.
    destruct (Nat.leb_spec (2 * b - (b + i - m)) (length xs - p * b)) as [A|A];
      destruct (Nat.leb_spec (p * b + m) (length xs - b + i)) as [B|B]; try lia; [|reflexivity].
    assert (E : forall (l : list T) n j, j < n -> at_ (firstn n l) j = at_ l j).
    { intros l n j Hj. change (at_ (firstn n (skipn 0%nat l)) j = at_ l j). now rewrite nth_firstn_skipn. }
    rewrite E by lia. f_equal. lia.
  Qed.

  (** the partitioned sum is the convolution *)
  Lemma partitions_sum b parts ir xs i :
    b <= length xs -> i < b -> length ir <= parts * b ->
    sum parts (fun p => at_ (cyclic (2 * b) (window b xs p) (segment b ir p)) (b + i)%nat)
    = conv ir xs (length xs - b + i)%nat.
  Proof.
    intros L Hi Hl.
    rewrite (sum_ext rO radd parts _ (fun p => sum b (fun m =>
        if (p * b + m)%nat <=? (length xs - b + i)%nat
        then at_ ir (p * b + m)%nat * at_ xs (length xs - b + i - (p * b + m))%nat else 0))).
    2:{ intros p Hp. rewrite cyclic_segment by (auto using window_length).
        apply sum_ext. intros m Hm. rewrite window_nth by assumption.
        destruct (Nat.leb_spec (p * b + m) (length xs - b + i)); [reflexivity|ring]. }
    rewrite <- (sum_mul rO rI radd rmul rsub ropp RT parts b (fun k =>
        if k <=? (length xs - b + i)%nat then at_ ir k * at_ xs (length xs - b + i - k)%nat else 0)).
    unfold conv. apply (sum_cut rO rI radd rmul rsub ropp RT); [exact Hl|].
    intros k Hk. rewrite (nth_overflow ir) by lia. destruct (k <=? _)%nat; ring.
  Qed.

  (** *** The core convolver *)
  Local Notation core := (core T K).

  (** A stored filter behaves like the impulse response [ir]. *)
  Definition acts_as (b parts : nat) (spec : list (list K)) (ir : list T) : Prop :=
    length spec = parts /\ length ir <= parts * b
    /\ forall p, p < parts -> exists h, nth_error spec p = Some h /\ length h = dsize b
       /\ forall x, length x = (2 * b)%nat ->
            inv (map2 kmul (fwd x) h) = cyclic (2 * b) x (segment b ir p).

  Record core_inv (c : core) (entries : nat) (H : nat -> list T) (F : nat -> list T) : Prop := {
    v_block : 0 < c_block c;
    v_parts : 0 < c_parts c;
    v_maxlen : c_maxlen c <= c_parts c * c_block c;
    v_ring : exists alloc, cb_inv 0 (c_inputs c) (2 * c_block c) alloc (c_ring c) H;
    v_offset : c_offset c < c_parts c;
    v_fdl : length (c_fdl c) = c_inputs c;
    v_fdl_row : forall ch r, nth_error (c_fdl c) ch = Some r ->
        length r = c_parts c
        /\ forall k, k < c_parts c ->
             nth_error r (fdl_index c k) = Some (fwd (window (c_block c) (H ch) k));
    v_filters : length (c_filters c) = entries;
    v_filter : forall f spec, nth_error (c_filters c) f = Some spec ->
        acts_as (c_block c) (c_parts c) spec (F f) }.

  Section Fixed.
  Variable b : nat.
  Variable cst : T.
  Hypothesis TO : transform_ok b cst.

  Lemma inv_prod_length X h : length X = dsize b -> length h = dsize b ->
    length (inv (map2 kmul X h)) = (2 * b)%nat.
  Proof. intros A B. apply (t_inv_length _ _ TO). now rewrite map2_length by congruence. Qed.

  (** *** processFilter *)
  Lemma fdl_block_ok c entries H F input k :
    core_inv c entries H F -> c_block c = b -> input < c_inputs c -> k < c_parts c ->
    fdl_block c input k = Ok (fwd (window b (H input) k)).
  Proof.
    intros V Eb Hi Hk. unfold fdl_block.
    destruct (nth_error_lt (c_fdl c) input) as [r Er]; [rewrite (v_fdl _ _ _ _ V); exact Hi|].
    rewrite (get_ok _ _ _ Er). cbn [bind].
    destruct (v_fdl_row _ _ _ _ V _ _ Er) as [_ P]. rewrite (get_ok _ _ _ (P k Hk)).
    now rewrite Eb.
  Qed.
  Lemma filter_part_ok c entries H F f k :
    core_inv c entries H F -> c_block c = b -> f < entries -> k < c_parts c ->
    exists h, filter_part c f k = Ok h /\ length h = dsize b
      /\ forall x, length x = (2 * b)%nat -> inv (map2 kmul (fwd x) h) = cyclic (2 * b) x (segment b (F f) k).
  Proof.
    intros V Eb Hf Hk. unfold filter_part.
    destruct (nth_error_lt (c_filters c) f) as [spec Es]; [rewrite (v_filters _ _ _ _ V); exact Hf|].
    rewrite (get_ok _ _ _ Es). cbn [bind].
    destruct (v_filter _ _ _ _ V _ _ Es) as (_ & _ & P). rewrite Eb in P.
    destruct (P k Hk) as (h & Eh & Lh & Ch). exists h. rewrite (get_ok _ _ _ Eh). auto.
  Qed.

  Lemma accumulate_ok c entries H F input f :
    core_inv c entries H F -> c_block c = b -> input < c_inputs c -> f < entries ->
    forall todo k acc, (k + todo)%nat = c_parts c -> length acc = dsize b ->
    exists acc', accumulate kadd kmul c input f todo k acc = Ok acc' /\ length acc' = dsize b
      /\ forall n, n < 2 * b ->
           at_ (inv acc') n = at_ (inv acc) n
             + sum todo (fun j => at_ (cyclic (2 * b) (window b (H input) (k + j)) (segment b (F f) (k + j))) n).
  Proof.
    intros V Eb Hi Hf. induction todo as [|todo IH]; intros k acc Hk La.
    - exists acc. split; [reflexivity|]. split; [exact La|]. intros n Hn. simpl. ring.
    - cbn [accumulate]. rewrite (fdl_block_ok c entries H F) by (auto; lia). cbn [bind].
      destruct (filter_part_ok c entries H F f k V Eb Hf ltac:(lia)) as (h & Eh & Lh & Ch).
      rewrite Eh. cbn [bind].
      assert (Lf : length (fwd (window b (H input) k)) = dsize b)
        by (apply (t_fwd_length _ _ TO), window_length).
      assert (Lp : length (map2 kmul (fwd (window b (H input) k)) h) = dsize b)
        by (rewrite map2_length; congruence).
      destruct (IH (S k) (map2 kadd acc (map2 kmul (fwd (window b (H input) k)) h))) as (acc' & E & L & N);
        [lia|rewrite map2_length; congruence|].
      exists acc'. split; [exact E|]. split; [exact L|]. intros n Hn. rewrite (N n Hn).
      rewrite (t_inv_add _ _ TO) by congruence.
      rewrite (map2_nth radd 0 0) by (rewrite ?(t_inv_length _ _ TO); auto; lia).
      rewrite Ch by (apply window_length).
      rewrite (sum_first rO rI radd rmul rsub ropp RT).
      rewrite Nat.add_0_r.
      rewrite (sum_ext rO radd todo (fun i => at_ (cyclic (2 * b) (window b (H input) (k + S i)) (segment b (F f) (k + S i))) n)
        (fun j => at_ (cyclic (2 * b) (window b (H input) (S k + j)) (segment b (F f) (S k + j))) n))
        by (intros j _; now replace (k + S j)%nat with (S k + j)%nat by lia).
      ring.
  Qed.

  Lemma process_filter_ok c entries H F input f gain result add :
    core_inv c entries H F -> c_block c = b -> input < c_inputs c -> f < entries ->
    b <= length (H input) -> (add = true -> length result = dsize b) ->
    exists r, process_filter kadd kmul inj c input f gain result add = Ok r /\ length r = dsize b
      /\ transform_output inv c r
         = map2 radd (if add then transform_output inv c result else repeat 0 b)
                (map (rmul gain) (conv_block b (F f) (H input))).
  Proof.
    intros V Eb Hi Hf Lx Lr. unfold process_filter.
    assert (Pp := v_parts _ _ _ _ V).
    rewrite (fdl_block_ok c entries H F) by auto. cbn [bind].
    destruct (filter_part_ok c entries H F f 0 V Eb Hf Pp) as (h & Eh & Lh & Ch).
    rewrite Eh. cbn [bind].
    assert (Lf : length (fwd (window b (H input) 0)) = dsize b)
      by (apply (t_fwd_length _ _ TO), window_length).
    assert (Lp : length (map2 kmul (fwd (window b (H input) 0)) h) = dsize b)
      by (rewrite map2_length; congruence).
    destruct (accumulate_ok c entries H F input f V Eb Hi Hf (c_parts c - 1) 1
                (map2 kmul (fwd (window b (H input) 0)) h)) as (acc & E & L & N); [lia|exact Lp|].
    rewrite E. cbn [bind]. eexists; split; [reflexivity|].
    assert (NA : forall i, i < b -> at_ (inv acc) (b + i)%nat = conv (F f) (H input) (length (H input) - b + i)%nat).
    { intros i Hib. rewrite N by lia. rewrite Ch by (apply window_length).
      assert (Lfir : length (F f) <= c_parts c * b).
      { destruct (nth_error_lt (c_filters c) f) as [spec Es]; [rewrite (v_filters _ _ _ _ V); exact Hf|].
        destruct (v_filter _ _ _ _ V _ _ Es) as (_ & Q & _). now rewrite Eb in Q. }
      rewrite <- (partitions_sum b (c_parts c)) by assumption.
      replace (c_parts c) with (S (c_parts c - 1)) at 2 by lia.
      rewrite (sum_first rO rI radd rmul rsub ropp RT). reflexivity. }
    assert (Ls : length (map (kmul (inj gain)) acc) = dsize b) by (now rewrite map_length).
    assert (Lc : length (conv_block b (F f) (H input)) = b)
      by (unfold conv_block; now rewrite map_length, seq_length).
    assert (Base : forall R, length R = (2 * b)%nat -> forall i, i < b -> at_ (skipn b R) i = at_ R (b + i)%nat).
    { intros R LR i Hib. destruct (nth_error_lt R (b + i)) as [v Ev]; [lia|].
      rewrite (nth_error_nth _ _ _ Ev). apply nth_error_nth. now rewrite nth_error_skipn. }
    assert (LI := t_inv_length _ _ TO acc L).
    unfold transform_output. rewrite Eb. destruct add.
    - specialize (Lr eq_refl).
      rewrite (map2_scaled kadd (kmul (inj gain))).
      split; [rewrite map2_length; congruence|].
      rewrite (t_inv_add _ _ TO) by assumption. rewrite (t_inv_scale _ _ TO) by assumption.
      assert (LI2 := t_inv_length _ _ TO result Lr).
      assert (L1 : length (skipn b (inv result)) = b) by (rewrite skipn_length; lia).
      apply (list_ext 0).
      + rewrite skipn_length, !map2_length by (rewrite ?map_length; congruence). lia.
      + intros i Hib. rewrite skipn_length, map2_length in Hib by (rewrite map_length; congruence).
        rewrite Base by (try rewrite map2_length; rewrite ?map_length; try congruence; lia).
        rewrite (map2_nth radd 0 0) by (rewrite ?map_length; try congruence; lia).
        rewrite (map2_nth radd 0 0) by (rewrite ?map_length; try congruence; lia).
        rewrite Base by (congruence || lia).
        rewrite !(map_nth' (rmul gain) 0) by lia.
        rewrite NA by lia. unfold conv_block. rewrite map_seq_nth by lia. reflexivity.
    - split; [exact Ls|].
      rewrite (t_inv_scale _ _ TO) by assumption.
      apply (list_ext 0).
      + rewrite skipn_length, !map2_length, map_length, repeat_length
          by (rewrite ?map_length, ?repeat_length; congruence). lia.
      + intros i Hib. rewrite skipn_length, map_length in Hib.
        rewrite Base by (rewrite ?map_length; try congruence; lia).
        rewrite (map2_nth radd 0 0) by (rewrite ?map_length, ?repeat_length; try congruence; lia).
        rewrite nth_repeat.
        rewrite !(map_nth' (rmul gain) 0) by lia.
        rewrite NA by lia. unfold conv_block. rewrite map_seq_nth by lia. ring.
  Qed.

  (** *** processInputs *)
  Definition with_fdl (c : core) (l : list (list (list K))) : core :=
    MkCore (c_inputs c) (c_block c) (c_maxlen c) (c_parts c) (c_ring c) l (c_offset c) (c_filters c) (c_scale c).

  Lemma transform_inputs_ok win : forall todo ch (c : core),
    (ch + todo)%nat = length (c_fdl c) -> c_offset c < c_parts c ->
    (forall j, j < length (c_fdl c) -> cb_read (c_ring c) j (2 * c_block c) (2 * c_block c) = Ok (win j)) ->
    (forall j r, nth_error (c_fdl c) j = Some r -> length r = c_parts c) ->
    exists l, transform_inputs fwd todo ch c = Ok (with_fdl c l) /\ length l = length (c_fdl c)
      /\ forall j r, nth_error (c_fdl c) j = Some r ->
           nth_error l j = Some (if ch <=? j then set_nth r (fdl_index c 0) (fwd (win j)) else r).
  Proof.
    induction todo as [|todo IH]; intros ch c Hc Ho Hr Hl.
    - exists (c_fdl c). split; [destruct c; reflexivity|]. split; [reflexivity|].
      intros j r Hj. assert (j < length (c_fdl c)) by (apply nth_error_Some; congruence).
      destruct (Nat.leb_spec ch j); [lia|exact Hj].
    - cbn [transform_inputs]. rewrite Hr by lia. cbn [bind].
      destruct (nth_error_lt (c_fdl c) ch) as [r Er]; [lia|].
      rewrite (get_ok _ _ _ Er). cbn [bind].
      assert (Lr := Hl _ _ Er).
      destruct (nth_error_lt r (fdl_index c 0)) as [z Ez].
      { rewrite Lr. unfold fdl_index. apply Nat.mod_upper_bound. lia. }
      rewrite (get_ok _ _ _ Ez). cbn [bind].
      set (c1 := with_fdl c (set_nth (c_fdl c) ch (set_nth r (fdl_index c 0) (fwd (win ch))))).
      destruct (IH (S ch) c1) as (l & E & L & N).
      + unfold c1; simpl. rewrite set_nth_length. lia.
      + exact Ho.
      + unfold c1; simpl. rewrite set_nth_length. exact Hr.
      + unfold c1; simpl. intros j r' Hj. rewrite set_nth_error in Hj.
        destruct ((j =? ch) && (ch <? length (c_fdl c))).
        * injection Hj as <-. now rewrite set_nth_length.
        * eauto.
      + exists l. split; [exact E|]. split; [unfold c1 in L; simpl in L; now rewrite set_nth_length in L|].
        intros j r' Hj.
        assert (Hjl : j < length (c_fdl c)) by (apply nth_error_Some; congruence).
        destruct (Nat.eq_dec j ch) as [->|Nj].
        * rewrite (N ch (set_nth r (fdl_index c 0) (fwd (win ch)))).
          -- destruct (Nat.leb_spec (S ch) ch); [lia|]. destruct (Nat.leb_spec ch ch); [|lia]. congruence.
          -- unfold c1; simpl. rewrite set_nth_error, Nat.eqb_refl.
             destruct (Nat.ltb_spec ch (length (c_fdl c))); [reflexivity|lia].
        * rewrite (N j r').
          -- change (fdl_index c1 0) with (fdl_index c 0).
             destruct (Nat.leb_spec (S ch) j), (Nat.leb_spec ch j); try lia; reflexivity.
          -- unfold c1; simpl. rewrite set_nth_error.
             destruct (Nat.eqb_spec j ch); [contradiction|exact Hj].
  Qed.

  Lemma window_zero xs : window b xs 0 = recent 0 (2 * b) xs.
  Proof. unfold window. simpl. rewrite Nat.sub_0_r, firstn_all. reflexivity. Qed.
  Lemma window_shift xs new k : length new = b -> window b (xs ++ new) (S k) = window b xs k.
  Proof.
    intros L. unfold window. f_equal. rewrite app_length, L.
    replace (length xs + b - S k * b)%nat with (length xs - k * b)%nat by lia.
    rewrite firstn_app. replace (length xs - k * b - length xs)%nat with 0%nat by lia.
    simpl. apply app_nil_r.
  Qed.

  Lemma index_shift o P k : k < P -> o < P ->
    let o' := ((o + P - 1) mod P)%nat in
    o' < P /\ ((o' + 0) mod P)%nat = o' /\
    (forall k', k = S k' -> ((o' + k) mod P = (o + k') mod P)%nat /\ ((o' + k) mod P)%nat <> o').
  Proof.
    intros Hk Ho o'.
    assert (E : o' = if (o =? 0)%nat then (P - 1)%nat else (o - 1)%nat).
    { unfold o'. destruct (Nat.eqb_spec o 0) as [->|N].
      - rewrite Nat.mod_small; lia.
      - replace (o + P - 1)%nat with (o - 1 + 1 * P)%nat by lia. rewrite Nat.mod_add by lia.
        apply Nat.mod_small. lia. }
    assert (L : o' < P) by (rewrite E; destruct (Nat.eqb_spec o 0); lia).
    split; [exact L|]. split; [rewrite Nat.add_0_r; now apply Nat.mod_small|].
    intros k' ->. destruct (Nat.eqb_spec o 0) as [->|N]; rewrite E.
    - split.
      + replace (P - 1 + S k')%nat with (0 + k' + 1 * P)%nat by lia. now rewrite Nat.mod_add by lia.
      + replace (P - 1 + S k')%nat with (k' + 1 * P)%nat by lia. rewrite Nat.mod_add by lia.
        rewrite Nat.mod_small; lia.
    - split; [f_equal; lia|].
      destruct (le_lt_dec P (o - 1 + S k')) as [Q|Q].
      + replace (o - 1 + S k')%nat with (o - 1 + S k' - P + 1 * P)%nat by lia.
        rewrite Nat.mod_add by lia. rewrite Nat.mod_small; lia.
      + rewrite Nat.mod_small; lia.
  Qed.

  Definition appended (H : nat -> list T) (input : list (list T)) (ch : nat) : list T :=
    H ch ++ firstn b (nth ch input []).

  Lemma process_inputs_ok c entries H F input :
    core_inv c entries H F -> c_block c = b ->
    length input = c_inputs c -> Forall (fun x => length x = b) input ->
    exists c', process_inputs fwd c input = Ok c'
      /\ core_inv c' entries (appended H input) F
      /\ c_block c' = b /\ c_inputs c' = c_inputs c /\ c_parts c' = c_parts c
      /\ c_maxlen c' = c_maxlen c /\ c_filters c' = c_filters c /\ c_scale c' = c_scale c.
  Proof.
    intros V Eb Li Fi. destruct (v_ring _ _ _ _ V) as [alloc CI]. rewrite Eb in CI.
    assert (Bp : 0 < b) by (rewrite <- Eb; apply V).
    assert (W := cb_exec_inv 0 (c_inputs c) (2 * b) alloc (c_ring c) H (WriteOp input (c_inputs c) b) CI).
    cbn [accepted caller_ok cb_exec op_samples] in W. rewrite Nat.eqb_refl in W. destruct (Nat.leb_spec b (2 * b)) as [_|]; [|lia]. cbn [andb] in W.
    destruct W as (ring' & Ew & CI').
    { intros _. split; [lia|]. eapply Forall_impl; [|exact Fi]. simpl; intros; lia. }
    unfold process_inputs. rewrite Eb. rewrite Ew. cbn [bind].
    unfold advance_fdl. cbn [c_parts c_inputs c_block c_maxlen c_ring c_fdl c_offset c_filters c_scale].
    assert (Pp := v_parts _ _ _ _ V).
    destruct (Nat.eqb_spec (c_parts c) 0) as [|_]; [lia|]. cbn [bind].
    set (o' := ((c_offset c + c_parts c - 1) mod c_parts c)%nat).
    cbn [c_inputs].
    set (c1 := MkCore (c_inputs c) b (c_maxlen c) (c_parts c) ring' (c_fdl c) o' (c_filters c) (c_scale c)).
    assert (Ho := v_offset _ _ _ _ V).
    destruct (transform_inputs_ok (fun j => recent 0 (2 * b) (appended H input j)) (c_inputs c) 0 c1)
      as (l & E & L & N).
    - simpl. symmetry. apply V.
    - simpl. unfold o'. apply Nat.mod_upper_bound. lia.
    - cbn [c1 c_fdl c_ring c_block]. rewrite (v_fdl _ _ _ _ V). intros j Hj.
      unfold cb_read. destruct (nth_error_lt (cb_rows ring') j) as [row Er].
      { fold (cb_channels ring'). rewrite (ci_channels _ _ _ _ _ _ CI'). exact Hj. }
      rewrite Er. unfold read_offset. rewrite (ci_alloc _ _ _ _ _ _ CI').
      assert (A := ci_le _ _ _ _ _ _ CI').
      assert (Hh := ci_head _ _ _ _ _ _ CI').
      destruct (Nat.ltb_spec (alloc + cb_head ring') (2 * b)); [lia|]. cbn [bind].
      rewrite (row_read 0 alloc (cb_head ring') row (H j ++ firstn b (nth j input []))); auto; [|now apply (ci_rows _ _ _ _ _ _ CI')].
      f_equal. apply firstn_all2. rewrite recent_length. lia.
    - simpl. intros j r Hj. now apply (v_fdl_row _ _ _ _ V j r).
    - rewrite E. exists (with_fdl c1 l). split; [reflexivity|].
      split; [|repeat split; reflexivity].
      simpl in L, N.
      constructor; simpl.
      + exact Bp.
      + exact Pp.
      + rewrite <- Eb. apply V.
      + exists alloc. exact CI'.
      + unfold o'. apply Nat.mod_upper_bound. lia.
      + rewrite L. apply V.
      + intros ch r Hr.
        assert (Hch : ch < c_inputs c) by (rewrite <- (v_fdl _ _ _ _ V), <- L; apply nth_error_Some; congruence).
        destruct (nth_error_lt (c_fdl c) ch) as [r0 Er0]; [rewrite (v_fdl _ _ _ _ V); exact Hch|].
        destruct (v_fdl_row _ _ _ _ V _ _ Er0) as [L0 N0].
        rewrite (N _ _ Er0) in Hr. injection Hr as <-. split; [now rewrite set_nth_length|].
        intros k Hk. rewrite set_nth_error, L0.
        destruct (index_shift (c_offset c) (c_parts c) k Hk Ho) as (I1 & I2 & I3). fold o' in I1, I2, I3.
        unfold fdl_index, with_fdl, c1. cbn [c_offset c_parts]. rewrite I2.
        destruct k as [|k'].
        * rewrite I2, Nat.eqb_refl.
          destruct (Nat.ltb_spec o' (c_parts c)); [|lia]. cbn [andb].
          now rewrite window_zero.
        * destruct (I3 k' eq_refl) as [I4 I5].
          destruct (Nat.eqb_spec ((o' + S k') mod c_parts c) o') as [|_]; [contradiction|]. cbn [andb].
          rewrite I4. specialize (N0 k' ltac:(lia)). unfold fdl_index in N0. rewrite N0, Eb.
          unfold appended. rewrite window_shift; [reflexivity|].
          assert (length (nth ch input []) = b).
          { apply Forall_forall with (x := nth ch input []) in Fi; [exact Fi|]. apply nth_In. lia. }
          rewrite firstn_all2; lia.
      + apply V.
      + intros f spec Hs. rewrite <- Eb. now apply (v_filter _ _ _ _ V).
  Qed.

  (** *** Setting filters *)
  Lemma ir_partition_segment (c : core) ir p : c_block c = b -> length ir <= c_parts c * b ->
    ir_partition 0 rmul c ir p = map (rmul (c_scale c)) (segment b ir p).
  Proof.
    intros Eb L. unfold ir_partition, segment. rewrite Eb.
    assert (E : firstn (Nat.min ((p + 1) * b) (length ir) - p * b) (skipn (p * b) ir)
                = firstn b (skipn (p * b) ir)).
    { apply nth_error_ext. intros i. rewrite !nth_error_firstn, !nth_error_skipn.
      destruct (Nat.ltb_spec i (Nat.min ((p + 1) * b) (length ir) - p * b)) as [A|A];
        destruct (Nat.ltb_spec i b) as [B|B]; try reflexivity; try lia.
      symmetry. apply nth_error_None. lia. }
    rewrite E, map_app, map_length. f_equal.
    generalize (2 * b - length (firstn b (skipn (p * b) ir)))%nat. intros n.
    induction n as [|n IH]; simpl; [reflexivity|]. rewrite <- IH. f_equal. ring.
  Qed.

  Lemma cyclic_scale n x h s : cyclic n x (map (rmul s) h) = map (rmul s) (cyclic n x h).
  Proof.
    unfold cyclic. rewrite map_map. apply map_ext. intros k.
    rewrite <- (sum_scale rO rI radd rmul rsub ropp RT). apply sum_ext. intros m _.
    destruct (lt_dec m (length h)) as [L|L].
    - rewrite (map_nth' (rmul s) 0) by exact L. ring.
    - rewrite (nth_overflow (map (rmul s) h)) by (rewrite map_length; lia).
      rewrite (nth_overflow h) by lia. ring.
  Qed.

  Lemma Unit_ s : s * cst = 1 -> forall x, cst * (s * x) = x.
  Proof. intros E x. transitivity ((s * cst) * x); [ring|]. rewrite E. ring. Qed.

  Lemma transform_ir_ok (c : core) ir : c_block c = b -> c_scale c * cst = 1 ->
    c_maxlen c <= c_parts c * b ->
    match transform_ir 0 rmul fwd c ir with
    | Ok spec => length ir <= c_maxlen c /\ acts_as b (c_parts c) spec ir
    | Throw e => e = InvalidArgument /\ c_maxlen c < length ir
    | UB => False
    end.
  Proof.
    intros Eb Es M. unfold transform_ir. destruct (Nat.ltb_spec (c_maxlen c) (length ir)); [auto|].
    split; [assumption|]. split; [now rewrite map_length, seq_length|]. split; [lia|].
    intros p Hp. exists (fwd (ir_partition 0 rmul c ir p)).
    split.
    { rewrite (nth_error_nth' _ (fwd (ir_partition 0 rmul c ir 0%nat))) by (now rewrite map_length, seq_length).
      rewrite map_seq_nth by assumption. reflexivity. }
    rewrite ir_partition_segment by (assumption || lia).
    assert (Lm : length (map (rmul (c_scale c)) (segment b ir p)) = (2 * b)%nat)
      by (rewrite map_length; apply segment_length).
    split; [apply (t_fwd_length _ _ TO); exact Lm|].
    intros x Lx. rewrite (t_conv _ _ TO) by assumption. rewrite cyclic_scale, map_map.
    rewrite <- (map_id (cyclic (2 * b) x (segment b ir p))) at 2.
    apply map_ext. intros a. apply Unit_. exact Es.
  Qed.

  Definition upd {A} (F : nat -> A) (i : nat) (x : A) (j : nat) : A := if (j =? i)%nat then x else F j.

  Lemma install_inv c entries H F idx spec ir :
    core_inv c entries H F -> idx < entries -> acts_as (c_block c) (c_parts c) spec ir ->
    core_inv (with_filters c (set_nth (c_filters c) idx spec)) entries H (upd F idx ir).
  Proof.
    intros V Hi A. destruct V. constructor; simpl; auto.
    - now rewrite set_nth_length.
    - intros f sp Hf. rewrite set_nth_error in Hf. unfold upd.
      destruct (Nat.eqb_spec f idx) as [->|N]; simpl in Hf; [|now apply v_filter0].
      destruct (Nat.ltb_spec idx (length (c_filters c))); [|lia]. injection Hf as <-. exact A.
  Qed.

  Lemma set_ir_ok c entries H F ir idx :
    core_inv c entries H F -> c_block c = b -> c_scale c * cst = 1 ->
    match set_ir 0 rmul fwd c ir idx with
    | Ok c' => idx < entries /\ length ir <= c_maxlen c /\ core_inv c' entries H (upd F idx ir)
        /\ c_block c' = b /\ c_inputs c' = c_inputs c /\ c_parts c' = c_parts c
        /\ c_maxlen c' = c_maxlen c /\ c_scale c' = c_scale c
    | Throw e => e = InvalidArgument /\ (entries <= idx \/ c_maxlen c < length ir)
    | UB => False
    end.
  Proof.
    intros V Eb Es. unfold set_ir. rewrite (v_filters _ _ _ _ V).
    destruct (Nat.leb_spec entries idx); [auto|].
    assert (X := transform_ir_ok c ir Eb Es). rewrite <- Eb in X at 1. specialize (X (v_maxlen _ _ _ _ V)).
    destruct (transform_ir 0 rmul fwd c ir) as [spec|e|]; cbn [bind]; [| |exact X].
    - destruct X as [L A]. split; [assumption|]. split; [exact L|]. split; [|auto].
      apply install_inv; auto. now rewrite Eb.
    - destruct X; auto.
  Qed.

  Lemma zero_acts parts : acts_as b parts (repeat (repeat kzero (dsize b)) parts) [].
  Proof.
    split; [apply repeat_length|]. split; [simpl; lia|]. intros p Hp.
    exists (repeat kzero (dsize b)). split; [now apply nth_error_repeat|].
    split; [apply repeat_length|]. intros x Lx.
    assert (E : segment b [] p = repeat 0 (2 * b)).
    { unfold segment. rewrite skipn_nil, firstn_nil. simpl. now rewrite Nat.sub_0_r. }
    rewrite E, <- (t_fwd_zero _ _ TO), (t_conv _ _ TO) by (auto; apply repeat_length).
    apply (list_ext 0); [now rewrite map_length|].
    intros i Hi. rewrite map_length in Hi. rewrite (map_nth' (rmul cst) 0) by exact Hi.
    unfold cyclic in *. rewrite map_length, seq_length in Hi. rewrite map_seq_nth by exact Hi.
    rewrite (sum_zero rO rI radd rmul rsub ropp RT) by (intros; rewrite nth_repeat; ring). ring.
  Qed.

  Lemma core_new_ok inputs maxlen entries al scale :
    0 < b -> 0 < maxlen ->
    let c := core_new 0 kzero dsize inputs b maxlen entries al scale in
    core_inv c entries (fun _ => []) (fun _ => []) /\ c_parts c = number_of_partitions maxlen b.
  Proof.
    intros Hb Hm c. split; [|reflexivity].
    assert (Pp : 0 < number_of_partitions maxlen b /\ maxlen <= number_of_partitions maxlen b * b).
    { unfold number_of_partitions. split.
      - apply Nat.div_str_pos. lia.
      - assert (Q := Nat.div_mod (maxlen + b - 1) b ltac:(lia)).
        assert (R := Nat.mod_upper_bound (maxlen + b - 1) b ltac:(lia)). nia. }
    destruct Pp as [P1 P2].
    constructor; simpl; auto.
    - exists (next_aligned_size (2 * b) al). apply cb_new_inv. lia.
    - apply repeat_length.
    - intros ch r Hr. assert (E : r = repeat (repeat kzero (dsize b)) (number_of_partitions maxlen b))
        by (apply nth_error_In in Hr; now apply repeat_spec in Hr). subst r.
      split; [apply repeat_length|]. intros k Hk. rewrite nth_error_repeat.
      + f_equal. unfold window. rewrite firstn_nil. unfold recent. simpl. rewrite app_nil_r.
        symmetry. apply (t_fwd_zero _ _ TO).
      + unfold fdl_index. simpl. apply Nat.mod_upper_bound. lia.
    - apply repeat_length.
    - intros f spec Hs. assert (E : spec = repeat (repeat kzero (dsize b)) (number_of_partitions maxlen b))
        by (apply nth_error_In in Hs; now apply repeat_spec in Hs). subst spec. apply zero_acts.
  Qed.

  Lemma clear_filters_ok c entries H F : core_inv c entries H F -> c_block c = b ->
    core_inv (clear_filters kzero dsize c) entries H (fun _ => []).
  Proof.
    intros V Eb. destruct V. constructor; simpl; auto.
    - now rewrite repeat_length.
    - intros f spec Hs.
      assert (E : spec = repeat (zero_block kzero dsize c) (c_parts c))
        by (apply nth_error_In in Hs; now apply repeat_spec in Hs). subst spec.
      unfold zero_block. rewrite Eb. apply zero_acts.
  Qed.

  Lemma set_irs_ok : forall rows c entries H F idx,
    core_inv c entries H F -> c_block c = b -> c_scale c * cst = 1 ->
    idx + length rows <= entries -> Forall (fun r => length r <= c_maxlen c) rows ->
    exists c', set_irs 0 rmul fwd c idx rows = Ok c'
      /\ core_inv c' entries H (fun f => if (idx <=? f)%nat && (f <? idx + length rows)%nat
                                         then nth (f - idx) rows [] else F f)
      /\ c_block c' = b /\ c_inputs c' = c_inputs c /\ c_parts c' = c_parts c
      /\ c_maxlen c' = c_maxlen c /\ c_scale c' = c_scale c.
  Proof.
    induction rows as [|ir rows IH]; intros c entries H F idx V Eb Es L Fl.
    - exists c. split; [reflexivity|]. split; [|auto].
      destruct V. constructor; auto. intros f spec Hs.
      assert (E : ((idx <=? f) && (f <? idx + length (@nil (list T))))%nat = false).
      { simpl. destruct (Nat.leb_spec idx f), (Nat.ltb_spec f (idx + 0)); try reflexivity; lia. }
      rewrite E. auto.
    - assert (F1 := Forall_inv Fl). assert (F2 := Forall_inv_tail Fl). simpl in L, F1. cbn [set_irs].
      assert (S := set_ir_ok c entries H F ir idx V Eb Es).
      destruct (set_ir 0 rmul fwd c ir idx) as [c1|e|]; [| |destruct S].
      2:{ destruct S as [_ [S|S]]; lia. }
      destruct S as (_ & _ & V1 & E1 & E2 & E3 & E4 & E5). cbn [bind].
      destruct (IH c1 entries H _ (S idx) V1 E1) as (c' & E & V' & E1' & E2' & E3' & E4' & E5');
        [congruence|lia|now rewrite E4|].
      exists c'. split; [exact E|]. split; [|repeat split; congruence].
      destruct V'. constructor; auto. intros f spec Hs. specialize (v_filter0 f spec Hs).
      revert v_filter0. unfold upd. cbn [length nth].
      destruct (Nat.leb_spec (S idx) f), (Nat.leb_spec idx f), (Nat.ltb_spec f (S idx + length rows)),
        (Nat.ltb_spec f (idx + S (length rows))), (Nat.eqb_spec f idx); simpl; try lia; auto.
      + replace (f - idx)%nat with (S (f - S idx)) by lia. auto.
      + subst f. now rewrite Nat.sub_diag.
  Qed.

  Lemma init_filters_ok c entries H F rows cols :
    core_inv c entries H F -> c_block c = b -> c_scale c * cst = 1 ->
    Forall (fun r => length r = cols) rows ->
    let ok := (length rows <=? entries)%nat && (cols <=? c_maxlen c)%nat in
    exists c', init_filters 0 rmul kzero fwd dsize c rows cols
               = (if ok then Ok tt else Throw InvalidArgument, c')
      /\ core_inv c' entries H (fun f => if ok then nth f rows [] else [])
      /\ c_block c' = b /\ c_inputs c' = c_inputs c /\ c_parts c' = c_parts c
      /\ c_maxlen c' = c_maxlen c /\ c_scale c' = c_scale c.
  Proof.
    intros V Eb Es Fl ok. unfold init_filters.
    assert (V0 := clear_filters_ok c entries H F V Eb). rewrite (v_filters _ _ _ _ V).
    unfold ok. destruct (Nat.ltb_spec entries (length rows)), (Nat.leb_spec (length rows) entries); try lia;
      cbn [andb].
    { eexists. split; [reflexivity|]. split; [exact V0|]. auto. }
    destruct (Nat.ltb_spec (c_maxlen c) cols), (Nat.leb_spec cols (c_maxlen c)); try lia.
    { eexists. split; [reflexivity|]. split; [exact V0|]. auto. }
    destruct (set_irs_ok rows (clear_filters kzero dsize c) entries H _ 0%nat V0 Eb Es) as (c' & E & V' & R).
    { simpl. assumption. }
    { eapply Forall_impl; [|exact Fl]. simpl. intros; lia. }
    rewrite E. exists c'. split; [reflexivity|]. split; [|exact R].
    destruct V'. constructor; auto. intros f spec Hs. specialize (v_filter0 f spec Hs).
    simpl in v_filter0. rewrite Nat.sub_0_r in v_filter0.
    destruct (Nat.ltb_spec f (length rows)); [exact v_filter0|]. now rewrite nth_overflow by lia.
  Qed.
  End Fixed.
End Conv.
