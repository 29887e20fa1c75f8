(** Proofs about the PortAudio interface. *)
From Coq Require Import String.
From Verif Require Import Base Memory CircularBufferModel CircularBufferProofs PortaudioModel.
Local Open Scope res_scope.

Section Copy.
  Context {A : Type}.
  Implicit Types m src dst : list A.
  Lemma store_ok m i x : i < length m -> exists m', store m i x = Ok m' /\ length m' = length m
    /\ nth_error m' i = Some x /\ forall j, j <> i -> nth_error m' j = nth_error m j.
  Proof.
    intros H. unfold store. destruct (Nat.ltb_spec i (length m)); [|lia].
    eexists. split; [reflexivity|].
    assert (L : length (firstn i m) = i) by (rewrite firstn_length; lia).
    split; [|split].
    - rewrite app_length. cbn [length]. rewrite L, skipn_length. lia.
    - rewrite nth_error_app2 by lia. now rewrite L, Nat.sub_diag.
    - intros j N. destruct (Nat.lt_ge_cases j i).
      + rewrite nth_error_app1 by lia. rewrite nth_error_firstn. now destruct (Nat.ltb_spec j i); [|lia].
      + rewrite nth_error_app2 by lia. rewrite L. destruct (j - i) as [|k] eqn:E; [lia|]. cbn [nth_error].
        rewrite nth_error_skipn. f_equal. lia.
  Qed.
  Lemma copy_ok ss ds : 0 < ds -> forall n src so dst d,
    (forall i, i < n -> so + i * ss < length src) ->
    (forall i, i < n -> d + i * ds < length dst) ->
    exists dst', copy_strided n src so ss dst d ds = Ok dst' /\ length dst' = length dst
      /\ (forall i, i < n -> nth_error dst' (d + i * ds) = nth_error src (so + i * ss))
      /\ (forall j, (forall i, i < n -> j <> d + i * ds) -> nth_error dst' j = nth_error dst j).
  Proof.
    intros Hds. induction n as [|n IH]; intros src so dst d Hs Hd; cbn [copy_strided].
    - exists dst. repeat split; intros; lia.
    - assert (H0 := Hs 0 ltac:(lia)). assert (H1 := Hd 0 ltac:(lia)).
      destruct (nth_error_lt src so) as [x Ex]; [lia|]. unfold load. rewrite Ex. cbn [bind].
      destruct (store_ok dst d x ltac:(lia)) as (m & Em & Lm & Nm & Om). rewrite Em. cbn [bind].
      destruct (IH src (so + ss) m (d + ds)) as (dst' & E & L & N & O).
      { intros i Hi. specialize (Hs (S i) ltac:(lia)). lia. }
      { intros i Hi. specialize (Hd (S i) ltac:(lia)). lia. }
      exists dst'. split; [exact E|]. split; [lia|]. split.
      + intros [|i] Hi.
        * cbn [Nat.mul]. rewrite !Nat.add_0_r. rewrite O by (intros; lia). congruence.
        * specialize (N i ltac:(lia)). replace (d + S i * ds) with (d + ds + i * ds) by lia.
          rewrite N. f_equal. lia.
      + intros j Hj. rewrite O.
        * apply Om. specialize (Hj 0 ltac:(lia)). lia.
        * intros i Hi. specialize (Hj (S i) ltac:(lia)). lia.
  Qed.
End Copy.

Lemma fold_res_app {S I} (f : S -> I -> res S) l1 l2 s :
  fold_res f s (l1 ++ l2) = (s' <- fold_res f s l1 ;; fold_res f s' l2).
Proof. revert s. induction l1 as [|i l1 IH]; intros s; cbn [app fold_res bind]; [reflexivity|].
  destruct (f s i); cbn [bind]; auto. Qed.
(** A loop over 0, ..., k-1 with an invariant that records how far it has come. *)
Lemma fold_res_seq {S} (f : S -> nat -> res S) (P : nat -> S -> Prop) s k : P 0 s ->
  (forall i s, i < k -> P i s -> exists s', f s i = Ok s' /\ P (i + 1) s') ->
  exists s', fold_res f s (seq 0 k) = Ok s' /\ P k s'.
Proof.
  intros P0 St. assert (G : forall n, n <= k -> exists s', fold_res f s (seq 0 n) = Ok s' /\ P n s').
  { induction n as [|n IH]; intros H; [now exists s|].
    destruct (IH ltac:(lia)) as (s1 & E1 & P1). destruct (St n s1 ltac:(lia) P1) as (s2 & E2 & P2).
    exists s2. rewrite seq_S, fold_res_app, E1. cbn [bind fold_res Nat.add]. rewrite E2. cbn [bind].
    rewrite Nat.add_1_r in P2. auto. }
  now apply G.
Qed.

Section Interface.
  Context {A F W : Type} (zero : A)
          (call : F -> W -> list (list A) -> W * res (list (list A))).
  Local Notation pa := (pa A F).
  Local Notation devmem := (devmem A).

  (** ** Specification *)
  (** The channels in a memory area of [n] channels of [period] frames. *)
  Definition channels (n period : nat) (m : devmem) : list (list A) :=
    match m with
    | Flat l => map (fun c => map (fun t => nth (t * n + c) l zero) (seq 0 period)) (seq 0 n)
    | Planar ls => ls
    end.
  (** The memory area holding given channels: frame after frame, or channel by channel. *)
  Definition device_memory (interleaved : bool) (n period : nat) (ys : list (list A)) : devmem :=
    if interleaved
    then Flat (concat (map (fun t => map (fun c => nth t (nth c ys []) zero) (seq 0 n)) (seq 0 period)))
    else Planar ys.
  Definition area (interleaved : bool) (n period : nat) (m : devmem) : Prop :=
    match interleaved, m with
    | true, Flat l => length l = n * period
    | false, Planar ls => length ls = n /\ Forall (fun l => length l = period) ls
    | _, _ => False
    end.
  Definition sample (n : nat) (m : devmem) (c t : nat) : option A :=
    match m with
    | Flat l => nth_error l (t * n + c)
    | Planar ls => match nth_error ls c with Some l => nth_error l t | None => None end
    end.
  Definition block_of (n period : nat) (ys : list (list A)) : Prop :=
    length ys = n /\ Forall (fun l => length l = period) ys.

  Lemma sample_in il n period m c t : area il n period m -> c < n -> t < period ->
    exists x, sample n m c t = Some x.
  Proof.
    intros Ar Hc Ht. destruct il, m as [l|ls]; cbn [area] in Ar; try easy; cbn [sample].
    - apply nth_error_lt. nia.
    - destruct Ar as [L Fo]. destruct (nth_error_lt ls c ltac:(lia)) as [l El]. rewrite El.
      apply nth_error_lt. rewrite Forall_forall in Fo. rewrite (Fo l (nth_error_In _ _ El)). lia.
  Qed.
  Lemma channels_sample il n period m c t : area il n period m -> c < n -> t < period ->
    match nth_error (channels n period m) c with Some l => nth_error l t | None => None end = sample n m c t.
  Proof.
    intros Ar Hc Ht. destruct il, m as [l|ls]; cbn [area] in Ar; try easy; cbn [channels sample].
    rewrite nth_error_map.
    rewrite (nth_error_nth' (seq 0 n) 0) by (rewrite seq_length; lia). rewrite seq_nth by lia. cbn [option_map Nat.add].
    rewrite nth_error_map.
    rewrite (nth_error_nth' (seq 0 period) 0) by (rewrite seq_length; lia). rewrite seq_nth by lia. cbn [option_map Nat.add].
    symmetry. apply nth_error_nth'. nia.
  Qed.
  Lemma channels_block il n period m : area il n period m -> block_of n period (channels n period m).
  Proof.
    destruct il, m as [l|ls]; cbn [area channels]; try easy.
    intros _. split; [now rewrite map_length, seq_length|]. apply Forall_forall. intros x H.
    apply in_map_iff in H as (c & <- & _). now rewrite map_length, seq_length.
  Qed.
  Lemma nth_error_blocks {B} m : forall (ls : list (list B)) t c, Forall (fun l => length l = m) ls -> c < m ->
    nth_error (concat ls) (t * m + c) = match nth_error ls t with Some l => nth_error l c | None => None end.
  Proof.
    induction ls as [|l ls IH]; intros t c Fo Hc; cbn [concat].
    - now destruct t, (_ + c).
    - assert (L := Forall_inv Fo). assert (Fo' := Forall_inv_tail Fo). cbv beta in L.
      destruct t as [|t].
      + cbn [Nat.mul Nat.add nth_error]. rewrite nth_error_app1 by lia. reflexivity.
      + rewrite nth_error_app2 by (cbn [Nat.mul]; lia).
        replace (S t * m + c - length l) with (t * m + c) by (rewrite L; cbn [Nat.mul]; lia).
        cbn [nth_error]. now apply IH.
  Qed.
  Lemma concat_size {B} m : forall (ls : list (list B)), Forall (fun l => length l = m) ls ->
    length (concat ls) = length ls * m.
  Proof.
    induction ls as [|l ls IH]; intros Fo; [reflexivity|]. cbn [concat length]. rewrite app_length.
    rewrite (Forall_inv Fo), (IH (Forall_inv_tail Fo)). lia.
  Qed.
  Lemma frames_length n period ys : Forall (fun l : list A => length l = n)
    (map (fun t => map (fun c => nth t (nth c ys []) zero) (seq 0 n)) (seq 0 period)).
  Proof. apply Forall_forall. intros x H. apply in_map_iff in H as (t & <- & _). now rewrite map_length, seq_length. Qed.
  Lemma device_memory_area il n period ys : block_of n period ys -> area il n period (device_memory il n period ys).
  Proof.
    intros [L Fo]. unfold device_memory. destruct il; cbn [area]; [|auto].
    rewrite (concat_size n) by apply frames_length. rewrite map_length, seq_length. lia.
  Qed.
  Lemma device_memory_sample il n period ys c t : block_of n period ys -> c < n -> t < period ->
    sample n (device_memory il n period ys) c t
    = match nth_error ys c with Some l => nth_error l t | None => None end.
  Proof.
    intros [L Fo] Hc Ht. destruct il; cbn [device_memory sample]; [|reflexivity].
    rewrite nth_error_blocks by (try apply frames_length; lia).
    rewrite nth_error_map.
    rewrite (nth_error_nth' (seq 0 period) 0) by (rewrite seq_length; lia). rewrite seq_nth by lia. cbn [option_map Nat.add].
    rewrite nth_error_map.
    rewrite (nth_error_nth' (seq 0 n) 0) by (rewrite seq_length; lia). rewrite seq_nth by lia. cbn [option_map Nat.add].
    rewrite (nth_error_nth' ys []) by lia. symmetry. apply nth_error_nth'.
    rewrite Forall_forall in Fo. rewrite (Fo (nth c ys [])); [lia|]. apply nth_In. lia.
  Qed.
  Lemma area_ext il n period m m' : area il n period m -> area il n period m' ->
    (forall c t, c < n -> t < period -> sample n m c t = sample n m' c t) -> m = m'.
  Proof.
    intros A1 A2 H. destruct il, m as [l|ls], m' as [l'|ls']; cbn [area sample] in *; try easy; f_equal.
    - apply nth_error_ext. intros j. destruct (Nat.lt_ge_cases j (n * period)) as [Hj|Hj].
      + assert (n <> 0) by lia. rewrite (Nat.div_mod j n) by lia.
        rewrite (Nat.mul_comm n). apply H; [now apply Nat.mod_upper_bound|].
        apply Nat.div_lt_upper_bound; lia.
      + rewrite !(proj2 (nth_error_None _ _)) by lia. reflexivity.
    - destruct A1 as [L1 F1], A2 as [L2 F2]. apply nth_error_ext. intros c.
      destruct (Nat.lt_ge_cases c n) as [Hc|Hc].
      + destruct (nth_error_lt ls c ltac:(lia)) as [l El]. destruct (nth_error_lt ls' c ltac:(lia)) as [l' El'].
        rewrite El, El'. f_equal. rewrite Forall_forall in F1, F2.
        assert (G1 := F1 _ (nth_error_In _ _ El)). assert (G2 := F2 _ (nth_error_In _ _ El')).
        apply nth_error_ext. intros t. destruct (Nat.lt_ge_cases t period) as [Ht|Ht].
        * specialize (H c t Hc Ht). now rewrite El, El' in H.
        * rewrite !(proj2 (nth_error_None _ _)) by lia. reflexivity.
      + rewrite !(proj2 (nth_error_None _ _)) by lia. reflexivity.
  Qed.

  (** ** The invariant of the interface *)
  Record inv (stride : nat) (s : pa) : Prop := {
    v_period : a_period s <= stride;
    v_cap : a_cap_ptr s = map (fun i => stride * i) (seq 0 (a_cap s));
    v_play : a_play_ptr s = map (fun i => stride * (a_cap s + i)) (seq 0 (a_play s));
    v_size : length (a_storage s) = (a_cap s + a_play s) * stride }.
  Lemma inv_storage stride s m : inv stride s -> length m = length (a_storage s) -> inv stride (with_storage s m).
  Proof. intros [] L. split; cbn; auto. congruence. Qed.
  Lemma ptr_nth (g : nat -> nat) n c : c < n -> nth_error (map g (seq 0 n)) c = Some (g c).
  Proof.
    intros H. rewrite nth_error_map, (nth_error_nth' _ 0) by (rewrite seq_length; lia).
    now rewrite seq_nth by lia.
  Qed.

  Lemma capture_ok stride s input : inv stride s -> a_format s = Float32 ->
    area (a_interleaved s) (a_cap s) (a_period s) input ->
    exists m, transfer_capture s input = Ok (with_storage s m) /\ length m = length (a_storage s)
      /\ forall c t, c < a_cap s -> t < a_period s ->
           nth_error m (stride * c + t) = sample (a_cap s) input c t.
  Proof.
    intros I Fm Ar. unfold transfer_capture. rewrite Fm.
    destruct (fold_res_seq (capture_channel s input)
      (fun k m => length m = length (a_storage s) /\ forall c t, c < k -> t < a_period s ->
                  nth_error m (stride * c + t) = sample (a_cap s) input c t) (a_storage s) (a_cap s)) as (m & E & L & N).
    - split; [reflexivity|lia].
    - intros ch m Hch [Lm Nm]. unfold capture_channel.
      rewrite (v_cap _ _ I), ptr_nth by assumption.
      assert (B : stride * ch + a_period s <= length m).
      { rewrite Lm, (v_size _ _ I). pose proof (v_period _ _ I). nia. }
      assert (G : forall src so ss, (forall i, i < a_period s -> nth_error src (so + i * ss) = sample (a_cap s) input ch i) ->
        exists m', copy_strided (a_period s) src so ss m (stride * ch) 1 = Ok m' /\
          length m' = length (a_storage s) /\ forall c t, c < ch + 1 -> t < a_period s ->
            nth_error m' (stride * c + t) = sample (a_cap s) input c t).
      { intros src so ss Hs. destruct (copy_ok ss 1 ltac:(lia) (a_period s) src so m (stride * ch)) as (m' & E & L & N & O).
        - intros i Hi. destruct (sample_in (a_interleaved s) (a_cap s) (a_period s) input ch i Ar Hch Hi) as [x Ex].
          apply nth_error_Some. rewrite Hs by assumption. congruence.
        - intros i Hi. lia.
        - exists m'. split; [exact E|]. split; [congruence|]. intros c t Hc Ht.
          destruct (Nat.eq_dec c ch) as [->|Nc].
          + specialize (N t Ht). rewrite Nat.mul_1_r in N. rewrite N. now apply Hs.
          + rewrite O; [apply Nm; lia|]. intros i Hi. pose proof (v_period _ _ I). nia. }
      destruct (a_interleaved s) eqn:Il, input as [l|ls]; cbn [area] in Ar; try easy.
      + apply G. intros i Hi. cbn [sample]. f_equal. lia.
      + destruct Ar as [Ll Fl]. destruct (nth_error_lt ls ch ltac:(lia)) as [l El]. rewrite El.
        apply G. intros i Hi. cbn [sample]. rewrite El. f_equal. lia.
    - rewrite E. cbn [bind]. exists m. auto.
  Qed.

  Lemma map_res_forall2 {X Y} (f : X -> res Y) l r : Forall2 (fun x y => f x = Ok y) l r -> map_res f l = Ok r.
  Proof. induction 1 as [|x y l r E _ IH]; [reflexivity|]. cbn [map_res]. now rewrite E, IH. Qed.
  Lemma forall2_map {X Y Z} (g : X -> Z -> Prop) (h : Y -> X) l r : Forall2 (fun y z => g (h y) z) l r -> Forall2 g (map h l) r.
  Proof. induction 1; constructor; auto. Qed.
  Lemma forall2_seq {Y} (g : nat -> Y -> Prop) n (r : list Y) : length r = n ->
    (forall c y, nth_error r c = Some y -> g c y) -> Forall2 g (seq 0 n) r.
  Proof.
    intros <- H. revert g H. induction r as [|y r IH]; intros g H; [constructor|]. cbn [length seq]. constructor.
    - now apply (H 0).
    - rewrite <- seq_shift. apply forall2_map. apply IH. intros c z E. now apply (H (S c)).
  Qed.

  Lemma read_ok stride s input m : inv stride s ->
    area (a_interleaved s) (a_cap s) (a_period s) input -> length m = length (a_storage s) ->
    (forall c t, c < a_cap s -> t < a_period s -> nth_error m (stride * c + t) = sample (a_cap s) input c t) ->
    map_res (fun p => mem_read m p (a_period s)) (a_cap_ptr s) = Ok (channels (a_cap s) (a_period s) input).
  Proof.
    intros I Ar Lm H. apply map_res_forall2. rewrite (v_cap _ _ I).
    destruct (channels_block _ _ _ _ Ar) as [Lc Fc].
    apply forall2_map. apply forall2_seq; [exact Lc|]. intros c l El.
    assert (Hc : c < a_cap s) by (rewrite <- Lc; apply nth_error_Some; congruence).
    destruct (mem_read_ok m (stride * c) (a_period s)) as (d & E & Ld & N).
    { rewrite Lm, (v_size _ _ I). pose proof (v_period _ _ I). nia. }
    rewrite E. f_equal. rewrite Forall_forall in Fc. assert (Ll := Fc _ (nth_error_In _ _ El)).
    apply nth_error_ext. intros t. rewrite N. destruct (Nat.ltb_spec t (a_period s)) as [Ht|Ht].
    - rewrite H by assumption. rewrite <- (channels_sample _ _ _ _ _ _ Ar Hc Ht). now rewrite El.
    - symmetry. apply nth_error_None. lia.
  Qed.

  Lemma write_ok stride base period : period <= stride -> forall (ys : list (list A)) k m,
    Forall (fun l => length l = period) ys -> (base + k + length ys) * stride <= length m ->
    exists m', fold_res (fun m py => mem_write m (fst py) (snd py)) m
                 (combine (map (fun i => stride * (base + i)) (seq k (length ys))) ys) = Ok m'
      /\ length m' = length m
      /\ (forall j, j < stride * (base + k) -> nth_error m' j = nth_error m j)
      /\ forall c l t, nth_error ys c = Some l -> t < period ->
           nth_error m' (stride * (base + (k + c)) + t) = nth_error l t.
  Proof.
    intros Hp. induction ys as [|y ys IH]; intros k m Fo B; cbn [length seq map combine fold_res].
    - exists m. repeat split; auto. intros [|c] l t E; discriminate.
    - assert (Ly := Forall_inv Fo). assert (Fo' := Forall_inv_tail Fo). cbv beta in Ly. cbn [length] in B. cbn [fst snd].
      destruct (mem_write_ok m (stride * (base + k)) y) as (m1 & E1 & L1 & N1); [nia|].
      rewrite E1. cbn [bind].
      destruct (IH (S k) m1 Fo' ltac:(rewrite L1; nia)) as (m2 & E2 & L2 & O2 & N2).
      exists m2. split; [exact E2|]. split; [congruence|]. split.
      + intros j Hj. rewrite O2 by nia. rewrite N1.
        destruct (Nat.leb_spec (stride * (base + k)) j); [lia|reflexivity].
      + intros [|c] l t El Ht; cbn [nth_error] in El.
        * apply Some_inj in El. subst l. rewrite Nat.add_0_r. rewrite O2 by nia. rewrite N1.
          destruct (Nat.leb_spec (stride * (base + k)) (stride * (base + k) + t)); [|lia]. cbn [andb].
          destruct (Nat.ltb_spec (stride * (base + k) + t) (stride * (base + k) + length y)); [|lia].
          f_equal. lia.
        * replace (k + S c) with (S k + c) by lia. now apply N2.
  Qed.

  Lemma playback_ok stride s ys out : inv stride s -> a_format s = Float32 ->
    block_of (a_play s) (a_period s) ys ->
    (forall c l t, nth_error ys c = Some l -> t < a_period s ->
       nth_error (a_storage s) (stride * (a_cap s + c) + t) = nth_error l t) ->
    area (a_interleaved s) (a_play s) (a_period s) out ->
    transfer_playback s out = Ok (device_memory (a_interleaved s) (a_play s) (a_period s) ys).
  Proof.
    intros I Fm Bl H Ar. unfold transfer_playback. rewrite Fm.
    destruct (fold_res_seq (playback_channel s)
      (fun k m => area (a_interleaved s) (a_play s) (a_period s) m /\ forall c t, c < k -> t < a_period s ->
         sample (a_play s) m c t = match nth_error ys c with Some l => nth_error l t | None => None end) out (a_play s))
      as (m & E & Am & Nm).
    - split; [exact Ar|lia].
    - intros ch m Hch [Am Nm]. unfold playback_channel. rewrite (v_play _ _ I), ptr_nth by assumption.
      destruct Bl as [Ly Fy]. destruct (nth_error_lt ys ch ltac:(lia)) as [y Ey].
      assert (B : stride * (a_cap s + ch) + a_period s <= length (a_storage s)).
      { rewrite (v_size _ _ I). pose proof (v_period _ _ I). nia. }
      destruct (a_interleaved s) eqn:Il, m as [l|ls]; cbn [area] in Am; try easy.
      + destruct (copy_ok 1 (a_play s) ltac:(lia) (a_period s) (a_storage s) (stride * (a_cap s + ch)) l ch) as (l' & E & L & N & O).
        * intros i Hi. lia.
        * intros i Hi. nia.
        * rewrite E. cbn [bind]. exists (Flat l'). split; [reflexivity|]. split; [cbn [area]; congruence|].
          intros c t Hc Ht. cbn [sample]. destruct (Nat.eq_dec c ch) as [->|Nc].
          -- rewrite Ey. replace (t * a_play s + ch) with (ch + t * a_play s) by lia. rewrite N by assumption.
             rewrite Nat.mul_1_r. now apply H.
          -- rewrite O; [apply (Nm c t); lia|]. intros i Hi Eq. destruct (Nat.lt_trichotomy t i) as [G|[G|G]].
             ++ assert ((t + 1) * a_play s <= i * a_play s) by (apply Nat.mul_le_mono_r; lia). lia.
             ++ subst i. lia.
             ++ assert ((i + 1) * a_play s <= t * a_play s) by (apply Nat.mul_le_mono_r; lia). lia.
      + destruct Am as [Ll Fl]. destruct (nth_error_lt ls ch ltac:(lia)) as [l El]. rewrite El.
        assert (Lc : length l = a_period s) by (rewrite Forall_forall in Fl; apply Fl; eapply nth_error_In; eassumption).
        destruct (copy_ok 1 1 ltac:(lia) (a_period s) (a_storage s) (stride * (a_cap s + ch)) l 0) as (l' & E & L & N & O).
        * intros i Hi. lia.
        * intros i Hi. lia.
        * rewrite E. cbn [bind]. eexists. split; [reflexivity|].
          destruct (store_ok ls ch l' ltac:(lia)) as (ls' & Es & Ls & Nn & On).
          unfold store in Es. destruct (Nat.ltb_spec ch (length ls)); [|lia]. apply Ok_inj in Es. rewrite Es.
          split.
          -- cbn [area]. split; [lia|]. apply Forall_forall. intros x Hx. apply In_nth_error in Hx as [j Ej].
             destruct (Nat.eq_dec j ch) as [->|Nj].
             ++ rewrite Nn in Ej. apply Some_inj in Ej. congruence.
             ++ rewrite On in Ej by assumption. rewrite Forall_forall in Fl. apply Fl. eapply nth_error_In; eassumption.
          -- intros c t Hc Ht. cbn [sample]. destruct (Nat.eq_dec c ch) as [->|Nc].
             ++ rewrite Nn, Ey. specialize (N t Ht). cbn [Nat.add] in N. rewrite Nat.mul_1_r in N. rewrite N.
                now apply H.
             ++ rewrite On by assumption. apply (Nm c t); lia.
    - rewrite E. f_equal. apply (area_ext (a_interleaved s) (a_play s) (a_period s)); [exact Am|now apply device_memory_area|].
      intros c t Hc Ht. rewrite Nm by assumption. symmetry. now apply device_memory_sample.
  Qed.

  (** ** One call of the interface *)
  Lemma engine_ok stride s w input out f : inv stride s -> a_format s = Float32 -> a_callback s = Some f ->
    area (a_interleaved s) (a_cap s) (a_period s) input -> area (a_interleaved s) (a_play s) (a_period s) out ->
    (forall w' ys, call f w (channels (a_cap s) (a_period s) input) = (w', Ok ys) -> block_of (a_play s) (a_period s) ys) ->
    exists m, length m = length (a_storage s) /\
    engine_callback call s w input out =
      match call f w (channels (a_cap s) (a_period s) input) with
      | (w', Ok ys) => Ok (Continue, with_storage s m, w', device_memory (a_interleaved s) (a_play s) (a_period s) ys)
      | (w', Throw _) => Ok (Abort, with_storage s m, w', out)
      | (_, UB) => UB
      end.
  Proof.
    intros I Fm Cb Ai Ao Bl. unfold engine_callback. rewrite Cb.
    destruct (capture_ok stride s input I Fm Ai) as (m & E & L & N). rewrite E. cbn [bind].
    cbn [a_storage a_period a_cap_ptr with_storage].
    rewrite (read_ok stride s input m I Ai L N). cbn [bind].
    destruct (call f w (channels (a_cap s) (a_period s) input)) as [w' [ys|e|]].
    - specialize (Bl w' ys eq_refl). destruct Bl as [Ly Fy].
      unfold write_output. cbn [a_storage a_play_ptr with_storage]. rewrite (v_play _ _ I).
      destruct (write_ok stride (a_cap s) (a_period s) (v_period _ _ I) ys 0 m Fy) as (m2 & E2 & L2 & O2 & N2).
      { rewrite L, (v_size _ _ I). nia. }
      rewrite Ly in E2. rewrite E2. cbn [bind]. exists m2. split; [congruence|].
      change (with_storage (with_storage s m) m2) with (with_storage s m2).
      assert (I2 : inv stride (with_storage s m2)) by (apply inv_storage; [exact I|congruence]).
      rewrite (playback_ok stride (with_storage s m2) ys out I2 Fm); [reflexivity|split; [exact Ly|exact Fy]| |exact Ao].
      intros c l t El Ht. cbn [a_storage a_cap with_storage]. now apply (N2 c l t El Ht).
    - exists m. auto.
    - exists m. auto.
  Qed.
End Interface.
