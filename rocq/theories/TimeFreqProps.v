(** C45: inverse time-frequency transform; C56: forward transform; C57: round trip. *)
From Coq Require Import Reals Ring Lra ZArith.
From Coq Require Import List.
From Verif Require Import Base Memory RingSum CircularBufferModel TimeFreqModel TimeFreqProofs TimeFreqForward Dft RealDft.
Local Open Scope res_scope.

Section Inverse.
  Context {T S : Type} (rO rI : T) (radd rmul rsub : T -> T -> T) (ropp : T -> T).
  Variable RT : ring_theory rO rI radd rmul rsub ropp (@eq T).
  Variable inverse : S -> list T.
  Variable none : S.

  (** What the component outputs, for any number of frames per period: sample [i] of the
      [n]th block is the overlap-add of the frames received so far, read [i] samples after
      the start of the last frame. *)
  Theorem C45_exact channels F dft hop scale inputs :
    1 <= hop <= dft -> F * hop <= dft ->
    (forall s, length (inverse s) = dft) -> well_formed channels F inputs ->
    exists i0 i1 outs,
      itf_new rO channels (F * hop) dft hop scale = Ok i0
      /\ itf_run radd rmul inverse i0 inputs = Ok (i1, outs)
      /\ length outs = length inputs
      /\ forall n ch i, n < length inputs -> ch < channels -> i < F * hop ->
           nth i (nth ch (nth n outs []) []) rO
           = rmul scale (overlap_add rO radd inverse none hop (channel_frames none ch (firstn (n + 1) inputs))
                           (((n + 1) * F - 1) * hop + i)).
  Proof using RT.
    intros Hh HD L W.
    assert (FD : F * hop / hop = F) by (apply Nat.div_mul; lia).
    assert (FM : (F * hop) mod hop = 0) by (apply Nat.mod_mul; lia).
    unfold itf_new. destruct (Nat.eqb_spec hop 0) as [?|_]; [lia|]. destruct (Nat.ltb_spec dft hop) as [?|_]; [lia|].
    rewrite FM, FD. cbn [Nat.eqb negb].
    destruct (itf_run_ok rO rI radd rmul rsub ropp RT inverse none dft hop Hh L channels (F * hop) F scale
                eq_refl HD inputs (repeat (repeat rO (dft - hop)) channels) (fun _ => []))
      as (i1 & outs & E & LO & O).
    - apply repeat_length.
    - exact W.
    - intros j a Hj. apply nth_error_In, repeat_spec in Hj. subst. unfold accu_is.
      unfold overlap_add. cbn. rewrite map_const_seq. reflexivity.
    - eexists _, i1, outs. split; [reflexivity|]. split; [exact E|]. split; [exact LO|].
      intros n ch i Hn Hc Hi.
      assert (NE : nth_error outs n = Some (nth n outs [])) by (apply nth_error_nth'; lia).
      destruct (O n _ NE) as [_ B]. rewrite (B ch Hc). cbn [app]. unfold block_of.
      rewrite nth_tab by exact Hi. rewrite <- (Nat.add_1_r n).
      do 3 f_equal. f_equal.
      rewrite (channel_frames_length inverse none channels F ch (firstn (n + 1) inputs)).
      + rewrite firstn_length. f_equal. f_equal. lia.
      + intros x Hx. apply W. rewrite <- (firstn_skipn (n + 1) inputs). apply in_or_app. now left.
  Qed.

  (** *** The documented behaviour: overlap-add of all frames, frame [k] starting at sample
      [k * hop], possibly with a fixed latency *)
  Definition performs_overlap_add (latency channels F dft hop : nat) (scale : T) (inputs : list (list (list S))) : Prop :=
    exists i0 i1 outs,
      itf_new rO channels (F * hop) dft hop scale = Ok i0
      /\ itf_run radd rmul inverse i0 inputs = Ok (i1, outs)
      /\ length outs = length inputs
      /\ forall n ch i, n < length inputs -> ch < channels -> i < F * hop ->
           let t := n * (F * hop) + i in
           nth i (nth ch (nth n outs []) []) rO
           = rmul scale (if latency <=? t
                         then overlap_add rO radd inverse none hop (channel_frames none ch inputs) (t - latency)
                         else rO).

  (** It holds for one frame per period.  Missing: several frames per period (refuted). *)
  Theorem C45_overlap_add_partial channels dft hop scale inputs :
    1 <= hop <= dft -> (forall s, length (inverse s) = dft) -> well_formed channels 1 inputs ->
    performs_overlap_add 0 channels 1 dft hop scale inputs.
  Proof using RT.
    intros Hh L W.
    destruct (C45_exact channels 1 dft hop scale inputs Hh ltac:(lia) L W) as (i0 & i1 & outs & E0 & E1 & LO & O).
    exists i0, i1, outs. repeat (split; [assumption|]). intros n ch i Hn Hc Hi t.
    rewrite (O n ch i Hn Hc Hi). cbn [Nat.leb]. rewrite Nat.sub_0_r. f_equal. unfold t.
    rewrite (channel_frames_split none ch (n + 1) inputs).
    rewrite (overlap_add_future rO rI radd rmul rsub ropp RT).
    - f_equal. lia.
    - rewrite (channel_frames_length inverse none channels 1).
      + rewrite firstn_length, Nat.min_l by lia. lia.
      + intros x Hx. apply W. rewrite <- (firstn_skipn (n + 1) inputs). apply in_or_app. now left.
  Qed.

  (** A period longer than the transform size passes the constructor and reads beyond the
      end of the calculation buffer. *)
  Theorem C45_long_period_refuted channels F dft hop scale x :
    1 <= hop <= dft -> dft < F * hop -> 1 <= channels ->
    (forall s, length (inverse s) = dft) -> well_formed channels F [x] ->
    exists i0, itf_new rO channels (F * hop) dft hop scale = Ok i0 /\ itf_process radd rmul inverse i0 x = UB.
  Proof using RT none.
    intros Hh HF Hc L W.
    assert (FD : F * hop / hop = F) by (apply Nat.div_mul; lia).
    assert (FM : (F * hop) mod hop = 0) by (apply Nat.mod_mul; lia).
    unfold itf_new. destruct (Nat.eqb_spec hop 0) as [?|_]; [lia|]. destruct (Nat.ltb_spec dft hop) as [?|_]; [lia|].
    rewrite FM, FD. cbn [Nat.eqb negb]. eexists. split; [reflexivity|].
    unfold itf_process. cbn [i_accu]. destruct channels as [|channels]; [lia|].
    cbn [repeat itf_channels i_dft i_hop i_frames i_period].
    destruct (W x (or_introl eq_refl)) as [LX WX].
    destruct (itf_frames_ok rO rI radd rmul rsub ropp RT inverse none dft hop Hh L 0 x [] [] (repeat rO (dft - hop)))
      as (calc & accu & E & _ & C & _).
    - unfold accu_is, overlap_add. cbn. now rewrite map_const_seq.
    - intros fr Hfr. rewrite (WX fr Hfr). lia.
    - rewrite LX in E. rewrite E. cbn [bind]. rewrite C.
      + unfold mem_read. rewrite map_length, seq_length. cbn [plus].
        destruct (Nat.leb_spec (F * hop) dft); [lia|reflexivity].
      + intros ->. cbn in LX. subst F. cbn in HF. lia.
  Qed.
End Inverse.

(** Two frames of (1, 1) per period, hop 1: the first output sample is 2, the overlap-add
    starts with 1 *)
Theorem C45_overlap_add_refuted :
  exists (inverse : Z * Z -> list Z) inputs,
    (forall s, length (inverse s) = 2) /\ well_formed 1 2 inputs
    /\ forall latency, ~ performs_overlap_add 0%Z Z.add Z.mul inverse (0, 0)%Z latency 1 2 2 1 1%Z inputs.
Proof.
  exists (fun s => [fst s; snd s]), [[[(1, 1)]; [(1, 1)]]]%Z.
  split; [reflexivity|]. split.
  - intros x [<-|[]]. split; [reflexivity|]. intros fr [<-|[<-|[]]]; reflexivity.
  - intros latency (i0 & i1 & outs & E0 & E1 & _ & O).
    cbv in E0. apply Ok_inj in E0. subst i0. cbv in E1. apply Ok_inj in E1.
    apply (f_equal snd) in E1. cbn [snd] in E1. subst outs.
    specialize (O 0 0 0 ltac:(cbn; lia) ltac:(lia) ltac:(lia)). cbv zeta in O.
    destruct latency as [|latency]; cbv in O; discriminate.
Qed.

(** Hop sizes that do not divide the period are rejected by both constructors, and only these
    (the forward transform reports a logic error from its buffer size calculation, not the
    invalid argument of its own check). *)
Theorem C45_hop_checked {T} (zero : T) channels period dft hop scale : 1 <= hop <= dft ->
  (itf_new zero channels period dft hop scale = Throw InvalidArgument <-> period mod hop <> 0)
  /\ (forall e, itf_new zero channels period dft hop scale = Throw e -> e = InvalidArgument).
Proof.
  intros Hh. unfold itf_new. destruct (Nat.eqb_spec hop 0) as [?|_]; [lia|].
  destruct (Nat.ltb_spec dft hop) as [?|_]; [lia|].
  destruct (Nat.eqb_spec (period mod hop) 0); cbn [negb]; (split; [split; [try congruence; try discriminate|]|]);
    try congruence; intros; congruence.
Qed.
Theorem C56_hop_checked {T} (zero : T) mul channels period dft win hop scale al :
  1 <= hop -> period mod hop <> 0 ->
  tft_new zero mul channels period dft win hop scale al = Throw LogicError.
Proof.
  intros Hh N. unfold tft_new, inputBufferSize. destruct (Nat.eqb_spec hop 0) as [?|_]; [lia|].
  destruct (Nat.eqb_spec (period mod hop) 0); [contradiction|reflexivity].
Qed.

(** *** C56: forward transform *)
Section Forward.
  Context {T S : Type} (zero : T) (mul : T -> T -> T).
  Variable forward : list T -> S.

  (** For every history: frame [k] of period [n], channel [ch], is the transform of the
      windowed (and zero-padded) most recent samples at the time of its last sample.
      Missing: [length win + period < dft] (refuted below). *)
  Theorem C56_frames_partial channels F dft hop win scale al inputs :
    1 <= F -> 1 <= hop <= length win -> length win <= dft -> dft <= length win + F * hop ->
    audio_blocks channels (F * hop) inputs ->
    exists t0 t1,
      tft_new zero mul channels (F * hop) dft win hop scale al = Ok t0
      /\ tft_run mul forward t0 inputs
         = Ok (t1, map (fun n => map (fun k => map (fun ch =>
                     forward (windowed zero mul dft hop (map (mul scale) win) (channel_signal ch inputs) (n * F + k)))
                     (seq 0 channels)) (seq 0 F)) (seq 0 (length inputs))).
  Proof using.
    intros HF Hh HD HZ B.
    destruct (tft_new_ok zero mul forward channels (F * hop) dft hop F win scale al eq_refl HF Hh HD HZ) as (t0 & E0 & I0).
    destruct (tft_run_ok zero mul forward channels (F * hop) dft hop F (map (mul scale) win) eq_refl HF
                ltac:(rewrite map_length; lia) ltac:(rewrite map_length; lia) _ inputs t0 (fun _ => []) 0
                I0 ltac:(intros; reflexivity) B) as (t1 & E1 & _).
    exists t0, t1. split; [exact E0|]. exact E1.
  Qed.

  (** A transform longer than the window by more than a period - zero padding for spectral
      interpolation, which the parameter documentation allows - cannot be constructed: the
      constructor writes [dft - hop] zeros to the input buffer. *)
  Theorem C56_zero_padding_refuted channels F dft hop win scale al :
    1 <= F -> 1 <= hop <= length win -> length win + F * hop < dft ->
    tft_new zero mul channels (F * hop) dft win hop scale al = Throw InvalidArgument.
  Proof using.
    clear forward. clear S. intros HF Hh HD. unfold tft_new. destruct (Nat.eqb_spec hop 0); [lia|].
    unfold inputBufferSize. destruct (Nat.eqb_spec hop 0); [lia|].
    rewrite Nat.mod_mul, Nat.div_mul by lia. cbn [Nat.eqb negb orb bind].
    assert (P : F * hop = hop + (F - 1) * hop).
    { rewrite <- (Nat.mul_1_l hop) at 2. rewrite <- Nat.mul_add_distr_r. f_equal. lia. }
    destruct (Nat.ltb_spec hop dft); [|lia].
    unfold cb_write, cb_new. cbn [cb_channels cb_length cb_rows]. unfold cb_channels. cbn [cb_rows].
    rewrite repeat_length, Nat.eqb_refl. cbn [negb].
    destruct (Nat.ltb_spec (length win + (F - 1) * hop) (dft - hop)); [reflexivity|lia].
  Qed.
End Forward.

(** *** C57: forward transform, inverse transform *)
Section RoundTrip.
  Context {T S : Type} (rO rI : T) (radd rmul rsub : T -> T -> T) (ropp : T -> T).
  Variable RT : ring_theory rO rI radd rmul rsub ropp (@eq T).
  Add Ring TRing57 : RT.
  Variable forward : list T -> S.
  Variable inverse : S -> list T.
  Variable none : S.

  (** analysis and synthesis in series with the same hop size, one frame per period *)
  Definition analysis_synthesis channels hop dft win scaleF scaleI al (inputs : list (list (list T)))
    : res (list (list (list T))) :=
    t <- tft_new rO rmul channels hop dft win hop scaleF al ;;
    i <- itf_new rO channels hop dft hop scaleI ;;
    ' (_, frames) <- tft_run rmul forward t inputs ;;
    ' (_, outs) <- itf_run radd rmul inverse i frames ;;
    Ok outs.

  (** If the window shifted by multiples of the hop size adds up to a constant, the output
      is the input delayed by [length win - hop] and scaled. *)
  Theorem C57_round_trip channels hop dft M win scaleF scaleI c cola al inputs :
    1 <= hop -> 1 <= M -> length win = M * hop -> length win <= dft -> dft <= length win + hop ->
    (forall s, length (inverse s) = dft) ->
    (forall v, length v = dft -> inverse (forward v) = map (rmul c) v) ->
    (forall i, i < hop -> sum rO radd M (fun m => nth (m * hop + i) win rO) = cola) ->
    audio_blocks channels hop inputs ->
    exists outs, analysis_synthesis channels hop dft win scaleF scaleI al inputs = Ok outs
      /\ length outs = length inputs
      /\ forall n ch i, n < length inputs -> ch < channels -> i < hop ->
           nth i (nth ch (nth n outs []) []) rO
           = rmul (rmul (rmul scaleI c) (rmul scaleF cola))
                  (delayed rO (channel_signal ch inputs) (length win - hop) (n * hop + i)).
  Proof using RT none.
    intros Hh HM HW HD HZ LI IF CO B.
    assert (HW1 : hop <= length win) by (rewrite HW; nia).
    destruct (C56_frames_partial rO rmul forward channels 1 dft hop win scaleF al inputs ltac:(lia)
                ltac:(lia) HD ltac:(lia) ltac:(rewrite Nat.mul_1_l; exact B)) as (t0 & t1 & E0 & E1).
    rewrite Nat.mul_1_l in E0. unfold analysis_synthesis. rewrite E0. cbn [bind].
    set (frames := map _ _) in E1.
    assert (WF : well_formed channels 1 frames).
    { intros x Hx. unfold frames in Hx. apply in_map_iff in Hx as (n & <- & _).
      split; [now rewrite map_length, seq_length|]. intros fr Hfr. apply in_map_iff in Hfr as (k & <- & _).
      now rewrite map_length, seq_length. }
    destruct (C45_overlap_add_partial rO rI radd rmul rsub ropp RT inverse none channels dft hop scaleI frames
                ltac:(lia) LI WF) as (i0 & i1 & outs & E2 & E3 & LO & O).
    rewrite Nat.mul_1_l in E2, O. rewrite E2. cbn [bind]. rewrite E1. cbn [bind]. rewrite E3. cbn [bind].
    assert (LF : length frames = length inputs) by (unfold frames; now rewrite map_length, seq_length).
    exists outs. split; [reflexivity|]. split; [lia|]. intros n ch i Hn Hc Hi.
    rewrite (O n ch i ltac:(lia) Hc Hi). cbv zeta. cbn [Nat.leb]. rewrite Nat.sub_0_r.
    set (t := n * hop + i). set (x := channel_signal ch inputs).
    set (W := map (rmul scaleF) win) in *.
    assert (LW : length W = length win) by (unfold W; apply map_length).
    (* the frames of the channel *)
    assert (CF : channel_frames none ch frames
                 = map (fun k => forward (windowed rO rmul dft hop W x k)) (seq 0 (length inputs))).
    { unfold channel_frames, frames. rewrite map_map. rewrite <- flat_map_concat_map.
      assert (G : forall l, flat_map (fun n0 => map (fun fr => nth ch fr none)
                   (map (fun k => map (fun ch0 => forward (windowed rO rmul dft hop W (channel_signal ch0 inputs) (n0 * 1 + k)))
                      (seq 0 channels)) (seq 0 1))) l
                 = map (fun k => forward (windowed rO rmul dft hop W x k)) l).
      { induction l as [|a l IH]; [reflexivity|]. cbn [flat_map map seq app]. f_equal; [|exact IH].
        rewrite nth_tab by exact Hc. do 2 f_equal. lia. }
      apply G. }
    rewrite CF. unfold overlap_add. rewrite map_length, seq_length.
    (* every frame contributes the same input sample *)
    assert (TR : forall k, k < length inputs ->
       (if k * hop <=? t then nth (t - k * hop) (inverse (nth k (map (fun k => forward (windowed rO rmul dft hop W x k))
            (seq 0 (length inputs))) none)) rO else rO)
       = rmul (rmul c (delayed rO x (length win) (t + hop)))
              (if k <=? n then nth ((n - k) * hop + i) W rO else rO)).
    { intros k Hk. rewrite nth_tab by exact Hk.
      destruct (Nat.leb_spec k n) as [Hkn|Hkn].
      - destruct (Nat.leb_spec (k * hop) t); [|unfold t in *; nia].
        assert (EJ : t - k * hop = (n - k) * hop + i) by (unfold t; nia).
        rewrite EJ. set (j := (n - k) * hop + i) in *.
        rewrite IF by (unfold windowed; now rewrite map_length, seq_length).
        destruct (Nat.ltb_spec j dft) as [Hj|Hj].
        + rewrite (nth_indep _ rO (rmul c rO)) by (unfold windowed; now rewrite !map_length, seq_length).
          rewrite map_nth. unfold windowed. rewrite nth_tab by exact Hj. rewrite LW.
          replace ((k + 1) * hop + j) with (t + hop) by (unfold j, t; nia).
          destruct (Nat.ltb_spec j (length win)) as [Hjw|Hjw]; [ring|].
          rewrite (nth_overflow W) by lia. ring.
        + rewrite nth_overflow by (unfold windowed; rewrite !map_length, seq_length; lia).
          rewrite (nth_overflow W) by lia. ring.
      - destruct (Nat.leb_spec (k * hop) t); [unfold t in *; nia|]. ring. }
    rewrite (sum_ext rO radd (length inputs) _ _ TR), (sum_scale rO rI radd rmul rsub ropp RT).
    rewrite (sum_cut rO rI radd rmul rsub ropp RT (length inputs) (n + 1)); [|lia|].
    2:{ intros k Hk. destruct (Nat.leb_spec k n); [lia|reflexivity]. }
    rewrite (sum_rev rO rI radd rmul rsub ropp RT (n + 1)).
    rewrite (sum_ext rO radd (n + 1) _ (fun m => nth (m * hop + i) W rO)).
    2:{ intros m Hm. destruct (Nat.leb_spec (n + 1 - 1 - m) n); [|lia]. do 2 f_equal. f_equal. lia. }
    assert (SW : sum rO radd M (fun m => nth (m * hop + i) W rO) = rmul scaleF cola).
    { rewrite <- (CO i Hi), <- (sum_scale rO rI radd rmul rsub ropp RT). apply sum_ext. intros m Hm.
      assert (m * hop + i < length win) by (rewrite HW; nia).
      unfold W. rewrite (nth_indep _ rO (rmul scaleF rO)) by (rewrite map_length; lia). apply map_nth. }
    assert (DE : delayed rO x (length win) (t + hop) = delayed rO x (length win - hop) t).
    { unfold delayed. destruct (Nat.leb_spec (length win) (t + hop)), (Nat.leb_spec (length win - hop) t); try lia; [|reflexivity].
      f_equal. lia. }
    destruct (Nat.leb_spec M (n + 1)) as [HMn|HMn].
    - rewrite (sum_cut rO rI radd rmul rsub ropp RT (n + 1) M); [|lia|].
      2:{ intros m Hm. apply nth_overflow. rewrite LW, HW. nia. }
      rewrite SW, DE. ring.
    - assert (Z : delayed rO x (length win) (t + hop) = rO).
      { unfold delayed. destruct (Nat.leb_spec (length win) (t + hop)) as [H|H]; [|reflexivity].
        exfalso. rewrite HW in H. unfold t in H. nia. }
      rewrite <- DE, Z. ring.
  Qed.
End RoundTrip.

(** A window longer than the transform passes the constructor and overruns the calculation
    buffer in the first call of process(). *)
Theorem C56_long_window_refuted :
  exists t : tft, tft_new 0%Z Z.mul 1 1 2 [1; 1; 1]%Z 1 1%Z 1 = Ok t
    /\ tft_process Z.mul (fun v => v) t [[1%Z]] = UB.
Proof. eexists. split; reflexivity. Qed.

(** A hop size larger than the window passes the constructor; every call of process() throws. *)
Theorem C56_long_hop_refuted :
  exists t : tft, tft_new 0%Z Z.mul 1 2 2 [1]%Z 2 1%Z 1 = Ok t
    /\ tft_process Z.mul (fun v => v) t [[1%Z; 2%Z]] = Throw InvalidArgument.
Proof. eexists. split; reflexivity. Qed.

(** *** The default window *)
Local Open Scope R_scope.

Lemma cosine_turn M : (2 <= M)%nat ->
  sum 0 Rplus M (fun m => cos (2 * PI * INR m / INR M)) = 0
  /\ sum 0 Rplus M (fun m => sin (2 * PI * INR m / INR M)) = 0.
Proof.
  intros HM. assert (P : 0 < INR M) by (apply lt_0_INR; lia).
  assert (G := geometric M ltac:(lia) 2 M).
  assert (Z : sum C0 Cadd M (fun k => w M (k * 2)) = C0).
  { apply (C_integral (Csub (w M 2) C1)).
    - intros Z. apply (w_not_1 M ltac:(lia) 2 ltac:(lia)). unfold Csub, Cadd, Copp, C1, C0 in *.
      destruct (w M 2) as [x y]. cbn [fst snd] in *. injection Z as Z1 Z2. f_equal; lra.
    - rewrite G. replace (M * 2)%nat with (2 * M * 1)%nat by lia. rewrite w_turns by lia.
      unfold Csub, Cadd, Copp, C1, C0. cbn [fst snd]. f_equal; ring. }
  assert (A : forall m, angle M (m * 2) = 2 * PI * INR m / INR M).
  { intros m. unfold angle. rewrite !mult_INR. change (INR 2) with 2. field. lra. }
  split.
  - apply (f_equal fst) in Z. rewrite csum_fst in Z. cbn [fst C0] in Z. etransitivity; [|exact Z].
    apply sum_ext. intros m _. unfold w. cbn [fst]. now rewrite A.
  - apply (f_equal snd) in Z. rewrite csum_snd in Z. cbn [snd C0] in Z.
    transitivity (- sum 0 Rplus M (fun m => snd (w M (m * 2)))); [|rewrite Z; ring].
    replace (- sum 0 Rplus M (fun m => snd (w M (m * 2)))) with ((-1) * sum 0 Rplus M (fun m => snd (w M (m * 2)))) by ring.
    rewrite <- (sum_scale 0 1 Rplus Rmult Rminus Ropp RTheory).
    apply sum_ext. intros m _. unfold w. cbn [snd]. rewrite A. ring.
Qed.

Lemma rsum_const n c : sum 0 Rplus n (fun _ => c) = INR n * c.
Proof. induction n as [|n IH]; [cbn; ring|]. rewrite S_INR. cbn [sum]. rewrite IH. ring. Qed.

(** the property claimed in the comment of unityHannWindow: constant overlap-add *)
Theorem C57_hann_cola M hop i : (2 <= M)%nat -> (1 <= hop)%nat -> (i < hop)%nat ->
  sum 0 Rplus M (fun m => nth (m * hop + i) (unityHannWindow (M * hop)) 0) = INR M / 2.
Proof.
  intros HM Hh Hi. destruct (cosine_turn M HM) as [Cs Sn].
  assert (P : 0 < INR M) by (apply lt_0_INR; lia). assert (Q : 0 < INR hop) by (apply lt_0_INR; lia).
  set (a := 2 * PI * INR i / INR (M * hop)).
  rewrite (sum_ext 0 Rplus M _ (fun m => 0.5 + (- 0.5 * cos a * cos (2 * PI * INR m / INR M)
                                               + 0.5 * sin a * sin (2 * PI * INR m / INR M)))).
  - rewrite (sum_add 0 1 Rplus Rmult Rminus Ropp RTheory), (sum_add 0 1 Rplus Rmult Rminus Ropp RTheory).
    rewrite !(sum_scale 0 1 Rplus Rmult Rminus Ropp RTheory), Cs, Sn, rsum_const. lra.
  - intros m Hm. unfold unityHannWindow. rewrite nth_tab by nia.
    replace (2 * PI * INR (m * hop + i) / INR (M * hop)) with (2 * PI * INR m / INR M + a).
    + rewrite cos_plus. lra.
    + unfold a. rewrite plus_INR, !mult_INR. field. lra.
Qed.
Lemma hann_length n : length (unityHannWindow n) = n.
Proof. unfold unityHannWindow. now rewrite map_length, seq_length. Qed.

(** An FFT library whose forward and inverse transforms are the DFT sums times the factors
    it reports. *)
Definition fft_ok {S} (dft : nat) (sf si : R) (forward : list R -> S) (inverse : S -> list R) : Prop :=
  (forall s, length (inverse s) = dft)
  /\ forall v, length v = dft -> inverse (forward v) = map (Rmult (sf * si * INR dft)) v.

(** With the default window, M >= 2 windows overlapping, and normalisations that multiply
    to 1/N the signal is reconstructed with the gain M / 2 of the window. *)
Theorem C57_reconstruction {S} (none : S) sf si (forward : list R -> S) (inverse : S -> list R) channels hop dft M nf ni al inputs :
  (1 <= hop)%nat -> (2 <= M)%nat -> (M * hop <= dft <= M * hop + hop)%nat ->
  fft_ok dft sf si forward inverse -> sf <> 0 -> si <> 0 ->
  audio_blocks channels hop inputs ->
  exists outs,
    analysis_synthesis 0 Rplus Rmult forward inverse channels hop dft (unityHannWindow (M * hop))
      (forwardScale nf sf dft) (calculateScalingFactor ni si dft) al inputs = Ok outs
    /\ length outs = length inputs
    /\ forall n ch i, (n < length inputs)%nat -> (ch < channels)%nat -> (i < hop)%nat ->
         nth i (nth ch (nth n outs []) []) 0
         = desiredNormalisation nf dft * desiredNormalisation ni dft * INR dft * (INR M / 2)
           * delayed 0 (channel_signal ch inputs) (M * hop - hop) (n * hop + i).
Proof.
  intros Hh HM HD [LI IF] Nf Ni B.
  destruct (C57_round_trip 0 1 Rplus Rmult Rminus Ropp RTheory forward inverse none channels hop dft M
              (unityHannWindow (M * hop)) (forwardScale nf sf dft) (calculateScalingFactor ni si dft)
              (sf * si * INR dft) (INR M / 2) al inputs Hh ltac:(lia) (hann_length _)
              ltac:(rewrite hann_length; lia) ltac:(rewrite hann_length; lia) LI IF
              (fun i Hi => C57_hann_cola M hop i HM Hh Hi) B) as (outs & E & LO & O).
  exists outs. split; [exact E|]. split; [exact LO|]. intros n ch i Hn Hc Hi.
  rewrite (O n ch i Hn Hc Hi), hann_length. unfold forwardScale, calculateScalingFactor. field. split; assumption.
Qed.

Lemma desired_product nf ni dft : (0 < dft)%nat ->
  desiredNormalisation nf dft * desiredNormalisation ni dft * INR dft
  = match nf, ni with
    | One, OneOverN | OneOverN, One | Unitary, Unitary => 1
    | One, One => INR dft
    | One, Unitary | Unitary, One => sqrt (INR dft)
    | Unitary, OneOverN | OneOverN, Unitary => 1 / sqrt (INR dft)
    | OneOverN, OneOverN => 1 / INR dft
    end.
Proof.
  intros H. assert (P : 0 < INR dft) by (apply lt_0_INR; lia).
  assert (Q : 0 < sqrt (INR dft)) by (now apply sqrt_lt_R0).
  assert (E : sqrt (INR dft) * sqrt (INR dft) = INR dft) by (apply sqrt_sqrt; lra).
  unfold desiredNormalisation. set (s := sqrt (INR dft)) in *. clearbody s. rewrite <- E. clear - Q.
  destruct nf, ni; field; lra.
Qed.

(** gain of analysis and synthesis for a pair of normalisations, compared with a pair that
    is inverse to each other *)
Definition pair_gain (nf ni : normalisation) (dft : nat) : R :=
  desiredNormalisation nf dft * desiredNormalisation ni dft * INR dft.

(** "the corresponding inverse transform must use ...": these and only these pairs of
    normalisations give unit gain (for more than one bin) *)
Theorem C57_normalisation_pairs nf ni dft : (1 < dft)%nat ->
  (pair_gain nf ni dft = 1
   <-> (nf, ni) = (One, OneOverN) \/ (nf, ni) = (Unitary, Unitary) \/ (nf, ni) = (OneOverN, One)).
Proof.
  intros H. unfold pair_gain. rewrite desired_product by lia.
  assert (P : 1 < INR dft) by (change 1 with (INR 1); apply lt_INR; lia).
  assert (Q : 1 < sqrt (INR dft)) by (rewrite <- sqrt_1; apply sqrt_lt_1; lra).
  assert (I1 : 1 / sqrt (INR dft) < 1).
  { unfold Rdiv. rewrite Rmult_1_l, <- Rinv_1. apply Rinv_lt_contravar; lra. }
  assert (I2 : 1 / INR dft < 1).
  { unfold Rdiv. rewrite Rmult_1_l, <- Rinv_1. apply Rinv_lt_contravar; lra. }
  destruct nf, ni; split; intros E; try lra; try tauto; try (destruct E as [E|[E|E]]; discriminate).
Qed.

(** The default arguments of the two components are not such a pair: the default chain
    attenuates by sqrt(N) *)
Theorem C57_default_normalisation_refuted :
  exists dft, (1 < dft)%nat
    /\ pair_gain default_forward_normalisation default_inverse_normalisation dft = 1 / 2.
Proof.
  exists 4%nat. split; [lia|]. unfold pair_gain. rewrite desired_product by lia.
  cbn [default_forward_normalisation default_inverse_normalisation].
  replace (INR 4) with (2 * 2) by (cbn; lra). rewrite sqrt_square by lra. reflexivity.
Qed.

(** *** The real FFT satisfies the hypothesis *)
Lemma rfft_impulse b k : (0 < b)%nat -> real_at b (1 :: repeat 0 (2 * b - 1)) k = C1.
Proof.
  intros Hb. unfold real_at.
  rewrite (sum_single C0 C1 Cadd Cmul Csub Copp C_ring (2 * b) 0); [|lia|].
  2:{ intros [|i] Hi Ni; [lia|]. cbn [nth]. rewrite nth_repeat. unfold Cmul, Cinj, C0. cbn [fst snd]. f_equal; ring. }
  cbn [nth]. replace (k * 0)%nat with (2 * b * 0)%nat by lia. rewrite w_turns by lia.
  unfold Cmul, Cinj, C1. cbn [fst snd]. f_equal; ring.
Qed.
Theorem C57_fft_instance b : (0 < b)%nat -> fft_ok (2 * b) 1 1 (rfft b) (irfft b).
Proof.
  intros Hb. split.
  - intros s. unfold irfft. now rewrite map_length, seq_length.
  - intros v Lv. set (h := 1 :: repeat 0 (2 * b - 1)).
    assert (Lh : length h = (2 * b)%nat) by (unfold h; cbn [length]; rewrite repeat_length; lia).
    assert (X := ConvolverProofs.t_conv _ _ _ _ _ _ _ _ _ _ _ _ (rfft_transform_ok b Hb) v h Lv Lh).
    assert (E1 : ConvolverModel.map2 Cmul (rfft b v) (rfft b h) = rfft b v).
    { unfold rfft. rewrite (map_ext (real_at b h) (fun _ => C1)) by (intros k; apply rfft_impulse, Hb).
      generalize (seq 0 (b + 1)). induction l as [|a l IH]; [reflexivity|].
      change (Cmul (real_at b v a) C1 :: ConvolverModel.map2 Cmul (map (real_at b v) l) (map (fun _ => C1) l)
              = real_at b v a :: map (real_at b v) l). rewrite IH. f_equal.
      unfold Cmul, C1. cbn [fst snd]. destruct (real_at b v a). cbn [fst snd]. f_equal; ring. }
    rewrite E1 in X. rewrite X.
    assert (E2 : ConvolverProofs.cyclic 0 Rplus Rmult (2 * b) v h = v).
    { unfold ConvolverProofs.cyclic. symmetry. rewrite (tab_list v 0 (2 * b) Lv) at 1. apply map_ext_in.
      intros k Hk. apply in_seq in Hk.
      rewrite (sum_single 0 1 Rplus Rmult Rminus Ropp RTheory (2 * b) 0); [|lia|].
      - unfold h. cbn [nth]. replace (k + 2 * b - 0)%nat with (k + 1 * (2 * b))%nat by lia.
        rewrite Nat.mod_add, Nat.mod_small by lia. ring.
      - intros [|i] Hi Ni; [lia|]. unfold h. cbn [nth]. rewrite nth_repeat. ring. }
    rewrite E2. apply map_ext. intros x. ring.
Qed.

(** *** Examples *)
(** C45: hypotheses of the partial theorem, two blocks of one frame, transform size 3, hop 2 *)
Example C45_case :
  let inverse := fun s : Z * Z * Z => [fst (fst s); snd (fst s); snd s] in
  let inputs := [[[(1, 2, 3)]]; [[(4, 5, 6)]]]%Z in
  well_formed 1 1 inputs
  /\ bind (itf_new 0%Z 1 2 3 2 10%Z) (fun i => bind (itf_run Z.add Z.mul inverse i inputs) (fun r => Ok (snd r)))
     = Ok [[[10; 20]]; [[70; 50]]]%Z.
Proof.
  split; [|reflexivity]. intros x [<-|[<-|[]]]; (split; [reflexivity|]); intros fr [<-|[]]; reflexivity.
Qed.
(** two frames per period (C45_exact): the blocks are read from the start of the last frame *)
Example C45_exact_case :
  bind (itf_new 0%Z 1 2 2 1 1%Z) (fun i =>
    bind (itf_run Z.add Z.mul (fun s : Z * Z => [fst s; snd s]) i [[[(1, 2)]; [(3, 4)]]; [[(5, 6)]; [(7, 8)]]]%Z)
         (fun r => Ok (snd r)))
  = Ok [[[5; 4]]; [[13; 8]]]%Z.
Proof. reflexivity. Qed.
Example C45_long_period_case :
  well_formed 1 3 [[[(1, 2)]; [(3, 4)]; [(5, 6)]]]%Z /\ (2 < 3 * 1)%nat.
Proof.
  split; [|lia]. intros x [<-|[]]. split; [reflexivity|]. intros fr [<-|[<-|[<-|[]]]]; reflexivity.
Qed.
(** C56: window 1 2 3 with hop 2, transform size 4, one channel *)
Example C56_case :
  audio_blocks 1 (1 * 2) [[[1; 2]]; [[3; 4]]]%Z
  /\ bind (tft_new 0%Z Z.mul 1 2 4 [1; 2; 3]%Z 2 1%Z 1) (fun t =>
       bind (tft_run Z.mul (fun v => v) t [[[1; 2]]; [[3; 4]]]%Z) (fun r => Ok (snd r)))
     = Ok [[[[0; 2; 6; 0]]]; [[[2; 6; 12; 0]]]]%Z.
Proof.
  split; [|reflexivity]. intros x [<-|[<-|[]]]; (split; [reflexivity|]); intros r [<-|[]]; reflexivity.
Qed.
(** two frames per period *)
Example C56_frames_case :
  bind (tft_new 0%Z Z.mul 1 2 2 [1; 1]%Z 1 1%Z 1) (fun t =>
    bind (tft_run Z.mul (fun v => v) t [[[1; 2]]; [[3; 4]]]%Z) (fun r => Ok (snd r)))
  = Ok [[[[0; 1]]; [[1; 2]]]; [[[2; 3]]; [[3; 4]]]]%Z.
Proof. reflexivity. Qed.
(** C57: rectangular window of two hops, identity transform: gain 2, delay 1 *)
Example C57_case :
  (forall i, (i < 1)%nat -> sum 0%Z Z.add 2 (fun m => nth (m * 1 + i) [1; 1]%Z 0%Z) = 2%Z)
  /\ analysis_synthesis 0%Z Z.add Z.mul (fun v => v) (fun v => v) 1 1 2 [1; 1]%Z 1%Z 1%Z 1 [[[5]]; [[6]]; [[7]]]%Z
     = Ok [[[0]]; [[10]]; [[12]]]%Z.
Proof. split; [|reflexivity]. intros [|i] Hi; [reflexivity|lia]. Qed.
(** C57_reconstruction with the real FFT of size 4, hop 2, two channels *)
Example C57_fft_case : forall inputs, audio_blocks 2 2 inputs ->
  exists outs,
    analysis_synthesis 0 Rplus Rmult (rfft 2) (irfft 2) 2 2 4 (unityHannWindow 4)
      (forwardScale Unitary 1 4) (calculateScalingFactor Unitary 1 4) 16 inputs = Ok outs
    /\ forall n ch i, (n < length inputs)%nat -> (ch < 2)%nat -> (i < 2)%nat ->
         nth i (nth ch (nth n outs []) []) 0 = delayed 0 (channel_signal ch inputs) 2 (n * 2 + i).
Proof.
  intros inputs B.
  destruct (C57_reconstruction [] 1 1 (rfft 2) (irfft 2) 2 2 4 2 Unitary Unitary 16 inputs ltac:(lia) ltac:(lia) ltac:(lia)
              (C57_fft_instance 2 ltac:(lia)) ltac:(lra) ltac:(lra) B) as (outs & E & _ & O).
  exists outs. split; [exact E|]. intros n ch i Hn Hc Hi. rewrite (O n ch i Hn Hc Hi).
  rewrite desired_product by lia. change (INR 2) with 2. change (2 * 2 - 2)%nat with 2%nat. lra.
Qed.

Example C45_hop_case : (5 mod 2 <> 0)%nat /\ itf_new 0%Z 1 5 2 2 1%Z = Throw InvalidArgument.
Proof. split; [discriminate|reflexivity]. Qed.
Example C56_hop_case : tft_new 0%Z Z.mul 1 5 2 [1; 1]%Z 2 1%Z 1 = Throw LogicError.
Proof. reflexivity. Qed.

Print Assumptions C45_hop_checked.
Print Assumptions C56_hop_checked.
Print Assumptions C45_exact.
Print Assumptions C45_overlap_add_partial.
Print Assumptions C45_overlap_add_refuted.
Print Assumptions C45_long_period_refuted.
Print Assumptions C56_frames_partial.
Print Assumptions C56_zero_padding_refuted.
Print Assumptions C56_long_window_refuted.
Print Assumptions C56_long_hop_refuted.
Print Assumptions C57_round_trip.
Print Assumptions C57_hann_cola.
Print Assumptions C57_reconstruction.
Print Assumptions C57_normalisation_pairs.
Print Assumptions C57_default_normalisation_refuted.
Print Assumptions C57_fft_instance.
