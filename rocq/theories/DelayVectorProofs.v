(** Specification and proofs for DelayVector and DelayMatrix. *)
From Verif Require Import Base Num Memory CircularBufferModel CircularBufferProofs RampModel
  DelayLineModel DelayLineProofs GainModel GainProofs DelayVectorModel.
Local Open Scope Qc_scope.

(** ** Specification *)

(** Last value set and number of blocks processed since. *)
Definition gain_track (s : list Qc * nat) (op : dv_op) : list Qc * nat :=
  match op with DvGain g => (g, 0%nat) | DvDelay _ => s | DvProcess _ => (fst s, S (snd s)) end.
Definition delay_track (s : list Qc * nat) (op : dv_op) : list Qc * nat :=
  match op with DvGain _ => s | DvDelay d => (d, 0%nat) | DvProcess _ => (fst s, S (snd s)) end.
(** All input samples of a channel so far. *)
Fixpoint input_history (ops : list dv_op) (ch : nat) : list Qc :=
  match ops with
  | [] => []
  | DvProcess x :: r => nth ch x [] ++ input_history r ch
  | _ :: r => input_history r ch
  end.
Definition dv_op_ok (channels block : nat) (op : dv_op) : Prop :=
  match op with
  | DvProcess x => length x = channels /\ Forall (fun l => length l = block) x
  | _ => True
  end.

(** Value of the parameter at the boundary between the last and the next block. *)
Definition boundary (blocks : nat) (p : param) (ch : nat) : Qc :=
  blend (counter_ratio blocks (p_counter p)) (nth ch (p_cur p) 0) (nth ch (p_next p) 0).
(** The value a transition came from and the one it goes to. *)
Definition origin (p : param) (ch : nat) : Qc := nth ch (p_cur p) 0.
Definition target (p : param) (ch : nat) : Qc := nth ch (p_next p) 0.

(** ** Proofs *)

Lemma blend_same r a : blend r a a = a.
Proof. unfold blend. ring. Qed.
Lemma blend_1 a b : blend 1 a b = b.
Proof. unfold blend. ring. Qed.
Lemma blend_0 a b : blend 0 a b = a.
Proof. unfold blend. ring. Qed.

Lemma counter_ratio_full blocks : (1 <= blocks)%nat -> counter_ratio blocks blocks = 1.
Proof. intros H. unfold counter_ratio. field. apply nq_neq_0. lia. Qed.
Lemma counter_ratio_0 blocks : (1 <= blocks)%nat -> counter_ratio blocks 0 = 0.
Proof. intros H. unfold counter_ratio. rewrite nq_0. field. apply nq_neq_0. lia. Qed.
Lemma gain_ratio_eq blocks c : (1 <= blocks)%nat -> (c <= blocks)%nat ->
  gain_ratio blocks c = counter_ratio blocks c.
Proof.
  intros H1 H2. unfold gain_ratio, counter_ratio. rewrite nq_minus by exact H2.
  field. apply nq_neq_0. lia.
Qed.

Definition param_ok (blocks channels : nat) (p : param) : Prop :=
  length (p_cur p) = channels /\ length (p_next p) = channels /\ (p_counter p <= blocks)%nat.

(** Ratio functions that are the fraction of completed blocks. *)
Definition is_ratio (ratio : nat -> nat -> Qc) : Prop :=
  forall blocks c, (1 <= blocks)%nat -> (c <= blocks)%nat -> ratio blocks c = counter_ratio blocks c.
Lemma gain_is_ratio : is_ratio gain_ratio.
Proof. intros b c H1 H2. now apply gain_ratio_eq. Qed.
Lemma delay_is_ratio : is_ratio delay_ratio.
Proof. intros b c H1 H2. reflexivity. Qed.

Lemma combination_nth r a b ch : length a = length b -> (ch < length a)%nat ->
  nth ch (combination_inplace r a b) 0 = r * (nth ch b 0 - nth ch a 0) + nth ch a 0.
Proof.
  intros L H. unfold combination_inplace.
  rewrite nth_map_combine with (da := 0) (db := 0) by lia. reflexivity.
Qed.
Lemma combination_length r a b : length a = length b ->
  length (combination_inplace r a b) = length a.
Proof. intros L. unfold combination_inplace. rewrite map_length, combine_length. lia. Qed.

Lemma set_param_ok ratio blocks channels p new : is_ratio ratio -> (1 <= blocks)%nat ->
  param_ok blocks channels p -> length new = channels ->
  exists p', set_param ratio blocks channels p new = Ok p' /\ param_ok blocks channels p'
    /\ p_next p' = new /\ p_counter p' = 0%nat
    /\ forall ch, (ch < channels)%nat ->
        boundary blocks p' ch
        = if Nat.ltb (p_counter p) blocks
          then origin p ch + target p ch - boundary blocks p ch
          else boundary blocks p ch.
Proof.
  intros HR Hb (L1 & L2 & Hc) Hn. unfold set_param. rewrite Hn, Nat.eqb_refl. cbn [negb].
  eexists. split; [reflexivity|]. unfold param_ok. cbn [p_cur p_next p_counter].
  split; [|split; [reflexivity|split; [reflexivity|]]].
  - split; [|split; [exact Hn|lia]].
    destruct (Nat.ltb_spec (p_counter p) blocks); [|exact L2].
    rewrite combination_length by lia. exact L2.
  - intros ch Hch. unfold boundary. cbn [p_cur p_next p_counter].
    rewrite counter_ratio_0, blend_0 by exact Hb.
    destruct (Nat.ltb_spec (p_counter p) blocks).
    + rewrite combination_nth by lia. rewrite HR by lia. unfold blend, origin, target. ring.
    + assert (p_counter p = blocks) as -> by lia. rewrite counter_ratio_full, blend_1 by exact Hb.
      reflexivity.
Qed.

Lemma set_param_inv ratio blocks channels p new p' :
  set_param ratio blocks channels p new = Ok p' -> length new = channels.
Proof.
  unfold set_param. destruct (Nat.eqb_spec (length new) channels); [auto|discriminate].
Qed.

Lemma param_start_ok blocks channels p ch : param_ok blocks channels p -> (ch < channels)%nat ->
  param_start blocks p ch = Ok (boundary blocks p ch).
Proof.
  intros (L1 & L2 & _) H. unfold param_start, boundary.
  rewrite (nth_error_nth' (p_cur p) 0), (nth_error_nth' (p_next p) 0) by lia. reflexivity.
Qed.
Lemma param_end_ok blocks channels p ch : param_ok blocks channels p -> (ch < channels)%nat ->
  param_end blocks p ch = Ok (boundary blocks (advance blocks p) ch).
Proof.
  intros (L1 & L2 & _) H. unfold param_end, boundary, advance. cbn [p_cur p_next p_counter].
  rewrite (nth_error_nth' (p_cur p) 0), (nth_error_nth' (p_next p) 0) by lia.
  rewrite Nat.min_comm. reflexivity.
Qed.
Lemma advance_ok blocks channels p : param_ok blocks channels p -> param_ok blocks channels (advance blocks p).
Proof. intros (L1 & L2 & H). unfold param_ok, advance. cbn. split; [exact L1|split; [exact L2|lia]]. Qed.

(** The new transition starts at the momentary value exactly in these cases. *)
Lemma mirrored_continuous blocks channels p ch : (1 <= blocks)%nat -> param_ok blocks channels p ->
  (origin p ch + target p ch - boundary blocks p ch = boundary blocks p ch
   <-> origin p ch = target p ch \/ (2 * p_counter p = blocks)%nat).
Proof.
  intros Hb _. unfold boundary, blend, counter_ratio.
  fold (origin p ch). fold (target p ch). set (a := origin p ch). set (b := target p ch).
  set (c := p_counter p).
  assert (N : nq blocks <> 0) by (apply nq_neq_0; lia). split.
  - intros E.
    assert (E2 : (b - a) * (nq blocks - nq (2 * c)) = 0).
    { rewrite nq_mult. change (nq 2) with (1 + 1).
      assert (E3 : (b - a) * (1 - (1 + 1) * (nq c / nq blocks)) = 0).
      { transitivity (a + b - ((1 - nq c / nq blocks) * a + nq c / nq blocks * b)
                      - ((1 - nq c / nq blocks) * a + nq c / nq blocks * b)); [ring|].
        rewrite E. ring. }
      transitivity (nq blocks * ((b - a) * (1 - (1 + 1) * (nq c / nq blocks)))).
      - field. exact N.
      - rewrite E3. ring. }
    apply Qcmult_integral in E2 as [E2|E2].
    + left. clear - E2. qclra.
    + right. apply nq_inj. clear - E2. qclra.
  - intros [E|E].
    + rewrite E. ring.
    + rewrite <- E. rewrite nq_mult. change (nq 2) with (1 + 1). field.
      destruct (Nat.eq_dec c 0) as [Z|Z]; [lia|]. split; [apply nq_neq_0; exact Z|discriminate].
Qed.

Lemma dl_inv_ext channels block max order alignment fs pol dl h h' :
  dl_inv channels block max order alignment fs pol dl h ->
  (forall ch, (ch < channels)%nat -> h ch = h' ch) ->
  dl_inv channels block max order alignment fs pol dl h'.
Proof.
  intros [A B C D E F] H. constructor; try assumption.
  destruct A as [A1 A2 A3 A4 A5 A6]. constructor; try assumption.
  intros ch row Hr. rewrite <- H; [apply A6; exact Hr|].
  rewrite <- A3. unfold cb_channels. apply nth_error_Some. congruence.
Qed.

Section Vector.
  Context (channels block max order alignment : nat) (fs : Qc) (pol : policy) (blocks : nat).
  Context (Hlen : (1 <= max + block)%nat) (Hblocks : (1 <= blocks)%nat).

  Record dv_inv (v : dvec) (h : nat -> list Qc) (gt dt : list Qc * nat) : Prop := {
    vi_line : dl_inv channels block max order alignment fs pol (dv_line v) h;
    vi_channels : dv_channels v = channels;
    vi_blocks : dv_blocks v = blocks;
    vi_gain : param_ok blocks channels (dv_gain v);
    vi_delay : param_ok blocks channels (dv_delay v);
    vi_gt : p_next (dv_gain v) = fst gt /\ p_counter (dv_gain v) = Nat.min blocks (snd gt);
    vi_dt : p_next (dv_delay v) = fst dt /\ p_counter (dv_delay v) = Nat.min blocks (snd dt)
  }.

  Lemma dv_set_gain_inv v h gt dt g v' : dv_inv v h gt dt -> dv_set_gain v g = Ok v' ->
    dv_inv v' h (g, 0%nat) dt
    /\ forall ch, (ch < channels)%nat ->
        boundary blocks (dv_gain v') ch
        = if Nat.ltb (p_counter (dv_gain v)) blocks
          then origin (dv_gain v) ch + target (dv_gain v) ch - boundary blocks (dv_gain v) ch
          else boundary blocks (dv_gain v) ch.
  Proof.
    intros [I1 I2 I3 I4 I5 I6 I7] E. unfold dv_set_gain in E. rewrite I2, I3 in E.
    destruct (set_param gain_ratio blocks channels (dv_gain v) g) as [p'| |] eqn:Ep; cbn [bind] in E;
      try discriminate. injection E as <-.
    pose proof (set_param_inv _ _ _ _ _ _ Ep) as Hg.
    destruct (set_param_ok gain_ratio blocks channels (dv_gain v) g gain_is_ratio Hblocks I4 Hg)
      as (p2 & E2 & K1 & K2 & K3 & K4).
    assert (p2 = p') by congruence. subst p2. cbn [dv_gain]. split; [|exact K4].
    constructor; cbn; try assumption; try reflexivity. split; [exact K2|]. rewrite K3. lia.
  Qed.

  Lemma dv_set_delay_inv v h gt dt d v' : dv_inv v h gt dt -> dv_set_delay v d = Ok v' ->
    dv_inv v' h gt (d, 0%nat)
    /\ forall ch, (ch < channels)%nat ->
        boundary blocks (dv_delay v') ch
        = if Nat.ltb (p_counter (dv_delay v)) blocks
          then origin (dv_delay v) ch + target (dv_delay v) ch - boundary blocks (dv_delay v) ch
          else boundary blocks (dv_delay v) ch.
  Proof.
    intros [I1 I2 I3 I4 I5 I6 I7] E. unfold dv_set_delay in E. rewrite I2, I3 in E.
    destruct (set_param delay_ratio blocks channels (dv_delay v) d) as [p'| |] eqn:Ep; cbn [bind] in E;
      try discriminate. injection E as <-.
    pose proof (set_param_inv _ _ _ _ _ _ Ep) as Hg.
    destruct (set_param_ok delay_ratio blocks channels (dv_delay v) d delay_is_ratio Hblocks I5 Hg)
      as (p2 & E2 & K1 & K2 & K3 & K4).
    assert (p2 = p') by congruence. subst p2. cbn [dv_delay]. split; [|exact K4].
    constructor; cbn; try assumption; try reflexivity. split; [exact K2|]. rewrite K3. lia.
  Qed.

  (** State after a block: independent of the audio result. *)
  Lemma dv_process_inv v h gt dt x v' out : dv_inv v h gt dt ->
    length x = channels -> Forall (fun l => length l = block) x ->
    dv_process v x = Ok (v', out) ->
    dv_inv v' (fun ch => h ch ++ nth ch x []) (fst gt, S (snd gt)) (fst dt, S (snd dt))
    /\ dv_gain v' = advance blocks (dv_gain v) /\ dv_delay v' = advance blocks (dv_delay v)
    /\ length out = channels
    /\ forall ch, (ch < channels)%nat ->
         dl_interpolate (dv_line v') ch block
           (boundary blocks (dv_delay v) ch) (boundary blocks (dv_delay v') ch)
           (boundary blocks (dv_gain v) ch) (boundary blocks (dv_gain v') ch)
         = Ok (nth ch out []).
  Proof.
    intros [I1 I2 I3 I4 I5 [I6 I6'] [I7 I7']] Hx1 Hx2 E. unfold dv_process in E. rewrite I2, I3 in E.
    destruct (dl_write_inv channels block max order alignment fs pol Hlen (dv_line v) h x I1)
      as (dl' & Ew & Iw).
    { lia. } { eapply Forall_impl; [|exact Hx2]. simpl. lia. }
    rewrite Ew in E. cbn [bind] in E.
    assert (Iw' : dl_inv channels block max order alignment fs pol dl' (fun ch => h ch ++ nth ch x [])).
    { eapply dl_inv_ext; [exact Iw|]. intros ch Hch. cbn beta. f_equal. apply firstn_all2.
      rewrite Forall_forall in Hx2. rewrite (Hx2 (nth ch x [])); [lia|]. apply nth_In. lia. }
    match type of E with bind ?m _ = _ => destruct m as [o| |] eqn:Em end; cbn [bind] in E; try discriminate.
    injection E as <- <-. cbn [dv_gain dv_delay dv_line].
    split.
    - constructor; cbn; try assumption; try reflexivity; try (apply advance_ok; assumption).
      + split; [exact I6|]. rewrite I6'. lia.
      + split; [exact I7|]. rewrite I7'. lia.
    - split; [reflexivity|]. split; [reflexivity|].
      assert (Hm : forall l outs, map_res (fun ch =>
          bind (param_start blocks (dv_delay v) ch) (fun sd =>
          bind (param_end blocks (dv_delay v) ch) (fun ed =>
          bind (param_start blocks (dv_gain v) ch) (fun sg =>
          bind (param_end blocks (dv_gain v) ch) (fun eg =>
          dl_interpolate dl' ch (dl_block dl') sd ed sg eg))))) l = Ok outs ->
          (forall k, In k l -> (k < channels)%nat) ->
          length outs = length l /\ forall k, (k < length l)%nat ->
          dl_interpolate dl' (nth k l 0%nat) block
           (boundary blocks (dv_delay v) (nth k l 0%nat)) (boundary blocks (advance blocks (dv_delay v)) (nth k l 0%nat))
           (boundary blocks (dv_gain v) (nth k l 0%nat)) (boundary blocks (advance blocks (dv_gain v)) (nth k l 0%nat))
         = Ok (nth k outs [])).
      { induction l as [|k l IH]; intros outs Ho Hl.
        - injection Ho as <-. split; [reflexivity|]. intros k Hk. simpl in Hk. lia.
        - cbn [map_res] in Ho.
          assert (Hk : (k < channels)%nat) by (apply Hl; left; reflexivity).
          rewrite (param_start_ok blocks channels (dv_delay v) k I5 Hk) in Ho.
          rewrite (param_end_ok blocks channels (dv_delay v) k I5 Hk) in Ho.
          rewrite (param_start_ok blocks channels (dv_gain v) k I4 Hk) in Ho.
          rewrite (param_end_ok blocks channels (dv_gain v) k I4 Hk) in Ho.
          cbn [bind] in Ho.
          rewrite (di_block _ _ _ _ _ _ _ _ _ Iw) in Ho.
          match type of Ho with bind ?m _ = _ => destruct m as [y| |] eqn:Ey end;
            cbn [bind] in Ho; try discriminate.
          match type of Ho with bind ?m _ = _ => destruct m as [ys| |] eqn:Eys end;
            cbn [bind] in Ho; try discriminate.
          injection Ho as <-. destruct (IH ys) as [L N].
          { rewrite (di_block _ _ _ _ _ _ _ _ _ Iw). exact Eys. }
          { intros k' Hk'. apply Hl. right. exact Hk'. }
          split; [simpl; lia|]. intros [|j] Hj; cbn [nth]; [exact Ey|]. apply N. simpl in Hj. lia. }
      destruct (Hm _ _ Em) as [L N].
      { intros k Hk. apply in_seq in Hk. lia. }
      rewrite seq_length in L, N. split; [exact L|]. intros ch Hch.
      specialize (N ch Hch). rewrite seq_nth in N by exact Hch. exact N.
  Qed.

  Lemma dv_run_inv ops : forall v h gt dt v' outs, dv_inv v h gt dt ->
    Forall (dv_op_ok channels block) ops -> dv_run v ops = Ok (v', outs) ->
    dv_inv v' (fun ch => h ch ++ input_history ops ch)
           (fold_left gain_track ops gt) (fold_left delay_track ops dt).
  Proof.
    induction ops as [|[g|d|x] ops IH]; intros v h gt dt v' outs I Hops Hr.
    - injection Hr as <- _. cbn [input_history fold_left].
      destruct I as [A B C D E F G]. constructor; try assumption.
      eapply dl_inv_ext; [exact A|]. intros ch _. cbn beta. rewrite app_nil_r. reflexivity.
    - apply Forall_cons_iff in Hops as [_ Hops]. cbn [dv_run] in Hr.
      destruct (dv_set_gain v g) as [v1| |] eqn:E1; cbn [bind] in Hr; try discriminate.
      exact (IH v1 h _ _ v' outs (proj1 (dv_set_gain_inv v h gt dt g v1 I E1)) Hops Hr).
    - apply Forall_cons_iff in Hops as [_ Hops]. cbn [dv_run] in Hr.
      destruct (dv_set_delay v d) as [v1| |] eqn:E1; cbn [bind] in Hr; try discriminate.
      exact (IH v1 h _ _ v' outs (proj1 (dv_set_delay_inv v h gt dt d v1 I E1)) Hops Hr).
    - apply Forall_cons_iff in Hops as [[Hx1 Hx2] Hops]. cbn [dv_run] in Hr.
      destruct (dv_process v x) as [[v1 o]| |] eqn:E1; cbn [bind] in Hr; try discriminate.
      destruct (dv_run v1 ops) as [[v2 os]| |] eqn:E2; cbn [bind] in Hr; try discriminate.
      injection Hr as <- _.
      destruct (dv_process_inv v h gt dt x v1 o I Hx1 Hx2 E1) as (I1 & _).
      pose proof (IH v1 _ _ _ v2 os I1 Hops E2) as I2.
      cbn [input_history]. cbn [fold_left gain_track delay_track].
      destruct I2 as [A B C D E F G]. constructor; try assumption.
      eapply dl_inv_ext; [exact A|]. intros ch _. cbn beta. rewrite app_assoc. reflexivity.
  Qed.

  (** Totality: a block is processed if the delays at both ends are admissible. *)
  Lemma dv_process_ok v h gt dt x : dv_inv v h gt dt ->
    length x = channels -> Forall (fun l => length l = block) x ->
    (forall ch, (ch < channels)%nat ->
       admissible max order pol (boundary blocks (dv_delay v) ch * fs)
       /\ admissible max order pol (boundary blocks (advance blocks (dv_delay v)) ch * fs)) ->
    exists v' out, dv_process v x = Ok (v', out).
  Proof.
    intros [I1 I2 I3 I4 I5 [I6 I6'] [I7 I7']] Hx1 Hx2 Hadm. unfold dv_process. rewrite I2, I3.
    destruct (dl_write_inv channels block max order alignment fs pol Hlen (dv_line v) h x I1)
      as (dl' & Ew & Iw).
    { lia. } { eapply Forall_impl; [|exact Hx2]. simpl. lia. }
    rewrite Ew. cbn [bind]. set (F := fun ch : nat => bind _ _).
    assert (Hm : exists outs, map_res F (seq 0 channels) = Ok outs).
    { destruct (map_res_ok F (seq 0 channels)) as (r & Er & _); [|exists r; exact Er].
      intros ch Hch. apply in_seq in Hch. unfold F. rewrite (param_start_ok blocks channels) by (first [assumption|lia]).
      rewrite (param_end_ok blocks channels) by (first [assumption|lia]).
      rewrite (param_start_ok blocks channels) by (first [assumption|lia]).
      rewrite (param_end_ok blocks channels) by (first [assumption|lia]).
      cbn [bind]. rewrite (di_block _ _ _ _ _ _ _ _ _ Iw).
      destruct (Hadm ch ltac:(lia)) as [A1 A2].
      rewrite (dl_interpolate_ok channels block max order alignment fs pol Hlen dl' _ ch block
        _ _ _ _ _ _ Iw ltac:(lia) (le_n _) eq_refl eq_refl A1 A2). eauto. }
    destruct Hm as (outs & ->). cbn [bind]. eauto.
  Qed.
End Vector.
