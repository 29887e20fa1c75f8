(** Properties C11 and C12: multichannel delay line. *)
From Verif Require Import Base Num Memory CircularBufferModel CircularBufferProofs
  RampModel LagrangeModel LagrangeProofs DelayLineModel DelayLineProofs FlexibleBufferProofs.
Local Open Scope Qc_scope.

(** Writing blocks of [block] samples for every channel and after each write
    interpolating a whole block of channel [ch] with constant delay and gain. *)
Fixpoint dl_stream (dl : dline) (channels ch : nat) (seconds gain : Qc)
         (blocks : list (list (list Qc))) : res (list Qc) :=
  match blocks with
  | [] => Ok []
  | b :: r =>
      match dl_write dl b channels with
      | Ok dl' =>
          match dl_interpolate dl' ch (dl_block dl') seconds seconds gain gain with
          | Ok out => match dl_stream dl' channels ch seconds gain r with
                      | Ok rest => Ok (out ++ rest) | Throw e => Throw e | UB => UB end
          | Throw e => Throw e | UB => UB
          end
      | Throw e => Throw e | UB => UB
      end
  end.

Definition well_formed (channels block : nat) (b : list (list Qc)) : Prop :=
  length b = channels /\ Forall (fun r => length r = block) b.

(** The specification: scaled and shifted signal with zeros in front. *)
Definition delayed_signal (x : list Qc) (T : nat) (g : Qc) : list Qc :=
  map (fun m => g * (if Nat.ltb m T then 0 else nth (m - T) x 0)) (seq 0 (length x)).

(** Total delay in samples requested by policy, see method delay of the interpolator:
    Add: D + N/2, Limit: max(D, N/2), Reject: D (if >= N/2). *)
Definition policy_delay (p : policy) (N : nat) (D : Qc) : Qc :=
  match p with
  | PAdd => D + nq N / nq 2
  | PLimit => if qle (nq N / nq 2) D then D else nq N / nq 2
  | PReject => D
  end.

Definition delay_accepted (p : policy) (N max : nat) (D : Qc) : Prop :=
  D <= nq max /\ (p = PAdd -> - epsilon <= D) /\ (p = PReject -> nq N / nq 2 <= D).

Lemma half_div N : nq N / nq 2 = half * nq N.
Proof. unfold half. field. discriminate. Qed.

Lemma policy_delay_total p N D : policy_delay p N D = total_delay N p D.
Proof.
  unfold policy_delay, total_delay. rewrite half_div. destruct p; try reflexivity.
  destruct (qle_spec (half * nq N) D); destruct (qlt_spec D (half * nq N)); try reflexivity;
    exfalso; qclra.
Qed.

Lemma accepted_total p N max D : delay_accepted p N max D <-> accepted_delay max N p D.
Proof.
  unfold delay_accepted, accepted_delay. rewrite half_div.
  generalize (half * nq N) as x. intros x. split.
  - intros [H1 [H2 H3]]. split; [exact H1|].
    destruct p; [exact (H2 eq_refl)|exact I|exact (H3 eq_refl)].
  - intros [H1 H2]. split; [exact H1|].
    destruct p; (split; intros X; [first [exact H2|discriminate X]|first [exact H2|discriminate X]]).
Qed.

Section Session.
  Context (channels block max order alignment : nat) (fs : Qc) (pol : policy).

  Lemma stream_ok ch T seconds g : (1 <= max + block)%nat -> (ch < channels)%nat ->
    delay_accepted pol order max (seconds * fs) ->
    policy_delay pol order (seconds * fs) = nq T ->
    nq T + nq order / nq 2 <= nq max ->
    forall blocks, Forall (well_formed channels block) blocks ->
    forall dl h, dl_inv channels block max order alignment fs pol dl h ->
    let x := concat (map (fun b => nth ch b []) blocks) in
    dl_stream dl channels ch seconds g blocks
    = Ok (map (fun m => g * (if Nat.ltb m T then 0 else nth (m - T) (h ch ++ x) 0))
              (seq (length (h ch)) (length x))).
  Proof.
    intros Hlen Hch Hacc HT Hfit.
    induction 1 as [|b blocks Wb Wr IH]; intros dl h I; [reflexivity|].
    cbn [dl_stream map concat].
    destruct Wb as [W1 W2].
    destruct (dl_write_inv channels block max order alignment fs pol Hlen dl h b I) as (dl' & E & I').
    { lia. } { eapply Forall_impl; [|exact W2]. simpl. lia. }
    rewrite E.
    assert (Adm : admissible max order pol (seconds * fs)).
    { split; [now apply accepted_total|]. rewrite <- policy_delay_total, HT, <- half_div. exact Hfit. }
    rewrite (di_block _ _ _ _ _ _ _ _ _ I').
    rewrite (dl_interpolate_ok channels block max order alignment fs pol Hlen dl' _ ch block
               seconds seconds _ _ g g I' Hch (le_n _) eq_refl eq_refl Adm Adm).
    rewrite (interpolated_integer order _ block _ g g T).
    2:{ unfold adjusted. rewrite <- policy_delay_total, HT. ring. }
    specialize (IH dl' _ I'). cbv zeta in IH. rewrite IH.
    assert (Lb : length (nth ch b []) = block).
    { rewrite Forall_forall in W2. apply W2. apply nth_In. lia. }
    rewrite firstn_all2 by lia. rewrite app_length, Lb.
    f_equal. rewrite app_length, Lb, seq_app, map_app.
    f_equal.
    - rewrite <- (Nat.add_0_r (length (h ch))) at 1.
      assert (G : forall n k s (F G : nat -> Qc), (forall i, (i < n)%nat -> F (k + i)%nat = G (s + i)%nat) ->
                  map F (seq k n) = map G (seq s n)).
      { induction n as [|n IHn]; intros k s F G HFG; [reflexivity|]. simpl. f_equal.
        - specialize (HFG 0%nat ltac:(lia)). now rewrite !Nat.add_0_r in HFG.
        - apply IHn. intros i Hi. specialize (HFG (S i) ltac:(lia)).
          now rewrite !Nat.add_succ_r in HFG. }
      rewrite Nat.add_0_r. apply G. intros i Hi. simpl (0 + i)%nat.
      rewrite delay_at_const by lia. f_equal. unfold sample_at. rewrite app_length, Lb.
      destruct (Nat.leb_spec (block - i + T) (length (h ch) + block)) as [L|L].
      + destruct (Nat.ltb_spec (length (h ch) + i) T); [lia|].
        replace (length (h ch) + block - (block - i + T))%nat with (length (h ch) + i - T)%nat by lia.
        rewrite app_assoc. symmetry. apply app_nth1. rewrite app_length. lia.
      + destruct (Nat.ltb_spec (length (h ch) + i) T); [reflexivity|lia].
    - apply map_ext. intros m. rewrite app_assoc. reflexivity.
  Qed.
End Session.

(** C11.  Whatever the sampling rate, block length, number of channels, alignment,
    interpolation order and policy: if the total delay is a whole number T of samples
    (and half the interpolation filter still fits before the maximum delay), the output
    stream is the input shifted by T and scaled, independent of how the input is cut
    into blocks.  For order 0 ("nearestSample") T is the requested delay. *)
Theorem C11_integer_delay_partial :
  forall channels block max order alignment fs pol ch T seconds g blocks,
    (1 <= max + block)%nat -> (ch < channels)%nat ->
    delay_accepted pol order max (seconds * fs) ->
    policy_delay pol order (seconds * fs) = nq T ->
    nq T + nq order / nq 2 <= nq max ->
    Forall (well_formed channels block) blocks ->
    dl_stream (dl_new channels fs block max order alignment pol) channels ch seconds g blocks
    = Ok (delayed_signal (concat (map (fun b => nth ch b []) blocks)) T g).
Proof.
  intros channels block max order alignment fs pol ch T seconds g blocks Hl Hch Ha HT Hf W.
  rewrite (stream_ok channels block max order alignment fs pol ch T seconds g Hl Hch Ha HT Hf
             blocks W _ (fun _ => []) (dl_new_inv channels block max order alignment fs pol Hl)).
  reflexivity.
Qed.
Print Assumptions C11_integer_delay_partial.

(** C11 for the nearest-sample method: complete, every whole delay up to the maximum. *)
Theorem C11_nearest_sample_integer_delay :
  forall channels block max alignment fs pol ch D seconds g blocks,
    (1 <= max + block)%nat -> (ch < channels)%nat ->
    seconds * fs = nq D -> (D <= max)%nat ->
    Forall (well_formed channels block) blocks ->
    dl_stream (dl_new channels fs block max 0 alignment pol) channels ch seconds g blocks
    = Ok (delayed_signal (concat (map (fun b => nth ch b []) blocks)) D g).
Proof.
  intros channels block max alignment fs pol ch D seconds g blocks Hl Hch HD HM W.
  assert (Z0 : nq 0 / nq 2 = 0) by (vm_compute; apply Qc_is_canon; reflexivity).
  pose proof (nq_nonneg D) as P. pose proof epsilon_small as [E1 E2].
  apply C11_integer_delay_partial; auto.
  - rewrite HD. unfold delay_accepted. rewrite Z0. split; [now apply nq_le|].
    split; intros; qclra.
  - rewrite HD. unfold policy_delay. rewrite Z0. destruct pol; try reflexivity; [ring|].
    destruct (qle_spec 0 (nq D)); [reflexivity|contradiction].
  - rewrite Z0. assert (nq D <= nq max) by now apply nq_le. qclra.
Qed.
Print Assumptions C11_nearest_sample_integer_delay.

(** Beyond C11: ramped gain, fractional and moving delays.  If the written samples are
    those of a polynomial of degree <= order (position 0 is the newest sample), the
    output is this polynomial evaluated at the exactly delayed positions. *)
Theorem C11_fractional_delay_of_polynomial_exact :
  forall channels block max order alignment fs pol dl h ch n s1 s2 ga gb p,
    (1 <= max + block)%nat ->
    dl_inv channels block max order alignment fs pol dl h -> (ch < channels)%nat -> (n <= block)%nat ->
    admissible max order pol (s1 * fs) -> admissible max order pol (s2 * fs) ->
    (length p <= S order)%nat ->
    (forall z, (1 - Z.of_nat (max + block) <= z <= 0)%Z -> past (h ch) (1 - z) = peval p (zq z)) ->
    dl_interpolate dl ch n s1 s2 ga gb
    = Ok (map (fun i =>
            let t := nq (i + 1) / nq n in
            let gain := ga + t * (gb - ga) in
            let d1 := policy_delay pol order (s1 * fs) in
            let d2 := policy_delay pol order (s2 * fs) in
            gain * peval p (nq (i + 1) - nq n - (d1 + t * (d2 - d1)))) (seq 0 n)).
Proof.
  intros channels block max order alignment fs pol dl h ch n s1 s2 ga gb p Hl I Hch Hn A1 A2 Lp Hp.
  rewrite (dl_interpolate_ok channels block max order alignment fs pol Hl dl h ch n s1 s2 _ _ ga gb I Hch Hn
             eq_refl eq_refl A1 A2).
  f_equal. unfold interpolated. apply map_ext_in. intros i Hi. apply in_seq in Hi.
  cbv zeta.
  destruct (adjusted_range max order pol _ A1) as [P1 P2].
  destruct (adjusted_range max order pol _ A2) as [P3 P4].
  set (a := adjusted order pol (s1 * fs)) in *. set (b := adjusted order pol (s2 * fs)) in *.
  rewrite !policy_delay_total.
  replace (total_delay order pol (s1 * fs)) with (a + half * nq order)
    by (unfold a, adjusted; ring).
  replace (total_delay order pol (s2 * fs)) with (b + half * nq order)
    by (unfold b, adjusted; ring).
  assert (Nn : nq n <> 0) by (apply nq_neq_0; lia).
  f_equal. { unfold delay_at. field. exact Nn. }
  destruct (delay_at_range n i a b (- epsilon) (nq max - nq order)) as [D1 D2]; try qclra; try lia.
  rewrite (lagrange_past_poly _ _ _ p Lp).
  - f_equal. rewrite zq_opp. change (zq (Z.of_nat (n - 1 - i + order))) with (nq (n - 1 - i + order)).
    replace (n - 1 - i)%nat with (n - (i + 1))%nat by lia.
    rewrite nq_plus, nq_minus by lia. unfold delay_at.
    assert (Hx : half * nq order + half * nq order = nq order)
      by (rewrite <- Qcmult_plus_distr_l, half_twice; ring).
    rewrite <- Hx at 1. field. exact Nn.
  - intros k Hk. cbv zeta. apply Hp.
    set (d := zq (- Z.of_nat (n - 1 - i + order)) - delay_at n i a b).
    destruct (round_away_close d) as [R1 R2]. set (r := round_away d) in *.
    assert (Hlo : (1 - Z.of_nat (max + block) <= r)%Z).
    { apply zq_half_le.
      assert (E1 : zq (1 - Z.of_nat (max + block)) + nq max + nq block = 1).
      { unfold nq. rewrite <- !zq_plus. rewrite <- zq_1. f_equal. lia. }
      assert (E2 : zq (- Z.of_nat (n - 1 - i + order)) + nq (n - 1 - i) + nq order = 0).
      { unfold nq. rewrite <- !zq_plus. rewrite <- zq_0. f_equal. lia. }
      assert (E3 : nq (n - 1 - i) <= nq block - 1).
      { rewrite <- nq_1, <- nq_minus by lia. apply nq_le. lia. }
      unfold d in R1, R2. qclra. }
    assert (Hhi : (r <= - Z.of_nat order)%Z).
    { apply zq_lt1_le. pose proof epsilon_small as [Ee1 Ee2]. pose proof half_twice as Hh.
      assert (E2 : zq (- Z.of_nat (n - 1 - i + order)) <= zq (- Z.of_nat order))
        by (rewrite zq_le; lia).
      unfold d in R1, R2. qclra. }
    lia.
Qed.
Print Assumptions C11_fractional_delay_of_polynomial_exact.

(** C12 (partial: half the filter must fit before the maximum delay).  In every
    reachable state (any history of writes), an accepted pair of delays yields a
    defined result that depends on the last maxDelay+blockLength samples only. *)
Theorem C12_reads_only_recent_samples_partial :
  forall channels block max order alignment fs pol dl1 dl2 h1 h2 ch n s1 s2 ga gb,
    (1 <= max + block)%nat ->
    dl_inv channels block max order alignment fs pol dl1 h1 ->
    dl_inv channels block max order alignment fs pol dl2 h2 ->
    (ch < channels)%nat -> (n <= block)%nat ->
    delay_accepted pol order max (s1 * fs) -> delay_accepted pol order max (s2 * fs) ->
    policy_delay pol order (s1 * fs) + nq order / nq 2 <= nq max ->
    policy_delay pol order (s2 * fs) + nq order / nq 2 <= nq max ->
    recent 0 (max + block) (h1 ch) = recent 0 (max + block) (h2 ch) ->
    exists out, length out = n
      /\ dl_interpolate dl1 ch n s1 s2 ga gb = Ok out
      /\ dl_interpolate dl2 ch n s1 s2 ga gb = Ok out.
Proof.
  intros channels block max order alignment fs pol dl1 dl2 h1 h2 ch n s1 s2 ga gb
    Hl I1 I2 Hch Hn A1 A2 F1 F2 E.
  assert (B1 : admissible max order pol (s1 * fs)).
  { split; [now apply accepted_total|]. now rewrite <- policy_delay_total, <- half_div. }
  assert (B2 : admissible max order pol (s2 * fs)).
  { split; [now apply accepted_total|]. now rewrite <- policy_delay_total, <- half_div. }
  exists (interpolated order (h1 ch) n (adjusted order pol (s1 * fs)) (adjusted order pol (s2 * fs)) ga gb).
  split; [unfold interpolated; now rewrite map_length, seq_length|].
  split.
  - now apply (dl_interpolate_ok channels block max order alignment fs pol Hl dl1 h1).
  - destruct (adjusted_range max order pol _ B1), (adjusted_range max order pol _ B2).
    rewrite (interpolated_local order max block _ (h2 ch)); auto.
    now apply (dl_interpolate_ok channels block max order alignment fs pol Hl dl2 h2).
Qed.
Print Assumptions C12_reads_only_recent_samples_partial.

(** C12, complete for the nearest-sample method (order 0). *)
Theorem C12_nearest_sample_reads_only_recent_samples :
  forall channels block max alignment fs pol dl1 dl2 h1 h2 ch n s1 s2 ga gb,
    (1 <= max + block)%nat ->
    dl_inv channels block max 0 alignment fs pol dl1 h1 ->
    dl_inv channels block max 0 alignment fs pol dl2 h2 ->
    (ch < channels)%nat -> (n <= block)%nat ->
    delay_accepted pol 0 max (s1 * fs) -> delay_accepted pol 0 max (s2 * fs) ->
    recent 0 (max + block) (h1 ch) = recent 0 (max + block) (h2 ch) ->
    exists out, length out = n
      /\ dl_interpolate dl1 ch n s1 s2 ga gb = Ok out
      /\ dl_interpolate dl2 ch n s1 s2 ga gb = Ok out.
Proof.
  intros channels block max alignment fs pol dl1 dl2 h1 h2 ch n s1 s2 ga gb Hl I1 I2 Hch Hn A1 A2 E.
  assert (Z0 : nq 0 / nq 2 = 0) by (vm_compute; apply Qc_is_canon; reflexivity).
  assert (F : forall D, delay_accepted pol 0 max D -> policy_delay pol 0 D + nq 0 / nq 2 <= nq max).
  { intros D [Q1 _]. rewrite Z0. unfold policy_delay. rewrite Z0. destruct pol; try qclra.
    pose proof (nq_nonneg max). destruct (qle_spec 0 D); qclra. }
  apply (C12_reads_only_recent_samples_partial channels block max 0 alignment fs pol dl1 dl2 h1 h2);
    auto.
Qed.
Print Assumptions C12_nearest_sample_reads_only_recent_samples.

(** Delays outside the accepted range throw. *)
Theorem C12_other_delays_throw :
  forall channels block max order alignment fs pol dl h ch n s1 s2 ga gb,
    (1 <= max + block)%nat ->
    dl_inv channels block max order alignment fs pol dl h -> (ch < channels)%nat ->
    ~ (delay_accepted pol order max (s1 * fs) /\ delay_accepted pol order max (s2 * fs)) ->
    dl_interpolate dl ch n s1 s2 ga gb = Throw OutOfRange.
Proof.
  intros. eapply dl_interpolate_rejects; eauto. now rewrite <- !accepted_total.
Qed.
Print Assumptions C12_other_delays_throw.

(** The states of the two theorems above are those reached by any history of writes. *)
Theorem C12_states_reachable :
  forall channels block max order alignment fs pol blocks,
    (1 <= max + block)%nat -> Forall (well_formed channels block) blocks ->
    exists dl, fold_left (fun d b => match d with Ok d' => dl_write d' b channels | x => x end) blocks
                 (Ok (dl_new channels fs block max order alignment pol)) = Ok dl
      /\ dl_inv channels block max order alignment fs pol dl
           (fun ch => concat (map (fun b => firstn block (nth ch b [])) blocks)).
Proof.
  intros channels block max order alignment fs pol blocks Hl W.
  assert (G : forall dl h, dl_inv channels block max order alignment fs pol dl h ->
    exists dl', fold_left (fun d b => match d with Ok d' => dl_write d' b channels | x => x end) blocks
                 (Ok dl) = Ok dl'
      /\ dl_inv channels block max order alignment fs pol dl'
           (fun ch => h ch ++ concat (map (fun b => firstn block (nth ch b [])) blocks))).
  { induction W as [|b blocks [W1 W2] Wr IH]; intros dl h I.
    - exists dl. split; [reflexivity|]. simpl.
      destruct I as [Ir]. constructor; auto. destruct Ir. constructor; auto.
      intros. rewrite app_nil_r. auto.
    - cbn [fold_left].
      destruct (dl_write_inv channels block max order alignment fs pol Hl dl h b I) as (d' & E & I').
      { lia. } { eapply Forall_impl; [|exact W2]. simpl. lia. }
      rewrite E. destruct (IH d' _ I') as (d'' & E2 & I2). exists d''. split; [exact E2|].
      destruct I2 as [Ir]. constructor; auto. destruct Ir. constructor; auto.
      intros ch row Hr. simpl. rewrite app_assoc. auto. }
  destruct (G _ _ (dl_new_inv channels block max order alignment fs pol Hl)) as (dl & E & I).
  exists dl. split; [exact E|]. exact I.
Qed.
Print Assumptions C12_states_reachable.

(** C12 is false near the maximum delay for interpolating orders: a delay equal to the
    maximum is accepted but reads outside the channel's memory. *)
Theorem C12_maximum_delay_refuted :
  exists channels block max order alignment fs pol ch seconds,
    delay_accepted pol order max (seconds * fs) /\ (ch < channels)%nat
    /\ dl_interpolate (dl_new channels fs block max order alignment pol) ch block seconds seconds 1 1 = UB.
Proof.
  exists 1%nat, 4%nat, 4%nat, 1%nat, 1%nat, 1, PAdd, 0%nat, (nq 4).
  split; [|split; [lia|vm_compute; reflexivity]].
  split; [vm_compute; discriminate|]. split; intros X; [vm_compute; discriminate|discriminate X].
Qed.
Print Assumptions C12_maximum_delay_refuted.

(** ... or, once the write position has moved on, returns the newest sample instead of
    the oldest: a delay of 4 samples mixes in the sample just written. *)
Theorem C12_maximum_delay_reads_newest_refuted :
  exists block dl1 dl2,
    delay_accepted PAdd 1 4 (nq 4)
    /\ dl_write (dl_new 1 1 4 4 1 1 PAdd) block 1 = Ok dl1
    /\ block = [[0; 0; 0; 1]]
    /\ dl_write (dl_new 1 1 4 4 1 1 PAdd) [[0; 0; 0; 0]] 1 = Ok dl2
    /\ dl_interpolate dl1 0 4 (nq 4) (nq 4) 1 1 <> dl_interpolate dl2 0 4 (nq 4) (nq 4) 1 1.
Proof.
  exists [[0; 0; 0; 1]]. do 2 eexists.
  split; [|split; [vm_compute; reflexivity|split; [reflexivity|
    split; [vm_compute; reflexivity|]]]].
  - split; [vm_compute; discriminate|]. split; intros X; [vm_compute; discriminate|discriminate X].
  - vm_compute. discriminate.
Qed.
Print Assumptions C12_maximum_delay_reads_newest_refuted.

Example C11_example :
  match dl_stream (dl_new 1 (nq 8) 2 5 1 4 PReject) 1 0 (nq 3 / nq 8) (nq 2)
          [[[nq 1; nq 2]]; [[nq 3; nq 4]]; [[nq 5; nq 6]]] with
  | Ok l => map this l = [0; 0; 0; 2; 4; 6]%Q
  | _ => False
  end
  /\ delay_accepted PReject 1 5 (nq 3 / nq 8 * nq 8)
  /\ policy_delay PReject 1 (nq 3 / nq 8 * nq 8) = nq 3.
Proof.
  split; [vm_compute; reflexivity|]. split.
  - split; [vm_compute; discriminate|]. split; intros X; [discriminate X|vm_compute; discriminate].
  - apply Qc_is_canon. vm_compute. reflexivity.
Qed.
