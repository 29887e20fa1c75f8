From Verif Require Import Base Num Memory CircularBufferModel CircularBufferProofs
  RampModel RampProofs LagrangeModel LagrangeProofs DelayLineModel FlexibleBufferProofs.
Local Open Scope Qc_scope.

Definition half : Qc := 1 / nq 2.
Lemma half_twice : half + half = 1. Proof. apply Qc_is_canon. reflexivity. Qed.
Lemma this_half : this half == (1 # 2)%Q. Proof. reflexivity. Qed.

Lemma trunc_nonneg q : 0 <= q -> trunc q = qfloor q.
Proof. intros H. unfold trunc. destruct (qlt_spec q 0); [qclra|reflexivity]. Qed.

Lemma round_away_close d : zq (round_away d) - half <= d /\ d <= zq (round_away d) + half.
Proof.
  unfold round_away. fold half. pose proof half_twice as Hh. destruct (qlt_spec 0 d) as [H|H].
  - rewrite trunc_nonneg by qclra.
    destruct (qfloor_spec (d + half)). split; qclra.
  - unfold trunc. destruct (qlt_spec (d - half) 0) as [H0|H0]; [|exfalso; qclra].
    destruct (qfloor_spec (- (d - half))). rewrite zq_opp. split; qclra.
Qed.

Lemma zq_lt1_le a b : zq a < zq b + 1 -> (a <= b)%Z.
Proof.
  intros H.
  assert (H1 : zq a < zq (b + 1)) by (rewrite zq_plus, zq_1; qclra).
  rewrite zq_lt in H1. lia.
Qed.

Lemma zq_half_le a b : zq a <= zq b + half -> (a <= b)%Z.
Proof. intros H. pose proof half_twice as Hh. apply zq_lt1_le. qclra. Qed.

Lemma epsilon_small : 0 < epsilon /\ epsilon < half.
Proof. split; vm_compute; reflexivity. Qed.

(** ** Specification *)
(** The sample written [d] samples ago (1 = newest), zero before the start. *)
Definition past (h : list Qc) (d : Z) : Qc := sample_at 0 h (Z.to_nat d).

(** Delay (in samples, after policy adjustment) at output sample [i] of [n]. *)
Definition delay_at (n i : nat) (a b : Qc) : Qc := a + nq (i + 1) * ((b - a) / nq n).

(** Lagrange interpolation of the history at position [d] relative to the newest
    sample, from the taps [r .. r+order]. *)
Definition lagrange_past (order : nat) (h : list Qc) (d : Qc) : Qc :=
  let r := round_away d in
  qsum (map (fun k => nth (order - k) (calculate_coefficients true order (d - zq r)) 0
                      * past h (1 - r - Z.of_nat k)) (seq 0 (S order))).

Lemma inner_product_nth cs : forall xs, length xs = length cs ->
  inner_product cs xs = qsum (map (fun k => nth k cs 0 * nth k xs 0) (seq 0 (length cs))).
Proof.
  induction cs as [|c cs IH]; intros [|x xs] H; simpl in *; try lia; try reflexivity.
  rewrite IH by lia. rewrite <- seq_shift, map_map. reflexivity.
Qed.

  Lemma ramp_values n a b i : (i < n)%nat ->
    nth_error (vector_ramp n a b false true) i = Some (a + nq (i + 1) * ((b - a) / nq n)).
  Proof.
    intros Hi. destruct (ramp_equidistant n a b false true) as (_ & step & Hs & He).
    { destruct (Nat.eq_dec n 1); [right; split; [lia|discriminate]|left; lia]. }
    rewrite He by lia. f_equal. f_equal. simpl b2n. f_equal.
    simpl in Hs. replace (n + 1 - 0 - 1)%nat with n in Hs by lia. rewrite <- Hs. field.
    apply nq_neq_0. lia.
  Qed.

  Lemma delay_at_range n i a b lo hi : (i < n)%nat ->
    lo <= a -> lo <= b -> a <= hi -> b <= hi ->
    lo <= delay_at n i a b /\ delay_at n i a b <= hi.
  Proof.
    intros Hi H1 H2 H3 H4.
    assert (Hin : In (delay_at n i a b) (vector_ramp n a b false true)).
    { eapply nth_error_In. rewrite ramp_values by exact Hi. reflexivity. }
    apply ramp_range in Hin as (t & T0 & T1 & ->).
    assert (Hx : forall u v, 0 <= u -> 0 <= v -> 0 <= u * v).
    { intros u v Hu Hv. rewrite <- (Qcmult_0_l v). now apply Qcmult_le_compat_r. }
    split.
    - assert (0 <= (1 - t) * (a - lo)) by (apply Hx; qclra).
      assert (0 <= t * (b - lo)) by (apply Hx; qclra).
      assert (E : a + t * (b - a) = lo + ((1 - t) * (a - lo) + t * (b - lo))) by ring.
      rewrite E. qclra.
    - assert (0 <= (1 - t) * (hi - a)) by (apply Hx; qclra).
      assert (0 <= t * (hi - b)) by (apply Hx; qclra).
      assert (E : a + t * (b - a) = hi - ((1 - t) * (hi - a) + t * (hi - b))) by ring.
      rewrite E. qclra.
  Qed.

  Lemma map_res_nth {X Y} (f : X -> res Y) (l : list X) (g : nat -> Y) :
    (forall i x, nth_error l i = Some x -> f x = Ok (g i)) ->
    map_res f l = Ok (map g (seq 0 (length l))).
  Proof.
    revert g; induction l as [|x l IH]; intros g H; [reflexivity|].
    simpl. rewrite (H 0%nat x eq_refl). cbn [bind].
    rewrite (IH (fun i => g (S i))).
    - cbn [bind]. rewrite <- seq_shift, map_map. reflexivity.
    - intros i y Hy. apply (H (S i)). exact Hy.
  Qed.

  Lemma nth_error_combine {X Y} (l : list X) : forall (l' : list Y) i x y,
    nth_error (combine l l') i = Some (x, y) -> nth_error l i = Some x /\ nth_error l' i = Some y.
  Proof.
    induction l as [|a l IH]; intros [|b l'] [|i] x y H; simpl in *; try discriminate.
    - injection H as -> ->. auto.
    - now apply IH.
  Qed.

Section Line.
  Context (channels block max order alignment : nat) (fs : Qc) (pol : policy).
  Context (Hlen : (1 <= max + block)%nat).
  Let len := (max + block)%nat.
  Let alloc := next_aligned_size len alignment.

  Record dl_inv (dl : dline) (h : nat -> list Qc) : Prop := {
    di_ring : cb_inv 0 channels len alloc (dl_ring dl) h;
    di_block : dl_block dl = block;
    di_fs : dl_fs dl = fs;
    di_max : dl_max dl = max;
    di_pol : dl_policy dl = pol;
    di_order : dl_order dl = order
  }.

  Lemma dl_new_inv : dl_inv (dl_new channels fs block max order alignment pol) (fun _ => []).
  Proof. constructor; try reflexivity. apply cb_new_inv. exact Hlen. Qed.

  Lemma dl_write_inv dl h data :
    dl_inv dl h -> (channels <= length data)%nat ->
    Forall (fun r => (block <= length r)%nat) data ->
    exists dl', dl_write dl data channels = Ok dl'
      /\ dl_inv dl' (fun ch => h ch ++ firstn block (nth ch data [])).
  Proof.
    intros [I B F M P O] Hd Hf.
    pose proof (cb_exec_inv 0 channels len alloc (dl_ring dl) h
                  (WriteOp data channels block) I) as H.
    cbn [accepted caller_ok cb_exec op_samples] in H. rewrite Nat.eqb_refl in H.
    destruct (Nat.leb_spec block len); [|unfold len in *; lia]. cbn [andb] in H.
    destruct H as (b' & E & I'); [auto|].
    unfold dl_write. rewrite (ci_channels _ _ _ _ _ _ I), Nat.eqb_refl. cbn [negb].
    rewrite B, E. cbn [bind]. eexists. split; [reflexivity|].
    constructor; auto.
  Qed.

  Lemma read_at_past dl h ch row d :
    dl_inv dl h -> nth_error (cb_rows (dl_ring dl)) ch = Some row ->
    (1 <= d <= Z.of_nat len)%Z ->
    read_at row (Z.of_nat (alloc + cb_head (dl_ring dl) - 1) + 1 - d) = Ok (past (h ch) d).
  Proof.
    intros I Er Hd. pose proof (di_ring _ _ I) as Ir.
    pose proof (ci_le _ _ _ _ _ _ Ir) as Hle. pose proof (ci_head _ _ _ _ _ _ Ir) as Hh.
    destruct (ci_rows _ _ _ _ _ _ Ir ch row Er) as [L M H].
    unfold read_at.
    destruct (Z.ltb_spec (Z.of_nat (alloc + cb_head (dl_ring dl) - 1) + 1 - d) 0); [lia|].
    replace (Z.to_nat (Z.of_nat (alloc + cb_head (dl_ring dl) - 1) + 1 - d))
      with (alloc + cb_head (dl_ring dl) - Z.to_nat d)%nat by lia.
    rewrite H by lia. reflexivity.
  Qed.

  Lemma lagrange_sample_ok dl h ch row d g :
    dl_inv dl h -> nth_error (cb_rows (dl_ring dl)) ch = Some row ->
    zq (1 - Z.of_nat len) <= d -> d <= zq (- Z.of_nat order) + epsilon ->
    lagrange_sample order row (Z.of_nat (alloc + cb_head (dl_ring dl) - 1)) d g
    = Ok (g * lagrange_past order (h ch) d).
  Proof.
    intros I Er Hlo Hhi. unfold lagrange_sample, lagrange_past.
    destruct (round_away_close d) as [R1 R2]. set (r := round_away d) in *.
    assert (Hr1 : (1 - Z.of_nat len <= r)%Z) by (apply zq_half_le; qclra).
    pose proof epsilon_small as [Ee1 Ee2]. pose proof half_twice as Hh.
    assert (Hr2 : (r <= - Z.of_nat order)%Z) by (apply zq_lt1_le; qclra).
    rewrite (map_res_seq _ (fun k => past (h ch) (1 - r - Z.of_nat k))).
    - cbn [bind]. f_equal. f_equal.
      set (cs := calculate_coefficients true order (d - zq r)).
      assert (Lc : length cs = S order) by apply coefficients_length.
      rewrite inner_product_nth by (rewrite map_length, seq_length, rev_length, Lc; reflexivity).
      rewrite rev_length, Lc. f_equal. apply map_ext_in. intros k Hk. apply in_seq in Hk.
      rewrite nth_map_seq by lia. rewrite rev_nth by lia. rewrite Lc.
      replace (S order - S k)%nat with (order - k)%nat by lia. reflexivity.
    - intros k Hk.
      rewrite <- (read_at_past dl h ch row (1 - r - Z.of_nat k) I Er) by lia.
      f_equal. lia.
  Qed.

  Lemma delay_ramp n i a b : (i < n)%nat ->
    nth_error (vector_ramp n (- nq (n + order) - a) (- nq order - b) false true) i
    = Some (zq (- Z.of_nat (n - 1 - i + order)) - delay_at n i a b).
  Proof.
    intros Hi. rewrite ramp_values by exact Hi. f_equal. unfold delay_at.
    rewrite zq_opp. change (zq (Z.of_nat (n - 1 - i + order))) with (nq (n - 1 - i + order)).
    rewrite !nq_plus, nq_1. replace (n - 1 - i)%nat with (n - (i + 1))%nat by lia.
    rewrite nq_minus by lia. rewrite nq_plus, nq_1. field. apply nq_neq_0. lia.
  Qed.

  (** What interpolate() computes when all taps stay within the ring. *)
  Definition interpolated (h : list Qc) (n : nat) (a b ga gb : Qc) : list Qc :=
    map (fun i => delay_at n i ga gb
                  * lagrange_past order h (zq (- Z.of_nat (n - 1 - i + order)) - delay_at n i a b))
        (seq 0 n).

  Lemma lagrange_interpolate_ok dl h ch row n a b ga gb :
    dl_inv dl h -> nth_error (cb_rows (dl_ring dl)) ch = Some row ->
    (n <= block)%nat ->
    - epsilon <= a -> - epsilon <= b -> a + nq order <= nq max -> b + nq order <= nq max ->
    lagrange_interpolate order block row (Z.of_nat (alloc + cb_head (dl_ring dl) - 1)) n a b ga gb
    = Ok (interpolated (h ch) n a b ga gb).
  Proof.
    intros I Er Hn Ha Hb Ha2 Hb2. unfold lagrange_interpolate.
    destruct (Nat.ltb_spec block n); [lia|].
    rewrite (map_res_nth _ _ (fun i => delay_at n i ga gb
        * lagrange_past order (h ch) (zq (- Z.of_nat (n - 1 - i + order)) - delay_at n i a b))).
    - unfold interpolated. do 3 f_equal. rewrite combine_length, !ramp_length. lia.
    - intros i [d g] E.
      assert (Hi : (i < n)%nat).
      { assert (i < length (combine (vector_ramp n (- nq (n + order) - a) (- nq order - b) false true)
                              (vector_ramp n ga gb false true)))%nat by (apply nth_error_Some; congruence).
        rewrite combine_length, !ramp_length in H0. lia. }
      apply nth_error_combine in E as [Ed Eg].
      rewrite delay_ramp in Ed by exact Hi. rewrite ramp_values in Eg by exact Hi.
      injection Ed as <-. injection Eg as <-. cbn [fst snd].
      destruct (delay_at_range n i a b (- epsilon) (nq max - nq order) Hi) as [D1 D2]; try qclra.
      set (D := delay_at n i a b) in *.
      apply (lagrange_sample_ok dl h ch); auto.
      + unfold len. assert (E1 : zq (1 - Z.of_nat (max + block)) + nq max + nq block = 1).
        { unfold nq. rewrite <- !zq_plus. rewrite <- zq_1. f_equal. lia. }
        assert (E2 : zq (- Z.of_nat (n - 1 - i + order)) + nq (n - 1 - i) + nq order = 0).
        { unfold nq. rewrite <- !zq_plus. rewrite <- zq_0. f_equal. lia. }
        assert (E3 : nq (n - 1 - i) <= nq block - 1).
        { rewrite <- nq_1, <- nq_minus by lia. apply nq_le. lia. }
        qclra.
      + assert (E2 : zq (- Z.of_nat (n - 1 - i + order)) <= zq (- Z.of_nat order))
          by (rewrite zq_le; lia).
        qclra.
  Qed.

  (** Total delay in samples for a requested delay, by policy. *)
  Definition total_delay (raw : Qc) : Qc :=
    match pol with
    | PAdd => raw + half * nq order
    | PLimit => if qlt raw (half * nq order) then half * nq order else raw
    | PReject => raw
    end.

  (** Values accepted by adjustDelay(). *)
  Definition accepted_delay (raw : Qc) : Prop :=
    raw <= nq max
    /\ match pol with
       | PAdd => - epsilon <= raw
       | PLimit => True
       | PReject => half * nq order <= raw
       end.

  (** Accepted values for which half the interpolation filter still fits. *)
  Definition admissible (raw : Qc) : Prop :=
    accepted_delay raw /\ total_delay raw + half * nq order <= nq max.

  Definition adjusted (raw : Qc) : Qc := total_delay raw - half * nq order.

  Lemma half_order_nonneg : 0 <= half * nq order.
  Proof.
    pose proof (nq_nonneg order).
    rewrite <- (Qcmult_0_l (nq order)). apply Qcmult_le_compat_r; [|assumption].
    vm_compute. discriminate.
  Qed.

  Lemma half_order_twice : half * nq order + half * nq order = nq order.
  Proof. rewrite <- Qcmult_plus_distr_l, half_twice. ring. Qed.

  Lemma adjust_accepted dl h raw sec :
    dl_inv dl h -> sec * fs = raw -> accepted_delay raw ->
    adjust_delay dl sec = Ok (adjusted raw).
  Proof.
    intros [_ _ F M P O] E [A1 A2]. unfold adjust_delay. rewrite F, M, P, O, E.
    pose proof half_order_nonneg as H0. unfold adjusted, total_delay, method_delay in *. fold half.
    destruct (qlt_spec (nq max) raw) as [Hm|Hm]; [exfalso; qclra|].
    destruct pol.
    - destruct (qlt_spec raw (- epsilon)) as [He|He]; [exfalso; qclra|]. f_equal. ring.
    - destruct (qlt_spec (raw - half * nq order) 0) as [B|B];
        destruct (qlt_spec raw (half * nq order)) as [B'|B'];
        try (exfalso; qclra); f_equal; ring.
    - destruct (qlt_spec raw (half * nq order)) as [B|B]; [exfalso; qclra|reflexivity].
  Qed.

  Lemma adjust_rejected dl h raw sec :
    dl_inv dl h -> sec * fs = raw -> ~ accepted_delay raw ->
    adjust_delay dl sec = Throw OutOfRange.
  Proof.
    intros [_ _ F M P O] E NA. unfold adjust_delay. rewrite F, M, P, O, E.
    unfold accepted_delay, method_delay in *. fold half.
    destruct (qlt_spec (nq max) raw) as [Hm|Hm]; [reflexivity|].
    destruct pol.
    - destruct (qlt_spec raw (- epsilon)) as [He|He]; [reflexivity|].
      exfalso. apply NA. split; qclra.
    - exfalso. apply NA. split; [qclra|exact I].
    - destruct (qlt_spec raw (half * nq order)) as [B|B]; [reflexivity|].
      exfalso. apply NA. split; qclra.
  Qed.

  Lemma adjusted_range raw : admissible raw ->
    - epsilon <= adjusted raw /\ adjusted raw + nq order <= nq max.
  Proof.
    intros [[A1 A2] A3]. pose proof half_order_nonneg as H0. pose proof half_order_twice as H1.
    pose proof epsilon_small as [E1 E2]. split; [|unfold adjusted; qclra].
    unfold adjusted, total_delay in *. destruct pol; [qclra| |qclra].
    destruct (qlt_spec raw (half * nq order)); qclra.
  Qed.

  Lemma dl_interpolate_ok dl h ch n s1 s2 r1 r2 ga gb :
    dl_inv dl h -> (ch < channels)%nat -> (n <= block)%nat ->
    s1 * fs = r1 -> s2 * fs = r2 -> admissible r1 -> admissible r2 ->
    dl_interpolate dl ch n s1 s2 ga gb
    = Ok (interpolated (h ch) n (adjusted r1) (adjusted r2) ga gb).
  Proof.
    intros I Hch Hn E1 E2 A1 A2. unfold dl_interpolate.
    pose proof (di_ring _ _ I) as Ir.
    pose proof (ci_channels _ _ _ _ _ _ Ir) as Hc. unfold cb_channels in Hc.
    destruct (nth_error_lt (cb_rows (dl_ring dl)) ch) as [row Er]; [lia|]. rewrite Er.
    unfold read_offset. rewrite (ci_alloc _ _ _ _ _ _ Ir).
    pose proof (ci_le _ _ _ _ _ _ Ir). unfold len in *.
    destruct (Nat.ltb_spec (alloc + cb_head (dl_ring dl)) 1); [lia|]. cbn [bind].
    rewrite (adjust_accepted dl h r1 s1 I E1 (proj1 A1)).
    rewrite (adjust_accepted dl h r2 s2 I E2 (proj1 A2)). cbn [bind].
    destruct (adjusted_range r1 A1) as [P1 P2]. destruct (adjusted_range r2 A2) as [P3 P4].
    rewrite (di_order _ _ I), (di_block _ _ I).
    apply (lagrange_interpolate_ok dl h ch row); auto.
  Qed.

  Lemma dl_interpolate_rejects dl h ch n s1 s2 ga gb :
    dl_inv dl h -> (ch < channels)%nat ->
    ~ (accepted_delay (s1 * fs) /\ accepted_delay (s2 * fs)) ->
    dl_interpolate dl ch n s1 s2 ga gb = Throw OutOfRange.
  Proof.
    intros I Hch NA. unfold dl_interpolate.
    pose proof (di_ring _ _ I) as Ir.
    pose proof (ci_channels _ _ _ _ _ _ Ir) as Hc. unfold cb_channels in Hc.
    destruct (nth_error_lt (cb_rows (dl_ring dl)) ch) as [row Er]; [lia|]. rewrite Er.
    unfold read_offset. rewrite (ci_alloc _ _ _ _ _ _ Ir).
    pose proof (ci_le _ _ _ _ _ _ Ir). unfold len in *.
    destruct (Nat.ltb_spec (alloc + cb_head (dl_ring dl)) 1); [lia|]. cbn [bind].
    assert (Dec : forall raw, accepted_delay raw \/ ~ accepted_delay raw).
    { intros raw. unfold accepted_delay. destruct (qle_spec raw (nq max)) as [L|L].
      - destruct pol; [destruct (qle_spec (- epsilon) raw)| |destruct (qle_spec (half * nq order) raw)];
          try (left; split; [assumption|first [assumption|exact Logic.I]]); right; intros [_ X];
          contradiction.
      - right. intros [X _]. contradiction. }
    destruct (Dec (s1 * fs)) as [D1|D1].
    - rewrite (adjust_accepted dl h _ s1 I eq_refl D1). cbn [bind].
      rewrite (adjust_rejected dl h _ s2 I eq_refl) by tauto. reflexivity.
    - rewrite (adjust_rejected dl h _ s1 I eq_refl D1). reflexivity.
  Qed.
End Line.

(** ** Consequences *)

(** Only the last [max+block] samples matter. *)
Lemma interpolated_local order max block h1 h2 n a b ga gb :
  (n <= block)%nat -> - epsilon <= a -> - epsilon <= b -> a + nq order <= nq max -> b + nq order <= nq max ->
  recent 0 (max + block) h1 = recent 0 (max + block) h2 ->
  interpolated order h1 n a b ga gb = interpolated order h2 n a b ga gb.
Proof.
  intros Hn Ha Hb Ha2 Hb2 E. unfold interpolated. apply map_ext_in. intros i Hi.
  apply in_seq in Hi. f_equal. unfold lagrange_past. f_equal. apply map_ext_in. intros k Hk.
  apply in_seq in Hk. f_equal. unfold past.
  destruct (delay_at_range n i a b (- epsilon) (nq max - nq order)) as [D1 D2]; try qclra; try lia.
  set (d := zq (- Z.of_nat (n - 1 - i + order)) - delay_at n i a b).
  destruct (round_away_close d) as [R1 R2]. set (r := round_away d) in *.
  assert (Hlo : (1 - Z.of_nat (max + block) <= r)%Z).
  { apply zq_half_le.
    assert (E1 : zq (1 - Z.of_nat (max + block)) + nq max + nq block = 1).
    { unfold nq. rewrite <- !zq_plus. rewrite <- zq_1. f_equal. lia. }
    assert (E2 : zq (- Z.of_nat (n - 1 - i + order)) + nq (n - 1 - i) + nq order = 0).
    { unfold nq. rewrite <- !zq_plus. rewrite <- zq_0. f_equal. lia. }
    assert (E3 : nq (n - 1 - i) <= nq block - 1).
    { rewrite <- nq_1, <- nq_minus by lia. apply nq_le. lia. }
    unfold d in R1, R2. qclra. }
  assert (Hhi : (r <= - Z.of_nat order)%Z).
  { apply zq_lt1_le. pose proof epsilon_small as [Ee1 Ee2]. pose proof half_twice as Hh.
    assert (E2 : zq (- Z.of_nat (n - 1 - i + order)) <= zq (- Z.of_nat order))
      by (rewrite zq_le; lia).
    unfold d in R1, R2. qclra. }
  set (D := Z.to_nat (1 - r - Z.of_nat k)).
  assert (HD : (1 <= D <= max + block)%nat) by (unfold D; lia).
  pose proof (f_equal (fun l => nth_error l (max + block - D)) E) as H. simpl in H.
  rewrite !nth_error_recent in H.
  destruct (Nat.ltb_spec (max + block - D) (max + block)); [|lia].
  replace (max + block - (max + block - D))%nat with D in H by lia. congruence.
Qed.

(** An integer position is reproduced by exactly one tap. *)
Lemma lagrange_past_integer N h d p :
  zq p = d + half * nq N -> lagrange_past N h d = past h (1 - p).
Proof.
  intros Hp. unfold lagrange_past.
  destruct (round_away_close d) as [R1 R2]. set (r := round_away d) in *.
  assert (Hx : half * nq N + half * nq N = nq N) by (rewrite <- Qcmult_plus_distr_l, half_twice; ring).
  assert (Hn : 0 <= half * nq N).
  { pose proof (nq_nonneg N). rewrite <- (Qcmult_0_l (nq N)).
    apply Qcmult_le_compat_r; [vm_compute; discriminate|assumption]. }
  pose proof half_twice as Hh.
  assert (H1 : (r <= p)%Z).
  { apply zq_lt1_le.
    assert (zq 0 < 1) by (vm_compute; reflexivity). qclra. }
  assert (H2 : (p <= r + Z.of_nat N)%Z).
  { destruct N as [|N'].
    - apply zq_lt1_le. rewrite zq_plus. change (zq (Z.of_nat 0)) with 0.
      change (nq 0) with 0 in *. assert (0 < half) by (vm_compute; reflexivity). qclra.
    - apply zq_half_le. rewrite zq_plus. change (zq (Z.of_nat (S N'))) with (nq (S N')).
      assert (1 <= nq (S N')) by (rewrite nq_S; pose proof (nq_nonneg N'); qclra).
      qclra. }
  set (j := Z.to_nat (p - r)). assert (Hj : (j <= N)%nat) by (unfold j; lia).
  assert (Emu : d - zq r = offset true N (N - j)).
  { unfold offset. fold half. rewrite nq_minus by exact Hj.
    assert (Ej : nq j = zq p - zq r).
    { unfold nq, j. rewrite Z2Nat.id by lia. apply zq_minus. }
    rewrite Ej, Hp. qclra. }
  rewrite Emu, lagrange_at_tap by lia.
  transitivity (qsum (map (fun k => (if Nat.eqb k j then 1 else 0) * past h (1 - r - Z.of_nat k))
                          (seq 0 (S N)))).
  - f_equal. apply map_ext_in. intros k Hk. apply in_seq in Hk. f_equal.
    rewrite nth_map_seq by lia.
    destruct (Nat.eqb_spec (N - k) (N - j)); destruct (Nat.eqb_spec k j); try reflexivity; lia.
  - rewrite sum_delta by lia. f_equal. unfold j. lia.
Qed.

Lemma delay_at_const n i a : (0 < n)%nat -> delay_at n i a a = a.
Proof. intros Hn. unfold delay_at. field. apply nq_neq_0. lia. Qed.

Lemma interpolated_integer order h n a ga gb T :
  nq T = a + half * nq order ->
  interpolated order h n a a ga gb
  = map (fun i => delay_at n i ga gb * sample_at 0 h (n - i + T)) (seq 0 n).
Proof.
  intros HT. unfold interpolated. apply map_ext_in. intros i Hi. apply in_seq in Hi. f_equal.
  rewrite delay_at_const by lia.
  rewrite (lagrange_past_integer _ _ _ (- Z.of_nat (n - 1 - i + T))).
  - unfold past. f_equal. lia.
  - rewrite !zq_opp. change (zq (Z.of_nat (n - 1 - i + T))) with (nq (n - 1 - i + T)).
    change (zq (Z.of_nat (n - 1 - i + order))) with (nq (n - 1 - i + order)).
    rewrite !nq_plus, HT.
    assert (Hx : half * nq order + half * nq order = nq order)
      by (rewrite <- Qcmult_plus_distr_l, half_twice; ring).
    rewrite <- Hx at 2. ring.
Qed.

(** ** Exactness for polynomial signals *)
Fixpoint pshift (c : Qc) (p : list Qc) : list Qc :=
  match p with
  | [] => []
  | a :: q => padd [a] (padd (pscale c (pshift c q)) (match pshift c q with [] => [] | l => 0 :: l end))
  end.

Lemma pshift_eval c p x : peval (pshift c p) x = peval p (x + c).
Proof.
  induction p as [|a q IH]; [reflexivity|].
  cbn [pshift]. rewrite !padd_eval, pscale_eval.
  assert (E : peval (match pshift c q with [] => [] | l => 0 :: l end) x = x * peval (pshift c q) x).
  { destruct (pshift c q); cbn [peval]; ring. }
  rewrite E, IH. cbn [peval]. ring.
Qed.

Lemma pshift_length c p : (length (pshift c p) <= length p)%nat.
Proof.
  induction p as [|a q IH]; [simpl; lia|].
  cbn [pshift]. rewrite !padd_length. unfold pscale. rewrite map_length.
  destruct (pshift c q); simpl length in *; lia.
Qed.

Lemma dot_nth a : forall b, length b = length a ->
  dot a b = qsum (map (fun k => nth k a 0 * nth k b 0) (seq 0 (length a))).
Proof.
  induction a as [|c cs IH]; intros [|x xs] H; simpl in *; try lia; try reflexivity.
  rewrite IH by lia. rewrite <- seq_shift, map_map. reflexivity.
Qed.

Lemma qsum_rev l : qsum (rev l) = qsum l.
Proof. induction l as [|x l IH]; [reflexivity|]. simpl. rewrite qsum_app, IH. simpl. ring. Qed.

Lemma sum_mirror (f : nat -> Qc) n :
  qsum (map (fun k => f (n - k)%nat) (seq 0 (S n))) = qsum (map f (seq 0 (S n))).
Proof.
  induction n as [|n IH]; [reflexivity|].
  rewrite seq_S at 2. rewrite map_app, qsum_app. simpl (map f [_]). 
  change (seq 0 (S (S n))) with (0%nat :: seq 1 (S n)). cbn [map qsum].
  rewrite <- seq_shift, map_map.
  assert (E : map (fun k => f (S n - S k)%nat) (seq 0 (S n)) = map (fun k => f (n - k)%nat) (seq 0 (S n)))
    by (apply map_ext; intros; f_equal; lia).
  rewrite E, IH. replace (S n - 0)%nat with (S n) by lia. cbn [qsum fold_right]. simpl. ring.
Qed.

Lemma lagrange_past_poly N h d p :
  (length p <= S N)%nat ->
  (forall k, (k <= N)%nat -> let z := (round_away d + Z.of_nat k)%Z in
     past h (1 - z) = peval p (zq z)) ->
  lagrange_past N h d = peval p (d + half * nq N).
Proof.
  intros Hl Hp. unfold lagrange_past. set (r := round_away d) in *.
  set (q := pshift (zq r + half * nq N) p).
  assert (Lq : (length q <= S N)%nat) by (pose proof (pshift_length (zq r + half * nq N) p); unfold q; lia).
  replace (peval p (d + half * nq N)) with (peval q (d - zq r))
    by (unfold q; rewrite pshift_eval; f_equal; ring).
  rewrite <- (lagrange_exact true N (d - zq r) q Lq).
  rewrite dot_nth by (rewrite map_length; unfold offsets; rewrite map_length, seq_length, coefficients_length; reflexivity).
  rewrite coefficients_length. symmetry. rewrite <- sum_mirror. symmetry. f_equal. apply map_ext_in. intros k Hk.
  apply in_seq in Hk. f_equal. replace (1 - r - Z.of_nat k)%Z with (1 - (r + Z.of_nat k))%Z by lia.
  rewrite Hp by lia. unfold offsets. rewrite map_map, nth_map_seq by lia.
  unfold q. rewrite pshift_eval. f_equal. unfold offset. fold half.
  rewrite zq_plus, nq_minus by lia. change (zq (Z.of_nat k)) with (nq k).
  assert (Hx : half * nq N + half * nq N = nq N)
    by (rewrite <- Qcmult_plus_distr_l, half_twice; ring).
  simpl (0 + _)%nat. qclra.
Qed.
