(** The frames computed by the forward transform. *)
From Verif Require Import Base Memory CircularBufferModel CircularBufferProofs RingSum TimeFreqModel TimeFreqProofs.
From Coq Require Import Ring.
Local Open Scope res_scope.

Section Buffer.
  Context {A : Type} (zero : A).
  Lemma cb_inv_read channels len alloc b h ch d n :
    cb_inv zero channels len alloc b h -> ch < channels -> n <= d <= len ->
    cb_read b ch d n = Ok (firstn n (recent zero d (h ch))).
  Proof.
    intros I Hch Hd. destruct I as [El Ea Ec Hle Hh Hr].
    unfold cb_read. unfold cb_channels in Ec.
    destruct (nth_error_lt (cb_rows b) ch) as [row Er]; [lia|]. rewrite Er.
    unfold read_offset. rewrite Ea.
    destruct (Nat.ltb_spec (alloc + cb_head b) d); [lia|]. cbn [bind].
    apply row_read; [now apply Hr|assumption|lia].
  Qed.
  Lemma recent_pad d n h : recent zero d (repeat zero n ++ h) = recent zero d h.
  Proof.
    apply nth_error_ext. intros i. rewrite !nth_error_recent. destruct (i <? d); [|reflexivity].
    f_equal. unfold sample_at. rewrite app_length, repeat_length.
    destruct (Nat.leb_spec (d - i) (length h)).
    - destruct (Nat.leb_spec (d - i) (n + length h)); [|lia].
      rewrite app_nth2 by (rewrite repeat_length; lia). rewrite repeat_length. f_equal. lia.
    - destruct (Nat.leb_spec (d - i) (n + length h)); [|reflexivity].
      rewrite app_nth1 by (rewrite repeat_length; lia).
      destruct (lt_dec (n + length h - (d - i)) n) as [X|X].
      + apply (repeat_spec n zero). apply nth_In. now rewrite repeat_length.
      + rewrite nth_overflow; [reflexivity|rewrite repeat_length; lia].
  Qed.
End Buffer.

Section Forward.
  Context {T S : Type} (zero : T) (mul : T -> T -> T).
  Variable forward : list T -> S.

  (** *** Specification *)
  (** sample [i - lead] of a signal; zero before its start *)
  Definition delayed (x : list T) (lead i : nat) : T :=
    if lead <=? i then nth (i - lead) x zero else zero.
  (** The frame with index [K] of the whole signal [x]: the window lies over the [winlen]
      samples before the sample [(K + 1) * hop]; the rest of the block is zero. *)
  Definition windowed (dft hop : nat) (window : list T) (x : list T) (K : nat) : list T :=
    map (fun j => if j <? length window
                  then mul (delayed x (length window) ((K + 1) * hop + j)) (nth j window zero)
                  else zero) (seq 0 dft).
  (** input signal of a channel *)
  Definition channel_signal (ch : nat) (inputs : list (list (list T))) : list T :=
    concat (map (fun x => nth ch x []) inputs).
  Definition audio_blocks (channels period : nat) (inputs : list (list (list T))) : Prop :=
    forall x, In x inputs -> length x = channels /\ forall r, In r x -> length r = period.

  Section Process.
    Variables (channels period dft hop F : nat) (window : list T).
    Let winlen := length window.
    Let len := winlen + (F - 1) * hop.
    Hypothesis HP : period = F * hop.
    Hypothesis HF : 1 <= F.
    Hypothesis Hhop : 1 <= hop <= winlen.
    Hypothesis HD : winlen <= dft.

    Definition calc_ok (calc : list T) : Prop :=
      length calc = dft /\ skipn winlen calc = repeat zero (dft - winlen).

    Lemma channels_loop alloc buf h blockStart :
      cb_inv zero channels len alloc buf h -> winlen <= blockStart <= len ->
      forall todo ch calc, ch + todo = channels -> calc_ok calc ->
      exists calc', tft_channels_loop mul forward buf window calc winlen blockStart todo ch
        = Ok (calc', map (fun c => forward (map (fun j => if j <? winlen
                 then mul (nth j (recent zero blockStart (h c)) zero) (nth j window zero) else zero) (seq 0 dft)))
                 (seq ch todo))
        /\ calc_ok calc'.
    Proof using mul forward HP HF Hhop HD.
      intros I HB. induction todo as [|todo IH]; intros ch calc Hc C; cbn [tft_channels_loop seq map].
      - exists calc. split; [reflexivity|exact C].
      - rewrite (cb_inv_read zero channels len alloc buf h ch blockStart winlen I ltac:(lia) ltac:(lia)).
        cbn [bind]. unfold combine2.
        set (r := recent zero blockStart (h ch)).
        assert (Lr : length r = blockStart) by apply recent_length.
        rewrite (tab_list r zero blockStart Lr), firstn_tab by lia.
        rewrite mem_read_Ok by (rewrite map_length, seq_length; lia). cbn [bind skipn].
        rewrite firstn_all2 by (rewrite map_length, seq_length; lia).
        rewrite mem_read_Ok by (fold winlen; lia). cbn [bind skipn]. rewrite firstn_all2 by (fold winlen; lia).
        replace (combine (map (fun i => nth i r zero) (seq 0 winlen)) window)
          with (map (fun i => (nth i r zero, nth i window zero)) (seq 0 winlen))
          by (rewrite <- combine_tab; f_equal; symmetry; now apply tab_list).
        rewrite map_map. cbn [fst snd].
        destruct C as [LC SC].
        rewrite mem_write_Ok by (rewrite map_length, seq_length; lia). cbn [bind firstn app plus].
        rewrite map_length, seq_length, SC.
        assert (E : map (fun i => mul (nth i r zero) (nth i window zero)) (seq 0 winlen)
                    ++ repeat zero (dft - winlen)
                    = map (fun j => if j <? winlen then mul (nth j r zero) (nth j window zero) else zero) (seq 0 dft)).
        { rewrite <- (map_const_seq zero). rewrite app_tab. replace (winlen + (dft - winlen)) with dft by lia.
          reflexivity. }
        rewrite E.
        set (c1 := map (fun j => if j <? winlen then _ else _) (seq 0 dft)) in *.
        destruct (IH (Datatypes.S ch) c1) as (calc' & E' & C'); [lia| |].
        { split; [unfold c1; now rewrite map_length, seq_length|].
          rewrite <- E. rewrite skipn_app, map_length, seq_length, Nat.sub_diag. cbn [skipn].
          rewrite skipn_all2 by (rewrite map_length, seq_length; lia). reflexivity. }
        rewrite E'. cbn [bind]. exists calc'. split; [|exact C'].
        rewrite <- (tab_list r zero blockStart Lr). reflexivity.
    Qed.

    (** the window position relative to the whole signal *)
    Lemma recent_delayed (x y : list T) n k j : length x = (n + 1) * period -> k < F -> j < winlen ->
      nth j (recent zero (winlen + (F - k - 1) * hop) x) zero
      = delayed (x ++ y) winlen ((n * F + k + 1) * hop + j).
    Proof using mul forward HP HF Hhop HD.
      intros Lx Hk Hj. set (d := winlen + (F - k - 1) * hop).
      assert (E := nth_error_recent zero d x j).
      assert (Hd : winlen <= d) by (unfold d; apply Nat.le_add_r).
      destruct (Nat.ltb_spec j d); [|lia].
      rewrite (nth_error_nth _ _ zero E). unfold sample_at, delayed.
      assert (M : (n + 1) * period = (n * F + k + 1) * hop + (F - k - 1) * hop).
      { rewrite HP. rewrite <- Nat.mul_add_distr_r. replace (n * F + k + 1 + (F - k - 1)) with ((n + 1) * F) by lia.
        lia. }
      rewrite Lx, M. unfold d.
      destruct (Nat.leb_spec (winlen + (F - k - 1) * hop - j) ((n * F + k + 1) * hop + (F - k - 1) * hop)),
               (Nat.leb_spec winlen ((n * F + k + 1) * hop + j)); try lia; [|reflexivity].
      rewrite app_nth1 by (rewrite Lx, M; lia). f_equal. lia.
    Qed.

    Lemma frames_loop alloc t buf (h : nat -> list T) :
      t_channels t = channels -> t_winlen t = winlen -> t_frames t = F -> t_hop t = hop -> t_window t = window ->
      cb_inv zero channels len alloc buf h ->
      forall todo k calc, k + todo = F -> calc_ok calc ->
      exists calc', tft_frames_loop mul forward t buf calc todo k
        = Ok (calc', map (fun k' => map (fun c => forward (map (fun j => if j <? winlen
                 then mul (nth j (recent zero (winlen + (F - k' - 1) * hop) (h c)) zero) (nth j window zero)
                 else zero) (seq 0 dft))) (seq 0 channels)) (seq k todo))
        /\ calc_ok calc'.
    Proof using mul forward HP HF Hhop HD.
      intros E1 E2 E3 E4 E5 I. induction todo as [|todo IH]; intros k calc Hk C; cbn [tft_frames_loop seq map].
      - exists calc. split; [reflexivity|exact C].
      - rewrite E1, E2, E3, E4, E5.
        destruct (channels_loop alloc buf h (winlen + (F - k - 1) * hop) I) with (todo := channels) (ch := 0) (calc := calc)
          as (calc1 & X1 & C1); auto.
        { split; [apply Nat.le_add_r|]. unfold len. apply Nat.add_le_mono_l, Nat.mul_le_mono_r. lia. }
        rewrite X1. cbn [bind].
        destruct (IH (Datatypes.S k) calc1) as (calc2 & X2 & C2); [lia|exact C1|].
        rewrite X2. cbn [bind]. exists calc2. split; [reflexivity|exact C2].
    Qed.

    (** state after a number of periods: the buffer holds the history *)
    Record fwd_inv (alloc : nat) (t : tft) (h : nat -> list T) : Prop := {
      fi_channels : t_channels t = channels; fi_period : t_period t = period; fi_dft : t_dft t = dft;
      fi_winlen : t_winlen t = winlen; fi_frames : t_frames t = F; fi_hop : t_hop t = hop;
      fi_window : t_window t = window; fi_calc : calc_ok (t_calc t);
      fi_buffer : exists pad : nat -> nat,
        cb_inv zero channels len alloc (t_buffer t) (fun ch => repeat zero (pad ch) ++ h ch) }.

    Lemma tft_process_ok alloc t h n x :
      fwd_inv alloc t h -> (forall ch, ch < channels -> length (h ch) = n * period) ->
      length x = channels -> (forall r, In r x -> length r = period) ->
      exists t', tft_process mul forward t x
        = Ok (t', map (fun k => map (fun ch => forward (windowed dft hop window (h ch ++ nth ch x []) (n * F + k)))
                                    (seq 0 channels)) (seq 0 F))
        /\ fwd_inv alloc t' (fun ch => h ch ++ nth ch x []).
    Proof using mul forward HP HF Hhop HD.
      intros I Lh Lx Rx. destruct I as [I1 I2 I3 I4 I5 I6 I7 I8 (pad & I9)].
      assert (X := cb_exec_inv zero channels len alloc (t_buffer t) _ (WriteOp x channels period) I9).
      assert (PL : period <= len).
      { unfold len. rewrite HP. replace (F * hop) with (hop + (F - 1) * hop); [lia|].
        rewrite <- (Nat.mul_1_l hop) at 1. rewrite <- Nat.mul_add_distr_r. f_equal. lia. }
      cbn [caller_ok accepted] in X. rewrite Nat.eqb_refl in X. cbn [andb] in X.
      destruct (Nat.leb_spec period len); [|lia].
      destruct X as (buf & EB & IB).
      { intros _. split; [lia|]. apply Forall_forall. intros r Hr. rewrite (Rx r Hr). lia. }
      cbn [cb_exec] in EB. unfold tft_process. rewrite I1, I2, EB. cbn [bind]. rewrite I5.
      destruct (frames_loop alloc t buf _ I1 I4 I5 I6 I7 IB F 0 (t_calc t) ltac:(lia) I8) as (calc & EC & C).
      rewrite EC. cbn [bind].
      eexists. split.
      - do 2 f_equal. apply map_ext_in. intros k Hk. apply in_seq in Hk. apply map_ext_in. intros ch Hch.
        apply in_seq in Hch. f_equal. unfold windowed. fold winlen. apply map_ext_in. intros j Hj.
        destruct (Nat.ltb_spec j winlen); [|reflexivity]. f_equal.
        cbn [op_samples]. rewrite <- app_assoc, recent_pad.
        rewrite firstn_all2 by (rewrite Rx; [lia|apply nth_In; lia]).
        rewrite (recent_delayed (h ch ++ nth ch x []) [] n k j).
        + now rewrite app_nil_r.
        + rewrite app_length, Lh by lia. rewrite Rx by (apply nth_In; lia). lia.
        + lia.
        + assumption.
      - constructor; cbn [t_channels t_period t_dft t_winlen t_frames t_hop t_window t_calc t_buffer]; auto.
        exists pad. eapply cb_inv_ext; [|exact IB]. intros ch. cbn [op_samples].
        rewrite <- app_assoc. do 2 f_equal. apply firstn_all2.
        destruct (lt_dec ch (length x)).
        + rewrite Rx by (apply nth_In; lia). lia.
        + rewrite nth_overflow by lia. cbn. lia.
    Qed.

    Lemma windowed_future x y K : (K + 1) * hop <= length x ->
      windowed dft hop window (x ++ y) K = windowed dft hop window x K.
    Proof using mul forward HP HF Hhop HD.
      intros H. unfold windowed. apply map_ext_in. intros j Hj.
      destruct (Nat.ltb_spec j (length window)); [|reflexivity]. f_equal. unfold delayed.
      destruct (Nat.leb_spec (length window) ((K + 1) * hop + j)); [|reflexivity].
      rewrite app_nth1 by lia. reflexivity.
    Qed.

    Lemma tft_run_ok alloc : forall inputs t h n,
      fwd_inv alloc t h -> (forall ch, ch < channels -> length (h ch) = n * period) ->
      audio_blocks channels period inputs ->
      exists t', tft_run mul forward t inputs
        = Ok (t', map (fun m => map (fun k => map (fun ch => forward (windowed dft hop window
                      (h ch ++ channel_signal ch inputs) ((n + m) * F + k))) (seq 0 channels)) (seq 0 F))
                      (seq 0 (length inputs)))
        /\ fwd_inv alloc t' (fun ch => h ch ++ channel_signal ch inputs).
    Proof using mul forward HP HF Hhop HD.
      induction inputs as [|x inputs IH]; intros t h n I Lh B; cbn [tft_run].
      - exists t. split; [reflexivity|]. destruct I. constructor; auto. destruct fi_buffer0 as (pad & I).
        exists pad. eapply cb_inv_ext; [|exact I]. intros ch. unfold channel_signal. cbn. now rewrite app_nil_r.
      - destruct (B x (or_introl eq_refl)) as [Lx Rx].
        destruct (tft_process_ok alloc t h n x I Lh Lx Rx) as (t1 & E1 & I1). rewrite E1. cbn [bind].
        destruct (IH t1 _ (n + 1) I1) as (t2 & E2 & I2).
        { intros ch Hch. rewrite app_length, Lh by exact Hch. rewrite Rx by (apply nth_In; lia). lia. }
        { intros y Hy. apply B. now right. }
        rewrite E2. cbn [bind]. exists t2. split.
        + do 2 f_equal. cbn [length seq map]. f_equal.
          * apply map_ext_in. intros k Hk. apply in_seq in Hk. apply map_ext_in. intros ch Hch. apply in_seq in Hch.
            f_equal. rewrite Nat.add_0_r. unfold channel_signal. cbn [map concat]. rewrite app_assoc.
            symmetry. apply windowed_future.
            rewrite app_length, Lh by lia. rewrite Rx by (apply nth_In; lia). rewrite HP.
            replace (n * (F * hop) + F * hop) with ((n * F + F) * hop) by lia. apply Nat.mul_le_mono_r. lia.
          * rewrite <- seq_shift, map_map. apply map_ext. intros m. apply map_ext. intros k. apply map_ext.
            intros ch. f_equal. unfold channel_signal. cbn [map concat]. rewrite <- app_assoc. f_equal. lia.
        + destruct I2. constructor; auto. destruct fi_buffer0 as (pad & J).
          exists pad. eapply cb_inv_ext; [|exact J]. intros ch. unfold channel_signal. cbn [map concat].
          now rewrite <- app_assoc.
    Qed.
  End Process.

  (** construction *)
  Lemma tft_new_ok channels period dft hop F win scale al :
    period = F * hop -> 1 <= F -> 1 <= hop <= length win -> length win <= dft -> dft <= length win + period ->
    exists t, tft_new zero mul channels period dft win hop scale al = Ok t
      /\ fwd_inv channels period dft hop F (map (mul scale) win)
           (next_aligned_size (length win + (F - 1) * hop) al) t (fun _ => []).
  Proof.
    intros HP HF Hh HD HZ. unfold tft_new. destruct (Nat.eqb_spec hop 0); [lia|].
    assert (FD : period / hop = F) by (rewrite HP; apply Nat.div_mul; lia).
    assert (FM : period mod hop = 0) by (rewrite HP; apply Nat.mod_mul; lia).
    unfold inputBufferSize. destruct (Nat.eqb_spec hop 0); [lia|]. rewrite FM, FD. cbn [Nat.eqb negb orb bind].
    set (len := length win + (F - 1) * hop).
    assert (N := cb_new_inv zero channels len al ltac:(unfold len; lia)).
    assert (PL : period = hop + (F - 1) * hop).
    { rewrite HP. rewrite <- (Nat.mul_1_l hop) at 2. rewrite <- Nat.mul_add_distr_r. f_equal. lia. }
    assert (B : exists buf pad, (if hop <? dft
               then cb_write (cb_new zero channels len al) (repeat (repeat zero (dft - hop)) channels) channels (dft - hop)
               else Ok (cb_new zero channels len al)) = Ok buf
              /\ cb_inv zero channels len (next_aligned_size len al) buf (fun ch => repeat zero (pad ch))).
    { destruct (Nat.ltb_spec hop dft).
      - assert (X := cb_exec_inv zero channels len _ _ _
                       (WriteOp (repeat (repeat zero (dft - hop)) channels) channels (dft - hop)) N).
        cbn [caller_ok accepted] in X. rewrite Nat.eqb_refl in X. cbn [andb] in X.
        destruct (Nat.leb_spec (dft - hop) len); [|unfold len in *; lia].
        destruct X as (buf & EB & IB).
        { intros _. rewrite repeat_length. split; [lia|]. apply Forall_forall. intros r Hr.
          apply repeat_spec in Hr. subst. now rewrite repeat_length. }
        exists buf, (fun ch => if ch <? channels then dft - hop else 0). split; [exact EB|].
        eapply cb_inv_ext; [|exact IB]. intros ch. cbn [op_samples app].
        destruct (Nat.ltb_spec ch channels).
        + rewrite (nth_indep _ [] (repeat zero (dft - hop))) by (now rewrite repeat_length).
          rewrite nth_repeat. apply firstn_all2. now rewrite repeat_length.
        + rewrite nth_overflow by (rewrite repeat_length; lia). apply firstn_nil.
      - exists (cb_new zero channels len al), (fun _ => 0). split; [reflexivity|exact N]. }
    destruct B as (buf & pad & EB & IB). rewrite EB. cbn [bind]. eexists. split; [reflexivity|].
    constructor; cbn [t_channels t_period t_dft t_winlen t_frames t_hop t_window t_calc t_buffer];
      rewrite ?map_length; auto.
    - split; [apply repeat_length|]. rewrite map_length. clear. revert dft. induction (length win) as [|n IH]; intros [|dft]; cbn; auto.
    - exists pad. eapply cb_inv_ext; [|exact IB]. intros ch. cbv beta. now rewrite app_nil_r.
  Qed.
End Forward.
