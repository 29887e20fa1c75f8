(** Overlap-add of the inverse transform and framing of the forward transform. *)
From Verif Require Import Base Memory CircularBufferModel CircularBufferProofs RingSum TimeFreqModel.
From Coq Require Import Ring.
Local Open Scope res_scope.

Section Arrays.
  Context {T : Type}.
  Lemma mem_read_all (l : list T) : mem_read l 0 (length l) = Ok l.
  Proof. unfold mem_read. cbn [plus skipn]. rewrite Nat.leb_refl, firstn_all. reflexivity. Qed.
  Lemma mem_read_Ok (l : list T) off n : off + n <= length l -> mem_read l off n = Ok (firstn n (skipn off l)).
  Proof. intros H. unfold mem_read. apply Nat.leb_le in H. now rewrite H. Qed.
  Lemma mem_write_Ok (l d : list T) off : off + length d <= length l ->
    mem_write l off d = Ok (firstn off l ++ d ++ skipn (off + length d) l).
  Proof. intros H. unfold mem_write. apply Nat.leb_le in H. now rewrite H. Qed.
  Lemma tab_list (l : list T) d n : length l = n -> l = map (fun i => nth i l d) (seq 0 n).
  Proof.
    intros <-. apply (nth_ext _ _ d d); [now rewrite map_length, seq_length|].
    intros n Hn. rewrite (nth_indep (map _ _) d (nth 0 l d)) by (now rewrite map_length, seq_length).
    rewrite (map_nth (fun i => nth i l d)), seq_nth by exact Hn. reflexivity.
  Qed.
  Lemma nth_tab (f : nat -> T) n i d : i < n -> nth i (map f (seq 0 n)) d = f i.
  Proof.
    intros H. rewrite (nth_indep _ d (f 0)) by (now rewrite map_length, seq_length).
    rewrite map_nth, seq_nth by exact H. reflexivity.
  Qed.
  Lemma firstn_tab (f : nat -> T) n m : m <= n -> firstn m (map f (seq 0 n)) = map f (seq 0 m).
  Proof.
    intros H. rewrite firstn_map. f_equal. replace n with (m + (n - m)) by lia.
    rewrite seq_app, firstn_app, seq_length, Nat.sub_diag. cbn [firstn]. rewrite app_nil_r.
    apply firstn_all2. now rewrite seq_length.
  Qed.
  Lemma skipn_tab (f : nat -> T) n m : m <= n -> skipn m (map f (seq 0 n)) = map (fun i => f (m + i)) (seq 0 (n - m)).
  Proof.
    intros H. rewrite skipn_map. replace n with (m + (n - m)) at 1 by lia.
    rewrite seq_app, skipn_app, seq_length, Nat.sub_diag. cbn [skipn].
    rewrite skipn_all2 by (now rewrite seq_length). cbn [app plus].
    replace (seq m (n - m)) with (map (Nat.add m) (seq 0 (n - m))).
    - now rewrite map_map.
    - generalize (n - m) as k. clear. intros k. rewrite <- (Nat.add_0_r m) at 2. generalize 0 as s.
      induction k as [|k IH]; intros s; [reflexivity|]. cbn [seq map]. f_equal.
      replace (S (m + s)) with (m + S s) by lia. apply IH.
  Qed.
  Lemma combine_tab {U V} (f : nat -> U) (g : nat -> V) n s :
    combine (map f (seq s n)) (map g (seq s n)) = map (fun i => (f i, g i)) (seq s n).
  Proof. revert s. induction n as [|n IH]; intros s; [reflexivity|]. cbn [seq map combine]. now rewrite IH. Qed.
  Lemma map_const_seq (x : T) n : map (fun _ => x) (seq 0 n) = repeat x n.
  Proof. generalize 0 as s. induction n as [|n IH]; intros s; [reflexivity|]. cbn. now rewrite IH. Qed.
  Lemma app_tab (f g : nat -> T) n m :
    map f (seq 0 n) ++ map g (seq 0 m) = map (fun i => if i <? n then f i else g (i - n)) (seq 0 (n + m)).
  Proof.
    apply nth_error_ext. intros i. destruct (lt_dec i n) as [L|L].
    - rewrite nth_error_app1 by (now rewrite map_length, seq_length).
      rewrite (map_nth_error f i (seq 0 n) (d := i)).
      2:{ rewrite (nth_error_nth' _ 0) by (now rewrite seq_length). now rewrite seq_nth. }
      rewrite (map_nth_error _ i (seq 0 (n + m)) (d := i)).
      2:{ rewrite (nth_error_nth' _ 0) by (rewrite seq_length; lia). rewrite seq_nth by lia. reflexivity. }
      apply Nat.ltb_lt in L. now rewrite L.
    - rewrite nth_error_app2 by (rewrite map_length, seq_length; lia). rewrite map_length, seq_length.
      destruct (lt_dec i (n + m)) as [M|M].
      + rewrite (map_nth_error g (i - n) (seq 0 m) (d := i - n)).
        2:{ rewrite (nth_error_nth' _ 0) by (rewrite seq_length; lia). rewrite seq_nth by lia. reflexivity. }
        rewrite (map_nth_error _ i (seq 0 (n + m)) (d := i)).
        2:{ rewrite (nth_error_nth' _ 0) by (rewrite seq_length; lia). rewrite seq_nth by lia. reflexivity. }
        apply Nat.ltb_nlt in L. now rewrite L.
      + rewrite !(proj2 (nth_error_None _ _)); rewrite ?map_length, ?seq_length; try lia. reflexivity.
  Qed.
End Arrays.

Section Spec.
  Context {T S : Type} (rO rI : T) (radd rmul rsub : T -> T -> T) (ropp : T -> T).
  Variable RT : ring_theory rO rI radd rmul rsub ropp (@eq T).
  Add Ring TRing : RT.
  Variable inverse : S -> list T.
  Variable none : S.
  Notation "0" := rO. Infix "+" := radd. Infix "*" := rmul.
  Local Notation sum := (sum rO radd).

  (** *** Specification of the inverse transform: frame [k] starts at sample [k * hop] *)
  Definition overlap_add (hop : nat) (frames : list S) (t : nat) : T :=
    sum (length frames) (fun k => if (k * hop <=? t)%nat
                                  then nth (t - k * hop) (inverse (nth k frames none)) 0 else 0).
  (** all frames of a channel, in order of arrival *)
  Definition channel_frames (ch : nat) (inputs : list (list (list S))) : list S :=
    concat (map (map (fun fr => nth ch fr none)) inputs).

  Lemma overlap_add_snoc hop fs f t :
    overlap_add hop (fs ++ [f]) t
    = overlap_add hop fs t
      + (if (length fs * hop <=? t)%nat then nth (t - length fs * hop) (inverse f) 0 else 0).
  Proof using RT.
    unfold overlap_add. rewrite app_length. cbn [length]. rewrite Nat.add_1_r. cbn [RingSum.sum].
    f_equal.
    - apply sum_ext. intros i Hi. now rewrite app_nth1 by lia.
    - rewrite app_nth2, Nat.sub_diag by lia. reflexivity.
  Qed.
  (** frames that start later do not matter *)
  Lemma overlap_add_future hop fs gs t : (t < length fs * hop)%nat ->
    overlap_add hop (fs ++ gs) t = overlap_add hop fs t.
  Proof using RT.
    intros H. unfold overlap_add. rewrite app_length.
    rewrite (sum_cut rO rI radd rmul rsub ropp RT _ (length fs)).
    - apply sum_ext. intros i Hi. now rewrite app_nth1 by lia.
    - lia.
    - intros i Hi. destruct (Nat.leb_spec (i * hop) t); [|reflexivity].
      exfalso. assert (length fs * hop <= i * hop)%nat by (apply Nat.mul_le_mono_r; lia). lia.
  Qed.
  (** ... nor do frames that have ended *)
  Lemma overlap_add_past hop dft fs t : (0 < hop)%nat -> (forall s, length (inverse s) = dft) ->
    (length fs * hop + dft <= t + hop)%nat -> overlap_add hop fs t = 0.
  Proof using RT.
    intros Hh L H. unfold overlap_add. apply (sum_zero rO rI radd rmul rsub ropp RT). intros i Hi.
    destruct (Nat.leb_spec (i * hop) t); [|reflexivity]. apply nth_overflow. rewrite L.
    assert (i * hop + hop <= length fs * hop)%nat by nia. lia.
  Qed.

  Section Inverse.
    Variables (dft hop : nat).
    Hypothesis Hh : (1 <= hop <= dft)%nat.
    Hypothesis L : forall s, length (inverse s) = dft.

    Definition accu_is (fs : list S) (accu : list T) : Prop :=
      accu = map (fun i => overlap_add hop fs (length fs * hop + i)) (seq 0%nat (dft - hop)).

    Lemma itf_frame_ok fs accu f : accu_is fs accu ->
      exists accu', itf_frame radd inverse dft hop accu f
        = Ok (map (fun i => overlap_add hop (fs ++ [f]) (length fs * hop + i)) (seq 0%nat dft), accu')
        /\ accu_is (fs ++ [f]) accu'.
    Proof using RT Hh L.
      intros A. unfold itf_frame, combine2. unfold accu_is in A.
      assert (LA : length accu = (dft - hop)%nat) by (rewrite A, map_length, seq_length; reflexivity).
      rewrite mem_read_Ok by lia. cbn [bind skipn]. rewrite mem_read_Ok by (rewrite L; lia). cbn [bind skipn].
      rewrite firstn_all2 by lia.
      set (g := fun i => nth i (inverse f) 0).
      assert (EI : inverse f = map g (seq 0%nat dft)) by (apply tab_list, L).
      rewrite EI, firstn_tab by lia. rewrite A, combine_tab, map_map. cbn [fst snd].
      rewrite mem_write_Ok by (rewrite !map_length, !seq_length; lia).
      cbn [bind firstn app plus]. rewrite map_length, seq_length, skipn_tab by lia.
      rewrite app_tab. replace (dft - hop + (dft - (dft - hop)))%nat with dft by lia.
      assert (C : map (fun i => if (i <? dft - hop)%nat
                    then overlap_add hop fs (length fs * hop + i) + g i
                    else g (dft - hop + (i - (dft - hop)))%nat) (seq 0%nat dft)
                  = map (fun i => overlap_add hop (fs ++ [f]) (length fs * hop + i)) (seq 0%nat dft)).
      { apply map_ext_in. intros i Hi. apply in_seq in Hi. rewrite overlap_add_snoc.
        destruct (Nat.leb_spec (length fs * hop) (length fs * hop + i)); [|lia].
        replace (length fs * hop + i - length fs * hop)%nat with i by lia.
        destruct (Nat.ltb_spec i (dft - hop)); [reflexivity|].
        rewrite (overlap_add_past hop dft) by (auto; lia).
        replace (dft - hop + (i - (dft - hop)))%nat with i by lia. unfold g. ring. }
      rewrite C. rewrite mem_read_Ok by (rewrite map_length, seq_length; lia). cbn [bind].
      rewrite skipn_tab by lia. rewrite firstn_all2 by (rewrite map_length, seq_length; lia).
      rewrite mem_write_Ok by (rewrite !map_length, !seq_length; lia). cbn [bind].
      eexists. split; [reflexivity|]. unfold accu_is. cbn [firstn app plus].
      rewrite skipn_all2 by (rewrite !map_length, !seq_length; lia). rewrite app_nil_r.
      apply map_ext. intros i. f_equal. rewrite app_length. cbn [length]. lia.
    Qed.

    Lemma itf_frames_ok ch : forall frames fs calc accu,
      accu_is fs accu -> (forall fr, In fr frames -> ch < length fr)%nat ->
      let new := map (fun fr => nth ch fr none) frames in
      exists calc' accu', itf_frames radd inverse dft hop ch frames (length frames) calc accu = Ok (calc', accu')
        /\ accu_is (fs ++ new) accu'
        /\ (frames <> [] ->
            calc' = map (fun i => overlap_add hop (fs ++ new) ((length fs + length frames - 1) * hop + i))
                        (seq 0%nat dft))
        /\ (frames = [] -> calc' = calc).
    Proof using RT Hh L.
      induction frames as [|fr frames IH]; intros fs calc accu A W; cbn [itf_frames length map].
      - exists calc, accu. rewrite app_nil_r. split; [reflexivity|]. split; [exact A|]. split; [congruence|auto].
      - assert (Hch : (ch < length fr)%nat) by (apply W; now left).
        rewrite (nth_error_nth' fr none Hch).
        destruct (itf_frame_ok fs accu (nth ch fr none) A) as (accu1 & E & A1). rewrite E. cbn [bind].
        set (c1 := map _ (seq 0%nat dft)).
        destruct (IH (fs ++ [nth ch fr none]) c1 accu1 A1) as (calc' & accu' & E' & A' & C' & C0);
          [intros; apply W; now right|].
        rewrite <- app_assoc in A'. cbn [app] in A'.
        exists calc', accu'. split; [exact E'|]. split; [exact A'|]. split; [intros _|congruence].
        destruct frames as [|fr2 frames].
        + rewrite C0 by reflexivity. unfold c1. apply map_ext. intros i. cbn [map length]. do 2 f_equal. lia.
        + rewrite C' by congruence. rewrite app_length, <- app_assoc. cbn [app length]. apply map_ext.
          intros i. f_equal. lia.
    Qed.

    (** the output block of a channel after the frames [fs], of which the last period
        brought the last [F] *)
    Definition block_of (period : nat) (scale : T) (fs : list S) : list T :=
      map (fun i => scale * overlap_add hop fs ((length fs - 1) * hop + i)) (seq 0%nat period).

    Lemma itf_channels_ok channels period F scale (frames : list (list S)) :
      (period = F * hop)%nat -> (period <= dft)%nat -> length frames = F ->
      (forall fr, In fr frames -> length fr = channels) ->
      forall accus0 accus ch (fs : nat -> list S),
      (ch + length accus <= channels)%nat ->
      (forall j a, nth_error accus j = Some a -> accu_is (fs (ch + j)%nat) a) ->
      let new c := fs c ++ map (fun fr => nth c fr none) frames in
      exists accus' outs,
        itf_channels radd rmul inverse (Itf channels period dft F hop accus0 scale) frames accus ch = Ok (accus', outs)
        /\ length accus' = length accus /\ length outs = length accus
        /\ (forall j a, nth_error accus' j = Some a -> accu_is (new (ch + j)%nat) a)
        /\ (forall j o, nth_error outs j = Some o -> o = block_of period scale (new (ch + j)%nat)).
    Proof using RT Hh L.
      intros HP HD HF W accus0. induction accus as [|accu accus IH]; intros ch fs Hch A new.
      - cbn [itf_channels]. exists [], []. split; [reflexivity|]. split; [reflexivity|]. split; [reflexivity|].
        split; intros [|j]; discriminate.
      - cbn [itf_channels i_dft i_hop i_frames i_period i_scale]. cbn [length] in Hch.
        assert (A0 : accu_is (fs ch) accu) by (specialize (A 0%nat accu eq_refl); now rewrite Nat.add_0_r in A).
        destruct (itf_frames_ok ch frames (fs ch) [] accu A0) as (calc & accu' & E & A' & C & C0).
        { intros fr Hfr. rewrite W by exact Hfr. lia. }
        rewrite <- HF, E. cbn [bind]. fold (new ch) in A'.
        assert (R : mem_read calc 0 period = Ok (map (fun i => overlap_add hop (new ch)
                       ((length (new ch) - 1) * hop + i)) (seq 0%nat period))).
        { destruct frames as [|fr frames].
          - rewrite C0 by reflexivity. cbn [length] in HF. subst F. rewrite HP. reflexivity.
          - rewrite C by congruence. rewrite mem_read_Ok by (rewrite map_length, seq_length; lia).
            cbn [skipn]. rewrite firstn_tab by lia. f_equal. apply map_ext. intros i. fold (new ch).
            f_equal. unfold new. rewrite app_length, map_length. reflexivity. }
        rewrite R. cbn [bind].
        destruct (IH (Datatypes.S ch) fs) as (accus' & outs & E' & L1 & L2 & A1 & O1); [lia| |].
        { intros j a Hj. specialize (A (Datatypes.S j) a Hj). now rewrite Nat.add_succ_r in A. }
        rewrite HF. rewrite E'. cbn [bind].
        exists (accu' :: accus'), (block_of period scale (new ch) :: outs).
        split; [unfold block_of; rewrite map_map; reflexivity|].
        split; [cbn [length]; lia|]. split; [cbn [length]; lia|]. split.
        + intros [|j] a Hj; cbn [nth_error] in Hj.
          * apply Some_inj in Hj. subst. now rewrite Nat.add_0_r.
          * rewrite Nat.add_succ_r. apply A1, Hj.
        + intros [|j] a Hj; cbn [nth_error] in Hj.
          * apply Some_inj in Hj. subst. now rewrite Nat.add_0_r.
          * rewrite Nat.add_succ_r. apply O1, Hj.
    Qed.

    (** *** Runs *)
    Definition well_formed (channels F : nat) (inputs : list (list (list S))) : Prop :=
      forall x, In x inputs -> length x = F /\ forall fr, In fr x -> length fr = channels.

    Lemma itf_run_ok channels period F scale :
      (period = F * hop)%nat -> (period <= dft)%nat ->
      forall inputs accus (fs : nat -> list S),
      length accus = channels -> well_formed channels F inputs ->
      (forall j a, nth_error accus j = Some a -> accu_is (fs j) a) ->
      exists i outs,
        itf_run radd rmul inverse (Itf channels period dft F hop accus scale) inputs = Ok (i, outs)
        /\ length outs = length inputs
        /\ forall n o, nth_error outs n = Some o -> length o = channels
             /\ forall ch, (ch < channels)%nat ->
                  nth ch o [] = block_of period scale (fs ch ++ channel_frames ch (firstn (Datatypes.S n) inputs)).
    Proof using RT Hh L.
      intros HP HD. induction inputs as [|x inputs IH]; intros accus fs HL W A.
      - cbn [itf_run]. eexists _, []. split; [reflexivity|]. split; [reflexivity|]. intros [|n]; discriminate.
      - cbn [itf_run]. unfold itf_process. cbn [i_accu].
        destruct (W x (or_introl eq_refl)) as [W1 W2].
        destruct (itf_channels_ok channels period F scale x HP HD W1 W2 accus accus 0%nat fs) as
          (accus' & outs & E & L1 & L2 & A1 & O1); [cbn; lia|exact A|].
        cbn [plus] in A1, O1.
        rewrite E. cbn [bind i_channels i_period i_dft i_frames i_hop i_scale].
        destruct (IH accus' (fun c => fs c ++ map (fun fr => nth c fr none) x)) as (i & outs' & E' & L' & O').
        { lia. } { intros y Hy. apply W. now right. } { exact A1. }
        rewrite E'. cbn [bind]. exists i, (outs :: outs'). split; [reflexivity|].
        split; [cbn [length]; lia|]. intros [|n] o Hn; cbn [nth_error] in Hn.
        + apply Some_inj in Hn. subst o. split; [lia|]. intros ch Hch.
          unfold channel_frames. cbn [firstn map concat]. rewrite app_nil_r.
          apply (O1 ch). apply nth_error_nth'. lia.
        + destruct (O' n o Hn) as [LO O2]. split; [exact LO|]. intros ch Hch. rewrite (O2 ch Hch).
          f_equal. unfold channel_frames. cbn [firstn map concat]. now rewrite app_assoc.
    Qed.
  End Inverse.

  Lemma channel_frames_length channels F ch inputs : well_formed channels F inputs ->
    length (channel_frames ch inputs) = (length inputs * F)%nat.
  Proof using inverse.
    intros W. unfold channel_frames. induction inputs as [|x inputs IH]; [reflexivity|].
    cbn [map concat length]. rewrite app_length, map_length, IH by (intros y Hy; apply W; now right).
    rewrite (proj1 (W x (or_introl eq_refl))). lia.
  Qed.
  Lemma channel_frames_split ch n inputs :
    channel_frames ch inputs = channel_frames ch (firstn n inputs) ++ channel_frames ch (skipn n inputs).
  Proof using. unfold channel_frames. rewrite <- concat_app, <- map_app, firstn_skipn. reflexivity. Qed.
End Spec.
