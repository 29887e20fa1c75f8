From Verif Require Import Base Memory CircularBufferModel CircularBufferProofs FlexibleBufferModel.

(** ** Specification *)
Section Spec.
  Context {A : Type} (zero : A) {S : Type} (P ncap nplay : nat).
  Context (flow : S -> list (list A) -> S * list (list A)).

  (** Block [k] of the input streams [X] (one list of samples per channel). *)
  Definition block (X : nat -> list A) (k : nat) : list (list A) :=
    map (fun ch => firstn P (skipn (k * P) (X ch))) (seq 0 ncap).

  (** The flow run on the first [k] consecutive input blocks: final state and
      output streams, which start with one period of zeros. *)
  Fixpoint ideal (s0 : S) (X : nat -> list A) (k : nat) : S * (nat -> list A) :=
    match k with
    | O => (s0, fun _ => repeat zero P)
    | Datatypes.S k' =>
        let '(s, y) := ideal s0 X k' in
        let '(s', o) := flow s (block X k') in
        (s', fun ch => y ch ++ nth ch o [])
    end.

  (** A well-behaved flow produces one period for each playback channel. *)
  Definition flow_ok : Prop :=
    forall s rows, length rows = ncap -> Forall (fun r => length r = P) rows ->
      length (snd (flow s rows)) = nplay
      /\ Forall (fun r => length r = P) (snd (flow s rows)).
End Spec.

Lemma map_res_seq {A} (f : nat -> res A) (g : nat -> A) n : forall k,
  (forall i, k <= i < k + n -> f i = Ok (g i)) ->
  map_res f (seq k n) = Ok (map g (seq k n)).
Proof.
  induction n as [|n IH]; intros k H; [reflexivity|].
  simpl. rewrite H by lia. cbn [bind]. rewrite IH; [reflexivity|].
  intros i Hi. apply H. lia.
Qed.

Lemma nth_map_seq {A} (g : nat -> A) n i d : i < n -> nth i (map g (seq 0 n)) d = g i.
Proof.
  intros H. rewrite (nth_indep _ d (g 0)) by (rewrite map_length, seq_length; lia).
  rewrite map_nth, seq_nth by lia. reflexivity.
Qed.

Lemma cb_read_inv {A} (zero : A) channels len alloc b h ch d n :
  cb_inv zero channels len alloc b h -> ch < channels -> n <= d <= len ->
  cb_read b ch d n = Ok (firstn n (recent zero d (h ch))).
Proof.
  intros [El Ea Ec Hle Hh Hr] Hch Hd. unfold cb_read. unfold cb_channels in Ec.
  destruct (nth_error_lt (cb_rows b) ch) as [row Er]; [lia|]. rewrite Er.
  unfold read_offset. rewrite Ea.
  destruct (Nat.ltb_spec (alloc + cb_head b) d); [lia|]. cbn [bind].
  apply row_read; [now apply Hr|assumption|lia].
Qed.

Lemma fill_commit_ok {A} (zero : A) channels len alloc b h data n :
  cb_inv zero channels len alloc b h -> n <= len ->
  channels <= length data -> Forall (fun r => n <= length r) data ->
  exists b1 b2, cb_place b data n = Ok b1 /\ cb_commit b1 n = Ok b2
    /\ cb_inv zero channels len alloc b2 (fun ch => h ch ++ firstn n (nth ch data [])).
Proof.
  intros I Hn Hd Hs.
  pose proof (cb_exec_inv zero _ _ _ _ _ (FillCommit data n) I) as H. simpl in H.
  destruct (Nat.leb_spec n len); [|lia].
  destruct H as (b2 & E & I2); [auto|].
  destruct (cb_place b data n) as [b1| |]; simpl in E; try discriminate. eauto.
Qed.

Lemma recent_full {A} (zero : A) d (h : list A) :
  d <= length h -> recent zero d h = skipn (length h - d) h.
Proof.
  intros H. unfold recent. rewrite skipn_app, repeat_length.
  rewrite skipn_all2 by (rewrite repeat_length; lia). reflexivity.
Qed.

Lemma skipn_skipn' {A} (l : list A) a b : skipn a (skipn b l) = skipn (b + a) l.
Proof.
  revert l; induction b as [|b IH]; intros [|x l]; simpl; auto.
  now rewrite skipn_nil.
Qed.

Section Proofs.
  Context {A : Type} (zero : A) {S : Type} (P ncap nplay : nat).
  Context (flow : S -> list (list A) -> S * list (list A)).
  Context (HP : 1 <= P).
  Context (Hflow : flow_ok P ncap nplay flow).
  Context (s0 : S).

  Notation ideal := (ideal zero P ncap flow s0).
  Notation block := (block P ncap).

  Lemma block_ok (X : nat -> list A) k : (forall ch, ch < ncap -> (k + 1) * P <= length (X ch)) ->
    length (block X k) = ncap /\ Forall (fun r => length r = P) (block X k).
  Proof.
    intros H. unfold FlexibleBufferProofs.block. split.
    - now rewrite map_length, seq_length.
    - apply Forall_forall. intros r Hr. apply in_map_iff in Hr as (ch & <- & Hch).
      apply in_seq in Hch. rewrite firstn_length, skipn_length.
      specialize (H ch). lia.
  Qed.

  Lemma block_ext (X Y : nat -> list A) k :
    (forall ch, ch < ncap -> (k + 1) * P <= length (X ch)) ->
    block (fun ch => X ch ++ Y ch) k = block X k.
  Proof.
    intros H. unfold FlexibleBufferProofs.block. apply map_ext_in. intros ch Hch.
    apply in_seq in Hch. specialize (H ch).
    rewrite skipn_app, firstn_app, skipn_length.
    replace (P - (length (X ch) - k * P)) with 0 by lia. simpl. apply app_nil_r.
  Qed.

  Lemma ideal_ext (X Y : nat -> list A) k :
    (forall ch, ch < ncap -> k * P <= length (X ch)) ->
    ideal (fun ch => X ch ++ Y ch) k = ideal X k.
  Proof.
    induction k as [|k IH]; intros H; [reflexivity|].
    simpl. rewrite IH by (intros ch Hch; specialize (H ch Hch); lia).
    destruct (ideal X k) as [s y]. rewrite block_ext; [reflexivity|].
    intros ch Hch; specialize (H ch Hch); lia.
  Qed.

  Lemma ideal_length (X : nat -> list A) k :
    (forall ch, ch < ncap -> k * P <= length (X ch)) ->
    forall ch, ch < nplay -> length (snd (ideal X k) ch) = P + k * P.
  Proof.
    induction k as [|k IH]; intros H ch Hch; simpl.
    - rewrite repeat_length. lia.
    - destruct (ideal X k) as [s y] eqn:E.
      destruct (flow s (block X k)) as [s' o] eqn:F. simpl.
      assert (Hk : forall c, c < ncap -> k * P <= length (X c))
        by (intros c Hc; specialize (H c Hc); lia).
      specialize (IH Hk ch Hch). simpl in IH.
      destruct (block_ok X k) as [B1 B2]; [intros c Hc; specialize (H c Hc); lia|].
      destruct (Hflow s (block X k) B1 B2) as [F1 F2]. rewrite F in F1, F2. simpl in F1, F2.
      rewrite app_length, IH.
      rewrite Forall_forall in F2. rewrite (F2 (nth ch o [])); [lia|].
      apply nth_In. lia.
  Qed.

  Record fb_inv (w : fbw (A:=A) (S:=S)) (X : nat -> list A) (N k : nat) : Prop := {
    fi_N : N = k * P + f_inlvl w;
    fi_lvl : f_inlvl w < P;
    fi_out : f_outlvl w = P - f_inlvl w;
    fi_X : forall ch, ch < ncap -> length (X ch) = N;
    fi_in : cb_inv zero ncap (2 * P) (2 * P) (f_in w) X;
    fi_ob : cb_inv zero nplay (2 * P) (2 * P) (f_out w) (snd (ideal X k));
    fi_state : f_flow w = fst (ideal X k)
  }.

  Lemma fb_new_ok : exists w, fb_new zero P ncap nplay s0 = Ok w /\ fb_inv w (fun _ => []) 0 0.
  Proof.
    unfold fb_new.
    pose proof (cb_new_inv zero nplay (2 * P) 0) as I. rewrite next_aligned_zero_al in I.
    pose proof (cb_exec_inv zero nplay (2 * P) (2 * P) _ _
                  (WriteOp (repeat (repeat zero P) nplay) nplay P) (I ltac:(lia))) as H.
    cbn [accepted caller_ok] in H. rewrite Nat.eqb_refl in H.
    destruct (Nat.leb_spec P (2 * P)); [|lia]. simpl andb in H.
    destruct H as (b & E & I2).
    { intros _. split; [rewrite repeat_length; lia|].
      apply Forall_forall. intros r Hr. apply repeat_spec in Hr. subst.
      rewrite repeat_length. lia. }
    cbn [cb_exec] in E. rewrite E. cbn [bind].
    eexists; split; [reflexivity|]. constructor; cbn [f_in f_out f_inlvl f_outlvl f_flow]; auto; try lia.
    - pose proof (cb_new_inv zero ncap (2 * P) 0 ltac:(lia)) as J.
      rewrite next_aligned_zero_al in J. exact J.
    - destruct I2 as [J1 J2 J3 J4 J5 J6]. constructor; auto.
      intros ch row Hrow. specialize (J6 ch row Hrow). simpl in J6.
      assert (Hch : ch < nplay).
      { unfold cb_channels in J3. rewrite <- J3. apply nth_error_Some. congruence. }
      assert (E1 : nth ch (repeat (repeat zero P) nplay) [] = repeat zero P).
      { apply nth_error_nth. rewrite nth_error_repeat by exact Hch. reflexivity. }
      rewrite E1 in J6.
      rewrite firstn_all2 in J6 by (rewrite repeat_length; lia). exact J6.
  Qed.

  Lemma skipn_prefix (a b : list A) n c :
    n + c <= length a -> firstn c (skipn n (a ++ b)) = firstn c (skipn n a).
  Proof.
    intros H. rewrite skipn_app, firstn_app, skipn_length.
    replace (c - (length a - n)) with 0 by lia. apply app_nil_r.
  Qed.

  Lemma fb_chunk_ok w X N k data c :
    fb_inv w X N k ->
    1 <= c -> f_inlvl w + c <= P ->
    length data = ncap -> Forall (fun r => length r = c) data ->
    let X' := fun ch => X ch ++ nth ch data [] in
    exists w' k',
      fb_chunk P ncap nplay flow w data c
        = Ok (w', map (fun ch => firstn c (skipn N (snd (ideal X' k') ch))) (seq 0 nplay))
      /\ fb_inv w' X' (N + c) k' /\ k <= k'.
  Proof.
    intros [EN Hl Eo EX Iin Iob Es] Hc Hlc Hd Hf X'.
    assert (Hf' : Forall (fun r => c <= length r) data)
      by (eapply Forall_impl; [|exact Hf]; simpl; intros; lia).
    assert (EX' : forall ch, ch < ncap -> length (X' ch) = N + c).
    { intros ch Hch. unfold X'. rewrite app_length, (EX ch Hch). f_equal.
      rewrite Forall_forall in Hf. apply Hf. apply nth_In. lia. }
    destruct (fill_commit_ok zero ncap (2 * P) (2 * P) (f_in w) X data c Iin ltac:(lia) ltac:(lia) Hf')
      as (in1 & in2 & E1 & E2 & Iin2).
    assert (Iin2' : cb_inv zero ncap (2 * P) (2 * P) in2 X').
    { destruct Iin2 as [J1 J2 J3 J4 J5 J6]. constructor; auto.
      intros ch row Hrow. specialize (J6 ch row Hrow). simpl in J6. unfold X'.
      assert (Hch : ch < ncap).
      { unfold cb_channels in J3. rewrite <- J3. apply nth_error_Some. congruence. }
      rewrite firstn_all2 in J6; [exact J6|].
      rewrite Forall_forall in Hf. rewrite (Hf (nth ch data [])); [lia|]. apply nth_In. lia. }
    assert (Ext : ideal X' k = ideal X k).
    { apply ideal_ext. intros ch Hch. rewrite (EX ch Hch). lia. }
    unfold fb_chunk. rewrite E1. cbn [bind]. rewrite E2. cbn [bind].
    destruct (Nat.eqb_spec (f_inlvl w + c) P) as [Ef|Ef].
    - (* a period is complete *)
      assert (Er : read_channels in2 ncap P P = Ok (block X' k)).
      { unfold read_channels, FlexibleBufferProofs.block. apply map_res_seq. intros ch Hch.
        rewrite (cb_read_inv zero _ _ _ _ _ ch P P Iin2') by lia. f_equal. f_equal.
        rewrite recent_full by (rewrite EX' by lia; nia). f_equal. rewrite EX' by lia. lia. }
      rewrite Er. cbn [bind].
      destruct (flow (f_flow w) (block X' k)) as [s' o] eqn:F.
      destruct (block_ok X' k) as [B1 B2]; [intros ch Hch; rewrite EX' by lia; nia|].
      destruct (Hflow (f_flow w) (block X' k) B1 B2) as [F1 F2]. rewrite F in F1, F2.
      simpl in F1, F2.
      destruct (fill_commit_ok zero nplay (2 * P) (2 * P) (f_out w) _ o P Iob)
        as (o1 & o2 & G1 & G2 & Io2); [lia|lia| |].
      { eapply Forall_impl; [|exact F2]; simpl; intros; lia. }
      rewrite G1. cbn [bind]. rewrite G2. cbn [bind f_out f_in f_inlvl f_outlvl f_flow].
      assert (Eid : ideal X' (Datatypes.S k)
                    = (s', fun ch => snd (ideal X k) ch ++ nth ch o [])).
      { simpl. rewrite Ext. rewrite Es in F. destruct (ideal X k) as [sk yk]. simpl in *.
        rewrite F. reflexivity. }
      assert (Io2' : cb_inv zero nplay (2 * P) (2 * P) o2 (snd (ideal X' (Datatypes.S k)))).
      { rewrite Eid. cbn [snd]. destruct Io2 as [J1 J2 J3 J4 J5 J6]. constructor; auto.
        intros ch row Hrow. specialize (J6 ch row Hrow). simpl in J6.
        assert (Hch : ch < nplay).
        { unfold cb_channels in J3. rewrite <- J3. apply nth_error_Some. congruence. }
        rewrite firstn_all2 in J6; [exact J6|].
        rewrite Forall_forall in F2. rewrite (F2 (nth ch o [])); [lia|]. apply nth_In. lia. }
      assert (Eread : read_channels o2 nplay (f_outlvl w + P) c
        = Ok (map (fun ch => firstn c (skipn N (snd (ideal X' (Datatypes.S k)) ch))) (seq 0 nplay))).
      { unfold read_channels. apply map_res_seq. intros ch Hch.
        rewrite (cb_read_inv zero _ _ _ _ _ ch (f_outlvl w + P) c Io2') by lia. f_equal. f_equal.
        assert (Hlen : length (snd (ideal X' (Datatypes.S k)) ch) = P + Datatypes.S k * P).
        { apply ideal_length; [|lia]. intros c' Hc'. rewrite EX' by lia. nia. }
        rewrite recent_full by (rewrite Hlen; nia). f_equal. rewrite Hlen. nia. }
      rewrite Eread. cbn [bind].
      eexists _, (Datatypes.S k). split; [reflexivity|]. split; [|lia].
      constructor; cbn [f_in f_out f_inlvl f_outlvl f_flow]; auto; try nia.
      rewrite Eid. reflexivity.
    - cbn [bind f_out f_in f_inlvl f_outlvl f_flow].
      assert (Eread : read_channels (f_out w) nplay (f_outlvl w) c
        = Ok (map (fun ch => firstn c (skipn N (snd (ideal X' k) ch))) (seq 0 nplay))).
      { unfold read_channels. apply map_res_seq. intros ch Hch.
        rewrite (cb_read_inv zero _ _ _ _ _ ch (f_outlvl w) c Iob) by lia. f_equal. f_equal.
        assert (Hlen : length (snd (ideal X k) ch) = P + k * P).
        { apply ideal_length; [|lia]. intros c' Hc'. rewrite EX by lia. nia. }
        rewrite recent_full by (rewrite Hlen; nia). rewrite Ext. f_equal. rewrite Hlen. nia. }
      rewrite Eread. cbn [bind].
      eexists _, k. split; [reflexivity|]. split; [|lia].
      constructor; cbn [f_in f_out f_inlvl f_outlvl f_flow]; auto; try nia.
      + rewrite Ext. exact Iob.
      + rewrite Ext. exact Es.
  Qed.

  Lemma fb_inv_k w X N k : fb_inv w X N k -> k = N / P.
  Proof.
    intros [EN Hl _ _ _ _ _]. apply (Nat.div_unique N P k (f_inlvl w)); lia.
  Qed.

  Lemma fb_inv_lvl w X N k : fb_inv w X N k -> f_inlvl w = N mod P.
  Proof.
    intros [EN Hl _ _ _ _ _]. apply (Nat.mod_unique N P k (f_inlvl w)); lia.
  Qed.

  Lemma block_same (X Y : nat -> list A) k : (forall ch, ch < ncap -> X ch = Y ch) -> block X k = block Y k.
  Proof.
    intros H. apply map_ext_in. intros ch Hch. apply in_seq in Hch. rewrite H by lia.
    reflexivity.
  Qed.

  Lemma ideal_same X Y k : (forall ch, ch < ncap -> X ch = Y ch) -> ideal X k = ideal Y k.
  Proof.
    intros H. induction k as [|k IH]; [reflexivity|]. simpl. rewrite IH.
    destruct (ideal Y k). rewrite (block_same X Y k H). reflexivity.
  Qed.

  Lemma fb_inv_same w X Y N k :
    (forall ch, ch < ncap -> X ch = Y ch) -> fb_inv w X N k -> fb_inv w Y N k.
  Proof.
    intros H [EN Hl Eo EX Iin Iob Es]. constructor; auto.
    - intros ch Hch. rewrite <- H by lia. auto.
    - destruct Iin as [J1 J2 J3 J4 J5 J6]. constructor; auto.
      intros ch row Hrow. rewrite <- H; [auto|].
      unfold cb_channels in J3. rewrite <- J3. apply nth_error_Some. congruence.
    - rewrite <- (ideal_same X Y k H). exact Iob.
    - rewrite <- (ideal_same X Y k H). exact Es.
  Qed.

  Lemma ideal_prefix X k k' ch :
    k <= k' -> exists t, snd (ideal X k') ch = snd (ideal X k) ch ++ t.
  Proof.
    induction 1 as [|k' _ [t IH]].
    - exists []. now rewrite app_nil_r.
    - simpl. destruct (ideal X k') as [s y]. destruct (flow s (block X k')) as [s' o]. simpl in *.
      rewrite IH. exists (t ++ nth ch o []). now rewrite app_assoc.
  Qed.

  (** The playback samples produced by a call that adds [n] frames. *)
  Definition answer (X : nat -> list A) (N n : nat) (ch : nat) : list A :=
    firstn n (skipn N (snd (ideal X ((N + n) / P)) ch)).

  Section Call.
    Context {M : Type}.
    Context (rd : nat -> nat -> res (list (list A))).
    Context (wr : M -> nat -> list (list A) -> res M).
    Context (X0 D : nat -> list A) (N0 n : nat).
    Context (HD : forall ch, ch < ncap -> n <= length (D ch)).
    Context (Hrd : forall p c, p + c <= n ->
               rd p c = Ok (map (fun ch => firstn c (skipn p (D ch))) (seq 0 ncap))).

    Let Xf ch := X0 ch ++ firstn n (D ch).
    Let Y := answer Xf N0 n.

    Context (Q : nat -> M -> Prop).
    Context (Hwr : forall p c m, p + c <= n -> Q p m ->
               (N0 mod P + n <= P -> p = 0) ->
               exists m', wr m p (map (fun ch => firstn c (skipn p (Y ch))) (seq 0 nplay)) = Ok m'
                          /\ Q (p + c) m').

    Lemma fb_loop_ok : forall fuel p r w k m,
      p + r = n -> r <= fuel ->
      fb_inv w (fun ch => X0 ch ++ firstn p (D ch)) (N0 + p) k ->
      Q p m ->
      (N0 mod P + n <= P -> p = 0 \/ p = n) ->
      exists w' m', fb_loop P ncap nplay flow rd wr fuel p r w m = Ok (w', m')
        /\ fb_inv w' Xf (N0 + n) ((N0 + n) / P) /\ Q n m'.
    Proof.
      induction fuel as [|fuel IH]; intros p r w k m Hp Hr I HQ Hone.
      - assert (r = 0) by lia. subst r. rewrite Nat.add_0_r in Hp. subst p.
        exists w, m. split; [reflexivity|]. split; [|exact HQ].
        rewrite <- (fb_inv_k _ _ _ _ I). exact I.
      - simpl. destruct (Nat.eqb_spec r 0) as [E0|E0].
        { subst r. rewrite Nat.add_0_r in Hp. subst p.
          exists w, m. split; [reflexivity|]. split; [|exact HQ].
          rewrite <- (fb_inv_k _ _ _ _ I). exact I. }
        pose proof (fi_lvl _ _ _ _ I) as Hl.
        set (c := Nat.min r (P - f_inlvl w)).
        assert (Hc : 1 <= c /\ c <= r /\ f_inlvl w + c <= P) by (unfold c; lia).
        rewrite Hrd by lia. cbn [bind].
        set (data := map (fun ch => firstn c (skipn p (D ch))) (seq 0 ncap)).
        assert (Hd : length data = ncap) by (unfold data; now rewrite map_length, seq_length).
        assert (Hdn : forall ch, ch < ncap -> nth ch data [] = firstn c (skipn p (D ch)))
          by (intros ch Hch; unfold data; now rewrite nth_map_seq).
        assert (Hdf : Forall (fun row => length row = c) data).
        { apply Forall_forall. intros row Hrow. unfold data in Hrow.
          apply in_map_iff in Hrow as (ch & <- & Hch). apply in_seq in Hch.
          rewrite firstn_length, skipn_length. specialize (HD ch). lia. }
        destruct (fb_chunk_ok w _ _ k data c I) as (w' & k' & E & I' & Hk); auto; try lia.
        rewrite E. cbn [bind snd fst].
        (* the new history *)
        assert (HX : forall ch, ch < ncap ->
                  (X0 ch ++ firstn p (D ch)) ++ nth ch data []
                  = X0 ch ++ firstn (p + c) (D ch)).
        { intros ch Hch. rewrite Hdn by lia. rewrite <- app_assoc. f_equal.
          rewrite <- (firstn_skipn p (D ch)) at 3. rewrite firstn_app.
          rewrite firstn_firstn. rewrite firstn_length.
          specialize (HD ch Hch). rewrite (Nat.min_r (p + c) p) by lia.
          rewrite (Nat.min_l p) by lia. f_equal. f_equal. lia. }
        pose proof (fb_inv_same _ _ _ _ _ HX I') as I2.
        replace (N0 + p + c) with (N0 + (p + c)) in I2 by lia.
        (* the produced samples *)
        assert (HY : map (fun ch => firstn c (skipn (N0 + p)
                        (snd (ideal (fun ch0 => (X0 ch0 ++ firstn p (D ch0)) ++ nth ch0 data []) k') ch)))
                       (seq 0 nplay)
                   = map (fun ch => firstn c (skipn p (Y ch))) (seq 0 nplay)).
        { apply map_ext_in. intros ch Hch. apply in_seq in Hch.
          rewrite (ideal_same _ _ k' HX).
          set (Xc := fun ch => X0 ch ++ firstn (p + c) (D ch)).
          assert (Hlen : forall c0, c0 < ncap -> length (Xc c0) = N0 + (p + c))
            by (intros c0 Hc0; apply (fi_X _ _ _ _ I2); lia).
          assert (Ek : k' = (N0 + (p + c)) / P) by (eapply fb_inv_k; exact I2).
          assert (Hkp : k' * P <= N0 + (p + c))
            by (rewrite (fi_N _ _ _ _ I2); lia).
          assert (EXf : ideal Xf k' = ideal Xc k').
          { rewrite <- (ideal_ext Xc (fun ch => skipn (p + c) (firstn n (D ch)))).
            - apply ideal_same. intros c0 Hc0. unfold Xf, Xc. rewrite <- app_assoc. f_equal.
              rewrite <- (firstn_skipn (p + c) (firstn n (D c0))) at 1. f_equal.
              rewrite firstn_firstn. f_equal. lia.
            - intros c0 Hc0. rewrite Hlen by lia. lia. }
          assert (Hkf : k' <= (N0 + n) / P)
            by (rewrite Ek; apply Nat.div_le_mono; lia).
          destruct (ideal_prefix Xf k' ((N0 + n) / P) ch Hkf) as [t Et].
          assert (Hout : length (snd (ideal Xc k') ch) = P + k' * P).
          { apply ideal_length; [|lia]. intros c0 Hc0. rewrite Hlen by lia. lia. }
          unfold Y, answer. rewrite Et, EXf.
          rewrite skipn_firstn_comm, firstn_firstn.
          rewrite (Nat.min_l c) by lia.
          rewrite skipn_skipn'.
          rewrite skipn_prefix; [reflexivity|].
          rewrite Hout. pose proof (fi_N _ _ _ _ I2). pose proof (fi_lvl _ _ _ _ I2). lia. }
        rewrite HY.
        destruct (Hwr p c m) as (m' & Em & Qm); [lia|exact HQ| |].
        { intros H. destruct (Hone H); [assumption|lia]. }
        rewrite Em. cbn [bind].
        apply (IH (p + c) (r - c) w' k' m'); auto; try lia.
        intros H. destruct (Hone H) as [->|]; [|lia]. right.
        pose proof (fb_inv_lvl _ _ _ _ I). rewrite Nat.add_0_r in H0.
        unfold c. lia.
    Qed.
  End Call.
End Proofs.
