(** Whole sessions of the FlexibleBufferWrapper: both overloads. *)
From Verif Require Import Base Memory CircularBufferModel CircularBufferProofs
  FlexibleBufferModel FlexibleBufferProofs.

Lemma firstn_plus {A} (l : list A) a b : firstn (a + b) l = firstn a l ++ firstn b (skipn a l).
Proof.
  revert l; induction a as [|a IH]; intros l; [reflexivity|].
  destruct l as [|x l]; simpl; [now rewrite firstn_nil|]. now rewrite IH.
Qed.

Section Session.
  Context {A : Type} (zero : A) {S : Type} (P ncap nplay : nat).
  Context (flow : S -> list (list A) -> S * list (list A)).
  Local Open Scope res_scope.

  (** One process() call: capture arrays, playback arrays before, frame count. *)
  Record call := MkCall { c_cap : list (list A); c_play : list (list A); c_n : nat }.

  (** The caller provides the promised number of channels and samples. *)
  Definition call_ok (c : call) : Prop :=
    ncap <= length (c_cap c) /\ Forall (fun r => c_n c <= length r) (c_cap c)
    /\ length (c_play c) = nplay /\ Forall (fun r => c_n c <= length r) (c_play c).

  Fixpoint fb_session (w : fbw (A:=A) (S:=S)) (cs : list call)
    : res (fbw (A:=A) (S:=S) * list (list (list A))) :=
    match cs with
    | [] => Ok (w, [])
    | c :: r =>
        wo <- fb_process P ncap nplay flow w (c_cap c) (c_play c) (c_n c) ;;
        rest <- fb_session (fst wo) r ;;
        Ok (fst rest, snd wo :: snd rest)
    end.

  (** The capture stream of a channel over a session, and the number of frames. *)
  Definition captured (cs : list call) (ch : nat) : list A :=
    concat (map (fun c => firstn (c_n c) (nth ch (c_cap c) [])) cs).
  Definition frames (cs : list call) : nat := list_sum (map c_n cs).

  (** The playback stream of a channel. *)
  Definition played (cs : list call) (outs : list (list (list A))) (ch : nat) : list A :=
    concat (map (fun co => firstn (c_n (fst co)) (nth ch (snd co) [])) (combine cs outs)).

  (** Playback memory beyond the requested frames is left alone. *)
  Definition rest_untouched (c : call) (out : list (list A)) : Prop :=
    length out = nplay /\ forall ch, ch < nplay ->
      length (nth ch out []) = length (nth ch (c_play c) [])
      /\ skipn (c_n c) (nth ch out []) = skipn (c_n c) (nth ch (c_play c) []).

  Context (HP : 1 <= P) (Hflow : flow_ok P ncap nplay flow) (s0 : S).

  Notation ideal := (ideal zero P ncap flow s0).
  Notation fb_inv := (fb_inv zero P ncap nplay flow s0).
  Notation answer := (answer zero P ncap flow s0).

  Lemma rd_ptr_ok (cap : list (list A)) n p c :
    ncap <= length cap -> Forall (fun r => n <= length r) cap -> p + c <= n ->
    rd_ptr ncap cap p c = Ok (map (fun ch => firstn c (skipn p (nth ch cap []))) (seq 0 ncap)).
  Proof.
    intros Hl Hf Hp. unfold rd_ptr. apply map_res_seq. intros ch Hch.
    destruct (nth_error_lt cap ch) as [arr E]; [lia|]. rewrite E.
    rewrite (nth_error_nth _ _ _ E). unfold mem_read.
    rewrite Forall_forall in Hf. specialize (Hf arr (nth_error_In _ _ E)).
    destruct (Nat.leb_spec (p + c) (length arr)); [reflexivity|lia].
  Qed.

  (** The playback arrays after [p] frames have been stored. *)
  Definition stored (play : list (list A)) (Y : nat -> list A) (p : nat) (m : list (list A)) : Prop :=
    length m = length play /\ forall ch, ch < length play ->
      nth ch m [] = firstn p (Y ch) ++ skipn p (nth ch play []).

  Lemma write_prefix (row y : list A) p c :
    p + c <= length row -> p + c <= length y ->
    mem_write (firstn p y ++ skipn p row) p (firstn c (skipn p y))
    = Ok (firstn (p + c) y ++ skipn (p + c) row).
  Proof.
    intros Hr Hy.
    assert (Hl : length (firstn c (skipn p y)) = c)
      by (rewrite firstn_length, skipn_length; lia).
    destruct (mem_write_ok (firstn p y ++ skipn p row) p (firstn c (skipn p y)))
      as (l' & E & Hl' & Hn).
    { rewrite Hl, app_length, firstn_length, skipn_length. lia. }
    rewrite E. f_equal. apply nth_error_ext. intros i. rewrite Hn, Hl.
    destruct (Nat.leb_spec p i); simpl.
    - destruct (Nat.ltb_spec i (p + c)).
      + rewrite nth_error_firstn. destruct (Nat.ltb_spec (i - p) c); [|lia].
        rewrite nth_error_skipn. rewrite nth_error_app1 by (rewrite firstn_length; lia).
        rewrite nth_error_firstn. destruct (Nat.ltb_spec i (p + c)); [|lia].
        f_equal. lia.
      + rewrite !nth_error_app2 by (rewrite firstn_length; lia).
        rewrite !nth_error_skipn, !firstn_length. f_equal. lia.
    - rewrite !nth_error_app1 by (rewrite firstn_length; lia).
      rewrite !nth_error_firstn.
      destruct (Nat.ltb_spec i p), (Nat.ltb_spec i (p + c)); try lia. reflexivity.
  Qed.

  Lemma wr_ptr_ok play Y n p c m :
    length play = nplay -> Forall (fun r => n <= length r) play -> p + c <= n ->
    (forall ch, ch < nplay -> length (Y ch) = n) ->
    stored play Y p m ->
    exists m', wr_ptr m p (map (fun ch => firstn c (skipn p (Y ch))) (seq 0 nplay)) = Ok m'
               /\ stored play Y (p + c) m'.
  Proof.
    intros Hl Hf Hp HY [Hm Hs]. unfold wr_ptr. rewrite map_length, seq_length, Hm, Hl, Nat.eqb_refl.
    rewrite Forall_forall in Hf.
    assert (Hrow : forall i x y,
      nth_error m i = Some x ->
      nth_error (map (fun ch => firstn c (skipn p (Y ch))) (seq 0 nplay)) i = Some y ->
      mem_write x p y = Ok (firstn (p + c) (Y i) ++ skipn (p + c) (nth i play []))).
    { intros i x y Ex Ey.
      assert (Hi : i < nplay) by (rewrite <- Hl, <- Hm; apply nth_error_Some; congruence).
      apply (nth_error_nth _ _ []) in Ex. apply (nth_error_nth _ _ []) in Ey.
      rewrite nth_map_seq in Ey by exact Hi. subst x y.
      rewrite Hs by lia. apply write_prefix; [|rewrite HY; lia].
      specialize (Hf (nth i play [])). rewrite <- Hl in Hi.
      specialize (Hf (nth_In _ _ Hi)). lia. }
    destruct (map2_res_ok (fun arr row => mem_write arr p row) m
                (map (fun ch => firstn c (skipn p (Y ch))) (seq 0 nplay))) as (m' & E & L & Hn).
    { rewrite map_length, seq_length. lia. }
    { intros i x y Ex Ey. eexists. exact (Hrow _ _ _ Ex Ey). }
    exists m'. split; [exact E|]. split; [lia|].
    intros ch Hch.
    destruct (nth_error_lt m ch) as [x Ex]; [lia|].
    destruct (nth_error_lt (map (fun ch => firstn c (skipn p (Y ch))) (seq 0 nplay)) ch) as [y Ey];
      [rewrite map_length, seq_length; lia|].
    specialize (Hn _ _ _ Ex Ey). destruct Hn as (z & Ez & Hz).
    rewrite (Hrow _ _ _ Ex Ey) in Hz. injection Hz as <-.
    apply (nth_error_nth _ _ []) in Ez. exact Ez.
  Qed.

  Lemma answer_length X N n ch :
    (forall c, c < ncap -> length (X c) = N + n) -> ch < nplay -> length (answer X N n ch) = n.
  Proof.
    intros HX Hch. unfold FlexibleBufferProofs.answer.
    pose proof (Nat.div_mod (N + n) P ltac:(lia)).
    pose proof (Nat.mod_upper_bound (N + n) P ltac:(lia)).
    rewrite firstn_length, skipn_length.
    rewrite (ideal_length zero P ncap nplay flow HP Hflow s0) by (auto; intros c Hc; rewrite HX; nia).
    nia.
  Qed.

  Lemma fb_process_ok w X N k c :
    fb_inv w X N k -> call_ok c ->
    let X' := fun ch => X ch ++ firstn (c_n c) (nth ch (c_cap c) []) in
    exists w' out, fb_process P ncap nplay flow w (c_cap c) (c_play c) (c_n c) = Ok (w', out)
      /\ fb_inv w' X' (N + c_n c) ((N + c_n c) / P)
      /\ length out = nplay
      /\ forall ch, ch < nplay -> nth ch out [] = answer X' N (c_n c) ch ++ skipn (c_n c) (nth ch (c_play c) []).
  Proof.
    intros I (H1 & H2 & H3 & H4) X'.
    assert (HX' : forall ch, ch < ncap -> length (X' ch) = N + c_n c).
    { intros ch Hch. unfold X'. rewrite app_length, (fi_X _ _ _ _ _ _ _ _ _ _ I ch Hch). f_equal.
      rewrite firstn_length. rewrite Forall_forall in H2.
      specialize (H2 (nth ch (c_cap c) []) (nth_In _ _ (Nat.lt_le_trans _ _ _ Hch H1))). lia. }
    destruct (fb_loop_ok zero P ncap nplay flow HP Hflow s0
                (rd_ptr ncap (c_cap c)) wr_ptr X (fun ch => nth ch (c_cap c) []) N (c_n c))
      with (Q := stored (c_play c) (answer X' N (c_n c)))
           (fuel := c_n c) (p := 0) (r := c_n c) (w := w) (k := k) (m := c_play c)
      as (w' & out & E & I' & Q'); auto.
    - intros ch Hch. rewrite Forall_forall in H2. apply H2. apply nth_In. lia.
    - intros p q Hp. eapply rd_ptr_ok; eauto.
    - intros p q m Hp HQ _. eapply wr_ptr_ok; eauto.
      intros ch Hch. now apply answer_length.
    - rewrite Nat.add_0_r. eapply fb_inv_same; [exact HP| |exact I].
      intros ch Hch. simpl. now rewrite app_nil_r.
    - split; [reflexivity|]. reflexivity.
    - exists w', out. split; [exact E|]. split; [exact I'|].
      destruct Q' as [L Q']. split; [lia|]. intros ch Hch. rewrite Q' by lia.
      f_equal. apply firstn_all2. rewrite answer_length; auto.
  Qed.

  Lemma fb_session_ok : forall cs w X N k,
    fb_inv w X N k -> Forall call_ok cs ->
    let X' := fun ch => X ch ++ captured cs ch in
    let N' := N + frames cs in
    exists w' outs, fb_session w cs = Ok (w', outs)
      /\ fb_inv w' X' N' (N' / P)
      /\ Forall2 rest_untouched cs outs
      /\ forall ch, ch < nplay ->
           played cs outs ch = firstn (frames cs) (skipn N (snd (ideal X' (N' / P)) ch)).
  Proof.
    induction cs as [|c cs IH]; intros w X N k I Hok.
    - exists w, []. simpl. split; [reflexivity|]. split.
      + unfold frames; simpl. rewrite Nat.add_0_r. rewrite <- (fb_inv_k _ _ _ _ _ HP _ _ _ _ _ I).
        eapply fb_inv_same; [exact HP| |exact I]. intros ch Hch. unfold captured; simpl. now rewrite app_nil_r.
      + split; [constructor|]. intros ch Hch. reflexivity.
    - inversion Hok as [|? ? Hc Hcs]; subst.
      destruct (fb_process_ok w X N k c I Hc) as (w1 & o & E & I1 & L & Ho).
      destruct (IH w1 _ _ _ I1 Hcs) as (w2 & outs & E2 & I2 & Hr & Hpl).
      assert (HX : forall ch, (X ch ++ firstn (c_n c) (nth ch (c_cap c) [])) ++ captured cs ch
                         = X ch ++ captured (c :: cs) ch)
        by (intros; unfold captured; simpl; now rewrite app_assoc).
      assert (HN : N + c_n c + frames cs = N + frames (c :: cs))
        by (unfold frames; simpl; lia).
      rewrite HN in I2. rewrite HN in Hpl.
      exists w2, (o :: outs). simpl. rewrite E. cbn [bind fst snd]. rewrite E2. cbn [bind fst snd].
      split; [reflexivity|]. split; [|split].
      + eapply fb_inv_same; [exact HP| |exact I2]. intros ch Hch. simpl. apply HX.
      + constructor; [|exact Hr].
        destruct Hc as (C1 & C2 & C3 & C4). split; [exact L|]. intros ch Hch.
        rewrite (Ho ch Hch).
        assert (Hal : length (answer (fun ch0 => X ch0 ++ firstn (c_n c) (nth ch0 (c_cap c) [])) N (c_n c) ch) = c_n c).
        { apply answer_length; [|exact Hch]. intros c0 Hc0.
          apply (fi_X _ _ _ _ _ _ _ _ _ _ I1 c0 Hc0). }
        rewrite Forall_forall in C4.
        assert (Hpl' : c_n c <= length (nth ch (c_play c) []))
          by (apply C4; apply nth_In; lia).
        split.
        * rewrite app_length, Hal, skipn_length. lia.
        * rewrite skipn_app, Hal, Nat.sub_diag. simpl.
          rewrite skipn_all2 by lia. reflexivity.
      + intros ch Hch. unfold played. simpl. fold (played cs outs ch).
        assert (Hpl2 : played cs outs ch = firstn (frames cs) (skipn (N + c_n c)
                  (snd (ideal (fun ch0 => X ch0 ++ captured (c :: cs) ch0) ((N + frames (c :: cs)) / P)) ch))).
        { rewrite (Hpl ch Hch). cbv zeta.
          rewrite (ideal_same zero P ncap flow HP s0 _ _ ((N + frames (c :: cs)) / P)
                     (fun ch0 (_ : ch0 < ncap) => HX ch0)). reflexivity. }
        rewrite (Ho ch Hch), Hpl2.
        set (Xa := fun ch0 => X ch0 ++ firstn (c_n c) (nth ch0 (c_cap c) [])) in *.
        set (Nf := N + frames (c :: cs)) in *.
        assert (Eid : ideal (fun ch0 => Xa ch0 ++ captured cs ch0) (Nf / P)
                      = ideal (fun ch0 => X ch0 ++ captured (c :: cs) ch0) (Nf / P)).
        { apply ideal_same; [exact HP|]. intros c0 _. apply HX. }
        assert (Hal : length (answer Xa N (c_n c) ch) = c_n c).
        { apply answer_length; [|exact Hch]. intros c0 Hc0.
          apply (fi_X _ _ _ _ _ _ _ _ _ _ I1 c0 Hc0). }
        rewrite firstn_app, Hal, Nat.sub_diag, firstn_all2 by lia. simpl. rewrite app_nil_r.
        (* the first part is a prefix of the final stream *)
        assert (Ea : answer Xa N (c_n c) ch
                = firstn (c_n c) (skipn N (snd (ideal (fun ch0 => X ch0 ++ captured (c :: cs) ch0) (Nf / P)) ch))).
        { rewrite <- Eid.
          destruct (ideal_prefix zero P ncap flow s0 (fun ch0 => Xa ch0 ++ captured cs ch0)
                      ((N + c_n c) / P) (Nf / P) ch) as [t Et].
          { apply Nat.div_le_mono; [lia|]. unfold Nf, frames; simpl; lia. }
          assert (Hk : forall c0, c0 < ncap -> (N + c_n c) / P * P <= length (Xa c0)).
          { intros c0 Hc0. rewrite (fi_X _ _ _ _ _ _ _ _ _ _ I1 c0 Hc0).
            pose proof (Nat.div_mod (N + c_n c) P ltac:(lia)). lia. }
          rewrite Et, (ideal_ext zero P ncap flow HP s0) by exact Hk.
          unfold FlexibleBufferProofs.answer.
          rewrite (skipn_prefix P HP); [reflexivity|].
          rewrite (ideal_length zero P ncap nplay flow HP Hflow s0) by auto.
          pose proof (Nat.div_mod (N + c_n c) P ltac:(lia)).
          pose proof (Nat.mod_upper_bound (N + c_n c) P ltac:(lia)). lia. }
        rewrite Ea.
        assert (Ef : frames (c :: cs) = c_n c + frames cs) by reflexivity.
        rewrite Ef. rewrite firstn_plus, skipn_skipn'. reflexivity.
  Qed.

  Lemma fb_total cs :
    Forall call_ok cs ->
    exists w0 w outs, fb_new zero P ncap nplay s0 = Ok w0 /\ fb_session w0 cs = Ok (w, outs)
      /\ Forall2 rest_untouched cs outs
      /\ f_flow w = fst (ideal (captured cs) (frames cs / P))
      /\ forall ch, ch < nplay ->
           played cs outs ch = firstn (frames cs) (snd (ideal (captured cs) (frames cs / P)) ch).
  Proof.
    intros H. destruct (fb_new_ok zero P ncap nplay flow HP s0) as (w0 & E0 & I0).
    destruct (fb_session_ok cs w0 _ _ _ I0 H) as (w & outs & E & I & R & Hp).
    exists w0, w, outs. split; [exact E0|]. split; [exact E|]. split; [exact R|].
    split; [exact (fi_state _ _ _ _ _ _ _ _ _ _ I)|exact Hp].
  Qed.

  (** ** Strided overload *)
  Fixpoint apply_writes (mem : list A) (ws : list (nat * A)) : res (list A) :=
    match ws with
    | [] => Ok mem
    | (a, v) :: r => mem' <- mem_write mem a [v] ;; apply_writes mem' r
    end.

  Lemma apply_writes_app ws1 ws2 mem :
    apply_writes mem (ws1 ++ ws2) = (m <- apply_writes mem ws1 ;; apply_writes m ws2).
  Proof.
    revert mem; induction ws1 as [|[a v] r IH]; intros mem; simpl; [reflexivity|].
    destruct (mem_write mem a [v]); simpl; auto.
  Qed.

  Lemma apply_writes_ok ws : forall mem,
    (forall a v, In (a, v) ws -> a < length mem) ->
    (forall a v v', In (a, v) ws -> In (a, v') ws -> v = v') ->
    exists mem', apply_writes mem ws = Ok mem' /\ length mem' = length mem
      /\ (forall a v, In (a, v) ws -> nth_error mem' a = Some v)
      /\ (forall a, (forall v, ~ In (a, v) ws) -> nth_error mem' a = nth_error mem a).
  Proof.
    induction ws as [|[a v] r IH]; intros mem Hb Hc; simpl.
    - exists mem. repeat split; auto. intros ? ? [].
    - destruct (mem_write_ok mem a [v]) as (m1 & E & L & Hn).
      { specialize (Hb a v (or_introl eq_refl)). simpl. lia. }
      rewrite E. cbn [bind].
      destruct (IH m1) as (m2 & E2 & L2 & W & U).
      { intros a' v' Hin. rewrite L. eapply Hb. right; eassumption. }
      { intros a' v1 v2 H1 H2. eapply Hc; right; eassumption. }
      exists m2. split; [exact E2|]. split; [lia|]. split.
      + intros a' v' [Heq|Hin]; [|now apply W].
        injection Heq as <- <-.
        destruct (in_dec Nat.eq_dec a (map fst r)) as [Hi|Hi].
        * apply in_map_iff in Hi as ([a1 v1] & Ha & Hi). simpl in Ha. subst a1.
          rewrite (W _ _ Hi). f_equal. eapply Hc; [right; exact Hi|left; reflexivity].
        * rewrite U by (intros v' Hv; apply Hi; apply in_map_iff; exists (a, v'); auto).
          rewrite Hn. simpl.
          destruct (Nat.leb_spec a a); [|lia]. destruct (Nat.ltb_spec a (a + 1)); [|lia].
          simpl. now rewrite Nat.sub_diag.
      + intros a' Ha. rewrite U by (intros v' Hv; apply (Ha v'); now right).
        rewrite Hn. simpl.
        destruct (Nat.leb_spec a a'), (Nat.ltb_spec a' (a + 1)); simpl; try reflexivity.
        exfalso. apply (Ha v). left. f_equal; lia.
  Qed.

  Fixpoint row_writes (addr ss : nat) (d : list A) : list (nat * A) :=
    match d with [] => [] | x :: r => (addr, x) :: row_writes (addr + ss) ss r end.

  Fixpoint rows_writes (addr cs ss : nat) (rows : list (list A)) : list (nat * A) :=
    match rows with [] => [] | row :: r => row_writes addr ss row ++ rows_writes (addr + cs) cs ss r end.

  Lemma store_strided_writes ss d : forall mem addr,
    store_strided mem addr ss d = apply_writes mem (row_writes addr ss d).
  Proof.
    induction d as [|x d IH]; intros mem addr; [reflexivity|]. simpl.
    destruct (mem_write mem addr [x]); simpl; auto.
  Qed.

  Lemma wr_rows_writes cs ss rows : forall mem addr,
    wr_rows mem addr cs ss rows = apply_writes mem (rows_writes addr cs ss rows).
  Proof.
    induction rows as [|row rows IH]; intros mem addr; [reflexivity|]. simpl.
    rewrite apply_writes_app, store_strided_writes.
    destruct (apply_writes mem (row_writes addr ss row)); simpl; auto.
  Qed.

  Lemma in_row_writes ss d a v : forall addr,
    In (a, v) (row_writes addr ss d) <-> exists i, nth_error d i = Some v /\ a = addr + i * ss.
  Proof.
    induction d as [|x d IH]; intros addr; simpl.
    - split; [intros []|]. intros ([|i] & H & _); discriminate.
    - rewrite IH. split.
      + intros [E|(i & H & ->)].
        * injection E as -> ->. exists 0. split; [reflexivity|lia].
        * exists (Datatypes.S i). split; [exact H|]. lia.
      + intros ([|i] & H & ->); simpl in H.
        * left. injection H as ->. f_equal. lia.
        * right. exists i. split; [exact H|]. lia.
  Qed.

  Lemma in_rows_writes cs ss rows a v : forall addr,
    In (a, v) (rows_writes addr cs ss rows) <->
    exists ch row i, nth_error rows ch = Some row /\ nth_error row i = Some v
                     /\ a = addr + ch * cs + i * ss.
  Proof.
    induction rows as [|row rows IH]; intros addr; simpl.
    - split; [intros []|]. intros ([|ch] & r & i & H & _); discriminate.
    - rewrite in_app_iff, IH, in_row_writes. split.
      + intros [(i & H & ->)|(ch & r & i & H & Hi & ->)].
        * exists 0, row, i. repeat split; auto; lia.
        * exists (Datatypes.S ch), r, i. repeat split; auto; lia.
      + intros ([|ch] & r & i & H & Hi & ->); simpl in H.
        * left. injection H as ->. exists i. split; [exact Hi|lia].
        * right. exists ch, r, i. repeat split; auto; lia.
  Qed.

  (** Where the strided layout puts sample [i] of channel [ch]. *)
  Definition slot (cs ss ch i : nat) : nat := ch * cs + i * ss.

  (** A usable layout: in bounds, no two samples share a slot. *)
  Definition layout_ok (channels n cs ss size : nat) : Prop :=
    (forall ch i, ch < channels -> i < n -> slot cs ss ch i < size)
    /\ (forall ch i ch' i', ch < channels -> i < n -> ch' < channels -> i' < n ->
          slot cs ss ch i = slot cs ss ch' i' -> ch = ch' /\ i = i').

  (** Samples of channel [ch] taken from a strided memory. *)
  Definition gather (mem : list A) (cs ss n ch : nat) : list A :=
    map (fun i => nth (slot cs ss ch i) mem zero) (seq 0 n).

  Lemma firstn_skipn_seq p c n : p + c <= n -> firstn c (skipn p (seq 0 n)) = seq p c.
  Proof.
    intros H. replace n with (p + (c + (n - p - c))) by lia.
    rewrite seq_app, skipn_app, seq_length, Nat.sub_diag.
    rewrite skipn_all2 by (rewrite seq_length; lia). simpl.
    rewrite seq_app, firstn_app, seq_length, Nat.sub_diag.
    rewrite firstn_all2 by (rewrite seq_length; lia). simpl. apply app_nil_r.
  Qed.

  Lemma rd_strided_ok cap cs ss n p c :
    (forall ch i, ch < ncap -> i < n -> slot cs ss ch i < length cap) -> p + c <= n ->
    rd_strided ncap cap cs ss p c
    = Ok (map (fun ch => firstn c (skipn p (gather cap cs ss n ch))) (seq 0 ncap)).
  Proof.
    intros Hb Hp. unfold rd_strided. apply map_res_seq. intros ch Hch. simpl in Hch.
    unfold gather. rewrite skipn_map, firstn_map, firstn_skipn_seq by lia.
    rewrite (map_res_seq _ (fun i => nth (slot cs ss ch (p + i)) cap zero)).
    - f_equal. rewrite <- (map_map (fun i => p + i) (fun i => nth (slot cs ss ch i) cap zero)).
      f_equal. clear. revert p. induction c as [|c IH]; intros p; [reflexivity|].
      simpl. rewrite Nat.add_0_r. f_equal. rewrite <- (IH (Datatypes.S p)).
      rewrite <- seq_shift, map_map. apply map_ext. intros; lia.
    - intros i Hi.
      assert (E : p * ss + ch * cs + i * ss = slot cs ss ch (p + i)) by (unfold slot; lia).
      rewrite E. destruct (nth_error_lt cap (slot cs ss ch (p + i))) as [x Ex].
      { apply Hb; lia. }
      rewrite Ex. f_equal. symmetry. now apply nth_error_nth.
  Qed.

  Definition strided_stored (play : list A) cs ss (Y : nat -> list A) p (m : list A) : Prop :=
    length m = length play
    /\ (forall ch i, ch < nplay -> i < p ->
          nth_error m (slot cs ss ch i) = nth_error (Y ch) i)
    /\ (forall a, (forall ch i, ch < nplay -> i < p -> slot cs ss ch i <> a) ->
          nth_error m a = nth_error play a).

  Lemma wr_strided_ok play cs ss Y n p c m :
    layout_ok nplay n cs ss (length play) -> p + c <= n ->
    (forall ch, ch < nplay -> length (Y ch) = n) ->
    p = 0 \/ ss = 1 ->
    strided_stored play cs ss Y p m ->
    exists m', wr_strided cs ss m p (map (fun ch => firstn c (skipn p (Y ch))) (seq 0 nplay)) = Ok m'
               /\ strided_stored play cs ss Y (p + c) m'.
  Proof.
    intros [Hb Hinj] Hp HY Hps (L & Hw & Hu). unfold wr_strided. rewrite wr_rows_writes.
    set (rows := map (fun ch => firstn c (skipn p (Y ch))) (seq 0 nplay)).
    assert (Hin : forall a v, In (a, v) (rows_writes p cs ss rows) <->
              exists ch i, ch < nplay /\ p <= i < p + c /\ a = slot cs ss ch i
                           /\ nth_error (Y ch) i = Some v).
    { intros a v. rewrite in_rows_writes. split.
      - intros (ch & row & i & Er & Ei & ->).
        assert (Hch : ch < nplay).
        { replace nplay with (length rows) by (unfold rows; now rewrite map_length, seq_length).
          apply nth_error_Some. congruence. }
        apply (nth_error_nth _ _ []) in Er. unfold rows in Er. rewrite nth_map_seq in Er by exact Hch.
        subst row. rewrite nth_error_firstn in Ei. destruct (Nat.ltb_spec i c); [|discriminate].
        rewrite nth_error_skipn in Ei. exists ch, (p + i). repeat split; try lia; auto.
        unfold slot. destruct Hps as [->| ->]; lia.
      - intros (ch & i & Hch & Hi & -> & Ev).
        exists ch, (firstn c (skipn p (Y ch))), (i - p). split; [|split].
        + unfold rows. rewrite nth_error_map.
          rewrite (nth_error_nth' _ 0) by (rewrite seq_length; lia).
          rewrite seq_nth by lia. reflexivity.
        + rewrite nth_error_firstn. destruct (Nat.ltb_spec (i - p) c); [|lia].
          rewrite nth_error_skipn. replace (p + (i - p)) with i by lia. exact Ev.
        + unfold slot. destruct Hps as [->| ->]; lia. }
    destruct (apply_writes_ok (rows_writes p cs ss rows) m) as (m' & E & L' & W & U).
    - intros a v H. apply Hin in H as (ch & i & Hch & Hi & -> & _). rewrite L. apply Hb; lia.
    - intros a v v' H H'. apply Hin in H as (ch & i & Hch & Hi & -> & E1).
      apply Hin in H' as (ch' & i' & Hch' & Hi' & Es & E2).
      apply Hinj in Es as [-> ->]; try lia. congruence.
    - exists m'. split; [exact E|]. split; [lia|]. split.
      + intros ch i Hch Hi. destruct (Nat.lt_ge_cases i p) as [Hip|Hip].
        * rewrite U; [now apply Hw|]. intros v H.
          apply Hin in H as (ch' & i' & Hch' & Hi' & Es & _).
          apply Hinj in Es; lia.
        * destruct (nth_error_lt (Y ch) i) as [v Ev]; [rewrite HY; lia|]. rewrite Ev.
          apply W. apply Hin. exists ch, i. repeat split; auto; lia.
      + intros a Ha. rewrite U.
        * apply Hu. intros ch i Hch Hi. apply Ha; lia.
        * intros v H. apply Hin in H as (ch & i & Hch & Hi & -> & _).
          apply (Ha ch i); [lia|lia|reflexivity].
  Qed.

  Lemma fb_strided_ok w X N k cap ccs css play pcs pss n :
    fb_inv w X N k ->
    (forall ch i, ch < ncap -> i < n -> slot ccs css ch i < length cap) ->
    layout_ok nplay n pcs pss (length play) ->
    pss = 1 \/ N mod P + n <= P ->
    let X' := fun ch => X ch ++ gather cap ccs css n ch in
    exists w' out, fb_process_strided P ncap nplay flow w cap ccs css play pcs pss n = Ok (w', out)
      /\ fb_inv w' X' (N + n) ((N + n) / P)
      /\ strided_stored play pcs pss (answer X' N n) n out.
  Proof.
    intros I Hc Hl Hs X'.
    assert (Hg : forall ch, length (gather cap ccs css n ch) = n)
      by (intros; unfold gather; now rewrite map_length, seq_length).
    assert (Hfg : forall ch, X ch ++ firstn n (gather cap ccs css n ch) = X' ch)
      by (intros ch; unfold X'; rewrite firstn_all2; [reflexivity|rewrite Hg; lia]).
    assert (HX' : forall ch, ch < ncap -> length (X' ch) = N + n).
    { intros ch Hch. unfold X'. rewrite app_length, Hg, (fi_X _ _ _ _ _ _ _ _ _ _ I ch Hch). lia. }
    set (Xg := fun ch => X ch ++ firstn n (gather cap ccs css n ch)).
    assert (Ea : forall ch, answer Xg N n ch = answer X' N n ch).
    { intros ch. unfold FlexibleBufferProofs.answer.
      rewrite (ideal_same zero P ncap flow HP s0 Xg X'); [reflexivity|]. intros c _. apply Hfg. }
    destruct (fb_loop_ok zero P ncap nplay flow HP Hflow s0
                (rd_strided ncap cap ccs css) (wr_strided pcs pss) X (gather cap ccs css n) N n)
      with (Q := strided_stored play pcs pss (answer Xg N n))
           (fuel := n) (p := 0) (r := n) (w := w) (k := k) (m := play)
      as (w' & out & E & I' & Q'); auto.
    - intros ch Hch. rewrite Hg. lia.
    - intros p q Hp. eapply rd_strided_ok; eauto.
    - intros p q m Hp HQ Hone. eapply wr_strided_ok; eauto.
      + intros ch Hch. rewrite Ea. now apply answer_length.
      + destruct Hs as [Hs|Hs]; [now right|left; auto].
    - rewrite Nat.add_0_r. eapply fb_inv_same; [exact HP| |exact I].
      intros ch Hch. simpl. now rewrite app_nil_r.
    - split; [reflexivity|]. split; [intros; lia|reflexivity].
    - exists w', out. split; [exact E|]. split.
      + eapply fb_inv_same; [exact HP| |exact I']. intros ch _. apply Hfg.
      + destruct Q' as (Q1 & Q2 & Q3). split; [exact Q1|]. split; [|exact Q3].
        intros ch i Hch Hi. rewrite Q2 by lia. now rewrite Ea.
  Qed.

  Lemma frames_captured cs ch : Forall call_ok cs -> ch < ncap -> length (captured cs ch) = frames cs.
  Proof.
    intros H Hch. induction H as [|c cs (H1 & H2 & _) _ IH]; [reflexivity|].
    unfold captured, frames in *. simpl. rewrite app_length, IH, firstn_length.
    rewrite Forall_forall in H2. specialize (H2 (nth ch (c_cap c) [])).
    assert (In (nth ch (c_cap c) []) (c_cap c)) by (apply nth_In; lia). specialize (H2 H). lia.
  Qed.

  (** Splitting the same capture streams into calls differently gives the same playback. *)
  Lemma fb_partition_independent cs1 cs2 :
    Forall call_ok cs1 -> Forall call_ok cs2 -> frames cs1 = frames cs2 ->
    (forall ch, ch < ncap -> captured cs1 ch = captured cs2 ch) ->
    exists w0 w1 w2 o1 o2, fb_new zero P ncap nplay s0 = Ok w0
      /\ fb_session w0 cs1 = Ok (w1, o1) /\ fb_session w0 cs2 = Ok (w2, o2)
      /\ forall ch, ch < nplay -> played cs1 o1 ch = played cs2 o2 ch.
  Proof.
    intros H1 H2 Hf Hc.
    destruct (fb_total cs1 H1) as (w0 & w1 & o1 & E0 & E1 & _ & _ & P1).
    destruct (fb_total cs2 H2) as (w0' & w2 & o2 & E0' & E2 & _ & _ & P2).
    rewrite E0 in E0'. injection E0' as <-.
    exists w0, w1, w2, o1, o2. repeat split; auto. intros ch Hch.
    rewrite P1, P2 by exact Hch. rewrite Hf.
    rewrite (ideal_same zero P ncap flow HP s0 _ _ (frames cs2 / P) Hc). reflexivity.
  Qed.

  (** After any session, a strided call against the equivalent pointer call. *)
  Lemma fb_strided_equals_pointer cs cap ccs css play pcs pss n :
    Forall call_ok cs ->
    (forall ch i, ch < ncap -> i < n -> slot ccs css ch i < length cap) ->
    layout_ok nplay n pcs pss (length play) ->
    pss = 1 \/ frames cs mod P + n <= P ->
    exists w0 w outs w1 out1 w2 out2,
      fb_new zero P ncap nplay s0 = Ok w0 /\ fb_session w0 cs = Ok (w, outs)
      /\ fb_process P ncap nplay flow w (map (gather cap ccs css n) (seq 0 ncap))
           (repeat (repeat zero n) nplay) n = Ok (w1, out1)
      /\ fb_process_strided P ncap nplay flow w cap ccs css play pcs pss n = Ok (w2, out2)
      /\ f_flow w1 = f_flow w2
      /\ length out2 = length play
      /\ (forall ch i, ch < nplay -> i < n ->
            nth_error out2 (slot pcs pss ch i) = nth_error (nth ch out1 []) i
            /\ nth_error out2 (slot pcs pss ch i) <> None)
      /\ (forall a, (forall ch i, ch < nplay -> i < n -> slot pcs pss ch i <> a) ->
            nth_error out2 a = nth_error play a).
  Proof.
    intros H Hc Hl Hs.
    destruct (fb_new_ok zero P ncap nplay flow HP s0) as (w0 & E0 & I0).
    destruct (fb_session_ok cs w0 _ _ _ I0 H) as (w & outs & E & I & _ & _).
    simpl in I.
    set (c := MkCall (map (gather cap ccs css n) (seq 0 ncap)) (repeat (repeat zero n) nplay) n).
    assert (Hcok : call_ok c).
    { split; [|split; [|split]]; simpl.
      - rewrite map_length, seq_length. lia.
      - apply Forall_forall. intros r Hr. apply in_map_iff in Hr as (ch & <- & _).
        unfold gather. rewrite map_length, seq_length. lia.
      - apply repeat_length.
      - apply Forall_forall. intros r Hr. apply repeat_spec in Hr. subst. rewrite repeat_length. lia. }
    destruct (fb_process_ok w _ _ _ c I Hcok) as (w1 & out1 & E1 & I1 & L1 & P1).
    destruct (fb_strided_ok w _ _ _ cap ccs css play pcs pss n I Hc Hl Hs)
      as (w2 & out2 & E2 & I2 & Q1 & Q2 & Q3).
    simpl in I1, P1.
    assert (HX : forall ch, ch < ncap ->
       captured cs ch ++ firstn n (nth ch (map (gather cap ccs css n) (seq 0 ncap)) [])
       = captured cs ch ++ gather cap ccs css n ch).
    { intros ch Hch. rewrite nth_map_seq by exact Hch. f_equal. apply firstn_all2.
      unfold gather. rewrite map_length, seq_length. lia. }
    exists w0, w, outs, w1, out1, w2, out2.
    split; [exact E0|]. split; [exact E|]. split; [exact E1|]. split; [exact E2|].
    split; [|split; [exact Q1|split; [|exact Q3]]].
    - rewrite (fi_state _ _ _ _ _ _ _ _ _ _ I1), (fi_state _ _ _ _ _ _ _ _ _ _ I2).
      rewrite (ideal_same zero P ncap flow HP s0 _ _ ((frames cs + n) / P) HX). reflexivity.
    - intros ch i Hch Hi. rewrite Q2, P1 by lia.
      assert (Ea : answer (fun ch0 => captured cs ch0 ++
                      firstn n (nth ch0 (map (gather cap ccs css n) (seq 0 ncap)) [])) (frames cs) n ch
                 = answer (fun ch0 => captured cs ch0 ++ gather cap ccs css n ch0) (frames cs) n ch).
      { unfold FlexibleBufferProofs.answer.
        rewrite (ideal_same zero P ncap flow HP s0 _ _ ((frames cs + n) / P) HX). reflexivity. }
      rewrite Ea.
      assert (La : length (answer (fun ch0 => captured cs ch0 ++ gather cap ccs css n ch0) (frames cs) n ch) = n).
      { apply answer_length; [|exact Hch]. intros c0 Hc0. apply (fi_X _ _ _ _ _ _ _ _ _ _ I2 c0 Hc0). }
      cbn [Nat.add].
      rewrite nth_error_app1 by lia. split; [reflexivity|].
      apply nth_error_Some. lia.
  Qed.
End Session.
