From Verif Require Import Base Memory CircularBufferModel.
From Coq Require Import NArith ZArith ZifyBool ZifyNat.
Ltac Zify.zify_post_hook ::= Z.div_mod_to_equations.

(** ** Specification: the buffer remembers the whole history. *)
Section Spec.
  Context {A : Type} (zero : A).

  (** The [d] most recent samples of a channel with history [h] (oldest first); the
      time before the first sample counts as zeros. *)
  Definition recent (d : nat) (h : list A) : list A :=
    skipn (length h) (repeat zero d ++ h).

  (** Operations of a client: a call to one of the write() overloads, or filling [n]
      samples through the write pointers followed by commitWrite( n ). *)
  Inductive cb_op :=
  | WriteOp (data : list (list A)) (channels n : nat)
  | FillCommit (data : list (list A)) (n : nat).

  (** Is the call accepted (otherwise it throws)? *)
  Definition accepted (channels length : nat) (o : cb_op) : bool :=
    match o with
    | WriteOp _ c n => (c =? channels) && (n <=? length)
    | FillCommit _ n => n <=? length
    end.

  (** Samples a call appends to channel [ch]. *)
  Definition op_samples (ch : nat) (o : cb_op) : list A :=
    match o with
    | WriteOp data _ n | FillCommit data n => firstn n (nth ch data [])
    end.

  Definition history (channels length ch : nat) (ops : list cb_op) : list A :=
    concat (map (op_samples ch) (filter (accepted channels length) ops)).

  (** Obligation of the caller: one array per channel with at least [n] samples, and
      never filling more than the length through write pointers. *)
  Definition caller_ok (channels length : nat) (o : cb_op) : Prop :=
    match o with
    | WriteOp data c n =>
        accepted channels length o = true ->
        channels <= List.length data /\ Forall (fun src => n <= List.length src) data
    | FillCommit data n =>
        n <= length
        /\ channels <= List.length data /\ Forall (fun src => n <= List.length src) data
    end.
End Spec.
Arguments cb_op : clear implicits.

(** The C++ behaviour: a call that throws leaves the object unchanged; undefined
    behaviour is sticky. *)
Section Exec.
  Context {A : Type}.
  Local Open Scope res_scope.
  Definition cb_exec (b : cb A) (o : cb_op A) : res (cb A) :=
    match o with
    | WriteOp data c n => cb_write b data c n
    | FillCommit data n => b1 <- cb_place b data n ;; cb_commit b1 n
    end.

  Fixpoint cb_run (b : cb A) (ops : list (cb_op A)) : res (cb A) :=
    match ops with
    | [] => Ok b
    | o :: os => match cb_exec b o with
                 | Ok b' => cb_run b' os
                 | Throw _ => cb_run b os
                 | UB => UB
                 end
    end.
End Exec.

(** ** Alignment arithmetic (also C46) *)

Lemma next_aligned_ge size al : size <= next_aligned_size size al.
Proof.
  unfold next_aligned_size. destruct (Nat.eqb_spec al 0); [lia|].
  destruct (Nat.eqb_spec (size mod al) 0); [lia|].
  pose proof (Nat.div_mod size al n). pose proof (Nat.mod_upper_bound size al n). nia.
Qed.

Lemma next_aligned_mult size al : al <> 0 -> (next_aligned_size size al) mod al = 0.
Proof.
  intros H. unfold next_aligned_size. destruct (Nat.eqb_spec al 0); [lia|].
  destruct (Nat.eqb_spec (size mod al) 0); [assumption|].
  apply Nat.mod_mul; assumption.
Qed.

Lemma next_aligned_least size al m :
  al <> 0 -> size <= m -> m mod al = 0 -> next_aligned_size size al <= m.
Proof.
  intros H Hm Hmod. unfold next_aligned_size. destruct (Nat.eqb_spec al 0); [lia|].
  destruct (Nat.eqb_spec (size mod al) 0); [lia|].
  pose proof (Nat.div_mod m al H) as E. rewrite Hmod, Nat.add_0_r in E.
  pose proof (Nat.div_mod size al H) as E2.
  pose proof (Nat.mod_upper_bound size al H).
  assert (size / al < m / al); [|nia].
  apply Nat.nle_gt. intros Hle.
  assert (al * (m / al) <= al * (size / al)) by (apply Nat.mul_le_mono_l; exact Hle). lia.
Qed.

Lemma next_aligned_pos size al : 0 < size -> 0 < next_aligned_size size al.
Proof. pose proof (next_aligned_ge size al). lia. Qed.

Lemma next_aligned_fixed size al : al <> 0 -> size mod al = 0 -> next_aligned_size size al = size.
Proof.
  intros H E. unfold next_aligned_size. destruct (Nat.eqb_spec al 0); [lia|].
  now rewrite E.
Qed.

Lemma next_aligned_zero_al size : next_aligned_size size 0 = size.
Proof. reflexivity. Qed.

(** ** One row *)
Section Row.
  Context {A : Type} (zero : A).

  Definition sample_at (h : list A) (d : nat) : A :=
    if d <=? length h then nth (length h - d) h zero else zero.

  Lemma nth_error_recent d h i :
    nth_error (recent zero d h) i = if i <? d then Some (sample_at h (d - i)) else None.
  Proof.
    unfold recent. rewrite nth_error_skipn. unfold sample_at.
    destruct (Nat.ltb_spec i d).
    - destruct (Nat.leb_spec (d - i) (length h)).
      + rewrite nth_error_app2 by (rewrite repeat_length; lia).
        rewrite repeat_length.
        replace (length h + i - d) with (length h - (d - i)) by lia.
        apply nth_error_nth'. lia.
      + rewrite nth_error_app1 by (rewrite repeat_length; lia).
        apply nth_error_repeat. lia.
    - apply nth_error_None. rewrite app_length, repeat_length. lia.
  Qed.

  Lemma recent_length d h : length (recent zero d h) = d.
  Proof. unfold recent. rewrite skipn_length, app_length, repeat_length. lia. Qed.

  Lemma sample_at_new h ds d :
    1 <= d <= length ds -> nth_error ds (length ds - d) = Some (sample_at (h ++ ds) d).
  Proof.
    intros H. unfold sample_at. rewrite app_length.
    destruct (Nat.leb_spec d (length h + length ds)); [|lia].
    rewrite app_nth2 by lia.
    replace (length h + length ds - d - length h) with (length ds - d) by lia.
    apply nth_error_nth'. lia.
  Qed.

  Lemma sample_at_old h ds d :
    length ds < d -> sample_at (h ++ ds) d = sample_at h (d - length ds).
  Proof.
    intros H. unfold sample_at. rewrite app_length.
    destruct (Nat.leb_spec d (length h + length ds)),
             (Nat.leb_spec (d - length ds) (length h)); try lia; [|reflexivity].
    rewrite app_nth1 by lia. f_equal. lia.
  Qed.

  Record row_inv (a w : nat) (row h : list A) : Prop := {
    ri_len : length row = 2 * a;
    ri_mirror : forall i, i < a -> nth_error row i = nth_error row (i + a);
    ri_hist : forall d, 1 <= d <= a -> nth_error row (a + w - d) = Some (sample_at h d)
  }.

  Lemma row_inv_init a : row_inv a 0 (repeat zero (2 * a)) [].
  Proof.
    constructor.
    - apply repeat_length.
    - intros i Hi. rewrite !nth_error_repeat by lia. reflexivity.
    - intros d Hd. rewrite nth_error_repeat by lia. unfold sample_at. simpl.
      destruct d; [lia|reflexivity].
  Qed.

  Definition new_head (a w n : nat) : nat := if w + n <? a then w + n else w + n - a.

  Lemma new_head_mod a w n : w < a -> n <= a -> (w + n) mod a = new_head a w n.
  Proof.
    intros Hw Hn. unfold new_head. destruct (Nat.ltb_spec (w + n) a).
    - now apply Nat.mod_small.
    - replace (w + n) with ((w + n - a) + 1 * a) at 1 by lia.
      rewrite Nat.mod_add by lia. apply Nat.mod_small. lia.
  Qed.

  (** The commit step on a row in which [ds] has been placed at the write head. *)
  Lemma advance_row_ok a w row h row1 ds :
    row_inv a w row h -> w < a -> length ds <= a ->
    mem_write row w ds = Ok row1 ->
    exists row2, advance_row a w (length ds) row1 = Ok row2
                 /\ row_inv a (new_head a w (length ds)) row2 (h ++ ds).
  Proof.
    intros [L M H] Hw Hn Hwr. set (n := length ds) in *.
    apply mem_write_inv in Hwr as (_ & L1 & N1). fold n in N1.
    unfold advance_row. cbv zeta. set (m := Nat.min (w + n) a - w).
    destruct (mem_read_ok row1 w m) as (d1 & -> & Ld1 & Nd1); [lia|].
    cbn [bind].
    destruct (mem_write_ok row1 (w + a) d1) as (row2 & -> & L2 & N2); [lia|].
    cbn [bind]. rewrite Ld1 in N2.
    assert (Q2 : forall p, nth_error row2 p =
      if (w + a <=? p) && (p <? w + a + m) then nth_error ds (p - a - w)
      else if (w <=? p) && (p <? w + n) then nth_error ds (p - w)
      else nth_error row p).
    { intros p. rewrite N2, N1.
      destruct (Nat.leb_spec (w + a) p); simpl; [|reflexivity].
      destruct (Nat.ltb_spec p (w + a + m)); simpl; [|reflexivity].
      rewrite Nd1, N1. destruct (Nat.ltb_spec (p - (w + a)) m); [|lia].
      destruct (Nat.leb_spec w (w + (p - (w + a)))); [|lia].
      destruct (Nat.ltb_spec (w + (p - (w + a))) (w + n)); [|lia].
      simpl. f_equal. lia. }
    destruct (Nat.ltb_spec m n) as [Hwrap|Hnowrap].
    - (* wrap-around *)
      destruct (mem_read_ok row2 a (n - m)) as (d2 & -> & Ld2 & Nd2); [lia|].
      cbn [bind].
      destruct (mem_write_ok row2 0 d2) as (row3 & -> & L3 & N3); [lia|].
      rewrite Ld2 in N3.
      exists row3; split; [reflexivity|].
      assert (Hm : m = a - w) by lia.
      assert (Q3 : forall p, p < 2 * a -> nth_error row3 p =
        if p <? n - m then nth_error ds (m + p)
        else if p <? a then (if w <=? p then nth_error ds (p - w) else nth_error row p)
        else if p <? w + n then nth_error ds (p - w)
        else if w + a <=? p then nth_error ds (p - a - w) else nth_error row p).
      { intros p Hp. rewrite N3. simpl (0 <=? p). simpl (0 + _).
        destruct (Nat.ltb_spec p (n - m)); simpl.
        - rewrite Nat.sub_0_r, Nd2, Q2.
          destruct (Nat.ltb_spec p (n - m)); [|lia].
          destruct (Nat.leb_spec (w + a) (a + p)); simpl; [lia|].
          destruct (Nat.leb_spec w (a + p)); [|lia].
          destruct (Nat.ltb_spec (a + p) (w + n)); [|lia]. simpl. f_equal. lia.
        - rewrite Q2. destruct (Nat.ltb_spec p a).
          + destruct (Nat.leb_spec (w + a) p); [lia|]. simpl.
            destruct (Nat.leb_spec w p); simpl; [|reflexivity].
            destruct (Nat.ltb_spec p (w + n)); [reflexivity|lia].
          + destruct (Nat.ltb_spec p (w + n)).
            * destruct (Nat.leb_spec (w + a) p); simpl; [lia|].
              destruct (Nat.leb_spec w p); [reflexivity|lia].
            * destruct (Nat.leb_spec (w + a) p); simpl.
              -- destruct (Nat.ltb_spec p (w + a + m)); [reflexivity|lia].
              -- destruct (Nat.leb_spec w p); simpl; [|reflexivity].
                 reflexivity. }
      unfold new_head. destruct (Nat.ltb_spec (w + n) a); [lia|].
      constructor; [lia| |].
      + intros i Hi. rewrite !Q3 by lia.
        destruct (Nat.ltb_spec i (n - m)).
        * destruct (Nat.ltb_spec (i + a) (n - m)); [lia|].
          destruct (Nat.ltb_spec (i + a) a); [lia|].
          destruct (Nat.ltb_spec (i + a) (w + n)); [|lia]. f_equal. lia.
        * destruct (Nat.ltb_spec i a); [|lia].
          destruct (Nat.ltb_spec (i + a) (n - m)); [lia|].
          destruct (Nat.ltb_spec (i + a) a); [lia|].
          destruct (Nat.ltb_spec (i + a) (w + n)); [lia|].
          destruct (Nat.leb_spec w i).
          -- destruct (Nat.leb_spec (w + a) (i + a)); [|lia]. f_equal. lia.
          -- destruct (Nat.leb_spec (w + a) (i + a)); [lia|]. now apply M.
      + intros d Hd. rewrite Q3 by lia.
        destruct (Nat.le_gt_cases d n).
        * rewrite <- (sample_at_new h ds) by (fold n; lia). fold n.
          destruct (Nat.ltb_spec (a + (w + n - a) - d) (n - m)); [f_equal; lia|].
          destruct (Nat.ltb_spec (a + (w + n - a) - d) a).
          -- destruct (Nat.leb_spec w (a + (w + n - a) - d)); [|lia]. f_equal. lia.
          -- destruct (Nat.ltb_spec (a + (w + n - a) - d) (w + n)); [|lia]. f_equal. lia.
        * rewrite sample_at_old by (fold n; lia). fold n.
          destruct (Nat.ltb_spec (a + (w + n - a) - d) (n - m)); [lia|].
          destruct (Nat.ltb_spec (a + (w + n - a) - d) a); [|lia].
          destruct (Nat.leb_spec w (a + (w + n - a) - d)); [lia|].
          rewrite M by lia. rewrite <- H by lia. f_equal. lia.
    - (* no wrap-around *)
      exists row2; split; [reflexivity|].
      assert (Hm : m = n) by lia. rewrite Hm in *.
      unfold new_head. destruct (Nat.ltb_spec (w + n) a) as [Hlt|Hge].
      + constructor; [lia| |].
        * intros i Hi. rewrite !Q2.
          destruct (Nat.leb_spec (w + a) i); [lia|]. simpl.
          destruct (Nat.leb_spec w i); simpl.
          -- destruct (Nat.ltb_spec i (w + n)).
             ++ destruct (Nat.leb_spec (w + a) (i + a)); [|lia].
                destruct (Nat.ltb_spec (i + a) (w + a + n)); [|lia]. simpl. f_equal. lia.
             ++ destruct (Nat.leb_spec (w + a) (i + a)); [|lia].
                destruct (Nat.ltb_spec (i + a) (w + a + n)); [lia|]. simpl.
                destruct (Nat.leb_spec w (i + a)); [|lia].
                destruct (Nat.ltb_spec (i + a) (w + n)); [lia|]. simpl. now apply M.
          -- destruct (Nat.leb_spec (w + a) (i + a)); [lia|]. simpl.
             destruct (Nat.ltb_spec (i + a) (w + n)); [lia|].
             rewrite Bool.andb_false_r. now apply M.
        * intros d Hd. rewrite Q2.
          destruct (Nat.le_gt_cases d n).
          -- rewrite <- (sample_at_new h ds) by (fold n; lia). fold n.
             destruct (Nat.leb_spec (w + a) (a + (w + n) - d)); [|lia].
             destruct (Nat.ltb_spec (a + (w + n) - d) (w + a + n)); [|lia]. simpl. f_equal. lia.
          -- rewrite sample_at_old by (fold n; lia). fold n.
             destruct (Nat.leb_spec (w + a) (a + (w + n) - d)); [lia|]. simpl.
             destruct (Nat.leb_spec w (a + (w + n) - d)); [|lia].
             destruct (Nat.ltb_spec (a + (w + n) - d) (w + n)); [lia|]. simpl.
             rewrite <- H by lia. f_equal. lia.
      + (* w + n = a: head back to 0 *)
        assert (w + n = a) by lia.
        constructor; [lia| |].
        * intros i Hi. rewrite !Q2.
          destruct (Nat.leb_spec (w + a) i); [lia|]. simpl.
          destruct (Nat.leb_spec w i); simpl.
          -- destruct (Nat.ltb_spec i (w + n)); [|lia].
             destruct (Nat.leb_spec (w + a) (i + a)); [|lia].
             destruct (Nat.ltb_spec (i + a) (w + a + n)); [|lia]. simpl. f_equal. lia.
          -- destruct (Nat.leb_spec (w + a) (i + a)); [lia|]. simpl.
             destruct (Nat.ltb_spec (i + a) (w + n)); [lia|].
             rewrite Bool.andb_false_r. now apply M.
        * intros d Hd. rewrite Q2.
          destruct (Nat.le_gt_cases d n).
          -- rewrite <- (sample_at_new h ds) by (fold n; lia). fold n.
             destruct (Nat.leb_spec (w + a) (a + (w + n - a) - d)); [lia|]. simpl.
             destruct (Nat.leb_spec w (a + (w + n - a) - d)); [|lia].
             destruct (Nat.ltb_spec (a + (w + n - a) - d) (w + n)); [|lia]. simpl. f_equal. lia.
          -- rewrite sample_at_old by (fold n; lia). fold n.
             destruct (Nat.leb_spec (w + a) (a + (w + n - a) - d)); [lia|]. simpl.
             destruct (Nat.leb_spec w (a + (w + n - a) - d)); [lia|]. simpl.
             rewrite M by lia. rewrite <- H by lia. f_equal. lia.
  Qed.

  (** Reading [n <= d] samples at delay [d]. *)
  Lemma row_read a w row h d n :
    row_inv a w row h -> w < a -> n <= d <= a ->
    mem_read row (a + w - d) n = Ok (firstn n (recent zero d h)).
  Proof.
    intros [L M H] Hw Hd.
    destruct (mem_read_ok row (a + w - d) n) as (r & -> & Lr & Nr); [lia|].
    f_equal. apply nth_error_ext. intros i. rewrite Nr, nth_error_firstn, nth_error_recent.
    destruct (Nat.ltb_spec i n); [|reflexivity].
    destruct (Nat.ltb_spec i d); [|lia].
    rewrite <- H by lia. f_equal. lia.
  Qed.
End Row.

(** ** The whole buffer *)
Section Buffer.
  Context {A : Type} (zero : A).

  Record cb_inv (channels len alloc : nat) (b : cb A) (h : nat -> list A) : Prop := {
    ci_len : cb_length b = len;
    ci_alloc : cb_alloc b = alloc;
    ci_channels : cb_channels b = channels;
    ci_le : len <= alloc;
    ci_head : cb_head b < alloc;
    ci_rows : forall ch row, nth_error (cb_rows b) ch = Some row ->
                row_inv zero alloc (cb_head b) row (h ch)
  }.

  Lemma cb_new_inv channels len al :
    1 <= len ->
    cb_inv channels len (next_aligned_size len al) (cb_new zero channels len al) (fun _ => []).
  Proof.
    intros H. constructor; simpl; auto.
    - unfold cb_channels; simpl. apply repeat_length.
    - apply next_aligned_ge.
    - now apply next_aligned_pos.
    - intros ch row Hr.
      assert (E : row = repeat zero (next_aligned_size len al + (next_aligned_size len al + 0))).
      { apply nth_error_In in Hr. now apply repeat_spec in Hr. }
      subst. apply (row_inv_init zero (next_aligned_size len al)).
  Qed.

  (** Placing then advancing. *)
  Lemma place_advance channels len alloc b h data n :
    cb_inv channels len alloc b h ->
    n <= len ->
    channels <= length data -> Forall (fun src => n <= length src) data ->
    exists rows b',
      map2_res (place_row (cb_head b) n) (cb_rows b) data = Ok rows
      /\ advance (MkCb (cb_length b) (cb_alloc b) rows (cb_head b)) n = Ok b'
      /\ cb_inv channels len alloc b' (fun ch => h ch ++ firstn n (nth ch data [])).
  Proof.
    intros I Hn Hch Hsrc. destruct I as [El Ea Ec Hle Hh Hr].
    unfold cb_channels in Ec.
    assert (P : forall i row src, nth_error (cb_rows b) i = Some row ->
              nth_error data i = Some src ->
              exists row1, place_row (cb_head b) n row src = Ok row1
                /\ mem_write row (cb_head b) (firstn n src) = Ok row1
                /\ length (firstn n src) = n).
    { intros i row src H1 H2.
      assert (n <= length src) by (eapply Forall_forall in Hsrc; [exact Hsrc|eapply nth_error_In, H2]).
      assert (Lf : length (firstn n src) = n) by (rewrite firstn_length; lia).
      unfold place_row, src_read, mem_read.
      destruct (Nat.leb_spec (0 + n) (length src)); [|lia]. cbn [bind skipn].
      destruct (mem_write_ok row (cb_head b) (firstn n src)) as (r1 & E & _).
      { rewrite (ri_len _ _ _ _ _ (Hr i row H1)). lia. }
      exists r1; auto. }
    destruct (map2_res_ok (place_row (cb_head b) n) (cb_rows b) data) as (rows & E1 & L1 & F1).
    { lia. }
    { intros i x y Hx Hy. destruct (P i x y Hx Hy) as (r & E & _). eauto. }
    assert (Q : forall i row1, nth_error rows i = Some row1 ->
              exists row src row2, nth_error (cb_rows b) i = Some row
                /\ nth_error data i = Some src
                /\ advance_row alloc (cb_head b) n row1 = Ok row2
                /\ row_inv zero alloc (new_head alloc (cb_head b) n) row2
                     (h i ++ firstn n src)).
    { intros i row1 H1.
      assert (i < length rows) by (apply nth_error_Some; congruence).
      destruct (nth_error_lt (cb_rows b) i) as [row Er]; [lia|].
      destruct (nth_error_lt data i) as [src Es]; [lia|].
      destruct (F1 i row src Er Es) as (z & Hz1 & Hz2).
      assert (z = row1) by congruence. subst z.
      destruct (P i row src Er Es) as (r & Ep & Em & Lf).
      assert (r = row1) by congruence. subst r.
      destruct (advance_row_ok zero alloc (cb_head b) row (h i) row1 (firstn n src)) as (row2 & Ead & Inv2);
        [now apply Hr | assumption | lia | assumption |].
      rewrite Lf in Ead, Inv2. exists row, src, row2. auto. }
    destruct (map_res_ok (advance_row alloc (cb_head b) n) rows) as (rows' & E2 & F2).
    { intros x Hx. apply In_nth_error in Hx as [i Hi].
      destruct (Q i x Hi) as (? & ? & r2 & _ & _ & E & _). eauto. }
    exists rows, (MkCb len alloc rows' ((cb_head b + n) mod alloc)).
    split; [exact E1|]. split.
    - unfold advance. simpl. rewrite Ea, E2. cbn [bind].
      destruct (Nat.eqb_spec alloc 0); [lia|]. now rewrite El.
    - assert (Lrows : length rows' = length rows) by (clear - F2; induction F2; simpl; congruence).
      rewrite new_head_mod by lia.
      constructor; simpl; auto.
      + unfold cb_channels; simpl. lia.
      + unfold new_head. destruct (Nat.ltb_spec (cb_head b + n) alloc); lia.
      + intros ch row' Hrow'.
        assert (ch < length rows') by (apply nth_error_Some; congruence).
        destruct (nth_error_lt rows ch) as [row1 Hrow1]; [lia|].
        destruct (Q ch row1 Hrow1) as (row & src & row2 & H1 & H2 & H3 & H4).
        assert (row' = row2).
        { assert (Hf : advance_row alloc (cb_head b) n row1 = Ok row').
          { clear - F2 Hrow1 Hrow'. revert ch Hrow1 Hrow'.
            induction F2; intros [|ch]; simpl; try discriminate; intros.
            - congruence.
            - eauto. }
          congruence. }
        subst. replace (nth ch data []) with src; [exact H4|].
        symmetry. now apply nth_error_nth.
  Qed.

  Lemma cb_exec_inv channels len alloc b h o :
    cb_inv channels len alloc b h -> caller_ok channels len o ->
    if accepted channels len o
    then exists b', cb_exec b o = Ok b'
                    /\ cb_inv channels len alloc b' (fun ch => h ch ++ op_samples ch o)
    else cb_exec b o = Throw InvalidArgument.
  Proof.
    intros I C. assert (I' := I). destruct I' as [El Ea Ec Hle Hh Hr].
    destruct o as [data c n|data n]; simpl in *.
    - unfold cb_write. rewrite Ec, El.
      destruct (Nat.eqb_spec c channels) as [->|Hc]; simpl; [|reflexivity].
      destruct (Nat.leb_spec n len), (Nat.ltb_spec len n); try lia; [|reflexivity].
      destruct (C eq_refl) as [C1 C2].
      destruct (place_advance channels len alloc b h data n I) as (rows & b' & E1 & E2 & I2);
        auto.
      rewrite E1. cbn [bind]. rewrite El in E2. rewrite E2. eauto.
    - destruct C as (C0 & C1 & C2).
      destruct (Nat.leb_spec n len); [|lia].
      destruct (place_advance channels len alloc b h data n I) as (rows & b' & E1 & E2 & I2);
        auto.
      unfold cb_place, cb_commit. rewrite E1. cbn [bind cb_length]. rewrite El in *.
      destruct (Nat.ltb_spec len n); [lia|]. rewrite E2. eauto.
  Qed.

  Lemma cb_inv_ext channels len alloc b h1 h2 :
    (forall ch, h1 ch = h2 ch) ->
    cb_inv channels len alloc b h1 -> cb_inv channels len alloc b h2.
  Proof.
    intros E [? ? ? ? ? Hr]. constructor; auto.
    intros ch row H. rewrite <- E. auto.
  Qed.

  Lemma cb_run_inv channels len alloc ops : forall b h,
    cb_inv channels len alloc b h -> Forall (caller_ok channels len) ops ->
    exists b', cb_run b ops = Ok b'
      /\ cb_inv channels len alloc b' (fun ch => h ch ++ history channels len ch ops).
  Proof.
    induction ops as [|o os IH]; intros b h I C.
    - exists b; split; [reflexivity|]. eapply cb_inv_ext; [|exact I].
      intros ch. unfold history; simpl. now rewrite app_nil_r.
    - inversion C as [|? ? Co Cos]; subst. simpl.
      pose proof (cb_exec_inv _ _ _ _ _ o I Co) as H.
      destruct (accepted channels len o) eqn:Acc.
      + destruct H as (b1 & -> & I1).
        destruct (IH b1 _ I1 Cos) as (b' & E & I2). exists b'; split; [exact E|].
        eapply cb_inv_ext; [|exact I2]. intros ch. cbv beta.
        unfold history; simpl. rewrite Acc. simpl. now rewrite app_assoc.
      + rewrite H. destruct (IH b h I Cos) as (b' & E & I2). exists b'; split; [exact E|].
        eapply cb_inv_ext; [|exact I2]. intros ch.
        unfold history; simpl. now rewrite Acc.
  Qed.

  (** C06 *)
  Lemma cb_delay_memory channels len al ops :
    1 <= len -> Forall (caller_ok channels len) ops ->
    exists b, cb_run (cb_new zero channels len al) ops = Ok b
      /\ forall ch d n, ch < channels -> n <= d <= len ->
           cb_read b ch d n
           = Ok (firstn n (recent zero d (history channels len ch ops))).
  Proof.
    intros Hl C.
    destruct (cb_run_inv channels len _ ops _ _ (cb_new_inv channels len al Hl) C)
      as (b & E & I). exists b; split; [exact E|].
    intros ch d n Hch Hd. destruct I as [El Ea Ec Hle Hh Hr]. simpl in Hr.
    unfold cb_read. unfold cb_channels in Ec.
    destruct (nth_error_lt (cb_rows b) ch) as [row Er]; [lia|]. rewrite Er.
    unfold read_offset. rewrite Ea.
    destruct (Nat.ltb_spec (next_aligned_size len al + cb_head b) d); [lia|]. cbn [bind].
    apply row_read; [now apply Hr|assumption|lia].
  Qed.

  (** C06, getReadPointers: all channels at once (delay < length) *)
  Lemma cb_delay_memory_all channels len al ops :
    1 <= len -> Forall (caller_ok channels len) ops ->
    exists b, cb_run (cb_new zero channels len al) ops = Ok b
      /\ forall d n, n <= d ->
           cb_read_all b d n
           = if d <? len then
               Ok (map (fun ch => firstn n (recent zero d (history channels len ch ops)))
                       (seq 0 channels))
             else Throw InvalidArgument.
  Proof.
    intros Hl C.
    destruct (cb_run_inv channels len _ ops _ _ (cb_new_inv channels len al Hl) C)
      as (b & E & I). exists b; split; [exact E|].
    intros d n Hn. destruct I as [El Ea Ec Hle Hh Hr]. simpl in Hr.
    unfold cb_read_all. rewrite El.
    destruct (Nat.leb_spec len d), (Nat.ltb_spec d len); try lia; [reflexivity|].
    unfold read_offset. rewrite Ea.
    destruct (Nat.ltb_spec (next_aligned_size len al + cb_head b) d); [lia|]. cbn [bind].
    unfold cb_channels in Ec.
    set (f := fun row : list A => mem_read row (next_aligned_size len al + cb_head b - d) n).
    assert (G : forall rows k, (forall i row, nth_error rows i = Some row ->
               f row = Ok (firstn n (recent zero d (history channels len (k + i) ops)))) ->
             map_res f rows
             = Ok (map (fun ch => firstn n (recent zero d (history channels len ch ops)))
                       (seq k (length rows)))).
    { induction rows as [|r rows IH]; intros k Hk; [reflexivity|].
      simpl. rewrite (Hk 0 r eq_refl), Nat.add_0_r. cbn [bind].
      rewrite (IH (S k)); [reflexivity|].
      intros i row Hi. specialize (Hk (S i) row Hi).
      now replace (k + S i) with (S k + i) in Hk by lia. }
    specialize (G (cb_rows b) 0). rewrite Ec in G. apply G. intros i row Hi. simpl.
    unfold f. apply row_read; [now apply Hr|assumption|lia].
  Qed.

  (** C07: calls violating the limits throw and change nothing; accepted ones never
      leave the row ([UB] is excluded by [Ok] above). *)
  Lemma cb_violations (b : cb A) data c n d k :
    (c <> cb_channels b \/ cb_length b < n ->
       cb_write b data c n = Throw InvalidArgument)
    /\ (cb_length b < n -> cb_commit b n = Throw InvalidArgument)
    /\ (cb_length b <= d -> cb_read_all b d k = Throw InvalidArgument).
  Proof.
    split; [|split].
    - intros H. unfold cb_write. destruct (Nat.eqb_spec c (cb_channels b)); simpl; [|reflexivity].
      destruct (Nat.ltb_spec (cb_length b) n); [reflexivity|]. exfalso. intuition lia.
    - intros H. unfold cb_commit. destruct (Nat.ltb_spec (cb_length b) n); [reflexivity|lia].
    - intros H. unfold cb_read_all. destruct (Nat.leb_spec (cb_length b) d); [reflexivity|lia].
  Qed.

  Lemma cb_safe channels len al ops :
    1 <= len -> Forall (caller_ok channels len) ops ->
    cb_run (cb_new zero channels len al) ops <> UB
    /\ forall b, cb_run (cb_new zero channels len al) ops = Ok b ->
       (forall o, caller_ok channels len o -> cb_exec b o <> UB)
       /\ (forall ch d n, ch < channels -> d <= len -> n <= d -> cb_read b ch d n <> UB).
  Proof.
    intros Hl C.
    destruct (cb_run_inv channels len _ ops _ _ (cb_new_inv channels len al Hl) C)
      as (b & E & I).
    destruct (cb_delay_memory channels len al ops Hl C) as (b2 & E2 & R).
    assert (b2 = b) by congruence. subst b2.
    rewrite E. split; [discriminate|]. intros b' Eb. assert (b' = b) by congruence. subst b'.
    split.
    - intros o Co. pose proof (cb_exec_inv _ _ _ _ _ o I Co) as H.
      destruct (accepted channels len o); [destruct H as (? & -> & _)|rewrite H]; discriminate.
    - intros ch d n H1 H2 H3. rewrite R by lia. discriminate.
  Qed.

  (** The delay limit of getReadPointer is only asserted: beyond it the read may
      leave the row. *)
  Lemma cb_read_beyond_refuted :
    exists (b : cb nat) d n,
      cb_run (cb_new 0 1 4 0) [] = Ok b /\ n <= d /\ cb_read b 0 d n = UB.
  Proof. exists (cb_new 0 1 4 0), 5, 1. vm_compute. repeat split. lia. Qed.
End Buffer.

(** ** C46: alignment helpers and matrix layout *)

Lemma matrix_offset_in_range rows cols al r c :
  r < rows -> c < cols -> matrix_offset cols al r c < matrix_elements rows cols al.
Proof.
  intros Hr Hc. unfold matrix_offset, matrix_elements, matrix_stride.
  pose proof (next_aligned_ge cols al). nia.
Qed.

Lemma matrix_offset_inj cols al r c r' c' :
  c < cols -> c' < cols ->
  matrix_offset cols al r c = matrix_offset cols al r' c' -> r = r' /\ c = c'.
Proof.
  unfold matrix_offset, matrix_stride. intros Hc Hc'.
  pose proof (next_aligned_ge cols al). set (s := next_aligned_size cols al) in *.
  intros E. destruct (Nat.lt_trichotomy r r') as [L|[L|L]].
  - assert (r' * s >= r * s + s) by nia. lia.
  - subst. lia.
  - assert (r * s >= r' * s + s) by nia. lia.
Qed.

Lemma matrix_row_aligned cols al r :
  al <> 0 -> (matrix_offset cols al r 0) mod al = 0.
Proof.
  intros H. unfold matrix_offset, matrix_stride.
  pose proof (next_aligned_mult cols al H) as M.
  apply Nat.mod_divides in M as [k Hk]; [|assumption]. rewrite Hk.
  rewrite Nat.add_0_r. replace (r * (al * k)) with (r * k * al) by lia.
  apply Nat.mod_mul; assumption.
Qed.

(** The raw allocation is always large enough for std::align to succeed and the
    aligned area lies inside it. *)
Lemma aligned_storage_ok length alignment al sz raw :
  1 <= alignment -> 1 <= sz -> raw mod al = 0 -> 1 <= al ->
  exists p, aligned_storage length alignment al sz raw = Some p
    /\ raw <= p
    /\ p mod (alignment * sz) = 0
    /\ p + length * sz <= raw + worst_case_elements length alignment al sz * sz.
Proof.
  intros Ha Hs Hraw Hal. unfold aligned_storage, std_align.
  set (A := alignment * sz).
  assert (HA : A <> 0) by (unfold A; nia).
  pose proof (next_aligned_ge raw A) as Hge.
  pose proof (next_aligned_mult raw A HA) as Hm.
  set (p := next_aligned_size raw A) in *.
  assert (Hfit : p - raw + length * sz <= worst_case_elements length alignment al sz * sz).
  { unfold worst_case_elements. destruct (Nat.eqb_spec al sz) as [->|Hne].
    - (* offset is a multiple of sz below alignment * sz *)
      assert (Hlt : p < raw + A).
      { apply Nat.nle_gt. intros Hbad.
        assert (next_aligned_size raw A <= p - A); [|fold p in H; lia].
        apply next_aligned_least; [assumption|lia|].
        apply Nat.mod_divides in Hm as [k Hk]; [|assumption].
        replace (p - A) with ((k - 1) * A) by (rewrite Hk; nia).
        now apply Nat.mod_mul. }
      apply Nat.mod_divides in Hm as [k Hk]; [|assumption].
      apply Nat.mod_divides in Hraw as [j Hj]; [|lia].
      unfold A in *.
      assert (p = sz * (alignment * k)) by lia.
      assert (alignment * k < j + alignment) by nia.
      assert (alignment * k >= j) by nia.
      nia.
    - assert (p < raw + A).
      { apply Nat.nle_gt. intros Hbad.
        assert (next_aligned_size raw A <= p - A); [|fold p in H; lia].
        apply next_aligned_least; [assumption|lia|].
        apply Nat.mod_divides in Hm as [k Hk]; [|assumption].
        replace (p - A) with ((k - 1) * A) by (rewrite Hk; nia).
        now apply Nat.mod_mul. }
      unfold A in *. nia. }
  destruct (Nat.leb_spec (p - raw + length * sz) (worst_case_elements length alignment al sz * sz));
    [|lia].
  exists p. repeat split; auto. lia.
Qed.

(** alignmentIsPowerOfTwo on 64 bit values. *)
Lemma odd_part (a : N) : (0 < a)%N -> exists k m, (a = 2 ^ k * (2 * m + 1))%N.
Proof.
  pattern a. apply (well_founded_induction N.lt_wf_0). clear a. intros a IH Ha.
  destruct (N.Even_or_Odd a) as [[b Hb]|[b Hb]].
  - destruct (IH b) as (k & m & E); [lia|lia|].
    exists (k + 1)%N, m. rewrite Hb, E, N.pow_add_r. simpl (2 ^ 1)%N. lia.
  - exists 0%N, b. rewrite N.pow_0_r. lia.
Qed.

Lemma land_mul_pow2 (k x y : N) : (N.land (2 ^ k * x) (2 ^ k * y) = 2 ^ k * N.land x y)%N.
Proof.
  rewrite !(N.mul_comm (2 ^ k)), <- !N.shiftl_mul_pow2. symmetry. apply N.shiftl_land.
Qed.

Lemma land_complement (m n : N) : (m < 2 ^ n -> N.land m (2 ^ n - 1 - m) = 0)%N.
Proof.
  intros H.
  assert (E : (2 ^ n - 1 - m = N.lnot m n)%N).
  { assert (Hm : (m + N.lnot m n = N.ones n)%N).
    { destruct (N.eq_dec m 0) as [->|Hz].
      - rewrite N.lnot_0_l. lia.
      - apply N.add_lnot_diag_low. now apply N.log2_lt_pow2; [lia|]. }
    rewrite N.ones_equiv in Hm. lia. }
  rewrite E. destruct (N.eq_dec m 0) as [->|Hz]; [apply N.land_0_l|].
  apply N.land_lnot_diag_low. apply N.log2_lt_pow2; [lia|assumption].
Qed.

Lemma land_odd (x y : N) : (N.land (2 * x + 1) (2 * y + 1) = 2 * N.land x y + 1)%N.
Proof.
  apply N.bits_inj. intros [|i].
  - rewrite N.land_spec, !N.testbit_odd_0. reflexivity.
  - set (j := N.pred (N.pos i)). replace (N.pos i) with (N.succ j) by lia.
    rewrite N.land_spec, !N.testbit_odd_succ by lia. now rewrite N.land_spec.
Qed.

Lemma power_of_two_correct (a : N) :
  (a < 2 ^ 64)%N ->
  alignment_is_power_of_two a = true <-> exists k, (a = 2 ^ k)%N.
Proof.
  intros Hlt. unfold alignment_is_power_of_two.
  destruct (N.eqb_spec a 0) as [->|Hz]; cbn [negb andb].
  - split; [discriminate|]. intros [k Hk]. symmetry in Hk.
    apply N.pow_nonzero in Hk; [contradiction|discriminate].
  - assert (Hneg : ((N.lxor a (N.ones 64) + 1) mod 2 ^ 64 = 2 ^ 64 - a)%N).
    { assert (Hm : (a + N.lnot a 64 = N.ones 64)%N).
      { apply N.add_lnot_diag_low. apply N.log2_lt_pow2; [lia|assumption]. }
      unfold N.lnot in Hm. rewrite N.ones_equiv in *.
      change (2 ^ 64)%N with 18446744073709551616%N in *.
      rewrite N.mod_small; lia. }
    rewrite Hneg.
    destruct (odd_part a) as (k & m & E); [lia|].
    assert (Hk : (k < 64)%N).
    { apply (N.pow_lt_mono_r_iff 2); [lia|]. nia. }
    assert (Hp : (2 ^ 64 = 2 ^ k * (2 * 2 ^ (63 - k)))%N).
    { rewrite <- N.pow_succ_r', <- N.pow_add_r. f_equal. lia. }
    assert (Hmlt : (m < 2 ^ (63 - k))%N).
    { rewrite Hp, E in Hlt. apply N.mul_lt_mono_pos_l in Hlt; [lia|].
      apply N.neq_0_lt_0, N.pow_nonzero. discriminate. }
    assert (Hc : (2 ^ 64 - a = 2 ^ k * (2 * (2 ^ (63 - k) - 1 - m) + 1))%N).
    { rewrite Hp, E. rewrite <- N.mul_sub_distr_l. f_equal. lia. }
    rewrite Hc. rewrite E at 1. rewrite land_mul_pow2, land_odd, land_complement by assumption.
    rewrite N.mul_0_r, N.add_0_l, N.mul_1_r.
    destruct (N.eqb_spec (2 ^ k) a) as [E2|E2].
    + split; [|reflexivity]. intros _. exists k. now symmetry.
    + split; [discriminate|]. intros [j Hj]. exfalso. apply E2.
      (* a = 2^j = 2^k*(2m+1) forces m = 0 *)
      assert (m = 0)%N; [|subst m; lia].
      rewrite Hj in E. destruct (N.le_gt_cases j k) as [L|L].
      * assert (2 ^ j <= 2 ^ k)%N by (apply N.pow_le_mono_r; lia).
        assert (0 < 2 ^ k)%N by (apply N.neq_0_lt_0, N.pow_nonzero; discriminate). nia.
      * replace j with (k + N.succ (j - k - 1))%N in E by lia.
        rewrite N.pow_add_r, N.pow_succ_r' in E.
        apply N.mul_cancel_l in E; [|apply N.pow_nonzero; discriminate]. lia.
Qed.

Lemma check_alignment_correct (ptr al sz : N) (i j : N) :
  (al = 2 ^ i)%N -> (al < 2 ^ 64)%N -> (sz = 2 ^ j)%N ->
  check_alignment ptr sz al = true <-> (ptr mod (al * sz) = 0)%N.
Proof.
  intros Ea Hlt Es. unfold check_alignment.
  assert (al <> 0)%N by (subst al; apply N.pow_nonzero; discriminate).
  destruct (N.eqb_spec al 0); [contradiction|].
  assert (P : alignment_is_power_of_two al = true) by (apply power_of_two_correct; eauto).
  rewrite P. simpl.
  assert (E : (al * sz - 1 = N.ones (i + j))%N).
  { rewrite N.ones_equiv, N.pow_add_r, Ea, Es. lia. }
  rewrite E, N.land_ones, N.pow_add_r, <- Ea, <- Es. apply N.eqb_eq.
Qed.

Lemma next_aligned_spec size al : al <> 0 ->
  size <= next_aligned_size size al
  /\ (next_aligned_size size al) mod al = 0
  /\ (forall m, size <= m -> m mod al = 0 -> next_aligned_size size al <= m).
Proof.
  intros H. split; [apply next_aligned_ge|]. split; [now apply next_aligned_mult|].
  intros m. now apply next_aligned_least.
Qed.

Lemma matrix_layout_ok rows cols al r c : r < rows -> c < cols ->
  matrix_offset cols al r c < matrix_elements rows cols al
  /\ (forall r' c', c' < cols -> matrix_offset cols al r c = matrix_offset cols al r' c' ->
        r = r' /\ c = c')
  /\ (al <> 0 -> (matrix_offset cols al r 0) mod al = 0).
Proof.
  intros Hr Hc. split; [now apply matrix_offset_in_range|]. split.
  - intros r' c' Hc' E. now apply (matrix_offset_inj cols al).
  - apply matrix_row_aligned.
Qed.
