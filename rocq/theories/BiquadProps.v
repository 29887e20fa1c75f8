(** Property C22: the biquad filter component. *)
From Verif Require Import Base Memory BiquadModel BiquadProofs BiquadComponent.
From Coq Require Import Ring ZArith.
Local Open Scope res_scope.

Section Histories.
  Context {T : Type} (rO : T) (radd rmul rsub : T -> T -> T).
  Local Notation coeff := (coefficient T).
  Local Notation no_filter := (no_filter rO).

  (** Calls of the component. *)
  Inductive op :=
  | SetCoefficients (ch bq : nat) (c : coeff)
  | SetChannel (ch : nat) (cs : list coeff)
  | SetMatrix (m : coeff_matrix T)
  | Process (eq : option (coeff_matrix T)) (input : list (list T)).

  (** Run a history of calls; an exception is reported to the caller and leaves the
      component as it was (in every function all checks precede the first write).  The
      result lists the output blocks. *)
  Definition step (f : filter T) (o : op) : res (filter T * list (list (list T))) :=
    match o with
    | SetCoefficients ch bq c => f' <- set_coefficients f ch bq c ;; Ok (f', [])
    | SetChannel ch cs => f' <- set_channel_coefficients f ch cs ;; Ok (f', [])
    | SetMatrix m => f' <- set_coefficient_matrix f m ;; Ok (f', [])
    | Process eq x => ' (f', y) <- process radd rsub rmul f eq x ;; Ok (f', [y])
    end.
  Fixpoint run_ops (f : filter T) (ops : list op) : res (filter T * list (list (list T))) :=
    match ops with
    | [] => Ok (f, [])
    | o :: rest =>
        match step f o with
        | Ok (f', out) => ' (f'', outs) <- run_ops f' rest ;; Ok (f'', out ++ outs)
        | Throw _ => run_ops f rest
        | UB => UB
        end
    end.

  (** *** Specification *)
  (** A coefficient matrix is rectangular, an audio block has one row per channel. *)
  Definition rectangular (m : coeff_matrix T) : Prop :=
    forall r, In r m -> length r = number_of_sections m.
  Definition wf (nch : nat) (o : op) : Prop :=
    match o with
    | SetMatrix m => rectangular m
    | Process eq x => length x = nch /\ (forall m, eq = Some m -> rectangular m)
    | _ => True
    end.

  Definition fits (nch nsec : nat) (m : coeff_matrix T) : bool :=
    (length m =? nch) && ((nch =? 0) || (number_of_sections m =? nsec)).

  (** the coefficients in force (per channel, per section) after a call; calls with
      invalid arguments change nothing *)
  Definition in_force (nch nsec : nat) (C : list (list coeff)) (o : op) : list (list coeff) :=
    match o with
    | SetCoefficients ch bq c =>
        if (ch <? nch) && (bq <? nsec)
        then map (fun i => if i =? ch then map (fun k => if k =? bq then c else nth k (nth i C []) no_filter) (seq 0 nsec)
                           else nth i C []) (seq 0 nch)
        else C
    | SetChannel ch cs =>
        if (ch <? nch) && (length cs =? nsec)
        then map (fun i => if i =? ch then cs else nth i C []) (seq 0 nch) else C
    | SetMatrix m | Process (Some m) _ => if fits nch nsec m then m else C
    | Process None _ => C
    end.

  (** the blocks that are filtered, each with the coefficients in force *)
  Fixpoint blocks (nch nsec : nat) (C : list (list coeff)) (ops : list op)
    : list (list (list coeff) * list (list T)) :=
    match ops with
    | [] => []
    | o :: rest =>
        let C' := in_force nch nsec C o in
        match o with
        | Process None x => [(C', x)]
        | Process (Some m) x => if fits nch nsec m then [(C', x)] else []
        | _ => []
        end ++ blocks nch nsec C' rest
    end.

  (** input signal of a channel and coefficient stream of section [k] of a channel *)
  Definition channel_input (ch : nat) (bs : list (list (list coeff) * list (list T))) : list T :=
    concat (map (fun b => nth ch (snd b) []) bs).
  Definition coefficient_streams (nsec ch : nat) (bs : list (list (list coeff) * list (list T)))
    : list (list coeff) :=
    map (fun k => concat (map (fun b => repeat (nth k (nth ch (fst b) []) no_filter)
                                               (length (nth ch (snd b) []))) bs)) (seq 0 nsec).
  Definition channel_output (ch : nat) (outs : list (list (list T))) : list T :=
    concat (map (fun y => nth ch y []) outs).
End Histories.

Lemma map_nth_seq' {A} (l : list A) d : map (fun k => nth k l d) (seq 0 (length l)) = l.
Proof.
  apply (nth_ext _ _ d d); [now rewrite map_length, seq_length|].
  intros n Hn. rewrite map_length, seq_length in Hn.
  rewrite (nth_indep _ d (nth 0 l d)) by (now rewrite map_length, seq_length).
  rewrite (map_nth (fun k => nth k l d)). now rewrite seq_nth.
Qed.

Lemma replace_row_as_map {A} (l : list A) i x d :
  i < length l ->
  replace_row l i x = map (fun j => if j =? i then x else nth j l d) (seq 0 (length l)).
Proof.
  intros H. apply nth_error_ext. intros j. rewrite replace_row_nth by exact H.
  destruct (lt_dec j (length l)) as [L|L].
  - assert (E : nth_error (seq 0 (length l)) j = Some j).
    { rewrite (nth_error_nth' _ 0) by (now rewrite seq_length). now rewrite seq_nth. }
    rewrite (map_nth_error _ _ _ E). destruct (j =? i); [reflexivity|].
    apply nth_error_nth'. exact L.
  - destruct (Nat.eqb_spec j i); [lia|].
    rewrite (proj2 (nth_error_None l j)) by lia. symmetry. apply nth_error_None.
    rewrite map_length, seq_length. lia.
Qed.

Section Theorems.
  Context {T : Type} (rO rI : T) (radd rmul rsub : T -> T -> T) (ropp : T -> T).
  Variable RT : ring_theory rO rI radd rmul rsub ropp (@eq T).
  Local Notation coeff := (coefficient T).
  Local Notation no_filter := (no_filter rO).
  Local Notation cas_run := (cas_run radd rmul rsub).

  (** state of the component after filtering the blocks [bs] with outputs [outs] *)
  Definition tracks (nch nsec : nat) (f : filter T) (C : list (list coeff))
             (bs : list (list (list coeff) * list (list T))) (outs : list (list (list T))) : Prop :=
    channels f = nch /\ sections f = nsec
    /\ exists V, represents f C V
    /\ (forall ch, ch < nch -> forall b, In b bs ->
          length (nth ch (fst b) []) = nsec)
    /\ forall ch, ch < nch ->
         cas_run (repeat (rO, rO) nsec) (coefficient_streams rO nsec ch bs) (channel_input ch bs)
         = (channel_output ch outs, nth ch V []).

  Lemma set_coefficients_tracks nch nsec f C bs outs ch bq c :
    tracks nch nsec f C bs outs ->
    match set_coefficients f ch bq c with
    | Ok f' => tracks nch nsec f' (in_force rO nch nsec C (SetCoefficients ch bq c)) bs outs
    | Throw _ => in_force rO nch nsec C (SetCoefficients ch bq c) = C
    | UB => False
    end.
  Proof.
    intros (Hc & Hs & V & R & W & O). unfold set_coefficients. simpl.
    rewrite Hc, Hs. destruct (Nat.leb_spec nch ch) as [L1|L1]; destruct (Nat.ltb_spec ch nch); try lia; [reflexivity|].
    destruct (Nat.leb_spec nsec bq) as [L2|L2]; destruct (Nat.ltb_spec bq nsec); try lia; [reflexivity|].
    cbn [andb].
    destruct (nth_error_lt C ch) as [cs E]; [rewrite (rep_nc _ _ _ R); lia|].
    destruct (set_internal_ok f C V ch bq cs c R E ltac:(lia)) as (f' & E' & R' & C' & S').
    rewrite E'. split; [congruence|]. split; [congruence|]. exists V. split; [|split; assumption].
    assert (Lc : length cs = nsec)
      by (rewrite <- Hs; exact (Forall_nth_error _ C _ _ (rep_sc _ _ _ R) E)).
    assert (LC : length C = nch) by (rewrite (rep_nc _ _ _ R); exact Hc).
    assert (EE : replace_row C ch (replace_row cs bq c)
      = map (fun i => if i =? ch then map (fun k => if k =? bq then c else nth k (nth i C []) no_filter) (seq 0 nsec)
                           else nth i C []) (seq 0 nch)).
    { rewrite (replace_row_as_map C ch _ []) by lia. rewrite LC. apply map_ext.
      intros i. destruct (Nat.eqb_spec i ch) as [->|]; [|reflexivity].
      rewrite (replace_row_as_map cs bq c no_filter) by lia. rewrite Lc.
      apply nth_error_nth with (d := []) in E. rewrite E. reflexivity. }
    rewrite <- EE. exact R'.
  Qed.

  Lemma set_channel_tracks nch nsec f C bs outs ch cs :
    tracks nch nsec f C bs outs ->
    match set_channel_coefficients f ch cs with
    | Ok f' => tracks nch nsec f' (in_force rO nch nsec C (SetChannel ch cs)) bs outs
    | Throw _ => in_force rO nch nsec C (SetChannel ch cs) = C
    | UB => False
    end.
  Proof.
    intros (Hc & Hs & V & R & W & O). unfold set_channel_coefficients. simpl.
    rewrite Hc, Hs. destruct (Nat.leb_spec nch ch) as [L1|L1]; destruct (Nat.ltb_spec ch nch); try lia; [reflexivity|].
    destruct (Nat.eqb_spec (length cs) nsec) as [L2|L2]; cbn [negb andb]; [|reflexivity].
    destruct (set_channel_internal_ok f C V ch cs R ltac:(lia) ltac:(congruence)) as (f' & E' & R' & C' & S').
    rewrite E'. split; [congruence|]. split; [congruence|]. exists V. split; [|split; assumption].
    assert (LC : length C = nch) by (rewrite (rep_nc _ _ _ R); exact Hc).
    rewrite (replace_row_as_map C ch _ []) in R' by lia. rewrite LC in R'. exact R'.
  Qed.

  Lemma fits_rows nch nsec (m : coeff_matrix T) : fits nch nsec m = true -> rectangular m ->
    Forall (fun r => length r = nsec) m /\ length m = nch.
  Proof.
    intros F Rm. unfold fits in F. apply andb_true_iff in F as [F1 F2]. apply Nat.eqb_eq in F1.
    split; [|exact F1]. apply Forall_forall. intros r Hr.
    apply orb_true_iff in F2 as [F2|F2]; apply Nat.eqb_eq in F2.
    - assert (m = []) by (destruct m; [reflexivity|simpl in F1; lia]). subst m. destruct Hr.
    - rewrite (Rm r Hr). exact F2.
  Qed.

  Lemma set_matrix_tracks nch nsec f C bs outs m :
    tracks nch nsec f C bs outs -> rectangular m ->
    match set_coefficient_matrix f m with
    | Ok f' => fits nch nsec m = true /\ tracks nch nsec f' m bs outs
    | Throw _ => fits nch nsec m = false
    | UB => False
    end.
  Proof.
    intros (Hc & Hs & V & R & W & O) Rm. unfold set_coefficient_matrix.
    destruct (fits nch nsec m) eqn:F.
    - destruct (fits_rows nch nsec m F Rm) as [Fr Fl].
      unfold fits in F. apply andb_true_iff in F as [F1 F2].
      rewrite Hc, Hs, F1. cbn [negb].
      assert (G : (0 <? nch) && negb (number_of_sections m =? nsec) = false).
      { destruct (Nat.ltb_spec 0 nch); [|reflexivity]. apply orb_true_iff in F2 as [F2|F2].
        - apply Nat.eqb_eq in F2. lia.
        - now rewrite F2. }
      rewrite G. subst nsec.
      destruct (set_matrix_internal_ok f C V m R ltac:(congruence) Fr) as (f' & E' & R' & C' & S').
      rewrite E'. split; [reflexivity|]. split; [congruence|]. split; [congruence|]. eauto.
    - unfold fits in F. rewrite Hc, Hs.
      destruct (length m =? nch); cbn [negb andb] in *; [|reflexivity].
      apply orb_false_iff in F as [F1 F2]. rewrite F2. cbn [negb].
      apply Nat.eqb_neq in F1. destruct (Nat.ltb_spec 0 nch); [|lia]. reflexivity.
  Qed.

  Lemma streams_length nsec ch bs cs : In cs (coefficient_streams rO nsec ch bs) ->
    length cs = length (channel_input (T := T) ch bs).
  Proof.
    intros H. unfold coefficient_streams in H. apply in_map_iff in H as (k & <- & _).
    unfold channel_input. induction bs as [|b bs IH]; simpl; [reflexivity|].
    rewrite !app_length, repeat_length, IH. reflexivity.
  Qed.

  Lemma streams_snoc nsec ch bs (b : list (list coeff) * list (list T)) :
    length (nth ch (fst b) []) = nsec ->
    coefficient_streams rO nsec ch (bs ++ [b])
    = glue (coefficient_streams rO nsec ch bs) (streams (length (nth ch (snd b) [])) (nth ch (fst b) [])).
  Proof.
    intros L. unfold coefficient_streams, glue, streams.
    rewrite <- (map_nth_seq' (nth ch (fst b) []) no_filter) at 1. rewrite L.
    rewrite map_map.
    assert (G : forall (l : list nat) (g h : nat -> list coeff),
      map (fun p => fst p ++ snd p) (combine (map g l) (map h l)) = map (fun k => g k ++ h k) l).
    { intros l g h. induction l; simpl; [reflexivity|]. now rewrite IHl. }
    rewrite G. apply map_ext. intros k. rewrite map_app, concat_app. simpl.
    now rewrite app_nil_r.
  Qed.

  Lemma process_tracks nch nsec f C bs outs x :
    tracks nch nsec f C bs outs -> length x = nch ->
    exists f' y, process_channels radd rsub rmul (channels f) 0 f x = Ok (f', y)
      /\ tracks nch nsec f' C (bs ++ [(C, x)]) (outs ++ [y]).
  Proof.
    intros (Hc & Hs & V & R & W & O) Lx.
    destruct (process_channels_ok radd rmul rsub x (channels f) 0 f C V [] V R) as
      (f' & y & V' & E & R' & C' & S' & Ly & LV & P); auto; try congruence.
    { apply R. }
    exists f', y. split; [exact E|].
    split; [congruence|]. split; [congruence|]. exists V'. split; [exact R'|].
    assert (LC : length C = nch) by (rewrite (rep_nc _ _ _ R); exact Hc).
    assert (LVn : length V = nch) by (rewrite (rep_nv _ _ _ R); exact Hc).
    assert (Wn : forall ch, ch < nch -> length (nth ch C []) = nsec).
    { intros ch Hch. rewrite <- Hs.
      apply (Forall_nth_error _ C ch _ (rep_sc _ _ _ R)). apply nth_error_nth'. lia. }
    split.
    { intros ch Hch b Hb. apply in_app_iff in Hb as [Hb|[<-|[]]]; auto. }
    intros ch Hch. rewrite streams_snoc by (simpl; auto). cbn [fst snd].
    unfold channel_input. rewrite map_app, concat_app. cbn [map concat snd]. rewrite app_nil_r.
    fold (channel_input ch bs).
    assert (A := cas_run_app radd rmul rsub
      (coefficient_streams rO nsec ch bs) (streams (length (nth ch x [])) (nth ch C []))
      (repeat (rO, rO) nsec) (channel_input ch bs) (nth ch x [])).
    rewrite (O ch Hch) in A.
    destruct (cas_run (nth ch V []) (streams (length (nth ch x [])) (nth ch C [])) (nth ch x []))
      as [y2 v2] eqn:E2.
    rewrite A.
    - destruct (P ch (nth ch C []) (nth ch V []) (nth ch x [])) as [P1 P2];
        try (apply nth_error_nth'; simpl; lia); [lia|].
      unfold block_channel in P1, P2. rewrite E2 in P1, P2. cbn [fst snd] in *.
      unfold channel_output. rewrite map_app, concat_app. cbn [map concat]. rewrite app_nil_r.
      f_equal; [f_equal|].
      + symmetry. now apply nth_error_nth.
      + symmetry. now apply nth_error_nth.
    - unfold coefficient_streams, streams. rewrite !map_length, seq_length. symmetry. auto.
    - unfold coefficient_streams. now rewrite repeat_length, map_length, seq_length.
    - intros cs Hcs. eapply streams_length; eauto.
  Qed.

  Lemma run_tracks nch nsec : forall ops f C bs outs,
    tracks nch nsec f C bs outs -> Forall (wf nch) ops ->
    exists f' outs', run_ops radd rmul rsub f ops = Ok (f', outs')
      /\ length outs' = length (blocks rO nch nsec C ops)
      /\ tracks nch nsec f' (fold_left (in_force rO nch nsec) ops C)
                (bs ++ blocks rO nch nsec C ops) (outs ++ outs').
  Proof.
    induction ops as [|o ops IH]; intros f C bs outs I W; simpl.
    - exists f, []. rewrite !app_nil_r. auto.
    - inversion W as [|? ? Wo Wr]; subst.
      destruct o as [ch bq c|ch cs|m|[m|] x]; cbn [step blocks app].
      + assert (S := set_coefficients_tracks nch nsec f C bs outs ch bq c I).
        destruct (set_coefficients f ch bq c) as [f1|e|]; cbn [bind]; [| |destruct S].
        * destruct (IH f1 _ bs outs S Wr) as (f' & outs' & E & L & T'). rewrite E.
          exists f', outs'. auto.
        * rewrite S. destruct (IH f C bs outs I Wr) as (f' & outs' & E & L & T'). eauto.
      + assert (S := set_channel_tracks nch nsec f C bs outs ch cs I).
        destruct (set_channel_coefficients f ch cs) as [f1|e|]; cbn [bind]; [| |destruct S].
        * destruct (IH f1 _ bs outs S Wr) as (f' & outs' & E & L & T'). rewrite E.
          exists f', outs'. auto.
        * rewrite S. destruct (IH f C bs outs I Wr) as (f' & outs' & E & L & T'). eauto.
      + assert (S := set_matrix_tracks nch nsec f C bs outs m I Wo).
        destruct (set_coefficient_matrix f m) as [f1|e|]; cbn [bind]; [| |destruct S].
        * destruct S as [F S]. cbn [in_force]. rewrite F.
          destruct (IH f1 _ bs outs S Wr) as (f' & outs' & E & L & T'). rewrite E.
          exists f', outs'. auto.
        * cbn [in_force]. rewrite S. destruct (IH f C bs outs I Wr) as (f' & outs' & E & L & T'). eauto.
      + destruct Wo as [Lx Rm]. unfold process.
        assert (S := set_matrix_tracks nch nsec f C bs outs m I (Rm m eq_refl)).
        destruct (set_coefficient_matrix f m) as [f1|e|]; cbn [bind]; [| |destruct S].
        * destruct S as [F S]. cbn [in_force]. rewrite F.
          destruct (process_tracks nch nsec f1 m bs outs x S Lx) as (f2 & y & E2 & T2).
          rewrite E2. cbn [bind].
          destruct (IH f2 _ _ _ T2 Wr) as (f' & outs' & E & L & T'). rewrite E. cbn [bind].
          exists f', (y :: outs'). rewrite <- !app_assoc in T'. cbn [app] in *.
          split; [reflexivity|]. split; [simpl; lia|exact T'].
        * cbn [in_force]. rewrite S. destruct (IH f C bs outs I Wr) as (f' & outs' & E & L & T'). eauto.
      + destruct Wo as [Lx _]. unfold process. cbn [bind].
        destruct (process_tracks nch nsec f C bs outs x I Lx) as (f2 & y & E2 & T2).
        rewrite E2. cbn [bind in_force].
        destruct (IH f2 _ _ _ T2 Wr) as (f' & outs' & E & L & T'). rewrite E. cbn [bind].
        exists f', (y :: outs'). rewrite <- !app_assoc in T'. cbn [app] in *.
        split; [reflexivity|]. split; [simpl; lia|exact T'].
  Qed.

  Lemma construct_tracks nch nsec :
    tracks nch nsec (construct rO nch nsec) (repeat (repeat no_filter nsec) nch) [] [].
  Proof.
    split; [reflexivity|]. split; [reflexivity|].
    eexists. split; [apply construct_represents|]. split; [intros ch _ b []|].
    intros ch Hch. unfold channel_output, channel_input. simpl.
    assert (E : forall n vs (css : list (list coeff)), length vs = n -> length css = n ->
              (forall cs, In cs css -> cs = []) -> cas_run vs css [] = ([], vs)).
    { induction n as [|n IHn]; intros [|v vs] [|cs css] L1 L2 H; try discriminate; [reflexivity|].
      simpl. rewrite (H cs) by now left. simpl. rewrite IHn; auto. intros; apply H; now right. }
    rewrite (E nsec).
    - f_equal. symmetry. apply nth_error_nth with (d := []).
      rewrite (nth_error_nth' _ (repeat (rO, rO) nsec)) by (rewrite repeat_length; lia).
      f_equal. apply nth_repeat.
    - apply repeat_length.
    - unfold coefficient_streams. now rewrite map_length, seq_length.
    - intros cs H. apply in_map_iff in H as (k & <- & _). reflexivity.
  Qed.

  (** *** C22 *)
  (** For every history of coefficient updates (accepted or rejected) and audio blocks of
      any lengths, the run is free of undefined behaviour and the output of each channel
      over the whole history is the cascade of its sections, each section obeying its
      difference equation with the coefficients in force at each sample, starting from
      rest. *)
  Theorem C22_time_varying_cascade nch nsec ops :
    Forall (wf nch) ops ->
    let bs := blocks rO nch nsec (repeat (repeat no_filter nsec) nch) ops in
    exists f outs, run_ops radd rmul rsub (construct rO nch nsec) ops = Ok (f, outs)
      /\ length outs = length bs
      /\ forall ch, ch < nch ->
           tv_cascade rO radd rmul rsub (coefficient_streams rO nsec ch bs)
             (channel_input ch bs) (channel_output ch outs).
  Proof.
    intros W bs.
    destruct (run_tracks nch nsec ops _ _ _ _ (construct_tracks nch nsec) W)
      as (f & outs & E & L & _ & _ & V & _ & _ & O).
    exists f, outs. split; [exact E|]. split; [exact L|]. intros ch Hch.
    specialize (O ch Hch). cbn [app] in O. fold bs in O.
    assert (S := cas_run_spec rO rI radd rmul rsub ropp RT (coefficient_streams rO nsec ch bs)
                   (channel_input ch bs) (streams_length nsec ch bs)).
    replace (length (coefficient_streams rO nsec ch bs)) with nsec in S
      by (unfold coefficient_streams; now rewrite map_length, seq_length).
    rewrite O in S. exact S.
  Qed.

  (** Without updates after the coefficients [m] have been set: the cascade of ordinary
      difference equations applied to the concatenated input. *)
  Theorem C22_cascade nch nsec m (xs : list (list (list T))) :
    length m = nch -> (forall r, In r m -> length r = nsec) -> 0 < nch ->
    (forall x, In x xs -> length x = nch) ->
    exists f outs,
      run_ops radd rmul rsub (construct rO nch nsec) (SetMatrix m :: map (Process None) xs) = Ok (f, outs)
      /\ length outs = length xs
      /\ forall ch, ch < nch ->
           cascade_equation rO radd rmul rsub (nth ch m [])
             (concat (map (fun x => nth ch x []) xs)) (channel_output ch outs).
  Proof.
    intros Lm Rm Hn Hx.
    assert (Hfirst : number_of_sections m = nsec).
    { destruct m as [|r m]; [simpl in Lm; lia|]. apply Rm. now left. }
    assert (W : Forall (wf nch) (SetMatrix m :: map (Process None) xs)).
    { constructor; [intros r Hr; rewrite Hfirst; auto|].
      apply Forall_forall. intros o Ho. apply in_map_iff in Ho as (x & <- & Hxx).
      split; [auto|]. intros ? [=]. }
    destruct (C22_time_varying_cascade nch nsec _ W) as (f & outs & E & L & D).
    assert (F : fits nch nsec m = true)
      by (unfold fits; rewrite Lm, Hfirst, !Nat.eqb_refl; now rewrite orb_true_r).
    assert (B : blocks rO nch nsec (repeat (repeat no_filter nsec) nch) (SetMatrix m :: map (Process None) xs)
                = map (fun x => (m, x)) xs).
    { cbn [blocks in_force app]. rewrite F. clear. induction xs as [|x xs IH]; simpl; [reflexivity|].
      now rewrite IH. }
    rewrite B in L, D. rewrite map_length in L.
    exists f, outs. split; [exact E|]. split; [exact L|]. intros ch Hch. specialize (D ch Hch).
    assert (I : channel_input ch (map (fun x => (m, x)) xs) = concat (map (fun x => nth ch x []) xs)).
    { unfold channel_input. rewrite map_map. reflexivity. }
    rewrite I in D.
    apply (cascade_constant rO rI radd rmul rsub ropp RT).
    assert (Lr : length (nth ch m []) = nsec) by (apply Rm, nth_In; lia).
    replace (map (fun c => repeat c (length (concat (map (fun x => nth ch x []) xs)))) (nth ch m []))
      with (coefficient_streams rO nsec ch (map (fun x => (m, x)) xs)); [exact D|].
    unfold coefficient_streams.
    rewrite <- (map_nth_seq' (nth ch m []) no_filter) at 1. rewrite Lr, map_map.
    apply map_ext. intros k. rewrite map_map. cbn [fst snd].
    generalize (nth k (nth ch m []) no_filter) as c. intros c. clear.
    induction xs as [|x xs IH]; simpl; [reflexivity|]. rewrite app_length, repeat_app. now rewrite IH.
  Qed.

  (** The result does not depend on how the signal is split into blocks. *)
  Theorem C22_block_partition nch nsec m xs ys f1 o1 f2 o2 ch :
    length m = nch -> (forall r, In r m -> length r = nsec) -> ch < nch ->
    (forall x, In x xs -> length x = nch) -> (forall x, In x ys -> length x = nch) ->
    concat (map (fun x => nth ch x []) xs) = concat (map (fun x => nth ch x []) ys) ->
    run_ops radd rmul rsub (construct rO nch nsec) (SetMatrix m :: map (Process None) xs) = Ok (f1, o1) ->
    run_ops radd rmul rsub (construct rO nch nsec) (SetMatrix m :: map (Process None) ys) = Ok (f2, o2) ->
    channel_output ch o1 = channel_output ch o2.
  Proof.
    intros Lm Rm Hch Hx Hy EI R1 R2.
    destruct (C22_cascade nch nsec m xs Lm Rm ltac:(lia) Hx) as (f1' & o1' & E1 & _ & D1).
    destruct (C22_cascade nch nsec m ys Lm Rm ltac:(lia) Hy) as (f2' & o2' & E2 & _ & D2).
    assert (o1' = o1) by congruence. assert (o2' = o2) by congruence. subst.
    specialize (D1 ch Hch). specialize (D2 ch Hch). rewrite EI in D1.
    apply (cascade_constant rO rI radd rmul rsub ropp RT) in D1, D2.
    eapply tv_cascade_unique; eauto.
  Qed.

  (** The equation determines the output: at most one signal satisfies it. *)
  Theorem C22_equation_determines_output css xs ys zs :
    tv_cascade rO radd rmul rsub css xs ys -> tv_cascade rO radd rmul rsub css xs zs -> ys = zs.
  Proof. intros A B. eapply tv_cascade_unique; eauto. Qed.
End Theorems.
Print Assumptions C22_time_varying_cascade.
Print Assumptions C22_cascade.
Print Assumptions C22_block_partition.
Print Assumptions C22_equation_determines_output.

(** The constructors with initial coefficients are the plain constructor followed by
    setCoefficientMatrix. *)
Lemma fold_uniform {T} (c : coefficient T) nsec ch : forall todo bq f, bq + todo <= nsec ->
  fold_left (fun r b => f <- r ;; set_coefficients_internal f ch b c) (seq bq todo) (Ok f)
  = set_channel_loop todo bq f ch (repeat c nsec).
Proof.
  induction todo as [|todo IH]; intros bq f H; [reflexivity|]. cbn [seq fold_left set_channel_loop].
  rewrite (row_ok _ bq c) by (rewrite (nth_error_nth' _ c) by (rewrite repeat_length; lia);
                              f_equal; apply nth_repeat).
  cbn [bind].
  destruct (set_coefficients_internal f ch bq c) as [f'|e|]; cbn [bind].
  - apply IH; lia.
  - clear. generalize (S bq). induction todo; intros n; simpl; auto.
  - clear. generalize (S bq). induction todo; intros n; simpl; auto.
Qed.
Lemma set_channel_loop_sections {T} ch (cs : list (coefficient T)) : forall todo bq f f',
  set_channel_loop todo bq f ch cs = Ok f' -> sections f' = sections f.
Proof.
  induction todo as [|todo IH]; intros bq f f' H; cbn [set_channel_loop] in H; [congruence|].
  unfold row in H. destruct (nth_error cs bq); cbn [bind] in H; [|discriminate].
  unfold set_coefficients_internal in H. destruct (row (coeff_rows f) ch); cbn [bind] in H; try discriminate.
  destruct (mem_write _ _ _); cbn [bind] in H; try discriminate.
  apply IH in H. exact H.
Qed.
Lemma fold_channels {T} (cs : list (coefficient T)) nch (F : filter T -> nat -> res (filter T)) nsec :
  (forall f ch, sections f = nsec -> F f ch = set_channel_internal f ch cs) ->
  forall todo ch f, sections f = nsec -> ch + todo <= nch ->
  fold_left (fun r ch => f <- r ;; F f ch) (seq ch todo) (Ok f)
  = set_matrix_loop todo ch f (repeat cs nch).
Proof.
  intros HF. induction todo as [|todo IH]; intros ch f Hs H; [reflexivity|].
  cbn [seq fold_left set_matrix_loop].
  rewrite (row_ok _ ch cs) by (rewrite (nth_error_nth' _ cs) by (rewrite repeat_length; lia);
                              f_equal; apply nth_repeat).
  cbn [bind]. rewrite HF by exact Hs.
  destruct (set_channel_internal f ch cs) as [f'|e|] eqn:E; cbn [bind].
  - apply IH; [|lia]. unfold set_channel_internal in E. apply set_channel_loop_sections in E. congruence.
  - clear. generalize (S ch). induction todo; intros n; simpl; auto.
  - clear. generalize (S ch). induction todo; intros n; simpl; auto.
Qed.
Lemma number_of_sections_repeat {T} (r : list (coefficient T)) n :
  0 < n -> number_of_sections (repeat r n) = length r.
Proof. intros H. destruct n; [lia|]. reflexivity. Qed.

Theorem C22_constructors {T} (z : T) nch nsec c cs m :
  0 < nch ->
  construct_uniform z nch nsec c
    = set_coefficient_matrix (construct z nch nsec) (repeat (repeat c nsec) nch)
  /\ construct_list z nch nsec cs
    = (if length cs =? nsec then set_coefficient_matrix (construct z nch nsec) (repeat cs nch)
       else Throw InvalidArgument)
  /\ construct_matrix z nch nsec m = set_coefficient_matrix (construct z nch nsec) m.
Proof.
  intros Hn. unfold set_coefficient_matrix.
  assert (P : (0 <? nch) = true) by (now apply Nat.ltb_lt).
  assert (C0 : channels (construct z nch nsec) = nch) by reflexivity.
  assert (S0 : sections (construct z nch nsec) = nsec) by reflexivity.
  split; [|split].
  - rewrite number_of_sections_repeat by lia. rewrite !repeat_length, C0, S0, !Nat.eqb_refl, andb_false_r.
    cbn [negb]. unfold construct_uniform, set_matrix_internal. rewrite C0.
    apply (fold_channels _ _ (fun f ch => fold_left (fun r b => f0 <- r ;; set_coefficients_internal f0 ch b c)
             (seq 0 nsec) (Ok f)) nsec); auto.
    intros f ch Hf. unfold set_channel_internal. rewrite Hf. apply fold_uniform. lia.
  - unfold construct_list. destruct (length cs =? nsec) eqn:E; cbn [negb]; [|reflexivity].
    rewrite number_of_sections_repeat by lia.
    rewrite repeat_length, C0, S0, E, Nat.eqb_refl, andb_false_r. cbn [negb].
    unfold set_matrix_internal. rewrite C0.
    apply (fold_channels _ _ (fun f ch => set_channel_internal f ch cs) nsec); auto.
  - unfold construct_matrix. rewrite C0, S0, P.
    destruct (length m =? nch); destruct (number_of_sections m =? nsec); reflexivity.
Qed.
Print Assumptions C22_constructors.

(** The rectangularity hypothesis is needed: setCoefficientMatrix looks at the first row
    only, and a matrix with a shorter second row is read beyond its end. *)
Theorem C22_ragged_matrix_refuted :
  exists (m : coeff_matrix Z) nch nsec,
    length m = nch /\ number_of_sections m = nsec
    /\ set_coefficient_matrix (construct 0%Z nch nsec) m = UB.
Proof.
  exists [[MkCoeff 1 0 0 0 0]; []]%Z, 2, 1. vm_compute. auto.
Qed.
Print Assumptions C22_ragged_matrix_refuted.

(** *** Examples *)
Open Scope Z_scope.
(** two sections, blocks of different lengths, an update in between and a rejected one *)
Example C22_example :
  let c1 := MkCoeff 1 2 0 1 0 : coefficient Z in let c2 := MkCoeff 1 0 0 0 1 : coefficient Z in
  let ops := [SetMatrix [[c1; c2]]; Process None [[1; 0]]; SetCoefficients 0 2 c1;
              Process (Some [[c2; c1]]) [[0]]; Process (Some [[c1]]) [[7]]; Process None [[0; 1]]] in
  match run_ops Z.add Z.mul Z.sub (construct 0 1 2) ops with
  | Ok (_, outs) => outs = [[[1; 1]]; [[-2]]; [[-1; 3]]]
  | _ => False
  end /\ Forall (wf 1) ops.
Proof.
  cbn zeta. split.
  - vm_compute. reflexivity.
  - repeat constructor; simpl; try discriminate; intros; 
      repeat match goal with
             | H : Some _ = Some _ |- _ => injection H as <-
             | H : _ \/ _ |- _ => destruct H
             | H : False |- _ => destruct H
             end; subst; try reflexivity; intros r [<-|[]]; reflexivity.
Qed.
Close Scope Z_scope.

(** impulse response of y[n] = x[n] + x[n-1] - y[n-1] - ... over Z *)
Example C22_example_response :
  match run_ops Z.add Z.mul Z.sub (construct 0%Z 1 1)
          [SetMatrix [[MkCoeff 1 2 3 (-1) (-2)]]; Process None [[1; 0]]; Process None [[0]]; Process None [[0; 0]]]%Z with
  | Ok (_, outs) => channel_output 0 outs = [1; 3; 8; 14; 30]%Z
  | _ => False
  end.
Proof. vm_compute. reflexivity. Qed.
