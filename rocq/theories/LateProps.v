(** Property C68: the late reverberation filters. *)
From Verif Require Import Base Num DelayLineModel DelayLineProofs AllocatorModel AllocatorProofs
  ReverbModel ReverbProofs ReverbBlock ReverbProps LateModel LateProofs.
From Coq Require Import Qreals Lra.
Local Open Scope R_scope.

(** C68: the noise is filtered by the difference equation of the section; the arguments for
    the past have the older value first. *)
Theorem C68_biquad :
  forall k past state input, let out := filter_biquad k past state input in
  responds k (fst past :: snd past :: input) (fst state :: snd state :: out)
  /\ forall out', responds k (fst past :: snd past :: input) (fst state :: snd state :: out') -> out' = out.
Proof.
  intros k [x2 x1] [y2 y1] input. cbn [fst snd]. pose proof (responds_loop k input x2 x1 y2 y1) as R. split; [exact R|].
  intros out' R'. pose proof (responds_unique k _ _ _ R' R eq_refl eq_refl) as E. injection E as E. exact E.
Qed.
Print Assumptions C68_biquad.
Example C68_biquad_example :
  filter_biquad (MkSection 1 2 3 1 (-1)) (5, 7) (1, 2) [1; 0; 4] = [29; -4; 40].
Proof. cbn [filter_biquad biquad_loop fst snd k_b0 k_b1 k_b2 k_a1 k_a2]. repeat (f_equal; [ring|]). f_equal. ring. Qed.

(** The documentation gives them in the order x[n-1], x[n-2] and y[n-1], y[n-2]. *)
Theorem C68_biquad_order_refuted :
  exists k past state input,
  ~ responds k (snd past :: fst past :: input) (snd state :: fst state :: filter_biquad k past state input).
Proof.
  exists (MkSection 0 1 0 0 0), (1, 0), (0, 0), [0]. intros [_ H]. specialize (H 0%nat). cbn [length fst snd filter_biquad biquad_loop] in H.
  specialize (H ltac:(lia)). unfold val in H. cbn [nth k_b0 k_b1 k_b2 k_a1 k_a2] in H.
  lra.
Qed.
Print Assumptions C68_biquad_order_refuted.

(** C68: the constructor accepts nine bands only; the filter length is the least number of
    samples, at least one, not shorter than the given time; every noise sequence is the
    response to white noise without its first samples, at least twenty and a multiple of
    the alignment. *)
Theorem C68_setup :
  forall octaves white alignment objects subbands updates seconds fs, length octaves = 9%nat ->
  (subbands <> 9%nat -> late_setup octaves white alignment objects subbands updates seconds fs = Throw InvalidArgument)
  /\ (subbands = 9%nat -> exists c (extra : nat), late_setup octaves white alignment objects subbands updates seconds fs = Ok c
        /\ sound c /\ f_objects c = objects /\ f_fs c = fs
        /\ (updates = 0%nat -> f_updates c = objects) /\ (updates <> 0%nat -> f_updates c = updates)
        /\ (forall n, (f_length c <= n)%nat <-> (1 <= n)%nat /\ (seconds * fs <= nq n)%Qc)
        /\ (20 <= extra)%nat /\ (alignment = 0%nat -> extra = 20%nat)
        /\ (alignment <> 0%nat -> (exists m, extra = (m * alignment)%nat) /\ (extra < 20 + alignment)%nat)
        /\ forall o b k, (o < objects)%nat -> nth_error octaves b = Some k ->
             exists y, responds k (0 :: 0 :: map (white o b) (seq 0 (f_length c + extra))) y
               /\ val y 0 = 0 /\ val y 1 = 0
               /\ forall i, (i < f_length c)%nat -> val (noise_at c o b) i = val y (2 + extra + i)).
Proof.
  intros octaves white alignment objects subbands updates seconds fs L. split; intros Hs.
  { unfold late_setup. cbv zeta. rewrite L. destruct (Nat.eqb_spec 9 subbands) as [E|E]; [congruence|reflexivity]. }
  subst subbands. unfold late_setup. cbv zeta. rewrite L. cbn [Nat.eqb negb].
  set (extra := next_aligned 20 alignment). set (len := filter_length seconds fs).
  assert (Len : forall n, (len <= n)%nat <-> (1 <= n)%nat /\ (seconds * fs <= nq n)%Qc).
  { intros n. subst len. unfold filter_length. destruct (qfloor_spec (- (seconds * fs))%Qc) as [F1 F2].
    set (z := qfloor _) in *. unfold nq.
    assert (Q : (- z <= Z.of_nat n)%Z <-> (seconds * fs <= zq (Z.of_nat n))%Qc).
    { split; intros H.
      - apply zq_le in H. rewrite zq_opp in H. qclra.
      - assert (X : (zq (- Z.of_nat n) < zq (z + 1))%Qc) by (rewrite zq_opp, zq_plus, zq_1; qclra).
        rewrite zq_lt in X. lia. }
    rewrite <- Q. lia. }
  assert (Ex : (20 <= extra)%nat /\ (alignment = 0%nat -> extra = 20%nat)
    /\ (alignment <> 0%nat -> (exists m, extra = (m * alignment)%nat) /\ (extra < 20 + alignment)%nat)).
  { subst extra. unfold next_aligned. destruct (Nat.eqb_spec alignment 0) as [E|E].
    - split; [lia|]. split; [reflexivity|]. congruence.
    - pose proof (Nat.div_mod 20 alignment E) as D. pose proof (Nat.mod_upper_bound 20 alignment E) as M.
      cbv zeta. set (q := (20 / alignment)%nat) in *. set (r := (20 mod alignment)%nat) in *.
      destruct (Nat.eqb_spec r 0) as [R|R].
      + split; [lia|]. split; [congruence|]. intros _. split; [exists q; lia|lia].
      + split; [nia|]. split; [congruence|]. intros _. split; [now exists (q + 1)%nat|nia]. }
  clearbody extra len.
  set (rowf := fun o b k => skipn extra (filter_biquad k (0, 0) (0, 0) (map (white o b) (seq 0 (len + extra))))).
  set (rows := fun o => map (fun bk => rowf o (fst bk) (snd bk)) (combine (seq 0 9) octaves)).
  assert (Rl : forall o, length (rows o) = 9%nat).
  { intros o. subst rows. cbv beta. now rewrite map_length, combine_length, seq_length, L. }
  assert (Rw : forall o b k, length (rowf o b k) = len).
  { intros o b k. subst rowf. cbv beta. rewrite skipn_length.
    destruct (responds_loop k (map (white o b) (seq 0 (len + extra))) 0 0 0 0) as [Q _]. cbn [length] in Q.
    unfold filter_biquad. cbn [fst snd]. rewrite map_length, seq_length in Q. injection Q as Q. rewrite Q. lia. }
  eexists _, extra. split; [reflexivity|]. cbn [f_objects f_fs f_updates f_length].
  split.
  { split; [apply (proj1 (Len len)); lia|]. cbn [f_noise f_objects f_length]. split.
    - rewrite (rows_length rows 9 Rl). now rewrite seq_length.
    - apply Forall_forall. intros r Hr. apply in_flat_map in Hr as (o & _ & Hr). apply in_map_iff in Hr as (bk & <- & _). apply Rw. }
  split; [reflexivity|]. split; [reflexivity|]. split; [intros ->; reflexivity|].
  split; [intros N; destruct (Nat.eqb_spec updates 0); [contradiction|reflexivity]|]. split; [exact Len|].
  destruct Ex as (X1 & X2 & X3). split; [exact X1|]. split; [exact X2|]. split; [exact X3|].
  intros o b k Ho Hb. assert (Hb9 : (b < 9)%nat) by (rewrite <- L; apply nth_error_Some; congruence).
  exists (0 :: 0 :: filter_biquad k (0, 0) (0, 0) (map (white o b) (seq 0 (len + extra)))).
  split; [apply responds_loop|]. split; [reflexivity|]. split; [reflexivity|].
  intros i Hi. unfold noise_at. cbn [f_noise]. change (flat_map _ (seq 0 objects)) with (flat_map rows (seq 0 objects)).
  erewrite (nth_error_nth (flat_map rows (seq 0 objects))).
  2:{ rewrite (nth_rows rows 9 Rl objects 0 o b Ho Hb9). subst rows. cbv beta. cbn [Nat.add].
      apply map_nth_error. rewrite nth_error_combine_seq with (x := k) by assumption. reflexivity. }
  cbn [fst snd]. subst rowf. cbv beta. rewrite val_skipn. reflexivity.
Qed.
Print Assumptions C68_setup.

Lemma real_0 : real q0 = 0.
Proof. unfold real. cbn. apply RMicromega.Q2R_0. Qed.
Section C68.
  (** C68: the envelope is silent up to the onset, rises linearly to the level of the band
      and decays exponentially from there; it is refused exactly if the peak is not within
      the filter. *)
  Theorem C68_envelope :
    forall n delay gain attack decay fs, (- half < delay * fs)%Qc -> (- half < attack * fs)%Qc ->
    (exists d a e, envelope n delay gain attack decay fs = Ok e /\ nearest (delay * fs)%Qc d /\ nearest (attack * fs)%Qc a
       /\ is_envelope n d a (real gain) (exp (real (decay / fs)%Qc)) e)
    \/ (envelope n delay gain attack decay fs = Throw InvalidArgument
        /\ exists d a, nearest (delay * fs)%Qc d /\ nearest (attack * fs)%Qc a /\ (n <= d + a)%nat).
  Proof.
    intros n delay gain attack decay fs D A. pose proof (envelope_cases n delay gain attack decay fs) as C.
    destruct (envelope n delay gain attack decay fs) as [e|e|] eqn:E.
    - left. destruct (envelope_ok _ _ _ _ _ _ _ E) as (d & a & H). exists d, a, e. auto.
    - right. destruct C as [-> C]. auto.
    - exfalso. destruct C as [C|C]; qclra.
  Qed.
  (** C68: a decay does not exceed the level. *)
  Theorem C68_envelope_bound :
    forall n delay gain attack decay fs e, envelope n delay gain attack decay fs = Ok e ->
    (decay <= 0)%Qc -> (0 < fs)%Qc -> forall k, Rabs (val e k) <= Rabs (real gain).
  Proof.
    intros n delay gain attack decay fs e E D F k.
    destruct (envelope_ok _ _ _ _ _ _ _ E) as (d & a & _ & _ & H).
    assert (Q : (decay / fs <= 0)%Qc) by (apply qdiv_le; [exact F|]; now rewrite Qcmult_0_l).
    assert (N : real (decay / fs)%Qc <= 0).
    { unfold real. replace 0 with (Q2R 0) by apply RMicromega.Q2R_0. apply Qle_Rle. exact Q. }
    pose proof (exp_pos (real (decay / fs)%Qc)) as P.
    assert (P1 : exp (real (decay / fs)%Qc) <= 1).
    { rewrite <- exp_0. destruct (Rle_lt_or_eq_dec _ _ N) as [L|L]; [left; now apply exp_increasing|right; now rewrite L]. }
    assert (G : - Rabs (real gain) <= val e k <= Rabs (real gain)).
    { apply (envelope_bound n d a (real gain) (exp (real (decay / fs)%Qc)) e); [exact H|lra|exact P1|].
      unfold Rabs. destruct (Rcase_abs (real gain)); lra. }
    unfold Rabs at 1. destruct (Rcase_abs (val e k)); lra.
  Qed.

  (** C68: a filter is the sum over the bands of noise times envelope, up to the first band
      whose envelope is refused; it is determined by this. *)
  Theorem C68_filter :
    forall c obj l, sound c -> (0 <= f_fs c)%Qc -> (obj < f_objects c)%nat -> nine l -> timely l ->
    exists f, impulse_response c obj l (repeat 0 (f_length c)) = Ok f /\ is_filter c obj l f
      /\ forall f', is_filter c obj l f' -> f' = f.
  Proof.
    intros c obj l S F O N T. destruct (filter_ok c obj l S F O N T) as (f & E & H). exists f. split; [exact E|]. split; [exact H|].
    intros f' H'. now apply (is_filter_unique c obj l).
  Qed.

  (** C68: the parameters of an unused channel give the zero filter. *)
  Theorem C68_silence :
    forall c obj, sound c -> (0 <= f_fs c)%Qc -> (obj < f_objects c)%nat ->
    impulse_response c obj late_default (repeat 0 (f_length c)) = Ok (repeat 0 (f_length c)).
  Proof.
    intros c obj Sc F O. destruct (filter_ok c obj late_default Sc F O) as (f & E & H).
    { repeat split. } { split; [apply Qcle_refl|]. repeat (constructor; [apply Qcle_refl|]). constructor. }
    rewrite E. f_equal. destruct H as [L (envs & H1 & _ & H3)].
    apply val_ext; [now rewrite repeat_length|]. intros k _. rewrite val_repeat, H3. apply mix_zero.
    intros e He. apply (In_nth _ _ []) in He as (b & Hb & <-). specialize (H1 b Hb).
    unfold band_envelope in H1.
    assert (Z9 : forall x b, par (repeat q0 x) b = q0).
    { clear. unfold par. induction x as [|x IH]; intros [|b]; cbn; auto. }
    cbn [l_levels l_attacks l_decays l_onset late_default] in H1. unfold bands in H1. rewrite !Z9 in H1.
    destruct (envelope_ok _ _ _ _ _ _ _ H1) as (d & a & _ & A & G).
    destruct A as [A _]. rewrite Qcmult_0_l in A.
    assert (Ha : a = 0%nat).
    { pose proof half_twice as Hh. assert (P : (0 < half)%Qc) by reflexivity. destruct a as [|a]; [reflexivity|].
      exfalso. rewrite nq_S in A. pose proof (nq_nonneg a). qclra. }
    subst a. destruct G as (L' & L2 & Z0 & _ & _ & Pk & De). rewrite real_0 in Pk. rewrite Nat.add_0_r in *.
    destruct (Nat.ltb_spec k d) as [K|K]; [now apply Z0|].
    destruct (Nat.ltb_spec k (f_length c)) as [K3|K3]; [|apply val_out; lia].
    assert (W : forall i, (d + i < f_length c)%nat -> val (nth b envs []) (d + i) = 0).
    { induction i as [|i IH]; intros Hi; [now rewrite Nat.add_0_r|].
      replace (d + S i)%nat with (S (d + i)) by lia. rewrite De by lia. rewrite IH by lia. ring. }
    replace k with (d + (k - d))%nat by lia. apply W. lia.
  Qed.

  (** ** The queue *)
  (** blocks of messages, each followed by a call of process() *)
  Definition late_block (c : lconfig) (sr : lstate * res unit) (ms : list (nat * late)) : lstate * res unit :=
    late_process c (late_receive (fst sr) ms).
  Definition late_run (c : lconfig) (blocks : list (list (nat * late))) : lstate * res unit :=
    fold_left (late_block c) blocks (MkLState [] [], Ok tt).
  Definition processable (c : lconfig) (m : nat * late) : Prop := (fst m < f_objects c)%nat /\ nine (snd m) /\ timely (snd m).
  Definition answers (c : lconfig) (m : nat * late) (p : nat * list R) : Prop :=
    fst p = fst m /\ is_filter c (fst m) (snd m) (snd p).
  Fixpoint backlog (rate : nat) (b : nat) (sizes : list nat) : nat :=
    match sizes with [] => b | n :: r => backlog rate (b + n - rate) r end.

  Lemma late_block_ok c done q out r ms : sound c -> (0 <= f_fs c)%Qc -> Forall (processable c) (q ++ ms) -> Forall2 (answers c) done out ->
    exists d q' out', late_block c (MkLState q out, r) ms = (MkLState q' (out ++ out'), Ok tt)
      /\ q ++ ms = d ++ q' /\ Forall2 (answers c) (done ++ d) (out ++ out')
      /\ length q' = (length q + length ms - Nat.max 1 (f_updates c))%nat.
  Proof.
    intros S F P A. unfold late_block, late_process, late_receive. cbn [fst q_in q_out].
    destruct (late_loop_spec c (q ++ ms) out 0) as (d & q' & o & E1 & E2 & E3 & E4).
    { eapply Forall_impl; [|exact P]. intros m (H1 & H2 & H3). split; [exact H1|].
      destruct (filter_ok c (fst m) (snd m) S F H1 H2 H3) as (f & Hf & _). eauto. }
    exists d, q', o. split; [exact E2|]. split; [exact E1|]. split.
    - apply Forall2_app; [exact A|]. rewrite E1 in P. apply Forall_app in P as [P _]. clear - E3 P S F.
      induction E3 as [|m p d o [H1 H2] _ IH]; [constructor|]. inversion P as [|? ? (P1 & P2 & P3) P4]; subst.
      constructor; [|auto]. split; [exact H1|]. destruct (filter_ok c (fst m) (snd m) S F P1 P2 P3) as (f & Hf & Hi). congruence.
    - assert (L : length (q ++ ms) = (length d + length q')%nat) by (rewrite E1, app_length; reflexivity).
      rewrite app_length in *. rewrite Nat.sub_0_r in E4. lia.
  Qed.

  (** C68: messages are answered in order, one filter each; what is left waits, and the
      number of waiting messages is determined by the rate. *)
  Theorem C68_queue :
    forall c blocks, sound c -> (0 <= f_fs c)%Qc -> Forall (Forall (processable c)) blocks ->
    exists done waiting out, late_run c blocks = (MkLState waiting out, Ok tt)
      /\ concat blocks = done ++ waiting /\ Forall2 (answers c) done out
      /\ length waiting = backlog (Nat.max 1 (f_updates c)) 0 (map (@length _) blocks).
  Proof.
    intros c blocks S F P.
    assert (G : forall blocks done q out, Forall (Forall (processable c)) blocks -> Forall (processable c) q -> Forall2 (answers c) done out ->
      exists d w o, fold_left (late_block c) blocks (MkLState q out, Ok tt) = (MkLState w o, Ok tt)
        /\ q ++ concat blocks = d ++ w /\ Forall2 (answers c) (done ++ d) o
        /\ length w = backlog (Nat.max 1 (f_updates c)) (length q) (map (@length _) blocks)).
    { clear blocks P. induction blocks as [|ms bs IH]; intros done q out P Q A; cbn [fold_left map backlog concat].
      - exists [], q, out. rewrite !app_nil_r. auto.
      - inversion P as [|? ? P1 P2]; subst.
        destruct (late_block_ok c done q out (Ok tt) ms S F) as (d & q' & out' & E1 & E2 & E3 & E4); [now apply Forall_app|exact A|].
        rewrite E1. assert (Q' : Forall (processable c) q').
        { assert (X : Forall (processable c) (d ++ q')) by (rewrite <- E2; now apply Forall_app). now apply Forall_app in X as [_ X]. }
        destruct (IH (done ++ d) q' (out ++ out') P2 Q' E3) as (d2 & w & o & H1 & H2 & H3 & H4).
        exists (d ++ d2), w, o. split; [exact H1|]. split; [now rewrite <- app_assoc, <- H2, !app_assoc, E2|].
        split; [now rewrite app_assoc|]. now rewrite H4, E4. }
    destruct (G blocks [] [] [] P (Forall_nil _) (Forall2_nil _)) as (d & w & o & H). exists d, w, o. exact H.
  Qed.
  (** C68: nothing waits if no block brings more messages than are answered per block; the
      number grows without bound if every block does. *)
  Theorem C68_backlog :
    forall rate sizes,
    (Forall (fun n => n <= rate)%nat sizes -> backlog rate 0 sizes = 0%nat)
    /\ (Forall (fun n => rate < n)%nat sizes -> (length sizes <= backlog rate 0 sizes)%nat).
  Proof.
    clear. intros rate sizes. split.
    - induction 1 as [|n r H _ IH]; [reflexivity|]. cbn [backlog]. now replace (0 + n - rate)%nat with 0%nat by lia.
    - assert (G : forall b, Forall (fun n => rate < n)%nat sizes -> (b + length sizes <= backlog rate b sizes)%nat).
      { induction sizes as [|n r IH]; intros b H; cbn [backlog length]; [lia|]. inversion H; subst.
        specialize (IH (b + n - rate)%nat ltac:(assumption)). lia. }
      apply (G 0%nat).
  Qed.

  (** C68: a message for an object that does not exist stops the calculator for ever. *)
  Theorem C68_out_of_range :
    forall c m q out blocks, (f_objects c <= fst m)%nat ->
    fold_left (late_block c) blocks (MkLState (m :: q) out, Throw OutOfRange)
    = (MkLState (m :: q ++ concat blocks) out, Throw OutOfRange).
  Proof.
    intros c [i l] q out blocks H. cbn [fst] in H. revert q. induction blocks as [|ms bs IH]; intros q; cbn [fold_left concat].
    - now rewrite app_nil_r.
    - unfold late_block at 2, late_process, late_receive. cbn [fst q_in q_out app late_loop].
      destruct (Nat.leb_spec (f_objects c) i) as [K|K]; [|lia]. rewrite IH. now rewrite app_assoc.
  Qed.
End C68.
Print Assumptions C68_envelope.
Print Assumptions C68_envelope_bound.
Print Assumptions C68_filter.
Print Assumptions C68_silence.
Print Assumptions C68_queue.
Print Assumptions C68_backlog.
Print Assumptions C68_out_of_range.

(** ** From the scene to the filters *)
(** The last filter sent for a channel *)
Fixpoint last_filter (out : list (nat * list R)) (ch : nat) : option (list R) :=
  match out with
  | [] => None
  | (k, f) :: r => match last_filter r ch with
                   | Some x => Some x
                   | None => if (k =? ch)%nat then Some f else None
                   end
  end.
Lemma last_answers c ms out ch : Forall2 (answers c) ms out ->
  match last_sent ms ch with
  | Some l => exists f, last_filter out ch = Some f /\ is_filter c ch l f
  | None => last_filter out ch = None
  end.
Proof.
  induction 1 as [|[k l] [k' f] ms out [H1 H2] _ IH]; cbn [last_sent last_filter]; [reflexivity|]. cbn [fst snd] in *. subst k'.
  destruct (last_sent ms ch) as [x|].
  - destruct IH as (g & -> & G). eauto.
  - rewrite IH. destruct (Nat.eqb_spec k ch) as [E|E]; [subst k; eauto|reflexivity].
Qed.

Lemma after_snoc {B P : Type} (flat : B) (vbap : P -> list Qc) invalid c s0 h sc :
  after flat vbap invalid c s0 (h ++ [sc]) = fst (process flat vbap invalid c (after flat vbap invalid c s0 h) sc).
Proof. unfold after. now rewrite fold_left_app. Qed.

Section Chain.
  Context {B P : Type} (flat : B) (vbap : P -> list Qc) (invalid : nat) (c : config) (lc : lconfig).
  Hypothesis gains : forall x, length (vbap x) = c_speakers c.
  Hypothesis wide : (c_objects c * c_reflections c <= c_stride c)%nat.
  Hypothesis same : f_objects lc = c_objects c.
  Hypothesis Sc : sound lc.
  Hypothesis Fs : (0 <= f_fs lc)%Qc.

  (** the messages sent for a sequence of scenes, block by block *)
  Fixpoint messages (s : @state B) (history : list (@scene B P)) : list (list (nat * late)) :=
    match history with
    | [] => []
    | sc :: r => let s' := fst (process flat vbap invalid c s sc) in skipn (length (s_sent s)) (s_sent s') :: messages s' r
    end.
  Definition accepted (sc : @scene B P) : Prop :=
    valid_scene sc /\ few_objects c sc /\ few_reflections c sc /\ forall id ch rs l, In (id, Reverb ch rs l) sc -> timely l.

  Lemma timely_default : timely late_default.
  Proof. split; [apply Qcle_refl|]. repeat (constructor; [apply Qcle_refl|]). constructor. Qed.
  Lemma new_messages s sc : good c s -> accepted sc ->
    let s' := fst (process flat vbap invalid c s sc) in
    exists new, process flat vbap invalid c s sc = (s', Ok tt) /\ good c s' /\ s_sent s' = s_sent s ++ new
      /\ Forall (processable lc) new /\ (length new <= c_objects c)%nat.
  Proof using gains wide same.
    intros G (V & FO & FR & T). cbv zeta.
    destruct (process_cases flat vbap invalid c gains wide s sc G V)
      as [[L _]|(L & s' & a & G' & A & M & K & C)].
    { apply (few_found c sc V) in FO. lia. }
    pose proof G' as (J & I & MX). rewrite A in I, MX.
    destruct C as [((ch & Hc & OF) & _)|(_ & E' & _ & S & W)].
    { now apply (not_overfull c a sc I M V FR) in OF. }
    destruct G as (J0 & _). destruct J0 as [_ [LP LG]].
    destruct (sends_spec c wide a sc (seq 0 (c_objects c)) (s_previous s) (s_sent s)) as (new & N1 & N2 & N3).
    { apply seq_NoDup. } { intros ch Hc. apply in_seq in Hc. lia. }
    rewrite <- S in N1. cbn [snd] in N1. rewrite E'. cbn [fst]. exists new.
    split; [reflexivity|]. split; [exact G'|]. split; [exact N1|].
    assert (Pn : forall ch x, In (ch, x) new -> processable lc (ch, x) /\ In ch (seq 0 (c_objects c))).
    { intros ch x Hx. apply N2 in Hx as (H1 & -> & _). split; [|exact H1]. apply in_seq in H1. split; [cbn; lia|]. cbn [snd].
      split; [now apply wanted_nine|].
      destruct (owner_cases a sc ch I M V) as [[-> _]|(id & input & rs & l & -> & HI & _)]; [apply timely_default|].
      cbn. apply (T _ _ _ _ HI). }
    split.
    - apply Forall_forall. intros [ch x] Hx. now apply Pn.
    - rewrite <- (map_length fst), <- (seq_length (c_objects c) 0) . apply NoDup_incl_length; [exact N3|].
      intros ch Hc. apply in_map_iff in Hc as ([k x] & <- & Hx). now apply (Pn k x).
  Qed.
  Lemma skip_app {X} (a b : list X) : skipn (length a) (a ++ b) = b.
  Proof. induction a; [reflexivity|]. exact IHa. Qed.
  Lemma messages_ok history : forall s, good c s -> Forall accepted history ->
    Forall (Forall (processable lc)) (messages s history)
    /\ Forall (fun ms => length ms <= c_objects c)%nat (messages s history)
    /\ s_sent (after flat vbap invalid c s history) = s_sent s ++ concat (messages s history)
    /\ good c (after flat vbap invalid c s history).
  Proof using gains wide same.
    induction history as [|sc h IH]; intros s G A; cbn [messages concat].
    - split; [constructor|]. split; [constructor|]. split; [now rewrite app_nil_r|exact G].
    - inversion A as [|? ? A1 A2]; subst. destruct (new_messages s sc G A1) as (new & E & G' & S & N1 & N2).
      cbv zeta in *. set (s' := fst _) in *. rewrite S, skip_app.
      destruct (IH s' G' A2) as (H1 & H2 & H3 & H4). split; [now constructor|]. split; [now constructor|].
      change (after flat vbap invalid c s (sc :: h)) with (after flat vbap invalid c s' h). split; [|exact H4].
      rewrite H3, S. now rewrite app_assoc.
  Qed.

  (** C68: if as many filters as objects are calculated per block, which is the default of
      the calculator, then after every block the last filter sent for each channel is that
      of the parameters of its object, up to the tolerance of the calculator of parameters;
      nothing waits. *)
  Theorem C68_follows :
    forall s0 history sc, (c_objects c <= f_updates lc)%nat ->
    setup flat c 10 = Ok s0 -> Forall accepted history -> accepted sc ->
    let s := after flat vbap invalid c s0 (history ++ [sc]) in
    exists q, late_run lc (messages s0 (history ++ [sc])) = (q, Ok tt) /\ q_in q = []
      /\ forall ch x, (ch < c_objects c)%nat ->
           (exists id input rs, In (id, Reverb [input] rs x) sc /\ channel s id = Some ch)
           \/ ((forall id, channel s id <> Some ch) /\ x = late_default) ->
           exists p f, close p x /\ last_filter (q_out q) ch = Some f /\ is_filter lc ch p f.
  Proof using gains wide same Sc Fs.
    intros s0 history sc Fast E A As s.
    assert (G0 : good c s0) by now apply (setup_good flat c 10).
    assert (All : Forall accepted (history ++ [sc])) by (apply Forall_app; split; [exact A|now constructor]).
    destruct (messages_ok (history ++ [sc]) s0 G0 All) as (M1 & M2 & M3 & M4). fold s in M3, M4.
    destruct (C68_queue lc (messages s0 (history ++ [sc])) Sc Fs M1) as (d & w & out & Q1 & Q2 & Q3 & Q4).
    assert (W : w = []).
    { apply length_zero_iff_nil. rewrite Q4. apply (proj1 (C68_backlog _ _)).
      apply Forall_map. eapply Forall_impl; [|exact M2]. intros ms Hm. cbv beta in *. lia. }
    subst w. rewrite app_nil_r in Q2.
    exists (MkLState [] out). split; [exact Q1|]. split; [reflexivity|]. cbn [q_out].
    intros ch x Hc Hx.
    assert (S0 : s_sent s0 = []).
    { clear - E. unfold setup in E. change (Nat.eqb 10 sections) with true in E. cbn [negb] in E. apply Ok_inj in E. now rewrite <- E. }
    rewrite S0, Q2 in M3. cbn [app] in M3.
    assert (Vh : Forall valid_scene history) by (eapply Forall_impl; [|exact A]; intros ? H; apply H).
    destruct As as (V & FO & FR & T).
    destruct (C67_late_parameters flat vbap invalid c gains wide s0 history sc E Vh V FO FR) as (s' & new & P1 & P2 & P3 & P4).
    assert (Es : s = s').
    { subst s. unfold after. rewrite fold_left_app. cbn [fold_left]. fold (after flat vbap invalid c s0 history). now rewrite P1. }
    rewrite <- Es in *. destruct (P4 ch x Hc Hx) as [_ P5]. rewrite M3 in P5.
    pose proof (last_answers lc d out ch Q3) as L.
    destruct (last_sent d ch) as [p|]; [destruct L as (f & L1 & L2); eauto|].
    exfalso. assert (Tx : timely x).
    { destruct Hx as [(id & input & rs & HI & _)|[_ ->]]; [apply (T _ _ _ _ HI)|apply timely_default]. }
    destruct P5 as [[N _] _]. destruct Tx as [Tx _].
    assert (Lm : (limit < 1)%Qc) by reflexivity. change (l_onset unsent) with (- q1)%Qc in N. qclra.
  Qed.
End Chain.
Print Assumptions C68_follows.

(** ** Concrete cases *)
(** two objects, filters of three samples at a sampling frequency of one, all noise is one *)
Definition ones (updates : nat) : lconfig := MkLConfig 2 3 updates (Q2Qc 1) (repeat [1; 1; 1] 18).
Lemma ones_sound u : sound (ones u).
Proof. split; [cbn; lia|]. split; [reflexivity|]. repeat (constructor; [reflexivity|]). constructor. Qed.

Example C68_setup_example :
  exists c, late_setup (repeat (MkSection 1 0 0 0 0) 9) (fun o b i => INR (o + b + i)) 8 2 9 0 (Q2Qc (3 # 2)) (Q2Qc 2) = Ok c
    /\ f_length c = 3%nat /\ f_updates c = 2%nat /\ val (noise_at c 1 4) 2 = 31.
Proof.
  destruct (C68_setup (repeat (MkSection 1 0 0 0 0) 9) (fun o b i => INR (o + b + i)) 8 2 9 0 (Q2Qc (3 # 2)) (Q2Qc 2) eq_refl) as [_ H].
  destruct (H eq_refl) as (c & extra & E & _ & _ & _ & H1 & _ & H2 & X1 & _ & X2 & H3). clear H.
  assert (L : f_length c = 3%nat).
  { assert (A : (f_length c <= 3)%nat) by (apply H2; split; [repeat constructor|vm_compute; intros X0; discriminate X0]).
    assert (A2 : ~ (f_length c <= 2)%nat) by (intros F; apply H2 in F as [_ F]; vm_compute in F; apply F; reflexivity). lia. }
  assert (X : extra = 24%nat) by (destruct X2 as [(m & ->) X2]; lia).
  exists c. split; [exact E|]. split; [exact L|]. split; [now apply H1|].
  destruct (H3 1%nat 4%nat (MkSection 1 0 0 0 0)) as (y & [Ly Y] & Y0 & Y1 & Y2); [lia|reflexivity|].
  rewrite Y2 by lia. rewrite X. specialize (Y (24 + 2)%nat). rewrite L, X in Y.
  cbn [k_b0 k_b1 k_b2 k_a1 k_a2] in Y.
  assert (V : val (0 :: 0 :: map (fun i => INR (1 + 4 + i)) (seq 0 (3 + 24))) (S (S (24 + 2))) = 31).
  { unfold val. cbn [nth]. change (nth (24 + 2) (map (fun i => INR (1 + 4 + i)) (seq 0 (3 + 24))) 0) with (INR 31).
    rewrite INR_IZR_INZ. reflexivity. }
  change (2 + 24 + 2)%nat with (S (S (24 + 2))).
  assert (Q : (S (S (24 + 2)) < length ((0 :: 0 :: map (fun i => INR (1 + 4 + i)) (seq 0 (3 + 24)))%R))%nat) by (cbn; lia).
  specialize (Y Q). rewrite V in Y. lra.
Qed.

Example C68_envelope_example :
  exists e, envelope 6 (Q2Qc 1) (Q2Qc 3) (Q2Qc 2) (Q2Qc (-1)) (Q2Qc 1) = Ok e
    /\ is_envelope 6 1 2 (real (Q2Qc 3)) (exp (real (Q2Qc (-1) / Q2Qc 1)%Qc)) e.
Proof.
  assert (H1 : (- half < Q2Qc 1 * Q2Qc 1)%Qc) by reflexivity.
  assert (H2 : (- half < Q2Qc 2 * Q2Qc 1)%Qc) by reflexivity.
  destruct (C68_envelope 6 (Q2Qc 1) (Q2Qc 3) (Q2Qc 2) (Q2Qc (-1)) (Q2Qc 1) H1 H2) as [(d & a & e & E & D & A & H)|(_ & d & a & D & A & H)].
  - assert (Nr : forall x n, nearest (zq x) n -> (Z.of_nat n = x)).
    { intros x n [N1 N2]. pose proof half_twice as Hh. assert (P : (0 < half)%Qc) by reflexivity. unfold nq in *.
      assert (X1 : (Z.of_nat n <= x)%Z) by (apply zq_half_le; qclra).
      assert (X2 : (x <= Z.of_nat n)%Z) by (apply zq_half_le; exact N2). lia. }
    change (Q2Qc 1 * Q2Qc 1)%Qc with (zq 1) in D. change (Q2Qc 2 * Q2Qc 1)%Qc with (zq 2) in A.
    apply Nr in D, A. replace d with 1%nat in H by lia. replace a with 2%nat in H by lia. eauto.
  - exfalso. pose proof half_twice as Hh.
    assert (Nr : forall x n, nearest (zq x) n -> (Z.of_nat n = x)).
    { intros x n [N1 N2]. unfold nq in *.
      assert (X1 : (Z.of_nat n <= x)%Z) by (apply zq_half_le; qclra).
      assert (X2 : (x <= Z.of_nat n)%Z) by (apply zq_half_le; exact N2). lia. }
    change (Q2Qc 1 * Q2Qc 1)%Qc with (zq 1) in D. change (Q2Qc 2 * Q2Qc 1)%Qc with (zq 2) in A.
    apply Nr in D, A. lia.
Qed.

(** A band whose envelope is refused is reported as "skipping calculation", but the sum of
    the preceding bands is sent as the filter. *)
Theorem C68_skipped_refuted :
  exists c l f, sound c /\ nine l /\ timely l /\ (exists b, band_envelope c l b = Throw InvalidArgument)
    /\ impulse_response c 0 l (repeat 0 (f_length c)) = Ok f /\ val f 0 = 1.
Proof.
  set (l := MkLate (Q2Qc 0) (repeat (Q2Qc 1) 9) (repeat (Q2Qc 0) 9) (Q2Qc 0 :: Q2Qc 3 :: repeat (Q2Qc 0) 7)).
  assert (N : nine l) by (repeat split).
  assert (T : timely l) by (split; [vm_compute; intros X0; discriminate X0|repeat (constructor; [vm_compute; intros X0; discriminate X0|]); constructor]).
  assert (R0 : real (Q2Qc 1) = 1) by (unfold real; cbn; apply RMicromega.Q2R_1).
  destruct (C68_filter (ones 1) 0 l (ones_sound 1)) as (f & E & [L (envs & F1 & F2 & F3)] & _).
  { vm_compute; intros X0; discriminate X0. } { cbn. lia. } { exact N. } { exact T. }
  assert (B1 : band_envelope (ones 1) l 1 = Throw InvalidArgument) by reflexivity.
  exists (ones 1), l, f. split; [apply ones_sound|]. split; [exact N|]. split; [exact T|].
  split; [now exists 1%nat|]. split; [exact E|]. rewrite F3.
  destruct envs as [|e [|e2 envs]].
  - destruct F2 as [F2|[_ F2]]; discriminate.
  - specialize (F1 0%nat ltac:(cbn; lia)). unfold band_envelope in F1. cbn [nth] in F1.
    destruct (envelope_ok _ _ _ _ _ _ _ F1) as (d & a & D & A & H).
    assert (Z : forall n, nearest (par (l_attacks l) 0 * f_fs (ones 1))%Qc n -> n = 0%nat).
    { intros n [N1 _]. change (par (l_attacks l) 0 * f_fs (ones 1))%Qc with q0 in N1. destruct n as [|n]; [reflexivity|].
      exfalso. rewrite nq_S in N1. pose proof (nq_nonneg n). pose proof half_twice as Hh. assert (P : (0 < half)%Qc) by reflexivity. qclra. }
    change (l_onset l * f_fs (ones 1))%Qc with (par (l_attacks l) 0 * f_fs (ones 1))%Qc in D.
    apply Z in D, A. subst d a. destruct H as (_ & _ & _ & _ & _ & Pk & _). cbn [Nat.add] in Pk.
    cbn [mix]. rewrite Pk. change (par (l_levels l) 0) with (Q2Qc 1). rewrite R0.
    change (noise_at (ones 1) 0 0) with [1; 1; 1]. unfold val. cbn [nth]. ring.
  - specialize (F1 1%nat ltac:(cbn; lia)). rewrite B1 in F1. discriminate.
Qed.
Print Assumptions C68_skipped_refuted.

(** Nothing checks the parameters of a message: a negative delay is converted to an unsigned
    number, which is undefined. *)
Theorem C68_negative_refuted :
  exists c l, sound c /\ nine l /\ impulse_response c 0 l (repeat 0 (f_length c)) = UB.
Proof.
  exists (ones 1), (MkLate (- Q2Qc 1) (repeat (Q2Qc 1) 9) (repeat (Q2Qc 0) 9) (repeat (Q2Qc 0) 9))%Qc.
  split; [apply ones_sound|]. split; [repeat split|]. reflexivity.
Qed.
Print Assumptions C68_negative_refuted.

(** The renderer calculates one filter per block by default: two objects that keep changing
    make the queue grow without bound. *)
Definition moving (odd : bool) : @scene nat Z :=
  let l := MkLate (if odd then Q2Qc 1 else Q2Qc 0) (repeat (Q2Qc 1) 9) (repeat (Q2Qc 0) 9) (repeat (Q2Qc 0) 9) in
  [(1%Z, Reverb [4%nat] [] l); (3%Z, Reverb [5%nat] [] l)].
Fixpoint alternate (n : nat) (odd : bool) : list (@scene nat Z) :=
  match n with O => [] | S m => moving odd :: alternate m (negb odd) end.
Lemma moving_accepted b : accepted cfg (moving b).
Proof.
  assert (V : valid_scene (moving b)).
  { split; [repeat constructor; cbn; lia|]. split.
    - intros id o [[= <- _]|[[= <- _]|[]]]; lia.
    - intros id ch rs l [[= _ _ <- <-]|[[= _ _ <- <-]|[]]]; (split; [repeat split|constructor]). }
  split; [exact V|]. split; [apply (few_found cfg _ V); cbn; lia|]. split.
  - intros id input rs l [[= _ _ <- _]|[[= _ _ <- _]|[]]]; cbn; lia.
  - intros id ch rs l [[= _ _ <- <-]|[[= _ _ <- <-]|[]]]; (split; [destruct b; vm_compute; intros X0; discriminate X0|repeat (constructor; [vm_compute; intros X0; discriminate X0|]); constructor]).
Qed.
Definition moving_late (odd : bool) : late :=
  MkLate (if odd then Q2Qc 1 else Q2Qc 0) (repeat (Q2Qc 1) 9) (repeat (Q2Qc 0) 9) (repeat (Q2Qc 0) 9).
Definition stale (s : @state nat) (x : late) : Prop :=
  forall ch, (ch < 2)%nat -> ~ close (match last_sent (s_sent s) ch with Some p => p | None => unsent end) x.
Lemma close_onset p b : close p (moving_late b) -> ~ close p (moving_late (negb b)).
Proof.
  intros [[A1 A2] _] [[B1 B2] _]. cbn [moving_late l_onset] in *.
  assert (L : (limit + limit < 1)%Qc) by reflexivity.
  destruct b; cbn [negb] in *; change (Q2Qc 1) with q1 in *; qclra.
Qed.
Lemma moving_step history b : Forall valid_scene history ->
  let s := after 0%nat pan 99 cfg s_start history in
  let s' := fst (process 0%nat pan 99 cfg s (moving b)) in
  stale s (moving_late b) ->
  (2 <= length (skipn (length (s_sent s)) (s_sent s')))%nat /\ stale s' (moving_late (negb b)).
Proof.
  intros H s s' St. destruct C67_example_hypotheses as (Gn & Wd & Su & _).
  destruct (moving_accepted b) as (V & FO & FR & _).
  destruct (C67_late_parameters 0%nat pan 99 cfg Gn Wd s_start history (moving b) Su H V FO FR) as (t & new & P1 & P2 & P3 & P4).
  destruct (C67_outputs 0%nat pan 99 cfg Gn Wd s_start history (moving b) Su H V FO FR) as (t' & P1' & P5 & _).
  fold s in P1, P1', P2, P4, P5. assert (E : t' = t) by congruence. subst t'.
  assert (E : s' = t) by (subst s'; now rewrite P1). clearbody s'. subst s'.
  destruct (P5 1%Z 4%nat [] (moving_late b)) as (c1 & C1 & B1 & X1 & _); [now left|].
  destruct (P5 3%Z 5%nat [] (moving_late b)) as (c2 & C2 & B2 & X2 & _); [right; now left|].
  cbn [cfg c_objects] in B1, B2.
  assert (D : c1 <> c2) by (intros <-; apply X1 in C2; discriminate).
  assert (Own : forall ch, (ch < 2)%nat -> exists id input rs, In (id, Reverb [input] rs (moving_late b)) (moving b) /\ channel t id = Some ch).
  { intros ch Hc. assert (Q : ch = c1 \/ ch = c2) by lia. destruct Q as [-> | ->].
    - exists 1%Z, 4%nat, []. split; [now left|exact C1].
    - exists 3%Z, 5%nat, []. split; [right; now left|exact C2]. }
  rewrite P2, skip_app. split.
  - assert (I : forall ch, (ch < 2)%nat -> In ch (map fst new)).
    { intros ch Hc. destruct (P4 ch (moving_late b)) as [Q _]; [exact Hc|left; now apply Own|].
      apply in_map_iff. exists (ch, moving_late b). split; [reflexivity|]. apply Q. split; [reflexivity|]. now apply St. }
    rewrite <- (map_length fst). change 2%nat with (length [0%nat; 1%nat]). apply NoDup_incl_length.
    + repeat constructor; cbn; lia.
    + intros ch [<-|[<-|[]]]; apply I; lia.
  - intros ch Hc. destruct (P4 ch (moving_late b)) as [_ Q]; [exact Hc|left; now apply Own|].
    rewrite P2 in Q. rewrite P2. destruct (last_sent (s_sent s ++ new) ch); now apply close_onset.
Qed.
Lemma moving_messages n : forall history b, Forall valid_scene history ->
  let s := after 0%nat pan 99 cfg s_start history in stale s (moving_late b) ->
  Forall (fun ms => 2 <= length ms)%nat (messages 0%nat pan 99 cfg s (alternate n b)).
Proof.
  induction n as [|n IH]; intros history b H s St; cbn [alternate messages]; [constructor|].
  destruct (moving_step history b H St) as [M St']. constructor; [exact M|].
  fold s in St'. set (s' := fst _) in *.
  assert (E : s' = after 0%nat pan 99 cfg s_start (history ++ [moving b])).
  { unfold after. rewrite fold_left_app. reflexivity. }
  rewrite E. apply IH; [apply Forall_app; split; [exact H|]; constructor; [apply moving_accepted|constructor]|].
  now rewrite <- E.
Qed.
Theorem C68_renderer_default_refuted :
  forall n, exists history, length history = n /\ Forall (accepted cfg) history
    /\ (n <= length (q_in (fst (late_run (ones 1) (messages 0%nat pan 99 cfg s_start history)))))%nat.
Proof.
  intros n. exists (alternate n false).
  assert (L : forall n b, length (alternate n b) = n) by (clear; induction n; intros b; cbn; auto).
  assert (A : forall n b, Forall (accepted cfg) (alternate n b)).
  { clear. induction n; intros b; constructor; [apply moving_accepted|auto]. }
  split; [apply L|]. split; [apply A|].
  destruct C67_example_hypotheses as (Gn & Wd & Su & _).
  assert (G0 : good cfg s_start) by exact (setup_good 0%nat cfg 10 s_start Su).
  destruct (messages_ok 0%nat pan 99 cfg (ones 1) Gn Wd eq_refl (alternate n false) s_start G0 (A n false)) as (M1 & _).
  assert (F0 : (0 <= f_fs (ones 1))%Qc) by (vm_compute; intros X0; discriminate X0).
  destruct (C68_queue (ones 1) _ (ones_sound 1) F0 M1) as (d & w & out & Q1 & _ & _ & Q4).
  rewrite Q1. cbn [fst q_in]. rewrite Q4. cbn [ones f_updates Nat.max].
  assert (M : Forall (fun ms => 2 <= length ms)%nat (messages 0%nat pan 99 cfg s_start (alternate n false))).
  { apply (moving_messages n [] false); [constructor|]. intros ch Hc [[N _] _].
    change (last_sent (s_sent (after 0%nat pan 99 cfg s_start [])) ch) with (@None late) in N. cbv iota in N.
    change (l_onset unsent) with (- q1)%Qc in N. cbn [moving_late l_onset] in N.
    assert (Lm : (limit < 1)%Qc) by reflexivity. qclra. }
  assert (K : forall n b s, length (messages 0%nat pan 99 cfg s (alternate n b)) = n).
  { clear. induction n; intros b s; cbn [alternate messages length]; auto. }
  rewrite <- (K n false s_start) at 1. rewrite <- (map_length (@length _)). apply C68_backlog.
  apply Forall_map. eapply Forall_impl; [|exact M]. intros ms Hm. exact Hm.
Qed.
Print Assumptions C68_renderer_default_refuted.

(** The hypotheses of C68_follows hold for two moving objects and two updates per block. *)
Example C68_follows_example :
  exists q, late_run (ones 2) (messages 0%nat pan 99 cfg s_start [moving true; moving false]) = (q, Ok tt) /\ q_in q = []
    /\ exists p f ch, close p (moving_late false) /\ last_filter (q_out q) ch = Some f /\ is_filter (ones 2) ch p f.
Proof.
  destruct C67_example_hypotheses as (Gn & Wd & Su & _).
  assert (F0 : (0 <= f_fs (ones 2))%Qc) by (vm_compute; intros X0; discriminate X0).
  destruct (C68_follows 0%nat pan 99 cfg (ones 2) Gn Wd eq_refl (ones_sound 2) F0 s_start [moving true] (moving false))
    as (q & Q1 & Q2 & Q3); [cbn; lia|exact Su|constructor; [apply moving_accepted|constructor]|apply moving_accepted|].
  exists q. split; [exact Q1|]. split; [exact Q2|].
  assert (Vt : Forall valid_scene [moving true]) by (constructor; [apply moving_accepted|constructor]).
  destruct (moving_accepted false) as (V & FO & FR & _).
  destruct (C67_outputs 0%nat pan 99 cfg Gn Wd s_start [moving true] (moving false) Su Vt V FO FR) as (t & P1 & P5 & _).
  destruct (P5 1%Z 4%nat [] (moving_late false)) as (ch & C1 & B1 & _); [now left|].
  destruct (Q3 ch (moving_late false)) as (p & f & H); [exact B1| |exists p, f, ch; exact H].
  left. exists 1%Z, 4%nat, []. split; [now left|].
  rewrite (after_snoc 0%nat pan 99 cfg s_start [moving true] (moving false)), P1. exact C1.
Qed.
