(** Properties C20 and C21: parameter transitions of rcl::DelayVector and rcl::DelayMatrix. *)
From Verif Require Import Base Num Memory CircularBufferModel CircularBufferProofs RampModel
  LagrangeModel DelayLineModel DelayLineProofs DelayLineProps GainModel GainProofs
  DelayVectorModel DelayVectorProofs DelayMatrixProofs.
Local Open Scope Qc_scope.

Lemma nth_map_seq {A} (f : nat -> A) n d t : (t < n)%nat -> nth t (map f (seq 0 n)) d = f t.
Proof.
  intros H. rewrite (nth_indep _ d (f 0%nat)) by (rewrite map_length, seq_length; exact H).
  rewrite map_nth, seq_nth by exact H. reflexivity.
Qed.

(** Parameters of a component under consideration. *)
Record config := MkConfig {
  k_channels : nat; k_block : nat; k_max : nat; k_order : nat; k_align : nat;
  k_fs : Qc; k_pol : policy; k_steps : nat; k_delays : list Qc; k_gains : list Qc }.
Definition k_new (k : config) : res dvec :=
  dv_new (k_channels k) (k_fs k) (k_block k) (k_max k) (k_order k) (k_align k) (k_pol k)
         (k_steps k) (k_delays k) (k_gains k).
Definition k_blocks (k : config) : nat := (k_steps k / k_block k)%nat.

(** [v] is reached from construction by the calls [ops] (gains/delays set, blocks processed). *)
Definition dv_reached (k : config) (ops : list dv_op) (v : dvec) : Prop :=
  Forall (dv_op_ok (k_channels k) (k_block k)) ops /\
  exists v0 outs, k_new k = Ok v0 /\ dv_run v0 ops = Ok (v, outs).

Definition k_inv (k : config) (v : dvec) (h : nat -> list Qc) (gt dt : list Qc * nat) : Prop :=
  dv_inv (k_channels k) (k_block k) (k_max k) (k_order k) (k_align k) (k_fs k) (k_pol k)
         (k_blocks k) v h gt dt.

Lemma src_read_inv {A} (l : list A) n r : src_read l n = Ok r -> r = firstn n l /\ length r = n.
Proof.
  unfold src_read, mem_read. destruct (Nat.leb_spec (0 + n) (length l)); [|discriminate].
  intros E. injection E as <-. split; [reflexivity|]. cbn [skipn]. rewrite firstn_length. lia.
Qed.

Lemma k_new_inv k v : k_new k = Ok v -> (1 <= k_block k)%nat /\ (1 <= k_blocks k)%nat
  /\ k_inv k v (fun _ => []) (firstn (k_channels k) (k_gains k), 0%nat)
           (firstn (k_channels k) (k_delays k), 0%nat).
Proof.
  unfold k_new, dv_new. destruct (Nat.eqb_spec (k_block k) 0); [discriminate|].
  destruct (negb _); [discriminate|].
  fold (k_blocks k). destruct (Nat.ltb_spec (k_blocks k) 1); [discriminate|].
  destruct (src_read (k_gains k) (k_channels k)) as [g| |] eqn:Eg; cbn [bind]; try discriminate.
  destruct (src_read (k_delays k) (k_channels k)) as [d| |] eqn:Ed; cbn [bind]; try discriminate.
  intros E. injection E as <-.
  apply src_read_inv in Eg as [-> Lg]. apply src_read_inv in Ed as [-> Ld].
  split; [lia|]. split; [lia|]. constructor; cbn; try reflexivity; try (split; [reflexivity|lia]).
  - apply dl_new_inv. lia.
  - repeat split; cbn; auto; lia.
  - repeat split; cbn; auto; lia.
Qed.

Lemma reached_inv k ops v : dv_reached k ops v ->
  (1 <= k_max k + k_block k)%nat /\ (1 <= k_blocks k)%nat /\
  k_inv k v (input_history ops)
    (fold_left gain_track ops (firstn (k_channels k) (k_gains k), 0%nat))
    (fold_left delay_track ops (firstn (k_channels k) (k_delays k), 0%nat)).
Proof.
  intros (Hops & v0 & outs & E0 & Er).
  destruct (k_new_inv k v0 E0) as (Hb & Hbl & I0). split; [lia|]. split; [exact Hbl|].
  eapply dv_run_inv in I0; [exact I0| lia|exact Hbl|exact Hops|exact Er].
Qed.

(** *** C20 *)

(** While no parameter is set the values are continuous from block to block: every block
    starts where its predecessor ended.  *)
Theorem C20_blocks_join :
  forall k ops v x v' out ch, dv_reached k ops v -> dv_reached k (ops ++ [DvProcess x]) v' ->
    dv_process v x = Ok (v', out) -> (ch < k_channels k)%nat ->
    param_start (dv_blocks v') (dv_gain v') ch = param_end (dv_blocks v) (dv_gain v) ch
    /\ param_start (dv_blocks v') (dv_delay v') ch = param_end (dv_blocks v) (dv_delay v) ch.
Proof.
  intros k ops v x v' out ch R R' E Hch.
  destruct (reached_inv k ops v R) as (Hl & Hb & I).
  destruct R' as (Hops & _). apply Forall_app in Hops as [_ Hops].
  apply Forall_cons_iff in Hops as [[Hx1 Hx2] _].
  pose proof (dv_process_inv _ _ _ _ _ _ _ _ Hl Hb v _ _ _ x v' out I Hx1 Hx2 E)
    as (I' & Eg & Ed & _).
  rewrite (vi_blocks _ _ _ _ _ _ _ _ _ _ _ _ I), (vi_blocks _ _ _ _ _ _ _ _ _ _ _ _ I').
  pose proof (vi_gain _ _ _ _ _ _ _ _ _ _ _ _ I) as G. pose proof (vi_delay _ _ _ _ _ _ _ _ _ _ _ _ I) as D.
  pose proof (vi_gain _ _ _ _ _ _ _ _ _ _ _ _ I') as G'. pose proof (vi_delay _ _ _ _ _ _ _ _ _ _ _ _ I') as D'.
  rewrite (param_start_ok _ _ _ _ G' Hch), (param_start_ok _ _ _ _ D' Hch),
          (param_end_ok _ _ _ _ G Hch), (param_end_ok _ _ _ _ D Hch), Eg, Ed. auto.
Qed.
Print Assumptions C20_blocks_join.

(** Where a new transition really starts.  [a] and [b] are start and target of the running
    transition and [m] is its momentary value (with which the next block would have begun):
    the new one starts at a + b - m, the mirror image of m. *)
Theorem C20_new_gain_transition_starts_mirrored :
  forall k ops v g v' ch, dv_reached k ops v -> dv_set_gain v g = Ok v' -> (ch < k_channels k)%nat ->
  exists a b m, nth_error (p_cur (dv_gain v)) ch = Some a /\ nth_error (p_next (dv_gain v)) ch = Some b
    /\ param_start (dv_blocks v) (dv_gain v) ch = Ok m
    /\ param_start (dv_blocks v') (dv_gain v') ch
       = Ok (if Nat.ltb (p_counter (dv_gain v)) (k_blocks k) then a + b - m else m).
Proof.
  intros k ops v g v' ch R E Hch.
  destruct (reached_inv k ops v R) as (Hl & Hb & I).
  destruct (dv_set_gain_inv _ _ _ _ _ _ _ _ Hl Hb v _ _ _ g v' I E) as [I' K].
  rewrite (vi_blocks _ _ _ _ _ _ _ _ _ _ _ _ I), (vi_blocks _ _ _ _ _ _ _ _ _ _ _ _ I').
  pose proof (vi_gain _ _ _ _ _ _ _ _ _ _ _ _ I) as G. pose proof (vi_gain _ _ _ _ _ _ _ _ _ _ _ _ I') as G'.
  exists (origin (dv_gain v) ch), (target (dv_gain v) ch), (boundary (k_blocks k) (dv_gain v) ch).
  destruct G as (L1 & L2 & L3) eqn:EG. 
  split; [apply nth_error_nth'; rewrite L1; exact Hch|]. split; [apply nth_error_nth'; rewrite L2; exact Hch|].
  split; [exact (param_start_ok _ _ _ _ G Hch)|].
  rewrite (param_start_ok _ _ _ _ G' Hch), (K ch Hch). destruct (Nat.ltb _ _); reflexivity.
Qed.
Print Assumptions C20_new_gain_transition_starts_mirrored.

Theorem C20_new_delay_transition_starts_mirrored :
  forall k ops v d v' ch, dv_reached k ops v -> dv_set_delay v d = Ok v' -> (ch < k_channels k)%nat ->
  exists a b m, nth_error (p_cur (dv_delay v)) ch = Some a /\ nth_error (p_next (dv_delay v)) ch = Some b
    /\ param_start (dv_blocks v) (dv_delay v) ch = Ok m
    /\ param_start (dv_blocks v') (dv_delay v') ch
       = Ok (if Nat.ltb (p_counter (dv_delay v)) (k_blocks k) then a + b - m else m).
Proof.
  intros k ops v d v' ch R E Hch.
  destruct (reached_inv k ops v R) as (Hl & Hb & I).
  destruct (dv_set_delay_inv _ _ _ _ _ _ _ _ Hl Hb v _ _ _ d v' I E) as [I' K].
  rewrite (vi_blocks _ _ _ _ _ _ _ _ _ _ _ _ I), (vi_blocks _ _ _ _ _ _ _ _ _ _ _ _ I').
  pose proof (vi_delay _ _ _ _ _ _ _ _ _ _ _ _ I) as G. pose proof (vi_delay _ _ _ _ _ _ _ _ _ _ _ _ I') as G'.
  exists (origin (dv_delay v) ch), (target (dv_delay v) ch), (boundary (k_blocks k) (dv_delay v) ch).
  destruct G as (L1 & L2 & L3) eqn:EG. 
  split; [apply nth_error_nth'; rewrite L1; exact Hch|]. split; [apply nth_error_nth'; rewrite L2; exact Hch|].
  split; [exact (param_start_ok _ _ _ _ G Hch)|].
  rewrite (param_start_ok _ _ _ _ G' Hch), (K ch Hch). destruct (Nat.ltb _ _); reflexivity.
Qed.
Print Assumptions C20_new_delay_transition_starts_mirrored.

(** Strongest true version of C20.  In every reachable state, a call of setGain() or
    setDelay() keeps the momentary value of a channel exactly if the last transition is
    finished, is half-way through, or does not change the channel.  [n] is the number of
    blocks since the parameter was set last.  Missing for the full statement: all other
    phases, for which it is false. *)
Theorem C20_continuous_iff_partial :
  forall k ops v new v' ch, dv_reached k ops v -> (ch < k_channels k)%nat ->
    (dv_set_gain v new = Ok v' ->
     let n := snd (fold_left gain_track ops (firstn (k_channels k) (k_gains k), 0%nat)) in
     (param_start (dv_blocks v') (dv_gain v') ch = param_start (dv_blocks v) (dv_gain v) ch
      <-> (k_blocks k <= n)%nat \/ (2 * n = k_blocks k)%nat
          \/ nth_error (p_cur (dv_gain v)) ch = nth_error (p_next (dv_gain v)) ch))
    /\ (dv_set_delay v new = Ok v' ->
     let n := snd (fold_left delay_track ops (firstn (k_channels k) (k_delays k), 0%nat)) in
     (param_start (dv_blocks v') (dv_delay v') ch = param_start (dv_blocks v) (dv_delay v) ch
      <-> (k_blocks k <= n)%nat \/ (2 * n = k_blocks k)%nat
          \/ nth_error (p_cur (dv_delay v)) ch = nth_error (p_next (dv_delay v)) ch)).
Proof.
  intros k ops v new v' ch R Hch.
  destruct (reached_inv k ops v R) as (Hl & Hb & I).
  assert (Core : forall (p p' : param) n, param_ok (k_blocks k) (k_channels k) p ->
     param_ok (k_blocks k) (k_channels k) p' -> p_counter p = Nat.min (k_blocks k) n ->
     boundary (k_blocks k) p' ch = (if Nat.ltb (p_counter p) (k_blocks k)
          then origin p ch + target p ch - boundary (k_blocks k) p ch
          else boundary (k_blocks k) p ch) ->
     (param_start (k_blocks k) p' ch = param_start (k_blocks k) p ch
      <-> (k_blocks k <= n)%nat \/ (2 * n = k_blocks k)%nat
          \/ nth_error (p_cur p) ch = nth_error (p_next p) ch)).
  { intros p p' n P P' Ec K.
    rewrite (param_start_ok _ _ _ _ P Hch), (param_start_ok _ _ _ _ P' Hch), K.
    pose proof (mirrored_continuous (k_blocks k) (k_channels k) p ch Hb P) as M.
    destruct P as (L1 & L2 & L3).
    rewrite (nth_error_nth' (p_cur p) 0), (nth_error_nth' (p_next p) 0) by lia.
    fold (origin p ch). fold (target p ch).
    destruct (Nat.ltb_spec (p_counter p) (k_blocks k)).
    - assert (En : p_counter p = n) by lia. rewrite En in *. split.
      + intros X. apply Ok_inj in X. apply M in X as [X|X].
        * right. right. now rewrite X.
        * right. left. exact X.
      + intros [X|[X|X]].
        * lia.
        * f_equal. apply M. right. exact X.
        * f_equal. apply M. left. exact (Some_inj _ _ X).
    - split; [intros _; left; lia|reflexivity]. }
  split; intros E; cbv zeta.
  - destruct (dv_set_gain_inv _ _ _ _ _ _ _ _ Hl Hb v _ _ _ new v' I E) as [I' K].
    rewrite (vi_blocks _ _ _ _ _ _ _ _ _ _ _ _ I), (vi_blocks _ _ _ _ _ _ _ _ _ _ _ _ I').
    apply Core; [apply (vi_gain _ _ _ _ _ _ _ _ _ _ _ _ I)|apply (vi_gain _ _ _ _ _ _ _ _ _ _ _ _ I')|
      apply (vi_gt _ _ _ _ _ _ _ _ _ _ _ _ I)|apply K; exact Hch].
  - destruct (dv_set_delay_inv _ _ _ _ _ _ _ _ Hl Hb v _ _ _ new v' I E) as [I' K].
    rewrite (vi_blocks _ _ _ _ _ _ _ _ _ _ _ _ I), (vi_blocks _ _ _ _ _ _ _ _ _ _ _ _ I').
    apply Core; [apply (vi_delay _ _ _ _ _ _ _ _ _ _ _ _ I)|apply (vi_delay _ _ _ _ _ _ _ _ _ _ _ _ I')|
      apply (vi_dt _ _ _ _ _ _ _ _ _ _ _ _ I)|apply K; exact Hch].
Qed.
Print Assumptions C20_continuous_iff_partial.

(** The audio output of a block: delayed and scaled input where delay and gain move
    linearly between the values at the ends of the block. *)
Theorem C20_output_between_block_ends :
  forall k ops v x, dv_reached k ops v ->
    length x = k_channels k -> Forall (fun l => length l = k_block k) x ->
    (forall ch, (ch < k_channels k)%nat -> exists sd ed,
        param_start (dv_blocks v) (dv_delay v) ch = Ok sd /\ param_end (dv_blocks v) (dv_delay v) ch = Ok ed
        /\ admissible (k_max k) (k_order k) (k_pol k) (sd * k_fs k)
        /\ admissible (k_max k) (k_order k) (k_pol k) (ed * k_fs k)) ->
    exists v' out, dv_process v x = Ok (v', out) /\ length out = k_channels k
      /\ forall ch, (ch < k_channels k)%nat -> exists sd ed sg eg,
        param_start (dv_blocks v) (dv_delay v) ch = Ok sd /\ param_end (dv_blocks v) (dv_delay v) ch = Ok ed
        /\ param_start (dv_blocks v) (dv_gain v) ch = Ok sg /\ param_end (dv_blocks v) (dv_gain v) ch = Ok eg
        /\ nth ch out [] = interpolated (k_order k) (input_history ops ch ++ nth ch x []) (k_block k)
                             (adjusted (k_order k) (k_pol k) (sd * k_fs k))
                             (adjusted (k_order k) (k_pol k) (ed * k_fs k)) sg eg.
Proof.
  intros k ops v x R Hx1 Hx2 Adm.
  destruct (reached_inv k ops v R) as (Hl & Hb & I).
  pose proof (vi_gain _ _ _ _ _ _ _ _ _ _ _ _ I) as G. pose proof (vi_delay _ _ _ _ _ _ _ _ _ _ _ _ I) as D.
  pose proof (vi_blocks _ _ _ _ _ _ _ _ _ _ _ _ I) as B. rewrite B in *.
  assert (Adm' : forall ch, (ch < k_channels k)%nat ->
       admissible (k_max k) (k_order k) (k_pol k) (boundary (k_blocks k) (dv_delay v) ch * k_fs k)
       /\ admissible (k_max k) (k_order k) (k_pol k) (boundary (k_blocks k) (advance (k_blocks k) (dv_delay v)) ch * k_fs k)).
  { intros ch Hch. destruct (Adm ch Hch) as (sd & ed & E1 & E2 & A1 & A2).
    rewrite (param_start_ok _ _ _ _ D Hch) in E1. rewrite (param_end_ok _ _ _ _ D Hch) in E2.
    apply Ok_inj in E1. apply Ok_inj in E2. subst sd ed. split; assumption. }
  destruct (dv_process_ok _ _ _ _ _ _ _ _ Hl Hb v _ _ _ x I Hx1 Hx2 Adm') as (v' & out & E).
  exists v', out. split; [exact E|].
  destruct (dv_process_inv _ _ _ _ _ _ _ _ Hl Hb v _ _ _ x v' out I Hx1 Hx2 E) as (I' & Eg & Ed & Lo & O).
  split; [exact Lo|]. intros ch Hch. do 4 eexists.
  split; [exact (param_start_ok _ _ _ _ D Hch)|]. split; [exact (param_end_ok _ _ _ _ D Hch)|].
  split; [exact (param_start_ok _ _ _ _ G Hch)|]. split; [exact (param_end_ok _ _ _ _ G Hch)|].
  specialize (O ch Hch). rewrite Eg, Ed in O. destruct (Adm' ch Hch) as [A1 A2].
  rewrite (dl_interpolate_ok _ _ _ _ _ _ _ Hl _ _ ch (k_block k) _ _ _ _ _ _
     (vi_line _ _ _ _ _ _ _ _ _ _ _ _ I') Hch (le_n _) eq_refl eq_refl A1 A2) in O.
  apply Ok_inj in O; rewrite <- O. reflexivity.
Qed.
Print Assumptions C20_output_between_block_ends.

(** C20 is false of the code: four blocks of transition time, gain set to 1, after one
    block the gain is 1/4; setting it to 1 again makes it jump to 3/4. *)
Definition jump_config : config :=
  MkConfig 1 1 4 0 1 1 PAdd 4 [0] [0].
Definition no_dvec : dvec := MkDvec (dl_new 0 0 0 0 0 0 PAdd) 0 0 (MkParam [] [] 0) (MkParam [] [] 0).
Definition run_config (k : config) (ops : list dv_op) : dvec :=
  fst (the (no_dvec, []) (dv_run (the no_dvec (k_new k)) ops)).
Lemma run_config_reached k ops : Forall (dv_op_ok (k_channels k) (k_block k)) ops ->
  is_ok (k_new k) = true -> is_ok (dv_run (the no_dvec (k_new k)) ops) = true ->
  dv_reached k ops (run_config k ops).
Proof.
  intros H E1 E2. split; [exact H|]. exists (the no_dvec (k_new k)).
  exists (snd (the (no_dvec, []) (dv_run (the no_dvec (k_new k)) ops))).
  split; [apply the_ok; exact E1|]. unfold run_config. rewrite <- surjective_pairing. apply the_ok. exact E2.
Qed.
Theorem C20_running_transition_jumps_refuted :
  exists k ops v g v' ch m m',
    dv_reached k ops v /\ dv_set_gain v g = Ok v' /\ (ch < k_channels k)%nat
    /\ param_start (dv_blocks v) (dv_gain v) ch = Ok m
    /\ param_start (dv_blocks v') (dv_gain v') ch = Ok m' /\ this m = (1 # 4)%Q /\ this m' = (3 # 4)%Q.
Proof.
  set (ops := [DvGain [1]; DvProcess [[1]]]). set (v := run_config jump_config ops).
  set (v' := the no_dvec (dv_set_gain v [1])).
  exists jump_config, ops, v, [1], v', 0%nat.
  exists (the 0 (param_start (dv_blocks v) (dv_gain v) 0)).
  exists (the 0 (param_start (dv_blocks v') (dv_gain v') 0)).
  split; [|split; [|split; [|split; [|split]]]].
  - apply run_config_reached; [repeat constructor| |]; vm_compute; reflexivity.
  - apply the_ok. vm_compute. reflexivity.
  - repeat constructor.
  - apply the_ok. vm_compute. reflexivity.
  - apply the_ok. vm_compute. reflexivity.
  - split; vm_compute; reflexivity.
Qed.
Print Assumptions C20_running_transition_jumps_refuted.

(** *** C21 *)

(** After [k_blocks] blocks without a new gain (delay) the gain (delay) is constant and
    equals the value set last, however the calls before were ordered. *)
Theorem C21_target_applied :
  forall k ops v ch, dv_reached k ops v -> (ch < k_channels k)%nat ->
    (forall g n, fold_left gain_track ops (firstn (k_channels k) (k_gains k), 0%nat) = (g, n) ->
       (k_blocks k <= n)%nat ->
       param_start (dv_blocks v) (dv_gain v) ch = Ok (nth ch g 0)
       /\ param_end (dv_blocks v) (dv_gain v) ch = Ok (nth ch g 0))
    /\ (forall d n, fold_left delay_track ops (firstn (k_channels k) (k_delays k), 0%nat) = (d, n) ->
       (k_blocks k <= n)%nat ->
       param_start (dv_blocks v) (dv_delay v) ch = Ok (nth ch d 0)
       /\ param_end (dv_blocks v) (dv_delay v) ch = Ok (nth ch d 0)).
Proof.
  intros k ops v ch R Hch.
  destruct (reached_inv k ops v R) as (Hl & Hb & I).
  pose proof (vi_gain _ _ _ _ _ _ _ _ _ _ _ _ I) as G. pose proof (vi_delay _ _ _ _ _ _ _ _ _ _ _ _ I) as D.
  rewrite (vi_blocks _ _ _ _ _ _ _ _ _ _ _ _ I).
  destruct (vi_gt _ _ _ _ _ _ _ _ _ _ _ _ I) as [G1 G2]. destruct (vi_dt _ _ _ _ _ _ _ _ _ _ _ _ I) as [D1 D2].
  assert (Core : forall p q n, param_ok (k_blocks k) (k_channels k) p -> p_next p = q ->
    p_counter p = Nat.min (k_blocks k) n -> (k_blocks k <= n)%nat ->
    param_start (k_blocks k) p ch = Ok (nth ch q 0) /\ param_end (k_blocks k) p ch = Ok (nth ch q 0)).
  { intros p q n P <- Ec Hn. rewrite Nat.min_l in Ec by exact Hn.
    rewrite (param_start_ok _ _ _ _ P Hch), (param_end_ok _ _ _ _ P Hch).
    unfold boundary, advance. cbn [p_cur p_next p_counter]. rewrite Ec.
    rewrite Nat.min_l by lia. rewrite counter_ratio_full, blend_1 by exact Hb. auto. }
  split; intros q n E Hn; rewrite E in *; cbn [fst snd] in *.
  - exact (Core _ _ n G G1 G2 Hn).
  - exact (Core _ _ n D D1 D2 Hn).
Qed.
Print Assumptions C21_target_applied.

(** The same about the audio: if gain and delay were both set at least [k_blocks] blocks
    ago and the requested total delay of the channel is T samples, the next block is the input
    T samples ago times the gain. *)
Theorem C21_output_after_transition :
  forall k ops v x ch g ng d nd T,
    dv_reached k ops v -> length x = k_channels k -> Forall (fun l => length l = k_block k) x ->
    fold_left gain_track ops (firstn (k_channels k) (k_gains k), 0%nat) = (g, ng) ->
    fold_left delay_track ops (firstn (k_channels k) (k_delays k), 0%nat) = (d, nd) ->
    (k_blocks k <= ng)%nat -> (k_blocks k <= nd)%nat -> (ch < k_channels k)%nat ->
    (forall c, (c < k_channels k)%nat -> admissible (k_max k) (k_order k) (k_pol k) (nth c d 0 * k_fs k)) ->
    policy_delay (k_pol k) (k_order k) (nth ch d 0 * k_fs k) = nq T ->
    exists v' out, dv_process v x = Ok (v', out)
      /\ length (nth ch out []) = k_block k
      /\ forall t, (t < k_block k)%nat ->
         let signal := input_history ops ch ++ nth ch x [] in
         nth t (nth ch out []) 0
         = nth ch g 0 * sample_at 0 signal (k_block k - t + T).
Proof.
  intros k ops v x ch g ng d nd T R Hx1 Hx2 Eg Ed Hg Hd Hch Adm HT.
  destruct (C20_output_between_block_ends k ops v x R Hx1 Hx2) as (v' & out & E & Lo & O).
  { intros c Hc. destruct (C21_target_applied k ops v c R Hc) as [_ X].
    destruct (X d nd Ed Hd) as [X1 X2]. do 2 eexists. split; [exact X1|]. split; [exact X2|].
    split; apply Adm; exact Hc. }
  exists v', out. split; [exact E|].
  destruct (O ch Hch) as (sd & ed & sg & eg & P1 & P2 & P3 & P4 & P5).
  destruct (C21_target_applied k ops v ch R Hch) as [Xg Xd].
  destruct (Xg g ng Eg Hg) as [Y1 Y2]. destruct (Xd d nd Ed Hd) as [Y3 Y4].
  assert (sd = nth ch d 0) by congruence. assert (ed = nth ch d 0) by congruence.
  assert (sg = nth ch g 0) by congruence. assert (eg = nth ch g 0) by congruence. subst sd ed sg eg.
  rewrite P5. split; [unfold interpolated; now rewrite map_length, seq_length|].
  intros t Ht. cbv zeta.
  rewrite (interpolated_integer (k_order k) _ (k_block k) _ _ _ T).
  2:{ unfold adjusted. rewrite <- policy_delay_total, HT. ring. }
  rewrite nth_map_seq by exact Ht.
  rewrite delay_at_const by lia. reflexivity.
Qed.
Print Assumptions C21_output_after_transition.

(** A run meeting the hypotheses: order 1, policy Limit, two samples per block, two
    blocks of transition.  The gain is changed in the middle of another transition. *)
Definition sample_config : config :=
  MkConfig 1 2 6 1 4 1 PReject 4 [nq 2] [1].
Definition sample_ops : list dv_op :=
  [DvGain [0]; DvProcess [[nq 1; nq 2]]; DvDelay [nq 3]; DvGain [nq 2];
   DvProcess [[nq 3; nq 4]]; DvProcess [[nq 5; nq 6]]].
Example C21_example :
  exists v, dv_reached sample_config sample_ops v
    /\ fold_left gain_track sample_ops ([1], 0%nat) = ([nq 2], 2%nat)
    /\ fold_left delay_track sample_ops ([nq 2], 0%nat) = ([nq 3], 2%nat)
    /\ k_blocks sample_config = 2%nat
    /\ policy_delay PReject 1 (nq 3 * 1) = nq 3
    /\ match dv_process v [[nq 7; nq 8]] with
       | Ok (_, [o]) => map this o = [8; 10]%Q
       | _ => False
       end.
Proof.
  exists (run_config sample_config sample_ops). split.
  - apply run_config_reached; [repeat constructor| |]; vm_compute; reflexivity.
  - split; [reflexivity|]. split; [reflexivity|]. split; [reflexivity|].
    split; [apply Qc_is_canon; vm_compute; reflexivity|]. vm_compute. reflexivity.
Qed.
(** Half-way through a transition the change is continuous. *)
Example C20_example :
  let v := run_config sample_config [DvGain [0]; DvProcess [[nq 1; nq 2]]] in
  dv_reached sample_config [DvGain [0]; DvProcess [[nq 1; nq 2]]] v
  /\ match dv_set_gain v [nq 2] with
     | Ok v' => match param_start (dv_blocks v) (dv_gain v) 0, param_start (dv_blocks v') (dv_gain v') 0 with
                | Ok m, Ok m' => this m = (1 # 2)%Q /\ this m' = (1 # 2)%Q
                | _, _ => False
                end
     | _ => False
     end.
Proof.
  cbv zeta. split.
  - apply run_config_reached; [repeat constructor| |]; vm_compute; reflexivity.
  - vm_compute. split; reflexivity.
Qed.

(** *** DelayMatrix *)

Record mconfig := MkMconfig {
  m_inputs : nat; m_outputs : nat; m_block : nat; m_max : nat; m_order : nat; m_align : nat;
  m_fs : Qc; m_pol : policy; m_steps : nat; m_delays : matrix; m_gains : matrix }.
Definition m_new (k : mconfig) : res dmat :=
  dm_new (m_inputs k) (m_outputs k) (m_fs k) (m_block k) (m_max k) (m_order k) (m_align k) (m_pol k)
         (m_steps k) (m_delays k) (m_gains k).
Definition m_blocks (k : mconfig) : nat := (m_steps k / m_block k)%nat.
Definition dm_reached (k : mconfig) (ops : list dm_op) (v : dmat) : Prop :=
  Forall (dm_op_ok (m_inputs k) (m_block k)) ops /\
  exists v0 outs, m_new k = Ok v0 /\ dm_run v0 ops = Ok (v, outs).

Definition m_inv (k : mconfig) (v : dmat) (h : nat -> list Qc) (gt dt : matrix * nat) : Prop :=
  dm_inv (m_inputs k) (m_outputs k) (m_block k) (m_max k) (m_order k) (m_align k) (m_fs k) (m_pol k)
         (m_blocks k) v h gt dt.

Lemma m_new_inv k v : m_new k = Ok v -> (1 <= m_block k)%nat /\ (1 <= m_blocks k)%nat
  /\ m_inv k v (fun _ => []) (m_gains k, 0%nat) (m_delays k, 0%nat).
Proof.
  unfold m_new, dm_new. destruct (Nat.eqb_spec (m_block k) 0); [discriminate|].
  destruct (negb (Nat.eqb _ _)); [discriminate|].
  fold (m_blocks k). destruct (Nat.ltb_spec (m_blocks k) 1); [discriminate|].
  destruct (has_shape (m_gains k) (m_outputs k) (m_inputs k)) eqn:S1; cbn [andb negb]; [|discriminate].
  destruct (has_shape (m_delays k) (m_outputs k) (m_inputs k)) eqn:S2; cbn [negb]; [|discriminate].
  intros E. injection E as <-.
  split; [lia|]. split; [lia|]. constructor; cbn; try reflexivity; try (split; [reflexivity|lia]).
  - apply dl_new_inv. lia.
  - repeat split; cbn; auto; lia.
  - repeat split; cbn; auto; lia.
Qed.

Lemma m_reached_inv k ops v : dm_reached k ops v ->
  (1 <= m_max k + m_block k)%nat /\ (1 <= m_blocks k)%nat /\
  m_inv k v (minput_history ops)
    (fold_left mgain_track ops (m_gains k, 0%nat)) (fold_left mdelay_track ops (m_delays k, 0%nat)).
Proof.
  intros (Hops & v0 & outs & E0 & Er).
  destruct (m_new_inv k v0 E0) as (Hb & Hbl & I0). split; [lia|]. split; [exact Hbl|].
  eapply dm_run_inv in I0; [exact I0| lia|exact Hbl|exact Hops|exact Er].
Qed.

(** Value of a parameter at the start / end of the next block. *)
Definition mstart (v : dmat) (p : mparam) (o i : nat) : res Qc :=
  mparam_at (dm_blocks v) p (mp_counter p) o i.
Definition mend (v : dmat) (p : mparam) (o i : nat) : res Qc :=
  mparam_at (dm_blocks v) p (Nat.min (mp_counter p + 1) (dm_blocks v)) o i.

Theorem C20_matrix_continuous_iff_partial :
  forall k ops v new v' o i, dm_reached k ops v -> (o < m_outputs k)%nat -> (i < m_inputs k)%nat ->
    (dm_set_gain v new = Ok v' ->
     let n := snd (fold_left mgain_track ops (m_gains k, 0%nat)) in
     (mstart v' (dm_gain v') o i = mstart v (dm_gain v) o i
      <-> (m_blocks k <= n)%nat \/ (2 * n = m_blocks k)%nat
          \/ mentry (mp_cur (dm_gain v)) o i = mentry (mp_next (dm_gain v)) o i))
    /\ (dm_set_delay v new = Ok v' ->
     let n := snd (fold_left mdelay_track ops (m_delays k, 0%nat)) in
     (mstart v' (dm_delay v') o i = mstart v (dm_delay v) o i
      <-> (m_blocks k <= n)%nat \/ (2 * n = m_blocks k)%nat
          \/ mentry (mp_cur (dm_delay v)) o i = mentry (mp_next (dm_delay v)) o i)).
Proof.
  intros k ops v new v' o i R Ho Hi.
  destruct (m_reached_inv k ops v R) as (Hl & Hb & I).
  assert (Core : forall (p p' : mparam) n, mparam_ok (m_blocks k) (m_outputs k) (m_inputs k) p ->
     mparam_ok (m_blocks k) (m_outputs k) (m_inputs k) p' -> mp_counter p = Nat.min (m_blocks k) n ->
     mboundary (m_blocks k) p' o i = (if Nat.ltb (mp_counter p) (m_blocks k)
          then morigin p o i + mtarget p o i - mboundary (m_blocks k) p o i
          else mboundary (m_blocks k) p o i) ->
     (mparam_at (m_blocks k) p' (mp_counter p') o i = mparam_at (m_blocks k) p (mp_counter p) o i
      <-> (m_blocks k <= n)%nat \/ (2 * n = m_blocks k)%nat
          \/ mentry (mp_cur p) o i = mentry (mp_next p) o i)).
  { intros p p' n P P' Ec K.
    rewrite (mparam_start_ok _ _ _ _ _ _ P Ho Hi), (mparam_start_ok _ _ _ _ _ _ P' Ho Hi), K.
    pose proof (mirrored_mcontinuous (m_blocks k) p o i Hb) as M.
    destruct P as (S1 & S2 & L3).
    rewrite (mentry_ok _ _ _ _ _ S1 Ho Hi), (mentry_ok _ _ _ _ _ S2 Ho Hi).
    fold (morigin p o i). fold (mtarget p o i).
    destruct (Nat.ltb_spec (mp_counter p) (m_blocks k)).
    - assert (En : mp_counter p = n) by lia. rewrite En in *. split.
      + intros X. apply Ok_inj in X. apply M in X as [X|X].
        * right. right. now rewrite X.
        * right. left. exact X.
      + intros [X|[X|X]].
        * lia.
        * f_equal. apply M. right. exact X.
        * f_equal. apply M. left. exact (Some_inj _ _ X).
    - split; [intros _; left; lia|reflexivity]. }
  unfold mstart. split; intros E; cbv zeta.
  - destruct (dm_set_gain_inv _ _ _ _ _ _ _ _ _ Hl Hb v _ _ _ new v' I E) as [I' K].
    rewrite (mi_blocks _ _ _ _ _ _ _ _ _ _ _ _ _ I), (mi_blocks _ _ _ _ _ _ _ _ _ _ _ _ _ I').
    apply Core; [apply (mi_gain _ _ _ _ _ _ _ _ _ _ _ _ _ I)|apply (mi_gain _ _ _ _ _ _ _ _ _ _ _ _ _ I')|
      apply (mi_gt _ _ _ _ _ _ _ _ _ _ _ _ _ I)|apply K; assumption].
  - destruct (dm_set_delay_inv _ _ _ _ _ _ _ _ _ Hl Hb v _ _ _ new v' I E) as [I' K].
    rewrite (mi_blocks _ _ _ _ _ _ _ _ _ _ _ _ _ I), (mi_blocks _ _ _ _ _ _ _ _ _ _ _ _ _ I').
    apply Core; [apply (mi_delay _ _ _ _ _ _ _ _ _ _ _ _ _ I)|apply (mi_delay _ _ _ _ _ _ _ _ _ _ _ _ _ I')|
      apply (mi_dt _ _ _ _ _ _ _ _ _ _ _ _ _ I)|apply K; assumption].
Qed.
Print Assumptions C20_matrix_continuous_iff_partial.

Definition jump_mconfig : mconfig :=
  MkMconfig 1 1 1 4 0 1 1 PAdd 3 [[0]] [[0]].
Definition no_dmat : dmat := MkDmat (dl_new 0 0 0 0 0 0 PAdd) 0 0 0 (MkMparam [] [] 0) (MkMparam [] [] 0).
Definition run_mconfig (k : mconfig) (ops : list dm_op) : dmat :=
  fst (the (no_dmat, []) (dm_run (the no_dmat (m_new k)) ops)).
Lemma run_mconfig_reached k ops : Forall (dm_op_ok (m_inputs k) (m_block k)) ops ->
  is_ok (m_new k) = true -> is_ok (dm_run (the no_dmat (m_new k)) ops) = true ->
  dm_reached k ops (run_mconfig k ops).
Proof.
  intros H E1 E2. split; [exact H|]. exists (the no_dmat (m_new k)).
  exists (snd (the (no_dmat, []) (dm_run (the no_dmat (m_new k)) ops))).
  split; [apply the_ok; exact E1|]. unfold run_mconfig. rewrite <- surjective_pairing. apply the_ok. exact E2.
Qed.
Theorem C20_matrix_running_transition_jumps_refuted :
  exists k ops v d v' o i m m',
    dm_reached k ops v /\ dm_set_delay v d = Ok v' /\ (o < m_outputs k)%nat /\ (i < m_inputs k)%nat
    /\ mstart v (dm_delay v) o i = Ok m /\ mstart v' (dm_delay v') o i = Ok m'
    /\ this m = 1%Q /\ this m' = 2%Q.
Proof.
  set (ops := [DmDelay [[nq 3]]; DmProcess [[1]]]). set (v := run_mconfig jump_mconfig ops).
  set (v' := the no_dmat (dm_set_delay v [[nq 3]])).
  exists jump_mconfig, ops, v, [[nq 3]], v', 0%nat, 0%nat.
  exists (the 0 (mstart v (dm_delay v) 0 0)).
  exists (the 0 (mstart v' (dm_delay v') 0 0)).
  split; [|split; [|split; [|split; [|split; [|split]]]]].
  - apply run_mconfig_reached; [repeat constructor| |]; vm_compute; reflexivity.
  - apply the_ok. vm_compute. reflexivity.
  - repeat constructor.
  - repeat constructor.
  - apply the_ok. vm_compute. reflexivity.
  - apply the_ok. vm_compute. reflexivity.
  - split; vm_compute; reflexivity.
Qed.
Print Assumptions C20_matrix_running_transition_jumps_refuted.

Theorem C21_matrix_target_applied :
  forall k ops v o i, dm_reached k ops v -> (o < m_outputs k)%nat -> (i < m_inputs k)%nat ->
    (forall g n, fold_left mgain_track ops (m_gains k, 0%nat) = (g, n) ->
       (m_blocks k <= n)%nat ->
       mstart v (dm_gain v) o i = Ok (entry g o i) /\ mend v (dm_gain v) o i = Ok (entry g o i))
    /\ (forall d n, fold_left mdelay_track ops (m_delays k, 0%nat) = (d, n) ->
       (m_blocks k <= n)%nat ->
       mstart v (dm_delay v) o i = Ok (entry d o i) /\ mend v (dm_delay v) o i = Ok (entry d o i)).
Proof.
  intros k ops v o i R Ho Hi.
  destruct (m_reached_inv k ops v R) as (Hl & Hb & I).
  pose proof (mi_gain _ _ _ _ _ _ _ _ _ _ _ _ _ I) as G. pose proof (mi_delay _ _ _ _ _ _ _ _ _ _ _ _ _ I) as D.
  unfold mstart, mend. rewrite (mi_blocks _ _ _ _ _ _ _ _ _ _ _ _ _ I).
  destruct (mi_gt _ _ _ _ _ _ _ _ _ _ _ _ _ I) as [G1 G2]. destruct (mi_dt _ _ _ _ _ _ _ _ _ _ _ _ _ I) as [D1 D2].
  assert (Core : forall p q n, mparam_ok (m_blocks k) (m_outputs k) (m_inputs k) p -> mp_next p = q ->
    mp_counter p = Nat.min (m_blocks k) n -> (m_blocks k <= n)%nat ->
    mparam_at (m_blocks k) p (mp_counter p) o i = Ok (entry q o i)
    /\ mparam_at (m_blocks k) p (Nat.min (mp_counter p + 1) (m_blocks k)) o i = Ok (entry q o i)).
  { intros p q n P <- Ec Hn. rewrite Nat.min_l in Ec by exact Hn.
    rewrite (mparam_start_ok _ _ _ _ _ _ P Ho Hi), (mparam_end_ok _ _ _ _ _ _ P Ho Hi).
    unfold mboundary, madvance. cbn [mp_cur mp_next mp_counter]. rewrite Ec.
    rewrite Nat.min_l by lia. rewrite counter_ratio_full, blend_1 by exact Hb. auto. }
  split; intros q n E Hn; rewrite E in *; cbn [fst snd] in *.
  - exact (Core _ _ n G G1 G2 Hn).
  - exact (Core _ _ n D D1 D2 Hn).
Qed.
Print Assumptions C21_matrix_target_applied.

(** After the transition every output is the sum of the delayed and scaled inputs. *)
Theorem C21_matrix_output_after_transition :
  forall k ops v x o g ng d nd (T : nat -> nat),
    dm_reached k ops v -> length x = m_inputs k -> Forall (fun l => length l = m_block k) x ->
    fold_left mgain_track ops (m_gains k, 0%nat) = (g, ng) ->
    fold_left mdelay_track ops (m_delays k, 0%nat) = (d, nd) ->
    (m_blocks k <= ng)%nat -> (m_blocks k <= nd)%nat -> (o < m_outputs k)%nat ->
    (forall r c, (r < m_outputs k)%nat -> (c < m_inputs k)%nat ->
       admissible (m_max k) (m_order k) (m_pol k) (entry d r c * m_fs k)) ->
    (forall i, (i < m_inputs k)%nat ->
       policy_delay (m_pol k) (m_order k) (entry d o i * m_fs k) = nq (T i)) ->
    exists v' out, dm_process v x = Ok (v', out)
      /\ length (nth o out []) = m_block k
      /\ forall t, (t < m_block k)%nat ->
         nth t (nth o out []) 0
         = qsum (map (fun i => entry g o i
                   * sample_at 0 (minput_history ops i ++ nth i x []) (m_block k - t + T i))
                 (seq 0 (m_inputs k))).
Proof.
  intros k ops v x o g ng d nd T R Hx1 Hx2 Eg Ed Hg Hd Ho Adm HT.
  destruct (m_reached_inv k ops v R) as (Hl & Hb & I).
  pose proof (mi_blocks _ _ _ _ _ _ _ _ _ _ _ _ _ I) as B.
  pose proof (mi_gain _ _ _ _ _ _ _ _ _ _ _ _ _ I) as G. pose proof (mi_delay _ _ _ _ _ _ _ _ _ _ _ _ _ I) as D.
  assert (Fin : forall r c, (r < m_outputs k)%nat -> (c < m_inputs k)%nat ->
     mboundary (m_blocks k) (dm_gain v) r c = entry g r c
     /\ mboundary (m_blocks k) (madvance (m_blocks k) (dm_gain v)) r c = entry g r c
     /\ mboundary (m_blocks k) (dm_delay v) r c = entry d r c
     /\ mboundary (m_blocks k) (madvance (m_blocks k) (dm_delay v)) r c = entry d r c).
  { intros r c Hr Hc. destruct (C21_matrix_target_applied k ops v r c R Hr Hc) as [X Y].
    destruct (X g ng Eg Hg) as [X1 X2]. destruct (Y d nd Ed Hd) as [Y1 Y2].
    unfold mstart, mend in X1, X2, Y1, Y2. rewrite B in X1, X2, Y1, Y2.
    rewrite (mparam_start_ok _ _ _ _ _ _ G Hr Hc) in X1. rewrite (mparam_end_ok _ _ _ _ _ _ G Hr Hc) in X2.
    rewrite (mparam_start_ok _ _ _ _ _ _ D Hr Hc) in Y1. rewrite (mparam_end_ok _ _ _ _ _ _ D Hr Hc) in Y2.
    apply Ok_inj in X1. apply Ok_inj in X2. apply Ok_inj in Y1. apply Ok_inj in Y2. auto. }
  destruct (dm_process_ok _ _ _ _ _ _ _ _ _ Hl Hb v _ _ _ x I Hx1 Hx2) as (v' & out & E).
  { intros r c Hr Hc. destruct (Fin r c Hr Hc) as (_ & _ & -> & ->). split; apply Adm; assumption. }
  exists v', out. split; [exact E|].
  destruct (dm_process_inv _ _ _ _ _ _ _ _ _ Hl Hb v _ _ _ x v' out I Hx1 Hx2 E)
    as (I' & Eg' & Ed' & part & P & (_ & LO & O)).
  split; [apply LO; exact Ho|]. intros t Ht. fold (entry out o t). rewrite O by assumption. f_equal.
  apply map_ext_in. intros i Hi. apply in_seq in Hi.
  specialize (P o i Ho ltac:(lia)). rewrite Eg', Ed' in P.
  destruct (Fin o i Ho ltac:(lia)) as (F1 & F2 & F3 & F4). rewrite F1, F2, F3, F4 in P.
  pose proof (Adm o i Ho ltac:(lia)) as A.
  rewrite (dl_interpolate_ok _ _ _ _ _ _ _ Hl _ _ i (m_block k) _ _ _ _ _ _
     (mi_line _ _ _ _ _ _ _ _ _ _ _ _ _ I') ltac:(lia) (le_n _) eq_refl eq_refl A A) in P.
  apply Ok_inj in P; rewrite <- P.
  rewrite (interpolated_integer (m_order k) _ (m_block k) _ _ _ (T i)).
  2:{ unfold adjusted. rewrite <- policy_delay_total, HT by lia. ring. }
  rewrite nth_map_seq by exact Ht.
  rewrite delay_at_const by lia. reflexivity.
Qed.
Print Assumptions C21_matrix_output_after_transition.

Definition sample_mconfig : mconfig :=
  MkMconfig 2 1 2 4 0 1 1 PAdd 2 [[0; 0]] [[0; 0]].
Definition sample_mops : list dm_op :=
  [DmGain [[nq 3; 1]]; DmDelay [[1; nq 2]]; DmProcess [[nq 1; nq 2]; [nq 10; nq 20]]].
Example C21_matrix_example :
  let v := run_mconfig sample_mconfig sample_mops in
  dm_reached sample_mconfig sample_mops v
  /\ m_blocks sample_mconfig = 1%nat
  /\ fold_left mgain_track sample_mops ([[0; 0]], 0%nat) = ([[nq 3; 1]], 1%nat)
  /\ match dm_process v [[nq 3; nq 4]; [nq 30; nq 40]] with
     | Ok (_, [o]) => map this o = [16; 29]%Q
     | _ => False
     end.
Proof.
  cbv zeta. split.
  - apply run_mconfig_reached; [repeat constructor| |]; vm_compute; reflexivity.
  - split; [reflexivity|]. split; [reflexivity|]. vm_compute. reflexivity.
Qed.
