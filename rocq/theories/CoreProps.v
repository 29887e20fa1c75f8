(** C72: the signal flow built by CoreRenderer (src/libsignalflows/core_renderer.cpp).

    [core_new c] is the flow that the constructor builds for the configuration [c], or its
    exception.  Without tracking, every flow that is built passes the integrity checks of the
    runtime engine, has no cycle, and routes the signals as documented.  With tracking, no flow
    that is built passes them. *)
From Coq Require Import ZArith Permutation Relation_Operators.
From Verif Require Import Base FlowModel FlowProofs FlowResolve FlowTree FlowProps SchedModel SchedProofs SchedProps
  LayoutModel LayoutTables LayoutProofs LayoutAddr LayoutProps DataflowModel DataflowSpec DataflowProofs DataflowFlow DataflowBlock
  DataflowUnique DataflowHier DataflowAtomic DataflowProps CoreModel CoreProofs.
Local Open Scope res_scope.

(** *** Which configurations are accepted *)
(** the channel indices of all loudspeakers and subwoofers, and the number of outputs, are ints *)
Definition int_range (c : config) : Prop :=
  (forall i, In i (lsp_channels c) \/ In i (sub_channels c) -> (- 2 ^ 31 < i < 2 ^ 31)%Z)
  /\ (Z.of_nat (outputs c) < 2 ^ 31)%Z.
(** each loudspeaker and subwoofer has a playback channel of its own (counted from 1), the
    output equalisation has a filter for each of them, and an output equalisation is not combined
    with tracking and subwoofers *)
Definition buildable (c : config) : Prop :=
  (forall i, In i (lsp_channels c ++ sub_channels c) -> (1 <= i <= Z.of_nat (outputs c))%Z)
  /\ NoDup (lsp_channels c ++ sub_channels c)
  /\ (forall k, eq_filters c = Some k -> k = length (lsp_channels c) + length (sub_channels c))
  /\ ~ (tracking c = true /\ eq_filters c <> None /\ sub_channels c <> []).
Definition no_outputs (c : config) : Prop := lsp_channels c = [] /\ sub_channels c = [].

Lemma int_range_ints c : int_range c -> ints c.
Proof.
  intros [H1 H2]. split; [|exact H2]. apply Forall_forall. intros i Hi. apply H1. now apply in_app_or.
Qed.
Lemma no_outputs_iff c : no_outputs c <-> nOut c = 0.
Proof.
  unfold no_outputs, nOut, nLsp, nSub. split; [intros [-> ->]; reflexivity|]. intros H.
  split; apply length_zero_iff_nil; lia.
Qed.
Lemma buildable_iff c : possible c <-> buildable c /\ ~ no_outputs c.
Proof.
  unfold possible, buildable, chans_valid, eq_fits. rewrite no_outputs_iff, Forall_forall. fold (chans c).
  assert (HE : has_eq c = true <-> eq_filters c <> None) by (unfold has_eq; destruct (eq_filters c); intuition congruence).
  assert (HS : nSub c = 0 <-> sub_channels c = []) by apply length_zero_iff_nil.
  change (length (lsp_channels c) + length (sub_channels c)) with (nOut c).
  split.
  - intros (EF & NZ & PO & F & D). repeat split; try assumption; try (apply F; assumption).
    + intros k E. now rewrite E in EF.
    + intros (T & E & N). apply N, HS, PO; [exact T|now apply HE].
  - intros ((F & D & EF & PO) & NZ). repeat split; try assumption; try (apply F; assumption).
    + destruct (eq_filters c) as [k|]; [now apply EF|exact Logic.I].
    + intros T E. apply HS. destruct (sub_channels c) as [|x l]; [reflexivity|]. exfalso. apply PO. repeat split; [exact T|now apply HE|discriminate].
Qed.

(** The constructor succeeds exactly for these configurations, unless there is neither a
    loudspeaker nor a subwoofer, in which case it reads behind an empty array. *)
Theorem C72_construct : forall c, int_range c ->
  match core_new c with
  | Ok _ => buildable c /\ ~ no_outputs c
  | Throw e => e = InvalidArgument /\ ~ buildable c
  | UB => no_outputs c
  end.
Proof.
  intros c I. apply int_range_ints in I.
  assert (D : possible c \/ ~ possible c).
  { unfold possible, eq_fits.
    assert (Decidable.decidable (match eq_filters c with Some k => k = nOut c | None => True end)) as D1.
    { destruct (eq_filters c) as [k|]; [destruct (Nat.eq_dec k (nOut c)); [now left|now right]|left; exact Logic.I]. }
    assert (Decidable.decidable (chans_valid c)) as D2.
    { unfold chans_valid. assert (forall i, {(1 <= i <= Z.of_nat (outputs c))%Z} + {~ (1 <= i <= Z.of_nat (outputs c))%Z}) as D0.
      { intros i. destruct (Z_le_dec 1 i), (Z_le_dec i (Z.of_nat (outputs c))); (left; lia) || (right; lia). }
      destruct (Forall_dec _ D0 (chans c)) as [F|F]; [|right; tauto].
      destruct (ListDec.NoDup_dec Z.eq_dec (chans c)) as [N|N]; [left; auto|right; tauto]. }
    assert (Decidable.decidable (tracking c = true -> has_eq c = true -> nSub c = 0)) as D3.
    { unfold Decidable.decidable. rewrite possible_output. destruct (output_possible c); [now left|right; discriminate]. }
    unfold Decidable.decidable in *. destruct (Nat.eq_dec (nOut c) 0); tauto. }
  destruct D as [P|NP].
  - destruct (core_new_ok c I P) as (conns & pconns & E & _). rewrite E. now apply buildable_iff.
  - pose proof (core_new_bad c I NP) as E. rewrite E. rewrite buildable_iff, no_outputs_iff in NP.
    destruct (Nat.eqb_spec (nOut c) 0) as [Z|NZ].
    + destruct (eq_filters c) as [[|k]|] eqn:EE; [now apply no_outputs_iff| |now apply no_outputs_iff].
      split; [reflexivity|]. intros (_ & _ & X & _). specialize (X (S k) EE). change (length (lsp_channels c) + length (sub_channels c)) with (nOut c) in X. lia.
    + split; [reflexivity|]. tauto.
Qed.

Lemma core_shape c r : ints c -> core_new c = Ok r -> possible c /\
  exists conns pconns, r = Composite Core core_audio (core_params c) (core_children c) conns pconns
    /\ joined conns = flat_map (wire_pairs c) (body c) ++ out_pairs c
    /\ pconns = flat_map wire_params (body c)
    /\ forall a, In a conns -> exists x, made c x a
         /\ (In x (body c) \/ wire_ends x = Some (adjust_out, audioOut) \/ wire_ends x = Some (null_out, audioOut)).
Proof.
  intros I E. assert (IR : int_range c).
  { destruct I as [I1 I2]. split; [|exact I2]. intros i Hi. rewrite Forall_forall in I1. apply I1. now apply in_or_app. }
  pose proof (C72_construct c IR) as X. rewrite E in X. apply buildable_iff in X. split; [exact X|].
  destruct (core_new_ok c I X) as (conns & pconns & E' & J & P & A). rewrite E in E'. injection E' as ->. exists conns, pconns. auto.
Qed.

Lemma children_atomic c x : In x (core_children c) -> is_composite x = false.
Proof.
  cases c; cbn; intros H; repeat (destruct H as [<-|H]; [reflexivity|]); contradiction.
Qed.
Lemma inside_atomic x y : is_composite y = false -> inside x y -> x = y.
Proof. intros H I. destruct I as [|x ch i a p children conns pconns Hi Hx]; [reflexivity|discriminate]. Qed.
Lemma inside_core c conns pconns x : inside x (Composite Core core_audio (core_params c) (core_children c) conns pconns) ->
  x = Composite Core core_audio (core_params c) (core_children c) conns pconns \/ In x (core_children c).
Proof.
  intros H. apply inside_composite in H as [->|(ch & Hc & H)]; [now left|right].
  rewrite (inside_atomic x ch); [exact Hc|now apply (children_atomic c)|exact H].
Qed.
Lemma inside_core_composite c conns pconns i a p children cs ps :
  inside (Composite i a p children cs ps) (Composite Core core_audio (core_params c) (core_children c) conns pconns) ->
  Composite i a p children cs ps = Composite Core core_audio (core_params c) (core_children c) conns pconns.
Proof.
  intros H. apply inside_core in H as [H|H]; [exact H|]. apply children_atomic in H. discriminate.
Qed.

(** *** The integrity checks *)
(** without tracking, the flow passes the checks of the runtime engine: every receiving audio
    channel has one source, every parameter port is connected, with compatible parameters *)
Theorem C72_integrity : forall c r, int_range c -> tracking c = false -> core_new c = Ok r ->
  checkConnectionIntegrity (core_objects c) r = true.
Proof.
  intros c r I T E. apply int_range_ints in I. destruct (core_shape c r I E) as (P & conns & pconns & -> & J & -> & A).
  apply andb_true_iff. split.
  - apply C31_audio_check_iff_partial. intros i a p children cs ps H. apply inside_core_composite in H. injection H as -> -> -> -> -> ->.
    now apply core_well_connected.
  - apply C31_parameter_check_iff. intros i a p children cs ps H. apply inside_core_composite in H. injection H as -> -> -> -> -> ->.
    now apply core_params_connected.
Qed.

(** with tracking, it never does: the listener position input of the AllRAD gain calculator is
    not connected *)
Theorem C72_tracking : forall c r, int_range c -> tracking c = true -> core_new c = Ok r ->
  checkConnectionIntegrity (core_objects c) r = false.
Proof.
  intros c r I T E. apply int_range_ints in I. destruct (core_shape c r I E) as (P & conns & pconns & -> & J & -> & A).
  apply not_true_is_false. intros X. apply andb_true_iff in X as [_ X].
  apply C31_parameter_check_iff with (i := Core) (a := core_audio) (p := core_params c) (children := core_children c)
    (conns := conns) (pconns := flat_map wire_params (body c)) in X; [|constructor].
  destruct X as (_ & _ & X). destruct (X allrad_listener) as (s & Hs).
  - left. exists (Atomic AllRad [] ([allrad_object; allrad_in; allrad_out] ++ (if tracking c then [allrad_listener] else []))).
    rewrite T. split; [|split; [cbn; auto|reflexivity]]. unfold core_children. rewrite T. rewrite !in_app_iff. cbn [In app]. auto 10.
  - unfold body, wires_tracking, wires_objects, wires_gains, wires_diffuse, wires_output in Hs.
    cases c; try discriminate T; cbn in Hs; repeat (destruct Hs as [Hs|Hs]; [discriminate Hs|]); contradiction.
Qed.

(** With tracking the subwoofer signals are lost: the outputs of the subwoofer mixer lead nowhere,
    and the inputs of the output adjustment for the subwoofers have no source.  With an output
    equalisation in addition, none of the inputs of the output adjustment has a source. *)
Theorem C72_tracking_subwoofers : forall c r s d, int_range c -> tracking c = true -> core_new c = Ok r -> linked r s d ->
  fst s <> sub_out
  /\ (fst d = adjust_in -> snd d < length (lsp_channels c))
  /\ (eq_filters c <> None -> fst d <> adjust_in /\ fst s <> outeq_out).
Proof.
  intros c r s d I T E K. apply int_range_ints in I. destruct (core_shape c r I E) as (P & conns & pconns & -> & J & -> & A).
  destruct K as (i & a & p & children & cs & ps & x & j & Hi & Hx & Es & Ed & Hs & Hd).
  apply inside_core_composite in Hi. injection Hi as -> -> -> -> -> ->.
  assert (In (s, d) (joined conns)) as X.
  { unfold joined. apply in_flat_map. exists x. split; [exact Hx|]. apply in_map_iff. exists (snd s, snd d). cbn [fst snd].
    split; [rewrite <- Es, <- Ed; destruct s, d; reflexivity|]. clear -Hs Hd. revert j Hs Hd. generalize (c_send x), (c_receive x).
    induction l as [|u l IH]; intros [|u' l'] [|j] H1 H2; try discriminate; cbn in H1, H2.
    - injection H1 as ->. injection H2 as ->. now left.
    - right. now apply (IH l' j). }
  rewrite J in X. apply in_app_or in X as [X|X].
  - apply in_flat_map in X as (y & Hy & X).
    assert (Q : forall s0 si r0 ri, In (s, d) (pairs s0 si r0 ri) -> fst s = s0 /\ fst d = r0 /\ In (snd d) ri).
    { intros s0 si r0 ri H. apply in_map_iff in H as ([u v] & H & Hc). injection H as <- <-. cbn [fst snd]. apply in_combine_r in Hc. auto. }
    unfold body, wires_tracking, wires_objects, wires_gains, wires_diffuse, wires_output in Hy.
    cases c; try discriminate T; cbn [tracking reverb dualband has_eq eq_filters app In] in Hy;
      repeat match goal with H : _ \/ _ |- _ => destruct H as [<-|H] end; try contradiction; cbn [wire_pairs] in X;
      try contradiction; apply Q in X as (-> & -> & X); (split; [discriminate|]); (split; [try discriminate|]);
      try (intros _; split; discriminate); try (intros H; now contradiction H); intros _; apply in_seq in X; cbn in X |- *; lia.
  - unfold out_pairs in X. apply in_app_or in X as [X|X]; apply in_map_iff in X as (y & X & _); injection X as <- <-; cbn [fst snd];
      (split; [discriminate|]); (split; [discriminate|]); intros _; split; discriminate.
Qed.

(** *** Where the parameters go *)
(** the parameter ports [d] that receive what [s] sends: the object metadata goes to all
    calculators, the gains and filters go to the stages that apply them, the panning gains
    by way of the AllRAD calculator, the listener position to the compensation and the panning
    calculator *)
Definition drives (c : config) (s d : nat) : Prop :=
  s = objectData /\ (d = gaineq_object \/ d = calc_object \/ d = allrad_object \/ (d = reverb_object /\ reverb c = true))
  \/ (s = gaineq_gain /\ d = gain_gain) \/ (s = gaineq_eq /\ d = eq_eq)
  \/ (s = calc_vbap /\ d = allrad_in) \/ (s = allrad_out /\ d = vbap_gain)
  \/ (s = calc_vbip /\ d = vbip_gain /\ dualband c = true)
  \/ (s = calc_diffuse /\ d = diffuse_gain)
  \/ (tracking c = true
      /\ ((s = trackingPosition /\ (d = comp_position \/ d = calc_listener))
          \/ (s = comp_gain /\ d = listener_gain) \/ (s = comp_delay /\ d = listener_delay))).

Theorem C72_parameters : forall c r s d, int_range c -> core_new c = Ok r -> (plinked r s d <-> drives c s d).
Proof.
  intros c r s d I E. apply int_range_ints in I. destruct (core_shape c r I E) as (P & conns & pconns & -> & J & -> & A).
  assert (K : plinked (Composite Core core_audio (core_params c) (core_children c) conns (flat_map wire_params (body c))) s d
              <-> In (s, d) (flat_map wire_params (body c))).
  { split.
    - intros (i & a & p & children & cs & ps & Hi & Hx). apply inside_core_composite in Hi. injection Hi as -> -> -> -> -> ->. exact Hx.
    - intros H. do 6 eexists. split; [apply inside_self|exact H]. }
  rewrite K. clear. unfold drives, body, wires_tracking, wires_objects, wires_gains, wires_diffuse, wires_output. split.
  - intros H. cases c; cbn in H; repeat match goal with H : _ \/ _ |- _ => destruct H as [H|H] end; try contradiction;
      injection H as <- <-; cbn [reverb dualband tracking]; tauto.
  - intros H. cases c; cbn [reverb dualband tracking] in H;
      repeat match goal with H : _ \/ _ |- _ => destruct H as [H|H] | H : _ /\ _ |- _ => destruct H as [? H] end; try discriminate; subst; cbn; auto 30.
Qed.

(** in all flows, also with tracking, the connected parameter ports are compatible, and the only
    receiving port without a connection is the listener position of the AllRAD calculator *)
Theorem C72_compatible : forall c r, int_range c -> core_new c = Ok r ->
  (forall s d, plinked r s d -> q_dir (core_objects c) s = (if s <=? trackingPosition then Input else Output)
     /\ q_dir (core_objects c) d = Input
     /\ q_protocol (core_objects c) s = q_protocol (core_objects c) d /\ q_type (core_objects c) s = q_type (core_objects c) d
     /\ snd (param_info c s) = snd (param_info c d))
  /\ (forall x d, In x (core_children c) -> In d (comp_params x) -> q_dir (core_objects c) d = Input -> d <> allrad_listener ->
        exists s, plinked r s d).
Proof.
  intros c r I E. pose proof (fun s d => C72_parameters c r s d I E) as X. split.
  - intros s d H. apply X in H. unfold drives in H. cases c; cbn [reverb dualband tracking] in H;
      repeat match goal with H : _ \/ _ |- _ => destruct H as [H|H] | H : _ /\ _ |- _ => destruct H as [? H] end; try discriminate; subst;
      repeat split; reflexivity.
  - intros x d Hx Hd Hi N. setoid_rewrite X. unfold drives. cases c; cbn in Hx; cbn [reverb dualband tracking];
      repeat match goal with H : _ \/ _ |- _ => destruct H as [<-|H] end; try contradiction; cbn in Hd;
      repeat match goal with H : _ \/ _ |- _ => destruct H as [<-|H] end; try contradiction; try discriminate Hi; try (now contradiction N);
      eexists; tauto.
Qed.

(** *** The flow runs *)
Lemma core_owners c x : In x (core_children c) ->
  (forall p, In p (comp_audio x) -> a_owner (core_objects c) p = comp_id x)
  /\ (forall p, In p (comp_params x) -> q_owner (core_objects c) p = comp_id x)
  /\ comp_id x <> Core.
Proof.
  intros H. cases c; cbn in H;
    repeat match goal with H : _ \/ _ |- _ => destruct H as [<-|H] end; try contradiction; cbn [comp_audio comp_params comp_id];
    (split; [|split]); try discriminate; intros p Hp; cbn in Hp;
    repeat match goal with H : _ \/ _ |- _ => destruct H as [<-|H] end; try contradiction; reflexivity.
Qed.
Lemma core_describes c conns pconns : describes (core_objects c) (Composite Core core_audio (core_params c) (core_children c) conns pconns).
Proof.
  split; [|split; [|split]].
  - intros x p H Hp. apply inside_core in H as [->|H]; [|now apply (core_owners c x H)]. cbn in Hp. destruct Hp as [<-|[<-|[]]]; reflexivity.
  - intros x p H Hp. apply inside_core in H as [->|H]; [|now apply (core_owners c x H)]. cbn [comp_params comp_id] in *. unfold core_params in Hp.
    destruct (tracking c); cbn in Hp; repeat (destruct Hp as [<-|Hp]; [reflexivity|]); contradiction.
  - intros x H. apply inside_core in H as [->|H]; [reflexivity|]. rewrite (children_atomic c x H). destruct (core_owners c x H) as (_ & _ & N).
    cbn. now apply Nat.eqb_neq.
  - intros x H. apply inside_core in H as [->|H]; [split; reflexivity|]. destruct (core_owners c x H) as (_ & _ & N). split.
    + intros E. apply Nat.eqb_eq in E. contradiction.
    + intros ->. apply children_atomic in H. discriminate.
Qed.
Fixpoint distinct (l : list nat) : bool := match l with [] => true | x :: l' => negb (mem x l') && distinct l' end.
Lemma distinct_nodup l : distinct l = true -> NoDup l.
Proof.
  induction l as [|x l IH]; [constructor|]. cbn [distinct]. intros H. apply andb_true_iff in H as [H1 H2]. constructor; [|now apply IH].
  intros X. apply mem_spec in X. rewrite X in H1. discriminate.
Qed.
Lemma core_audio_nodup c conns pconns : NoDup (all_audio (Composite Core core_audio (core_params c) (core_children c) conns pconns)).
Proof. apply distinct_nodup. cases c; reflexivity. Qed.
Lemma core_addresses_nodup c conns pconns : NoDup (addresses (Composite Core core_audio (core_params c) (core_children c) conns pconns)).
Proof. apply distinct_nodup. cases c; reflexivity. Qed.

Lemma wires_forward c x s r : In x (body c) -> wire_ends x = Some (s, r) ->
  a_owner (core_objects c) s < a_owner (core_objects c) r \/ a_owner (core_objects c) s = Core \/ a_owner (core_objects c) r = Core.
Proof.
  intros H E. unfold body, wires_tracking, wires_objects, wires_gains, wires_diffuse, wires_output in H.
  cases c; cbn [tracking reverb dualband has_eq eq_filters app In] in H;
    repeat match goal with H : _ \/ _ |- _ => destruct H as [<-|H] end; try contradiction;
    cbn [wire_ends] in E; try discriminate E; injection E as <- <-;
    first [right; left; reflexivity|right; right; reflexivity|left; apply Nat.ltb_lt; reflexivity].
Qed.
Lemma params_forward c s r : In (s, r) (flat_map wire_params (body c)) ->
  q_owner (core_objects c) s < q_owner (core_objects c) r \/ q_owner (core_objects c) s = Core \/ q_owner (core_objects c) r = Core.
Proof.
  intros H. unfold body, wires_tracking, wires_objects, wires_gains, wires_diffuse, wires_output in H.
  cases c; cbn in H; repeat match goal with H : _ \/ _ |- _ => destruct H as [H|H] end; try contradiction;
    injection H as <- <-; first [right; left; reflexivity|right; right; reflexivity|left; apply Nat.ltb_lt; reflexivity].
Qed.

(** Without tracking, the runtime engine accepts the flow: it finds a schedule, in which the
    components run after those they depend on, and the flow runs as C33 describes, for every
    allocation of buffers, provided that the parameter infrastructure can be set up. *)
Theorem C72_runs : forall c r type_size block alignment partition alloc infrastructure,
  int_range c -> tracking c = false -> core_new c = Ok r ->
  type_size 0 <> 0 -> (alignment = 0 \/ Nat.divide (type_size 0) alignment) ->
  new_addresses r alloc -> (forall l, Permutation (partition l) l) ->
  (forall pm params, pfill_recursive (core_objects c) r [] = (true, pm) -> presolve (core_objects c) pm = Ok params -> infrastructure params = true) ->
  exists fl order, construct (core_objects c) type_size block alignment partition alloc infrastructure r = Ok fl
    /\ dependency_order r (fun a b => depends r b a) order
    /\ runs_blocks (core_objects c) type_size block alignment r fl
         (fun s d => endpoint r (fst s) /\ endpoint r (fst d) /\ linked r s d) order.
Proof.
  intros c r type_size block alignment partition alloc infrastructure IR T E TS AL NA PP IP.
  pose proof (C72_integrity c r IR T E) as CI. apply int_range_ints in IR. destruct (core_shape c r IR E) as (P & conns & pconns & -> & J & -> & A).
  set (root := Composite Core core_audio (core_params c) (core_children c) conns (flat_map wire_params (body c))) in *.
  assert (NI : forall p, ~ inner root p).
  { intros p (x & Hx & Hp & C & N). apply inside_core in Hx as [->|Hx]; [now apply N|]. apply children_atomic in Hx. congruence. }
  assert (NP : forall p, ~ pinner root p).
  { intros p (x & Hx & Hp & C & N). apply inside_core in Hx as [->|Hx]; [now apply N|]. apply children_atomic in Hx. congruence. }
  assert (WL : forall s d, wired root s d -> linked root s d).
  { intros s d W. destruct W as [s d L|s p d L Hi W]; [exact L|]. now apply NI in Hi. }
  assert (PW : forall s d, pwired root s d -> plinked root s d).
  { intros s d W. destruct W as [s d L|s p d L Hi W]; [exact L|]. now apply NP in Hi. }
  assert (FW : forall a b, atom root a -> atom root b -> depends root b a -> a < b).
  { intros a b Ha Hb [(s & d & W & (x & Hx & Cx & Ix & Px) & (y & Hy & Cy & Iy & Py))|(s & d & W & (x & Hx & Cx & Ix & Px) & (y & Hy & Cy & Iy & Py))].
    - apply WL in W as (i & au & p & children & cs & ps & e & j & Hi & He & Es & Ed & _ & _).
      apply inside_core_composite in Hi. injection Hi as -> -> -> -> -> ->.
      destruct (A e He) as (w & (ME & _) & X). rewrite <- Es, <- Ed in ME.
      apply inside_core in Hx as [->|Hx]; [discriminate|]. apply inside_core in Hy as [->|Hy]; [discriminate|].
      destruct (core_owners c x Hx) as (Ox & _ & Nx). destruct (core_owners c y Hy) as (Oy & _ & Ny).
      assert (Fo : a_owner (core_objects c) (fst s) < a_owner (core_objects c) (fst d) \/ a_owner (core_objects c) (fst s) = Core
              \/ a_owner (core_objects c) (fst d) = Core).
      { destruct X as [X|[X|X]]; [now apply (wires_forward c w)| |]; rewrite ME in X; injection X as -> ->; right; right; reflexivity. }
      rewrite (Ox _ Px), (Oy _ Py) in Fo. subst a b. destruct Fo as [Fo|[Fo|Fo]]; [exact Fo|contradiction|contradiction].
    - apply PW in W as (i & au & p & children & cs & ps & Hi & He).
      apply inside_core_composite in Hi. injection Hi as -> -> -> -> -> ->.
      apply inside_core in Hx as [->|Hx]; [discriminate|]. apply inside_core in Hy as [->|Hy]; [discriminate|].
      destruct (core_owners c x Hx) as (_ & Ox & Nx). destruct (core_owners c y Hy) as (_ & Oy & Ny).
      pose proof (params_forward c s d He) as Fo. rewrite (Ox _ Px), (Oy _ Py) in Fo. subst a b.
      destruct Fo as [Fo|[Fo|Fo]]; [exact Fo|contradiction|contradiction]. }
  assert (NC : ~ cyclic root (fun a b => depends root b a)).
  { intros (a & H). assert (forall x y, clos_trans_1n nat (fun a b => atom root a /\ atom root b /\ depends root b a) x y -> x < y) as K.
    { intros x y H'. induction H' as [x y (H1 & H2 & H3)|x y z (H1 & H2 & H3) H4 IH]; [now apply FW|]. pose proof (FW x y H1 H2 H3). lia. }
    apply K in H. lia. }
  pose proof (C33_hierarchy_partial (core_objects c) type_size block alignment partition alloc infrastructure root
    (core_audio_nodup c _ _) (core_addresses_nodup c _ _) (core_describes c _ _) eq_refl) as H.
  assert (H1 : forall s s' d, pinner root d -> plinked root s d -> plinked root s' d -> s = s') by (intros s s' d X; now apply NP in X).
  assert (H2 : forall s d, linked root s d -> a_type (core_objects c) (fst s) = a_type (core_objects c) (fst d) /\ a_type (core_objects c) (fst s) <= 8
     /\ type_size (a_type (core_objects c) (fst s)) <> 0 /\ (alignment = 0 \/ Nat.divide (type_size (a_type (core_objects c) (fst s))) alignment)).
  { intros s d _. cbn [a_type core_objects]. repeat split; [lia|exact TS|exact AL]. }
  assert (H3 : external_float (core_objects c) root) by (intros p _; reflexivity).
  specialize (H H1 H2 NA PP H3). destruct (construct _ _ _ _ _ _ _ root) as [fl|e|]; [| |contradiction].
  - destruct H as (_ & _ & order & O & R). exists fl, order. split; [reflexivity|]. split; [exact O|].
    intros W B behaviour base w mem capture before WB AL' HL. destruct (R W B behaviour base w mem capture before WB AL' HL) as [T1 T2].
    assert (SE : forall s d, (endpoint root (fst s) /\ endpoint root (fst d) /\ wired root s d)
                 <-> (endpoint root (fst s) /\ endpoint root (fst d) /\ linked root s d)).
    { intros s d. split; intros (X1 & X2 & X3); (split; [exact X1|]); (split; [exact X2|]); [now apply WL|now constructor]. }
    split; intros; (apply outcome_ext with (source := fun s d => endpoint root (fst s) /\ endpoint root (fst d) /\ wired root s d);
      [exact SE|]); [now apply T1|now apply T2].
  - exfalso. destruct H as [H|[(x & y & H & _)|[(x & y & H & _)|[(pm & params & H4 & H5 & _ & H)|H]]]].
    + congruence.
    + now apply NI in H.
    + now apply NP in H.
    + rewrite (IP pm params H4 H5) in H. discriminate.
    + contradiction.
Qed.

(** *** What arrives at the outputs *)
(** What the components do with the signals of a block (or of all time): each computes the
    signals of its output channels from those of its input channels.  The mixer has several
    input ports. *)
Record behaviours (T : Type) := Behaviours {
  b_gain : list T -> nat -> T; b_eq : list T -> nat -> T; b_bank : list T -> nat -> T;
  b_vbap : list T -> nat -> T; b_vbip : list T -> nat -> T; b_diffuse : list T -> nat -> T;
  b_decorr : list T -> nat -> T; b_reverb : list T -> nat -> T; b_mix : list (list T) -> nat -> T;
  b_sub : list T -> nat -> T; b_outeq : list T -> nat -> T; b_adjust : list T -> nat -> T; silence : T }.
Arguments b_gain {T}. Arguments b_eq {T}. Arguments b_bank {T}. Arguments b_vbap {T}. Arguments b_vbip {T}. Arguments b_diffuse {T}.
Arguments b_decorr {T}. Arguments b_reverb {T}. Arguments b_mix {T}. Arguments b_sub {T}. Arguments b_outeq {T}. Arguments b_adjust {T}.
Arguments silence {T}.

(** the documented signal flow: the signals of the loudspeakers and subwoofers for the object
    signals [x] *)
Section Documented.
  Context {T : Type} (c : config) (b : behaviours T).
  Definition channels (n : nat) (f : nat -> T) : list T := map f (seq 0 n).
  Definition documented (x : list T) : nat -> T :=
    let n := inputs c in
    let L := length (lsp_channels c) in
    let objects := channels n (b_eq b (channels n (b_gain b x))) in
    let bands := channels (2 * n) (b_bank b (objects ++ objects)) in
    let direct := if dualband c then [channels L (b_vbap b (firstn n bands)); channels L (b_vbip b (skipn n bands))]
                  else [channels L (b_vbap b objects)] in
    let diffuse := [channels L (b_decorr b (channels L (b_diffuse b objects)))] in
    let late := if reverb c then [channels L (b_reverb b objects)] else [] in
    let mixed := channels L (b_mix b (direct ++ diffuse ++ late)) in
    let all := mixed ++ channels (length (sub_channels c)) (b_sub b mixed) in
    b_adjust b (match eq_filters c with Some _ => channels (length all) (b_outeq b all) | None => all end).
End Documented.

(** [v] assigns a signal to each channel such that connected channels carry the same signal and
    every component of the flow does its work *)
Section Solves.
  Context {T : Type} (c : config) (b : behaviours T).
  Definition at_port (v : channel -> T) (p : nat) : list T := map (fun k => v (p, k)) (seq 0 (a_width (core_objects c) p)).
  Definition does (v : channel -> T) (f : list T -> nat -> T) (i o : nat) : Prop :=
    forall k, k < a_width (core_objects c) o -> v (o, k) = f (at_port v i) k.
  Definition solves (r : comp) (v : channel -> T) : Prop :=
    (forall s d, linked r s d -> v d = v s)
    /\ does v (b_gain b) gain_in gain_out /\ does v (b_eq b) eq_in eq_out
    /\ (dualband c = true -> does v (b_bank b) bank_in bank_out /\ does v (b_vbip b) vbip_in vbip_out)
    /\ does v (b_vbap b) vbap_in vbap_out
    /\ does v (b_diffuse b) diffuse_in diffuse_out /\ does v (b_decorr b) decorr_in decorr_out
    /\ (reverb c = true -> does v (b_reverb b) reverb_in reverb_out)
    /\ (forall k, k < a_width (core_objects c) mix_out ->
          v (mix_out, k) = b_mix b (map (fun j => at_port v (mix_in j)) (seq 0 (mix_inputs c))) k)
    /\ does v (b_sub b) sub_in sub_out
    /\ (eq_filters c <> None -> does v (b_outeq b) outeq_in outeq_out)
    /\ does v (b_adjust b) adjust_in adjust_out
    /\ (forall k, k < a_width (core_objects c) null_out -> v (null_out, k) = silence b).
End Solves.

Lemma in_joined_linked c conns pconns s d : In (s, d) (joined conns) ->
  linked (Composite Core core_audio (core_params c) (core_children c) conns pconns) s d.
Proof.
  unfold joined. intros H. apply in_flat_map in H as (x & Hx & H). apply in_map_iff in H as ([u w] & E & H). injection E as <- <-.
  cbn [fst snd]. apply In_nth_error in H as (j & Hj). exists Core, core_audio, (core_params c), (core_children c), conns, pconns, x, j.
  split; [constructor|]. split; [exact Hx|]. cbn [fst snd]. split; [reflexivity|]. split; [reflexivity|].
  revert j Hj. generalize (c_send x), (c_receive x). induction l as [|y l IH]; intros [|y' l'] [|j] Hj; try discriminate; cbn in Hj |- *.
  - injection Hj as -> ->. auto.
  - now apply IH.
Qed.

Lemma nth_error_ext' {A} (l l' : list A) : (forall k, nth_error l k = nth_error l' k) -> l = l'.
Proof.
  revert l'. induction l as [|x l IH]; intros [|y l'] H; [reflexivity|specialize (H 0); discriminate|specialize (H 0); discriminate|].
  pose proof (H 0) as H0. injection H0 as ->. f_equal. apply IH. intros k. exact (H (S k)).
Qed.
Lemma nth_error_seq a n k : k < n -> nth_error (seq a n) k = Some (a + k).
Proof.
  revert a k. induction n as [|n IH]; intros a [|k] H; try lia; cbn [seq nth_error]; [now rewrite Nat.add_0_r|]. rewrite IH by lia. f_equal. lia.
Qed.
Lemma nth_error_firstn' {A} (l : list A) n k : k < n -> nth_error (firstn n l) k = nth_error l k.
Proof. revert n k. induction l as [|x l IH]; intros [|n] [|k] H; try lia; try reflexivity. cbn. apply IH. lia. Qed.
Lemma nth_error_skipn' {A} (l : list A) n k : nth_error (skipn n l) k = nth_error l (n + k).
Proof. revert n. induction l as [|x l IH]; intros [|n]; try reflexivity; [now destruct k|]. cbn [skipn Nat.add nth_error]. apply IH. Qed.
Lemma nth_error_combine' {A B} (l : list A) (l' : list B) k :
  nth_error (combine l l') k = match nth_error l k, nth_error l' k with Some x, Some y => Some (x, y) | _, _ => None end.
Proof.
  revert l' k. induction l as [|x l IH]; intros [|y l'] [|k]; try reflexivity; cbn [combine nth_error]; [now destruct (nth_error l k)|]. apply IH.
Qed.

Section Output.
  Context {T : Type} (c : config) (b : behaviours T) (conns : list aconn) (pconns : list pconn) (v : channel -> T).
  Notation root := (Composite Core core_audio (core_params c) (core_children c) conns pconns).
  Hypothesis J : joined conns = flat_map (wire_pairs c) (body c) ++ out_pairs c.
  Hypothesis K : forall s d, linked root s d -> v d = v s.
  Notation port := (at_port c v).

  Lemma port_all s r : In (All s r) (body c) -> a_width (core_objects c) s = a_width (core_objects c) r -> port r = port s.
  Proof.
    intros H E. unfold at_port. rewrite <- E. apply map_ext_in. intros k Hk. apply K. apply (in_joined_linked c). rewrite J. apply in_or_app. left.
    apply in_flat_map. exists (All s r). split; [exact H|]. cbn [wire_pairs]. apply in_map_iff. exists (k, k). split; [reflexivity|].
    apply in_seq in Hk. clear -Hk. revert Hk. generalize (a_width (core_objects c) s). intros n Hk.
    assert (G : forall a n, a <= k < a + n -> In (k, k) (combine (seq a n) (seq a n))).
    { intros a m. revert a. induction m as [|m IH]; intros a H; [lia|]. cbn [seq combine].
      destruct (Nat.eq_dec a k) as [->|N]; [now left|right; apply IH; lia]. }
    apply G. lia.
  Qed.
  Lemma port_range s a e r a' e' j : In (Chans s (range a e) r (range a' e')) (body c) -> e - a = e' - a' -> j < e - a ->
    v (r, a' + j) = v (s, a + j).
  Proof.
    intros H E Hj. apply K. apply (in_joined_linked c). rewrite J. apply in_or_app. left.
    apply in_flat_map. eexists. split; [exact H|]. cbn [wire_pairs]. apply in_map_iff. exists (a + j, a' + j). split; [reflexivity|].
    unfold range. rewrite <- E. clear -Hj. revert j Hj. revert a'. generalize (e - a) as n. intros n. revert a.
    induction n as [|n IH]; intros a a' j Hj; [lia|]. cbn [seq combine]. destruct j as [|j]; [left; f_equal; lia|right].
    specialize (IH (S a) (S a') j). replace (a + S j) with (S a + j) by lia. replace (a' + S j) with (S a' + j) by lia. apply IH. lia.
  Qed.
End Output.

(** Without tracking: whatever the components do, playback channel [i - 1] carries the signal of
    the loudspeaker or subwoofer with channel index [i], as documented, and all others carry
    silence. *)
Theorem C72_output : forall (T : Type) c r (b : behaviours T) v,
  int_range c -> tracking c = false -> core_new c = Ok r -> solves c b r v ->
  let x := channels (inputs c) (fun k => v (audioIn, k)) in
  (forall j i, nth_error (lsp_channels c ++ sub_channels c) j = Some i -> v (audioOut, Z.to_nat (i - 1)) = documented c b x j)
  /\ (forall k, k < outputs c -> ~ In (Z.of_nat k + 1)%Z (lsp_channels c ++ sub_channels c) -> v (audioOut, k) = silence b).
Proof.
  intros T c r b v IR TR E S x. apply int_range_ints in IR. destruct (core_shape c r IR E) as (P & conns & pconns & -> & J & -> & A).
  destruct S as (K & Sgain & Seq & Sband & Svbap & Sdiff & Sdec & Srev & Smix & Ssub & Souteq & Sadj & Snull).
  pose proof (port_all c conns _ v J K) as PA. pose proof (port_range c conns _ v J K) as PR.
  assert (DO : forall f i o, does c v f i o -> at_port c v o = channels (a_width (core_objects c) o) (f (at_port c v i))).
  { intros f i o D. unfold at_port at 1, channels. apply map_ext_in. intros k Hk. apply D. apply in_seq in Hk. lia. }
  assert (IB : forall w, In w (wires_objects c ++ wires_gains c ++ wires_diffuse c ++ wires_output c) -> In w (body c)).
  { intros w Hw. unfold body. apply in_or_app. now right. }
  assert (Egi : at_port c v gain_in = x).
  { rewrite (PA audioIn gain_in); [reflexivity| |reflexivity]. apply IB, in_or_app. left. cbn. auto. }
  pose proof (DO _ _ _ Sgain) as Ego. rewrite Egi in Ego. change (a_width (core_objects c) gain_out) with (inputs c) in Ego.
  assert (Eei : at_port c v eq_in = at_port c v gain_out).
  { apply (PA gain_out eq_in); [|reflexivity]. apply IB, in_or_app. left. cbn. auto 10. }
  pose proof (DO _ _ _ Seq) as Eeo. rewrite Eei, Ego in Eeo. change (a_width (core_objects c) eq_out) with (inputs c) in Eeo.
  set (objects := channels (inputs c) (b_eq b (channels (inputs c) (b_gain b x)))) in *.
  assert (LO : length objects = inputs c) by (unfold objects, channels; now rewrite map_length, seq_length).
  assert (Edi : at_port c v diffuse_in = objects).
  { rewrite (PA eq_out diffuse_in); [exact Eeo| |reflexivity]. apply IB, in_or_app. right. apply in_or_app. left. cbn. auto 10. }
  pose proof (DO _ _ _ Sdiff) as Edo. rewrite Edi in Edo.
  assert (Eci : at_port c v decorr_in = at_port c v diffuse_out).
  { apply PA; [|reflexivity]. apply IB. rewrite !in_app_iff. right. right. left. unfold wires_diffuse. apply in_or_app. right. now left. }
  pose proof (DO _ _ _ Sdec) as Eco. rewrite Eci, Edo in Eco.
  assert (Emd : at_port c v (mix_in (if dualband c then 2 else 1)) = at_port c v decorr_out).
  { apply PA; [|now destruct (dualband c)]. apply IB. rewrite !in_app_iff. right. right. left. unfold wires_diffuse. apply in_or_app. right. cbn. auto. }
  assert (Emr : reverb c = true -> at_port c v (mix_in (if dualband c then 3 else 2)) = channels (nLsp c) (b_reverb b objects)).
  { intros R. rewrite (PA reverb_out); [|apply IB; rewrite !in_app_iff; right; right; left; unfold wires_diffuse; rewrite R; cbn; auto|now destruct (dualband c)].
    rewrite (DO _ _ _ (Srev R)). rewrite (PA eq_out reverb_in); [now rewrite Eeo| |reflexivity].
    apply IB. rewrite !in_app_iff. right. right. left. unfold wires_diffuse. rewrite R. cbn. auto. }
  set (bands := channels (2 * inputs c) (b_bank b (objects ++ objects))).
  assert (LB : length bands = 2 * inputs c) by (unfold bands, channels; now rewrite map_length, seq_length).
  assert (Emv : at_port c v (mix_in 0) = at_port c v vbap_out).
  { apply PA; [|reflexivity]. apply IB, in_or_app. left. cbn. auto 10. }
  assert (Edirect : map (fun j => at_port c v (mix_in j)) (seq 0 (if dualband c then 2 else 1))
    = (if dualband c then [channels (nLsp c) (b_vbap b (firstn (inputs c) bands)); channels (nLsp c) (b_vbip b (skipn (inputs c) bands))]
       else [channels (nLsp c) (b_vbap b objects)])).
  { destruct (dualband c) eqn:DB.
    - destruct (Sband eq_refl) as [Sbank Svbip]. cbn [seq map].
      assert (IW : forall w, In w [Chans eq_out (range 0 (inputs c)) bank_in (range 0 (inputs c));
         Chans eq_out (range 0 (inputs c)) bank_in (range (inputs c) (2 * inputs c));
         Chans bank_out (range 0 (inputs c)) vbap_in (range 0 (inputs c));
         Chans bank_out (range (inputs c) (2 * inputs c)) vbip_in (range 0 (inputs c));
         All vbip_out (mix_in 1)] -> In w (body c)).
      { intros w Hw. apply IB, in_or_app. left. unfold wires_objects. rewrite DB. apply in_or_app. right. now right. }
      assert (Ebi : at_port c v bank_in = objects ++ objects).
      { unfold at_port. change (a_width (core_objects c) bank_in) with (2 * inputs c). replace (2 * inputs c) with (inputs c + inputs c) by lia.
        rewrite seq_app, map_app. rewrite <- Eeo. unfold at_port. change (a_width (core_objects c) eq_out) with (inputs c). cbn [Nat.add]. f_equal.
        - apply map_ext_in. intros k Hk. apply in_seq in Hk. change k with (0 + k). apply (PR eq_out 0 (inputs c) bank_in 0 (inputs c) k); [apply IW; cbn; auto|lia|lia].
        - rewrite <- (Nat.add_0_r (inputs c)) at 1. apply nth_error_ext'. intros k. rewrite !nth_error_map.
          destruct (Nat.ltb_spec k (inputs c)) as [Lk|Lk].
          + rewrite !nth_error_seq by lia. cbn [option_map]. rewrite Nat.add_0_r, Nat.add_0_l. f_equal.
            change k with (0 + k) at 2. apply (PR eq_out 0 (inputs c) bank_in (inputs c) (2 * inputs c) k); [apply IW; cbn; auto|lia|lia].
          + rewrite !(proj2 (nth_error_None _ _)) by (rewrite seq_length; lia). reflexivity. }
      pose proof (DO _ _ _ Sbank) as Ebo. rewrite Ebi in Ebo. change (a_width (core_objects c) bank_out) with (2 * inputs c) in Ebo. fold bands in Ebo.
      assert (VB : forall k, k < 2 * inputs c -> nth_error bands k = Some (v (bank_out, k))).
      { intros k Hk. rewrite <- Ebo. unfold at_port. change (a_width (core_objects c) bank_out) with (2 * inputs c).
        rewrite nth_error_map, nth_error_seq by lia. reflexivity. }
      f_equal; [|f_equal].
      + rewrite Emv, (DO _ _ _ Svbap). change (a_width (core_objects c) vbap_out) with (nLsp c). f_equal. f_equal.
        apply nth_error_ext'. intros k. unfold at_port. change (a_width (core_objects c) vbap_in) with (inputs c).
        destruct (Nat.ltb_spec k (inputs c)) as [Lk|Lk].
        * rewrite nth_error_map, nth_error_seq by lia. cbn [option_map]. rewrite nth_error_firstn' by lia. rewrite VB by lia. f_equal.
          apply (PR bank_out 0 (inputs c) vbap_in 0 (inputs c) k); [apply IW; cbn; auto|lia|lia].
        * rewrite !(proj2 (nth_error_None _ _)); [reflexivity|rewrite firstn_length; lia|rewrite map_length, seq_length; lia].
      + rewrite (PA vbip_out (mix_in 1)) by (reflexivity || (apply IW; cbn; auto 10)). rewrite (DO _ _ _ Svbip).
        change (a_width (core_objects c) vbip_out) with (nLsp c). f_equal. f_equal.
        apply nth_error_ext'. intros k. unfold at_port. change (a_width (core_objects c) vbip_in) with (inputs c).
        destruct (Nat.ltb_spec k (inputs c)) as [Lk|Lk].
        * rewrite nth_error_map, nth_error_seq by lia. cbn [option_map]. rewrite nth_error_skipn'. rewrite VB by lia. f_equal.
          apply (PR bank_out (inputs c) (2 * inputs c) vbip_in 0 (inputs c) k); [apply IW; cbn; auto|lia|lia].
        * rewrite !(proj2 (nth_error_None _ _)); [reflexivity|rewrite skipn_length; lia|rewrite map_length, seq_length; lia].
    - cbn [seq map]. rewrite Emv, (DO _ _ _ Svbap). rewrite (PA eq_out vbap_in); [now rewrite Eeo| |reflexivity].
      apply IB, in_or_app. left. unfold wires_objects. rewrite DB. apply in_or_app. right. now left. }
  assert (Emix : at_port c v mix_out = channels (nLsp c) (b_mix b
     ((if dualband c then [channels (nLsp c) (b_vbap b (firstn (inputs c) bands)); channels (nLsp c) (b_vbip b (skipn (inputs c) bands))]
       else [channels (nLsp c) (b_vbap b objects)])
      ++ [channels (nLsp c) (b_decorr b (channels (nLsp c) (b_diffuse b objects)))]
      ++ (if reverb c then [channels (nLsp c) (b_reverb b objects)] else [])))).
  { unfold at_port at 1. change (a_width (core_objects c) mix_out) with (nLsp c). unfold channels at 1. apply map_ext_in. intros k Hk.
    apply in_seq in Hk. rewrite Smix by (change (a_width (core_objects c) mix_out) with (nLsp c); lia). f_equal. rewrite <- Edirect.
    unfold mix_inputs. rewrite <- Nat.add_assoc. replace 2 with (1 + 1) by reflexivity.
    destruct (dualband c), (reverb c); cbn [Nat.add seq map app] in *; rewrite ?(Emr eq_refl), Emd, Eco; reflexivity. }
  set (mixed := channels (nLsp c) (b_mix b _)) in Emix.
  assert (LM : length mixed = nLsp c) by (unfold mixed, channels; now rewrite map_length, seq_length).
  assert (Esi : at_port c v sub_in = mixed).
  { rewrite (PA mix_out sub_in); [exact Emix| |reflexivity]. apply IB. rewrite !in_app_iff. right. right. right. unfold wires_output. rewrite TR. now left. }
  pose proof (DO _ _ _ Ssub) as Eso. rewrite Esi in Eso. change (a_width (core_objects c) sub_out) with (nSub c) in Eso.
  set (all := mixed ++ channels (nSub c) (b_sub b mixed)).
  assert (LA : length all = nOut c) by (unfold all, channels; rewrite app_length, map_length, seq_length, LM; reflexivity).
  assert (JOIN : forall p, a_width (core_objects c) p = nOut c ->
     In (Chans mix_out (range 0 (nLsp c)) p (range 0 (nLsp c))) (body c) ->
     In (Chans sub_out (range 0 (nSub c)) p (range (nLsp c) (nLsp c + nSub c))) (body c) -> at_port c v p = all).
  { intros p W I1 I2. unfold at_port. rewrite W. unfold nOut. rewrite seq_app, map_app. unfold all. f_equal.
    - rewrite <- Emix. unfold at_port. change (a_width (core_objects c) mix_out) with (nLsp c). apply map_ext_in. intros k Hk. apply in_seq in Hk.
      apply (PR _ _ _ _ _ _ k I1); lia.
    - rewrite <- Eso. unfold at_port. change (a_width (core_objects c) sub_out) with (nSub c). cbn [Nat.add].
      apply nth_error_ext'. intros k. rewrite !nth_error_map. destruct (Nat.ltb_spec k (nSub c)) as [Lk|Lk].
      + rewrite !nth_error_seq by lia. cbn [option_map]. f_equal. apply (PR _ _ _ _ _ _ k I2); lia.
      + rewrite !(proj2 (nth_error_None _ _)) by (rewrite seq_length; lia). reflexivity. }
  assert (Eai : at_port c v adjust_in = match eq_filters c with Some _ => channels (length all) (b_outeq b all) | None => all end).
  { assert (IO : forall w, In w (wires_output c) -> In w (body c)) by (intros w Hw; apply IB; rewrite !in_app_iff; auto).
    unfold wires_output in IO. rewrite TR in IO. destruct (eq_filters c) as [q|] eqn:EQ.
    - assert (has_eq c = true) as HE by (unfold has_eq; now rewrite EQ). rewrite HE in IO.
      rewrite (PA outeq_out adjust_in); [|apply IO; cbn; auto|reflexivity]. rewrite (DO _ _ _ (Souteq ltac:(discriminate))).
      change (a_width (core_objects c) outeq_out) with (nOut c). rewrite LA. f_equal. f_equal.
      apply JOIN; [reflexivity|apply IO; cbn; auto|apply IO; cbn; auto].
    - assert (has_eq c = false) as HE by (unfold has_eq; now rewrite EQ). rewrite HE in IO.
      apply JOIN; [reflexivity|apply IO; cbn; auto|apply IO; cbn; auto]. }
  assert (OUT : forall s d, In (s, d) (out_pairs c) -> v d = v s).
  { intros s d H. apply K, (in_joined_linked c). rewrite J. apply in_or_app. now right. }
  destruct P as (_ & _ & _ & V). pose proof V as [F D].
  split.
  - intros j i Hj. rewrite (OUT (adjust_out, j) (audioOut, Z.to_nat (i - 1))).
    + assert (j < nOut c) as Lj by (rewrite <- play_length; unfold play; rewrite map_length; apply nth_error_Some; unfold chans; congruence).
      rewrite (Sadj j Lj), Eai. reflexivity.
    + unfold out_pairs. apply in_or_app. left. unfold pairs. apply in_map_iff. exists (j, Z.to_nat (i - 1)). split; [reflexivity|].
      assert (Lj : j < nOut c) by (rewrite <- play_length; unfold play; rewrite map_length; apply nth_error_Some; unfold chans; congruence).
      assert (Hp : nth_error (play c) j = Some (Z.to_nat (i - 1))) by (unfold play; rewrite nth_error_map; unfold chans; now rewrite Hj).
      apply (nth_error_In _ j). rewrite nth_error_combine'. rewrite nth_error_seq by lia. now rewrite Hp.
  - intros k Hk N. assert (In k (unused c)) as U.
    { apply filter_In. split; [apply in_seq; lia|]. apply negb_true_iff, not_true_is_false. intros M. apply mem_spec in M.
      apply in_map_iff in M as (i & Ei & Hi). rewrite Forall_forall in F. pose proof (F i Hi). apply N. replace (Z.of_nat k + 1)%Z with i by lia. exact Hi. }
    rewrite (OUT (null_out, 0) (audioOut, k)).
    + apply Snull. change (a_width (core_objects c) null_out) with (if outputs c =? nOut c then 0 else 1).
      destruct (unused_length c V) as [UL UO]. assert (0 < length (unused c)) by (destruct (unused c); [contradiction|cbn; lia]).
      destruct (Nat.eqb_spec (outputs c) (nOut c)); lia.
    + unfold out_pairs. apply in_or_app. right. unfold pairs. apply in_map_iff. exists (0, k). split; [reflexivity|].
      apply In_nth_error in U as (j & Hj). apply (nth_error_In _ j). rewrite nth_error_combine', Hj.
      assert (j < length (unused c)) by (apply nth_error_Some; congruence). rewrite nth_error_repeat by assumption. reflexivity.
Qed.

(** *** Examples *)
(** two inputs, five outputs; loudspeakers on channels 4 and 2, a subwoofer on channel 1 *)
Definition ex_core (eq : option nat) (tracked rev dual : bool) : config :=
  Config 2 5 [4; 2]%Z [1]%Z eq 3 tracked rev dual.
Lemma ex_core_ints eq tracked rev dual : int_range (ex_core eq tracked rev dual).
Proof. split; [|cbn; lia]. cbn. intros i [[<-|[<-|[]]]|[<-|[]]]; lia. Qed.
Lemma ex_core_ok eq tracked rev dual : (eq = None \/ (eq = Some 3 /\ tracked = false)) -> exists r, core_new (ex_core eq tracked rev dual) = Ok r.
Proof. intros [->|[-> ->]]; [destruct tracked, rev, dual|destruct rev, dual]; (eexists; vm_compute; reflexivity). Qed.

Example C72_example_integrity : exists r, core_new (ex_core (Some 3) false true true) = Ok r
  /\ checkConnectionIntegrity (core_objects (ex_core (Some 3) false true true)) r = true.
Proof. eexists. split; vm_compute; reflexivity. Qed.
(** duplicate channels; channels outside the range; equalisation for the wrong number of channels *)
Example C72_example_rejected :
  core_new (Config 1 4 [1; 2]%Z [2]%Z None 0 false false false) = Throw InvalidArgument
  /\ core_new (Config 1 4 [1; 5]%Z [] None 0 false false false) = Throw InvalidArgument
  /\ core_new (Config 1 4 [1; 0]%Z [] None 0 false false false) = Throw InvalidArgument
  /\ core_new (Config 1 4 [1; 2]%Z [] (Some 3) 0 false false false) = Throw InvalidArgument
  /\ core_new (Config 1 4 [] [] None 0 false false false) = UB.
Proof. repeat split; vm_compute; reflexivity. Qed.

(** a flow with tracking is built for a plain stereo setup, but rejected by the runtime engine *)
Theorem C72_tracking_refuted : exists c r, int_range c /\ core_new c = Ok r
  /\ checkConnectionIntegrity (core_objects c) r = false.
Proof.
  exists (Config 1 2 [1; 2]%Z [] None 0 true false false). eexists. split; [|split; vm_compute; reflexivity].
  split; [|cbn; lia]. cbn. intros i [[<-|[<-|[]]]|[]]; lia.
Qed.

(** components that write down what they receive *)
Definition ex_behaviours : behaviours (list nat) :=
  let f (i : nat) (l : list (list nat)) (k : nat) := i :: k :: concat l in
  Behaviours (list nat) (f 1) (f 2) (f 3) (f 4) (f 5) (f 6) (f 7) (f 8) (fun l k => 9 :: k :: concat (concat l)) (f 10) (f 11) (f 12) [0].
Definition ex_signal (c : channel) : list nat :=
  let b := ex_behaviours in
  let '(p, k) := c in
  let x := [[100]; [200]] in
  let g := channels 2 (b_gain b x) in
  let e := channels 2 (b_eq b g) in
  let vb := channels 2 (b_vbap b e) in
  let di := channels 2 (b_diffuse b e) in
  let de := channels 2 (b_decorr b di) in
  let mi := channels 2 (b_mix b [vb; de]) in
  let su := channels 1 (b_sub b mi) in
  let ad := channels 3 (b_adjust b (mi ++ su)) in
  nth k (match p with
         | 0 | 2 => x | 3 | 4 => g | 5 | 8 | 12 => e | 9 | 17 => vb | 13 | 14 => di | 15 | 18 => de | 16 | 21 => mi | 22 => su
         | 6 => mi ++ su | 7 => ad | 1 => [nth 2 ad []; nth 1 ad []; [0]; nth 0 ad []; [0]] | 23 => [[0]] | _ => [] end) [].
Lemma linked_joined c conns pconns s d :
  linked (Composite Core core_audio (core_params c) (core_children c) conns pconns) s d -> In (s, d) (joined conns).
Proof.
  intros (i & a & p & children & cs & ps & x & j & Hi & Hx & Es & Ed & Hs & Hd).
  apply inside_core_composite in Hi. injection Hi as -> -> -> -> -> ->.
  unfold joined. apply in_flat_map. exists x. split; [exact Hx|]. apply in_map_iff. exists (snd s, snd d). cbn [fst snd].
  split; [rewrite <- Es, <- Ed; destruct s, d; reflexivity|]. clear -Hs Hd. revert j Hs Hd. generalize (c_send x), (c_receive x).
  induction l as [|u l IH]; intros [|u' l'] [|j] H1 H2; try discriminate; cbn in H1, H2.
  - injection H1 as ->. injection H2 as ->. now left.
  - right. now apply (IH l' j).
Qed.
(** With tracking, what remains of the signal flow behind the mixer: the signals of the
    loudspeakers pass the gains and delays for the listener position, whose outputs feed the
    subwoofer mixer and the next stage. *)
Theorem C72_tracking_compensated : forall c r s k, int_range c -> tracking c = true -> core_new c = Ok r ->
  let L := length (lsp_channels c) in
  (linked r s (listener_in, k) <-> k < L /\ s = (mix_out, k))
  /\ (linked r s (sub_in, k) <-> k < L /\ s = (listener_out, k))
  /\ (eq_filters c = None -> (linked r s (adjust_in, k) <-> k < L /\ s = (listener_out, k)))
  /\ (eq_filters c <> None -> (linked r s (outeq_in, k) <-> k < L /\ s = (listener_out, k))).
Proof.
  intros c r s k I T E L. apply int_range_ints in I. destruct (core_shape c r I E) as (P & conns & pconns & -> & J & -> & A).
  assert (K : forall d, linked (Composite Core core_audio (core_params c) (core_children c) conns (flat_map wire_params (body c))) s d
              <-> In (s, d) (flat_map (wire_pairs c) (body c) ++ out_pairs c)).
  { intros d. rewrite <- J. split; [apply linked_joined|apply in_joined_linked]. }
  assert (Q : forall s0 n r0 d, In (s, d) (pairs s0 (seq 0 n) r0 (seq 0 n)) <-> fst d = r0 /\ snd d < n /\ s = (s0, snd d)).
  { clear. intros s0 n r0 d. unfold pairs. rewrite in_map_iff. split.
    - intros ([u v] & H & Hc). injection H as <- <-. cbn [fst snd]. assert (u = v) as <-.
      { clear -Hc. apply In_nth_error in Hc as [j Hj]. revert Hj. generalize 0 as a. revert j. induction n as [|n IH]; intros j a Hj; [destruct j; discriminate|].
        destruct j as [|j]; cbn in Hj; [now injection Hj as <- <-|now apply (IH j (S a))]. }
      apply in_combine_l in Hc. apply in_seq in Hc. split; [reflexivity|]. split; [lia|reflexivity].
    - intros (<- & H & ->). exists (snd d, snd d). cbn [fst snd]. split; [now destruct d|].
      assert (G : forall a b, b < n -> In (a + b, a + b) (combine (seq a n) (seq a n))).
      { clear. induction n as [|n IH]; intros a b Hb; [lia|]. cbn. destruct b as [|b]; [left; f_equal; lia|right].
        replace (a + S b) with (S a + b) by lia. apply IH. lia. }
      apply (G 0 (snd d) H). }
  assert (O : forall d, In (s, d) (out_pairs c) -> fst d = audioOut).
  { intros d H. unfold out_pairs in H. apply in_app_or in H as [H|H]; apply in_map_iff in H as (y & H & _); injection H as _ <-; reflexivity. }
  assert (W : forall d, fst d <> audioOut -> (linked (Composite Core core_audio (core_params c) (core_children c) conns (flat_map wire_params (body c))) s d
              <-> In (s, d) (flat_map (wire_pairs c) (body c)))).
  { intros d N. rewrite K, in_app_iff. split; [|auto]. intros [H|H]; [exact H|]. now apply O in H. }
  rewrite !W by discriminate. 
  assert (X : forall d, In d [listener_in; sub_in; adjust_in; outeq_in] ->
    (In (s, (d, k)) (flat_map (wire_pairs c) (body c)) <-> In (s, (d, k)) (flat_map (wire_pairs c) (wires_output c)))).
  { intros d Hd. unfold body. rewrite !flat_map_app, !in_app_iff. split; [|auto]. intros [H|[H|[H|[H|H]]]]; [..|exact H]; exfalso.
    all: apply in_flat_map in H as (w & Hw & H).
    all: assert (R : forall s0 si r0 ri, In (s, (d, k)) (pairs s0 si r0 ri) -> d = r0)
           by (intros s0 si r0 ri Y; apply in_map_iff in Y as ([u v] & Y & _); now injection Y as _ <- _).
    all: unfold wires_tracking, wires_objects, wires_gains, wires_diffuse in Hw;
      cases c; try discriminate T; cbn [tracking reverb dualband has_eq eq_filters app In] in Hw;
      repeat match goal with H : _ \/ _ |- _ => destruct H as [<-|H] end; try contradiction; cbn [wire_pairs] in H; try contradiction;
      apply R in H; subst d; cbn in Hd; repeat (destruct Hd as [Hd|Hd]; [discriminate Hd|]); contradiction. }
  rewrite !X by (cbn; auto). unfold wires_output, has_eq. rewrite T.
  destruct (eq_filters c) as [q|]; cbn [flat_map app wire_pairs]; rewrite !in_app_iff; unfold range; rewrite ?Nat.sub_0_r, !Q; cbn [fst snd In];
    change (a_width (core_objects c) mix_out) with L; change (a_width (core_objects c) listener_out) with L; change (nLsp c) with L;
    (split; [|split; [|split]]); try (intros H; try discriminate H; try now contradiction H);
    split; try (intros H'; repeat match goal with H : _ \/ _ |- _ => destruct H as [H|H] end; try contradiction; destruct H' as (Y & H1 & H2); try discriminate Y; auto);
    intros (H1 & H2); auto 10.
Qed.
Example C72_example_solution : exists r, core_new (ex_core None false false false) = Ok r
  /\ solves (ex_core None false false false) ex_behaviours r ex_signal
  /\ documented (ex_core None false false false) ex_behaviours [[100]; [200]] 2 = ex_signal (audioOut, 0)
  /\ length (ex_signal (audioOut, 0)) = 556.
Proof.
  eexists. split; [vm_compute; reflexivity|]. split; [|split; vm_compute; reflexivity]. split.
  - intros s d H. apply (linked_joined (ex_core None false false false)) in H. vm_compute in H.
    repeat (destruct H as [H|H]; [injection H as <- <-; vm_compute; reflexivity|]). contradiction.
  - repeat split; try discriminate; try (intros H; now contradiction H); intros k H; cbn in H; 
      repeat (destruct k as [|k]; [vm_compute; reflexivity|]); lia.
Qed.

Print Assumptions C72_construct.
Print Assumptions C72_integrity.
Print Assumptions C72_tracking.
Print Assumptions C72_tracking_subwoofers.
Print Assumptions C72_parameters.
Print Assumptions C72_compatible.
Print Assumptions C72_tracking_compensated.
Print Assumptions C72_runs.
Print Assumptions C72_output.
Print Assumptions C72_tracking_refuted.
