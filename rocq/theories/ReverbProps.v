(** Property C67: the reverberation parameters. *)
From Verif Require Import Base.
From Coq Require Import QArith Qcanon.
From Verif Require Import OrdSet SignalRoutingModel SignalRoutingProofs AllocatorModel AllocatorProofs
  ReverbModel ReverbProofs ReverbBlock.
Local Open Scope nat_scope.

Section C67.
  Context {B P : Type} (flat : B) (vbap : P -> list Qc) (invalid : nat) (c : config).
  (** The calculator after setup() and any number of calls of process(), with exceptions
      caught by the caller. *)
  Definition after (s0 : @state B) (history : list (@scene B P)) : @state B :=
    fold_left (fun s sc => fst (process flat vbap invalid c s sc)) history s0.
  (** the channel of an object *)
  Definition channel (s : @state B) (id : Z) : option nat := channel_of (s_alloc s) id.

  Lemma few_found (sc : @scene B P) : valid_scene sc -> (few_objects c sc <-> length (found sc) <= c_objects c).
  Proof using.
    intros (V1 & _). split.
    - intros (ids & N & L & H). transitivity (length ids); [|exact L].
      apply NoDup_incl_length; [now apply found_nodup|]. intros id Hi. apply found_in in Hi as (input & rs & l & Hi).
      apply (H id (Reverb [input] rs l) Hi). now exists input, rs, l.
    - intros L. exists (found sc). split; [now apply found_nodup|]. split; [exact L|].
      intros id o Ho (input & rs & l & ->). apply found_in. eauto.
  Qed.
  Lemma not_overfull a (sc : @scene B P) : a_inv a -> matches a sc -> valid_scene sc -> few_reflections c sc ->
    forall ch, ~ overfull c (owner a sc ch).
  Proof using.
    intros I M V F ch. destruct (owner_cases a sc ch I M V) as [[-> _]|(id & input & rs & l & -> & HI & _)]; cbn; [easy|].
    specialize (F id input rs l HI). lia.
  Qed.

  (** The object at a channel of the allocation *)
  Lemma owner_object a (sc : @scene B P) id input rs l ch : a_inv a -> matches a sc -> valid_scene sc ->
    In (id, Reverb [input] rs l) sc -> channel_of a id = Some ch -> owner a sc ch = Some (input, rs, l).
  Proof using.
    intros I M V H C. pose proof (get_object_inverse a id ch I C) as G.
    destruct V as (V1 & V2 & V3). unfold owner. cbn zeta. rewrite G.
    destruct (Z.eqb_spec id invalid_id) as [E|N]; [now apply (V2 id _ H) in E|].
    now rewrite (object_at_ok sc id _ V1 H).
  Qed.
  Lemma owner_none a (sc : @scene B P) ch : a_inv a -> (forall id, channel_of a id <> Some ch) -> owner a sc ch = None.
  Proof using.
    intros I H. unfold owner. cbn zeta. rewrite (get_object_unused a ch I H). now rewrite Z.eqb_refl.
  Qed.

  Hypothesis gains : forall x, length (vbap x) = c_speakers c.
  Hypothesis wide : c_objects c * c_reflections c <= c_stride c.

  Lemma after_good s0 biquads history : setup flat c biquads = Ok s0 -> Forall valid_scene history -> good c (after s0 history).
  Proof using gains wide.
    intros E F. unfold after. assert (G : good c s0) by now apply (setup_good flat c biquads).
    clear E. revert s0 G. induction F as [|sc h V F IH]; intros s0 G; [exact G|]. cbn [fold_left].
    apply IH. now apply (process_good flat vbap invalid c gains wide).
  Qed.
  (** C67: after every block the outputs are exactly those of the scene, whatever happened
      before; every object has its own channel and keeps it as long as it stays. *)
  Theorem C67_outputs :
    forall s0 history sc, setup flat c 10 = Ok s0 -> Forall valid_scene history ->
    valid_scene sc -> few_objects c sc -> few_reflections c sc ->
    let s := after s0 history in
    exists s', process flat vbap invalid c s sc = (s', Ok tt)
      /\ (forall id input rs l, In (id, Reverb [input] rs l) sc ->
            exists ch, channel s' id = Some ch /\ ch < c_objects c
              /\ (forall id', channel s' id' = Some ch -> id' = id)
              /\ (forall k, channel s id = Some k -> ch = k)
              /\ renders flat vbap c (s_front s') (s_panning s') ch (Some (input, rs)))
      /\ (forall id ch, channel s' id = Some ch -> exists o, In (id, o) sc /\ is_single o)
      /\ (forall ch, ch < c_objects c -> (forall id, channel s' id <> Some ch) ->
            renders flat vbap c (s_front s') (s_panning s') ch None)
      /\ (forall e, In e (o_routing (s_front s')) -> e_out e < c_objects c).
  Proof using gains wide.
    intros s0 history sc E H V FO FR s. pose proof (after_good s0 10 history E H) as G. fold s in G.
    destruct (process_cases flat vbap invalid c gains wide s sc G V)
      as [[L _]|(L & s' & a & G' & A & M & K & C)].
    { apply (few_found sc V) in FO. lia. }
    destruct G' as (J & I & MX). rewrite A in I, MX.
    destruct C as [((ch & Hc & OF) & _)|(_ & E' & _ & _ & W)].
    { now apply (not_overfull a sc I M V FR) in OF. }
    assert (Z : sized c (s_front s')) by apply J.
    exists s'. split; [exact E'|]. unfold channel. rewrite A. split; [|split; [|split]].
    - intros id input rs l HI.
      assert (F : In id (found sc)) by (apply found_in; eauto).
      destruct (proj2 (M id) F) as [ch C]. exists ch. split; [exact C|].
      assert (Hc : ch < c_objects c) by (rewrite <- MX; now apply (channel_bound a id)).
      split; [exact Hc|]. split; [intros id' C'; now apply (channels_exclusive a id' id ch I C' C)|].
      split; [intros k Hk; specialize (K id k F Hk); congruence|].
      pose proof (block_renders flat vbap invalid c gains wide a sc _ _ _ _ ch I M V Z W Hc) as R.
      rewrite (owner_object a sc id input rs l ch I M V HI C) in R. exact R.
    - intros id ch C. assert (F : In id (found sc)) by (apply M; eauto).
      apply found_in in F as (input & rs & l & F). exists (Reverb [input] rs l). split; [exact F|]. now exists input, rs, l.
    - intros ch Hc N. pose proof (block_renders flat vbap invalid c gains wide a sc _ _ _ _ ch I M V Z W Hc) as R.
      rewrite (owner_none a sc ch I N) in R. exact R.
    - destruct Z as (_ & RB & _). rewrite Forall_forall in RB. exact RB.
  Qed.

  (** C67: late parameters are sent exactly when they differ by more than 2^-23 from those
      last sent for the channel; afterwards the last sent ones agree with the scene (the
      tolerance does not accumulate). *)
  Theorem C67_late_parameters :
    forall s0 history sc, setup flat c 10 = Ok s0 -> Forall valid_scene history ->
    valid_scene sc -> few_objects c sc -> few_reflections c sc ->
    let s := after s0 history in
    exists s' new, process flat vbap invalid c s sc = (s', Ok tt) /\ s_sent s' = s_sent s ++ new
      /\ NoDup (map fst new)
      /\ forall ch x, ch < c_objects c ->
           (exists id input rs, In (id, Reverb [input] rs x) sc /\ channel s' id = Some ch)
           \/ ((forall id, channel s' id <> Some ch) /\ x = late_default) ->
           (forall y, In (ch, y) new <-> y = x /\ ~ close (match last_sent (s_sent s) ch with Some p => p | None => unsent end) x)
           /\ match last_sent (s_sent s') ch with
              | Some p => close p x
              | None => close unsent x
              end.
  Proof using gains wide.
    intros s0 history sc E H V FO FR s. pose proof (after_good s0 10 history E H) as G. fold s in G.
    destruct (process_cases flat vbap invalid c gains wide s sc G V)
      as [[L _]|(L & s' & a & G' & A & M & K & C)].
    { apply (few_found sc V) in FO. lia. }
    destruct G' as (J & I & MX). rewrite A in I, MX.
    destruct C as [((ch & Hc & OF) & _)|(_ & E' & _ & S & W)].
    { now apply (not_overfull a sc I M V FR) in OF. }
    destruct G as (J0 & _). destruct J0 as [_ [LP LG]].
    destruct (sends_spec c wide a sc (seq 0 (c_objects c)) (s_previous s) (s_sent s)) as (new & N1 & N2 & N3).
    { apply seq_NoDup. } { intros ch Hc. apply in_seq in Hc. lia. }
    rewrite <- S in N1. cbn [snd] in N1.
    exists s', new. split; [exact E'|]. split; [exact N1|]. split; [exact N3|].
    intros ch x Hc Hx. unfold channel in Hx. rewrite A in Hx.
    assert (X : x = wanted (owner a sc ch)).
    { destruct Hx as [(id & input & rs & HI & C)|[N ->]].
      - now rewrite (owner_object a sc id input rs x ch I M V HI C).
      - now rewrite (owner_none a sc ch I N). }
    destruct (nth_error (s_previous s) ch) as [p|] eqn:Ep; [|apply nth_error_None in Ep; lia].
    destruct (LG ch p Ep) as [Np Lp]. rewrite <- Lp.
    assert (Nx : nine x) by (rewrite X; now apply wanted_nine).
    assert (Q : forall y, In (ch, y) new <-> y = x /\ ~ close p x).
    { intros y. rewrite N2, <- X. rewrite <- (late_equal_iff p x Np Nx). split.
      - intros (_ & -> & p' & Hp & Hq). split; [reflexivity|]. replace p with p' by congruence. congruence.
      - intros [-> Hq]. split; [apply in_seq; lia|]. split; [reflexivity|]. exists p. split; [exact Ep|]. now apply not_true_is_false. }
    split; [exact Q|].
    rewrite N1, last_sent_app. destruct (late_equal p x) eqn:D.
    - assert (N : last_sent new ch = None).
      { apply last_sent_none. intros y Hy. apply Q in Hy as [_ Hy]. apply Hy. now apply (late_equal_iff p x Np Nx). }
      rewrite N. apply (late_equal_iff p x Np Nx) in D. rewrite Lp in D. now destruct (last_sent (s_sent s) ch).
    - assert (N : In (ch, x) new).
      { apply Q. split; [reflexivity|]. intros F. apply (late_equal_iff p x Np Nx) in F. congruence. }
      rewrite (last_sent_unique new ch x N3 N). apply close_refl.
  Qed.

  (** C67: a scene with too many objects is refused without any effect; one with too many
      reflections leaves the buffered outputs as they were. Nothing else is refused. *)
  Theorem C67_refused :
    forall s0 history sc, setup flat c 10 = Ok s0 -> Forall valid_scene history -> valid_scene sc ->
    let s := after s0 history in
    (~ few_objects c sc -> process flat vbap invalid c s sc = (s, Throw RuntimeError))
    /\ (few_objects c sc -> ~ few_reflections c sc ->
        exists s', process flat vbap invalid c s sc = (s', Throw InvalidArgument) /\ s_front s' = s_front s).
  Proof using gains wide.
    intros s0 history sc E H V s. pose proof (after_good s0 10 history E H) as G. fold s in G.
    destruct (process_cases flat vbap invalid c gains wide s sc G V)
      as [[L E']|(L & s' & a & G' & A & M & K & C)]; rewrite (few_found sc V).
    - split; [intros _; exact E'|]. intros F. lia.
    - split; [intros F; lia|]. intros _ F.
      destruct C as [((ch & Hc & OF) & E' & Fr)|(NO & E' & _)].
      + exists s'. split; [exact E'|exact Fr].
      + exfalso. apply F. intros id input rs l HI.
        destruct G' as (J & I & MX). rewrite A in I, MX.
        assert (Fo : In id (found sc)) by (apply found_in; eauto).
        destruct (proj2 (M id) Fo) as [ch C].
        assert (Hc : ch < c_objects c) by (rewrite <- MX; now apply (channel_bound a id)).
        specialize (NO ch Hc). rewrite (owner_object a sc id input rs l ch I M V HI C) in NO. cbn in NO. lia.
  Qed.

  (** C67: setup accepts only the number of biquad sections of the object definition. *)
  Theorem C67_setup : forall biquads, (biquads = 10 -> exists s, setup flat c biquads = Ok s)
    /\ (biquads <> 10 -> setup flat c biquads = Throw InvalidArgument).
  Proof using.
    intros b. unfold setup. destruct (Nat.eqb_spec b sections) as [->|N]; cbn [negb].
    - split; [intros _; eexists; reflexivity|]. intros F. now contradiction F.
    - split; [intros ->; now contradiction N|]. reflexivity.
  Qed.
End C67.
Print Assumptions C67_outputs.
Print Assumptions C67_late_parameters.
Print Assumptions C67_refused.
Print Assumptions C67_setup.

(** C67: construction of late reverberation parameters: one value fills all bands, nine
    values are taken as they are. *)
Theorem C67_late_constructor :
  forall onset lv dc at', let ok l := length l = 1 \/ length l = 9 in
  (ok lv -> ok dc -> ok at' -> exists l, late_new onset lv dc at' = Ok l /\ l_onset l = onset /\ nine l
     /\ forall k, k < 9 ->
        nth_error (l_levels l) k = nth_error lv (if length lv =? 1 then 0 else k)
        /\ nth_error (l_decays l) k = nth_error dc (if length dc =? 1 then 0 else k)
        /\ nth_error (l_attacks l) k = nth_error at' (if length at' =? 1 then 0 else k))
  /\ (~ (ok lv /\ ok dc /\ ok at') -> late_new onset lv dc at' = Throw InvalidArgument).
Proof.
  assert (P1 : forall l, length l = 1 \/ length l = 9 -> exists r, initialize_coeffs l = Ok r /\ length r = 9
    /\ forall k, k < 9 -> nth_error r k = nth_error l (if length l =? 1 then 0 else k)).
  { intros l [H|H].
    - destruct l as [|v [|]]; try discriminate. exists (repeat v 9). split; [reflexivity|]. split; [reflexivity|].
      intros k Hk. cbn [length Nat.eqb nth_error]. apply nth_error_repeat'. split; [exact Hk|reflexivity].
    - exists l. unfold initialize_coeffs. rewrite H. destruct l as [|v [|]]; try discriminate. split; [reflexivity|]. now split. }
  assert (P2 : forall l, ~ (length l = 1 \/ length l = 9) -> initialize_coeffs l = Throw InvalidArgument).
  { intros l H. unfold initialize_coeffs.
    assert (Q : length l =? bands = false) by (apply Nat.eqb_neq; intros F; apply H; now right).
    destruct l as [|v [|]]; [reflexivity|exfalso; apply H; now left|now rewrite Q]. }
  assert (D : forall l : list Qc, (length l = 1 \/ length l = 9) \/ ~ (length l = 1 \/ length l = 9)) by (intros l; lia).
  intros onset lv dc at' ok. split.
  - intros H1 H2 H3. destruct (P1 lv H1) as (a & A1 & A2 & A3), (P1 dc H2) as (b & B1 & B2 & B3), (P1 at' H3) as (d & D1 & D2 & D3).
    exists (MkLate onset a b d). unfold late_new. rewrite A1, B1, D1. split; [reflexivity|]. split; [reflexivity|].
    split; [now repeat split|]. intros k Hk. cbn. auto.
  - intros N. unfold late_new. destruct (D lv) as [H1|H1]; [|now rewrite (P2 _ H1)].
    destruct (P1 lv H1) as (a & -> & _). cbn [bind]. destruct (D dc) as [H2|H2]; [|now rewrite (P2 _ H2)].
    destruct (P1 dc H2) as (b & -> & _). cbn [bind]. destruct (D at') as [H3|H3]; [|now rewrite (P2 _ H3)].
    exfalso. apply N. auto.
Qed.
Print Assumptions C67_late_constructor.

(** The declared default of the constructor arguments, an empty list, is documented as
    allowed but always refused. *)
Theorem C67_late_constructor_defaults_refuted :
  exists onset, late_new onset [] [] [] = Throw InvalidArgument.
Proof. exists (Q2Qc 0). reflexivity. Qed.
Print Assumptions C67_late_constructor_defaults_refuted.

(** ** Concrete cases: two loudspeakers, two objects, two reflections each; biquads are
    numbers, positions too, and the panning gains are the position and its negative. *)
Section Concrete.
  Notation q z := (Q2Qc (inject_Z z)).
  Definition pan (x : Z) : list Qc := [q x; q (- x)].
  Definition cfg : config := MkConfig 2 2 2 4.
  Definition refl (x : Z) : @reflection nat Z := MkReflection x (q (x + 1)) (q (x + 2)) (repeat 7 10).
  Definition tail (x : Z) : late := the late_default (late_new (q x) [q 1] [q (-1)] [q 0]).
  Definition s_start : @state nat := the (MkState (alloc_new 0) [] (outs_new 0 cfg) (outs_new 0 cfg) [] []) (setup 0 cfg 10).
  Definition proc := process 0 pan 99 cfg.
  Definition scene1 : @scene nat Z := [(3%Z, Reverb [5] [refl 1] (tail 1)); (4%Z, Other); (8%Z, Reverb [6; 7] [refl 1] (tail 1))].
  Definition scene2 : @scene nat Z := [(1%Z, Reverb [4] [refl 2; refl 3] (tail 2)); (3%Z, Reverb [5] [] (tail 1))].

  Lemma tail_nine x : nine (tail x).
  Proof. repeat split. Qed.
  Example C67_example_hypotheses :
    (forall x, length (pan x) = c_speakers cfg) /\ c_objects cfg * c_reflections cfg <= c_stride cfg
    /\ setup 0 cfg 10 = Ok s_start /\ valid_scene scene1 /\ valid_scene scene2 /\ few_objects cfg scene2 /\ few_reflections cfg scene2.
  Proof.
    assert (ND : NoDup [3%Z; 4%Z; 8%Z] /\ NoDup [1%Z; 3%Z]) by (split; repeat constructor; cbn; lia).
    assert (V2 : valid_scene scene2).
    { split; [apply ND|]. split.
      - intros id o [[= <- _]|[[= <- _]|[]]]; lia.
      - intros id ch rs l [[= _ _ <- <-]|[[= _ _ <- <-]|[]]]; (split; [apply tail_nine|repeat constructor]). }
    split; [reflexivity|]. split; [cbn; lia|]. split; [reflexivity|]. split; [|split; [exact V2|split]].
    - split; [apply ND|]. split.
      + intros id o [[= <- _]|[[= <- _]|[[= <- _]|[]]]]; lia.
      + intros id ch rs l [[= _ _ <- <-]|[[= _ _]|[[= _ _ <- <-]|[]]]]; (split; [apply tail_nine|repeat constructor]).
    - apply (few_found cfg scene2 V2). cbn. lia.
    - intros id input rs l [[= _ _ <- _]|[[= _ _ <- _]|[]]]; cbn; lia.
  Qed.
  Definition s_after : @state nat := after 0 pan 99 cfg s_start [scene1; scene2].
  Example C67_example :
    o_routing (s_front s_after) = [MkEntry 5 0; MkEntry 4 1]
    /\ map this (o_gains (s_front s_after)) = map this [q 0; q 0; q 4; q 5]
    /\ map this (s_panning s_after) = map this [q 0; q 0; q 2; q 3; q 0; q 0; q (-2); q (-3)]
    /\ map fst (s_sent s_after) = [0; 1; 1].
  Proof. vm_compute. repeat split. Qed.

  (** The panning gains are shared with the receiver without a buffer swap: a refused block
      changes them, and sends late parameters, while all other outputs stay. *)
  Theorem C67_refused_without_effect_refuted :
    exists (sc : @scene nat Z), valid_scene sc /\ few_objects cfg sc /\
      let '(s', r) := proc s_start sc in
      r = Throw InvalidArgument /\ s_front s' = s_front s_start
      /\ map this (s_panning s') <> map this (s_panning s_start) /\ length (s_sent s') <> length (s_sent s_start).
  Proof.
    set (sc := [(1%Z, Reverb [4] [refl 2; refl 3] (tail 2)); (3%Z, Reverb [5] [refl 1; refl 1; refl 1] (tail 1))] : @scene nat Z).
    assert (V : valid_scene sc).
    { split; [repeat constructor; cbn; lia|]. split.
      - intros id o [[= <- _]|[[= <- _]|[]]]; lia.
      - intros id ch rs l [[= _ _ <- <-]|[[= _ _ <- <-]|[]]]; (split; [apply tail_nine|repeat constructor]). }
    exists sc. split; [exact V|]. split; [apply (few_found cfg sc V); cbn; lia|].
    assert (C : let '(s', r) := proc s_start sc in
      (r, map this (s_panning s'), length (s_sent s')) = (Throw InvalidArgument, map this [q 2; q 3; q 0; q 0; q (-2); q (-3); q 0; q 0], 1))
      by (vm_compute; reflexivity).
    assert (F : s_front (fst (proc s_start sc)) = s_front s_start).
    { destruct C67_example_hypotheses as (H1 & H2 & H3 & _).
      destruct (C67_refused 0 pan 99 cfg H1 H2 s_start [] sc H3) as [_ R]; [constructor|exact V|].
      destruct R as (s' & R1 & R2); [apply (few_found cfg sc V); cbn; lia| |].
      - intros FR. specialize (FR 3%Z 5 [refl 1; refl 1; refl 1] (tail 1) (or_intror (or_introl eq_refl))). cbn in FR. lia.
      - unfold proc. change (after 0 pan 99 cfg s_start []) with s_start in R1. rewrite R1. exact R2. }
    destruct (proc s_start sc) as [s' r]. cbn [fst] in F. injection C as -> C2 C3. split; [reflexivity|]. split; [exact F|].
    rewrite C2, C3. split; [vm_compute; discriminate|vm_compute; discriminate].
  Qed.

  (** An object with the largest identifier occupies a channel and is silent. *)
  Theorem C67_largest_identifier_refuted :
    exists (sc : @scene nat Z), NoDup (map fst sc) /\ few_objects cfg sc /\ few_reflections cfg sc
      /\ (exists id input rs l, In (id, Reverb [input] rs l) sc /\ (0 <= id < 2 ^ 32)%Z)
      /\ let '(s', r) := proc s_start sc in
         r = Ok tt /\ o_routing (s_front s') = [] /\ map this (o_late_gains (s_front s')) = map this [q 0; q 0].
  Proof.
    set (sc := [(4294967295%Z, Reverb [4] [refl 2] (tail 2))] : @scene nat Z). exists sc.
    split; [repeat constructor; cbn; tauto|]. split.
    - exists [4294967295%Z]. split; [repeat constructor; cbn; tauto|]. split; [cbn; lia|].
      intros id o [[= <- _]|[]] _. now left.
    - split; [intros id input rs l [[= _ _ <- _]|[]]; cbn; lia|]. split.
      + exists 4294967295%Z, 4, [refl 2], (tail 2). split; [now left|lia].
      + vm_compute. repeat split.
  Qed.

  (** A change of the late parameters within the tolerance is not sent, one beyond it is. *)
  Example C67_tolerance :
    map fst (s_sent (after 0 pan 99 cfg s_start
      [[(1%Z, Reverb [4] [] (MkLate (Q2Qc 1) (repeat (Q2Qc 1) 9) (repeat (Q2Qc 0) 9) (repeat (Q2Qc 0) 9)))];
       [(1%Z, Reverb [4] [] (MkLate (Q2Qc (8388609 # 8388608)) (repeat (Q2Qc 1) 9) (repeat (Q2Qc 0) 9) (repeat (Q2Qc 0) 9)))];
       [(1%Z, Reverb [4] [] (MkLate (Q2Qc (8388610 # 8388608)) (repeat (Q2Qc 1) 9) (repeat (Q2Qc 0) 9) (repeat (Q2Qc 0) 9)))]]))
    = [0; 1; 0].
  Proof. vm_compute. reflexivity. Qed.
End Concrete.
Print Assumptions C67_refused_without_effect_refuted.
Print Assumptions C67_largest_identifier_refuted.
