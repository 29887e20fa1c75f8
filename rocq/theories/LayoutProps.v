(** C32: buffers of send channels are disjoint parts of the pool and every receive channel
    points to the buffer of the channel that drives it. *)
From Verif Require Import Base FlowModel FlowProofs FlowResolve FlowTree FlowProps SchedModel SchedProofs
  LayoutModel LayoutTables LayoutProofs LayoutAddr.
From Coq Require Import Permutation.
Local Open Scope res_scope.

(** *** Specification *)
Definition sends (conns : amap) (p : nat) : Prop := exists k d, In ((p, k), d) conns.
Definition receives (conns : amap) (p : nat) : Prop := exists k s, In (s, (p, k)) conns.
(** a flat table of connections: existing channels, every receive channel driven exactly once,
    no port sends and receives, sample types agree and can be routed *)
Record flat (o : objects) (conns : amap) : Prop := {
  f_single : NoDup (map snd conns);
  f_send : forall s d, In (s, d) conns -> snd s < a_width o (fst s);
  f_receive : forall s d, In (s, d) conns -> snd d < a_width o (fst d);
  f_full : forall p k, receives conns p -> k < a_width o p -> exists s, In (s, (p, k)) conns;
  f_directed : forall p, sends conns p -> ~ receives conns p;
  f_types : forall s d, In (s, d) conns -> a_type o (fst s) = a_type o (fst d) /\ a_type o (fst s) <= 8 }.
(** the ports of inserted components are new objects *)
Definition new_port (alloc : nat -> nat * nat * nat) (n : nat) (is_out : bool) : nat :=
  let '(_, i, out) := alloc n in if is_out then out else i.
Definition new_objects (conns : amap) (alloc : nat -> nat * nat * nat) : Prop :=
  (forall n m a b, new_port alloc n a = new_port alloc m b -> n = m /\ a = b)
  /\ (forall n a, ~ sends conns (new_port alloc n a) /\ ~ receives conns (new_port alloc n a)).
(** every sample fits into the alignment (or there is none) *)
Definition sample_sizes (o : objects) (type_size : nat -> nat) (alignment : nat) (conns : amap) : Prop :=
  forall s d, In (s, d) conns ->
    type_size (a_type o (fst s)) <> 0 /\ (alignment = 0 \/ Nat.divide (type_size (a_type o (fst s))) alignment).
(** the external ports take part in the connections *)
Definition external_connected (o : objects) (audio : list nat) (conns : amap) : Prop :=
  forall p, In p audio -> a_width o p <> 0 ->
    if is_input (a_dir o p) then sends conns p else receives conns p.

Section Layout_spec.
  Variables (o : objects) (type_size : nat -> nat) (block alignment : nat) (conns : amap) (y : layout).
  Definition at_ (c : channel) : res nat := address o type_size (y_configs y) (y_routings y) c.
  (** bytes of one channel *)
  Definition bytes (c : channel) : nat := block * type_size (port_type o (y_routings y) (fst c)).
  Definition send_channel (c : channel) : Prop :=
    (sends conns (fst c) /\ snd c < a_width o (fst c))
    \/ exists r, In r (y_routings y) /\ fst c = r_out r /\ snd c < length (r_indices r).
  Definition owns_buffer (c : channel) : Prop :=
    exists a, at_ c = Ok a /\ a + bytes c <= y_pool y /\ (alignment <> 0 -> Nat.divide alignment a).
  Definition disjoint (c c' : channel) : Prop :=
    exists a a', at_ c = Ok a /\ at_ c' = Ok a' /\ (a + bytes c <= a' \/ a' + bytes c' <= a).
  (** [d] reads the buffer of [s], directly or through an inserted component *)
  Definition delivered (s d : channel) : Prop :=
    (In (s, d) (y_conns y) /\ exists a, at_ s = Ok a /\ at_ d = Ok a)
    \/ exists r i a b, In r (y_routings y) /\ nth_error (r_indices r) (snd d) = Some i /\ i < r_inwidth r
         /\ In (s, (r_in r, i)) (y_conns y) /\ at_ s = Ok a /\ at_ (r_in r, i) = Ok a
         /\ In ((r_out r, snd d), d) (y_conns y) /\ at_ (r_out r, snd d) = Ok b /\ at_ d = Ok b.
  Definition channels (ports : list nat) : list channel :=
    flat_map (fun p => map (fun k => (p, k)) (seq 0 (a_width o p))) ports.
  Definition external_at (audio : list nat) : Prop :=
    Forall2 (fun c a => at_ c = Ok a) (channels (filter (fun p => is_input (a_dir o p)) audio)) (y_capture y)
    /\ Forall2 (fun c a => at_ c = Ok a) (channels (filter (fun p => negb (is_input (a_dir o p))) audio)) (y_playback y).
  Definition good_layout (audio : list nat) : Prop :=
    (forall c, send_channel c -> owns_buffer c)
    /\ (forall c c', send_channel c -> send_channel c' -> c <> c' -> disjoint c c')
    /\ (forall s d, In (s, d) conns -> delivered s d)
    /\ external_at audio.
End Layout_spec.

Lemma sends_sender conns p : sends conns p <-> sender conns p.
Proof.
  split.
  - intros (k & d & H). now exists (p, k), d.
  - intros ([q k] & d & H & E). cbn in E. subst q. now exists k, d.
Qed.
Lemma receives_receiver conns p : receives conns p <-> receiver conns p.
Proof.
  split.
  - intros (k & s & H). now exists s, (p, k).
  - intros (s & [q k] & H & E). cbn in E. subst q. now exists k, s.
Qed.

(** everything the layout run establishes, in the terms of the proof files *)
Section Run.
  Variables (o : objects) (type_size : nat -> nat) (block alignment : nat)
            (partition : list nat -> list nat) (alloc : nat -> nat * nat * nat) (conns : amap).
  Hypothesis F : flat o conns.
  Hypothesis N : new_objects conns alloc.
  Hypothesis P : forall l, Permutation (partition l) l.
  Hypothesis SZ : sample_sizes o type_size alignment conns.

  Lemma run_tables : exists D tables C RS,
    fold_left (layout_type o partition alloc conns) (used_types (map (fun c => a_type o (fst (fst c))) conns)) (Ok ([], [], []))
      = Ok (tables, C, RS)
    /\ (forall p, In p D <-> receiver conns p)
    /\ global_inv o alloc conns D C RS
    /\ NoDup (map t_type tables) /\ (forall t, In t (map t_type tables) <-> exists s d, In (s, d) conns /\ a_type o (fst s) = t)
    /\ (forall tb, In tb tables -> table_inv o conns (t_type tb) D RS (t_send tb) (t_receive tb) (t_count tb)).
  Proof using F N P.
    destruct F as [F1 F2 F3 F4 F5 F6]. destruct N as [N1 N2].
    assert (Ein : forall n, alloc_in alloc n = new_port alloc n false) by (intros n; unfold alloc_in, new_port; now destruct (alloc n) as [[? ?] ?]).
    assert (Eout : forall n, alloc_out alloc n = new_port alloc n true) by (intros n; unfold alloc_out, new_port; now destruct (alloc n) as [[? ?] ?]).
    destruct (layout_types_ok o alloc conns F1 F2 F3) with (partition := partition) as (D & [[tables C] RS] & E & (I1 & I2 & I3 & I4) & HD).
    - intros p k H. apply F4. now apply receives_receiver.
    - intros s d H. now apply F6 in H.
    - intros s d H. now apply F6 in H.
    - intros p H H'. apply (F5 p); [now apply sends_sender|now apply receives_receiver].
    - intros n m H. rewrite !Ein in H. now apply N1 in H.
    - intros n m H. rewrite !Eout in H. now apply N1 in H.
    - intros n m H. rewrite Ein, Eout in H. now apply N1 in H as [_ H].
    - intros n. rewrite Ein, Eout, <- !sends_sender, <- !receives_receiver. split; [|split; [|split]]; apply N2.
    - exact P.
    - exists D, tables, C, RS. cbn [fst snd] in *. split; [exact E|]. split; [exact HD|]. split; [exact I2|]. rewrite I3.
      split; [apply set_of_nodup|]. split; [|exact I4]. intros t. unfold used_types. rewrite set_of_in, in_map_iff. split.
      + intros ([s d] & <- & H). now exists s, d.
      + intros (s & d & H & <-). now exists (s, d).
  Qed.

  Lemma run_good id audio params children aconns pconns : external_connected o audio conns ->
    exists y, initialiseAudioConnections o type_size block alignment partition alloc (Composite id audio params children aconns pconns) conns = Ok y
      /\ good_layout o type_size block alignment conns y audio
      /\ exists D, (forall p, In p D <-> receiver conns p) /\ global_inv o alloc conns D (y_conns y) (y_routings y)
         /\ forall r, In r (y_routings y) -> length (r_indices r) = a_width o (r_for r).
  Proof using F N P SZ.
    intros Ext. destruct run_tables as (D & tables & C & RS & E & HD & G & TN & TT & TI).
    set (cb := channelSizeBytes type_size block alignment).
    assert (sizes : forall tb, In tb tables -> type_size (t_type tb) <> 0 /\ Nat.divide (type_size (t_type tb)) (cb (t_type tb))).
    { intros tb H. assert (I : In (t_type tb) (map t_type tables)) by now apply in_map. apply TT in I as (s & d & I & <-).
      destruct (SZ s d I) as [S1 S2]. split; [exact S1|]. now apply aligned_samples. }
    pose proof F as [F1 F2 F3 F4 F5 F6]. pose proof N as [N1 N2].
    assert (Ein : forall n, alloc_in alloc n = new_port alloc n false) by (intros n; unfold alloc_in, new_port; now destruct (alloc n) as [[? ?] ?]).
    assert (Eout : forall n, alloc_out alloc n = new_port alloc n true) by (intros n; unfold alloc_out, new_port; now destruct (alloc n) as [[? ?] ?]).
    assert (A1 : forall p, sender conns p -> ~ receiver conns p).
    { intros p H H'. apply (F5 p); [now apply sends_sender|now apply receives_receiver]. }
    assert (A2 : forall n m, alloc_in alloc n = alloc_in alloc m -> n = m) by (intros n m H; rewrite !Ein in H; now apply N1 in H).
    assert (A3 : forall n m, alloc_out alloc n = alloc_out alloc m -> n = m) by (intros n m H; rewrite !Eout in H; now apply N1 in H).
    assert (A4 : forall n m, alloc_in alloc n <> alloc_out alloc m) by (intros n m H; rewrite Ein, Eout in H; now apply N1 in H as [_ H]).
    assert (A5 : forall n, ~ sender conns (alloc_in alloc n) /\ ~ receiver conns (alloc_in alloc n)
                        /\ ~ sender conns (alloc_out alloc n) /\ ~ receiver conns (alloc_out alloc n)).
    { intros n. rewrite Ein, Eout, <- !sends_sender, <- !receives_receiver. split; [|split; [|split]]; apply N2. }
    assert (SE : forall p, sender conns p -> exists tb e, In tb tables /\ In e (t_send tb) /\ e_port e = p /\ e_width e = a_width o p).
    { intros p H. pose proof H as (s & d & H1 & H2).
      assert (I : In (a_type o p) (map t_type tables)) by (apply TT; exists s, d; now rewrite H2).
      apply in_map_iff in I as (tb & Et & Ht). assert (J : In p (map e_port (t_send tb))) by (apply (t_sports _ _ _ _ _ _ _ _ (TI tb Ht)); auto).
      apply in_map_iff in J as (e & Ee & He). exists tb, e. repeat split; auto.
      destruct (t_swidth _ _ _ _ _ _ _ _ (TI tb Ht) e He) as [[_ W]|(r & R1 & R2 & _)]; [now rewrite <- Ee|].
      exfalso. destruct (routing_fresh o alloc conns D C RS A5 G r R1) as (_ & _ & K & _). apply K. now rewrite <- R2, Ee. }
    assert (RE : forall p, receiver conns p -> exists tb, In tb tables /\ t_type tb = a_type o p /\ placed o conns (t_send tb) (t_receive tb) RS p).
    { intros p H. pose proof H as (s & d & H1 & H2). destruct (F6 s d H1) as [T1 _].
      assert (I : In (a_type o p) (map t_type tables)) by (apply TT; exists s, d; now rewrite T1, H2).
      apply in_map_iff in I as (tb & Et & Ht). exists tb. split; [exact Ht|]. split; [exact Et|].
      apply (t_placed _ _ _ _ _ _ _ _ (TI tb Ht)); [now apply HD|now rewrite Et]. }
    assert (SC : forall r, In r RS -> length (r_indices r) = a_width o (r_for r)
              /\ exists tb e, In tb tables /\ In e (t_send tb) /\ e_port e = r_out r /\ e_width e = length (r_indices r)).
    { intros r Hr. destruct (g_for _ _ _ _ _ _ G r Hr) as [G1 G2]. apply HD in G1. destruct (RE _ G1) as (tb & Ht & Et & off & Ho & [[_ K]|K]).
      - exfalso. now apply (K r Hr).
      - destruct K as (q & m & K1 & K2 & K3 & K4 & K5 & _).
        assert (q = r).
        { clear - K1 K2 Hr G. pose proof (g_forinj _ _ _ _ _ _ G) as ND. revert K1 K2 Hr ND. generalize RS. clear.
          induction RS as [|x l IH]; intros H E Hr ND; [destruct H|]. cbn [map] in ND. apply NoDup_cons_iff in ND as [Ni ND].
          destruct H as [H|H], Hr as [Hr|Hr]; [congruence| | |auto].
          - exfalso. apply Ni. subst x. rewrite E. now apply in_map.
          - exfalso. apply Ni. subst x. rewrite <- E. now apply in_map. }
        subst q. split; [exact K5|]. exists tb, (Entry (r_out r) (a_width o (r_for r)) off). repeat split; auto. }
    destruct (finish_ok o type_size block alignment alloc conns D C RS tables A1 A2 A3 A4 A5 G TI TN sizes audio) as (y & Ey & Y1 & Y2 & Y3 & Y4 & Y5 & Y6).
    { intros p Hp Hw. specialize (Ext p Hp Hw). destruct (is_input (a_dir o p)).
      - apply sends_sender in Ext. destruct (SE p Ext) as (tb & e & H1 & H2 & H3 & _). exists tb, e. auto.
      - apply receives_receiver in Ext. destruct (RE p Ext) as (tb & H1 & _ & off & H2 & _).
        exists tb, (Entry p (a_width o p) off). auto. }
    exists y. split.
    { unfold initialiseAudioConnections. match type of E with ?L = _ => change (bind L (fun acc => let '(tables, final, routings) := acc in
        finish o type_size block alignment audio tables final routings) = Ok y) end. rewrite E. exact Ey. }
    assert (AD : forall tb b e k, In (tb, b) (bases type_size block alignment tables 0) -> (In e (t_send tb) \/ In e (t_receive tb)) ->
              at_ o type_size y (e_port e, k) = Ok (b + cb (t_type tb) * (e_offset e + k))).
    { intros tb b e k H He. unfold at_. rewrite Y2, Y4. now apply (address_ok o type_size block alignment alloc conns D C RS tables). }
    assert (SCH : forall c, send_channel o conns y c -> exists tb b e, In (tb, b) (bases type_size block alignment tables 0) /\ In tb tables
              /\ In e (t_send tb) /\ e_port e = fst c /\ snd c < e_width e /\ bytes o type_size block y c <= cb (t_type tb)).
    { intros [p k] H. assert (X : exists tb e, In tb tables /\ In e (t_send tb) /\ e_port e = p /\ k < e_width e).
      { destruct H as [[H1 H2]|(r & H1 & H2 & H3)]; cbn [fst snd] in *.
        - apply sends_sender in H1. destruct (SE p H1) as (tb & e & B1 & B2 & B3 & B4). exists tb, e. rewrite B4. auto.
        - rewrite Y4 in H1. destruct (SC r H1) as (_ & tb & e & B1 & B2 & B3 & B4). exists tb, e. rewrite B4, B3. auto. }
      destruct X as (tb & e & B1 & B2 & B3 & B4). destruct (bases_some type_size block alignment tables 0 tb B1) as (b & Hb).
      exists tb, b, e. cbn [fst snd]. repeat split; auto. unfold bytes. cbn [fst].
      rewrite Y4, <- B3, (table_type o alloc conns D C RS tables A2 A3 A4 A5 G TI tb e B1 (or_introl B2)). apply aligned_ge. }
    assert (ALN : alignment <> 0 -> forall tb, Nat.divide alignment (cb (t_type tb))) by (intros H tb; now apply aligned_divides).
    assert (BD : alignment <> 0 -> forall tb b, In (tb, b) (bases type_size block alignment tables 0) -> Nat.divide alignment b).
    { intros H. assert (Gn : forall l off, Nat.divide alignment off -> forall tb b, In (tb, b) (bases type_size block alignment l off) -> Nat.divide alignment b).
      { induction l as [|t l IH]; intros off Hoff tb b K; [destruct K|]. cbn [bases] in K. destruct K as [K|K]; [injection K as <- <-; exact Hoff|].
        apply IH in K; [exact K|]. apply Nat.divide_add_r; [exact Hoff|]. apply Nat.divide_mul_r. now apply ALN. }
      apply Gn. apply Nat.divide_0_r. }
    split; [|exists D; rewrite Y3, Y4; split; [exact HD|]; split; [exact G|]; intros r Hr; now apply SC].
    split; [|split; [|split]].
    - intros c Hc. destruct (SCH c Hc) as (tb & b & e & B1 & B2 & B3 & B4 & B5 & B6). destruct c as [p k]. cbn [fst snd] in *. subst p.
      exists (b + cb (t_type tb) * (e_offset e + k)). split; [now apply AD; auto|]. split.
      + rewrite Y1. destruct (bases_bounds _ _ _ _ _ _ _ B1) as (_ & _ & Bd). fold cb in Bd.
        pose proof (table_bounds _ _ e (t_ok _ _ _ _ _ _ _ _ (TI tb B2)) B3). nia.
      + intros H. apply Nat.divide_add_r; [now apply (BD H tb)|]. apply Nat.divide_mul_l. now apply ALN.
    - intros c c' Hc Hc' Ne. destruct (SCH c Hc) as (tb & b & e & B1 & B2 & B3 & B4 & B5 & B6).
      destruct (SCH c' Hc') as (tb' & b' & e' & B1' & B2' & B3' & B4' & B5' & B6').
      exists (b + cb (t_type tb) * (e_offset e + snd c)), (b' + cb (t_type tb') * (e_offset e' + snd c')).
      split; [destruct c; cbn [fst snd] in *; subst; now apply AD; auto|].
      split; [destruct c'; cbn [fst snd] in *; subst; now apply AD; auto|].
      pose proof (table_bounds _ _ e (t_ok _ _ _ _ _ _ _ _ (TI tb B2)) B3) as U.
      pose proof (table_bounds _ _ e' (t_ok _ _ _ _ _ _ _ _ (TI tb' B2')) B3') as U'.
      destruct (bases_disjoint _ _ _ _ _ _ _ _ _ B1 B1') as [K|[K|K]]; [|left|right]; try fold cb in K.
      + injection K as <- <-. assert (e_offset e + snd c <> e_offset e' + snd c').
        { intros K. destruct (table_disjoint _ _ _ _ _ _ (t_ok _ _ _ _ _ _ _ _ (TI tb B2)) B3 B3' B5 B5' K) as [<- K'].
          apply Ne. destruct c, c'. cbn [fst snd] in *. congruence. }
        assert (e_offset e + snd c + 1 <= e_offset e' + snd c' \/ e_offset e' + snd c' + 1 <= e_offset e + snd c) as [L|L] by lia; [left|right]; nia.
      + nia.
      + nia.
    - intros s d H. assert (Hr : receiver conns (fst d)) by (exists s, d; auto). destruct d as [p k]. cbn [fst] in Hr.
      destruct (RE p Hr) as (tb & Ht & Et & off & Ho & K). destruct (bases_some type_size block alignment tables 0 tb Ht) as (b & Hb).
      destruct K as [[K1 K2]|(r & m & K1 & K2 & K3 & K4 & K5 & K6)].
      + left. split.
        * rewrite Y3. apply (g_conns _ _ _ _ _ _ G). left. cbn [fst]. split; [exact H|]. split; [now apply HD|exact K2].
        * destruct (K1 s k H) as (e & He & Ee & Eo). exists (b + cb (t_type tb) * (e_offset e + snd s)). split.
          -- destruct s as [q j]. cbn [fst snd] in *. subst q. now apply AD; auto.
          -- rewrite <- Eo. now apply (AD tb b (Entry p (a_width o p) off) k Hb); auto.
      + right. destruct (K6 s k H) as (e & i & He & Ee & Ei & Li & Eo).
        exists r, i, (b + cb (t_type tb) * (e_offset e + snd s)), (b + cb (t_type tb) * (off + k)). rewrite Y3, Y4. cbn [snd].
        split; [exact K1|]. split; [exact Ei|]. split; [exact Li|]. split.
        { apply (g_conns _ _ _ _ _ _ G). right. left. exists r, k. cbn [fst snd]. rewrite K2. auto. }
        split. { destruct s as [q j]. cbn [fst snd] in *. subst q. now apply AD; auto. }
        split. { rewrite <- Eo. now apply (AD tb b (Entry (r_in r) (r_inwidth r) m) i Hb); auto. }
        split. { apply (g_conns _ _ _ _ _ _ G). right. right. exists r, k. rewrite K2. split; [exact K1|]. split; [|auto]. exact (F3 _ _ H). }
        split; [now apply (AD tb b (Entry (r_out r) (a_width o p) off) k Hb); auto|].
        now apply (AD tb b (Entry p (a_width o p) off) k Hb); auto.
    - split; [exact Y5|exact Y6].
  Qed.
End Run.

(** *** Every composite flow *)
(** Whatever the order std::partition leaves the ports in and wherever the inserted components
    are allocated, the initialisation of a flow with matching sample types succeeds and lays out
    the buffers properly.  (Partial: sample types are hypotheses, see the refutations.) *)
Theorem C32_layout_partial : forall o type_size block alignment partition alloc id audio params children aconns pconns conns,
  flat o conns -> new_objects conns alloc -> (forall l, Permutation (partition l) l) ->
  sample_sizes o type_size alignment conns -> external_connected o audio conns ->
  exists y, initialiseAudioConnections o type_size block alignment partition alloc
              (Composite id audio params children aconns pconns) conns = Ok y
    /\ good_layout o type_size block alignment conns y audio.
Proof.
  intros o type_size block alignment partition alloc id audio params children aconns pconns conns F N P SZ Ext.
  destruct (run_good o type_size block alignment partition alloc conns F N P SZ id audio params children aconns pconns Ext) as (y & E & H & _).
  exists y. auto.
Qed.

(** *** The tables of a hierarchy are flat *)
Section Forward.
  Context {A : Type} (ph : A -> bool) (m : list (A * A)).
  Hypothesis driver : forall s s' d, In (s, d) m -> In (s', d) m -> s = s'.
  Hypothesis onward : forall c e, ph c = true -> In (e, c) m -> exists d, In (c, d) m.
  Variable c0 : A.
  Hypothesis start : ph c0 = false.
  Fixpoint tower (v : list A) : Prop :=
    match v with [] => True | x :: v' => match v' with [] => In (c0, x) m | y :: _ => In (y, x) m /\ tower v' end end.
  Lemma tower_below v d : tower v -> In d v -> exists y, In (y, d) m /\ (y = c0 \/ In y (tl v)).
  Proof.
    induction v as [|x v IH]; intros T H; [destruct H|]. cbn [tower tl] in *. destruct v as [|y v].
    - destruct H as [<-|[]]. eauto.
    - destruct T as [T1 T2]. destruct H as [<-|H]; [exists y; split; [exact T1|right; now left]|].
      destruct (IH T2 H) as (z & Z1 & [Z2|Z2]); exists z; split; auto. right. now right.
  Qed.
  Lemma climb : forall n v x, length (map snd m) < n + length (x :: v) -> NoDup (x :: v) -> incl (x :: v) (map snd m) ->
    tower (x :: v) -> ph x = true -> rchain ph m c0 x -> exists d, rchain ph m c0 d /\ ph d = false.
  Proof using driver onward start.
    induction n as [|n IH]; intros v x L ND I T Px R.
    - pose proof (NoDup_incl_length ND I). cbn [length] in *. lia.
    - assert (Hx : In x (map snd m)) by (apply I; now left). apply in_map_iff in Hx as ([e x'] & E & He). cbn [snd] in E. subst x'.
      destruct (onward x e Px He) as (d & Hd). assert (Rd : rchain ph m c0 d) by (apply rchain_step with x; assumption).
      destruct (ph d) eqn:Pd; [|eauto]. apply (IH (x :: v) d); auto.
      + cbn [length] in *. lia.
      + constructor; [|exact ND]. intros K. destruct (tower_below _ _ T K) as (y & Y1 & Y2).
        rewrite (driver y x d Y1 Hd) in Y2. cbn [tl] in Y2. apply NoDup_cons_iff in ND as [Ni _]. destruct Y2 as [->|Y2]; [congruence|contradiction].
      + intros z [<-|Hz]; [|now apply I]. apply in_map_iff. exists (x, d). auto.
      + cbn [tower]. split; [exact Hd|exact T].
  Qed.
  Lemma reaches d1 : In (c0, d1) m -> exists d, rchain ph m c0 d /\ ph d = false.
  Proof using driver onward start.
    intros H. destruct (ph d1) eqn:E; [|exists d1; split; [now apply rchain_one|exact E]].
    apply (climb (S (length (map snd m))) [] d1); cbn [length tower]; [lia|repeat constructor; intros []| |exact H|exact E|now apply rchain_one].
    intros z [<-|[]]. apply in_map_iff. exists (c0, d1). auto.
  Qed.
End Forward.

Fixpoint comp_size (c : comp) : nat :=
  match c with Atomic _ _ _ => 1 | Composite _ _ _ children _ _ => S (list_sum (map comp_size children)) end.
Lemma child_size x (children : list comp) : In x children -> comp_size x <= list_sum (map comp_size children).
Proof. induction children as [|y l IH]; [intros []|]. cbn. intros [<-|H]; [lia|]. specialize (IH H). unfold list_sum in IH. lia. Qed.
Lemma inside_size x c : inside x c -> comp_size x <= comp_size c.
Proof.
  induction 1 as [c|x ch c a p children conns pconns Hi H IH]; [lia|]. cbn [comp_size]. pose proof (child_size _ _ Hi). lia.
Qed.
Lemma child_not_root x i a p children conns pconns root : inside (Composite i a p children conns pconns) root -> In x children -> x <> root.
Proof. intros H Hx ->. apply inside_size in H. cbn [comp_size] in H. pose proof (child_size _ _ Hx). lia. Qed.

Lemma wired_first root s d : wired root s d -> exists e, linked root s e.
Proof. destruct 1; eauto. Qed.
Lemma wired_last root s d : wired root s d -> exists e, linked root e d.
Proof. induction 1; eauto. Qed.

Section Hierarchy.
  Variables (o : objects) (root : comp) (m r : amap).
  Hypothesis NA : NoDup (all_audio root).
  Hypothesis D : describes o root.
  Hypothesis HC : check_audio o root = true.
  Hypothesis Em : amap_new o root = Ok m.
  Hypothesis Er : resolvePlaceholders o m = Ok r.

  Lemma linked_local s d : linked root s d -> exists i a p children conns pconns,
    inside (Composite i a p children conns pconns) root /\ local_sender o a children (fst s) /\ local_receiver o a children (fst d)
    /\ snd s < a_width o (fst s) /\ snd d < a_width o (fst d).
  Proof using HC.
    intros (i & a & p & children & conns & pconns & c & j & Hi & Hc & E1 & E2 & E3 & E4).
    destruct (proj1 (C31_audio_check_iff_partial o root) HC _ _ _ _ _ _ Hi) as (W & _). destruct (W c Hc) as (W1 & W2 & _ & W3 & W4).
    exists i, a, p, children, conns, pconns. rewrite E1, E2. repeat (split; [assumption|]).
    split; [apply W3|apply W4]; eapply nth_error_In; eassumption.
  Qed.
  Lemma sender_dir s d : linked root s d -> endpoint root (fst s) ->
    exists x, inside x root /\ In (fst s) (comp_audio x) /\ ((is_composite x = false /\ a_dir o (fst s) = Output) \/ (x = root /\ is_composite x = true /\ a_dir o (fst s) = Input)).
  Proof using D HC.
    intros L (x & Hx & Px & Kx). destruct D as (D1 & _ & D2 & D3). destruct (linked_local s d L) as (i & a & p & children & conns & pconns & Hi & LS & _).
    exists x. split; [exact Hx|]. split; [exact Px|]. destruct LS as [(y & Hy & Py & Dy)|[Pa Da]].
    - left. split; [|exact Dy]. destruct Kx as [Kx|Kx]; [exact Kx|]. exfalso.
      assert (Iy : inside y root) by (eapply inside_trans; [|exact Hi]; apply inside_composite; right; exists y; split; [exact Hy|constructor]).
      apply (child_not_root y _ _ _ _ _ _ root Hi Hy). apply (D3 y Iy). rewrite <- (D1 y _ Iy Py), (D1 x _ Hx Px). now apply (D3 x Hx).
    - right. assert (E : comp_id x = i) by (rewrite <- (D1 x _ Hx Px); apply (D1 _ _ Hi Pa)).
      assert (C : is_composite x = true) by (rewrite <- (D2 x Hx), E; apply (D2 _ Hi)).
      destruct Kx as [Kx|Kx]; [congruence|]. auto.
  Qed.
  Lemma receiver_dir s d : linked root s d -> endpoint root (fst d) ->
    exists x, inside x root /\ In (fst d) (comp_audio x) /\ ((is_composite x = false /\ a_dir o (fst d) = Input) \/ (x = root /\ is_composite x = true /\ a_dir o (fst d) = Output)).
  Proof using D HC.
    intros L (x & Hx & Px & Kx). destruct D as (D1 & _ & D2 & D3). destruct (linked_local s d L) as (i & a & p & children & conns & pconns & Hi & _ & LS & _).
    exists x. split; [exact Hx|]. split; [exact Px|]. destruct LS as [(y & Hy & Py & Dy)|[Pa Da]].
    - left. split; [|exact Dy]. destruct Kx as [Kx|Kx]; [exact Kx|]. exfalso.
      assert (Iy : inside y root) by (eapply inside_trans; [|exact Hi]; apply inside_composite; right; exists y; split; [exact Hy|constructor]).
      apply (child_not_root y _ _ _ _ _ _ root Hi Hy). apply (D3 y Iy). rewrite <- (D1 y _ Iy Py), (D1 x _ Hx Px). now apply (D3 x Hx).
    - right. assert (E : comp_id x = i) by (rewrite <- (D1 x _ Hx Px); apply (D1 _ _ Hi Pa)).
      assert (C : is_composite x = true) by (rewrite <- (D2 x Hx), E; apply (D2 _ Hi)).
      destruct Kx as [Kx|Kx]; [congruence|]. auto.
  Qed.

  Lemma resolved_flat : (forall s d, linked root s d -> a_type o (fst s) = a_type o (fst d) /\ a_type o (fst s) <= 8) -> flat o r.
  Proof using NA D HC Em Er.
    intros HT. destruct (C29_hierarchy_transparent o root NA D HC) as (m' & Em' & H). rewrite Em in Em'. apply Ok_inj in Em'. subst m'.
    rewrite Er in H. destruct H as (HR & NR & HF & _). constructor.
    - exact NR.
    - intros s d H. apply HR in H as (_ & _ & W). apply wired_first in W as (e & L). now apply linked_local in L as (? & ? & ? & ? & ? & ? & _ & _ & _ & K & _).
    - intros s d H. apply HR in H as (_ & _ & W). apply wired_last in W as (e & L). now apply linked_local in L as (? & ? & ? & ? & ? & ? & _ & _ & _ & _ & K).
    - intros p k (j & s & H) Hk. apply HR in H as (_ & Ed & W). apply wired_last in W as (e & L). cbn [fst] in Ed.
      destruct (linked_local _ _ L) as (i & a & q & children & conns & pconns & Hi & _ & LR & _). cbn [fst] in LR.
      specialize (HF _ _ _ _ _ _ p k Hi LR Hk Ed). apply in_map_iff in HF as ([s' d'] & E & H). cbn [snd] in E. subst d'. eauto.
    - intros p (k & d & H) (k' & s & H'). apply HR in H as (E1 & _ & W). apply HR in H' as (_ & E2 & W').
      apply wired_first in W as (e & L). apply wired_last in W' as (e' & L').
      destruct (sender_dir _ _ L E1) as (x & Hx & Px & Kx). destruct (receiver_dir _ _ L' E2) as (y & Hy & Py & Ky). cbn [fst] in *.
      destruct D as (D1 & _ & D2 & _). assert (E : is_composite x = is_composite y).
      { rewrite <- (D2 x Hx), <- (D2 y Hy). now rewrite <- (D1 x _ Hx Px), <- (D1 y _ Hy Py). }
      destruct Kx as [[K1 K2]|(_ & K1 & K2)], Ky as [[J1 J2]|(_ & J1 & J2)]; congruence.
    - intros s d H. apply HR in H as (_ & _ & W). clear - W HT. induction W as [s d L|s p d L Hp W IH]; [now apply HT|].
      destruct (HT _ _ L) as [T1 T2]. destruct IH as [I1 I2]. split; congruence.
  Qed.

  Lemma resolved_external : is_composite root = true -> external_connected o (comp_audio root) r.
  Proof using NA D HC Em Er.
    intros CR p Hp Hw. destruct (C29_hierarchy_transparent o root NA D HC) as (m' & Em' & H). rewrite Em in Em'. apply Ok_inj in Em'. subst m'.
    rewrite Er in H. destruct H as (HR & NR & HF & _).
    assert (EP : endpoint root p) by (exists root; split; [constructor|]; auto).
    destruct root as [c au pa|c au pa children conns pconns] eqn:Eroot; [discriminate|]. cbn [comp_audio] in Hp. rewrite <- Eroot in *.
    assert (Ir : inside (Composite c au pa children conns pconns) root) by (rewrite Eroot; constructor).
    destruct (a_dir o p) eqn:Dp; cbn [is_input].
    - destruct (proj1 (C31_audio_check_iff_partial o root) HC _ _ _ _ _ _ Ir) as (_ & _ & W).
      destruct (W p 0) as (d1 & Hd); [right; auto|lia|].
      assert (L : In ((p, 0), d1) (all_links root)).
      { apply all_links_inside. exists c, au, pa, children, conns, pconns. split; [exact Ir|exact Hd]. }
      destruct (receives_nodup o root NA) as [NRr _]. destruct (links_nodup o root HC NRr) as [NL _].
      assert (PH : placeholder_channel o (p, 0) = false) by (apply (endpoint_ph o root D root); [constructor|rewrite Eroot; exact Hp|exact EP]).
      destruct (reaches (placeholder_channel o) (all_links root)) with (c0 := (p, 0)) (d1 := d1) as (d & Rd & Pd); [| |exact PH|exact L|].
      + clear - NL. intros s s' d H H'. revert NL H H'. generalize (all_links root). clear.
        induction l as [|[a b] l IH]; intros NL H H'; [contradiction|]. cbn [map snd] in NL. apply NoDup_cons_iff in NL as [Ni ND'].
        destruct H as [E|H], H' as [E'|H'].
        * congruence.
        * exfalso. apply Ni. apply in_map_iff. exists (s', d). split; [cbn; congruence|exact H'].
        * exfalso. apply Ni. apply in_map_iff. exists (s, d). split; [cbn; congruence|exact H].
        * now apply IH.
      + intros x e Px Hx. destruct (link_ports o root e x HC Hx) as [_ (y & Hy & Py)].
        apply linked_in in Hx. pose proof (proj1 (inner_ph o root D y x Hy Py) Px) as (z & Hz & Pz & Cz & Nz).
        destruct (linked_local _ _ Hx) as (i & a & q & ch & cs & ps & Hi & _ & LR & _ & Hk).
        destruct D as (D1 & _ & D2 & D3). destruct x as [xp xk]. cbn [fst snd] in *.
        (* the channel sends inside its composite [z] or, for an output, inside the parent *)
        destruct (a_dir o xp) eqn:Dx.
        * destruct z as [|zi za zq zch zcs zps]; [discriminate|]. cbn [comp_audio] in Pz.
          destruct (proj1 (C31_audio_check_iff_partial o root) HC _ _ _ _ _ _ Hz) as (_ & _ & Wz).
          destruct (Wz xp xk) as (d & Hdd); [right; auto|exact Hk|]. exists d. apply all_links_inside. exists zi, za, zq, zch, zcs, zps. auto.
        * destruct (inside_parent _ _ Hz) as [->|(j & ja & jq & jch & jcs & jps & Hj & Hzj)]; [congruence|].
          destruct (proj1 (C31_audio_check_iff_partial o root) HC _ _ _ _ _ _ Hj) as (_ & _ & Wz).
          destruct (Wz xp xk) as (d & Hdd); [left; exists z; auto|exact Hk|]. exists d. apply all_links_inside. exists j, ja, jq, jch, jcs, jps. auto.
      + apply chain_rchain in Rd. apply (wired_chain o root D _ _ HC) in Rd. exists 0, d. apply HR. cbn [fst]. split; [exact EP|]. split; [|exact Rd].
        apply wired_last in Rd as (e & Le). apply linked_in in Le. destruct (link_ports o root e d HC Le) as [_ (y & Hy & Py)].
        now apply (endpoint_ph o root D y d Hy Py).
    - specialize (HF _ _ _ _ _ _ p 0 Ir). assert (LR : local_receiver o au children p) by (right; auto).
      specialize (HF LR ltac:(lia) EP). apply in_map_iff in HF as ([s d] & E & H). cbn [snd] in E. subst d. now exists 0, s.
  Qed.
End Hierarchy.

(** The buffers of every flow that passes the integrity check, connects ports of equal sample
    type and has no placeholder loop feeding a component. *)
Theorem C32_hierarchy_partial : forall o root m r type_size block alignment partition alloc,
  NoDup (all_audio root) -> describes o root -> check_audio o root = true -> is_composite root = true ->
  amap_new o root = Ok m -> resolvePlaceholders o m = Ok r ->
  (forall s d, linked root s d -> a_type o (fst s) = a_type o (fst d) /\ a_type o (fst s) <= 8) ->
  new_objects r alloc -> (forall l, Permutation (partition l) l) -> sample_sizes o type_size alignment r ->
  exists y, initialiseAudioConnections o type_size block alignment partition alloc root r = Ok y
    /\ good_layout o type_size block alignment r y (comp_audio root).
Proof.
  intros o root m r type_size block alignment partition alloc NA D HC CR Em Er HT N P SZ.
  pose proof (resolved_flat o root m r NA D HC Em Er HT) as F. pose proof (resolved_external o root m r NA D HC Em Er CR) as Ext.
  destruct root as [|c au pa children conns pconns]; [discriminate|]. now apply C32_layout_partial.
Qed.

(** *** Flows that are a single atomic component *)
Theorem C32_atomic_partial : forall o type_size block alignment partition alloc id audio params conns t,
  NoDup audio -> (forall p, In p audio -> a_type o p = t) ->
  type_size t <> 0 -> (alignment = 0 \/ Nat.divide (type_size t) alignment) ->
  exists y, initialiseAudioConnections o type_size block alignment partition alloc (Atomic id audio params) conns = Ok y
    /\ (forall c, In (fst c) audio -> snd c < a_width o (fst c) -> owns_buffer o type_size block alignment y c)
    /\ (forall c c', In (fst c) audio -> snd c < a_width o (fst c) -> In (fst c') audio -> snd c' < a_width o (fst c') ->
          c <> c' -> disjoint o type_size block y c c')
    /\ external_at o type_size y audio.
Proof.
  intros o type_size block alignment partition alloc id audio params conns t ND HT S1 S2.
  set (cb := channelSizeBytes type_size block alignment t).
  assert (DV : Nat.divide (type_size t) cb) by now apply aligned_samples.
  destruct (place_sends_ok o audio ND) as (P1 & P2 & P3). set (S := fst (place_sends o audio)) in *. set (next := snd (place_sends o audio)) in *.
  assert (UT : used_types (map (a_type o) audio) = match audio with [] => [] | _ => [t] end).
  { unfold used_types. clear - HT. destruct audio as [|p l]; [reflexivity|]. cbn [map fold_left set_add]. rewrite (HT p (or_introl eq_refl)).
    assert (H : forall q, In q l -> a_type o q = t) by (intros q Hq; apply HT; now right). clear HT.
    induction l as [|q l IH]; [reflexivity|]. cbn [map fold_left]. rewrite (H q (or_introl eq_refl)). cbn [set_add].
    rewrite Nat.ltb_irrefl, Nat.eqb_refl. apply IH. intros z Hz. apply H. now right. }
  unfold initialiseAudioConnections. rewrite UT.
  set (tb := Typed t S [] next).
  set (tables := match audio with [] => [] | _ => [tb] end).
  assert (ET : map (layout_atomic o audio) match audio with [] => [] | _ => [t] end = tables).
  { assert (X : layout_atomic o audio t = tb) by (unfold layout_atomic, tb, S, next; now destruct (place_sends o audio)).
    unfold tables. rewrite <- X. clear. destruct audio; reflexivity. }
  rewrite ET. unfold finish. rewrite pool_fold, (assign_all type_size block alignment tables).
  2:{ intros x Hx. assert (x = tb) as -> by (unfold tables in Hx; destruct audio; cbn in Hx; intuition). cbn [t_type t_send t_count tb].
      split; [now apply Nat.mod_divide|now apply table_sum]. }
  cbn [bind app]. rewrite Nat.eqb_refl. cbn [negb]. set (cfg := configs_of type_size block alignment _).
  assert (AD : forall e k, In e S -> address o type_size cfg [] (e_port e, k) = Ok (cb * (e_offset e + k))).
  { intros e k He. assert (Hp : In (e_port e) audio) by (apply P2; now apply in_map).
    assert (Etab : tables = [tb]) by (unfold tables; destruct audio; [destruct Hp|reflexivity]).
    unfold address. cbn [fst snd]. rewrite (config_of_unique _ _ (cb * e_offset e, cb / type_size t)).
    - unfold port_type. cbn [find]. rewrite (HT _ Hp). destruct DV as [c DV]. rewrite DV. rewrite Nat.div_mul by exact S1. f_equal. lia.
    - unfold cfg. apply configs_in. exists tb, 0, e. rewrite Etab. cbn [bases In]. split; [now left|]. split; [now left|reflexivity].
    - intros c K. unfold cfg in K. apply configs_in in K as (tb' & b' & f & K1 & K2 & K3). rewrite Etab in K1. cbn [bases In] in K1.
      destruct K1 as [K1|[]]. injection K1 as <- <-. unfold one in K3. cbn [t_type t_send t_receive tb] in K2, K3. fold cb in K3.
      destruct K2 as [K2|[]]. injection K3 as E ->. now rewrite (nodup_port S e f (proj1 P1) He K2 E). }
  assert (CH : forall ports, incl ports audio -> exists l, external_channels o type_size cfg [] ports = Ok l
             /\ Forall2 (fun c a => address o type_size cfg [] c = Ok a) (channels o ports) l).
  { intros ports Hi. unfold external_channels, channels. set (cs := flat_map _ ports).
    assert (X : forall c, In c cs -> exists a, address o type_size cfg [] c = Ok a).
    { intros [q k] Hc. unfold cs in Hc. apply in_flat_map in Hc as (p & Hp & Hk). apply in_map_iff in Hk as (j & E & _). injection E as <- <-.
      apply Hi, P2, in_map_iff in Hp as (e & <- & He). eexists. now apply AD. }
    clearbody cs. clear - X.
    assert (Gn : forall cs pre, (forall c, In c cs -> exists a, address o type_size cfg [] c = Ok a) ->
      exists l, fold_left (fun r c => l <- r ;; a <- address o type_size cfg [] c ;; Ok (l ++ [a])) cs (Ok pre) = Ok (pre ++ l)
        /\ Forall2 (fun c a => address o type_size cfg [] c = Ok a) cs l).
    { clear. induction cs as [|c cs IH]; intros pre X; cbn [fold_left]; [exists []; rewrite app_nil_r; split; constructor|].
      destruct (X c (or_introl eq_refl)) as (a & Ea). cbn [bind]. rewrite Ea. cbn [bind].
      destruct (IH (pre ++ [a])) as (l & E & Fa); [intros d Hd; apply X; now right|]. exists (a :: l). split; [|now constructor].
      rewrite E. now rewrite <- app_assoc. }
    destruct (Gn cs [] X) as (l & E & Fa). exists l. auto. }
  destruct (CH (filter (fun p => is_input (a_dir o p)) audio)) as (l1 & E1 & F1); [intros p Hp; now apply filter_In in Hp|].
  destruct (CH (filter (fun p => negb (is_input (a_dir o p))) audio)) as (l2 & E2 & F2); [intros p Hp; now apply filter_In in Hp|].
  rewrite E1. cbn [bind]. rewrite E2. cbn [bind]. eexists. split; [reflexivity|]. split; [|split].
  - intros [p k] Hp Hk. cbn [fst snd] in *. pose proof Hp as Hp'. apply P2, in_map_iff in Hp as (e & <- & He).
    exists (cb * (e_offset e + k)). split; [apply AD, He|]. unfold bytes, port_type. cbn [y_pool y_routings find fst]. rewrite (HT _ Hp').
    assert (Etab : tables = [tb]) by (unfold tables; destruct audio; [destruct Hp'|reflexivity]).
    pose proof (table_bounds _ _ e P1 He). pose proof (P3 e He). assert (block * type_size t <= cb) by apply aligned_ge. split.
    + rewrite Etab. cbn [pool tb t_count t_type]. fold cb. nia.
    + intros H'. apply Nat.divide_mul_l. now apply aligned_divides.
  - intros [p k] [p' k'] Hp Hk Hp' Hk' Ne. cbn [fst snd] in *. pose proof Hp as Hq. pose proof Hp' as Hq'.
    apply P2, in_map_iff in Hp as (e & <- & He). apply P2, in_map_iff in Hp' as (e' & <- & He').
    exists (cb * (e_offset e + k)), (cb * (e_offset e' + k')). split; [apply AD, He|]. split; [apply AD, He'|].
    unfold bytes, port_type. cbn [y_routings find fst]. rewrite (HT _ Hq), (HT _ Hq').
    assert (block * type_size t <= cb) by apply aligned_ge. pose proof (P3 e He). pose proof (P3 e' He').
    assert (e_offset e + k <> e_offset e' + k').
    { intros K. destruct (table_disjoint _ _ e e' k k' P1 He He') as [-> ->]; [lia|lia|exact K|congruence]. }
    assert (e_offset e + k + 1 <= e_offset e' + k' \/ e_offset e' + k' + 1 <= e_offset e + k) as [L|L] by lia; [left|right]; nia.
  - split; [exact F1|exact F2].
Qed.

(** *** Examples *)
(** The flow of FlowProps with blocks of 4 samples of 4 bytes, 8-byte alignment; ports 4 and 6
    receive swapped channels, so two routing components are inserted. *)
Definition ex_alloc (n : nat) : nat * nat * nat := (10 + n, 20 + 2 * n, 21 + 2 * n).
Definition ex_conns : amap :=
  [((0, 0), (4, 1)); ((0, 1), (4, 0)); ((5, 0), (6, 1)); ((5, 1), (6, 0)); ((7, 0), (1, 0)); ((7, 1), (1, 1))].
Example C32_example :
  (exists m, amap_new ex_objects ex_flow = Ok m /\ resolvePlaceholders ex_objects m = Ok ex_conns)
  /\ flat ex_objects ex_conns /\ new_objects ex_conns ex_alloc
  /\ sample_sizes ex_objects (fun _ => 4) 8 ex_conns /\ external_connected ex_objects [0; 1] ex_conns
  /\ exists y, initialiseAudioConnections ex_objects (fun _ => 4) 4 8 (fun l => l) ex_alloc ex_flow ex_conns = Ok y
       /\ length (y_routings y) = 2 /\ y_pool y = 160 /\ y_capture y = [0; 16] /\ y_playback y = [64; 80].
Proof.
  assert (L : forall n, n < 20 \/ 20 <= n) by lia.
  split; [eexists; split; reflexivity|]. split; [|split; [|split; [|split]]].
  - constructor.
    + repeat constructor; cbn; intuition discriminate.
    + intros s d H. cbn in H. repeat (destruct H as [H|H]; [injection H as <- <-; cbn; lia|]). destruct H.
    + intros s d H. cbn in H. repeat (destruct H as [H|H]; [injection H as <- <-; cbn; lia|]). destruct H.
    + intros p k (j & s & H) Hk. cbn in Hk. assert (p = 4 \/ p = 6 \/ p = 1) as Hp.
      { cbn in H. repeat (destruct H as [H|H]; [injection H as _ <- _; auto|]). destruct H. }
      destruct k as [|[|k]]; [| |lia]; destruct Hp as [->|[->| ->]]; eexists; cbn; eauto 10.
    + intros p (k & d & H) (j & s & H'). cbn in H, H'.
      repeat (destruct H as [H|H]; [injection H as <- _ _; repeat (destruct H' as [H'|H']; [discriminate|]); destruct H'|]). destruct H.
    + intros s d H. cbn. lia.
  - split.
    + intros n m [] [] H; unfold new_port, ex_alloc in H; cbn in H; (split; [lia|]); try reflexivity; lia.
    + intros n a. assert (20 <= new_port ex_alloc n a) by (unfold new_port, ex_alloc; cbn; destruct a; lia). split; intros (k & d & H').
      * cbn in H'. repeat (destruct H' as [H'|H']; [exfalso; injection H' as E _ _; cbn in H; lia|]). destruct H'.
      * cbn in H'. repeat (destruct H' as [H'|H']; [exfalso; injection H' as _ E _; cbn in H; lia|]). destruct H'.
  - intros s d _. split; [lia|right; now exists 2].
  - intros p [<-|[<-|[]]] _; cbn; [exists 0, (4, 1)|exists 0, (7, 0)]; cbn; auto 10.
  - eexists. split; [vm_compute; reflexivity|]. repeat split.
Qed.
(** an atomic flow with ports of widths 2 and 1 *)
Example C32_atomic_example :
  let o := Objects (fun p => if p =? 0 then Input else Output) (fun p => if p =? 0 then 2 else 1) (fun _ => 0) (fun _ => 0)
             (fun _ => Input) (fun _ => 0) (fun _ => 0) (fun _ => 0) (fun _ => 0) (fun _ _ => Some true) (fun _ => false) (fun _ => true) in
  exists y, initialiseAudioConnections o (fun _ => 4) 5 8 (fun l => l) ex_alloc (Atomic 0 [0; 1] []) [] = Ok y
    /\ y_pool y = 72 /\ y_capture y = [0; 24] /\ y_playback y = [48].
Proof. eexists. split; [reflexivity|]. repeat split. Qed.

(** *** Refutations *)
(** sizes of float and int8 samples (ids 0 and 4) *)
Definition two_sizes (t : nat) : nat := match t with 0 => 4 | 1 => 8 | _ => 1 end.
(** An atomic flow with an input of two float channels and an int8 output: both ports are
    entered into the tables of both types (906-914, 959-967) and the assignments for int8 come
    last, so the second float channel ends outside the pool. *)
Theorem C32_mixed_atomic_refuted : exists o block alignment id audio params y c a,
  NoDup audio /\ (forall p, In p audio -> a_type o p <= 8)
  /\ initialiseAudioConnections o two_sizes block alignment (fun l => l) ex_alloc (Atomic id audio params) [] = Ok y
  /\ In (fst c) audio /\ snd c < a_width o (fst c)
  /\ at_ o two_sizes y c = Ok a /\ y_pool y < a + bytes o two_sizes block y c.
Proof.
  exists (Objects (fun p => if p =? 0 then Input else Output) (fun p => if p =? 0 then 2 else 1) (fun p => 4 * p) (fun _ => 0)
             (fun _ => Input) (fun _ => 0) (fun _ => 0) (fun _ => 0) (fun _ => 0) (fun _ _ => Some true) (fun _ => false) (fun _ => true)).
  exists 8, 8, 0, [0; 1], []. eexists. exists (0, 1). eexists.
  split; [repeat constructor; cbn; intuition discriminate|]. split; [intros p [<-|[<-|[]]]; cbn; lia|].
  split; [vm_compute; reflexivity|]. split; [now left|]. split; [cbn; lia|]. split; [vm_compute; reflexivity|]. vm_compute. lia.
Qed.
(** Float channels 0 and 1 connected to a double port of width 2 pass the integrity check
    (C31_sample_types_refuted), but the second receive channel is not the buffer of the second
    send channel: the stride is counted in samples. *)
Definition mixed_objects : objects :=
  Objects (fun p => if p =? 0 then Input else Output) (fun _ => 2) (fun p => p) (fun _ => 0)
          (fun _ => Input) (fun _ => 0) (fun _ => 0) (fun _ => 0) (fun _ => 0) (fun _ _ => Some true) (fun c => c =? 0) (fun c => c =? 0).
Definition mixed_flow : comp := Composite 0 [0; 1] [] [] [AConn 0 1 [0; 1] [0; 1]] [].
Theorem C32_type_mismatch_refuted : exists o root m r y s d,
  NoDup (all_audio root) /\ describes o root /\ check_audio o root = true
  /\ amap_new o root = Ok m /\ resolvePlaceholders o m = Ok r
  /\ initialiseAudioConnections o two_sizes 4 8 (fun l => l) ex_alloc root r = Ok y
  /\ In (s, d) r /\ ~ delivered o two_sizes y s d.
Proof.
  exists mixed_objects, mixed_flow. eexists. eexists. eexists. exists (0, 1), (1, 1).
  split; [repeat constructor; cbn; intuition discriminate|]. split.
  { assert (E : forall x, inside x mixed_flow -> In x (subcomps mixed_flow)) by (intros x; apply inside_subcomps).
    cbn in E. split; [|split; [|split]].
    - intros x p Hx Hp. apply E in Hx. members; cbn in Hp; members; reflexivity.
    - intros x p Hx Hp. apply E in Hx. members; cbn in Hp; members; reflexivity.
    - intros x Hx. apply E in Hx. members; reflexivity.
    - intros x Hx. apply E in Hx. members; cbn; split; intros H; try reflexivity; discriminate. }
  split; [reflexivity|]. split; [reflexivity|]. split; [reflexivity|]. split; [vm_compute; reflexivity|].
  split; [cbn; auto|]. unfold delivered. cbn [y_routings]. intros [(_ & a & E1 & E2)|(r & i & a & b & [] & _)].
  vm_compute in E1, E2. congruence.
Qed.
(** Channels of a complex sample type (id 9) that would need a routing component: the
    initialisation throws. *)
Theorem C32_complex_refuted : exists o root m r,
  NoDup (all_audio root) /\ check_audio o root = true
  /\ amap_new o root = Ok m /\ resolvePlaceholders o m = Ok r
  /\ (forall s d, linked root s d -> a_type o (fst s) = a_type o (fst d))
  /\ initialiseAudioConnections o (fun _ => 8) 4 8 (fun l => l) ex_alloc root r = Throw InvalidArgument.
Proof.
  exists (Objects (fun p => if p =? 0 then Input else Output) (fun _ => 2) (fun p => 9) (fun _ => 0)
          (fun _ => Input) (fun _ => 0) (fun _ => 0) (fun _ => 0) (fun _ => 0) (fun _ _ => Some true) (fun c => c =? 0) (fun c => c =? 0)).
  exists (Composite 0 [0; 1] [] [] [AConn 0 1 [0; 1] [1; 0]] []). eexists. eexists.
  split; [repeat constructor; cbn; intuition discriminate|]. split; [reflexivity|]. split; [reflexivity|]. split; [reflexivity|].
  split; [reflexivity|]. vm_compute. reflexivity.
Qed.
Print Assumptions C32_layout_partial.
Print Assumptions C32_hierarchy_partial.
Print Assumptions C32_atomic_partial.
Print Assumptions C32_mixed_atomic_refuted.
Print Assumptions C32_type_mismatch_refuted.
Print Assumptions C32_complex_refuted.
