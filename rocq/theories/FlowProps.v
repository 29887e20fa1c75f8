(** C29, C30, C31: what the integrity checks accept and what placeholder resolution computes.

    The specification below speaks about the component hierarchy only: which channels the
    connection entries of the composites join ([linked]), which ports belong to composites
    below the top level ([inner]) and to atomic components or the top level ([endpoint]), and
    which channels are joined by a chain of connections through inner ports ([wired]). *)
From Verif Require Import Base FlowModel FlowProofs FlowResolve FlowTree.
From Coq Require Import Permutation.
Local Open Scope res_scope.

(** *** Specification *)
(** position [j] of a connection entry of a composite inside [root] joins channels [s] and [d] *)
Definition linked (root : comp) (s d : channel) : Prop :=
  exists i a p children conns pconns c j,
    inside (Composite i a p children conns pconns) root /\ In c conns
    /\ fst s = c_sender c /\ fst d = c_receiver c
    /\ nth_error (c_send c) j = Some (snd s) /\ nth_error (c_receive c) j = Some (snd d).
Definition endpoint (root : comp) (p : nat) : Prop :=
  exists x, inside x root /\ In p (comp_audio x) /\ (is_composite x = false \/ x = root).
Definition inner (root : comp) (p : nat) : Prop :=
  exists x, inside x root /\ In p (comp_audio x) /\ is_composite x = true /\ x <> root.
Inductive wired (root : comp) : channel -> channel -> Prop :=
| wired_one s d : linked root s d -> wired root s d
| wired_through s p d : linked root s p -> inner root (fst p) -> wired root p d -> wired root s d.

(** ports that send to resp. receive from inside a composite *)
Definition local_sender (o : objects) (audio : list nat) (children : list comp) (p : nat) : Prop :=
  (exists x, In x children /\ In p (comp_audio x) /\ a_dir o p = Output) \/ (In p audio /\ a_dir o p = Input).
Definition local_receiver (o : objects) (audio : list nat) (children : list comp) (p : nat) : Prop :=
  (exists x, In x children /\ In p (comp_audio x) /\ a_dir o p = Input) \/ (In p audio /\ a_dir o p = Output).
(** all pairs of channels joined by the connection entries, with repetitions *)
Definition joined (conns : list aconn) : list (channel * channel) :=
  flat_map (fun c => map (fun p => ((c_sender c, fst p), (c_receiver c, snd p))) (combine (c_send c) (c_receive c))) conns.
Definition times_driven (conns : list aconn) (d : channel) : nat :=
  count_occ channel_dec (map snd (joined conns)) d.

Definition well_connected (o : objects) (audio : list nat) (children : list comp) (conns : list aconn) : Prop :=
  (forall c, In c conns ->
     local_sender o audio children (c_sender c) /\ local_receiver o audio children (c_receiver c)
     /\ length (c_send c) = length (c_receive c)
     /\ (forall k, In k (c_send c) -> k < a_width o (c_sender c))
     /\ (forall k, In k (c_receive c) -> k < a_width o (c_receiver c)))
  /\ (forall p k, local_receiver o audio children p -> k < a_width o p -> times_driven conns (p, k) = 1)
  /\ (forall p k, local_sender o audio children p -> k < a_width o p -> exists d, In ((p, k), d) (joined conns)).

(** *** C31 *)
Lemma received_count m c : received m c = count_occ channel_dec (map snd m) c.
Proof.
  unfold received. induction m as [|e m IH]; [reflexivity|]. cbn [filter map count_occ].
  destruct (channel_eqb_spec (snd e) c) as [E|E]; destruct (channel_dec (snd e) c); try contradiction; cbn [length]; congruence.
Qed.

Lemma well_connected_iff o audio children conns :
  check_audio_local o audio children conns = true <-> well_connected o audio children conns.
Proof.
  rewrite check_audio_local_ok. unfold well_connected, times_driven.
  change (joined conns) with (flat_map expand conns).
  assert (S : forall p, In p (send_ports o audio children) <-> local_sender o audio children p) by apply send_ports_in.
  assert (R : forall p, In p (receive_ports o audio children) <-> local_receiver o audio children p) by apply receive_ports_in.
  split.
  - intros (HF & HR & HS). split; [|split].
    + intros c Hc. rewrite Forall_forall in HF. destruct (HF c Hc) as (A & B & L & D & E). rewrite Forall_forall in D, E.
      rewrite <- S, <- R. auto.
    + intros p k Hp Hk. rewrite <- received_count. apply HR. unfold channel_in. cbn [fst snd].
      apply andb_true_iff. rewrite mem_spec, Nat.ltb_lt, R. auto.
    + intros p k Hp Hk. assert (0 < sent (flat_map expand conns) (p, k)) as K.
      { apply HS. unfold channel_in. cbn [fst snd]. apply andb_true_iff. rewrite mem_spec, Nat.ltb_lt, S. auto. }
      apply sent_pos in K as ([s d] & He & E). cbn [fst] in E. subst s. now exists d.
  - intros (HF & HR & HS). split; [|split].
    + apply Forall_forall. intros c Hc. destruct (HF c Hc) as (A & B & L & D & E). rewrite <- S in A. rewrite <- R in B.
      repeat (split; [assumption|]). split; apply Forall_forall; assumption.
    + intros [p k] Hc. unfold channel_in in Hc. cbn [fst snd] in Hc. apply andb_true_iff in Hc as [Hp Hk].
      apply mem_spec in Hp. apply Nat.ltb_lt in Hk. rewrite received_count. apply HR; [now apply R|exact Hk].
    + intros [p k] Hc. unfold channel_in in Hc. cbn [fst snd] in Hc. apply andb_true_iff in Hc as [Hp Hk].
      apply mem_spec in Hp. apply Nat.ltb_lt in Hk. apply sent_pos. destruct (HS p k) as [d Hd]; [now apply S|exact Hk|].
      exists ((p, k), d). auto.
Qed.

(** The check of the audio connections passes exactly if inside every composite all
    connection entries join known ports and existing channels, every receive channel is
    driven exactly once and every send channel is used.  (The sample types are missing,
    see the refutation below.) *)
Theorem C31_audio_check_iff_partial : forall o root,
  check_audio o root = true
  <-> forall i a p children conns pconns, inside (Composite i a p children conns pconns) root ->
      well_connected o a children conns.
Proof.
  intros o root. rewrite check_audio_inside. split; intros H i a p children conns pconns Hi.
  - apply well_connected_iff. eapply H. exact Hi.
  - apply well_connected_iff. eapply H. exact Hi.
Qed.

(** the check of the parameter connections passes exactly if inside every composite the
    connections join known compatible ports and no send or receive port is left out *)
Definition params_connected (o : objects) (params : list nat) (children : list comp) (pconns : list pconn) : Prop :=
  let sender p := (exists x, In x children /\ In p (comp_params x) /\ q_dir o p = Output) \/ (In p params /\ q_dir o p = Input) in
  let receiver p := (exists x, In x children /\ In p (comp_params x) /\ q_dir o p = Input) \/ (In p params /\ q_dir o p = Output) in
  (forall s r, In (s, r) pconns ->
     sender s /\ receiver r /\ q_protocol o s = q_protocol o r /\ q_type o s = q_type o r
     /\ config_compare o (q_config o s) (q_config o r) = Some true)
  /\ (forall s, sender s -> exists r, In (s, r) pconns)
  /\ (forall r, receiver r -> exists s, In (s, r) pconns).

Theorem C31_parameter_check_iff : forall o root,
  check_params o root = true
  <-> forall i a p children conns pconns, inside (Composite i a p children conns pconns) root ->
      params_connected o p children pconns.
Proof.
  intros o root. rewrite check_params_inside.
  assert (L : forall p children pconns, check_params_local o p children pconns = true <-> params_connected o p children pconns).
  { intros p children pconns. rewrite check_params_local_ok. unfold params_connected. cbv zeta.
    setoid_rewrite <- (send_params_in o p children). setoid_rewrite <- (receive_params_in o p children).
    rewrite Forall_forall.
    assert (CC : forall s r, compatible o s r = true <->
               q_protocol o s = q_protocol o r /\ q_type o s = q_type o r /\ config_compare o (q_config o s) (q_config o r) = Some true).
    { intros s r. unfold compatible. rewrite andb_true_iff, Nat.eqb_eq. destruct (Nat.eqb_spec (q_type o s) (q_type o r)).
      - destruct (config_compare o _ _) as [[]|]; split; intros H; decompose [and] H; repeat split; congruence.
      - split; intros H; decompose [and] H; [discriminate|contradiction]. }
    split.
    - intros (HF & HS & HR). split; [|split].
      + intros s r Hc. destruct (HF _ Hc) as (A & B & C). cbn [fst snd] in *. apply CC in C. tauto.
      + intros s Hs. apply HS in Hs. apply in_map_iff in Hs as ([s' r] & E & H). cbn in E. subst. now exists r.
      + intros r Hr. apply HR in Hr. apply in_map_iff in Hr as ([s r'] & E & H). cbn in E. subst. now exists s.
    - intros (HF & HS & HR). split; [|split].
      + intros [s r] Hc. destruct (HF _ _ Hc) as (A & B & C). cbn [fst snd]. rewrite CC. tauto.
      + intros s Hs. apply HS in Hs as [r Hr]. apply in_map_iff. now exists (s, r).
      + intros r Hr. apply HR in Hr as [s Hs]. apply in_map_iff. now exists (s, r). }
  split; intros H i a p children conns pconns Hi; apply L; eapply H; exact Hi.
Qed.

(** *** Links of the hierarchy *)
Lemma in_combine_nth {A B} (l : list A) : forall (l' : list B) a b,
  In (a, b) (combine l l') <-> exists j, nth_error l j = Some a /\ nth_error l' j = Some b.
Proof.
  induction l as [|x l IH]; intros [|y l'] a b; cbn [combine In].
  - split; [tauto|]. intros ([|j] & H & _); discriminate.
  - split; [tauto|]. intros ([|j] & H & _); discriminate.
  - split; [tauto|]. intros ([|j] & _ & H); discriminate.
  - rewrite IH. split.
    + intros [[= -> ->]|(j & H1 & H2)]; [now exists 0|]. exists (S j). auto.
    + intros ([|j] & H1 & H2); [left; cbn in *; congruence|]. right. now exists j.
Qed.
Lemma linked_in root s d : linked root s d <-> In (s, d) (all_links root).
Proof.
  rewrite all_links_inside. unfold linked. split.
  - intros (i & a & p & children & conns & pconns & c & j & Hi & Hc & Es & Ed & Hs & Hd).
    exists i, a, p, children, conns, pconns. split; [exact Hi|]. apply in_flat_map. exists c. split; [exact Hc|].
    unfold expand. apply in_map_iff. exists (snd s, snd d). cbn [fst snd]. rewrite <- Es, <- Ed, <- !surjective_pairing.
    split; [reflexivity|]. apply in_combine_nth. now exists j.
  - intros (i & a & p & children & conns & pconns & Hi & H). apply in_flat_map in H as (c & Hc & H).
    unfold expand in H. apply in_map_iff in H as ([x y] & [= <- <-] & H). apply in_combine_nth in H as (j & Hx & Hy).
    exists i, a, p, children, conns, pconns, c, j. cbn [fst snd]. auto 10.
Qed.

Section Describes.
  Variables (o : objects) (root : comp).
  Hypothesis D : describes o root.
  Notation ph := (placeholder_channel o).

  Lemma inner_ph x c : inside x root -> In (fst c) (comp_audio x) -> (ph c = true <-> inner root (fst c)).
  Proof using D.
    intros Hx Hp. destruct D as (D1 & _ & D2 & D3). unfold placeholder_channel, placeholder.
    rewrite (D1 x _ Hx Hp), (D2 x Hx), andb_true_iff, negb_true_iff. split.
    - intros [A B]. exists x. repeat (split; [assumption|]). intros E. apply (D3 x Hx) in E. congruence.
    - intros (y & Hy & Py & Cy & Ny). pose proof (D1 x _ Hx Hp) as E1. rewrite (D1 y _ Hy Py) in E1.
      pose proof (D2 x Hx) as E2. rewrite <- E1, (D2 y Hy) in E2. split; [congruence|].
      destruct (toplevel o (comp_id x)) eqn:E3; [|reflexivity]. rewrite <- E1 in E3. now apply (D3 y Hy) in E3.
  Qed.
  Lemma endpoint_ph x c : inside x root -> In (fst c) (comp_audio x) -> (ph c = false <-> endpoint root (fst c)).
  Proof using D.
    intros Hx Hp. destruct D as (D1 & _ & D2 & D3). unfold placeholder_channel, placeholder.
    rewrite (D1 x _ Hx Hp), (D2 x Hx), andb_false_iff, negb_false_iff. split.
    - intros [A|B]; exists x; repeat (split; [assumption|]); [now left|right; now apply D3].
    - intros (y & Hy & Py & Cy). pose proof (D1 x _ Hx Hp) as E1. rewrite (D1 y _ Hy Py) in E1.
      pose proof (D2 x Hx) as E2. rewrite <- E1, (D2 y Hy) in E2.
      destruct Cy as [Cy|Cy]; [left; congruence|]. right. rewrite <- E1. now apply D3.
  Qed.
  Lemma link_ports s d : check_audio o root = true -> In (s, d) (all_links root) ->
    (exists x, inside x root /\ In (fst s) (comp_audio x)) /\ (exists x, inside x root /\ In (fst d) (comp_audio x)).
  Proof.
    intros HC H. apply all_links_inside in H as (i & a & p & children & conns & pconns & Hi & H).
    pose proof (proj1 (check_audio_inside o root) HC _ _ _ _ _ _ Hi) as CL.
    apply check_audio_local_ok in CL as (HF & _ & _). pose proof (expand_known _ _ _ _ HF) as HK.
    rewrite Forall_forall in HK. destruct (HK _ H) as [HS HR]. unfold channel_in in HS, HR. cbn [fst snd] in HS, HR.
    apply andb_true_iff in HS as [HS _]. apply andb_true_iff in HR as [HR _]. apply mem_spec in HS, HR.
    apply send_ports_in in HS. apply receive_ports_in in HR.
    assert (Ch : forall x, In x children -> inside x root).
    { intros x Hx. eapply inside_trans; [|exact Hi]. apply inside_composite. right. exists x. split; [exact Hx|constructor]. }
    split; [destruct HS as [(x & Hx & Hp & _)|[Hp _]]|destruct HR as [(x & Hx & Hp & _)|[Hp _]]];
      try (exists x; split; [now apply Ch|exact Hp]); eexists; (split; [exact Hi|exact Hp]).
  Qed.
  Lemma wired_chain s d : check_audio o root = true -> (wired root s d <-> chain ph (all_links root) s d).
  Proof using D.
    intros HC. split.
    - induction 1 as [s d H|s p d H Hp _ IH].
      + apply chain_one. now apply linked_in.
      + apply linked_in in H. apply chain_step with p; [exact H| |exact IH].
        destruct (link_ports _ _ HC H) as [_ (x & Hx & Px)]. now apply (inner_ph x).
    - induction 1 as [s d H|s p d H Hp _ IH].
      + apply wired_one. now apply linked_in.
      + apply wired_through with p; [now apply linked_in| |exact IH].
        destruct (link_ports _ _ HC H) as [_ (x & Hx & Px)]. now apply (inner_ph x).
  Qed.
  Lemma chain_ends s d : chain ph (all_links root) s d -> (exists e, In (s, e) (all_links root)) /\ (exists e, In (e, d) (all_links root)).
  Proof.
    induction 1 as [s d H|s p d H Hp _ [_ IH]]; [split; eexists; exact H|]. split; [eexists; exact H|exact IH].
  Qed.
End Describes.

(** *** C29 *)
Section Loops.
  Context {A : Type} (ph : A -> bool) (m : list (A * A)).
  Hypothesis driver : forall s s' d, In (s, d) m -> In (s', d) m -> s = s'.
  Lemma loop_feeds q s d : ph q = true -> chain ph m q q -> chain ph m s d -> chain ph m q d -> chain ph m d q -> ph d = true -> ph s = true.
  Proof using driver.
    intros Pq L H. apply chain_rchain in H. induction H as [s d H|s p d _ IH Hp H]; intros A1 A2 Pd.
    - apply chain_last in A1 as [A1|(p & _ & Pp & A1)].
      + now rewrite (driver s q d H A1).
      + now rewrite (driver s p d H A1).
    - apply IH; [| |exact Hp].
      + apply chain_last in A1 as [A1|(p' & A1 & Pp' & A3)].
        * rewrite (driver p q d H A1). exact L.
        * now rewrite (driver p p' d H A3).
      + apply chain_step with d; assumption.
  Qed.
  Lemma loop_above q s d : ph q = true -> chain ph m q q -> chain ph m q d -> chain ph m s d -> ph s = true.
  Proof using driver.
    intros Pq L H K. apply chain_rchain in H. revert s K. induction H as [q d H|q p d H IH Hp Hd]; intros s K.
    - apply chain_last in K as [K|(p & K & Pp & K2)].
      + now rewrite (driver s q d K H).
      + rewrite (driver p q d K2 H) in K. now apply (loop_feeds q s q).
    - apply chain_last in K as [K|(p' & K & Pp & K2)].
      + now rewrite (driver s p d K Hd).
      + rewrite (driver p' p d K2 Hd) in K. now apply IH.
  Qed.
End Loops.

(** Placeholder resolution of a flow whose audio connections pass the integrity check:
    it succeeds exactly if no receive channel of an endpoint depends on a loop through
    composite ports; the result then connects two channels exactly if they belong to
    endpoints and a chain through inner ports leads from one to the other, and it connects
    every receive channel of an endpoint exactly once. *)
Theorem C29_hierarchy_transparent : forall o root,
  NoDup (all_audio root) -> describes o root -> check_audio o root = true ->
  exists m, amap_new o root = Ok m
  /\ match resolvePlaceholders o m with
     | Ok r =>
         (forall s d, In (s, d) r <-> endpoint root (fst s) /\ endpoint root (fst d) /\ wired root s d)
         /\ NoDup (map snd r)
         /\ (forall i a p children conns pconns q k,
               inside (Composite i a p children conns pconns) root -> local_receiver o a children q ->
               k < a_width o q -> endpoint root q -> In (q, k) (map snd r))
         /\ ~ exists c d, inner root (fst c) /\ wired root c c /\ wired root c d /\ endpoint root (fst d)
     | Throw e =>
         e = InvalidArgument
         /\ exists c d, inner root (fst c) /\ wired root c c /\ wired root c d /\ endpoint root (fst d)
     | UB => False
     end.
Proof.
  intros o root ND D HC. destruct (check_fills o root HC) as (m & Em & P). exists m. split; [exact Em|].
  destruct (receives_nodup o root ND) as [NR _]. destruct (links_nodup o root HC NR) as [NL _].
  assert (NM : NoDup (map snd m)) by (rewrite P; exact NL).
  assert (driver : forall s s' d, In (s, d) m -> In (s', d) m -> s = s').
  { clear - NM. intros s s' d H H'. induction m as [|[a b] m IH]; [contradiction|]. cbn [map snd] in NM.
    inversion NM as [|? ? Ni ND']; subst. destruct H as [E|H], H' as [E'|H'].
    - congruence.
    - exfalso. apply Ni. apply in_map_iff. exists (s', d). split; [cbn; congruence|exact H'].
    - exfalso. apply Ni. apply in_map_iff. exists (s, d). split; [cbn; congruence|exact H].
    - now apply IH. }
  assert (W : forall s d, wired root s d <-> chain (placeholder_channel o) m s d).
  { intros s d. rewrite (wired_chain o root D s d HC). symmetry. now apply chain_perm. }
  assert (Ends : forall s d, chain (placeholder_channel o) m s d ->
            (placeholder_channel o s = false <-> endpoint root (fst s)) /\ (placeholder_channel o d = false <-> endpoint root (fst d))
            /\ (placeholder_channel o s = true <-> inner root (fst s))).
  { intros s d H. apply (chain_perm _ _ _ _ _ P) in H. destruct (chain_ends _ _ _ _ H) as [(e & He) (e' & He')].
    destruct (link_ports _ _ _ _ HC He) as [(x & Hx & Px) _]. destruct (link_ports _ _ _ _ HC He') as [_ (y & Hy & Py)].
    split; [|split]; [now apply (endpoint_ph o root D x)|now apply (endpoint_ph o root D y)|now apply (inner_ph o root D x)]. }
  assert (Rec : forall q e d, In (q, d) m -> placeholder_channel o d = false -> sender_of o m (q, d) = Throw e ->
            e = InvalidArgument /\ exists c d, inner root (fst c) /\ wired root c c /\ wired root c d /\ endpoint root (fst d)).
  { intros q e d Hq Pd Es. pose proof (sender_of_spec o m (fun s s' d _ => driver s s' d) q d Hq) as S. rewrite Es in S.
    destruct S as (Pq & _ & S).
    assert (Drv : forall c, placeholder_channel o c = true -> feeds (placeholder_channel o) m c q -> exists z, In (z, c) m).
    { intros c Pc Hc. assert (exists e, In (c, e) m) as (z & Hz).
      { destruct Hc as [->|[_ Hc]]; [now exists d|]. apply (chain_perm _ _ _ _ _ P) in Hc.
        apply chain_ends in Hc as [(z & Hz) _]. exists z. now rewrite P. }
      assert (K : In c (map snd m)).
      { rewrite P. apply (placeholder_driven o root (c, z) D HC); [now rewrite <- P|exact Pc]. }
      apply in_map_iff in K as ([y c'] & E & K). cbn [snd] in E. subst. now exists y. }
    destruct S as [[-> S]|[[-> (c & Hc & Pc & L)]|[-> (c & Hc & Pc & L)]]].
    - destruct (Drv q Pq (or_introl eq_refl)) as [z Hz]. now apply S in Hz.
    - split; [reflexivity|]. exists c, d. assert (C : chain (placeholder_channel o) m c d) by now apply feeds_chain with q.
      destruct (Ends _ _ C) as (_ & E2 & E3). rewrite !W. split; [now apply E3|]. split; [exact L|]. split; [exact C|now apply E2].
    - destruct (Drv c Pc Hc) as [z Hz]. now apply L in Hz. }
  pose proof (resolve_spec o m (fun s s' d _ => driver s s' d)) as R.
  destruct (resolvePlaceholders o m) as [r|e|]; [|destruct R as (q & d & Hq & Pd & Es); now apply (Rec q e d)|exact R].
  destruct R as [R1 R2]. split; [|split; [|split]].
  - intros s d. rewrite R1, W. split.
    + intros (A & B & C). destruct (Ends _ _ C) as (E1 & E2 & _). split; [now apply E1|]. split; [now apply E2|exact C].
    + intros (A & B & C). destruct (Ends _ _ C) as (E1 & E2 & _). split; [now apply E1|]. split; [now apply E2|exact C].
  - rewrite R2. now apply NoDup_filter.
  - intros i a p children conns pconns q k Hi Hq Hk Eq. rewrite R2. apply filter_In.
    pose proof (proj1 (check_audio_inside o root) HC _ _ _ _ _ _ Hi) as CL.
    pose proof CL as CL2. apply well_connected_iff in CL2 as (_ & CR & _). specialize (CR q k Hq Hk). unfold times_driven in CR.
    assert (K : In (q, k) (map snd (joined conns))) by (apply (count_occ_In channel_dec); lia).
    assert (K2 : In (q, k) (map snd m)).
    { rewrite P. apply in_map_iff in K as (e & Ee & He). rewrite <- Ee. apply in_map. apply all_links_inside.
      exists i, a, p, children, conns, pconns. auto. }
    split; [exact K2|]. apply in_map_iff in K2 as ([s d] & E & K2). cbn [snd] in E. subst d.
    rewrite P in K2. destruct (link_ports o root s (q, k) HC K2) as [_ (x & Hx & Px)].
    assert (placeholder_channel o (q, k) = false) as -> by now apply (endpoint_ph o root D x). reflexivity.
  - intros (c & d & Ic & L & C & Ed). rewrite W in L, C. destruct (Ends _ _ C) as (_ & E2 & E3).
    assert (Pd : placeholder_channel o d = false) by now apply E2. assert (Pc : placeholder_channel o c = true) by now apply E3.
    assert (Kd : In d (map snd m)).
    { apply chain_last in C as [C|(p & _ & _ & C)]; apply in_map_iff; eexists; (split; [|exact C]); reflexivity. }
    assert (Kr : In d (map snd r)) by (rewrite R2; apply filter_In; rewrite Pd; auto).
    apply in_map_iff in Kr as ([s d'] & E & Kr). cbn [snd] in E. subst d'. apply R1 in Kr as (Ps & _ & Cs).
    rewrite (loop_above (placeholder_channel o) m driver c s d Pc L C Cs) in Ps. discriminate.
Qed.

(** *** C30 *)
Definition plinked (root : comp) (s d : nat) : Prop :=
  exists i a p children conns pconns, inside (Composite i a p children conns pconns) root /\ In (s, d) pconns.
Definition pendpoint (root : comp) (p : nat) : Prop :=
  exists x, inside x root /\ In p (comp_params x) /\ (is_composite x = false \/ x = root).
Definition pinner (root : comp) (p : nat) : Prop :=
  exists x, inside x root /\ In p (comp_params x) /\ is_composite x = true /\ x <> root.
Inductive pwired (root : comp) : nat -> nat -> Prop :=
| pwired_one s d : plinked root s d -> pwired root s d
| pwired_through s p d : plinked root s p -> pinner root p -> pwired root p d -> pwired root s d.

Section PDescribes.
  Variables (o : objects) (root : comp).
  Hypothesis D : describes o root.
  Notation ph := (placeholder_param o).
  Lemma pinner_ph x c : inside x root -> In c (comp_params x) -> (ph c = true <-> pinner root c).
  Proof using D.
    intros Hx Hp. destruct D as (_ & D1 & D2 & D3). unfold placeholder_param, placeholder.
    rewrite (D1 x _ Hx Hp), (D2 x Hx), andb_true_iff, negb_true_iff. split.
    - intros [A B]. exists x. repeat (split; [assumption|]). intros E. apply (D3 x Hx) in E. congruence.
    - intros (y & Hy & Py & Cy & Ny). pose proof (D1 x _ Hx Hp) as E1. rewrite (D1 y _ Hy Py) in E1.
      pose proof (D2 x Hx) as E2. rewrite <- E1, (D2 y Hy) in E2. split; [congruence|].
      destruct (toplevel o (comp_id x)) eqn:E3; [|reflexivity]. rewrite <- E1 in E3. now apply (D3 y Hy) in E3.
  Qed.
  Lemma pendpoint_ph x c : inside x root -> In c (comp_params x) -> (ph c = false <-> pendpoint root c).
  Proof using D.
    intros Hx Hp. destruct D as (_ & D1 & D2 & D3). unfold placeholder_param, placeholder.
    rewrite (D1 x _ Hx Hp), (D2 x Hx), andb_false_iff, negb_false_iff. split.
    - intros [A|B]; exists x; repeat (split; [assumption|]); [now left|right; now apply D3].
    - intros (y & Hy & Py & Cy). pose proof (D1 x _ Hx Hp) as E1. rewrite (D1 y _ Hy Py) in E1.
      pose proof (D2 x Hx) as E2. rewrite <- E1, (D2 y Hy) in E2.
      destruct Cy as [Cy|Cy]; [left; congruence|]. right. rewrite <- E1. now apply D3.
  Qed.
  Lemma plink_ports s d : check_params o root = true -> In (s, d) (all_plinks root) ->
    (exists x, inside x root /\ In s (comp_params x)) /\ (exists x, inside x root /\ In d (comp_params x)).
  Proof.
    intros HC H. apply all_plinks_inside in H as (i & a & p & children & conns & pconns & Hi & H).
    pose proof (proj1 (check_params_inside o root) HC _ _ _ _ _ _ Hi) as CL.
    apply check_params_local_ok in CL as (HF & _ & _). rewrite Forall_forall in HF. destruct (HF _ H) as (HS & HR & _).
    cbn [fst snd] in HS, HR. apply send_params_in in HS. apply receive_params_in in HR.
    assert (Ch : forall x, In x children -> inside x root).
    { intros x Hx. eapply inside_trans; [|exact Hi]. apply inside_composite. right. exists x. split; [exact Hx|constructor]. }
    split; [destruct HS as [(x & Hx & Hp & _)|[Hp _]]|destruct HR as [(x & Hx & Hp & _)|[Hp _]]];
      try (exists x; split; [now apply Ch|exact Hp]); eexists; (split; [exact Hi|exact Hp]).
  Qed.
  Lemma plinked_in s d : plinked root s d <-> In (s, d) (all_plinks root).
  Proof. rewrite all_plinks_inside. reflexivity. Qed.
  Lemma pwired_chain s d : check_params o root = true -> (pwired root s d <-> chain ph (all_plinks root) s d).
  Proof using D.
    intros HC. split.
    - induction 1 as [s d H|s p d H Hp _ IH].
      + apply chain_one. now apply plinked_in.
      + apply plinked_in in H. apply chain_step with p; [exact H| |exact IH].
        destruct (plink_ports _ _ HC H) as [_ (x & Hx & Px)]. now apply (pinner_ph x).
    - induction 1 as [s d H|s p d H Hp _ IH].
      + apply pwired_one. now apply plinked_in.
      + apply pwired_through with p; [now apply plinked_in| |exact IH].
        destruct (plink_ports _ _ HC H) as [_ (x & Hx & Px)]. now apply (pinner_ph x).
  Qed.
  Lemma pchain_ends s d : chain ph (all_plinks root) s d -> (exists e, In (s, e) (all_plinks root)) /\ (exists e, In (e, d) (all_plinks root)).
  Proof.
    induction 1 as [s d H|s p d H Hp _ [_ IH]]; [split; eexists; exact H|]. split; [eexists; exact H|exact IH].
  Qed.
End PDescribes.

(** resolution terminates for every connection map *)
Theorem C30_terminates : forall o m, presolve o m <> UB.
Proof. exact presolve_terminates. Qed.

(** For flows that pass the parameter check and in which no inner port has two senders,
    the resolved connections are exactly the pairs of endpoints joined by a chain through
    inner ports, and resolution fails only if an endpoint depends on a loop through inner
    ports (in particular the iteration limit never rejects an acyclic chain). *)
Theorem C30_hierarchy_transparent_partial : forall o root,
  describes o root -> check_params o root = true ->
  (forall s s' d, pinner root d -> plinked root s d -> plinked root s' d -> s = s') ->
  exists m, pfill_recursive o root [] = (true, m)
  /\ match presolve o m with
     | Ok r =>
         (forall s d, In (d, s) r <-> pendpoint root s /\ pendpoint root d /\ pwired root s d)
         /\ (forall s d, plinked root s d -> pendpoint root d -> In d (map fst r))
     | Throw _ => exists c d, pinner root c /\ pwired root c c /\ pwired root c d /\ pendpoint root d
     | UB => False
     end.
Proof.
  intros o root D HC single. destruct (check_pfills o root HC) as (m & Em & P). exists m. split; [exact Em|].
  assert (PL : Permutation (plinks m) (all_plinks root)).
  { unfold plinks. rewrite P. unfold rev_pairs. rewrite map_map. cbn [fst snd].
    rewrite (map_ext _ id); [now rewrite map_id|]. now intros []. }
  assert (driver : forall s s' d, placeholder_param o d = true -> In (s, d) (plinks m) -> In (s', d) (plinks m) -> s = s').
  { intros s s' d Pd H H'. rewrite PL in H, H'. destruct (plink_ports o root s d HC H) as [_ (x & Hx & Px)].
    apply (single s s' d); [now apply (pinner_ph o root D x)|now apply plinked_in..]. }
  assert (W : forall s d, pwired root s d <-> chain (placeholder_param o) (plinks m) s d).
  { intros s d. rewrite (pwired_chain o root D s d HC). symmetry. now apply chain_perm. }
  assert (Ends : forall s d, chain (placeholder_param o) (plinks m) s d ->
            (placeholder_param o s = false <-> pendpoint root s) /\ (placeholder_param o d = false <-> pendpoint root d)
            /\ (placeholder_param o s = true <-> pinner root s)).
  { intros s d H. apply (chain_perm _ _ _ _ _ PL) in H. destruct (pchain_ends _ _ _ _ H) as [(e & He) (e' & He')].
    destruct (plink_ports _ _ _ _ HC He) as [(x & Hx & Px) _]. destruct (plink_ports _ _ _ _ HC He') as [_ (y & Hy & Py)].
    split; [|split]; [now apply (pendpoint_ph o root D x)|now apply (pendpoint_ph o root D y)|now apply (pinner_ph o root D x)]. }
  pose proof (presolve_spec o m driver) as R. destruct (presolve o m) as [r|e|]; [| |exact R].
  - destruct R as [R1 R2]. split.
    + intros s d. rewrite R1, W. split.
      * intros (A & B & C). destruct (Ends _ _ C) as (E1 & E2 & _). split; [now apply E1|]. split; [now apply E2|exact C].
      * intros (A & B & C). destruct (Ends _ _ C) as (E1 & E2 & _). split; [now apply E1|]. split; [now apply E2|exact C].
    + intros s d H Ed. apply plinked_in in H. rewrite R2. apply filter_In. split.
      * apply in_map_iff. exists (d, s). split; [reflexivity|]. apply (plinks_in m). now rewrite PL.
      * destruct (plink_ports o root s d HC H) as [_ (x & Hx & Px)].
        assert (placeholder_param o d = false) as -> by now apply (pendpoint_ph o root D x). reflexivity.
  - destruct R as (d & q & Hq & Pd & Pq & Dead). apply (plinks_in m) in Hq.
    destruct (walk_outcome (placeholder_param o) (plinks m) (S (length (plinks m))) [] q Pq) as [(s & Ps & Hs)|[(c & Pc & Hc & L)|(c & Pc & Hc & L)]].
    + constructor.
    + intros y [].
    + intros y [].
    + cbn. lia.
    + exfalso. assert (placeholder_param o s = true) by (apply Dead; right; auto). congruence.
    + assert (C : chain (placeholder_param o) (plinks m) c d) by now apply feeds_chain with q.
      destruct (Ends _ _ C) as (_ & E2 & E3). exists c, d. rewrite !W. split; [now apply E3|]. split; [exact L|]. split; [exact C|now apply E2].
    + exfalso. assert (exists e, In (c, e) (all_plinks root)) as (z & Hz).
      { destruct Hc as [->|[_ Hc]]; [exists d; now rewrite <- PL|]. apply (chain_perm _ _ _ _ _ PL) in Hc.
        now apply pchain_ends in Hc as [Hz _]. }
      destruct (param_driven o root c z D HC Hz Pc) as [y Hy]. apply (L y). now rewrite PL.
Qed.

(** *** Concrete flows *)
(** audio and parameter ports 0-7, audio ports of width 2 *)
Definition owner_of (p : nat) : nat :=
  match p with 0 | 1 => 0 | 2 | 3 => 1 | 4 | 5 => 2 | _ => 3 end.
(** even ports are inputs *)
Definition ex_objects : objects :=
  Objects (fun p => if Nat.even p then Input else Output) (fun _ => 2) (fun _ => 0) owner_of
          (fun p => if Nat.even p then Input else Output) (fun _ => 0) (fun _ => 0) owner_of (fun _ => 0) (fun _ _ => Some true)
          (fun c => c <=? 1) (fun c => c =? 0).
(** flow 0 with input 0 and output 1, containing composite 1 (ports 2, 3) with atom 2
    (ports 4, 5), and atom 3 (ports 6, 7); channels are swapped on the way *)
Definition ex_inner : comp :=
  Composite 1 [2; 3] [2; 3] [Atomic 2 [4; 5] [4; 5]]
            [AConn 2 4 [0; 1] [1; 0]; AConn 5 3 [0; 1] [0; 1]] [(2, 4); (5, 3)].
Definition ex_flow : comp :=
  Composite 0 [0; 1] [0; 1] [ex_inner; Atomic 3 [6; 7] [6; 7]]
            [AConn 0 2 [0; 1] [0; 1]; AConn 3 6 [1; 0] [0; 1]; AConn 7 1 [0; 1] [0; 1]] [(0, 2); (3, 6); (7, 1)].

Ltac members := repeat match goal with
  | H : _ = _ \/ _ |- _ => destruct H as [<-|H]
  | H : False |- _ => destruct H
  end.
Lemma ex_describes : describes ex_objects ex_flow.
Proof.
  assert (E : forall x, inside x ex_flow -> In x (subcomps ex_flow)) by (intros x; apply inside_subcomps).
  cbn in E. split; [|split; [|split]].
  - intros x p Hx Hp. apply E in Hx. members; cbn in Hp; members; reflexivity.
  - intros x p Hx Hp. apply E in Hx. members; cbn in Hp; members; reflexivity.
  - intros x Hx. apply E in Hx. members; reflexivity.
  - intros x Hx. apply E in Hx. members; cbn; split; intros H; try reflexivity; discriminate.
Qed.
Example C31_example_accepted : check_audio ex_objects ex_flow = true /\ check_params ex_objects ex_flow = true.
Proof. split; reflexivity. Qed.
(** a receive channel driven twice, an unused send channel and an unknown port are rejected *)
Example C31_example_rejected :
  check_audio ex_objects (Composite 0 [0; 1] [] [] [AConn 0 1 [0; 1; 0] [0; 1; 1]] []) = false
  /\ check_audio ex_objects (Composite 0 [0; 1] [] [] [AConn 0 1 [0; 0] [0; 1]] []) = false
  /\ check_audio ex_objects (Composite 0 [0; 1] [] [] [AConn 0 1 [0; 1] [0; 1]; AConn 5 1 [] []] []) = false.
Proof. repeat split; reflexivity. Qed.
Example C29_example : NoDup (all_audio ex_flow)
  /\ exists m, amap_new ex_objects ex_flow = Ok m
     /\ resolvePlaceholders ex_objects m
        = Ok [((0, 0), (4, 1)); ((0, 1), (4, 0)); ((5, 0), (6, 1)); ((5, 1), (6, 0)); ((7, 0), (1, 0)); ((7, 1), (1, 1))].
Proof.
  split; [repeat constructor; cbn; intuition discriminate|]. eexists. split; [reflexivity|]. reflexivity.
Qed.
Example C30_example : exists m, pfill_recursive ex_objects ex_flow [] = (true, m)
  /\ presolve ex_objects m = Ok [(1, 7); (4, 0); (6, 5)].
Proof. eexists. split; reflexivity. Qed.

(** *** Refutations *)
(** The check does not compare sample types: line 173 compares the type of the receive
    port with itself. *)
Theorem C31_sample_types_refuted : exists o root,
  NoDup (all_audio root) /\ describes o root /\ check_audio o root = true
  /\ exists s d, linked root s d /\ a_type o (fst s) <> a_type o (fst d).
Proof.
  set (o := Objects (fun p => if Nat.even p then Input else Output) (fun _ => 1) (fun p => p) (fun _ => 0)
          (fun p => if Nat.even p then Input else Output) (fun _ => 0) (fun _ => 0) (fun _ => 0) (fun _ => 0) (fun _ _ => Some true)
          (fun c => c =? 0) (fun c => c =? 0)).
  set (root := Composite 0 [0; 1] [] [] [AConn 0 1 [0] [0]] []).
  exists o, root. split; [repeat constructor; cbn; intuition discriminate|].
  assert (E : forall x, inside x root -> x = root).
  { intros x Hx. apply inside_subcomps in Hx. cbn in Hx. now destruct Hx as [<-|[]]. }
  split; [|split; [reflexivity|]].
  - split; [|split; [|split]]; try (intros x p Hx Hp; apply E in Hx; subst x; reflexivity).
    + intros x Hx. apply E in Hx. subst x. reflexivity.
    + intros x Hx. apply E in Hx. subst x. cbn. split; reflexivity.
  - exists (0, 0), (1, 0). split; [|discriminate].
    exists 0, [0; 1], [], [], [AConn 0 1 [0] [0]], [], (AConn 0 1 [0] [0]), 0. repeat split; [constructor|now left].
Qed.

(** A loop through composite ports on which no endpoint depends is accepted: composite 1
    connects its input 2 to its output 3, the flow connects 3 back to 2. *)
Definition loop_objects : objects :=
  Objects (fun p => if Nat.even p then Input else Output) (fun _ => 1) (fun _ => 0) (fun p => if p <? 2 then 0 else 1)
          (fun p => if Nat.even p then Input else Output) (fun _ => 0) (fun _ => 0) (fun p => if p <? 2 then 0 else 1) (fun _ => 0) (fun _ _ => Some true)
          (fun c => c <=? 1) (fun c => c =? 0).
Definition loop_flow : comp :=
  Composite 0 [0; 1] [0; 1] [Composite 1 [2; 3] [2; 3] [] [AConn 2 3 [0] [0]] [(2, 3)]]
            [AConn 0 1 [0] [0]; AConn 3 2 [0] [0]] [(0, 1); (3, 2)].
Lemma loop_describes : describes loop_objects loop_flow.
Proof.
  assert (E : forall x, inside x loop_flow -> In x (subcomps loop_flow)) by (intros x; apply inside_subcomps).
  cbn in E. split; [|split; [|split]].
  - intros x p Hx Hp. apply E in Hx. members; cbn in Hp; members; reflexivity.
  - intros x p Hx Hp. apply E in Hx. members; cbn in Hp; members; reflexivity.
  - intros x Hx. apply E in Hx. members; reflexivity.
  - intros x Hx. apply E in Hx. members; cbn; split; intros H; try reflexivity; discriminate.
Qed.
Theorem C29_isolated_loop_refuted : exists o root m r c,
  NoDup (all_audio root) /\ describes o root /\ check_audio o root = true
  /\ amap_new o root = Ok m /\ resolvePlaceholders o m = Ok r
  /\ inner root (fst c) /\ wired root c c.
Proof.
  exists loop_objects, loop_flow. eexists. eexists. exists (2, 0).
  split; [repeat constructor; cbn; intuition discriminate|]. split; [exact loop_describes|].
  split; [reflexivity|]. split; [reflexivity|]. split; [reflexivity|]. split.
  - exists (Composite 1 [2; 3] [2; 3] [] [AConn 2 3 [0] [0]] [(2, 3)]). split; [apply inside_subcomps; cbn; auto 10|].
    split; [now left|]. split; [reflexivity|discriminate].
  - apply (wired_chain loop_objects loop_flow loop_describes); [reflexivity|].
    apply chain_step with (3, 0); [cbn; auto|reflexivity|]. apply chain_one. cbn. auto.
Qed.
Theorem C30_isolated_loop_refuted : exists o root m r c,
  describes o root /\ check_params o root = true
  /\ pfill_recursive o root [] = (true, m) /\ presolve o m = Ok r
  /\ pinner root c /\ pwired root c c.
Proof.
  exists loop_objects, loop_flow. eexists. eexists. exists 2.
  split; [exact loop_describes|]. split; [reflexivity|]. split; [reflexivity|]. split; [reflexivity|]. split.
  - exists (Composite 1 [2; 3] [2; 3] [] [AConn 2 3 [0] [0]] [(2, 3)]). split; [apply inside_subcomps; cbn; auto 10|].
    split; [now left|]. split; [reflexivity|discriminate].
  - apply (pwired_chain loop_objects loop_flow loop_describes); [reflexivity|].
    apply chain_step with 3; [cbn; auto|reflexivity|]. apply chain_one. cbn. auto.
Qed.

(** An inner parameter port with two senders: only the first is followed, the connection
    of the other one is lost without an error. *)
Definition two_objects : objects :=
  Objects (fun p => Input) (fun _ => 0) (fun _ => 0) (fun p => 0)
          (fun p => if Nat.even p then Input else Output) (fun _ => 0) (fun _ => 0)
          (fun p => match p with 1 => 2 | 3 => 3 | 4 => 1 | 6 => 4 | _ => 0 end) (fun _ => 0) (fun _ _ => Some true)
          (fun c => c <=? 1) (fun c => c =? 0).
Definition two_flow : comp :=
  Composite 0 [] [] [Composite 1 [] [4] [Atomic 4 [] [6]] [] [(4, 6)]; Atomic 2 [] [1]; Atomic 3 [] [3]] [] [(1, 4); (3, 4)].
Lemma two_describes : describes two_objects two_flow.
Proof.
  assert (E : forall x, inside x two_flow -> In x (subcomps two_flow)) by (intros x; apply inside_subcomps).
  cbn in E. split; [|split; [|split]].
  - intros x p Hx Hp. apply E in Hx. members; cbn in Hp; members; reflexivity.
  - intros x p Hx Hp. apply E in Hx. members; cbn in Hp; members; reflexivity.
  - intros x Hx. apply E in Hx. members; reflexivity.
  - intros x Hx. apply E in Hx. members; cbn; split; intros H; try reflexivity; discriminate.
Qed.
Theorem C30_several_senders_refuted : exists o root m r s d,
  describes o root /\ check_params o root = true
  /\ pfill_recursive o root [] = (true, m) /\ presolve o m = Ok r
  /\ pendpoint root s /\ pendpoint root d /\ pwired root s d /\ ~ In (d, s) r.
Proof.
  exists two_objects, two_flow. eexists. eexists. exists 3, 6.
  split; [exact two_describes|]. split; [reflexivity|]. split; [reflexivity|]. split; [reflexivity|].
  split; [|split; [|split]].
  - exists (Atomic 3 [] [3]). split; [apply inside_subcomps; cbn; auto 10|]. split; [now left|now left].
  - exists (Atomic 4 [] [6]). split; [apply inside_subcomps; cbn; auto 10|]. split; [now left|now left].
  - apply (pwired_chain two_objects two_flow two_describes); [reflexivity|].
    apply chain_step with 4; [cbn; auto|reflexivity|]. apply chain_one. cbn. auto.
  - cbn. intuition discriminate.
Qed.
(** hypotheses of C30_hierarchy_transparent_partial hold of the example flow *)
Example C30_example_single : forall s s' d, pinner ex_flow d -> plinked ex_flow s d -> plinked ex_flow s' d -> s = s'.
Proof.
  intros s s' d _ H H'. apply plinked_in in H. apply plinked_in in H'. cbn in H, H'.
  intuition congruence.
Qed.

Print Assumptions C31_audio_check_iff_partial.
Print Assumptions C31_parameter_check_iff.
Print Assumptions C31_sample_types_refuted.
Print Assumptions C29_hierarchy_transparent.
Print Assumptions C29_isolated_loop_refuted.
Print Assumptions C30_terminates.
Print Assumptions C30_hierarchy_transparent_partial.
Print Assumptions C30_isolated_loop_refuted.
Print Assumptions C30_several_senders_refuted.
