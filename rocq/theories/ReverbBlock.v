(** Proofs about complete blocks of ReverbModel.v. *)
From Verif Require Import Base.
From Coq Require Import QArith Qcanon.
From Verif Require Import OrdSet SignalRoutingModel SignalRoutingProofs AllocatorModel AllocatorProofs ReverbModel ReverbProofs.
Local Open Scope nat_scope.

  Lemma slot_unique' k k' n ch ch' : k < n -> k' < n -> ch * n + k = ch' * n + k' -> ch = ch' /\ k = k'.
  Proof. intros H1 H2 E. apply (Nat.div_mod_unique n); lia. Qed.
  Lemma combine_fun {X} n (l : list X) k v v' : In (k, v) (combine (seq 0 n) l) -> In (k, v') (combine (seq 0 n) l) -> v = v'.
  Proof.
    assert (G : forall (l : list X) m n k v v', In (k, v) (combine (seq m n) l) -> In (k, v') (combine (seq m n) l) -> v = v').
    { clear. induction l as [|x l IH]; intros m [|n] k v v'; cbn [seq combine In]; try easy.
      intros [[= -> ->]|H1] [[= E2]|H2].
      - congruence.
      - apply in_combine_l in H2. apply in_seq in H2. lia.
      - subst k. apply in_combine_l in H1. apply in_seq in H1. lia.
      - eauto. }
    apply G.
  Qed.
  Lemma list_eq_nth {X} (l l' : list X) n : length l = n -> length l' = n -> (forall k, k < n -> nth_error l k = nth_error l' k) -> l = l'.
  Proof.
    revert l' n. induction l as [|x l IH]; intros [|y l'] n E E' H; cbn in *; try lia; [reflexivity|].
    f_equal.
    - specialize (H 0). cbn in H. assert (Some x = Some y) by (apply H; lia). congruence.
    - apply (IH l' (length l)); [reflexivity|lia|]. intros k Hk. apply (H (S k)). lia.
  Qed.
  Lemma last_sent_none l ch : last_sent l ch = None <-> forall x, ~ In (ch, x) l.
  Proof.
    induction l as [|[k x] l IH]; cbn [last_sent In]; [split; [now intros _ y|reflexivity]|].
    destruct (last_sent l ch) as [z|] eqn:E.
    - split; [discriminate|]. intros H. exfalso. assert (X : Some z = None) by (apply IH; intros y Hy; now apply (H y); right). discriminate.
    - destruct (Nat.eqb_spec k ch) as [->|N].
      + split; [discriminate|]. intros H. exfalso. apply (H x). now left.
      + split; [|reflexivity]. intros _ y [[= E1 _]|Hy]; [congruence|]. now apply (proj1 IH eq_refl y).
  Qed.
  Lemma last_sent_unique l ch x : NoDup (map fst l) -> In (ch, x) l -> last_sent l ch = Some x.
  Proof.
    induction l as [|[k y] l IH]; cbn [last_sent In map fst]; [easy|]. intros ND H. inversion ND as [|? ? N1 N2]; subst.
    destruct H as [[= -> ->]|H].
    - replace (last_sent l ch) with (@None late); [now rewrite Nat.eqb_refl|]. symmetry. apply last_sent_none.
      intros z Hz. apply N1. apply in_map_iff. now exists (ch, z).
    - now rewrite (IH N2 H).
  Qed.

Section Block.
  Context {B P : Type} (flat : B) (vbap : P -> list Qc) (invalid : nat) (c : config).
  Notation scene := (@scene B P).
  Notation source := (@source B P).
  Notation outs := (@outs B).
  Notation state := (@state B).
  Hypothesis gains : forall x, length (vbap x) = c_speakers c.
  Hypothesis wide : c_objects c * c_reflections c <= c_stride c.
  Notation performs := (performs invalid c).
  Notation written := (written invalid).
  Notation inv := (inv c).
  Notation process := (process flat vbap invalid c).
  Notation process_channel := (process_channel flat vbap invalid c).

  (** ** The objects of a scene *)
  Lemma found_in (sc : scene) id : In id (found sc) <-> exists input rs l, In (id, Reverb [input] rs l) sc.
  Proof using.
    unfold found. rewrite in_flat_map. split.
    - intros ([k o] & H1 & H2). cbn [snd fst] in H2. destruct o as [chs rs l|]; [|easy].
      destruct chs as [|input [|]]; cbn in H2; try easy. destruct H2 as [<-|[]]. eauto.
    - intros (input & rs & l & H). exists (id, Reverb [input] rs l). split; [exact H|]. now left.
  Qed.
  Lemma found_nodup (sc : scene) : NoDup (map fst sc) -> NoDup (found sc).
  Proof using.
    induction sc as [|[k o] sc IH]; cbn [map fst]; intros H; [constructor|].
    inversion H as [|? ? H1 H2]; subst. specialize (IH H2).
    assert (E : exists pre, found ((k, o) :: sc) = pre ++ found sc /\ (pre = [] \/ pre = [k])).
    { destruct o as [chs rs l|]; [|exists []; now split; [|left]].
      destruct chs as [|input [|]]; [exists []; now split; [|left]|exists [k]; now split; [|right]|exists []; now split; [|left]]. }
    destruct E as (pre & -> & [-> | ->]); [exact IH|]. cbn [app]. constructor; [|exact IH].
    intros F. apply H1. apply found_in in F as (input & rs & l & F). apply in_map_iff. now exists (k, Reverb [input] rs l).
  Qed.
  Lemma object_at_ok (sc : scene) id o : NoDup (map fst sc) -> In (id, o) sc -> object_at sc id = Ok o.
  Proof using.
    intros ND H. unfold object_at. induction sc as [|[k x] sc IH]; [easy|]. cbn [find fst].
    cbn [map fst] in ND. inversion ND as [|? ? N1 N2]; subst. destruct (Z.eqb_spec k id) as [->|N].
    - destruct H as [[= <-]|H]; [reflexivity|]. exfalso. apply N1. apply in_map_iff. now exists (id, o).
    - apply IH; [exact N2|]. destruct H as [[= <- _]|H]; [congruence|exact H].
  Qed.

  (** ** One channel *)
  Definition owner (a : alloc) (sc : scene) (ch : nat) : option (nat * list (@reflection B P) * late) :=
    let id := get_object a ch in
    if Z.eqb id invalid_id then None
    else match object_at sc id with
         | Ok (Reverb (input :: _) rs l) => Some (input, rs, l)
         | _ => None
         end.
  Definition played (x : option (nat * list (@reflection B P) * late)) : option (nat * list (@reflection B P)) :=
    option_map fst x.
  Definition wanted (x : option (nat * list (@reflection B P) * late)) : late :=
    match x with Some (_, l) => l | None => late_default end.
  Definition overfull (x : option (nat * list (@reflection B P) * late)) : Prop :=
    match x with Some (_, rs, _) => c_reflections c < length rs | None => False end.

  (** the allocation belongs to the scene *)
  Definition matches (a : alloc) (sc : scene) : Prop :=
    forall id, (exists ch, channel_of a id = Some ch) <-> In id (found sc).

  Lemma owner_cases a sc ch : a_inv a -> matches a sc -> valid_scene sc ->
    (owner a sc ch = None /\ get_object a ch = invalid_id)
    \/ exists id input rs l, owner a sc ch = Some (input, rs, l) /\ In (id, Reverb [input] rs l) sc
         /\ channel_of a id = Some ch /\ get_object a ch = id /\ id <> invalid_id
         /\ object_at sc id = Ok (Reverb [input] rs l).
  Proof.
    intros I M (V1 & V2 & V3). unfold owner. cbn zeta.
    destruct (Z.eqb_spec (get_object a ch) invalid_id) as [E|N]; [now left|].
    right.
    assert (C : channel_of a (get_object a ch) = Some ch).
    { destruct (find (fun kv => Nat.eqb (snd kv) ch) (a_lookup a)) as [[k v]|] eqn:F.
      - unfold get_object in *. rewrite F in *. cbn [fst] in *. apply find_some in F as [F1 F2].
        cbn in F2. apply Nat.eqb_eq in F2. subst v. now apply in_channel.
      - exfalso. apply N. unfold get_object. now rewrite F. }
    assert (F : In (get_object a ch) (found sc)) by (apply M; eauto).
    apply found_in in F as (input & rs & l & F).
    exists (get_object a ch), input, rs, l.
    pose proof (object_at_ok sc _ _ V1 F) as O. rewrite O. auto 10.
  Qed.

  Lemma channel_ok a sc ch : a_inv a -> matches a sc -> valid_scene sc -> ~ overfull (owner a sc ch) ->
    performs a (process_channel sc ch) (channel_writes flat vbap c ch (played (owner a sc ch))) [(ch, wanted (owner a sc ch))].
  Proof.
    intros I M V NO s A. unfold process_channel. cbn zeta. rewrite A.
    destruct (owner_cases a sc ch I M V) as [[E G]|(id & input & rs & l & E & HI & HC & HG & HN & HO)].
    - rewrite G, E. cbn [played wanted option_map]. rewrite Z.eqb_refl.
      now apply (performs_none flat vbap invalid c wide a ch).
    - rewrite HG, E. cbn [played wanted option_map fst]. destruct (Z.eqb_spec id invalid_id); [congruence|].
      rewrite HO. cbn [with_value]. destruct V as (_ & _ & V3). destruct (V3 _ _ _ _ HI) as [_ V].
      rewrite E in NO. cbn in NO.
      apply (performs_single flat vbap invalid c gains wide a ch input rs l); [exact V|lia|exact A].
  Qed.
  Lemma channel_full a sc ch s : a_inv a -> matches a sc -> valid_scene sc -> overfull (owner a sc ch) ->
    s_alloc s = a -> inv s -> ch < c_objects c ->
    exists s', process_channel sc ch s = (s', Throw InvalidArgument) /\ inv s' /\ s_alloc s' = a
      /\ s_front s' = s_front s /\ s_sent s' = s_sent s /\ s_panning s' = s_panning s.
  Proof.
    intros I M V OF A J Hc. unfold process_channel. cbn zeta. rewrite A.
    destruct (owner_cases a sc ch I M V) as [[E G]|(id & input & rs & l & E & HI & HC & HG & HN & HO)].
    - now rewrite E in OF.
    - rewrite HG. destruct (Z.eqb_spec id invalid_id); [congruence|].
      rewrite HO. cbn [with_value]. rewrite E in OF. cbn in OF.
      destruct (performs_add invalid c a input ch s A J) as (s' & E1 & I1 & A1 & F1 & S1 & W1).
      { intros y v [[= <- _]|[]]. exact Hc. } { easy. }
      exists s'. unfold andthen. rewrite E1. unfold process_single.
      destruct (Nat.ltb_spec (c_reflections c) (length rs)); [|lia]. cbn [raise].
      cbn [fold_left] in S1. injection S1 as S1 S2. repeat (split; [assumption || reflexivity|]).
      unfold set_routing in E1. now injection E1 as <-.
  Qed.

  (** ** All channels *)
  Definition block_writes (a : alloc) (sc : scene) (l : list nat) : list (cell * val) :=
    flat_map (fun ch => channel_writes flat vbap c ch (played (owner a sc ch))) l.
  Definition block_lates (a : alloc) (sc : scene) (l : list nat) : list (nat * late) :=
    flat_map (fun ch => [(ch, wanted (owner a sc ch))]) l.

  Lemma slot_dom i r y v : i < slots c -> (forall r', r = Some r' -> length (r_filters r') = sections) ->
    In (y, v) (slot_writes flat vbap c i r) -> dom c y.
  Proof.
    intros Hi Hf H. unfold slot_writes in H. rewrite !in_app_iff in H. destruct H as [H|[H|H]].
    - cbn [In] in H. destruct H as [[= <- _]|[[= <- _]|[]]]; exact Hi.
    - apply in_map_iff in H as ([j b] & [= <- _] & H). apply in_combine_l in H. apply in_seq in H.
      cbn. split; [exact Hi|lia].
    - apply in_map_iff in H as ([k q] & [= <- _] & H). apply in_combine_l in H. apply in_seq in H.
      cbn. unfold slots in Hi. nia.
  Qed.
  Lemma channel_dom a sc ch y v : ch < c_objects c -> In (y, v) (channel_writes flat vbap c ch (played (owner a sc ch))) -> dom c y.
  Proof.
    intros Hc H. unfold channel_writes in H. rewrite in_app_iff in H. destruct H as [H|H].
    - cbn [In] in H. destruct H as [[= <- _]|[[= <- _]|[[= <- _]|[]]]]; exact Hc.
    - apply in_flat_map in H as (k & Hk & H). apply in_seq in Hk.
      assert (Hi : ch * c_reflections c + k < slots c) by (unfold slots; nia).
      unfold slot_writes in H. rewrite !in_app_iff in H. destruct H as [H|[H|H]].
      + cbn [In] in H. destruct H as [[= <- _]|[[= <- _]|[]]]; exact Hi.
      + apply in_map_iff in H as ([j b] & [= <- _] & H). apply in_combine_l in H. apply in_seq in H.
        cbn. split; [exact Hi|lia].
      + apply in_map_iff in H as ([k' q] & [= <- _] & H). apply in_combine_l in H. apply in_seq in H.
        cbn. unfold slots in Hi. nia.
  Qed.
  Lemma block_dom a sc l y v : (forall ch, In ch l -> ch < c_objects c) -> In (y, v) (block_writes a sc l) -> dom c y.
  Proof. intros H Hy. apply in_flat_map in Hy as (ch & H1 & H2). eapply channel_dom; eauto. Qed.
  Lemma wanted_nine a sc ch : a_inv a -> matches a sc -> valid_scene sc -> nine (wanted (owner a sc ch)).
  Proof.
    intros I M V. destruct (owner_cases a sc ch I M V) as [[-> _]|(id & input & rs & l & -> & HI & _)]; [apply nine_default|].
    destruct V as (_ & _ & V). now apply (V _ _ _ _ HI).
  Qed.
  Lemma block_late_dom a sc l : a_inv a -> matches a sc -> valid_scene sc -> (forall ch, In ch l -> ch < c_objects c) ->
    forall ch x, In (ch, x) (block_lates a sc l) -> ch < c_objects c /\ nine x.
  Proof.
    intros I M V H ch x Hx. apply in_flat_map in Hx as (k & H1 & [[= <- <-]|[]]). split; [now apply H|].
    now apply wanted_nine.
  Qed.

  (** Everything said about one call of process() with a scene that has a place for each object *)
  Lemma overfull_dec x : overfull x \/ ~ overfull x.
  Proof. destruct x as [[[i rs] l]|]; cbn; [lia|tauto]. Qed.

  Lemma channels_ok a sc l s : a_inv a -> matches a sc -> valid_scene sc -> (forall ch, In ch l -> ch < c_objects c) ->
    s_alloc s = a -> inv s ->
    exists s', inv s' /\ s_alloc s' = a /\ s_front s' = s_front s /\
      ((exists ch, In ch l /\ overfull (owner a sc ch)) /\ each (process_channel sc) l s = (s', Throw InvalidArgument)
       \/ (forall ch, In ch l -> ~ overfull (owner a sc ch)) /\ each (process_channel sc) l s = (s', Ok tt)
          /\ (s_previous s', s_sent s') = fold_left send_step (block_lates a sc l) (s_previous s, s_sent s)
          /\ written (block_writes a sc l) (s_back s) (s_back s') (s_panning s) (s_panning s')).
  Proof.
    intros I M V. revert s. induction l as [|ch l IH]; intros s H A J.
    - exists s. repeat (split; [assumption || reflexivity|]). right. split; [easy|]. split; [reflexivity|]. split; [reflexivity|].
      intros y. right. split; [intros v []|reflexivity].
    - assert (Hc : ch < c_objects c) by (apply H; now left).
      destruct (overfull_dec (owner a sc ch)) as [OF|NO].
      + destruct (channel_full a sc ch s I M V OF A J Hc) as (s' & E & I' & A' & F' & _).
        exists s'. repeat (split; [assumption|]). left. split; [exists ch; split; [now left|exact OF]|].
        cbn [each]. unfold andthen. now rewrite E.
      + destruct (channel_ok a sc ch I M V NO s A J) as (s1 & E1 & I1 & A1 & F1 & S1 & W1).
        { intros y v. now apply channel_dom. }
        { intros k x [[= <- <-]|[]]. split; [exact Hc|]. now apply wanted_nine. }
        destruct (IH s1) as (s2 & I2 & A2 & F2 & C2); [intros k Hk; apply H; now right|exact A1|exact I1|].
        exists s2. split; [exact I2|]. split; [exact A2|]. split; [congruence|].
        destruct C2 as [((k & Hk & OF) & E2)|(NO2 & E2 & S2 & W2)].
        * left. split; [exists k; split; [now right|exact OF]|]. cbn [each]. unfold andthen. now rewrite E1.
        * right. split; [intros k [<-|Hk]; [exact NO|now apply NO2]|].
          split; [cbn [each]; unfold andthen; now rewrite E1|].
          split; [rewrite S2, S1; reflexivity|].
          intros y. unfold block_writes. cbn [flat_map]. destruct (W2 y) as [(v & Iv & Ev)|[Nv Ev]].
          -- left. exists v. split; [apply in_or_app; now right|exact Ev].
          -- destruct (W1 y) as [(v & Iv & Ev')|[Nv' Ev']].
             ++ left. exists v. split; [apply in_or_app; now left|congruence].
             ++ right. split; [|congruence]. intros v Hv. apply in_app_or in Hv as [Hv|Hv]; [now apply (Nv' v)|now apply (Nv v)].
  Qed.

  (** ** The complete invariant *)
  Definition good (s : state) : Prop := inv s /\ a_inv (s_alloc s) /\ a_max (s_alloc s) = c_objects c.

  Lemma process_cases s sc : good s -> valid_scene sc ->
    (c_objects c < length (found sc) /\ process s sc = (s, Throw RuntimeError))
    \/ length (found sc) <= c_objects c /\ exists s' a,
        good s' /\ s_alloc s' = a /\ matches a sc
        /\ (forall i ch, In i (found sc) -> channel_of (s_alloc s) i = Some ch -> channel_of a i = Some ch)
        /\ ((exists ch, ch < c_objects c /\ overfull (owner a sc ch)) /\ process s sc = (s', Throw InvalidArgument)
              /\ s_front s' = s_front s
            \/ (forall ch, ch < c_objects c -> ~ overfull (owner a sc ch)) /\ process s sc = (s', Ok tt)
              /\ s_back s' = s_front s
              /\ (s_previous s', s_sent s') = fold_left send_step (block_lates a sc (seq 0 (c_objects c))) (s_previous s, s_sent s)
              /\ written (block_writes a sc (seq 0 (c_objects c))) (s_back s) (s_front s') (s_panning s) (s_panning s')).
  Proof.
    intros (J & I & MX) V. unfold process. cbn zeta.
    destruct (Nat.ltb_spec (c_objects c) (length (found sc))) as [L|L]; [now left|]. right. split; [exact L|].
    pose proof V as (V1 & _). pose proof (found_nodup sc V1) as ND.
    destruct (set_objects_ok (s_alloc s) (found sc) I ND) as (a & E & I' & M' & A & K); [lia|].
    rewrite E.
    assert (M : matches a sc).
    { intros id. rewrite <- active_channel. apply A. }
    destruct (channels_ok a sc (seq 0 (c_objects c)) (with_alloc s a) I' M V) as (s' & J' & A' & F' & C').
    { intros ch Hc. apply in_seq in Hc. lia. } { reflexivity. } { exact J. }
    assert (KK : forall i ch, In i (found sc) -> channel_of (s_alloc s) i = Some ch -> channel_of a i = Some ch).
    { intros i ch Hi Hc. rewrite K; auto. apply active_channel. eauto. }
    destruct C' as [((k & Hk & OF) & E2)|(NO2 & E2 & S2 & W2)].
    - exists s', a. split; [split; [exact J'|split; [now rewrite A'|rewrite A'; congruence]]|].
      split; [exact A'|]. split; [exact M|]. split; [exact KK|]. left. split.
      + exists k. apply in_seq in Hk. split; [lia|exact OF].
      + split; [unfold andthen; now rewrite E2|exact F'].
    - exists (fst (swap_outputs s')), a. split.
      { destruct J' as [(Z1 & Z2 & Z3) G]. split; [split; [split; [exact Z2|split; [exact Z1|exact Z3]]|exact G]|].
        cbn. rewrite A'. split; [exact I'|congruence]. }
      split; [exact A'|]. split; [exact M|]. split; [exact KK|]. right. split.
      { intros ch Hc. apply NO2. apply in_seq. lia. }
      split; [unfold andthen; now rewrite E2|]. split; [exact F'|]. split; [exact S2|]. exact W2.
  Qed.
  Lemma process_good s sc : good s -> valid_scene sc -> good (fst (process s sc)).
  Proof.
    intros G V. destruct (process_cases s sc G V) as [[_ E]|(_ & s' & a & G' & _ & _ & _ & [(_ & E & _)|(_ & E & _)])];
      rewrite E; assumption.
  Qed.
  Lemma setup_good biquads s : setup flat c biquads = Ok s -> good s.
  Proof.
    unfold setup. destruct (negb (biquads =? sections)); [discriminate|]. intros E. apply Ok_inj in E. subst s.
    assert (Z : sized c (outs_new flat c)).
    { unfold sized, outs_new. cbn [o_routing o_gains o_delays o_eqs o_late_gains o_late_delays]. rewrite !repeat_length.
      split; [exists mempty; apply prel_empty|]. split; [constructor|]. repeat (split; [reflexivity|]). split; [|now split].
      apply Forall_forall. intros r Hr. apply repeat_spec in Hr. subst r. apply repeat_length. }
    split; [|split; [apply a_new_inv|reflexivity]].
    split; [split; [exact Z|split; [exact Z|cbn; apply repeat_length]]|].
    split; [cbn; apply repeat_length|]. cbn [s_previous s_sent last_sent]. intros ch l H.
    apply nth_error_In in H. apply repeat_spec in H. subst l. split; [apply nine_unsent|reflexivity].
  Qed.

  (** ** Reading the outputs *)
  Lemma slot_unique k k' i i' : i < c_stride c -> i' < c_stride c -> k * c_stride c + i = k' * c_stride c + i' -> k = k' /\ i = i'.
  Proof. intros H1 H2 E. apply (Nat.div_mod_unique (c_stride c)); lia. Qed.

  Lemma slot_fun i i' r r' y v v' : i < slots c -> i' < slots c -> (i = i' -> r = r') ->
    In (y, v) (slot_writes flat vbap c i r) -> In (y, v') (slot_writes flat vbap c i' r') -> v = v'.
  Proof.
    intros Hi Hi' R. unfold slot_writes. rewrite !in_app_iff. cbn [In].
    assert (S1 : i < c_stride c) by (unfold slots in Hi; nia). assert (S2 : i' < c_stride c) by (unfold slots in Hi'; nia).
    intros [[E|[E|[]]]|[E|E]] [[E'|[E'|[]]]|[E'|E']];
      try (apply in_map_iff in E as ([k1 x1] & E & M1)); try (apply in_map_iff in E' as ([k2 x2] & E' & M2));
      cbn [fst snd] in *; try congruence; inversion E; inversion E'; subst; try discriminate.
    - assert (r = r') by (apply R; congruence). subst. congruence.
    - assert (r = r') by (apply R; congruence). subst. congruence.
    - assert (i' = i /\ k2 = k1) as [-> ->] by (split; congruence). rewrite R in M1 by reflexivity.
      f_equal. now apply (combine_fun _ _ _ _ _ M1 M2).
    - assert (EE : k1 * c_stride c + i = k2 * c_stride c + i') by congruence.
      destruct (slot_unique _ _ _ _ S1 S2 EE) as [-> ->]. rewrite R in M1 by reflexivity.
      f_equal. now apply (combine_fun _ _ _ _ _ M1 M2).
  Qed.
  Lemma slot_cells i r y v : In (y, v) (slot_writes flat vbap c i r) -> match y with CRoute _ | CLateG _ | CLateD _ => False | _ => True end.
  Proof.
    unfold slot_writes. rewrite !in_app_iff. cbn [In]. intros [[E|[E|[]]]|[E|E]]; try (inversion E; exact I);
      apply in_map_iff in E as ([k1 x1] & E & M1); inversion E; exact I.
  Qed.
  Lemma block_fun a sc y v v' : In (y, v) (block_writes a sc (seq 0 (c_objects c))) ->
    In (y, v') (block_writes a sc (seq 0 (c_objects c))) -> v = v'.
  Proof.
    intros H H'. apply in_flat_map in H as (ch & Hc & H). apply in_flat_map in H' as (ch' & Hc' & H').
    apply in_seq in Hc, Hc'. unfold channel_writes in H, H'. rewrite in_app_iff in H, H'.
    destruct H as [H|H], H' as [H'|H'].
    - cbn [In] in H, H'. destruct H as [H|[H|[H|[]]]], H' as [H'|[H'|[H'|[]]]]; inversion H; inversion H'; subst; try discriminate;
        try reflexivity; assert (ch = ch') by congruence; subst; reflexivity.
    - apply in_flat_map in H' as (k & _ & H'). apply slot_cells in H'.
      cbn [In] in H. destruct H as [H|[H|[H|[]]]]; inversion H; subst; contradiction.
    - apply in_flat_map in H as (k & _ & H). apply slot_cells in H.
      cbn [In] in H'. destruct H' as [H'|[H'|[H'|[]]]]; inversion H'; subst; contradiction.
    - apply in_flat_map in H as (k & Hk & H). apply in_flat_map in H' as (k' & Hk' & H'). apply in_seq in Hk, Hk'.
      revert H H'. apply slot_fun; try (unfold slots; nia).
      intros E. apply slot_unique' in E as [-> ->]; [reflexivity|lia|lia].
  Qed.
  Lemma block_read a sc o p o' p' y v : written (block_writes a sc (seq 0 (c_objects c))) o o' p p' ->
    In (y, v) (block_writes a sc (seq 0 (c_objects c))) -> get invalid o' p' y = Some v.
  Proof.
    intros W H. destruct (W y) as [(v' & Hv & E)|[N _]].
    - rewrite E. f_equal. now apply (block_fun a sc y).
    - exfalso. now apply (N v).
  Qed.

  Lemma VNum_inj x q : option_map (@VNum B) x = Some (VNum q) -> x = Some q.
  Proof using. destruct x; cbn; congruence. Qed.

  Lemma block_renders a sc o p o' p' ch : a_inv a -> matches a sc -> valid_scene sc -> sized c o' ->
    written (block_writes a sc (seq 0 (c_objects c))) o o' p p' -> ch < c_objects c ->
    renders flat vbap c o' p' ch (played (owner a sc ch)).
  Proof.
    intros I M V Z W Hc.
    assert (R : forall y v, In (y, v) (channel_writes flat vbap c ch (played (owner a sc ch))) -> get invalid o' p' y = Some v).
    { intros y v H. apply (block_read a sc o p o' p' y v W). apply in_flat_map. exists ch. split; [apply in_seq; lia|exact H]. }
    destruct Z as ((m & RR) & RB & S1 & S2 & S3 & S4 & S5 & S6). split; [|split; [|split]].
    - intros input. pose proof (R _ _ (or_introl eq_refl)) as E. cbn [get] in E. rewrite (route_prel invalid _ _ _ RR) in E.
      rewrite (prel_in _ _ input ch RR). inversion E. reflexivity.
    - apply VNum_inj. apply (R (CLateG ch)). unfold channel_writes. cbn [In app]. auto.
    - apply VNum_inj. apply (R (CLateD ch)). unfold channel_writes. cbn [In app]. auto.
    - intros k Hk. set (r := match played (owner a sc ch) with Some (_, rs) => nth_error rs k | None => None end).
      assert (R' : forall y v, In (y, v) (slot_writes flat vbap c (ch * c_reflections c + k) r) -> get invalid o' p' y = Some v).
      { intros y v H. apply R. unfold channel_writes. apply in_or_app. right. apply in_flat_map. exists k. split; [apply in_seq; lia|exact H]. }
      assert (RF : forall r', r = Some r' -> length (r_filters r') = 10).
      { intros r' E. unfold r, played in E.
        destruct (owner_cases a sc ch I M V) as [[E' _]|(id & input & rs & l & E' & HI & _)]; rewrite E' in E; cbn in E; [discriminate|].
        destruct V as (_ & _ & V). destruct (V _ _ _ _ HI) as [_ F]. rewrite Forall_forall in F. apply F. now apply nth_error_In in E. }
      clear R. revert RF R'. generalize r. clear r. intros r RF R.
      set (i := ch * c_reflections c + k) in *. split; [|split; [|split]].
      + apply VNum_inj. apply (R (CGain i)). now left.
      + apply VNum_inj. apply (R (CDelay i)). unfold slot_writes. cbn [In app]. auto.
      + assert (Hi : i < slots c) by (unfold i, slots; nia).
        destruct (nth_error (o_eqs o') i) as [row|] eqn:E; [|apply nth_error_None in E; lia]. f_equal.
        assert (Lr : length row = sections) by (rewrite Forall_forall in S4; apply S4; now apply nth_error_In in E).
        set (fs := match r with Some r => r_filters r | None => repeat flat 10 end).
        assert (Lf : length fs = sections) by (unfold fs; destruct r as [r|]; [now apply RF|apply repeat_length]).
        apply list_eq_nth with (n := sections); [exact Lr|exact Lf|]. intros j Hj.
        destruct (nth_error fs j) as [b|] eqn:Eb; [|apply nth_error_None in Eb; lia].
        assert (Q : get invalid o' p' (CEq i j) = Some (VBiq b)).
        { apply R. unfold slot_writes. rewrite !in_app_iff. right. left. apply in_map_iff. exists (j, b). split; [reflexivity|].
          fold fs. change (repeat flat sections) with (repeat flat 10). fold fs. rewrite <- Lf. apply (proj2 (in_combine_seq fs 0 j b)). split; [lia|]. now rewrite Nat.sub_0_r. }
        cbn [get] in Q. rewrite E in Q. destruct (nth_error row j); cbn in Q; congruence.
      + set (gs := match r with Some r => vbap (r_position r) | None => repeat (Q2Qc 0) (c_speakers c) end).
        assert (Lg : length gs = c_speakers c) by (unfold gs; destruct r as [r|]; [apply gains|apply repeat_length]).
        unfold column. apply list_eq_nth with (n := c_speakers c).
        { now rewrite map_length, seq_length. } { now rewrite map_length. }
        intros j Hj. rewrite !nth_error_map.
        destruct (nth_error gs j) as [q|] eqn:Eq; [|apply nth_error_None in Eq; lia].
        assert (Es : nth_error (seq 0 (c_speakers c)) j = Some j).
        { rewrite nth_error_nth' with (d := 0) by (rewrite seq_length; lia). now rewrite seq_nth. }
        rewrite Es. cbn [option_map]. f_equal. apply VNum_inj. apply (R (CPan (j * c_stride c + i))).
        unfold slot_writes. rewrite !in_app_iff. right. right. apply in_map_iff. exists (j, q). split; [reflexivity|].
        fold gs. rewrite <- Lg. apply (proj2 (in_combine_seq gs 0 j q)). split; [lia|]. now rewrite Nat.sub_0_r.
  Qed.

  (** ** Messages *)
  Lemma sends_spec a sc : forall l prev sent, NoDup l -> (forall ch, In ch l -> ch < length prev) ->
    exists new, snd (fold_left send_step (block_lates a sc l) (prev, sent)) = sent ++ new
      /\ (forall ch x, In (ch, x) new <->
            In ch l /\ x = wanted (owner a sc ch) /\ exists p, nth_error prev ch = Some p /\ late_equal p x = false)
      /\ NoDup (map fst new).
  Proof.
    induction l as [|ch l IH]; intros prev sent ND H; cbn [block_lates flat_map app fold_left send_step fst snd].
    - exists []. split; [now rewrite app_nil_r|]. split; [|constructor]. intros ch x. split; [intros []|now intros [[] _]].
    - inversion ND as [|? ? N1 N2]; subst.
      destruct (nth_error prev ch) as [p|] eqn:E.
      2:{ apply nth_error_None in E. specialize (H ch (or_introl eq_refl)). lia. }
      assert (Hc : ch < length prev) by (apply H; now left).
      destruct (late_equal p (wanted (owner a sc ch))) eqn:Q.
      + destruct (IH prev sent N2) as (new & E1 & E2 & E3); [intros k Hk; apply H; now right|].
        exists new. split; [exact E1|]. split; [|exact E3]. intros k x. rewrite E2. split.
        * intros (H1 & H2). split; [now right|exact H2].
        * intros ([<-|H1] & H2 & p' & Hp & Hq); [|eauto 6]. subst x. rewrite E in Hp. injection Hp as <-. congruence.
      + destruct (IH (poke prev ch (wanted (owner a sc ch))) (sent ++ [(ch, wanted (owner a sc ch))]) N2) as (new & E1 & E2 & E3).
        { intros k Hk. rewrite poke_length by exact Hc. apply H. now right. }
        exists ((ch, wanted (owner a sc ch)) :: new). split; [|split].
        * fold (block_lates a sc l). rewrite E1. now rewrite <- app_assoc.
        * intros k x. cbn [In]. rewrite E2. split.
          -- intros [[= <- <-]|(H1 & H2 & p' & Hp & Hq)]; [eauto 8|]. split; [now right|]. split; [exact H2|].
             rewrite poke_nth in Hp by exact Hc. destruct (Nat.eqb_spec k ch); [congruence|]. eauto.
          -- intros ([<-|H1] & H2 & p' & Hp & Hq); [left; congruence|]. right. split; [exact H1|]. split; [exact H2|].
             exists p'. split; [|exact Hq]. rewrite poke_nth by exact Hc. destruct (Nat.eqb_spec k ch); [congruence|exact Hp].
        * cbn [map fst]. constructor; [|exact E3]. intros F. apply in_map_iff in F as ([k x] & F1 & F2). cbn in F1. subst k.
          now apply E2 in F2 as [F2 _].
  Qed.
End Block.
