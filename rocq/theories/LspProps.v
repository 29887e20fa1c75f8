(** C63: a loudspeaker array holds what its description says. *)

From Coq Require Import Ascii String NArith Sorted Permutation.
From Verif Require Import Base LspModel LspSpec LspText LspProofs LspLoad.
Local Open Scope res_scope.

Section Array.
  Context {V B : Type} (K : kit V B).
  Notation config := (@config V B).
  Notation array := (@array V B).

  (** The equaliser of output [k] as the getters give it; none if there are no equalisers. *)
  Definition eq_row (a : array) (k : nat) : option (list B) :=
    match outputEqualisationBiquads a with Ok m => nth_error m k | _ => None end.
  Lemma eq_row_at a k : eq_row a k = row_at (a_eqs a) k.
  Proof. unfold eq_row, outputEqualisationBiquads, row_at. destruct (a_eqs a); reflexivity. Qed.
  Lemma get_at_ok {A} (l : list A) k x : nth_error l k = Some x <-> get_at l k = Ok x.
  Proof. unfold get_at. destruct (nth_error l k); split; congruence. Qed.
  Lemma vector_at_ok {A} (l : list A) k x : nth_error l k = Some x <-> vector_at l k = Ok x.
  Proof. unfold vector_at. destruct (nth_error l k); split; congruence. Qed.
  Lemma matrix_at_ok (m : matrix V) R C r c x : shape m R C -> r < R -> c < C -> cell m r c = Some x -> matrix_at m r c = Ok x.
  Proof.
    intros (S1 & S2 & _) Hr Hc E. unfold matrix_at. rewrite S1, S2, (proj2 (Nat.leb_gt _ _) Hr), (proj2 (Nat.leb_gt _ _) Hc). cbn [orb].
    apply get_at_ok. unfold cell in E. now rewrite S2 in E.
  Qed.

  Lemma load_facts (a0 : array) (cf : config) a : a_id a0 = [] -> load K a0 cf = Ok a -> facts K cf a.
  Proof.
    intros A0 E. pose proof (load_outcome K True a0 cf A0 (fun _ _ => I) (fun _ _ _ _ _ => I) (fun _ => I)) as O. rewrite E in O. exact O.
  Qed.

  (** ** The numbering is one to one *)

  Lemma rank_at (l : list N) c : In c l -> nth_error (sort l) (rank c l) = Some c.
  Proof. intros H. rewrite <- (find_rank c l H). apply find_index_nth. now apply sort_in. Qed.
  Lemma in_channels (cf : config) s c : In s (cf_speakers cf) -> sp_channel s = Some c -> In c (channels_of cf).
  Proof. intros Hs E. unfold channels_of. apply in_flat_map. exists s. split; [exact Hs|]. rewrite E. now left. Qed.
  Lemma channels_index (l : list (@speaker V)) i s c : nth_error l i = Some s -> sp_channel s = Some c ->
    (forall s', In s' l -> sp_channel s' <> None) ->
    nth_error (flat_map (fun s => match sp_channel s with Some c => [c] | None => [] end) l) i = Some c.
  Proof.
    revert i. induction l as [|s0 l IH]; intros [|i] E Ec H; cbn [nth_error flat_map] in *; try discriminate.
    - injection E as ->. rewrite Ec. reflexivity.
    - destruct (sp_channel s0) as [c0|] eqn:E0; [|exfalso; apply (H s0); [now left|exact E0]]. cbn [app nth_error].
      apply IH; [exact E|exact Ec|]. intros s' H'. apply H. now right.
  Qed.
  Lemma same_channel (cf : config) s s' c : (forall s0, In s0 (cf_speakers cf) -> sp_channel s0 <> None) -> NoDup (channels_of cf) ->
    In s (cf_speakers cf) -> In s' (cf_speakers cf) -> sp_channel s = Some c -> sp_channel s' = Some c -> s = s'.
  Proof.
    intros H ND Hs Hs' E E'. apply In_nth_error in Hs, Hs'. destruct Hs as (i & Hi), Hs' as (j & Hj).
    assert (i = j) by (apply (NoDup_index _ i j c ND); [exact (channels_index _ i s c Hi E H)|exact (channels_index _ j s' c Hj E' H)]).
    congruence.
  Qed.

  Section Loaded.
    Variables (cf : config) (a : array).
    Hypothesis F : facts K cf a.

    Lemma has_channel s : In s (cf_speakers cf) -> sp_channel s <> None.
    Proof. intros Hs. destruct (ft_channels _ _ _ F s Hs) as (c & E & _). congruence. Qed.
    Lemma nodup_channels : NoDup (channels_of cf).
    Proof. exact (proj1 (proj1 (NoDup_app_iff _ _) (ft_distinct _ _ _ F))). Qed.
    Lemma channel_count : length (a_channel a) = length (cf_speakers cf).
    Proof.
      rewrite (ft_channel _ _ _ F), sort_length. unfold channels_of. pose proof has_channel as H. induction (cf_speakers cf) as [|s l IH]; [reflexivity|]. cbn [flat_map length].
      destruct (sp_channel s) eqn:E; [|exfalso; apply (H s); [now left|exact E]]. cbn [app length]. f_equal. apply IH. intros s' H'. apply H. now right.
    Qed.
    Lemma rank_bound s c : In s (cf_speakers cf) -> sp_channel s = Some c -> rank c (channels_of cf) < length (cf_speakers cf).
    Proof.
      intros Hs E. rewrite <- channel_count, (ft_channel _ _ _ F). apply nth_error_Some. rewrite (rank_at _ _ (in_channels cf s c Hs E)). discriminate.
    Qed.
    Lemma regular_bound n k : regular cf n k -> k < length (cf_speakers cf).
    Proof. intros (s & c & Hs & _ & E & ->). now apply (rank_bound s). Qed.
    Lemma numbered_name n n' k : numbered cf n k -> numbered cf n' k -> n = n'.
    Proof.
      intros [H|(j & v & Hv & D & E)] [H'|(j' & v' & Hv' & D' & E')].
      - destruct H as (s & c & Hs & D & Ec & ->), H' as (s' & c' & Hs' & D' & Ec' & E).
        pose proof (rank_at _ _ (in_channels cf s c Hs Ec)) as X. rewrite E, (rank_at _ _ (in_channels cf s' c' Hs' Ec')) in X. injection X as ->.
        assert (s = s') by (apply (same_channel cf s s' c); try assumption; [exact has_channel|exact nodup_channels]). subst s'. exact (denotes_unique _ _ _ D D').
      - pose proof (regular_bound _ _ H). lia.
      - pose proof (regular_bound _ _ H'). lia.
      - assert (j = j') by lia. subst j'. assert (v = v') by congruence. subst v'. exact (denotes_unique _ _ _ D D').
    Qed.
    Lemma numbered_index n k k' : unpadded cf -> numbered cf n k -> numbered cf n k' -> k = k'.
    Proof. intros UP H H'. apply (ft_ids _ _ _ F UP) in H, H'. congruence. Qed.
    Lemma numbered_bound n k : numbered cf n k -> k < length (a_position a).
    Proof.
      rewrite (ft_position _ _ _ F). intros [H|(j & v & Hv & _ & ->)]; [apply regular_bound in H; lia|].
      assert (j < length (cf_virtuals cf)) by (apply nth_error_Some; congruence). lia.
    Qed.

    (** Cells of the matrices are the values of the last entries. *)
    Lemma mixed_cell (m : matrix V) R C j n k entries : unpadded cf -> shape m R C -> j < R -> k < C -> numbered cf n k ->
      ((exists x, last_at (a_id a) entries k x /\ cell m j k = Some x)
            \/ ((forall e, In e entries -> mget (a_id a) (fst e) <> Some k) /\ cell m j k = Some (k_zero K))) ->
      exists x, mixed K entries n x /\ matrix_at m j k = Ok x.
    Proof.
      intros UP HS Hj Hk Hn X. pose proof (ft_ids _ _ _ F UP) as Ids. destruct X as [(x & (pre & n' & post & -> & Em & Po) & E)|[No E]].
      - exists x. split; [|exact (matrix_at_ok m R C j k x HS Hj Hk E)]. left. apply Ids in Em. rewrite <- (numbered_name _ _ _ Hn Em).
        exists pre, post. split; [rewrite (numbered_name _ _ _ Hn Em); reflexivity|]. intros I'. apply in_map_iff in I'. destruct I' as (e & <- & He).
        apply (Po e He). now apply Ids.
      - exists (k_zero K). split; [|exact (matrix_at_ok m R C j k _ HS Hj Hk E)]. right. split; [|reflexivity]. intros I'. apply in_map_iff in I'. destruct I' as (e & <- & He).
        apply (No e He). now apply Ids.
    Qed.
  End Loaded.

  (** ** Theorems *)

  (** Each loudspeaker, at the place given by its channel *)
  Theorem C63_loudspeakers : forall (cf : config) a, load K new_array cf = Ok a -> forall s, In s (cf_speakers cf) ->
    exists c v g d, sp_channel s = Some c /\ located K (a_is2D a) (sp_place s) v /\ gain_is K (sp_adjust s) g /\ delay_is K (sp_adjust s) d
      /\ let k := rank c (channels_of cf) in
         channelIndex a k = Ok c /\ getPosition a k = Ok (v, at_infinity cf)
         /\ getLoudspeakerGainAdjustment a k = Ok g /\ getLoudspeakerDelayAdjustment a k = Ok d
         /\ equalised K (cf_eqs cf) (sp_eq s) (eq_row a k).
  Proof.
    intros cf a E s Hs. apply load_facts in E; [|reflexivity]. destruct (ft_speaker _ _ _ E s Hs) as (c & v & g & d & Ec & X1 & X2 & X3 & X4 & X5 & X6 & X7).
    exists c, v, g, d. split; [exact Ec|]. split; [exact X1|]. split; [exact X2|]. split; [exact X3|]. cbn zeta. rewrite eq_row_at. split.
    - unfold channelIndex. apply get_at_ok. rewrite (ft_channel _ _ _ E). apply rank_at. exact (in_channels cf s c Hs Ec).
    - split; [apply get_at_ok; exact X4|]. split; [apply vector_at_ok; exact X5|]. split; [apply vector_at_ok; exact X6|exact X7].
  Qed.

  (** Names and indices *)
  Theorem C63_names_partial : forall (cf : config) a, unpadded cf -> load K new_array cf = Ok a -> forall n,
    (forall k, getSpeakerIndexFromId a n = Ok k <-> numbered cf n k)
    /\ (forall k, loudspeakerId a k = Ok n <-> numbered cf n k)
    /\ ((forall k, ~ numbered cf n k) -> getSpeakerIndexFromId a n = Throw OutOfRange)
    /\ (forall k, numbered cf n k -> getPositionFromId a n = getPosition a k)
    /\ (forall k, regular cf n k -> exists s c, In s (cf_speakers cf) /\ denotes (sp_id s) n /\ sp_channel s = Some c /\ getSpeakerChannelFromId a n = Ok c).
  Proof.
    intros cf a UP E n. apply load_facts in E; [|reflexivity]. pose proof (ft_ids _ _ _ E UP) as Ids.
    assert (G : forall k, getSpeakerIndexFromId a n = Ok k <-> numbered cf n k).
    { intros k. rewrite <- Ids. unfold getSpeakerIndexFromId. destruct (mget (a_id a) n); split; congruence. }
    split; [exact G|]. split.
    { intros k. unfold loudspeakerId. destruct (find (fun e => snd e =? k) (a_id a)) as [[n' k']|] eqn:EF.
      - apply find_some in EF. destruct EF as [I' J]. cbn [snd fst] in *. apply Nat.eqb_eq in J. subst k'. apply (ordered_in _ _ _ (ft_ordered _ _ _ E)) in I'. apply Ids in I'.
        split; [intros X; apply Ok_inj in X; now subst n'|]. intros H. f_equal. exact (numbered_name cf a E _ _ _ I' H).
      - split; [discriminate|]. intros H. apply Ids in H. apply (ordered_in _ _ _ (ft_ordered _ _ _ E)) in H. apply (find_none _ _ EF) in H. cbn [snd] in H.
        rewrite Nat.eqb_refl in H. discriminate. }
    split.
    { intros H. unfold getSpeakerIndexFromId in *. destruct (mget (a_id a) n) as [k|] eqn:EM; [|reflexivity]. elim (H k). now apply G. }
    split.
    { intros k H. apply G in H. unfold getPositionFromId. rewrite H. reflexivity. }
    intros k H. assert (X : getSpeakerIndexFromId a n = Ok k) by (apply G; now left). destruct H as (s & c & Hs & D & Ec & ->). exists s, c. split; [exact Hs|]. split; [exact D|]. split; [exact Ec|].
    unfold getSpeakerChannelFromId. rewrite X. cbn [bind]. apply get_at_ok. rewrite (ft_channel _ _ _ E). apply rank_at. exact (in_channels cf s c Hs Ec).
  Qed.

  (** The virtual loudspeakers and their routing *)
  Theorem C63_virtual_loudspeakers : forall (cf : config) a, load K new_array cf = Ok a -> forall j v, nth_error (cf_virtuals cf) j = Some v ->
    exists x, located K (a_is2D a) (vi_place v) x /\ getPosition a (getNumRegularSpeakers a + j) = Ok (x, at_infinity cf).
  Proof.
    intros cf a E j v Hv. apply load_facts in E; [|reflexivity]. destruct (ft_virtual _ _ _ E j v Hv) as (x & L & P). exists x. split; [exact L|].
    apply get_at_ok. unfold getNumRegularSpeakers. rewrite (channel_count cf a E). exact P.
  Qed.
  Theorem C63_routing_partial : forall (cf : config) a, unpadded cf -> to_regular cf -> load K new_array cf = Ok a ->
    forall j v, nth_error (cf_virtuals cf) j = Some v -> exists entries, routes_are K v entries
      /\ (forall n, In n (map fst entries) -> exists k, regular cf n k)
      /\ forall n k, regular cf n k -> exists x, mixed K entries n x /\ getReroutingCoefficient a j k = Ok x.
  Proof.
    intros cf a UP TR E j v Hv. apply load_facts in E; [|reflexivity]. destruct (ft_routes _ _ _ E j v Hv) as (en & R1 & R2 & R3). exists en. split; [exact R1|]. split.
    - intros n Hn. apply in_map_iff in Hn. destruct Hn as (e & <- & He). destruct (R2 e He) as (k & Hk). apply (ft_ids _ _ _ E UP) in Hk. destruct Hk as [Hk|Hk]; [exists k; exact Hk|].
      exfalso. destruct (proj2 (Forall2_in _ _ _ R1) e He) as (r & Hr & D & _). exact (proj1 TR v r (fst e) k (nth_error_In _ _ Hv) Hr D Hk).
    - intros n k Hk. pose proof (regular_bound cf a E n k Hk) as Lk. apply (mixed_cell cf a E _ (length (cf_virtuals cf)) (length (cf_speakers cf))); [exact UP|exact (ft_rerouting _ _ _ E)| |exact Lk|now left|exact (R3 TR k Lk)].
      apply nth_error_Some. congruence.
  Qed.

  (** The triplets *)
  Lemma plane_unique (cf : config) p q : plane cf p -> plane cf q -> p = q.
  Proof. intros P Q. apply parse_dimension_iff in P, Q. congruence. Qed.
  Lemma triplet_at_is (cf : config) a t x : facts K cf a -> unpadded cf -> triplet_at (a_is2D a) (a_id a) t x -> triplet_is cf t x.
  Proof.
    intros E UP H. destruct x as [[k1 k2] k3]. destruct H as ((n1 & D1 & _ & M1) & (n2 & D2 & _ & M2) & H). cbn [fst snd] in *. pose proof (ft_ids _ _ _ E UP) as Ids.
    split; [exists n1; split; [exact D1|now apply Ids]|]. split; [exists n2; split; [exact D2|now apply Ids]|].
    pose proof (ft_plane _ _ _ E) as P. destruct H as [[E2 ->]|[E2 (k & (n & D & _ & M3) & ->)]]; rewrite E2 in P; [left; split; [exact P|reflexivity]|].
    right. split; [exact P|]. exists n, k. split; [exact D|]. split; [now apply Ids|reflexivity].
  Qed.
  Theorem C63_triplets_partial : forall (cf : config) a, unpadded cf -> load K new_array cf = Ok a ->
    getNumTriplets a = length (cf_triplets cf)
    /\ forall j t, nth_error (cf_triplets cf) j = Some t -> exists x, getTriplet a j = Ok x /\ triplet_is cf t x.
  Proof.
    intros cf a UP E. apply load_facts in E; [|reflexivity]. destruct (Forall2_nth _ _ _ (ft_triplet _ _ _ E)) as (L & H & _). split; [symmetry; exact L|].
    intros j t Ht. destruct (H j t Ht) as (x & Hx & X). exists x. split; [now apply get_at_ok|]. now apply (triplet_at_is cf a).
  Qed.

  (** The subwoofers *)
  Theorem C63_subwoofers : forall (cf : config) a, load K new_array cf = Ok a -> getNumSubwoofers a = length (cf_subwoofers cf)
    /\ forall j s, nth_error (cf_subwoofers cf) j = Some s -> exists c g d, sb_channel s = Some c /\ gain_is K (sb_adjust s) g /\ delay_is K (sb_adjust s) d
      /\ getSubwooferChannel a j = Ok c /\ getSubwooferGainAdjustment a j = Ok g /\ getSubwooferDelayAdjustment a j = Ok d
      /\ equalised K (cf_eqs cf) (sb_eq s) (eq_row a (getNumRegularSpeakers a + j)).
  Proof.
    intros cf a E. apply load_facts in E; [|reflexivity]. split; [exact (proj1 (ft_subGains _ _ _ E))|]. intros j s Hs. destruct (ft_sub _ _ _ E j s Hs) as (g & d & X1 & X2 & X3 & X4 & X5 & _).
    destruct (ft_subs _ _ _ E s (nth_error_In _ _ Hs)) as (c & Ec). exists c, g, d. rewrite eq_row_at. unfold getSubwooferGainAdjustment, getSubwooferDelayAdjustment, getNumRegularSpeakers. rewrite (channel_count cf a E).
    rewrite (Nat.add_comm j). split; [exact Ec|]. split; [exact X1|]. split; [exact X2|]. split; [|split; [now apply vector_at_ok|split; [now apply vector_at_ok|exact X5]]].
    apply vector_at_ok. rewrite (ft_subChannels _ _ _ E). pose proof (ft_subs _ _ _ E) as H. unfold subchannels_of. clear - Hs Ec H. revert j Hs.
    induction (cf_subwoofers cf) as [|s0 l IH]; intros [|j] E; cbn [nth_error flat_map] in *; try discriminate.
    - injection E as ->. rewrite Ec. reflexivity.
    - destruct (H s0 (or_introl eq_refl)) as (c0 & E0). rewrite E0. cbn [app nth_error]. apply IH; [intros s' H'; apply H; now right|exact E].
  Qed.
  Theorem C63_weights_partial : forall (cf : config) a, unpadded cf -> to_regular cf -> load K new_array cf = Ok a ->
    forall j s, nth_error (cf_subwoofers cf) j = Some s -> exists entries, weights_are K s entries
      /\ (forall n, In n (map fst entries) -> exists k, regular cf n k)
      /\ forall n k, regular cf n k -> exists x, mixed K entries n x /\ getSubwooferGain a j k = Ok x.
  Proof.
    intros cf a UP TR E j s Hs. apply load_facts in E; [|reflexivity]. destruct (ft_sub _ _ _ E j s Hs) as (_ & _ & _ & _ & _ & _ & _ & en & R1 & R2 & R3). exists en. split; [exact R1|]. split.
    - intros n Hn. pose proof Hn as Hn'. apply in_map_iff in Hn. destruct Hn as (e & <- & He). destruct (R2 e He) as (k & Hk). apply (ft_ids _ _ _ E UP) in Hk. destruct Hk as [Hk|Hk]; [exists k; exact Hk|].
      exfalso. exact (proj2 TR s (map fst en) (fst e) k (nth_error_In _ _ Hs) (proj1 R1) Hn' Hk).
    - intros n k Hk. pose proof (regular_bound cf a E n k Hk) as Lk. apply (mixed_cell cf a E _ (length (cf_subwoofers cf)) (length (cf_speakers cf))); [exact UP|exact (ft_subGains _ _ _ E)| |exact Lk|now left|exact (R3 TR k Lk)].
      apply nth_error_Some. congruence.
  Qed.

  (** Every accepted array is consistent, whatever the description *)
  Lemma sorted_strict (l : list N) : StronglySorted N.le l -> NoDup l -> StronglySorted N.lt l.
  Proof.
    induction 1 as [|c l HS IH HF]; intros ND; [constructor|]. inversion ND as [|? ? Nin ND']. subst. constructor; [now apply IH|].
    rewrite Forall_forall in *. intros d Hd. specialize (HF d Hd). assert (c <> d) by (intros ->; exact (Nin Hd)). lia.
  Qed.
  Theorem C63_consistent : forall (cf : config) a, load K new_array cf = Ok a ->
    plane cf (a_is2D a) /\ a_isInfinite a = at_infinity cf
    /\ getNumRegularSpeakers a = length (cf_speakers cf) /\ getNumSpeakers a = length (cf_speakers cf) + length (cf_virtuals cf)
    /\ StronglySorted N.lt (a_channel a) /\ Permutation (a_channel a) (channels_of cf) /\ (forall c, In c (a_channel a) -> (1 <= c)%N)
    /\ NoDup (a_channel a ++ a_subChannels a) /\ a_subChannels a = subchannels_of cf
    /\ (forall n k, getSpeakerIndexFromId a n = Ok k -> k < getNumSpeakers a)
    /\ (forall j k1 k2 k3, getTriplet a j = Ok (k1, k2, k3) -> k1 < getNumSpeakers a /\ k2 < getNumSpeakers a
          /\ (a_is2D a = true <-> k3 = None) /\ forall k, k3 = Some k -> k < getNumSpeakers a)
    /\ (forall j k, j < length (cf_virtuals cf) -> k < getNumRegularSpeakers a -> exists x, getReroutingCoefficient a j k = Ok x)
    /\ (forall j k, j < length (cf_subwoofers cf) -> k < getNumRegularSpeakers a -> exists x, getSubwooferGain a j k = Ok x)
    /\ (outputEqualisationPresent a = true <-> cf_eqs cf <> [])
    /\ (forall k row, eq_row a k = Some row -> length row = outputEqualisationNumberOfBiquads a).
  Proof.
    intros cf a E. apply load_facts in E; [|reflexivity]. pose proof (channel_count cf a E) as Lc. unfold getNumRegularSpeakers, getNumSpeakers. rewrite Lc, (ft_position _ _ _ E).
    assert (Bd : forall n k, mget (a_id a) n = Some k -> k < length (cf_speakers cf) + length (cf_virtuals cf)).
    { intros n k H. destruct (ft_bound _ _ _ E n k H) as [L|(j & v & Hv & _ & ->)]; [lia|]. assert (j < length (cf_virtuals cf)) by (apply nth_error_Some; congruence). lia. }
    assert (MA : forall (m : matrix V) R C j k, shape m R C -> j < R -> k < C -> exists x, matrix_at m j k = Ok x).
    { intros m R C j k HS Hj Hk. destruct (cell m j k) as [x|] eqn:EX; [exists x; exact (matrix_at_ok m R C j k x HS Hj Hk EX)|]. exfalso. destruct HS as (_ & S2 & S3).
      unfold cell in EX. apply nth_error_None in EX. rewrite S2, S3 in EX. nia. }
    split; [exact (ft_plane _ _ _ E)|]. split; [exact (ft_inf _ _ _ E)|]. split; [reflexivity|]. split; [reflexivity|].
    assert (Pe : Permutation (a_channel a) (channels_of cf)) by (rewrite (ft_channel _ _ _ E); apply Permutation_sym, sort_perm).
    assert (ND : NoDup (a_channel a ++ a_subChannels a)).
    { rewrite (ft_subChannels _ _ _ E). eapply Permutation_NoDup; [|exact (ft_distinct _ _ _ E)]. apply Permutation_app_tail. now apply Permutation_sym. }
    split. { apply sorted_strict; [rewrite (ft_channel _ _ _ E); apply sort_sorted|]. exact (proj1 (proj1 (NoDup_app_iff _ _) ND)). }
    split; [exact Pe|]. split.
    { intros c Hc. apply (Permutation_in _ Pe) in Hc. unfold channels_of in Hc. apply in_flat_map in Hc. destruct Hc as (s & Hs & Hc). destruct (ft_channels _ _ _ E s Hs) as (c' & Ec & L).
      rewrite Ec in Hc. destruct Hc as [<-|[]]. exact L. }
    split; [exact ND|]. split; [exact (ft_subChannels _ _ _ E)|]. split.
    { intros n k H. apply (Bd n). unfold getSpeakerIndexFromId in H. destruct (mget (a_id a) n); [|discriminate]. apply Ok_inj in H. now subst. }
    split.
    { intros j k1 k2 k3 H. apply get_at_ok in H. destruct (proj2 (proj2 (Forall2_nth _ _ _ (ft_triplet _ _ _ E))) j _ H) as (t & _ & (n1 & _ & _ & M1) & (n2 & _ & _ & M2) & X). cbn [fst snd] in *.
      split; [exact (Bd _ _ M1)|]. split; [exact (Bd _ _ M2)|]. destruct X as [[E2 ->]|[E2 (k & (n & _ & _ & M3) & ->)]].
      - split; [rewrite E2; tauto|]. discriminate.
      - split; [rewrite E2; split; discriminate|]. intros k' Ek. injection Ek as <-. exact (Bd _ _ M3). }
    split; [intros j k Hj Hk; exact (MA _ _ _ j k (ft_rerouting _ _ _ E) Hj Hk)|]. split; [intros j k Hj Hk; exact (MA _ _ _ j k (ft_subGains _ _ _ E) Hj Hk)|].
    destruct (ft_good _ _ _ E) as (t & [[E1 E2]|(c & n & m & E1 & _ & E2 & _ & Hr & _)]).
    - unfold outputEqualisationPresent. rewrite E1, E2. split; [split; [discriminate|intros H; now elim H]|]. intros k row. rewrite eq_row_at, E2. discriminate.
    - unfold outputEqualisationPresent, outputEqualisationNumberOfBiquads. rewrite E1, E2. split; [split; [discriminate|reflexivity]|]. intros k row. rewrite eq_row_at, E2. cbn [row_at]. intros H.
      apply nth_error_In in H. rewrite (Hr _ H). destruct m as [|r0 m]; [destruct H|]. cbn [sections]. symmetry. apply Hr. now left.
  Qed.

  (** Exactly the correct descriptions are accepted *)
  Lemma facts_valid (cf : config) a : facts K cf a -> unpadded cf -> to_regular cf -> valid K cf.
  Proof.
    intros E UP TR. pose proof (ft_ids _ _ _ E UP) as Ids. exists (a_is2D a). split; [exact (ft_plane _ _ _ E)|]. split; [exact (ft_eqs _ _ _ E)|]. split; [exact (ft_names _ _ _ E)|].
    split; [split; [exact (ft_channels _ _ _ E)|split; [|exact (ft_distinct _ _ _ E)]]; intros s Hs; destruct (ft_subs _ _ _ E s Hs) as (c & Ec); congruence|]. split.
    { intros s Hs. destruct (ft_speaker _ _ _ E s Hs) as (c & v & g & d & _ & X1 & X2 & _ & _ & _ & _ & X7). split; [exists v; exact X1|]. split; [exists g; exact X2|]. eexists. exact X7. }
    split.
    { intros v Hv. pose proof Hv as Hv'. apply In_nth_error in Hv'. destruct Hv' as (j & Hj). destruct (ft_virtual _ _ _ E j v Hj) as (x & L & _). split; [exists x; exact L|].
      destruct (ft_routes _ _ _ E j v Hj) as (en & R1 & R2 & _). exists en. split; [exact R1|]. intros n Hn. apply in_map_iff in Hn. destruct Hn as (e & <- & He). destruct (R2 e He) as (k & Hk).
      apply Ids in Hk. destruct Hk as [Hk|Hk]; [exists k; exact Hk|]. exfalso. destruct (proj2 (Forall2_in _ _ _ R1) e He) as (r & Hr & D & _). exact (proj1 TR v r (fst e) k Hv Hr D Hk). }
    split.
    { intros t Ht. destruct (proj1 (Forall2_in _ _ _ (ft_triplet _ _ _ E)) t Ht) as (x & _ & X). exists x. now apply (triplet_at_is cf a). }
    intros s Hs. pose proof Hs as Hs'. apply In_nth_error in Hs'. destruct Hs' as (j & Hj). destruct (ft_sub _ _ _ E j s Hj) as (g & d & X1 & _ & _ & _ & X5 & en & R1 & R2 & _).
    split; [split; [exists g; exact X1|eexists; exact X5]|]. exists en. split; [exact R1|]. intros n Hn. pose proof Hn as Hn'. apply in_map_iff in Hn. destruct Hn as (e & <- & He). destruct (R2 e He) as (k & Hk).
    apply Ids in Hk. destruct Hk as [Hk|Hk]; [exists k; exact Hk|]. exfalso. exact (proj2 TR s (map fst en) (fst e) k Hs (proj1 R1) Hn' Hk).
  Qed.
  Theorem C63_accepted_partial : forall cf : config, unpadded cf ->
    (valid K cf -> exists a, load K new_array cf = Ok a)
    /\ (to_regular cf -> forall a, load K new_array cf = Ok a -> valid K cf).
  Proof.
    intros cf UP. split; [intros Va; apply load_total; [reflexivity|exact UP|exact Va]|]. intros TR a E. apply load_facts in E; [|reflexivity]. now apply (facts_valid cf a).
  Qed.
  (** Correct descriptions refer to no virtual loudspeaker in routes and subwoofers *)
  Theorem C63_valid_targets : forall cf : config, valid K cf -> to_regular cf.
  Proof.
    intros cf (is2D & _ & _ & (ns & vs & F1 & V1 & ND) & _ & _ & Hv & _ & Hb). apply NoDup_app_iff in ND. destruct ND as (_ & _ & NV).
    assert (X : forall n k k', regular cf n k -> virtual_at cf n k' -> False).
    { intros n k k' (s & c & Hs & D & _) (j & v & Hv' & D' & _). destruct (proj1 (Forall2_in _ _ _ F1) s Hs) as (n1 & H1 & D1 & _). destruct (proj1 (Forall2_in _ _ _ V1) v (nth_error_In _ _ Hv')) as (n2 & H2 & D2 & _).
      rewrite <- (denotes_unique _ _ _ D D1) in H1. rewrite <- (denotes_unique _ _ _ D' D2) in H2. exact (NV n H1 H2). }
    split.
    - intros v r n k Hv' Hr D Vi. destruct (Hv v Hv') as (_ & en & R1 & R2). destruct (proj1 (Forall2_in _ _ _ R1) r Hr) as (e & He & D' & _). rewrite (denotes_unique _ _ _ D D') in Vi.
      destruct (R2 (fst e) (in_map fst _ _ He)) as (k' & Hk'). exact (X _ _ _ Hk' Vi).
    - intros s names n k Hs Ls Hn Vi. destruct (Hb s Hs) as (_ & en & [R1 _] & R2). assert (names = map fst en).
      { apply lists_iff in Ls, R1. destruct Ls as (r1 & E1 & <- & _), R1 as (r2 & E2 & <- & _). congruence. }
      subst names. destruct (R2 n Hn) as (k' & Hk'). exact (X _ _ _ Hk' Vi).
  Qed.
  (** Loading never reads or writes outside an array *)
  Theorem C63_defined_partial : forall (a0 : array) (cf : config), a_id a0 = [] -> to_regular cf ->
    (forall w, k_float_sequence K w <> UB) -> (forall e s, In e (cf_eqs cf) -> In s (eq_specs e) -> fs_biquads s <> UB) -> load K a0 cf <> UB.
  Proof.
    intros a0 cf A0 TR HF HB E. pose proof (load_outcome K False a0 cf A0 HF HB (fun H => H TR)) as O. rewrite E in O. exact O.
  Qed.
  (** What an array held before does not matter, as long as it has no names *)
  Theorem C63_fresh : forall (a0 : array) (cf : config), a_id a0 = [] -> unpadded cf -> valid K cf ->
    exists a a', load K new_array cf = Ok a /\ load K a0 cf = Ok a' /\ a_channel a' = a_channel a /\ a_triplet a' = a_triplet a /\ a_position a' = a_position a
      /\ forall n, getSpeakerIndexFromId a' n = getSpeakerIndexFromId a n.
  Proof.
    intros a0 cf A0 UP Va. destruct (load_total K new_array cf eq_refl UP Va) as (a & E). destruct (load_total K a0 cf A0 UP Va) as (a' & E'). exists a, a'.
    split; [exact E|]. split; [exact E'|]. apply load_facts in E; [|reflexivity]. apply load_facts in E'; [|exact A0].
    assert (Ids : forall n, mget (a_id a') n = mget (a_id a) n).
    { intros n. destruct (mget (a_id a) n) as [k|] eqn:G.
      - apply (ft_ids _ _ _ E' UP). now apply (ft_ids _ _ _ E UP).
      - destruct (mget (a_id a') n) as [k|] eqn:G'; [|reflexivity]. apply (ft_ids _ _ _ E' UP) in G'. apply (ft_ids _ _ _ E UP) in G'. congruence. }
    split; [rewrite (ft_channel _ _ _ E), (ft_channel _ _ _ E'); reflexivity|].
    assert (P2 : a_is2D a' = a_is2D a) by exact (plane_unique cf _ _ (ft_plane _ _ _ E') (ft_plane _ _ _ E)). split.
    { pose proof (ft_triplet _ _ _ E) as T. pose proof (ft_triplet _ _ _ E') as T'. rewrite P2 in T'. revert T'. generalize (a_triplet a'). induction T as [|t x l r H F IH]; intros r' T'; inversion T' as [|? x' ? r'' H' F']; subst; [reflexivity|].
      f_equal; [|now apply IH]. destruct x as [[k1 k2] k3], x' as [[k1' k2'] k3']. destruct H as (A1 & A2 & A3), H' as (B1 & B2 & B3). cbn [fst snd] in *.
      assert (Rs : forall o k k', resolves (a_id a) o k -> resolves (a_id a') o k' -> k = k').
      { intros o k k' (n & D & _ & M) (n' & D' & _ & M'). rewrite <- (denotes_unique _ _ _ D D'), Ids in M'. congruence. }
      rewrite (Rs _ _ _ A1 B1), (Rs _ _ _ A2 B2). f_equal. destruct A3 as [[Z ->]|[Z (k & A3 & ->)]], B3 as [[Z' ->]|[Z' (k' & B3 & ->)]]; try congruence. now rewrite (Rs _ _ _ A3 B3). }
    split.
    { apply nth_ext_error. intros k. assert (L : length (a_position a') = length (a_position a)) by (rewrite (ft_position _ _ _ E), (ft_position _ _ _ E'); reflexivity).
      assert (LU : forall p x y, located K (a_is2D a) p x -> located K (a_is2D a) p y -> x = y).
      { intros p x y X Y. assert (G1 : parseCoordNode K p false (a_is2D a) = Ok (x, false)) by (apply parseCoordNode_iff; exists x; split; [exact X|reflexivity]).
        assert (G2 : parseCoordNode K p false (a_is2D a) = Ok (y, false)) by (apply parseCoordNode_iff; exists y; split; [exact Y|reflexivity]). congruence. }
      destruct (lt_dec k (length (a_position a))) as [Lk|Lk]; [|rewrite !(proj2 (nth_error_None _ _)) by lia; reflexivity]. rewrite (ft_position _ _ _ E) in Lk.
      destruct (lt_dec k (length (cf_speakers cf))) as [Lr|Lr].
      - assert (X : exists s c, In s (cf_speakers cf) /\ sp_channel s = Some c /\ k = rank c (channels_of cf)).
        { rewrite <- (channel_count cf a E) in Lr. destruct (nth_error (a_channel a) k) as [c|] eqn:G; [|apply nth_error_None in G; lia]. assert (I' : In c (channels_of cf)) by (apply sort_in; rewrite <- (ft_channel _ _ _ E); exact (nth_error_In _ _ G)).
          assert (I2 := I'). unfold channels_of in I2. apply in_flat_map in I2. destruct I2 as (s & Hs & Hc). destruct (sp_channel s) as [c'|] eqn:Ec; [|destruct Hc]. destruct Hc as [->|[]]. exists s, c. split; [exact Hs|]. split; [exact Ec|].
          apply (NoDup_index (a_channel a) k (rank c (channels_of cf)) c); [|exact G|rewrite (ft_channel _ _ _ E); now apply rank_at]. rewrite (ft_channel _ _ _ E). eapply Permutation_NoDup; [apply sort_perm|exact (nodup_channels cf a E)]. }
        destruct X as (s & c & Hs & Ec & ->). destruct (ft_speaker _ _ _ E s Hs) as (c1 & v1 & _ & _ & Ec1 & L1 & _ & _ & P1 & _). destruct (ft_speaker _ _ _ E' s Hs) as (c2 & v2 & _ & _ & Ec2 & L2 & _ & _ & P3 & _).
        assert (c1 = c) by congruence. assert (c2 = c) by congruence. subst c1 c2. rewrite P1, P3. rewrite P2 in L2. now rewrite (LU _ _ _ L1 L2).
      - destruct (nth_error (cf_virtuals cf) (k - length (cf_speakers cf))) as [v|] eqn:G; [|apply nth_error_None in G; lia].
        destruct (ft_virtual _ _ _ E _ v G) as (x & L1 & P1). destruct (ft_virtual _ _ _ E' _ v G) as (y & L2 & P3). replace (length (cf_speakers cf) + (k - length (cf_speakers cf))) with k in P1, P3 by lia.
        rewrite P1, P3. rewrite P2 in L2. now rewrite (LU _ _ _ L1 L2). }
    intros n. unfold getSpeakerIndexFromId. now rewrite Ids.
  Qed.
  (** A loaded array refuses every description that uses the name of one of its loudspeakers:
      the names are never removed *)
  Theorem C63_reload_throws : forall (cf : config) a, unpadded cf -> load K new_array cf = Ok a -> cf_speakers cf <> [] -> load K a cf = Throw InvalidArgument.
  Proof.
    intros cf a UP E NE. pose proof E as E0. apply load_facts in E; [|reflexivity]. unfold load in *. destruct (parse_dimension (cf_dimension cf)) as [is2D| |]; try discriminate. cbn [bind] in *.
    destruct (parse_eqs K (cf_eqs cf) _) as [[t eqs]| |]; try discriminate. cbn [bind] in *. destruct (ft_names _ _ _ E) as (ns & _ & F1 & _).
    pose proof (ft_ids _ _ _ E UP) as Ids. pose proof (ft_channels _ _ _ E) as Ch. destruct (cf_speakers cf) as [|s l] eqn:El; [now elim NE|]. inversion F1 as [|? n ? ns' [D Ac] F1']. subst.
    destruct (Ch s (or_introl eq_refl)) as (c & Ec & _). assert (Nu : numbered cf n (rank c (channels_of cf))) by (left; exists s, c; rewrite El; split; [now left|]; split; [exact D|]; split; [exact Ec|reflexivity]).
    apply Ids in Nu. apply denotes_iff in D. destruct D as (raw & Er & ->). cbn [name_speakers]. rewrite Er. cbn [get bind]. apply regex_match_iff in Ac. rewrite Ac, Nu. reflexivity.
  Qed.
End Array.

(** ** Examples: numbers are naturals, "5" is five *)

Definition one_digit (w : string) : res (list nat) :=
  match w with String c EmptyString => Ok [nat_of_ascii c - 48] | _ => Throw InvalidArgument end.
Definition kitE : kit nat nat := Kit 0 1 (fun x => 100 + x) (fun x => 200 + x) (fun a e r => (a, e, r)) one_digit 7.
Definition at_xyz x y z : @place nat := Place [Cart (Some x) (Some y) (Some z)] [].
Definition plain : @adjust nat := Adjust None None None.
Definition spk id c x : @speaker nat := Speaker (Some id) (Some c) (at_xyz x 0 0) plain None.
Local Open Scope string_scope.
(** Three loudspeakers, out of the order of their channels, one of them virtual; a triplet and a
    subwoofer that carries all regular ones; an equaliser for one of them. *)
Definition docE : @config nat nat :=
  Config (Some "3") (Some true)
    [spk "R" 5 50; Speaker (Some "L") (Some 2%N) (Place [] [Polar (Some 1) (Some 2) (Some 3)]) (Adjust None (Some 6) (Some 4)) (Some "eq")]
    [Virtual (Some " V ") [Route (Some "R ") (Some 9)] (at_xyz 0 0 8)] [Triplet (Some "L") (Some "R") (Some "V")]
    [Subwoofer (Some 1%N) (Some "R ,, L") None plain None; Subwoofer (Some 9%N) (Some "L") (Some "3") plain None]
    [EqConfig (Some 2) [FilterSpec (Some "eq") (Ok [11])]].
Definition arrayE : @array nat nat :=
  Array false true [(1, 2, 3, true); (50, 0, 0, true); (0, 0, 8, true)] [(0, 1, Some 2)] [2; 5]%N [("L", 0); ("R", 1); ("V", 2)] [1; 9]%N
    (Matrix 2 2 [1; 1; 3; 0]) (Matrix 1 2 [0; 209]) [106; 1; 1; 1] [4; 0; 0; 0] (Some [[11; 7]; [7; 7]; [7; 7]; [7; 7]]).
Example C63_example : load kitE new_array docE = Ok arrayE.
Proof. reflexivity. Qed.
Example C63_example_unpadded : unpadded docE.
Proof.
  intros s raw [<-|[<-|[]]] E; injection E as <-; [exact (trim_stripped "R")|exact (trim_stripped "L")].
Qed.
Example C63_example_to_regular : to_regular docE.
Proof.
  assert (X : forall n k, n <> "V" -> ~ virtual_at docE n k).
  { intros n k NE (j & v & Hv & D & _). destruct j as [|[|j]]; [|discriminate|discriminate]. injection Hv as <-. apply denotes_iff in D. destruct D as (raw & E & ->). injection E as <-. now elim NE. }
  split.
  - intros v r n k [<-|[]] [<-|[]] D. apply X. apply denotes_iff in D. destruct D as (raw & E & ->). injection E as <-. discriminate.
  - intros s names n k [<-|[<-|[]]] Ls Hn; apply X; apply lists_iff in Ls; destruct Ls as (raw & E & <- & _); injection E as <-.
    + destruct Hn as [<-|[<-|[]]]; discriminate.
    + destruct Hn as [<-|[]]; discriminate.
Qed.
Example C63_example_valid : valid kitE docE.
Proof. exact (proj2 (C63_accepted_partial kitE docE C63_example_unpadded) C63_example_to_regular arrayE C63_example). Qed.

(** Descriptions that are rejected: an unknown equaliser, the channel of a subwoofer used by a
    loudspeaker, an unknown name *)
Example C63_example_rejected :
  load kitE new_array (Config None None [spk "A" 1 1] [] [] [Subwoofer (Some 1%N) (Some "A") None plain None] []) = Throw InvalidArgument
  /\ load kitE new_array (Config None None [spk "A" 1 1] [] [] [Subwoofer (Some 2%N) (Some "B") None plain None] []) = Throw InvalidArgument
  /\ load kitE new_array (Config None None [spk "A*" 1 1] [] [] [] []) = Throw InvalidArgument.
Proof. split; [reflexivity|]. split; reflexivity. Qed.

(** ** What the code does not do *)

(** A loudspeaker whose id has blanks around it: the id without blanks, by which triplets,
    routes and subwoofers refer to it, stands for the first loudspeaker *)
Definition docP : @config nat nat := Config None None [spk " A" 2 20; spk "B" 1 10] [] [] [Subwoofer (Some 3%N) (Some "A") None plain None] [].
Theorem C63_padded_refuted : exists (cf : @config nat nat) a, valid kitE cf /\ load kitE new_array cf = Ok a
  /\ regular cf "A" 1 /\ getSpeakerIndexFromId a "A" = Ok 0 /\ regular cf "B" 0
  /\ getSubwooferGain a 0 0 = Ok 1 /\ getSubwooferGain a 0 1 = Ok 0.
Proof.
  assert (RA : regular docP "A" 1).
  { exists (spk " A" 2 20), 2%N. split; [now left|]. split; [apply denotes_iff; exists " A"; split; reflexivity|]. split; reflexivity. }
  assert (RB : regular docP "B" 0).
  { exists (spk "B" 1 10), 1%N. split; [right; now left|]. split; [apply denotes_iff; exists "B"; split; reflexivity|]. split; reflexivity. }
  eexists docP, _. split; [|split; [reflexivity|split; [exact RA|split; [reflexivity|split; [exact RB|split; reflexivity]]]]].
  exists false. split; [right; split; [now left|reflexivity]|]. split; [now left|]. split.
  { exists ["A"; "B"], []. split; [|split; [constructor|]].
    - constructor; [|constructor; [|constructor]]; (split; [|apply regex_match_iff; reflexivity]); apply denotes_iff; eexists; (split; reflexivity).
    - cbn [app]. constructor; [intros [H|[]]; discriminate|]. constructor; [intros []|constructor]. }
  split.
  { split; [intros s [<-|[<-|[]]]; eexists; (split; [reflexivity|]); discriminate|]. split; [intros s [<-|[]]; discriminate|].
    change (NoDup [2; 1; 3]%N). constructor; [intros [H|[H|[]]]; discriminate|]. constructor; [intros [H|[]]; discriminate|]. constructor; [intros []|constructor]. }
  assert (O : forall eq, output_ok kitE docP plain eq). { intros eq. split; [exists 1; right; right; split; [reflexivity|split; reflexivity]|]. exists None. left. split; reflexivity. }
  split. { intros s [<-|[<-|[]]]; (split; [|apply O]); eexists; left; do 4 eexists; (split; [reflexivity|]); (split; [reflexivity|]); (split; [reflexivity|]); (split; [reflexivity|]); (split; [left; reflexivity|reflexivity]). }
  split; [intros v []|]. split; [intros t []|]. intros s [<-|[]]. split; [apply O|]. exists [("A", 1)]. split.
  - split; [apply lists_iff; exists "A"; split; [reflexivity|]; split; [reflexivity|]; intros n [<-|[]]; discriminate|]. left. split; [reflexivity|]. intros e [<-|[]]. reflexivity.
  - intros n [<-|[]]. exists 1. exact RA.
Qed.
(** A route to a virtual loudspeaker is written into the row of the next one, or beyond the matrix *)
Definition docV (r : list (@route nat)) : @config nat nat :=
  Config None None [spk "A" 1 10] [Virtual (Some "V") r (at_xyz 0 0 1); Virtual (Some "W") [] (at_xyz 0 1 0)] [] [] [].
Theorem C63_virtual_route_refuted : exists (cf cf' : @config nat nat) a, unpadded cf /\ unpadded cf' /\ load kitE new_array cf = Ok a
  /\ (exists v, nth_error (cf_virtuals cf) 1 = Some v /\ vi_routes v = [] /\ getReroutingCoefficient a 1 0 = Ok 203)
  /\ load kitE new_array cf' = UB.
Proof.
  assert (U : forall vs, unpadded (Config None None [spk "A" 1 10] vs [] [] [] : @config nat nat)). { intros vs s raw [<-|[]] E. injection E as <-. exact (trim_stripped "A"). }
  exists (docV [Route (Some "V") (Some 3)]), (Config None None [spk "A" 1 10] [Virtual (Some "V") [Route (Some "V") (Some 3)] (at_xyz 0 0 1)] [] [] []). eexists.
  split; [apply U|]. split; [apply U|]. split; [reflexivity|]. split; [|reflexivity]. eexists. split; [reflexivity|]. split; reflexivity.
Qed.
(** A valid description cannot be loaded twice *)
Theorem C63_reload_refuted : exists (cf : @config nat nat) a, unpadded cf /\ valid kitE cf /\ load kitE new_array cf = Ok a /\ load kitE a cf = Throw InvalidArgument.
Proof.
  exists docE, arrayE. split; [exact C63_example_unpadded|]. split; [exact C63_example_valid|]. split; [exact C63_example|]. reflexivity.
Qed.
(** Assignment loses the output equalisers *)
Theorem C63_assign_refuted : exists (cf : @config nat nat) a, load kitE new_array cf = Ok a
  /\ outputEqualisationPresent a = true /\ outputEqualisationPresent (assign new_array a) = false.
Proof. exists docE, arrayE. split; [exact C63_example|]. split; reflexivity. Qed.
(** The channel of a virtual loudspeaker is read beyond the end of the channel list *)
Theorem C63_virtual_channel_refuted : exists (cf : @config nat nat) a, valid kitE cf /\ load kitE new_array cf = Ok a /\ getSpeakerChannelFromId a "V" = UB.
Proof. exists docE, arrayE. split; [exact C63_example_valid|]. split; [exact C63_example|reflexivity]. Qed.
(** Channels start at one, but a subwoofer may have channel zero *)
Theorem C63_subwoofer_channel_refuted : exists (cf : @config nat nat) a, load kitE new_array cf = Ok a /\ getSubwooferChannel a 0 = Ok 0%N.
Proof. exists (Config None None [spk "A" 1 10] [] [] [Subwoofer (Some 0%N) (Some "A") None plain None] []). eexists. split; reflexivity. Qed.

Print Assumptions C63_loudspeakers.
Print Assumptions C63_names_partial.
Print Assumptions C63_virtual_loudspeakers.
Print Assumptions C63_routing_partial.
Print Assumptions C63_triplets_partial.
Print Assumptions C63_subwoofers.
Print Assumptions C63_weights_partial.
Print Assumptions C63_consistent.
Print Assumptions C63_accepted_partial.
Print Assumptions C63_valid_targets.
Print Assumptions C63_defined_partial.
Print Assumptions C63_fresh.
Print Assumptions C63_reload_throws.
Print Assumptions C63_padded_refuted.
Print Assumptions C63_virtual_route_refuted.
Print Assumptions C63_reload_refuted.
Print Assumptions C63_assign_refuted.
Print Assumptions C63_virtual_channel_refuted.
Print Assumptions C63_subwoofer_channel_refuted.
