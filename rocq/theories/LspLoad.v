(** The loader as a whole. *)

From Coq Require Import Ascii String NArith Sorted Permutation.
From Verif Require Import Base LspModel LspSpec LspText LspProofs.
Local Open Scope res_scope.

Lemma Forall2_nth {A C} (P : A -> C -> Prop) l r : Forall2 P l r -> length l = length r
  /\ (forall j x, nth_error l j = Some x -> exists y, nth_error r j = Some y /\ P x y)
  /\ (forall j y, nth_error r j = Some y -> exists x, nth_error l j = Some x /\ P x y).
Proof.
  induction 1 as [|x y l r H F (L & I1 & I2)]; [split; [reflexivity|]; split; intros [|j] z; discriminate|]. split; [cbn [length]; congruence|].
  split; intros [|j] z E; cbn [nth_error] in *.
  - injection E as <-. exists y. split; [reflexivity|exact H].
  - now apply I1.
  - injection E as <-. exists x. split; [reflexivity|exact H].
  - now apply I2.
Qed.
Lemma Forall2_in {A C} (P : A -> C -> Prop) l r : Forall2 P l r ->
  (forall x, In x l -> exists y, In y r /\ P x y) /\ (forall y, In y r -> exists x, In x l /\ P x y).
Proof.
  intros F. destruct (Forall2_nth _ _ _ F) as (_ & H1 & H2). split; intros x H; apply In_nth_error in H; destruct H as (j & H);
    [destruct (H1 j x H) as (y & E & X)|destruct (H2 j x H) as (y & E & X)]; exists y; (split; [exact (nth_error_In _ _ E)|exact X]).
Qed.
Lemma nth_ext_error {A} (l r : list A) : (forall j, nth_error l j = nth_error r j) -> l = r.
Proof.
  revert r. induction l as [|x l IH]; intros [|y r] H; [reflexivity|discriminate (H 0)|discriminate (H 0)|].
  pose proof (H 0) as H0. cbn [nth_error] in H0. injection H0 as ->. f_equal. apply IH. intros j. exact (H (S j)).
Qed.
Lemma NoDup_index {A} (l : list A) i j x : NoDup l -> nth_error l i = Some x -> nth_error l j = Some x -> i = j.
Proof.
  intros ND Hi Hj. apply (proj1 (NoDup_nth_error l) ND); [apply nth_error_Some; congruence|congruence].
Qed.

Section Load.
  Context {V B : Type} (K : kit V B).
  Notation config := (@config V B).
  Notation array := (@array V B).

  Lemma parse_dimension_iff (cf : config) is2D : parse_dimension (cf_dimension cf) = Ok is2D <-> plane cf is2D.
  Proof.
    unfold parse_dimension, plane. destruct (cf_dimension cf) as [s|].
    - destruct (String.eqb_spec s "2") as [->|N2]; [|destruct (String.eqb_spec s "3") as [->|N3]].
      + split; [intros E; apply Ok_inj in E; left; split; [reflexivity|now subst]|]. intros [[_ ->]|[[A|A] _]]; [reflexivity|discriminate|discriminate].
      + split; [intros E; apply Ok_inj in E; right; split; [now right|now subst]|]. intros [[A _]|[_ ->]]; [discriminate|reflexivity].
      + split; [discriminate|]. intros [[A _]|[[A|A] _]]; congruence.
    - split; [intros E; apply Ok_inj in E; right; split; [now left|now subst]|]. intros [[A _]|[_ ->]]; [discriminate|reflexivity].
  Qed.

  Lemma channels_of_eq (cf : config) cs : Forall2 (fun s c => sp_channel s = Some c /\ (1 <= c)%N) (cf_speakers cf) cs -> channels_of cf = cs.
  Proof. unfold channels_of. induction 1 as [|s c l r [E _] F IH]; [reflexivity|]. cbn [flat_map]. rewrite E, IH. reflexivity. Qed.
  Lemma subchannels_of_eq (cf : config) us : Forall2 (fun s c => sb_channel s = Some c) (cf_subwoofers cf) us -> subchannels_of cf = us.
  Proof. unfold subchannels_of. induction 1 as [|s c l r E F IH]; [reflexivity|]. cbn [flat_map]. rewrite E, IH. reflexivity. Qed.
  Lemma ids_nodup (nodes : list (@speaker V)) ns : Forall2 (fun s n => denotes (sp_id s) n /\ acceptable n) nodes ns -> NoDup ns -> NoDup (map sp_id nodes).
  Proof.
    induction 1 as [|s n l r [D _] F IH]; intros ND; [constructor|]. inversion ND as [|? ? Nin ND']. subst. cbn [map]. constructor; [|now apply IH].
    intros I. apply in_map_iff in I. destruct I as (s' & E & I). destruct (proj1 (Forall2_in _ _ _ F) s' I) as (n' & I' & D' & _). rewrite E in D'.
    now rewrite (denotes_unique _ _ _ D D') in Nin.
  Qed.

  (** What holds of an array [a] loaded from [cf]. *)
  Record facts (cf : config) (a : array) : Prop := Facts {
    ft_plane : plane cf (a_is2D a);
    ft_inf : a_isInfinite a = at_infinity cf;
    ft_eqs : eqs_ok cf;
    ft_names : names_ok cf;
    ft_channels : (forall s, In s (cf_speakers cf) -> exists c, sp_channel s = Some c /\ (1 <= c)%N);
    ft_subs : (forall s, In s (cf_subwoofers cf) -> exists c, sb_channel s = Some c);
    ft_distinct : NoDup (channels_of cf ++ subchannels_of cf);
    ft_channel : a_channel a = sort (channels_of cf);
    ft_subChannels : a_subChannels a = subchannels_of cf;
    ft_ordered : ordered (a_id a);
    ft_ids : unpadded cf -> forall n k, mget (a_id a) n = Some k <-> numbered cf n k;
    ft_bound : forall n k, mget (a_id a) n = Some k -> k < length (cf_speakers cf) \/ exists j v, nth_error (cf_virtuals cf) j = Some v /\ denotes (vi_id v) n /\ k = length (cf_speakers cf) + j;
    ft_speaker : forall s, In s (cf_speakers cf) -> exists c v g d, sp_channel s = Some c
       /\ located K (a_is2D a) (sp_place s) v /\ gain_is K (sp_adjust s) g /\ delay_is K (sp_adjust s) d
       /\ let k := rank c (channels_of cf) in
          nth_error (a_position a) k = Some (v, at_infinity cf) /\ nth_error (a_gain a) k = Some g /\ nth_error (a_delay a) k = Some d
          /\ equalised K (cf_eqs cf) (sp_eq s) (row_at (a_eqs a) k);
    ft_virtual : forall j v, nth_error (cf_virtuals cf) j = Some v -> exists x, located K (a_is2D a) (vi_place v) x
       /\ nth_error (a_position a) (length (cf_speakers cf) + j) = Some (x, at_infinity cf);
    ft_position : length (a_position a) = length (cf_speakers cf) + length (cf_virtuals cf);
    ft_triplet : Forall2 (triplet_at (a_is2D a) (a_id a)) (cf_triplets cf) (a_triplet a);
    ft_rerouting : shape (a_reRouting a) (length (cf_virtuals cf)) (length (cf_speakers cf));
    ft_routes : forall j v, nth_error (cf_virtuals cf) j = Some v -> exists entries, routes_are K v entries
       /\ (forall e, In e entries -> exists k, mget (a_id a) (fst e) = Some k)
       /\ (to_regular cf -> forall c, c < length (cf_speakers cf) -> (exists x, last_at (a_id a) entries c x /\ cell (a_reRouting a) j c = Some x)
            \/ ((forall e, In e entries -> mget (a_id a) (fst e) <> Some c) /\ cell (a_reRouting a) j c = Some (k_zero K)));
    ft_subGains : shape (a_subGains a) (length (cf_subwoofers cf)) (length (cf_speakers cf));
    ft_sub : forall j s, nth_error (cf_subwoofers cf) j = Some s -> exists g d, gain_is K (sb_adjust s) g /\ delay_is K (sb_adjust s) d
       /\ nth_error (a_gain a) (length (cf_speakers cf) + j) = Some g /\ nth_error (a_delay a) (length (cf_speakers cf) + j) = Some d
       /\ equalised K (cf_eqs cf) (sb_eq s) (row_at (a_eqs a) (length (cf_speakers cf) + j))
       /\ exists entries, weights_are K s entries /\ (forall e, In e entries -> exists k, mget (a_id a) (fst e) = Some k)
       /\ (to_regular cf -> forall c, c < length (cf_speakers cf) -> (exists x, last_at (a_id a) entries c x /\ cell (a_subGains a) j c = Some x)
            \/ ((forall e, In e entries -> mget (a_id a) (fst e) <> Some c) /\ cell (a_subGains a) j c = Some (k_zero K)));
    ft_lengths : length (a_gain a) = length (cf_speakers cf) + length (cf_subwoofers cf) /\ length (a_delay a) = length (cf_speakers cf) + length (cf_subwoofers cf);
    ft_good : exists t, eq_good (cf_eqs cf) t (length (cf_speakers cf) + length (cf_subwoofers cf)) (a_eqs a) }.

  Lemma cell_zero rows columns r c : r < rows -> c < columns -> cell (matrix_resize (k_zero K) rows columns) r c = Some (k_zero K).
  Proof.
    intros Hr Hc. unfold cell, matrix_resize. cbn [m_data m_columns]. assert (r * columns + c < columns * rows) by nia.
    generalize (columns * rows) as n, (r * columns + c) as i, H. clear. induction n as [|n IH]; intros [|i] H; cbn [repeat nth_error]; try lia; [reflexivity|].
    apply IH. lia.
  Qed.
  Lemma shape_resize rows columns : shape (matrix_resize (k_zero K) rows columns) rows columns.
  Proof. split; [reflexivity|]. split; [reflexivity|]. apply repeat_length. Qed.
  Lemma resize_length {A} (l : list A) n d : length (vector_resize l n d) = n.
  Proof. unfold vector_resize. rewrite app_length, firstn_length, repeat_length. lia. Qed.

  Lemma load_outcome (U : Prop) (a0 : array) (cf : config) : a_id a0 = [] ->
    (forall w, k_float_sequence K w = UB -> U) -> (forall e s, In e (cf_eqs cf) -> In s (eq_specs e) -> fs_biquads s = UB -> U) ->
    ((to_regular cf -> False) -> U) -> outcome U (load K a0 cf) (facts cf).
  Proof.
    intros A0 HF HB HQ. unfold load. destruct (parse_dimension (cf_dimension cf)) as [is2D| |] eqn:ED; cbn [bind]; [|exact I|].
    2: { revert ED. unfold parse_dimension. destruct (cf_dimension cf) as [s|]; [destruct (String.eqb s "2"), (String.eqb s "3")|]; discriminate. }
    apply parse_dimension_iff in ED. fold (at_infinity cf). set (inf := at_infinity cf).
    set (R := length (cf_speakers cf)). set (W := length (cf_virtuals cf)). set (M := length (cf_subwoofers cf)).
    eapply outcome_bind; [apply (parse_eqs_outcome K U (cf_eqs cf) (R + M)); exact HB|]. intros [t eqs] _ [EG EO]. cbn [fst snd] in EG.
    assert (Lr : 0 + length (cf_speakers cf) <= length (repeat cInvalidChannel R)) by (rewrite repeat_length; reflexivity).
    rewrite A0. eapply outcome_bind; [apply (name_outcome U (cf_speakers cf) 0 [] _ Lr)|]. intros [ids1 ch] _ (ns & cs & F1 & F2 & ND & _ & M1 & O1 & L1 & C1 & _).
    cbn [fst snd] in *. rewrite repeat_length in L1.
    assert (ch = cs) as ->.
    { apply nth_ext_error. intros j. destruct (lt_dec j R) as [Lj|Lj]; [now apply C1|]. destruct (Forall2_nth _ _ _ F2) as (LF & _).
      rewrite (proj2 (nth_error_None ch j)) by lia. symmetry. apply nth_error_None. unfold R in Lj. lia. }
    pose proof (channels_of_eq cf cs F2) as EC. specialize (O1 (SSorted_nil _)).
    assert (Kn : forall s, In s (cf_speakers cf) -> known (sort cs) s).
    { intros s Hs. destruct (proj1 (Forall2_in _ _ _ F2) s Hs) as (c & Hc & E & _). exists c. split; [exact E|]. now apply sort_in. }
    assert (LC : length (sort cs) = R) by (rewrite sort_length; exact L1).
    eapply outcome_bind; [apply (fill_outcome K (sort cs) inf is2D (cf_eqs cf) t (R + M) U (R + W) (cf_speakers cf) _ Kn); [lia|lia|]|].
    { unfold sized. cbn [f_position f_gain f_delay f_eqs]. split; [apply resize_length|]. split; [apply repeat_length|]. split; [apply repeat_length|exact EG]. }
    intros f _ ((S1 & S2 & S3 & S4) & _ & Fi & Mk & Mg & Of). cbn [f_id] in Mk, Of. specialize (Of O1).
    pose proof (ids_nodup _ _ F1 ND) as NDi. specialize (Mg NDi).
    assert (Off : forall s c, In s (cf_speakers cf) -> sp_channel s = Some c -> off (sort cs) s = rank c cs /\ off (sort cs) s < R).
    { intros s c Hs E. unfold off. rewrite E. assert (I' : In c cs).
      { destruct (proj1 (Forall2_in _ _ _ F2) s Hs) as (c' & Hc & E' & _). congruence. }
      split; [now apply find_rank|]. rewrite <- LC. apply find_index_lt. now apply sort_in. }
    (* the table after the second pass *)
    assert (B2 : forall n k, mget (f_id f) n = Some k -> k < R).
    { intros n k E. destruct (in_dec (fun x y : option string => ltac:(decide equality; apply string_dec)) (Some n) (map sp_id (cf_speakers cf))) as [I'|I'].
      - apply in_map_iff in I'. destruct I' as (s & Es & Hs). destruct (Mg s Hs) as (raw & Er & Em). assert (raw = n) by congruence. subst raw.
        destruct (Kn s Hs) as (c & Ec & _). destruct (Off s c Hs Ec). congruence.
      - rewrite (Mk n I'), M1 in E. destruct (in_dec string_dec n ns) as [In'|]; [|discriminate]. injection E as <-.
        destruct (Forall2_nth _ _ _ F1) as (LF & _). fold R in LF. destruct ns; [destruct In'|]. cbn [length] in LF. lia. }
    assert (B1 : forall n, In n ns -> exists k, mget (f_id f) n = Some k).
    { intros n Hn. destruct (in_dec (fun x y : option string => ltac:(decide equality; apply string_dec)) (Some n) (map sp_id (cf_speakers cf))) as [I'|I'].
      - apply in_map_iff in I'. destruct I' as (s & Es & Hs). destruct (Mg s Hs) as (raw & Er & Em). assert (raw = n) by congruence. subst raw. eexists. exact Em.
      - exists 0. rewrite (Mk n I'), M1. destruct (in_dec string_dec n ns); [reflexivity|contradiction]. }
    eapply outcome_bind; [apply (add_virtuals_outcome K R inf is2D W U (cf_virtuals cf) R (f_id f) (f_position f) (matrix_resize (k_zero K) W R)); [reflexivity|rewrite S1; reflexivity|lia|apply shape_resize|]|].
    { intros H. apply HQ. intros [Q _]. apply H. intros v r n Hv Hr Hn. split; [exact (B2 n)|]. intros v' Hv' D'.
      apply In_nth_error in Hv'. destruct Hv' as (j & Hj). apply (Q v r n (R + j) Hv Hr Hn). exists j, v'. split; [exact Hj|]. split; [exact D'|reflexivity]. }
    intros [[ids pos] rr] _ (vs & V1 & V2 & V3 & V4 & V5 & V6 & V7 & V8 & V9 & V10 & _ & V12). specialize (V6 Of).
    eapply outcome_bind; [apply parse_triplets_outcome|]. intros trs _ Htr.
    assert (B3 : forall n k, mget ids n = Some k -> k < R \/ exists j v, nth_error (cf_virtuals cf) j = Some v /\ denotes (vi_id v) n /\ k = R + j).
    { intros n k E. destruct (in_dec string_dec n vs) as [I'|I']; [|left; apply (B2 n); rewrite <- (V5 n I'); exact E].
      right. apply In_nth_error in I'. destruct I' as (j & Hj). destruct (proj2 (proj2 (Forall2_nth _ _ _ V1)) j n Hj) as (v & Hv & D & _).
      exists j, v. split; [exact Hv|]. split; [exact D|]. rewrite (V4 j n Hj) in E. congruence. }
    eapply outcome_bind; [apply (add_subwoofers_outcome K R M ids (cf_eqs cf) t (R + M) U (cf_subwoofers cf) HF (le_n _) 0); [| |reflexivity]|].
    { intros H. apply HQ. intros [_ Q]. apply H. intros s Hs names n k Hl Hn E. destruct (B3 n k E) as [L|(j & v & Hv & D & ->)]; [exact L|].
      exfalso. apply (Q s names n (R + j) Hs Hl Hn). exists j, v. split; [exact Hv|]. split; [exact D|reflexivity]. }
    { unfold sub_sized. cbn [u_channels u_gains u_gain u_delay u_eqs]. split; [apply resize_length|]. split; [apply shape_resize|]. split; [exact S2|]. split; [exact S3|exact S4]. }
    intros u _ ((U1 & U2 & U3 & U4 & U5) & U6 & _ & U8 & _ & U10). cbn [u_channels u_gains u_gain u_delay u_eqs] in *.
    assert (F3 : Forall2 (fun s c => sb_channel s = Some c) (cf_subwoofers cf) (u_channels u)).
    { clear - U1 U6. assert (X : forall (l : list (@subwoofer V)) r, length r = length l -> (forall i s, nth_error l i = Some s -> exists c, sb_channel s = Some c /\ nth_error r i = Some c) -> Forall2 (fun s c => sb_channel s = Some c) l r).
      { induction l as [|s l IH]; intros [|c r] L H; try discriminate; [constructor|]. constructor.
        - destruct (H 0 s eq_refl) as (c' & E & E'). cbn [nth_error] in E'. congruence.
        - apply IH; [now injection L|]. intros i s' Hs. exact (H (S i) s' Hs). }
      apply X; [exact U1|]. intros i s Hs. destruct (U6 i s Hs) as (E & _). exact E. }
    pose proof (subchannels_of_eq cf _ F3) as EU.
    destruct (channels_distinct (sort cs) (u_channels u)) eqn:EDi; [|exact I]. apply channels_distinct_iff in EDi. cbn [outcome].
    assert (NDc : NoDup (cs ++ u_channels u)).
    { eapply Permutation_NoDup; [|exact EDi]. apply Permutation_app_tail. apply Permutation_sym, sort_perm. }
    assert (NDo : NoDup (map (off (sort cs)) (cf_speakers cf))).
    { apply NoDup_app_iff in EDi. destruct EDi as (NDs & _ & _). clear - F2 NDc NDs. assert (X : forall c, In c cs -> nth_error (sort cs) (find_index (sort cs) c) = Some c).
      { intros c Hc. apply find_index_nth. now apply sort_in. }
      apply NoDup_app_iff in NDc. destruct NDc as (ND & _). revert X ND. clear NDs. generalize (sort cs) as q. induction F2 as [|s c l r [E _] F IH]; intros q X ND; [constructor|].
      inversion ND as [|? ? Nin ND']. subst. cbn [map]. constructor; [|apply IH; [intros d Hd; apply X; now right|exact ND']].
      intros I'. apply in_map_iff in I'. destruct I' as (s' & Es & Hs). destruct (proj1 (Forall2_in _ _ _ F) s' Hs) as (d & Hd & Ed & _).
      unfold off in Es. rewrite E, Ed in Es. pose proof (X c (or_introl eq_refl)) as Y1. pose proof (X d (or_intror Hd)) as Y2. rewrite Es in Y2. assert (c = d) by congruence. subst d. exact (Nin Hd). }
    specialize (Fi NDo).
    assert (NV : forall n, In n ns -> ~ In n vs) by (intros n Hn Hv; destruct (B1 n Hn) as (k & E); rewrite (V3 n Hv) in E; discriminate).
    constructor; cbn [a_is2D a_isInfinite a_position a_triplet a_channel a_id a_subChannels a_subGains a_reRouting a_gain a_delay a_eqs].
    - exact ED.
    - reflexivity.
    - exact EO.
    - exists ns, vs. split; [exact F1|]. split; [exact V1|]. apply NoDup_app_iff. split; [exact ND|]. split; [exact V2|exact NV].
    - intros s Hs. destruct (proj1 (Forall2_in _ _ _ F2) s Hs) as (c & _ & E & L). exists c. split; assumption.
    - intros s Hs. destruct (proj1 (Forall2_in _ _ _ F3) s Hs) as (c & _ & E). exists c. exact E.
    - rewrite EC, EU. exact NDc.
    - now rewrite EC.
    - now rewrite EU.
    - exact V6.
    - intros UP n k. split.
      + intros E. destruct (B3 n k E) as [L|X]; [|now right]. left. destruct (in_dec string_dec n vs) as [I'|I'].
        { apply In_nth_error in I'. destruct I' as (j & Hj). rewrite (V4 j n Hj) in E. injection E as <-. lia. }
        rewrite (V5 n I') in E. destruct (in_dec (fun x y : option string => ltac:(decide equality; apply string_dec)) (Some n) (map sp_id (cf_speakers cf))) as [J|J].
        * apply in_map_iff in J. destruct J as (s & Es & Hs). destruct (Mg s Hs) as (raw & Er & Em). assert (raw = n) by congruence. subst raw.
          destruct (Kn s Hs) as (c & Ec & _). exists s, c. split; [exact Hs|]. split; [exists n; split; [exact Es|exact (UP s n Hs Es)]|]. split; [exact Ec|].
          rewrite EC. destruct (Off s c Hs Ec). congruence.
        * rewrite (Mk n J), M1 in E. destruct (in_dec string_dec n ns) as [I2|]; [|discriminate]. exfalso. apply J.
          destruct (proj2 (Forall2_in _ _ _ F1) n I2) as (s & Hs & D & _). apply denotes_iff in D. destruct D as (raw & Er & ->).
          rewrite <- (stripped_trim raw raw (UP s raw Hs Er)). rewrite <- Er. now apply in_map.
      + intros [(s & c & Hs & D & Ec & ->)|(j & v & Hv & D & ->)].
        * destruct (Mg s Hs) as (raw & Er & Em). destruct (proj1 (Forall2_in _ _ _ F1) s Hs) as (n' & Hn' & D' & _). pose proof (denotes_unique _ _ _ D D') as X. subst n'.
          rewrite (V5 n (NV n Hn')). apply denotes_iff in D. destruct D as (raw' & Er' & ->). assert (raw' = raw) by congruence. subst raw'.
          rewrite <- (stripped_trim raw raw (UP s raw Hs Er)), Em, EC. destruct (Off s c Hs Ec) as [-> _]. reflexivity.
        * destruct (proj1 (proj2 (Forall2_nth _ _ _ V1)) j v Hv) as (n' & Hn' & D' & _). rewrite (denotes_unique _ _ _ D D'). exact (V4 j n' Hn').
    - exact B3.
    - intros s Hs. destruct (Kn s Hs) as (c & Ec & _). destruct (Off s c Hs Ec) as [Eo Lo]. destruct (Fi s Hs) as (v & g & d & X1 & X2 & X3 & X4 & X5 & X6 & X7).
      rewrite Eo in *. destruct (U8 (rank c cs)) as (Y1 & Y2 & Y3); [lia|]. exists c, v, g, d. rewrite EC. cbn zeta. rewrite V8 by lia. rewrite Y1, Y2, Y3.
      split; [exact Ec|]. split; [exact X1|]. split; [exact X2|]. split; [exact X3|]. split; [exact X4|]. split; [exact X5|]. split; [exact X6|exact X7].
    - exact V9.
    - rewrite V7. exact S1.
    - exact Htr.
    - exact V10.
    - intros j v Hv. destruct (V12 j v Hv) as (en & X1 & X2 & X3). exists en. split; [exact X1|]. split; [exact X2|]. intros [Q _] c Hc.
      assert (Lj : j < W) by (apply nth_error_Some; rewrite Hv; discriminate). assert (Q' : virtuals_safe R (f_id f) (cf_virtuals cf)).
      { intros v0 r n Hv0 Hr Hn. split; [exact (B2 n)|]. intros v' Hv' D'. apply In_nth_error in Hv'. destruct Hv' as (i & Hi).
        apply (Q v0 r n (R + i) Hv0 Hr Hn). exists i, v'. split; [exact Hi|]. split; [exact D'|reflexivity]. }
      specialize (X3 Q' c Hc). rewrite Nat.sub_diag in X3. cbn [Nat.add] in X3. rewrite (cell_zero W R j c Lj Hc) in X3. exact X3.
    - exact U2.
    - intros j s Hs. destruct (U6 j s Hs) as (_ & (g & d & X1 & X2 & X3 & X4) & X5). exists g, d. split; [exact X1|]. split; [exact X2|]. split; [exact X3|]. split; [exact X4|].
      split; [exact X5|]. destruct (U10 j s Hs) as (en & [Y1 Y2] & Y3). exists en. split; [exact Y1|]. split; [exact Y2|]. intros [_ Q] c Hc.
      assert (Lj : j < M) by (apply nth_error_Some; rewrite Hs; discriminate). assert (Q' : forall s, In s (cf_subwoofers cf) -> sub_safe R ids s).
      { intros s' Hs' names n k Hl Hn E. destruct (B3 n k E) as [L|(i & v & Hv & D & ->)]; [exact L|].
        exfalso. apply (Q s' names n (R + i) Hs' Hl Hn). exists i, v. split; [exact Hv|]. split; [exact D|reflexivity]. }
      specialize (Y3 Q' c Hc). cbn [Nat.add] in Y3. rewrite (cell_zero M R j c Lj Hc) in Y3. exact Y3.
    - split; assumption.
    - exists t. exact U5.
  Qed.

  (** ** Correct documents are accepted *)

  Lemma outcome_ok {A} (m : res A) x (P : A -> Prop) : m = Ok x -> outcome True m P -> P x.
  Proof. intros ->. exact (fun H => H). Qed.

  Lemma load_total (a0 : array) (cf : config) : a_id a0 = [] -> unpadded cf -> valid K cf -> exists a, load K a0 cf = Ok a.
  Proof.
    intros A0 UP (is2D & Pl & EO & (ns & vs & F1 & V1 & NDn) & (Ch & Sc & NDc) & Hs & Hv & Ht & Hb). apply NoDup_app_iff in NDn. destruct NDn as (ND & NDv & NV).
    unfold load. rewrite (proj2 (parse_dimension_iff cf is2D) Pl). cbn [bind]. fold (at_infinity cf). set (inf := at_infinity cf).
    set (R := length (cf_speakers cf)). set (W := length (cf_virtuals cf)). set (M := length (cf_subwoofers cf)).
    destruct (parse_eqs_total K (cf_eqs cf) (R + M) EO) as ([t eqs] & E1). rewrite E1. cbn [bind].
    destruct (outcome_ok _ _ _ E1 (parse_eqs_outcome K True (cf_eqs cf) (R + M) (fun _ _ _ _ _ => I))) as [EG _]. cbn [fst snd] in EG.
    assert (X : exists cs, Forall2 (fun s c => sp_channel s = Some c /\ (1 <= c)%N) (cf_speakers cf) cs).
    { clear - Ch. induction (cf_speakers cf) as [|s l IH]; [exists []; constructor|]. destruct (Ch s (or_introl eq_refl)) as (c & Hc).
      destruct IH as (cs & Hcs); [intros s' H'; apply Ch; now right|]. exists (c :: cs). now constructor. }
    destruct X as (cs0 & F2). pose proof (channels_of_eq cf cs0 F2) as EC.
    assert (Inv : forall j, 0 <= j < 0 + length (cf_speakers cf) -> nth_error (repeat cInvalidChannel R) j = Some cInvalidChannel).
    { intros j [_ Hj]. cbn [Nat.add] in Hj. fold R in Hj. clear - Hj. revert j Hj. induction R as [|n IH]; intros [|j] H; cbn [repeat nth_error]; [lia|lia|reflexivity|]. apply IH. lia. }
    rewrite A0. destruct (name_total (cf_speakers cf) ns cs0 0 [] _ F1 F2 ND (fun _ _ => eq_refl) Inv) as ([ids1 ch] & E2). rewrite E2. cbn [bind].
    assert (Lr : 0 + length (cf_speakers cf) <= length (repeat cInvalidChannel R)) by (rewrite repeat_length; reflexivity).
    destruct (outcome_ok _ _ _ E2 (name_outcome True (cf_speakers cf) 0 [] _ Lr)) as (ns' & cs & F1' & F2' & _ & _ & M1 & O1 & L1 & C1 & _).
    cbn [fst snd] in *. rewrite repeat_length in L1. pose proof (channels_of_eq cf cs F2') as EC'. assert (Ecs : cs0 = cs) by congruence. rewrite Ecs in *. clear cs0 Ecs EC'.
    assert (ch = cs) as ->.
    { apply nth_ext_error. intros j. destruct (lt_dec j R) as [Lj|Lj]; [now apply C1|]. destruct (Forall2_nth _ _ _ F2) as (LF & _).
      rewrite (proj2 (nth_error_None ch j)) by lia. symmetry. apply nth_error_None. unfold R in Lj. lia. }
    assert (Kn : forall s, In s (cf_speakers cf) -> known (sort cs) s).
    { intros s Hs'. destruct (proj1 (Forall2_in _ _ _ F2) s Hs') as (c & Hc & E & _). exists c. split; [exact E|]. now apply sort_in. }
    assert (LC : length (sort cs) = R) by (rewrite sort_length; exact L1).
    set (f0 := Filling ids1 _ _ _ eqs). assert (Sz : sized (cf_eqs cf) t (R + M) (R + W) f0).
    { unfold sized, f0. cbn [f_position f_gain f_delay f_eqs]. split; [apply resize_length|]. split; [apply repeat_length|]. split; [apply repeat_length|exact EG]. }
    assert (L1' : length (sort cs) <= R + W) by lia. assert (L2' : length (sort cs) <= R + M) by lia.
    destruct (fill_total K (sort cs) inf is2D (cf_eqs cf) t (R + M) (R + W) (cf_speakers cf) f0) as (f & E3); [|exact L1'|exact L2'|exact Sz|].
    { intros s Hs'. split; [now apply Kn|]. destruct (Hs s Hs') as (Lo & Hg & He). split; [|split; [exact Lo|split; [exact Hg|exact He]]].
      destruct (proj1 (Forall2_in _ _ _ F1) s Hs') as (n & _ & (raw & Er & _) & _). exists raw. exact Er. }
    rewrite E3. cbn [bind].
    destruct (outcome_ok _ _ _ E3 (fill_outcome K (sort cs) inf is2D (cf_eqs cf) t (R + M) True (R + W) (cf_speakers cf) f0 Kn L1' L2' Sz)) as ((S1 & S2 & S3 & S4) & _ & _ & Mk & Mg & _).
    unfold f0 in Mk. cbn [f_id] in Mk. specialize (Mg (ids_nodup _ _ F1 ND)). clear f0 Sz E3.
    assert (Reg : forall n k, regular cf n k -> In n ns /\ n <> EmptyString /\ mget (f_id f) n = Some k /\ k < R).
    { intros n k (s & c & Hs' & D & Ec & ->). destruct (proj1 (Forall2_in _ _ _ F1) s Hs') as (n' & Hn' & D' & Ac). pose proof (denotes_unique _ _ _ D D') as X. subst n'.
      split; [exact Hn'|]. split; [exact (proj1 Ac)|]. destruct (Mg s Hs') as (raw & Er & Em). apply denotes_iff in D. destruct D as (raw' & Er' & ->).
      assert (raw' = raw) by congruence. subst raw'. rewrite <- (stripped_trim raw raw (UP s raw Hs' Er)), Em. unfold off. rewrite Ec. rewrite EC.
      assert (I' : In c cs) by (destruct (proj1 (Forall2_in _ _ _ F2) s Hs') as (c' & Hc & E' & _); congruence).
      rewrite (find_rank c cs I'). split; [reflexivity|]. rewrite <- (find_rank c cs I'), <- LC. apply find_index_lt. now apply sort_in. }
    assert (Ab : forall n, In n vs -> mget (f_id f) n = None).
    { intros n Hn. rewrite Mk.
      - rewrite M1. destruct (in_dec string_dec n ns') as [I'|]; [|reflexivity]. exfalso. destruct (proj2 (Forall2_in _ _ _ F1') n I') as (s & Hs' & D & _).
        destruct (proj1 (Forall2_in _ _ _ F1) s Hs') as (n' & Hn' & D' & _). rewrite <- (denotes_unique _ _ _ D D') in Hn'. exact (NV n Hn' Hn).
      - intros I'. apply in_map_iff in I'. destruct I' as (s & Es & Hs'). destruct (proj1 (Forall2_in _ _ _ F1) s Hs') as (n' & Hn' & D' & _).
        apply (NV n); [|exact Hn]. apply denotes_iff in D'. destruct D' as (raw & Er & ->). assert (raw = n) by congruence. subst raw.
        rewrite <- (stripped_trim n n (UP s n Hs' Er)) in Hn'. exact Hn'. }
    destruct (add_virtuals_total K R inf is2D W (cf_virtuals cf) vs R (f_id f) (f_position f) (matrix_resize (k_zero K) W R) V1 NDv Ab) as ([[ids pos] rr] & E4);
      [reflexivity|rewrite S1; reflexivity|fold W; lia|apply shape_resize| |].
    { intros v Hv'. destruct (Hv v Hv') as (Lo & en & Ren & Hen). split; [exact Lo|]. exists en. split; [exact Ren|]. intros e He. destruct (Hen (fst e) (in_map fst _ _ He)) as (k & Hk).
      destruct (Reg _ _ Hk) as (_ & NE & Em & Lk). split; [exact NE|]. exists k. split; assumption. }
    rewrite E4. cbn [bind].
    assert (LW : R - R + length (cf_virtuals cf) <= W) by (fold W; lia). assert (LP : R + length (cf_virtuals cf) <= length (f_position f)) by (rewrite S1; reflexivity).
    destruct (outcome_ok _ _ _ E4 (add_virtuals_outcome K R inf is2D W True (cf_virtuals cf) R (f_id f) (f_position f) (matrix_resize (k_zero K) W R) (le_n _) LP LW (shape_resize W R) (fun _ => I)))
      as (vs' & V1' & _ & _ & V4 & V5 & _).
    assert (Vs : forall n, In n ns -> ~ In n vs').
    { intros n Hn Hn'. destruct (proj2 (Forall2_in _ _ _ V1') n Hn') as (v & Hv' & D & _). destruct (proj1 (Forall2_in _ _ _ V1) v Hv') as (n2 & Hn2 & D2 & _).
      rewrite <- (denotes_unique _ _ _ D D2) in Hn2. exact (NV n Hn Hn2). }
    assert (Reg' : forall n k, regular cf n k -> mget ids n = Some k /\ k < R).
    { intros n k H. destruct (Reg n k H) as (Hn & _ & Em & Lk). rewrite (V5 n (Vs n Hn)). split; assumption. }
    assert (Res : forall o n k, denotes o n -> numbered cf n k -> resolves ids o k).
    { intros o n k D [H|(j & v & Hv' & D' & ->)]; exists n; (split; [exact D|]).
      - destruct (Reg n k H) as (_ & NE & _). split; [exact NE|]. exact (proj1 (Reg' n k H)).
      - destruct (proj1 (proj2 (Forall2_nth _ _ _ V1')) j v Hv') as (n' & Hn' & D2 & Ac). rewrite (denotes_unique _ _ _ D' D2).
        split; [exact (proj1 Ac)|]. exact (V4 j n' Hn'). }
    destruct (parse_triplets_total is2D ids (cf_triplets cf)) as (trs & E5).
    { intros tr Htr. destruct (Ht tr Htr) as ([[k1 k2] k3] & (n1 & D1 & N1) & (n2 & D2 & N2) & K3). exists (k1, k2, k3). unfold triplet_at. cbn [fst snd].
      split; [exact (Res _ _ _ D1 N1)|]. split; [exact (Res _ _ _ D2 N2)|]. destruct K3 as [[P ->]|[P (n & k & D3 & N3 & ->)]].
      - left. split; [|reflexivity]. apply parse_dimension_iff in P. apply parse_dimension_iff in Pl. congruence.
      - right. split; [apply parse_dimension_iff in P; apply parse_dimension_iff in Pl; congruence|]. exists k. split; [exact (Res _ _ _ D3 N3)|reflexivity]. }
    rewrite E5. cbn [bind]. set (u0 := Subs _ _ (f_gain f) (f_delay f) (f_eqs f)).
    assert (Su : sub_sized R M (cf_eqs cf) t (R + M) u0).
    { unfold sub_sized, u0. cbn [u_channels u_gains u_gain u_delay u_eqs]. split; [apply resize_length|]. split; [apply shape_resize|]. split; [exact S2|]. split; [exact S3|exact S4]. }
    destruct (add_subwoofers_total K R M ids (cf_eqs cf) t (R + M) (cf_subwoofers cf) (fun _ _ => I) (le_n _) 0 u0) as (u & E6); [|exact Su|reflexivity|].
    { intros s Hs'. destruct (Hb s Hs') as ((Hg & He) & en & We & Hen). split; [exact (Sc s Hs')|]. split; [exact Hg|]. split; [exact He|]. exists en. split; [exact We|].
      intros e He'. destruct (Hen (fst e) (in_map fst _ _ He')) as (k & Hk). exists k. exact (Reg' _ _ Hk). }
    rewrite E6. cbn [bind].
    destruct (outcome_ok _ _ _ E6 (add_subwoofers_outcome K R M ids (cf_eqs cf) t (R + M) True (cf_subwoofers cf) (fun _ _ => I) (le_n _) 0 u0 (fun _ => I) Su (le_n _))) as ((U1 & _) & U6 & _).
    assert (EU : u_channels u = subchannels_of cf).
    { symmetry. apply subchannels_of_eq. clear - U1 U6. assert (X : forall (l : list (@subwoofer V)) r, length r = length l -> (forall i s, nth_error l i = Some s -> exists c, sb_channel s = Some c /\ nth_error r i = Some c) -> Forall2 (fun s c => sb_channel s = Some c) l r).
      { induction l as [|s l IH]; intros [|c r] L H; try discriminate; [constructor|]. constructor.
        - destruct (H 0 s eq_refl) as (c' & E & E'). cbn [nth_error] in E'. congruence.
        - apply IH; [now injection L|]. intros i s' Hs. exact (H (S i) s' Hs). }
      apply X; [exact U1|]. intros i s Hs. destruct (U6 i s Hs) as (E & _). exact E. }
    rewrite (proj2 (channels_distinct_iff (sort cs) (u_channels u))); [eexists; reflexivity|]. rewrite EU. rewrite EC in NDc.
    eapply Permutation_NoDup; [|exact NDc]. apply Permutation_app_tail, sort_perm.
  Qed.
End Load.
