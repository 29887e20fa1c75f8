(** * C62: the gains of the panning calculator *)
From Verif Require Import Base QuaternionModel QuaternionProofs ListenerModel VbapModel VbapSpec VbapProofs VbapLaws VbapProps VbapVirtualProps PannerModel PannerSpec PannerProofs.
From Coq Require Import Reals Lra.
From Coq Require String Ascii.
Local Open Scope R_scope.
Local Open Scope res_scope.

(** ** What every object vector keeps, even with channels out of range *)
Definition same_length (m m' : option (list R)) : Prop := match m, m' with Some d, Some d' => length d' = length d | None, None => True | _, _ => False end.
Definition kept (p p' : panner) : Prop := config p' = config p /\ same_length (n_lf p) (n_lf p') /\ same_length (n_hf p) (n_hf p') /\ same_length (n_diffuse p) (n_diffuse p').
Lemma same_length_refl m : same_length m m. Proof. destruct m; cbn; auto. Qed.
Lemma same_length_trans m m' m'' : same_length m m' -> same_length m' m'' -> same_length m m''.
Proof. destruct m, m', m''; cbn; try tauto. congruence. Qed.
Lemma kept_refl p : kept p p. Proof. split; [reflexivity|]. split; [|split]; apply same_length_refl. Qed.
Lemma kept_trans p p' p'' : kept p p' -> kept p' p'' -> kept p p''.
Proof. intros (A & B & C & D) (A' & B' & C' & D'). split; [congruence|]. split; [|split]; eapply same_length_trans; eauto. Qed.
Lemma write_strided_length s : forall vals d out d', write_strided d out s vals = Ok d' -> length d' = length d.
Proof.
  induction vals as [|x vals IH]; intros d out d' E; cbn [write_strided] in E; [apply Ok_inj in E; now subst|].
  destruct (vset d out x) as [d1| |] eqn:E1; try discriminate. cbn [bind] in E. apply vset_length in E1. rewrite (IH _ _ _ E). exact E1.
Qed.
Lemma write_to_length epsilon m g ch mode c level m' : write_to epsilon m g ch mode c level = Ok m' -> same_length m m'.
Proof.
  unfold write_to, normalise_into. destruct m as [d|]; [|intros E; apply Ok_inj in E; subst; exact I]. destruct (write_strided d ch (stride c) _) as [d'| |] eqn:E; try discriminate.
  intros E'. apply Ok_inj in E'. subst m'. cbn [same_length]. eapply write_strided_length; eauto.
Qed.
Lemma write_gains_kept epsilon p ch lf hf df a b p' : write_gains epsilon p ch lf hf df a b = Ok p' -> kept p p'.
Proof.
  unfold write_gains. destruct (write_to epsilon (n_lf p) lf ch (n_lfNorm p) (n_objects p) a) as [l| |] eqn:E1; try discriminate. cbn [bind].
  destruct (write_to epsilon (n_hf p) hf ch (n_hfNorm p) (n_objects p) a) as [h| |] eqn:E2; try discriminate. cbn [bind].
  destruct (write_to epsilon (n_diffuse p) df ch (n_diffuseNorm p) (n_objects p) b) as [d| |] eqn:E3; try discriminate. cbn [bind]. intros E. apply Ok_inj in E. subst p'.
  split; [reflexivity|]. split; [|split]; eapply write_to_length; eauto.
Qed.
Lemma channel_object_kept epsilon d labels : forall chs p j p', channel_object epsilon p chs d labels j = Ok p' -> kept p p'.
Proof.
  induction chs as [|c chs IH]; intros p j p' E; cbn [channel_object] in E; [apply Ok_inj in E; subst; apply kept_refl|].
  destruct (nth_error labels j); [|discriminate]. destruct (label_gains _ _ _) as [g| |]; try discriminate. cbn [bind] in E.
  destruct (write_gains epsilon p c g g g (1 - d) d) as [p1| |] eqn:E1; try discriminate. cbn [bind] in E. eapply kept_trans; [eapply write_gains_kept; eauto|eapply IH; eauto].
Qed.
Lemma panned_kept epsilon p ch g df r p' : panned epsilon p ch g df r = Ok p' -> kept p p'.
Proof. unfold panned. destruct (match n_hf p with Some _ => map_res square_root g | None => Ok [] end) as [hf| |]; try discriminate. cbn [bind]. apply write_gains_kept. Qed.
Lemma process_object_kept epsilon p o p' : process_object epsilon p o = Ok p' -> kept p p'.
Proof.
  unfold process_object. assert (Idle : Ok p = Ok p' -> kept p p') by (intros E; apply Ok_inj in E; subst; apply kept_refl).
  destruct (so_content o) as [d labels| |az el dist|pos|pos d|]; [apply channel_object_kept| | | | |]; destruct (so_channels o) as [|ch [|ch' chs]]; try exact Idle.
  - destruct (n_diffuse p) as [d|] eqn:ED; [|exact Idle]. destruct (normalise_into epsilon _ d ch _ _ 1) as [d'| |] eqn:E; try discriminate. cbn [bind]. intros E'. apply Ok_inj in E'. subst p'.
    split; [reflexivity|]. split; [apply same_length_refl|]. split; [apply same_length_refl|]. rewrite ED. cbn [same_length n_diffuse]. eapply write_strided_length; eauto.
  - destruct (calculateGainsUnNormalised _ _ _) as [g| |]; try discriminate. cbn [bind]. apply panned_kept.
  - destruct (calculateGainsUnNormalised _ _ _) as [g| |]; try discriminate. cbn [bind]. apply panned_kept.
  - destruct (calculateGainsUnNormalised _ _ _) as [g| |]; try discriminate. cbn [bind]. apply panned_kept.
Qed.
Lemma process_each_kept epsilon : forall os p p', process_each epsilon p os = Ok p' -> kept p p'.
Proof.
  induction os as [|o os IH]; intros p p' E; cbn [process_each] in E; [apply Ok_inj in E; subst; apply kept_refl|].
  destruct (process_object epsilon p o) as [p1| |] eqn:E1; try discriminate. cbn [bind] in E. eapply kept_trans; [eapply process_object_kept; eauto|eapply IH; eauto].
Qed.
Lemma kept_sized n regular m m' : same_length m m' -> sized n regular m -> sized n regular m'.
Proof. destruct m, m'; cbn; try tauto. congruence. Qed.
Lemma kept_ready ids n regular p p' : kept p p' -> ready ids n regular p -> ready ids n regular p'.
Proof.
  intros (C & A & B & D) ((Fn & Fr & S1 & S2 & S3) & T & V). pose proof C as C'. unfold config in C'. injection C' as Q1 Q2 Q3 Q4 _ _ _.
  split; [split; [congruence|split; [congruence|split; [|split]]]; eapply kept_sized; eauto|]. rewrite Q3, Q4. split; assumption.
Qed.

(** ** The state along a run *)
Section Along.
  Variables (epsilon : R) (a : array) (ids : list (String.string * nat)) (n : nat) (mode : panning_mode) (lfN hfN dN : normalisation).
  Hypothesis Hids : named ids (a_regular a).
  Let regular := a_regular a.
  Local Notation sshown := (scene_shown epsilon a ids n mode lfN hfN dN).
  Definition follows (l : pos3 R) (p : panner) : Prop :=
    ready ids n regular p /\ setListenerPosition epsilon a l = Ok (n_vbap p)
    /\ n_lfNorm p = lf_norm mode lfN /\ n_hfNorm p = or_energy hfN /\ n_diffuseNorm p = or_energy dN
    /\ (n_lf p = None <-> md_lf mode = false) /\ (n_hf p = None <-> md_hf mode = false) /\ (n_diffuse p = None <-> md_diffuse mode = false).
  Lemma vbap_array l v : setListenerPosition epsilon a l = Ok v -> v_array v = a.
  Proof using. unfold setListenerPosition. destruct (map_res _ _) as [i| |]; try discriminate. cbn [bind]. intros E. apply Ok_inj in E. now subst v. Qed.
  Lemma same_length_none m m' : same_length m m' -> (m = None <-> m' = None). Proof using. destruct m, m'; cbn; intuition discriminate. Qed.
  Lemma kept_follows l p p' : kept p p' -> follows l p -> follows l p'.
  Proof using.
    intros K (Rd & S & N1 & N2 & N3 & O1 & O2 & O3). split; [eapply kept_ready; eauto|]. destruct K as (C & A & B & D). rewrite (config_vbap _ _ C). destruct (config_norms _ _ C) as (Q1 & Q2 & Q3).
    apply same_length_none in A, B, D. repeat (split; [first [congruence|tauto]|]). tauto.
  Qed.
  Lemma construct_follows l p : construct epsilon a ids n mode lfN hfN dN l = Ok p -> follows l p /\ forall ch, zero_at n regular p ch.
  Proof using Hids.
    unfold construct. destruct (fillLabelLookup_ok ids (a_regular a) Hids) as (t & -> & T). cbn [bind]. destruct (setListenerPosition epsilon a l) as [v| |] eqn:EV; try discriminate. cbn [bind].
    intros E. apply Ok_inj in E. subst p. split.
    - split; [|split; [exact EV|]].
      + split; [|split; [exact T|cbn [n_vbap]; now rewrite (vbap_array _ _ EV)]]. split; [reflexivity|]. split; [reflexivity|]. cbn [n_lf n_hf n_diffuse].
        destruct (md_lf mode), (md_hf mode), (md_diffuse mode); cbn [sized]; repeat split; apply repeat_length.
      + cbn [n_lfNorm n_hfNorm n_diffuseNorm n_lf n_hf n_diffuse]. split; [reflexivity|]. split; [reflexivity|]. split; [reflexivity|].
        destruct (md_lf mode), (md_hf mode), (md_diffuse mode); repeat split; try discriminate; reflexivity.
    - intros ch. unfold zero_at, cols. cbn [n_lf n_hf n_diffuse]. destruct (md_lf mode), (md_hf mode), (md_diffuse mode); cbn [col_is]; repeat split; apply zero_column.
  Qed.
  Lemma set_listener_follows l l' p p' : follows l p -> set_listener epsilon p l' = Ok p' -> follows l' p' /\ (n_lf p', n_hf p', n_diffuse p') = (n_lf p, n_hf p, n_diffuse p).
  Proof using.
    intros (Rd & S & F) E. unfold set_listener in E. rewrite (vbap_array _ _ S) in E. destruct (setListenerPosition epsilon a l') as [v| |] eqn:EV; try discriminate. cbn [bind] in E. apply Ok_inj in E. subst p'.
    split; [|reflexivity]. destruct Rd as (Ft & T & A). split; [split; [exact Ft|split; [exact T|cbn [n_vbap]; now rewrite (vbap_array _ _ EV)]]|]. split; [exact EV|exact F].
  Qed.
  Lemma cols_shown l p ch lf hf df : follows l p -> cols n regular p ch lf hf df -> shown regular n mode p ch lf hf df.
  Proof using.
    intros (_ & _ & _ & _ & _ & O1 & O2 & O3) (C1 & C2 & C3). unfold shown, col_is in *.
    split; [|split]; [destruct (md_lf mode), (n_lf p) as [d|]|destruct (md_hf mode), (n_hf p) as [d|]|destruct (md_diffuse mode), (n_diffuse p) as [d|]];
      try (exists d; split; [reflexivity|assumption]); try reflexivity; exfalso; intuition discriminate.
  Qed.
  Lemma shown_same p p' s : (n_lf p', n_hf p', n_diffuse p') = (n_lf p, n_hf p, n_diffuse p) -> sshown s p -> sshown s p'.
  Proof using.
    intros E. injection E as E1 E2 E3. assert (X : forall ch x y z, shown regular n mode p ch x y z -> shown regular n mode p' ch x y z) by (intros ch x y z; unfold shown; now rewrite E1, E2, E3).
    destruct s as [[objects l]|]; unfold scene_shown; [|intros H ch Hc; apply X, H, Hc]. intros H Hr. destruct (H Hr) as (v & EV & K). exists v. split; [exact EV|]. intros ch Hc. destruct (K ch Hc) as [A B].
    split; [intros Hn; apply X, A, Hn|]. intros o k Hu. destruct (B o k Hu) as (lf & hf & df & r & V1 & V2 & V3). exists lf, hf, df, r. split; [exact V1|]. split; [exact V2|]. apply X, V3.
  Qed.
  Lemma process_objects_shown l p os p' : follows l p -> process_objects epsilon p os = Ok p' -> follows l p' /\ sshown (Some (os, l)) p'.
  Proof using.
    intros F E. rewrite process_objects_wiped in E. destruct (wiped_ready ids n regular p (proj1 F)) as (Rd & C & S & Z).
    assert (F' : follows l (wiped p)).
    { destruct F as (_ & EV & N1 & N2 & N3 & O). split; [exact Rd|]. split; [exact EV|]. repeat (split; [assumption|]). destruct S as (S1 & S2 & S3). tauto. }
    pose proof (kept_follows l _ _ (process_each_kept _ _ _ _ E) F') as F2. split; [exact F2|]. unfold scene_shown. intros Hr. exists (n_vbap (wiped p)). split; [exact (proj1 (proj2 F'))|].
    destruct (process_each_moves epsilon ids n regular os (wiped p) p' Rd Hr E) as [(_ & _ & _ & K) V]. intros ch Hc. split.
    - intros Hn. eapply cols_shown; [exact F2|]. eapply keeps_cols; [apply K; [exact Hn|exact Hc]|]. apply Z.
    - intros o k (Ho & Hk & Hu). destruct (V o k ch Ho Hk Hu (Z ch)) as (lf & hf & df & r & V1 & V2 & V3). exists lf, hf, df, r. split; [exact V1|].
      destruct F' as (_ & _ & N1 & N2 & N3 & _ & O2 & _). rewrite N1, N2, N3 in V3. split; [|eapply cols_shown; eauto]. intros M. apply V2. intros X. apply O2 in X. congruence.
  Qed.
  Lemma process_shown l p i p' : follows l p -> process epsilon p i = Ok p' ->
    follows (match fst i with Some x => x | None => l end) p'
    /\ match snd i with Some os => sshown (Some (os, match fst i with Some x => x | None => l end)) p' | None => (n_lf p', n_hf p', n_diffuse p') = (n_lf p, n_hf p, n_diffuse p) end.
  Proof using.
    intros F E. unfold process in E. destruct i as [li oi]. cbn [fst snd] in *. destruct li as [l'|].
    - destruct (set_listener epsilon p l') as [p1| |] eqn:E1; try discriminate. cbn [bind] in E. destruct (set_listener_follows _ _ _ _ F E1) as [F1 O1].
      destruct oi as [os|]; [exact (process_objects_shown _ _ _ _ F1 E)|]. apply Ok_inj in E. subst p'. split; assumption.
    - cbn [bind] in E. destruct oi as [os|]; [exact (process_objects_shown _ _ _ _ F E)|]. apply Ok_inj in E. subst p'. split; [exact F|reflexivity].
  Qed.
  Lemma run_shown : forall inputs l p p' s, follows l p -> sshown s p -> run epsilon p inputs = Ok p' ->
    sshown (match last_scene inputs l with Some x => Some x | None => s end) p'.
  Proof using.
    induction inputs as [|[li oi] inputs IH]; intros l p p' s F S E; cbn [run] in E; [apply Ok_inj in E; subst p'; exact S|].
    destruct (process epsilon p (li, oi)) as [p1| |] eqn:E1; try discriminate. cbn [bind] in E. destruct (process_shown _ _ _ _ F E1) as [F1 S1]. cbn [fst snd] in *. cbn [last_scene].
    set (l1 := match li with Some x => x | None => l end) in *. destruct oi as [os|].
    - specialize (IH l1 p1 p' _ F1 S1 E). destruct (last_scene inputs l1); exact IH.
    - specialize (IH l1 p1 p' s F1 (shown_same _ _ _ S1 S) E). destruct (last_scene inputs l1); exact IH.
  Qed.
End Along.

(** ** Theorems *)
(** After any sequence of blocks the outputs are those of the last object vector, for the listener
    known at that time: zero before the first object vector; then every channel that one object uses
    has the gains of this object at the levels of its direct and diffuse parts, and a channel that no
    object uses is silent.
    Missing for the full claim: the listener of the current block, channels out of range, unknown
    labels, sources outside all triplets, angles in degrees (refuted below). *)
Theorem C62_scene_partial : forall epsilon a ids n mode lfN hfN dN l0 inputs p0 p,
  named ids (a_regular a) -> construct epsilon a ids n mode lfN hfN dN l0 = Ok p0 -> run epsilon p0 inputs = Ok p ->
  scene_shown epsilon a ids n mode lfN hfN dN (last_scene inputs l0) p.
Proof.
  intros epsilon a ids n mode lfN hfN dN l0 inputs p0 p H C R. destruct (construct_follows epsilon a ids n mode lfN hfN dN H l0 p0 C) as [F Z].
  assert (S : scene_shown epsilon a ids n mode lfN hfN dN None p0) by (intros ch _; eapply cols_shown; [exact F|apply Z]).
  pose proof (run_shown epsilon a ids n mode lfN hfN dN inputs l0 p0 p None F S R) as O. destruct (last_scene inputs l0); exact O.
Qed.

(** *** Levels *)
Lemma amplitude_scale k g : size_of Amplitude (map (fun x => k * x) g) = Rabs k * size_of Amplitude g.
Proof. cbn [size_of]. induction g as [|x g IH]; cbn [map fold_right]; [ring|]. rewrite IH, Rabs_mult. ring. Qed.
Lemma energy_scale k g : size_of Energy (map (fun x => k * x) g) = Rabs k * size_of Energy g.
Proof. cbn [size_of]. rewrite power_scale, sqrt_mult by (try apply power_nonneg; nra). f_equal. apply sqrt_Rsqr_abs. Qed.
Lemma size_scale mode k g : mode <> Default -> size_of mode (map (fun x => k * x) g) = Rabs k * size_of mode g.
Proof. destruct mode; intros H; [elim H; reflexivity|apply amplitude_scale|apply energy_scale]. Qed.
Lemma size_nonneg mode g : 0 <= size_of mode g.
Proof.
  destruct mode; cbn [size_of]; [lra| |apply sqrt_pos]. induction g as [|x g IH]; cbn [fold_right]; [lra|]. pose proof (Rabs_pos x). lra.
Qed.
Lemma at_level_size epsilon mode level g : 0 < epsilon -> mode <> Default ->
  size_of mode (at_level epsilon mode level g) <= Rabs level /\ (epsilon <= size_of mode g -> size_of mode (at_level epsilon mode level g) = Rabs level).
Proof.
  intros He Hm. unfold at_level. rewrite size_scale by exact Hm. set (s := size_of mode g). assert (Hs : 0 <= s) by apply size_nonneg.
  assert (M : 0 < Rmax s epsilon) by (eapply Rlt_le_trans; [exact He|apply Rmax_r]).
  unfold Rdiv. rewrite Rabs_mult, (Rabs_right (/ Rmax s epsilon)) by (apply Rle_ge, Rlt_le, Rinv_0_lt_compat, M). split.
  - pose proof (Rabs_pos level) as P. assert (Q : / Rmax s epsilon * s <= 1). { apply (Rmult_le_reg_l (Rmax s epsilon)); [exact M|]. rewrite <- Rmult_assoc, Rinv_r by lra. pose proof (Rmax_l s epsilon). lra. }
    rewrite Rmult_assoc. nra.
  - intros L. rewrite Rmax_left by exact L. field. lra.
Qed.
(** Every column has the size of its level (the direct part 1 - r, the diffuse part r), measured in
    the norm that was chosen, and is never larger: by default the power, for low frequencies with a
    separate high frequency output the amplitude. *)
Theorem C62_levels_partial : forall epsilon a ids n mode lfN hfN dN l0 inputs p0 p objects l o k ch,
  0 < epsilon -> named ids (a_regular a) -> construct epsilon a ids n mode lfN hfN dN l0 = Ok p0 -> run epsilon p0 inputs = Ok p ->
  last_scene inputs l0 = Some (objects, l) -> in_range n objects -> only_user objects o k ch ->
  exists v lf hf df r, setListenerPosition epsilon a l = Ok v /\ voice epsilon ids (a_regular a) v o k lf hf df r
  /\ (forall d, n_lf p = Some d -> let c := column (a_regular a) n d ch in
        size_of (lf_norm mode lfN) c <= Rabs (1 - r) /\ (epsilon <= size_of (lf_norm mode lfN) lf -> size_of (lf_norm mode lfN) c = Rabs (1 - r)))
  /\ (forall d, n_hf p = Some d -> let c := column (a_regular a) n d ch in
        size_of (or_energy hfN) c <= Rabs (1 - r) /\ (epsilon <= size_of (or_energy hfN) hf -> size_of (or_energy hfN) c = Rabs (1 - r)))
  /\ (forall d, n_diffuse p = Some d -> let c := column (a_regular a) n d ch in
        size_of (or_energy dN) c <= Rabs r /\ (epsilon <= size_of (or_energy dN) df -> size_of (or_energy dN) c = Rabs r)).
Proof.
  intros epsilon a ids n mode lfN hfN dN l0 inputs p0 p objects l o k ch He H C R LS Hr Hu. pose proof (C62_scene_partial _ _ _ _ _ _ _ _ _ _ _ _ H C R) as S. rewrite LS in S.
  destruct (S Hr) as (v & EV & K). destruct Hu as (Ho & Hk & Hc). assert (Hn : (ch < n)%nat) by (apply (Hr o); [exact Ho|eapply nth_error_In; eauto]).
  destruct (proj2 (K ch Hn) o k (conj Ho (conj Hk Hc))) as (lf & hf & df & r & V & _ & S1 & S2 & S3). exists v, lf, hf, df, r. split; [exact EV|]. split; [exact V|].
  split; [|split]; intros d E; cbn zeta.
  - destruct (md_lf mode); [|congruence]. destruct S1 as (d' & E' & E2). rewrite E in E'. apply Some_inj in E'. subst d'. rewrite E2. apply at_level_size; [exact He|]. unfold lf_norm. destruct lfN, (md_hf mode); discriminate.
  - destruct (md_hf mode); [|congruence]. destruct S2 as (d' & E' & E2). rewrite E in E'. apply Some_inj in E'. subst d'. rewrite E2. apply at_level_size; [exact He|]. destruct hfN; discriminate.
  - destruct (md_diffuse mode); [|congruence]. destruct S3 as (d' & E' & E2). rewrite E in E'. apply Some_inj in E'. subst d'. rewrite E2. apply at_level_size; [exact He|]. destruct dN; discriminate.
Qed.

(** *** Directions *)
Lemma sqrt_squares k g : Forall (fun x => 0 <= x) g -> map (fun x => x * x) (map (fun x => k * x) (map sqrt g)) = map (fun x => k * k * x) g.
Proof.
  induction 1 as [|x g H _ IH]; [reflexivity|]. cbn [map]. rewrite IH. f_equal. pose proof (sqrt_sqrt x H). nra.
Qed.
(** With virtual loudspeakers that are rendered from their directions, the low frequency gains of a
    source that is not entirely diffuse recreate its direction, and so do the squares of its high
    frequency gains. *)
Theorem C62_direction_partial : forall epsilon a ids n mode lfN hfN dN l0 inputs p0 p objects l ch c pos pw r,
  0 < epsilon -> named ids (a_regular a) -> placed epsilon a l -> (a_2D a = false \/ planar a l) -> rerouting_table a -> rendered a l ->
  construct epsilon a ids n mode lfN hfN dN l0 = Ok p0 -> run epsilon p0 inputs = Ok p ->
  last_scene inputs l0 = Some (objects, l) -> in_range n objects -> only_user objects (SceneObject [ch] c) 0 ch -> source_of c = Some (pos, pw, r) -> r < 1 ->
  (forall d, n_lf p = Some d -> exists k, 0 < k /\ total (column (a_regular a) n d ch) (regular_directions a l) = scale3 k (seen a l pos pw))
  /\ (forall d, n_hf p = Some d -> exists k, 0 < k /\ total (map (fun g => g * g) (column (a_regular a) n d ch)) (regular_directions a l) = scale3 k (seen a l pos pw)).
Proof.
  intros epsilon a ids n mode lfN hfN dN l0 inputs p0 p objects l ch c pos pw r He H P Pl RT Rd C R LS Hr Hu Sc Hd. pose proof (C62_scene_partial _ _ _ _ _ _ _ _ _ _ _ _ H C R) as S. rewrite LS in S.
  destruct (S Hr) as (v & EV & K). assert (Hn : (ch < n)%nat) by (apply (Hr (SceneObject [ch] c)); [exact (proj1 Hu)|now left]).
  destruct (proj2 (K ch Hn) _ 0%nat Hu) as (lf & hf & df & r' & V & Nn & S1 & S2 & _).
  assert (Q : calculateGainsUnNormalised v pos pw = Ok lf /\ hf = map sqrt lf /\ r' = r).
  { destruct c; cbn [source_of] in Sc; try discriminate; apply Some_inj in Sc; injection Sc as <- <- <-; inversion V; subst; try (split; [assumption|split; reflexivity]);
      exfalso; match goal with X : _ \/ _ |- _ => destruct X as [X|[X _]]; [discriminate|apply X; reflexivity] end. }
  destruct Q as (EG & -> & ->). destruct (C58_virtual_direction_partial epsilon a l pos pw v He P Pl RT Rd EV) as [Q _]. rewrite EG in Q. destruct Q as [_ T].
  assert (M : forall x, 0 < Rmax x epsilon) by (intros x; eapply Rlt_le_trans; [exact He|apply Rmax_r]). split; intros d E.
  - destruct (md_lf mode); [|congruence]. destruct S1 as (d' & E' & E2). rewrite E in E'. apply Some_inj in E'. subst d'. rewrite E2. unfold at_level.
    eexists. split; [|rewrite total_scale, T; reflexivity]. apply Rdiv_lt_0_compat; [lra|apply M].
  - destruct (md_hf mode); [|congruence]. destruct S2 as (d' & E' & E2). rewrite E in E'. apply Some_inj in E'. subst d'. rewrite E2. unfold at_level.
    rewrite sqrt_squares by (apply Nn; reflexivity). eexists. split; [|rewrite total_scale, T; reflexivity].
    apply Rmult_lt_0_compat; apply Rdiv_lt_0_compat; try lra; apply M.
Qed.

(** *** No failure *)
Lemma channel_object_total epsilon ids n regular d labels : forall chs p j, ready ids n regular p -> (forall c, In c chs -> (c < n)%nat) ->
  (forall k, (k < length chs)%nat -> exists ls, nth_error labels (j + k) = Some ls /\ forall label, In label ls -> exists i, In (label, i) ids /\ (i < regular)%nat) ->
  exists p', channel_object epsilon p chs d labels j = Ok p'.
Proof.
  induction chs as [|c chs IH]; intros p j Rd B L; cbn [channel_object]; [eexists; reflexivity|].
  destruct (L 0%nat) as (ls & E & K); [cbn; lia|]. rewrite Nat.add_0_r in E. rewrite E. pose proof Rd as (F & T & A). pose proof F as (_ & Fr & _). rewrite Fr.
  destruct (label_gains_total ids regular _ T ls (repeat 0 regular) (repeat_length _ _) K) as (g & EG). rewrite EG. cbn [bind].
  destruct (label_gains_ok ids regular _ T ls _ _ (repeat_length _ _) EG) as [Lg _].
  destruct (write_gains_total epsilon n regular p c g g g (1 - d) d F (B c (or_introl eq_refl)) Lg (fun _ => Lg) Lg) as (p1 & E1). rewrite E1. cbn [bind].
  apply IH; [eapply kept_ready; [eapply write_gains_kept; eauto|exact Rd]|intros x Hx; apply B; now right|].
  intros k Hk. replace (S j + k)%nat with (j + S k)%nat by lia. apply L. cbn. lia.
Qed.
Lemma weighted_nonneg ws : forall xs, (forall x, In x ws -> 0 <= x) -> (forall x, In x xs -> 0 <= x) -> 0 <= weighted ws xs.
Proof.
  induction ws as [|w ws IH]; intros [|x xs] A B; cbn [weighted]; try lra. assert (0 <= w) by (apply A; now left). assert (0 <= x) by (apply B; now left).
  assert (0 <= weighted ws xs) by (apply IH; intros y Hy; [apply A|apply B]; now right). nra.
Qed.
Lemma enclosed_gains epsilon a l pos pw v : 0 < epsilon -> placed epsilon a l -> (a_2D a = false \/ planar a l) -> rerouting_table a -> (forall row x, In row (a_rerouting a) -> In x row -> 0 <= x) ->
  setListenerPosition epsilon a l = Ok v -> (exists t g, In t (a_triplets a) /\ coordinates a l t (seen a l pos pw) g /\ inside_cone (a_2D a) g) ->
  exists g, calculateGainsUnNormalised v pos pw = Ok g /\ length g = a_regular a /\ Forall (fun x => 0 <= x) g.
Proof.
  intros He P Pl RT Rn EV En. destruct (C58_direction_partial epsilon a l pos pw He P Pl) as (v' & EV' & H). rewrite EV in EV'. apply Ok_inj in EV'. subst v'.
  pose proof (vbap_array _ _ _ _ EV) as VA. destruct (calcPlainVBAP v pos pw) as [raw|e|] eqn:E; [| |contradiction].
  - destruct H as (L & _ & _ & Nn). specialize (Nn En). pose proof (C58_rerouting v pos pw raw) as Q. rewrite VA in Q. destruct (Q RT E) as (g & EG & Lg & Ng). exists g. split; [exact EG|]. split; [exact Lg|].
    apply Forall_forall. intros x Hx. apply (In_nth _ _ 0) in Hx. destruct Hx as (i & Hi & <-). rewrite Lg in Hi. rewrite (Ng i Hi). unfold rerouted.
    assert (0 <= weighted (skipn (a_regular a) raw) (map (fun row => nth i row 0) (a_rerouting a))); [|specialize (Nn i); lra].
    apply weighted_nonneg.
    + intros y Hy. assert (I : In y raw) by (rewrite <- (firstn_skipn (a_regular a) raw); apply in_or_app; now right). apply (In_nth _ _ 0) in I. destruct I as (j & _ & <-). apply Nn.
    + intros y Hy. apply in_map_iff in Hy. destruct Hy as (row & <- & Hrow). destruct (nth_in_or_default i row 0) as [I|I]; [eapply Rn; eauto|rewrite I; lra].
  - exfalso. destruct H as [_ H]. destruct En as (t & g & It & Cg & Ig). apply (H t g It Cg). destruct Ig as (I1 & I2 & _). left. split; assumption.
Qed.
Lemma process_object_total epsilon a ids n l p o : 0 < epsilon -> placed epsilon a l -> (a_2D a = false \/ planar a l) -> rerouting_table a -> (forall row x, In row (a_rerouting a) -> In x row -> 0 <= x) ->
  ready ids n (a_regular a) p -> setListenerPosition epsilon a l = Ok (n_vbap p) -> (forall c, In c (so_channels o) -> (c < n)%nat) -> playable a ids l o -> exists p', process_object epsilon p o = Ok p'.
Proof.
  intros He P Pl RT Rn Rd EV B Pb. unfold process_object. unfold playable in Pb. pose proof Rd as (F & T & A). pose proof F as (Fn & Fr & Sz).
  assert (G : forall pos pw ch df r, (exists t g, In t (a_triplets a) /\ coordinates a l t (seen a l pos pw) g /\ inside_cone (a_2D a) g) -> (ch < n)%nat -> length df = a_regular a ->
     exists p', (g <- calculateGainsUnNormalised (n_vbap p) pos pw ;; panned epsilon p ch g df r) = Ok p').
  { intros pos pw ch df r En Hc Ld. destruct (enclosed_gains epsilon a l pos pw _ He P Pl RT Rn EV En) as (g & EG & Lg & Fg). rewrite EG. cbn [bind].
    apply (panned_total epsilon ids n (a_regular a)); [exact Rd|exact Hc|exact Lg|exact Ld|intros _; exact Fg]. }
  destruct (so_content o) as [d labels| |az el dist|pos|pos d|]; [apply (channel_object_total epsilon ids n (a_regular a)); assumption| | | | |];
    destruct (so_channels o) as [|ch [|ch' chs]]; try (eexists; reflexivity); cbn [source_of] in Pb; rewrite ?Fr.
  - destruct (n_diffuse p) as [d|] eqn:ED; [|eexists; reflexivity]. rewrite Fn.
    destruct (write_to_total epsilon n (a_regular a) (Some d) (repeat 1 (a_regular a)) ch (n_diffuseNorm p) 1) as (m & E); [exact (proj2 (proj2 Sz))|apply B; now left|intros _; apply repeat_length|].
    unfold write_to in E. destruct (normalise_into epsilon (repeat 1 (a_regular a)) d ch (n_diffuseNorm p) (stride n) 1); try discriminate. cbn [bind]. eexists. reflexivity.
  - apply G; [|apply B; now left|apply repeat_length]. replace (spherical2cartesian az el dist) with (P3 (dist * cos el * cos az) (dist * cos el * sin az) (dist * sin el)); [apply Pb; reflexivity|].
    unfold spherical2cartesian. apply P3_eq; ring.
  - apply G; [|apply B; now left|apply repeat_length]. apply Pb. reflexivity.
  - apply G; [|apply B; now left|destruct (Rleb epsilon d); apply repeat_length]. apply Pb. reflexivity.
Qed.
Lemma process_each_total epsilon a ids n l : 0 < epsilon -> placed epsilon a l -> (a_2D a = false \/ planar a l) -> rerouting_table a -> (forall row x, In row (a_rerouting a) -> In x row -> 0 <= x) ->
  forall os p, ready ids n (a_regular a) p -> setListenerPosition epsilon a l = Ok (n_vbap p) -> in_range n os -> (forall o, In o os -> playable a ids l o) -> exists p', process_each epsilon p os = Ok p'.
Proof.
  intros He P Pl RT Rn. induction os as [|o os IH]; intros p Rd EV B Pb; cbn [process_each]; [eexists; reflexivity|].
  destruct (process_object_total epsilon a ids n l p o He P Pl RT Rn Rd EV (fun c Hc => B o c (or_introl eq_refl) Hc) (Pb o (or_introl eq_refl))) as (p1 & E1). rewrite E1. cbn [bind].
  pose proof (process_object_kept _ _ _ _ E1) as Kp. apply IH; [eapply kept_ready; eauto|rewrite (config_vbap _ _ (proj1 Kp)); exact EV|intros o' c Ho; apply B; now right|intros o' Ho; apply Pb; now right].
Qed.
(** Nothing fails if the loudspeakers surround every listener position received, the channels
    exist, every label names a loudspeaker and a triplet encloses every source. *)
Theorem C62_defined_partial : forall epsilon a ids n mode lfN hfN dN l0 inputs,
  0 < epsilon -> named ids (a_regular a) -> rerouting_table a -> (forall row x, In row (a_rerouting a) -> In x row -> 0 <= x) ->
  (forall l, l = l0 \/ In (Some l) (map fst inputs) -> placed epsilon a l /\ (a_2D a = false \/ planar a l)) ->
  (forall l objects, In (l, objects) (scenes l0 inputs) -> in_range n objects /\ forall o, In o objects -> playable a ids l o) ->
  exists p0 p, construct epsilon a ids n mode lfN hfN dN l0 = Ok p0 /\ run epsilon p0 inputs = Ok p.
Proof.
  intros epsilon a ids n mode lfN hfN dN l0 inputs He H RT Rn HL HS.
  assert (C0 : exists p0, construct epsilon a ids n mode lfN hfN dN l0 = Ok p0).
  { unfold construct. destruct (fillLabelLookup_ok ids (a_regular a) H) as (t & -> & _). cbn [bind]. destruct (setListenerPosition_ok epsilon He a l0 (proj1 (HL l0 (or_introl eq_refl)))) as (v & -> & _). cbn [bind]. eauto. }
  destruct C0 as (p0 & C0). exists p0. destruct (construct_follows epsilon a ids n mode lfN hfN dN H l0 p0 C0) as [F _].
  enough (Q : exists p, run epsilon p0 inputs = Ok p) by (destruct Q as (p & Q); exists p; split; assumption). clear C0. revert l0 p0 HL HS F.
  induction inputs as [|[li oi] inputs IH]; intros l0 p0 HL HS F; cbn [run]; [eexists; reflexivity|]. cbn [scenes] in HS.
  set (l1 := match li with Some x => x | None => l0 end) in *.
  assert (HL1 : placed epsilon a l1 /\ (a_2D a = false \/ planar a l1)) by (apply HL; unfold l1; destruct li; [right; now left|now left]).
  assert (S1 : exists p1, match li with Some l => set_listener epsilon p0 l | None => Ok p0 end = Ok p1 /\ follows epsilon a ids n mode lfN hfN dN l1 p1).
  { unfold l1 in *. destruct li as [l|]; [|exists p0; split; [reflexivity|exact F]]. assert (E : exists p1, set_listener epsilon p0 l = Ok p1).
    { unfold set_listener. rewrite (vbap_array _ _ _ _ (proj1 (proj2 F))). destruct (setListenerPosition_ok epsilon He a l (proj1 HL1)) as (v & -> & _). cbn [bind]. eexists. reflexivity. }
    destruct E as (p1 & E). exists p1. split; [exact E|]. eapply set_listener_follows; eauto. }
  destruct S1 as (p1 & E1 & F1). destruct oi as [os|].
  - assert (E2 : exists p2, process_objects epsilon p1 os = Ok p2).
    { rewrite process_objects_wiped. destruct (wiped_ready ids n (a_regular a) p1 (proj1 F1)) as (Rd & Cf & _). destruct (HS l1 os (or_introl eq_refl)) as [Hr Hp].
      apply (process_each_total epsilon a ids n l1 He (proj1 HL1) (proj2 HL1) RT Rn); [exact Rd|rewrite (config_vbap _ _ Cf); exact (proj1 (proj2 F1))|exact Hr|exact Hp]. }
    destruct E2 as (p2 & E2). unfold process. cbn [fst snd]. rewrite E1. cbn [bind]. rewrite E2. cbn [bind].
    apply (IH l1 p2); [intros l [->|Hl]; [exact HL1|apply HL; right; now right]|intros l objects Ho; apply HS; now right|]. eapply process_objects_shown; eauto.
  - unfold process. cbn [fst snd]. rewrite E1. cbn [bind].
    apply (IH l1 p1); [intros l [->|Hl]; [exact HL1|apply HL; right; now right]|intros l objects Ho; apply HS; exact Ho|exact F1].
Qed.

(** ** A concrete array *)
(** Four loudspeakers around a listener at (1, 0, 0), with names *)
Definition label (x y : bool) : String.string := String.String (Ascii.Ascii x y false false false false true false) String.EmptyString.
Definition hall : array := Array false false [P3 2 0 0; P3 1 3 0; P3 1 0 1; P3 1 0 (-1)] 4 [Triplet 0 1 (Some 2%nat); Triplet 0 1 (Some 3%nat)] [].
Definition names : list (String.string * nat) := [(label true false, 0); (label false true, 1); (label true true, 2); (label false false, 3)]%nat.
Definition aside : pos3 R := P3 1 (-3/4) 0.
Lemma hall_named : named names (a_regular hall).
Proof.
  split; [|split].
  - repeat constructor; cbn; intuition discriminate.
  - repeat constructor; cbn; intuition discriminate.
  - intros i Hi. cbn in *. lia.
Qed.
Ltac tws n u := apply (towards_is _ _ n u); [lra|unfold square; cbn [px py pz here aside]; lra|unfold scale3; cbn [px py pz here aside]; apply P3_eq; lra].
Lemma hall_directions : directions hall here = [P3 1 0 0; P3 0 1 0; P3 0 0 1; P3 0 0 (-1)].
Proof. unfold directions. cbn [hall a_positions map]. repeat f_equal; [tws 1 (P3 1 0 0)|tws 3 (P3 0 1 0)|tws 1 (P3 0 0 1)|tws 1 (P3 0 0 (-1))]. Qed.
Lemma aside_directions : directions hall aside = [P3 (4/5) (3/5) 0; P3 0 1 0; P3 0 (3/5) (4/5); P3 0 (3/5) (-4/5)].
Proof. unfold directions. cbn [hall a_positions map]. repeat f_equal; [tws (5/4) (P3 (4/5) (3/5) 0)|tws (15/4) (P3 0 1 0)|tws (5/4) (P3 0 (3/5) (4/5))|tws (5/4) (P3 0 (3/5) (-4/5))]. Qed.
Lemma hall_placed : placed eps0 hall here.
Proof.
  constructor.
  - intros s [<-|[<-|[<-|[<-|[]]]]].
    + assert (E : distance here (P3 2 0 0) = 1) by tws 1 (P3 1 0 0). rewrite E. unfold eps0. lra.
    + assert (E : distance here (P3 1 3 0) = 3) by tws 3 (P3 0 1 0). rewrite E. unfold eps0. lra.
    + assert (E : distance here (P3 1 0 1) = 1) by tws 1 (P3 0 0 1). rewrite E. unfold eps0. lra.
    + assert (E : distance here (P3 1 0 (-1)) = 1) by tws 1 (P3 0 0 (-1)). rewrite E. unfold eps0. lra.
  - discriminate.
  - intros t [<-|[<-|[]]]; unfold legs; rewrite hall_directions; cbn [t_1 t_2 t_3 nth_error hall a_2D].
    + exists (P3 1 0 0), (P3 0 1 0), (P3 0 0 1). split; [repeat split; exists 2%nat; now split|]. unfold volume. cbn [px py pz]. lra.
    + exists (P3 1 0 0), (P3 0 1 0), (P3 0 0 (-1)). split; [repeat split; exists 3%nat; now split|]. unfold volume. cbn [px py pz]. lra.
Qed.
Lemma aside_placed : placed eps0 hall aside.
Proof.
  constructor.
  - intros s [<-|[<-|[<-|[<-|[]]]]].
    + assert (E : distance aside (P3 2 0 0) = 5/4) by tws (5/4) (P3 (4/5) (3/5) 0). rewrite E. unfold eps0. lra.
    + assert (E : distance aside (P3 1 3 0) = 15/4) by tws (15/4) (P3 0 1 0). rewrite E. unfold eps0. lra.
    + assert (E : distance aside (P3 1 0 1) = 5/4) by tws (5/4) (P3 0 (3/5) (4/5)). rewrite E. unfold eps0. lra.
    + assert (E : distance aside (P3 1 0 (-1)) = 5/4) by tws (5/4) (P3 0 (3/5) (-4/5)). rewrite E. unfold eps0. lra.
  - discriminate.
  - intros t [<-|[<-|[]]]; unfold legs; rewrite aside_directions; cbn [t_1 t_2 t_3 nth_error hall a_2D].
    + exists (P3 (4/5) (3/5) 0), (P3 0 1 0), (P3 0 (3/5) (4/5)). split; [repeat split; exists 2%nat; now split|]. unfold volume. cbn [px py pz]. lra.
    + exists (P3 (4/5) (3/5) 0), (P3 0 1 0), (P3 0 (3/5) (-4/5)). split; [repeat split; exists 3%nat; now split|]. unfold volume. cbn [px py pz]. lra.
Qed.
Lemma hall_rendered l : rerouting_table hall /\ rendered hall l /\ (forall row x, In row (a_rerouting hall) -> In x row -> 0 <= x) /\ regular_directions hall l = directions hall l.
Proof. split; [repeat split; [cbn; lia|intros row []]|]. split; [reflexivity|]. split; [intros row x []|reflexivity]. Qed.
Lemma eps0_pos : 0 < eps0. Proof. unfold eps0. lra. Qed.
(** gains at (1, 0, 0) for a direction with at most one negative coordinate in one of the triplets *)
Lemma hall_vbap : setListenerPosition eps0 hall here = Ok (Vbap hall here [inv_matrix (P3 1 0 0) (P3 0 1 0) (P3 0 0 1); inv_matrix (P3 1 0 0) (P3 0 1 0) (P3 0 0 (-1))]).
Proof.
  assert (N : forall s n u, eps0 <= n -> square (P3 (px s - px here) (py s - py here) (pz s - pz here)) = n * n -> scale3 n u = P3 (px s - px here) (py s - py here) (pz s - pz here) -> normalise eps0 (Rpsub s here) = u)
    by (intros s n u; apply normalise_is; exact eps0_pos).
  unfold setListenerPosition, map_res, triplet_inverse, position. cbn [hall a_triplets a_positions a_2D t_1 t_2 t_3 nth_error bind].
  rewrite (N (P3 2 0 0) 1 (P3 1 0 0)), (N (P3 1 3 0) 3 (P3 0 1 0)), (N (P3 1 0 1) 1 (P3 0 0 1)), (N (P3 1 0 (-1)) 1 (P3 0 0 (-1))); [reflexivity| | | | | | | | | | | |];
    try (unfold eps0; lra); try (unfold square; cbn [px py pz here]; lra); unfold scale3; cbn [px py pz here]; apply P3_eq; lra.
Qed.
Lemma hall_coords p : coords (inv_matrix (P3 1 0 0) (P3 0 1 0) (P3 0 0 1)) p = (px p, py p, pz p) /\ coords (inv_matrix (P3 1 0 0) (P3 0 1 0) (P3 0 0 (-1))) p = (px p, py p, - pz p).
Proof.
  split; unfold coords, inv_matrix, Rdot; (destruct (Req_EM_T _ _) as [N|N]; [exfalso; cbn [px py pz] in N; lra|]); cbn [i_1 i_2 i_3 px py pz] in *; (f_equal; [f_equal|]); field; lra.
Qed.
Lemma hall_gains v pos pw x y z : setListenerPosition eps0 hall here = Ok v -> seen hall here pos pw = P3 x y z ->
  (0 <= x /\ 0 <= y /\ 0 <= z -> calculateGainsUnNormalised v pos pw = Ok [x; y; z; 0])
  /\ (x < 0 /\ 0 <= y /\ 0 < z -> calculateGainsUnNormalised v pos pw = Ok [x; y; z; 0])
  /\ (x < 0 /\ y = 0 /\ z = 0 -> calculateGainsUnNormalised v pos pw = Ok [x; 0; 0; 0]).
Proof.
  intros EV ES. rewrite hall_vbap in EV. apply Ok_inj in EV. subst v. unfold calculateGainsUnNormalised, calcPlainVBAP. cbn [v_array v_inverse v_listener hall a_2D a_positions].
  unfold seen in ES. cbn [hall a_2D] in ES. change (P3 (px pos - px here) (py pos - py here) (pz pos - pz here)) with (Rpsub pos here) in ES. rewrite ES. rewrite search_eq by exact I. cbn [map search'].
  destruct (hall_coords (P3 x y z)) as [C1 C2]. rewrite C1, C2. cbn [px py pz].
  split; [|split]; intros (X & Y & Z).
  - unfold insideb. cbn [fst snd]. dec. cbn [hall a_triplets nth_error t_1 t_2 t_3]. unfold vset. cbn [repeat length Nat.ltb Nat.leb firstn skipn app bind]. rewrite applyRerouting_regular by reflexivity. reflexivity.
  - unfold insideb, negatives, min3. cbn [fst snd]. dec. cbn [hall a_triplets nth_error t_1 t_2 t_3]. unfold vset. cbn [repeat length Nat.ltb Nat.leb firstn skipn app bind]. rewrite applyRerouting_regular by reflexivity. reflexivity.
  - subst y z. rewrite Ropp_0. assert (Q : forall m, Rltb m m = false) by (intros m; apply Rltb_nlt; lra). rewrite Q. unfold insideb, negatives. cbn [fst snd]. dec.
    cbn [hall a_triplets nth_error t_1 t_2 t_3]. unfold vset. cbn [repeat length Nat.ltb Nat.leb firstn skipn app bind]. rewrite applyRerouting_regular by reflexivity. reflexivity.
Qed.
Lemma hall_start n mode : exists p0, construct eps0 hall names n mode Default Default Default here = Ok p0 /\ follows eps0 hall names n mode Default Default Default here p0.
Proof.
  unfold construct. destruct (fillLabelLookup_ok names 4 hall_named) as (t & E & T). cbn [hall a_regular] in *. rewrite E. cbn [bind]. fold hall. rewrite hall_vbap. cbn [bind]. eexists. split; [reflexivity|].
  apply construct_follows; [exact hall_named|]. unfold construct. cbn [hall a_regular]. rewrite E. cbn [bind]. fold hall. rewrite hall_vbap. reflexivity.
Qed.
(** one object, in the first block *)
Definition alone (c : content) : list (option (pos3 R) * option (list scene_object)) := [(None, Some [SceneObject [0%nat] c])].
Lemma alone_range ch c n : (ch < n)%nat -> in_range n [SceneObject [ch] c].
Proof. intros H o x [<-|[]] [<-|[]]. exact H. Qed.
Lemma alone_user ch c : only_user [SceneObject [ch] c] (SceneObject [ch] c) 0 ch.
Proof. split; [now left|]. split; [reflexivity|]. cbn. destruct (Nat.eq_dec ch ch); [reflexivity|contradiction]. Qed.
Lemma alone_gains v c pos pw r g : setListenerPosition eps0 hall here = Ok v -> source_of c = Some (pos, pw, r) -> calculateGainsUnNormalised v pos pw = Ok g ->
  exists p0 p d, construct eps0 hall names 1 (Mode true false false) Default Default Default here = Ok p0 /\ run eps0 p0 (alone c) = Ok p
  /\ n_lf p = Some d /\ column 4 1 d 0 = at_level eps0 Energy (1 - r) g.
Proof.
  intros EV Sc EG. destruct (hall_start 1 (Mode true false false)) as (p0 & C0 & F). exists p0. pose proof F as (Rd & EV' & _ & _ & _ & O1 & O2 & O3). rewrite EV in EV'. apply Ok_inj in EV'. subst v.
  destruct (wiped_ready names 1 4 p0 Rd) as (Rw & Cw & Sw & _).
  assert (R : exists p, run eps0 p0 (alone c) = Ok p).
  { unfold alone. cbn [run]. unfold process. cbn [fst snd bind]. rewrite process_objects_wiped. cbn [process_each].
    assert (Q : exists p, process_object eps0 (wiped p0) (SceneObject [0%nat] c) = Ok p).
    { assert (G : forall df, length df = 4%nat -> exists p, (g <- calculateGainsUnNormalised (n_vbap (wiped p0)) pos pw ;; panned eps0 (wiped p0) 0 g df r) = Ok p).
      { intros df Ld. cbn [wiped n_vbap]. rewrite EG. cbn [bind]. apply (panned_total eps0 names 1 4); [exact Rw|lia|apply (gains_length 4 _ _ _ _ (proj2 (proj2 Rd)) EG)|exact Ld|].
        intros X. elim X. apply (proj1 (proj1 (proj2 Sw))). apply O2. reflexivity. }
      unfold process_object. cbn [so_content so_channels]. pose proof Rd as ((_ & Fr & _) & _).
      destruct c; cbn [source_of] in Sc; try discriminate; apply Some_inj in Sc; injection Sc as <- <- <-; cbn [wiped n_loudspeakers]; rewrite Fr.
      - replace (spherical2cartesian azimuth elevation distance) with (P3 (distance * cos elevation * cos azimuth) (distance * cos elevation * sin azimuth) (distance * sin elevation)); [apply G, repeat_length|].
        unfold spherical2cartesian. apply P3_eq; ring.
      - apply G, repeat_length.
      - apply G. destruct (Rleb eps0 diffuseness); apply repeat_length. }
    destruct Q as (p & Q). rewrite Q. cbn [bind]. eexists. reflexivity. }
  destruct R as (p & R). exists p. pose proof (C62_scene_partial _ _ _ _ _ _ _ _ _ _ _ _ hall_named C0 R) as S. cbn [alone last_scene] in S. destruct (S (alone_range 0 c 1 Nat.lt_0_1)) as (v & Ev & K).
  rewrite EV in Ev. apply Ok_inj in Ev. subst v. destruct (proj2 (K 0%nat Nat.lt_0_1) _ 0%nat (alone_user 0 c)) as (lf & hf & df & r' & V & _ & S1 & _). cbn [md_lf lf_norm md_hf] in S1. destruct S1 as (d & E1 & E2).
  exists d. split; [exact C0|]. split; [exact R|]. split; [exact E1|]. rewrite (E2 : column 4 1 d 0 = _).
  assert (Q : calculateGainsUnNormalised (n_vbap p0) pos pw = Ok lf /\ r' = r).
  { destruct c; cbn [source_of] in Sc; try discriminate; apply Some_inj in Sc; injection Sc as <- <- <-; inversion V; subst; try (split; [assumption|reflexivity]);
      exfalso; match goal with X : _ \/ _ |- _ => destruct X as [X|[X _]]; [discriminate|apply X; reflexivity] end. }
  destruct Q as [Q ->]. rewrite EG in Q. apply Ok_inj in Q. now subst lf.
Qed.
(** A source at (4, 4, 0), that is towards (3, 4, 0), with a quarter of diffuse sound *)
Example hall_level : exists p0 p d, construct eps0 hall names 1 (Mode true false false) Default Default Default here = Ok p0
  /\ run eps0 p0 (alone (PointSourceWithDiffuseness (P3 4 4 0) (1/4))) = Ok p /\ n_lf p = Some d /\ column 4 1 d 0 = [9/20; 3/5; 0; 0].
Proof.
  destruct (alone_gains _ (PointSourceWithDiffuseness (P3 4 4 0) (1/4)) _ _ _ [3; 4; 0; 0] hall_vbap eq_refl) as (p0 & p & d & A & B & C & D).
  { assert (Sn : seen hall here (P3 4 4 0) false = P3 3 4 0) by (unfold seen; cbn [hall a_2D here px py pz]; apply P3_eq; lra). apply (proj1 (hall_gains _ _ _ _ _ _ hall_vbap Sn)). lra. }
  exists p0, p, d. split; [exact A|]. split; [exact B|]. split; [exact C|]. rewrite D. unfold at_level, size_of.
  replace (power [3; 4; 0; 0]) with (5 * 5) by (cbn; ring). rewrite sqrt_square by lra. rewrite Rmax_left by (unfold eps0; lra). cbn [map]. repeat apply cons_eq; try reflexivity; field.
Qed.

(** A scene with several kinds of objects, all outputs, and a moving listener: the hypotheses of
    the theorems hold *)
Definition scene : list scene_object :=
  [SceneObject [2%nat] (PointSourceWithDiffuseness (P3 4 4 0) (1/4)); SceneObject [0; 1]%nat (ChannelObject 0 [[label true false]; [label false true; label true true]]);
   SceneObject [3%nat] DiffuseSource; SceneObject [4; 5]%nat (PointSource (P3 4 4 0))].
Definition blocks : list (option (pos3 R) * option (list scene_object)) := [(Some aside, None); (Some here, Some scene); (None, None)].
Example scene_case : exists p0 p, construct eps0 hall names 6 (Mode true true true) Default Default Default aside = Ok p0 /\ run eps0 p0 blocks = Ok p
  /\ (exists d, n_lf p = Some d /\ column 4 6 d 2 = [9/28; 3/7; 0; 0] /\ column 4 6 d 4 = [0; 0; 0; 0])
  /\ (exists d, n_diffuse p = Some d /\ column 4 6 d 2 = [1/8; 1/8; 1/8; 1/8] /\ column 4 6 d 3 = [1/2; 1/2; 1/2; 1/2]).
Proof.
  assert (Rg : in_range 6 scene) by (intros o c [<-|[<-|[<-|[<-|[]]]]]; cbn; lia).
  assert (Sn : seen hall here (P3 4 4 0) false = P3 3 4 0) by (unfold seen; cbn [hall a_2D here px py pz]; apply P3_eq; lra).
  destruct (C62_defined_partial eps0 hall names 6 (Mode true true true) Default Default Default aside blocks eps0_pos hall_named) as (p0 & p & C0 & R).
  { apply (hall_rendered here). } { apply (hall_rendered here). }
  { intros l [->|[H|[H|[H|[]]]]]; cbn [fst] in H || idtac; [split; [exact aside_placed|left; reflexivity]| | |discriminate]; injection H as <-; (split; [|left; reflexivity]); [exact aside_placed|exact hall_placed]. }
  { intros l objects [H|[]]. injection H as <- <-. split; [exact Rg|]. intros o [<-|[<-|[<-|[<-|[]]]]]; unfold playable; cbn [so_content so_channels source_of length].
    - intros _. exists (Triplet 0 1 (Some 2%nat)), (3, 4, 0). split; [left; reflexivity|]. rewrite Sn. split.
      + exists (P3 1 0 0), (P3 0 1 0), (P3 0 0 1). split; [unfold legs; rewrite hall_directions; cbn [t_1 t_2 t_3 nth_error hall a_2D]; repeat split; exists 2%nat; now split|].
        unfold comb, combine3, add3, scale3. cbn [fst snd px py pz]. apply P3_eq; ring.
      + unfold inside_cone. cbn [fst snd hall a_2D]. lra.
    - intros [|[|k]] Hk; [| |lia]; eexists; (split; [reflexivity|]); intros x; cbn [In].
      + intros [<-|[]]. exists 0%nat. split; [now left|cbn; lia].
      + intros [<-|[<-|[]]]; [exists 1%nat|exists 2%nat]; (split; [|cbn; lia]); [right; now left|right; right; now left].
    - exact I.
    - discriminate. }
  exists p0, p. split; [exact C0|]. split; [exact R|]. pose proof (C62_scene_partial _ _ _ _ _ _ _ _ _ _ _ _ hall_named C0 R) as S. cbn [blocks last_scene] in S. destruct (S Rg) as (v & EV & K).
  rewrite hall_vbap in EV. pose proof (hall_gains v (P3 4 4 0) false 3 4 0 ltac:(rewrite <- EV; exact hall_vbap) Sn) as [G _]. specialize (G ltac:(lra)).
  destruct (proj2 (K 2%nat (proj1 (Nat.ltb_lt 2 6) eq_refl)) _ 0%nat (conj (or_introl eq_refl) (conj eq_refl eq_refl))) as (lf & hf & df & r & V & _ & (d1 & E1 & C1) & _ & d3 & E3 & C3).
  destruct (proj2 (K 3%nat (proj1 (Nat.ltb_lt 3 6) eq_refl)) _ 0%nat (conj (or_intror (or_intror (or_introl eq_refl))) (conj eq_refl eq_refl))) as (lf' & hf' & df' & r' & V' & _ & _ & _ & d3' & E3' & C3').
  destruct (proj2 (K 4%nat (proj1 (Nat.ltb_lt 4 6) eq_refl)) _ 0%nat (conj (or_intror (or_intror (or_intror (or_introl eq_refl)))) (conj eq_refl eq_refl))) as (lf2 & hf2 & df2 & r2 & V2 & _ & (d2 & E2 & C2) & _).
  rewrite E1 in E2. apply Some_inj in E2. subst d2. rewrite E3 in E3'. apply Some_inj in E3'. subst d3'. cbn [hall a_regular md_hf lf_norm or_energy] in *.
  assert (L0 : lf = [3; 4; 0; 0] /\ df = [1; 1; 1; 1] /\ r = 1/4).
  { inversion V; subst; try (exfalso; unfold eps0 in *; lra).
    - match goal with X : calculateGainsUnNormalised _ _ _ = Ok lf |- _ => rewrite G in X; apply Ok_inj in X; subst lf end. repeat split; reflexivity.
    - exfalso. match goal with X : _ \/ _ |- _ => destruct X as [X|[X _]]; [discriminate|apply X; reflexivity] end. }
  destruct L0 as (-> & -> & ->). assert (L1 : df' = [1; 1; 1; 1] /\ r' = 1).
  { inversion V'; subst; [split; reflexivity|]. exfalso. match goal with X : _ \/ _ |- _ => destruct X as [X|[X _]]; [discriminate|apply X; reflexivity] end. }
  destruct L1 as (-> & ->). assert (L2 : lf2 = [0; 0; 0; 0] /\ r2 = 0) by (inversion V2; subst; split; reflexivity). destruct L2 as (-> & ->).
  assert (P1 : sqrt (power [1; 1; 1; 1]) = 2) by (replace (power [1; 1; 1; 1]) with (2 * 2) by (cbn; ring); apply sqrt_square; lra). split.
  - exists d1. split; [exact E1|]. split; [rewrite C1|rewrite C2]; unfold at_level, size_of; cbn [fold_right].
    + rewrite !Rabs_R0, (Rabs_right 3), (Rabs_right 4) by lra. rewrite Rmax_left by (unfold eps0; lra). cbn [map]. repeat apply cons_eq; try reflexivity; field.
    + cbn [map]. repeat apply cons_eq; try reflexivity; ring.
  - exists d3. split; [exact E3|]. split; [rewrite C3|rewrite C3']; unfold at_level, size_of; rewrite P1, Rmax_left by (unfold eps0; lra); cbn [map]; repeat apply cons_eq; try reflexivity; field.
Qed.

(** ** What does not hold *)
(** The azimuth of a plane wave, which is given in degrees, is used in radians: a wave from 3.14
    degrees to the left of the front comes from behind *)
Theorem C62_degrees_refuted : exists p0 p d, construct eps0 hall names 1 (Mode true false false) Default Default Default here = Ok p0
  /\ run eps0 p0 (alone (PlaneWave PI 0 1)) = Ok p /\ n_lf p = Some d /\ total (column 4 1 d 0) (directions hall here) = P3 (-1) 0 0.
Proof.
  destruct (alone_gains _ (PlaneWave PI 0 1) _ _ _ [-1; 0; 0; 0] hall_vbap eq_refl) as (p0 & p & d & A & B & C & D).
  { assert (Sn : seen hall here (P3 (1 * cos 0 * cos PI) (1 * cos 0 * sin PI) (1 * sin 0)) true = P3 (-1) 0 0) by (unfold seen; cbn [hall a_2D here px py pz]; rewrite cos_0, sin_0, cos_PI, sin_PI; apply P3_eq; ring).
    apply (proj2 (proj2 (hall_gains _ _ _ _ _ _ hall_vbap Sn))). lra. }
  exists p0, p, d. split; [exact A|]. split; [exact B|]. split; [exact C|]. rewrite D. unfold at_level. rewrite total_scale, hall_directions. unfold size_of.
  replace (power [-1; 0; 0; 0]) with (1 * 1) by (cbn; ring). rewrite sqrt_square by lra. rewrite Rmax_left by (unfold eps0; lra). unfold total, scale3, add3, zero3. cbn [px py pz]. apply P3_eq; field.
Qed.

(** A source outside all triplets has a negative gain, whose square root is not a number *)
Theorem C62_high_frequency_refuted : exists p0, construct eps0 hall names 1 (Mode true true false) Default Default Default here = Ok p0
  /\ run eps0 p0 (alone (PointSource (P3 0 3 3))) = UB.
Proof.
  destruct (hall_start 1 (Mode true true false)) as (p0 & C0 & F). exists p0. split; [exact C0|]. pose proof F as (Rd & EV & _ & _ & _ & _ & O2 & _).
  assert (Sn : seen hall here (P3 0 3 3) false = P3 (-1) 3 3) by (unfold seen; cbn [hall a_2D here px py pz]; apply P3_eq; lra).
  assert (G : calculateGainsUnNormalised (n_vbap p0) (P3 0 3 3) false = Ok [-1; 3; 3; 0]) by (apply (proj1 (proj2 (hall_gains _ _ _ _ _ _ EV Sn))); lra).
  unfold alone. cbn [run]. unfold process. cbn [fst snd bind]. rewrite process_objects_wiped. cbn [process_each]. unfold process_object. cbn [so_content so_channels]. cbn [wiped n_vbap]. rewrite G. cbn [bind].
  unfold panned. cbn [wiped n_hf]. destruct (n_hf p0) as [h|]; [|exfalso; destruct O2 as [O2 _]; specialize (O2 eq_refl); discriminate].
  cbn [map_res]. unfold square_root at 1. dec. reflexivity.
Qed.
(** and if two coordinates are negative in every triplet the exception of VBAP ends the processing *)
Theorem C62_outside_refuted : exists p0, construct eps0 hall names 1 (Mode true false false) Default Default Default here = Ok p0
  /\ run eps0 p0 (alone (PointSource (P3 0 (-1) 1))) = Throw RuntimeError.
Proof.
  destruct (hall_start 1 (Mode true false false)) as (p0 & C0 & F). exists p0. split; [exact C0|]. pose proof F as (_ & EV & _). rewrite hall_vbap in EV. apply Ok_inj in EV.
  assert (G : calculateGainsUnNormalised (n_vbap p0) (P3 0 (-1) 1) false = Throw RuntimeError).
  { rewrite <- EV. unfold calculateGainsUnNormalised, calcPlainVBAP. cbn [v_array v_inverse v_listener hall a_2D a_positions]. rewrite search_eq by exact I. cbn [map search'].
    destruct (hall_coords (Rpsub (P3 0 (-1) 1) here)) as [-> ->]. unfold insideb, negatives, Rpsub. cbn [fst snd px py pz here]. dec. reflexivity. }
  unfold alone. cbn [run]. unfold process. cbn [fst snd bind]. rewrite process_objects_wiped. cbn [process_each]. unfold process_object. cbn [so_content so_channels]. cbn [wiped n_vbap]. rewrite G. reflexivity.
Qed.
(** A label that names no loudspeaker is reported, but used as if it had been found *)
Theorem C62_label_refuted : exists p0, construct eps0 hall names 1 (Mode true false false) Default Default Default here = Ok p0
  /\ run eps0 p0 (alone (ChannelObject 0 [[String.EmptyString]])) = UB.
Proof.
  destruct (hall_start 1 (Mode true false false)) as (p0 & C0 & F). exists p0. split; [exact C0|]. pose proof F as ((_ & T & _) & _).
  unfold alone. cbn [run]. unfold process. cbn [fst snd bind]. rewrite process_objects_wiped. cbn [process_each]. unfold process_object. cbn [so_content so_channels channel_object nth_error label_gains wiped n_table].
  destruct (lookup (n_table p0) String.EmptyString) as [i|] eqn:E; [|reflexivity]. exfalso. apply T in E. destruct E as [E _]. cbn in E. intuition discriminate.
Qed.
(** A channel that does not exist is written all the same: with one object channel, the gains of
    channel 16 are written to the padded matrix one row further down, and beyond its end *)
Theorem C62_channel_refuted : exists p0, construct eps0 hall names 1 (Mode true false false) Default Default Default here = Ok p0
  /\ run eps0 p0 [(None, Some [SceneObject [16%nat] (PointSource (P3 2 0 0))])] = UB.
Proof.
  destruct (hall_start 1 (Mode true false false)) as (p0 & C0 & F). exists p0. split; [exact C0|]. pose proof F as (((Fn & Fr & Sz & _) & _) & EV & _ & _ & _ & O1 & O2 & _).
  assert (Sn : seen hall here (P3 2 0 0) false = P3 1 0 0) by (unfold seen; cbn [hall a_2D here px py pz]; apply P3_eq; lra).
  assert (G : calculateGainsUnNormalised (n_vbap p0) (P3 2 0 0) false = Ok [1; 0; 0; 0]) by (apply (proj1 (hall_gains _ _ _ _ _ _ EV Sn)); lra).
  assert (H : n_hf p0 = None) by (apply O2; reflexivity).
  cbn [run]. unfold process. cbn [fst snd bind]. rewrite process_objects_wiped. cbn [process_each]. unfold process_object. cbn [so_content so_channels]. cbn [wiped n_vbap]. rewrite G. cbn [bind].
  unfold panned. cbn [wiped n_hf]. rewrite H. cbn [bind]. unfold write_gains. cbn [wiped n_lf n_objects n_lfNorm]. rewrite Fn. destruct (n_lf p0) as [d|]; [|exfalso; destruct O1 as [O1 _]; specialize (O1 eq_refl); discriminate].
  cbn [sized] in Sz. change (a_regular hall * stride 1)%nat with 64%nat in Sz. unfold write_to, normalise_into. change (stride 1) with 16%nat. cbn [map write_strided]. rewrite Sz.
  destruct (vset_ok (repeat 0 64) 16 ((1 - 0) / Rmax (sig_norm (n_lfNorm p0) [1; 0; 0; 0]) eps0 * 1)) as (d1 & E1 & L1 & _); [rewrite repeat_length; lia|]. rewrite repeat_length in L1.
  cbn [n_lfNorm]. rewrite E1. cbn [bind]. change (16 + 16)%nat with 32%nat.
  destruct (vset_ok d1 32 ((1 - 0) / Rmax (sig_norm (n_lfNorm p0) [1; 0; 0; 0]) eps0 * 0)) as (d2 & E2 & L2 & _); [lia|]. rewrite E2. cbn [bind]. change (32 + 16)%nat with 48%nat.
  destruct (vset_ok d2 48 ((1 - 0) / Rmax (sig_norm (n_lfNorm p0) [1; 0; 0; 0]) eps0 * 0)) as (d3 & E3 & L3 & _); [lia|]. rewrite E3. cbn [bind]. change (48 + 16)%nat with 64%nat.
  assert (E4 : forall x, vset d3 64 x = UB). { intros x. unfold vset. rewrite L3, L2, L1. reflexivity. } rewrite E4. reflexivity.
Qed.
(** A listener position without an object vector changes nothing: the gains belong to the old
    position and no longer recreate the direction of the source *)
Theorem C62_listener_refuted : exists p0 p d, construct eps0 hall names 1 (Mode true false false) Default Default Default here = Ok p0
  /\ run eps0 p0 (alone (PointSource (P3 2 1 0)) ++ [(Some aside, None)]) = Ok p /\ n_lf p = Some d
  /\ (exists k, 0 < k /\ total (column 4 1 d 0) (directions hall here) = scale3 k (seen hall here (P3 2 1 0) false))
  /\ forall k, total (column 4 1 d 0) (directions hall aside) <> scale3 k (seen hall aside (P3 2 1 0) false).
Proof.
  assert (Sn : seen hall here (P3 2 1 0) false = P3 1 1 0) by (unfold seen; cbn [hall a_2D here px py pz]; apply P3_eq; lra).
  destruct (alone_gains _ (PointSource (P3 2 1 0)) _ _ _ [1; 1; 0; 0] hall_vbap eq_refl) as (p0 & p1 & d & A & B & C & D).
  { apply (proj1 (hall_gains _ _ _ _ _ _ hall_vbap Sn)). lra. }
  destruct (hall_start 1 (Mode true false false)) as (p0' & A' & F). rewrite A in A'. apply Ok_inj in A'. subst p0'.
  assert (F1 : exists l, follows eps0 hall names 1 (Mode true false false) Default Default Default l p1).
  { unfold alone in B. cbn [run] in B. destruct (process eps0 p0 _) as [q| |] eqn:E; try discriminate. cbn [bind] in B. apply Ok_inj in B. subst q. exists here. exact (proj1 (process_shown _ _ _ _ _ _ _ _ _ _ _ _ F E)). }
  destruct F1 as (l & F1). assert (E : exists p, set_listener eps0 p1 aside = Ok p).
  { unfold set_listener. rewrite (vbap_array _ _ _ _ (proj1 (proj2 F1))). destruct (setListenerPosition_ok eps0 eps0_pos hall aside aside_placed) as (v & -> & _). cbn [bind]. eexists. reflexivity. }
  destruct E as (p & E). exists p0, p, d. split; [exact A|]. split.
  { unfold alone in *. cbn [run app] in *. destruct (process eps0 p0 _) as [q| |]; try discriminate. cbn [bind] in *. apply Ok_inj in B. subst q. unfold process. cbn [fst snd]. rewrite E. reflexivity. }
  destruct (set_listener_follows _ _ _ _ _ _ _ _ _ _ _ _ F1 E) as [_ O]. injection O as O _ _. split; [rewrite O; exact C|]. rewrite D. unfold at_level. set (k := (1 - 0) / _).
  assert (K : 0 < k) by (apply Rdiv_lt_0_compat; [lra|]; eapply Rlt_le_trans; [exact eps0_pos|apply Rmax_r]). rewrite !total_scale. split.
  - exists k. split; [exact K|]. f_equal. rewrite Sn, hall_directions. unfold total, scale3, add3, zero3. cbn [px py pz]. apply P3_eq; ring.
  - intros k'. rewrite aside_directions. unfold seen, total, scale3, add3, zero3. cbn [hall a_2D aside px py pz]. intros X. injection X as X1 X2 _. lra.
Qed.
(** An array in which a loudspeaker has no id is refused *)
Lemma fill_from_named ids : forall m k t t', fill_from ids m k t = Ok t' -> forall i, (k <= i < k + m)%nat -> exists label, In (label, i) ids.
Proof.
  induction m as [|m IH]; intros k t t' E i Hi; [lia|]. cbn [fill_from] in E.
  destruct (loudspeakerId ids k) as [x| |] eqn:EK; try discriminate. cbn [bind] in E.
  destruct (lookup t x); [discriminate|]. assert (i = k \/ (S k <= i < S k + m)%nat) as [->|L] by lia; [|exact (IH _ _ _ E i L)].
  unfold loudspeakerId in EK. destruct (find _ ids) as [[y j]|] eqn:EF; [|discriminate]. apply find_some in EF. destruct EF as [I J].
  apply Nat.eqb_eq in J. cbn [snd] in J. subst j. exists y. exact I.
Qed.
Theorem C62_every_loudspeaker_named : forall epsilon a ids n mode lfNorm hfNorm diffuseNorm l p,
  construct epsilon a ids n mode lfNorm hfNorm diffuseNorm l = Ok p -> forall i, (i < a_regular a)%nat -> exists label, In (label, i) ids.
Proof.
  intros epsilon a ids n mode l1 l2 l3 l p E i Hi. unfold construct, fillLabelLookup in E. destruct (fill_from ids (a_regular a) 0 []) as [t| |] eqn:EF; try discriminate.
  apply (fill_from_named ids _ _ _ _ EF). lia.
Qed.
Print Assumptions C62_scene_partial.
Print Assumptions C62_levels_partial.
Print Assumptions C62_direction_partial.
Print Assumptions C62_defined_partial.
Print Assumptions C62_degrees_refuted.
Print Assumptions C62_high_frequency_refuted.
Print Assumptions C62_outside_refuted.
Print Assumptions C62_label_refuted.
Print Assumptions C62_channel_refuted.
Print Assumptions C62_listener_refuted.
Print Assumptions C62_every_loudspeaker_named.
