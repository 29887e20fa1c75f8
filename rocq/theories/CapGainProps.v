(** * C61: the gain calculator for compensated amplitude panning *)
From Verif Require Import Base QuaternionModel QuaternionProofs ListenerModel VbapModel VbapSpec VbapProofs VbapLaws VbapProps VbapVirtualProps
  CapModel CapProofs CapProps CapVbapModel CapVbapProps CapGainModel.
From Coq Require Import Reals Lra.
Local Open Scope R_scope.
Local Open Scope res_scope.

(** ** Specification *)
(** the last object that consists of just the channel [ch] *)
Fixpoint last_kind (objects : list object) (ch : nat) : option kind :=
  match objects with
  | [] => None
  | o :: rest =>
      match last_kind rest ch with
      | Some k => Some k
      | None => match o_channels o with [c] => if Nat.eqb c ch then Some (o_kind o) else None | _ => None end
      end
  end.
(** the source that an object describes; a plane wave has a unit direction, given in degrees *)
Definition sound_of (k : kind) : option xyz :=
  match k with
  | PointSource p | PointSourceWithDiffuseness p _ => Some (XYZ p false)
  | PlaneWave az el _ =>
      let a := az * PI / 180 in let e := el * PI / 180 in Some (XYZ (P3 (cos a * cos e) (sin a * cos e) (sin e)) true)
  | OtherType => None
  end.
Definition heard (objects : list object) (ch : nat) : option xyz := match last_kind objects ch with Some k => sound_of k | None => None end.
(** the last object vector and the listener at that time *)
Fixpoint last_scene (inputs : list (option listener * option (list object))) (l : option listener) : option (list object * option listener) :=
  match inputs with
  | [] => None
  | (l', os) :: rest =>
      let l'' := match l' with Some x => Some x | None => l end in
      match last_scene rest l'' with
      | Some s => Some s
      | None => match os with Some objects => Some (objects, l'') | None => None end
      end
  end.
(** the head of the listener; before the first position it is at the origin, its ears on the first axis *)
Definition position_of (l : option listener) : pos3 R := match l with Some x => l_pos x | None => P3 0 0 0 end.
Definition axis_of (l : option listener) : pos3 R :=
  match l with Some x => rotate_z (l_yaw x) (rotate_y (- l_pitch x) (rotate_x (- l_roll x) (P3 0 1 0))) | None => P3 1 0 0 end.
Definition head (a : array) (mode : bool) (l : option listener) : cap :=
  Cap (firstn (a_regular a) (a_positions a)) (length (a_positions a)) (position_of l) (axis_of l) (3 / 2) 10 mode.
(** gains of one channel: those of its source, or silence *)
Definition column_for (k : cap) (loudspeakers : nat) (src : option xyz) (col : list R) : Prop :=
  match src with Some s => exists row, source_gains k s = Ok row /\ col = firstn loudspeakers row | None => col = repeat 0 loudspeakers end.

(** ** Proofs *)
Lemma update_length l i f : length (update l i f) = length l.
Proof.
  unfold update. rewrite app_length, firstn_length. pose proof (skipn_length i l) as H. destruct (skipn i l) as [|s rest]; cbn [length] in *; lia.
Qed.
Lemma update_nth l i f k : nth_error (update l i f) k = if Nat.eqb k i then option_map f (nth_error l k) else nth_error l k.
Proof.
  revert i k. induction l as [|x l IH]; intros i k.
  - unfold update. rewrite firstn_nil, skipn_nil. cbn [app]. destruct k; cbn [nth_error option_map]; now destruct (Nat.eqb _ _).
  - destruct i as [|i].
    + unfold update. cbn [firstn skipn app]. destruct k; reflexivity.
    + change (update (x :: l) (S i) f) with (x :: update l i f). destruct k as [|k]; [reflexivity|]. cbn [nth_error Nat.eqb]. apply IH.
Qed.
Lemma set_object_length n l o : length (set_object n l o) = length l.
Proof. unfold set_object. destruct (o_channels o) as [|c [|]]; try reflexivity. destruct (Nat.leb n c); [reflexivity|apply update_length]. Qed.
Lemma assign_length n objects : length (assign n objects) = n.
Proof.
  unfold assign. assert (E : forall os l, length (fold_left (set_object n) os l) = length l).
  { induction os as [|o os IH]; intros l; cbn [fold_left]; [reflexivity|]. rewrite IH. apply set_object_length. }
  rewrite E. apply repeat_length.
Qed.
Lemma spherical_eq az el : spherical2cartesian (degree2radian az) (degree2radian el) 1
  = P3 (cos (az * PI / 180) * cos (el * PI / 180)) (sin (az * PI / 180) * cos (el * PI / 180)) (sin (el * PI / 180)).
Proof. unfold spherical2cartesian, degree2radian. apply P3_eq; ring. Qed.

(** what an entry says *)
Definition entry_of (k : option kind) (s : source) : Prop :=
  match match k with Some k => sound_of k | None => None end with Some src => s_level s = 1 /\ s_position s = src | None => s_level s = 0 end.
Lemma set_object_kind n l o ch s : length l = n -> nth_error (set_object n l o) ch = Some s ->
  match match o_channels o with [c] => if Nat.eqb c ch then Some (o_kind o) else None | _ => None end with
  | Some k => entry_of (Some k) s | None => nth_error l ch = Some s end.
Proof.
  intros L. unfold set_object. destruct (o_channels o) as [|c [|]]; try (intros H; exact H). destruct (Nat.leb_spec n c) as [H|H].
  - intros E. destruct (Nat.eqb_spec c ch) as [->|N]; [|exact E]. assert (ch < length l)%nat by (apply nth_error_Some; congruence). lia.
  - rewrite update_nth, Nat.eqb_sym. destruct (Nat.eqb_spec c ch) as [->|N]; [|intros E; exact E].
    destruct (nth_error l ch) as [s0|]; [|discriminate]. cbn [option_map]. intros E. apply Some_inj in E. subst s. unfold entry_of.
    destruct (o_kind o) as [p|p d|az el d|]; cbn [sound_of s_level s_position]; try (split; reflexivity); try reflexivity. split; [reflexivity|]. now rewrite spherical_eq.
Qed.
Lemma fold_kind n : forall objects l ch s, length l = n -> nth_error (fold_left (set_object n) objects l) ch = Some s ->
  match last_kind objects ch with Some k => entry_of (Some k) s | None => nth_error l ch = Some s end.
Proof.
  induction objects as [|o os IH]; intros l ch s L E; [exact E|]. cbn [fold_left last_kind] in *. apply IH in E; [|now rewrite set_object_length].
  destruct (last_kind os ch) as [k|]; [exact E|]. apply set_object_kind in E; [|exact L]. exact E.
Qed.
Lemma assign_entry n objects ch s : nth_error (assign n objects) ch = Some s -> entry_of (last_kind objects ch) s.
Proof.
  intros E. pose proof (fold_kind n objects (repeat default_source n) ch s (repeat_length _ _) E) as H. destruct (last_kind objects ch); [exact H|].
  apply nth_error_In, repeat_spec in H. subst s. reflexivity.
Qed.

(** *** Rows of gains *)
Lemma source_gains_length k src row : source_gains k src = Ok row -> length row = c_width k.
Proof.
  assert (G : forall g r, gain_row k g = Ok r -> length r = c_width k).
  { intros g r. unfold gain_row. destruct (Nat.leb_spec (length g) (c_width k)); [|discriminate]. intros E. apply Ok_inj in E. subst r. rewrite app_length, repeat_length. lia. }
  unfold source_gains. destruct (speaker_directions k) as [|r0 [|r1 [|r2 rs]]].
  - intros E. apply vset_length in E. now rewrite repeat_length in E.
  - intros E. apply vset_length in E. now rewrite repeat_length in E.
  - destruct (pair_gains k r0 r1 src) as [g| |]; try discriminate. cbn [bind]. apply G.
  - destruct (energy_gains k src) as [g| |]; try discriminate. cbn [bind]. apply G.
Qed.
Lemma calcGains_nth k srcs rows : calcGains k srcs = Ok rows -> Forall2 (fun src row => source_gains k src = Ok row) srcs rows.
Proof.
  revert rows. induction srcs as [|s srcs IH]; intros rows E; cbn [calcGains] in E; [apply Ok_inj in E; subst; constructor|].
  destruct (source_gains k s) as [g| |] eqn:EG; try discriminate. cbn [bind] in E. destruct (calcGains k srcs) as [gs| |]; try discriminate. cbn [bind] in E.
  apply Ok_inj in E. subst rows. constructor; [exact EG|now apply IH].
Qed.
Lemma map_seq_nth (f : R -> R) (row : list R) n : (n <= length row)%nat -> map (fun i => f (nth i row 0)) (seq 0 n) = map f (firstn n row).
Proof.
  revert n. induction row as [|x row IH]; intros n L; [cbn in L; assert (n = 0)%nat by lia; subst; reflexivity|]. destruct n as [|n]; [reflexivity|].
  cbn [seq map firstn nth]. f_equal. rewrite <- seq_shift, map_map. apply IH. cbn in L. lia.
Qed.
Lemma column_eq lsp level row : (lsp <= length row)%nat -> gain_column lsp level row = map (fun x => level * x) (firstn lsp row).
Proof. intros L. unfold gain_column. exact (map_seq_nth (fun x => level * x) row lsp L). Qed.
Lemma map_res_nth {A B} (f : A -> res B) l r : map_res f l = Ok r -> Forall2 (fun x y => f x = Ok y) l r.
Proof.
  revert r. induction l as [|x l IH]; intros r E; cbn [map_res] in E; [apply Ok_inj in E; subst; constructor|].
  destruct (f x) as [y| |] eqn:EF; try discriminate. cbn [bind] in E. destruct (map_res f l) as [ys| |]; try discriminate. cbn [bind] in E. apply Ok_inj in E. subst r. constructor; [exact EF|now apply IH].
Qed.
Lemma Forall2_len {A B} (Q : A -> B -> Prop) l l' : Forall2 Q l l' -> length l = length l'.
Proof. induction 1; cbn; congruence. Qed.
Lemma map_zero (l : list R) : map (fun x => 0 * x) l = repeat 0 (length l).
Proof. induction l as [|x l IH]; [reflexivity|]. cbn [map length repeat]. rewrite IH. f_equal. ring. Qed.
Lemma combine_nth_error {A B} (l : list A) (l' : list B) k p : nth_error (combine l l') k = Some p -> nth_error l k = Some (fst p) /\ nth_error l' k = Some (snd p).
Proof.
  revert l' k. induction l as [|x l IH]; intros [|y l'] [|k] E; try discriminate; cbn in *; [apply Some_inj in E; subst p; split; reflexivity|now apply IH].
Qed.

Section Calculator.
  Variable epsilon : R.
  Hypothesis Heps : 0 < epsilon.

  Definition gains_for (k : cap) (n lsp : nat) (objects : list object) (gains : list (list R)) : Prop :=
    length gains = n /\ forall ch col, nth_error gains ch = Some col -> column_for k lsp (heard objects ch) col.
  Definition hf_gains_for (v : capvbap) (n : nat) (objects : list object) (gains : list (list R)) : Prop :=
    length gains = n /\ forall ch col, nth_error gains ch = Some col ->
      match heard objects ch with Some s => cv_calculateGains epsilon v (x_pos s) (x_infinite s) = Ok col | None => col = repeat 0 (a_regular (k_array v)) end.

  Lemma process_objects_spec c objects c' : (g_loudspeakers c <= c_width (g_cap c))%nat -> process_objects epsilon c objects = Ok c' ->
    g_objects c' = g_objects c /\ g_loudspeakers c' = g_loudspeakers c /\ g_cap c' = g_cap c /\ g_vbip c' = g_vbip c
    /\ gains_for (g_cap c) (g_objects c) (g_loudspeakers c) objects (g_gains c')
    /\ match g_vbip c with Some v => hf_gains_for v (g_objects c) objects (g_hf c') | None => g_hf c' = g_hf c end.
  Proof using Heps.
    intros W E. unfold process_objects in E. set (sources := assign (g_objects c) objects) in *. destruct (calcGains (g_cap c) (map s_position sources)) as [rows| |] eqn:EC; try discriminate. cbn [bind] in E.
    destruct (match g_vbip c with Some v => map_res (hf_column epsilon v) sources | None => Ok (g_hf c) end) as [hf| |] eqn:EH; try discriminate. cbn [bind] in E. apply Ok_inj in E. subst c'.
    cbn [g_objects g_loudspeakers g_cap g_vbip g_gains g_hf]. repeat (split; [reflexivity|]). apply calcGains_nth in EC.
    assert (LS : length sources = g_objects c) by apply assign_length. split; [split|].
    - rewrite map_length, combine_length. pose proof (Forall2_len _ _ _ EC) as L. rewrite map_length in L. lia.
    - intros ch col H. rewrite nth_error_map in H. destruct (nth_error (combine sources rows) ch) as [p|] eqn:EP; [|discriminate]. cbn [option_map] in H. apply Some_inj in H. subst col.
      apply combine_nth_error in EP as [E1 E2]. pose proof (assign_entry _ _ _ _ E1) as K. destruct (Forall2_nth _ _ _ _ _ EC E2) as (src & Es & Er). rewrite nth_error_map, E1 in Es. cbn [option_map] in Es. apply Some_inj in Es.
      rewrite column_eq by (rewrite (source_gains_length _ _ _ Er); exact W). unfold entry_of in K. fold (heard objects ch) in K. unfold column_for. destruct (heard objects ch) as [s|].
      + destruct K as [K1 K2]. exists (snd p). split; [congruence|]. rewrite K1, (map_ext (fun x => 1 * x) (fun x => x)) by (intros; ring). apply map_id.
      + rewrite K, map_zero, firstn_length. f_equal. rewrite (source_gains_length _ _ _ Er). lia.
    - destruct (g_vbip c) as [v|]; [|apply Ok_inj in EH; now symmetry]. apply map_res_nth in EH. split; [rewrite <- (Forall2_len _ _ _ EH); exact LS|].
      intros ch col H. destruct (Forall2_nth _ _ _ _ _ EH H) as (s & Es & Ec). pose proof (assign_entry _ _ _ _ Es) as K. unfold entry_of in K. fold (heard objects ch) in K.
      unfold hf_column in Ec. destruct (cv_calculateGainsUnNormalised v _ _) as [g| |] eqn:EG; try discriminate. cbn [bind] in Ec. apply Ok_inj in Ec. subst col.
      destruct (heard objects ch) as [src|].
      + destruct K as [K1 K2]. rewrite <- K2, K1. unfold cv_calculateGains. unfold cv_calculateGainsUnNormalised in EG. destruct (calcPlainGains v _ _) as [gain| |]; try discriminate. cbn [bind] in *. apply Ok_inj in EG. now rewrite EG.
      + rewrite K. rewrite (map_ext _ (fun x => 0 * x)) by (intros; unfold Rdiv; ring). rewrite map_zero. f_equal.
        unfold cv_calculateGainsUnNormalised in EG. destruct (calcPlainGains v _ _) as [gain| |]; try discriminate. cbn [bind] in EG. apply Ok_inj in EG. subst g. apply applyRerouting_length.
  Qed.

  (** the state of the algorithms follows the listener *)
  Definition follows (a : array) (n : nat) (mode hf : bool) (l : option listener) (c : calculator) : Prop :=
    g_objects c = n /\ g_loudspeakers c = a_regular a /\ g_cap c = head a mode l
    /\ match g_vbip c with Some v => hf = true /\ cv_construct epsilon a (position_of l) = Ok v | None => hf = false end.
  Lemma construct_follows a n mode hf c : construct epsilon a n mode hf = Ok c -> follows a n mode hf None c
    /\ g_gains c = repeat (repeat 0 (a_regular a)) n /\ g_hf c = repeat (repeat 0 (a_regular a)) n.
  Proof using.
    unfold construct. destruct hf.
    - destruct (cv_construct epsilon a (P3 0 0 0)) as [v| |] eqn:EV; try discriminate. cbn [bind]. intros E. apply Ok_inj in E. subst c. split; [|split; reflexivity].
      unfold follows. cbn [g_objects g_loudspeakers g_cap g_vbip]. repeat (split; [reflexivity|]). exact EV.
    - cbn [bind]. intros E. apply Ok_inj in E. subst c. split; [|split; reflexivity]. unfold follows. cbn [g_objects g_loudspeakers g_cap g_vbip]. repeat (split; [reflexivity|]). reflexivity.
  Qed.
  Lemma construct_kept a l v : cv_construct epsilon a l = Ok v -> k_array v = a /\ k_threshold v = -1 /\ k_fade v = false.
  Proof using.
    unfold cv_construct, cv_setListenerPosition. destruct (map_res _ _) as [rows| |]; try discriminate. cbn [bind]. intros E. apply Ok_inj in E. subst v. repeat split; reflexivity.
  Qed.
  Lemma head_axis a mode l x : setListenerOrientation (Cap (c_speakers (head a mode l)) (c_width (head a mode l)) (l_pos x) (c_axis (head a mode l)) (c_maxGainPreComp (head a mode l)) (c_maxGain (head a mode l)) (c_HFmode (head a mode l)))
      (l_yaw x) (l_pitch x) (l_roll x) = head a mode (Some x).
  Proof using.
    unfold head at 7. pose proof (proj1 (C59_axis (Cap (c_speakers (head a mode l)) (c_width (head a mode l)) (l_pos x) (c_axis (head a mode l)) (c_maxGainPreComp (head a mode l)) (c_maxGain (head a mode l)) (c_HFmode (head a mode l)))
      (l_yaw x) (l_pitch x) (l_roll x))) as E. cbn [position_of axis_of]. rewrite <- E. reflexivity.
  Qed.
  Lemma set_listener_follows a n mode hf l x c c' : follows a n mode hf l c -> set_listener epsilon c x = Ok c' ->
    follows a n mode hf (Some x) c' /\ g_gains c' = g_gains c /\ g_hf c' = g_hf c.
  Proof using.
    intros (F1 & F2 & F3 & F4) E. unfold set_listener in E. rewrite F3, head_axis in E. destruct (g_vbip c) as [v|].
    - destruct F4 as [Fh Fv]. destruct (construct_kept _ _ _ Fv) as (KA & KT & KF). rewrite KA, KT, KF in E. fold (cv_construct epsilon a (l_pos x)) in E.
      destruct (cv_construct epsilon a (l_pos x)) as [v'| |] eqn:EV; try discriminate. cbn [bind] in E. apply Ok_inj in E. subst c'. split; [|split; reflexivity].
      unfold follows. cbn [g_objects g_loudspeakers g_cap g_vbip]. repeat (split; [assumption || reflexivity|]). exact EV.
    - cbn [bind] in E. apply Ok_inj in E. subst c'. split; [|split; reflexivity]. unfold follows. cbn [g_objects g_loudspeakers g_cap g_vbip]. repeat (split; [assumption || reflexivity|]). exact F4.
  Qed.

  (** outputs before the first object vector, or for a given scene *)
  Definition outputs (a : array) (n : nat) (mode hf : bool) (s : option (list object * option listener)) (c : calculator) : Prop :=
    match s with
    | None => g_gains c = repeat (repeat 0 (a_regular a)) n /\ g_hf c = repeat (repeat 0 (a_regular a)) n
    | Some (objects, l) => gains_for (head a mode l) n (a_regular a) objects (g_gains c)
        /\ (hf = true -> exists v, cv_construct epsilon a (position_of l) = Ok v /\ hf_gains_for v n objects (g_hf c))
    end.
  Lemma outputs_eq a n mode hf s c c' : g_gains c' = g_gains c -> g_hf c' = g_hf c -> outputs a n mode hf s c -> outputs a n mode hf s c'.
  Proof using. intros E1 E2. unfold outputs. rewrite E1, E2. exact (fun H => H). Qed.
  Lemma run_outputs a n mode hf : (a_regular a <= length (a_positions a))%nat -> forall inputs l s c c', follows a n mode hf l c -> outputs a n mode hf s c -> run epsilon c inputs = Ok c' ->
    outputs a n mode hf (match last_scene inputs l with Some x => Some x | None => s end) c'.
  Proof using Heps.
    intros B. induction inputs as [|[l' os] rest IH]; intros l s c c' F O E; cbn [run last_scene] in *; [apply Ok_inj in E; now subst c'|].
    destruct (process epsilon c (l', os)) as [c1| |] eqn:EP; try discriminate. cbn [bind] in E. unfold process in EP. cbn [fst snd] in EP.
    set (l'' := match l' with Some x => Some x | None => l end).
    assert (Q : exists c2, follows a n mode hf l'' c2 /\ g_gains c2 = g_gains c /\ g_hf c2 = g_hf c /\ match os with Some objects => process_objects epsilon c2 objects | None => Ok c2 end = Ok c1).
    { destruct l' as [x|]; cbn [bind] in EP.
      - destruct (set_listener epsilon c x) as [c2| |] eqn:ES; try discriminate. cbn [bind] in EP. destruct (set_listener_follows a n mode hf l x c c2 F ES) as (F2 & G & H). exists c2. repeat (split; [assumption|]). exact EP.
      - exists c. split; [exact F|]. split; [reflexivity|]. split; [reflexivity|]. exact EP. }
    destruct Q as (c2 & F2 & EG & EH & EO). apply (outputs_eq a n mode hf s c c2 EG EH) in O. destruct os as [objects|].
    - pose proof F2 as (G1 & G2 & G3 & G4). destruct (process_objects_spec c2 objects c1) as (H1 & H2 & H3 & H4 & HG & HH); [rewrite G2, G3; exact B|exact EO|].
      assert (F1 : follows a n mode hf l'' c1) by (unfold follows; rewrite H1, H2, H3, H4; exact F2). rewrite G1, G2, G3 in HG.
      assert (O1 : outputs a n mode hf (Some (objects, l'')) c1).
      { split; [exact HG|]. intros ->. destruct (g_vbip c2) as [v|]; [|discriminate]. exists v. split; [apply G4|]. rewrite G1 in HH. exact HH. }
      specialize (IH l'' (Some (objects, l'')) c1 c' F1 O1 E). destruct (last_scene rest l''); exact IH.
    - apply Ok_inj in EO. subst c2. specialize (IH l'' s c1 c' F2 O E). destruct (last_scene rest l''); exact IH.
  Qed.

  (** *** No failure *)
  Definition spread (k : cap) : Prop := exists x y, In x (speaker_cosines k) /\ In y (speaker_cosines k) /\ x <> y.
  Lemma process_objects_ok a n mode hf l c objects : follows a n mode hf l c -> (3 <= a_regular a <= length (a_positions a))%nat -> spread (head a mode l) ->
    (hf = true -> a_2D a = false /\ placed epsilon a (viewpoint a (position_of l))) -> exists c', process_objects epsilon c objects = Ok c'.
  Proof using Heps.
    intros (F1 & F2 & F3 & F4) B Sp H. unfold process_objects. rewrite F3. set (sources := assign _ _).
    assert (LF : length (firstn (a_regular a) (a_positions a)) = a_regular a) by (rewrite firstn_length; lia).
    destruct (C59_minimum_energy_partial (head a mode l) (map s_position sources)) as (rows & E & _); [cbn [head c_speakers c_width]; rewrite LF; lia|exact Sp|cbn [head c_maxGain]; lra|].
    rewrite E. cbn [bind]. destruct (g_vbip c) as [v|]; [|cbn [bind]; eauto]. destruct F4 as [-> Fv]. destruct (H eq_refl) as [D P].
    destruct (C60_direction_partial epsilon a (position_of l) Heps D P) as (v' & Ev & K). rewrite Fv in Ev. apply Ok_inj in Ev. subst v'.
    assert (M : exists g, map_res (hf_column epsilon v) sources = Ok g).
    { clear E. induction sources as [|s ss (g & E)]; [exists []; reflexivity|]. cbn [map_res]. unfold hf_column at 1, cv_calculateGainsUnNormalised.
      destruct (K (x_pos (s_position s)) (x_infinite (s_position s))) as (gain & EG & _). rewrite EG. cbn [bind]. rewrite E. cbn [bind]. eauto. }
    destruct M as (g & M). rewrite M. cbn [bind]. eauto.
  Qed.
End Calculator.

(** ** Theorems *)
(** After any sequence of blocks the outputs are those of the last object vector, for the listener
    known at that time: zero before the first object vector; then every channel has the gains of the
    last object that consists of this channel, and silence if there is none or it has another type.
    Missing for the full claim: the listener of the current block, diffuseness (refuted below). *)
Theorem C61_scene_partial : forall epsilon a n mode hf inputs c0 c,
  0 < epsilon -> (a_regular a <= length (a_positions a))%nat ->
  construct epsilon a n mode hf = Ok c0 -> run epsilon c0 inputs = Ok c ->
  outputs epsilon a n mode hf (last_scene inputs None) c.
Proof.
  intros epsilon a n mode hf inputs c0 c He B C R. destruct (construct_follows epsilon a n mode hf c0 C) as (F & G & H).
  pose proof (run_outputs epsilon He a n mode hf B inputs None None c0 c F (conj G H) R) as O. destruct (last_scene inputs None); exact O.
Qed.

(** With three or more loudspeakers, spread along the interaural axis of every listener received,
    and (for the high frequency output) triplets not coplanar with the listener, no block fails *)
Theorem C61_defined_partial : forall epsilon a n mode hf inputs,
  0 < epsilon -> (3 <= a_regular a <= length (a_positions a))%nat ->
  (forall l, l = None \/ In l (map fst inputs) -> spread (head a mode l) /\ (hf = true -> a_2D a = false /\ placed epsilon a (viewpoint a (position_of l)))) ->
  exists c0 c, construct epsilon a n mode hf = Ok c0 /\ run epsilon c0 inputs = Ok c.
Proof.
  intros epsilon a n mode hf inputs He B H.
  assert (C0 : exists c0, construct epsilon a n mode hf = Ok c0).
  { unfold construct. destruct hf; [|cbn [bind]; eauto]. destruct (H None (or_introl eq_refl)) as [_ K]. destruct (K eq_refl) as [D P].
    destruct (C60_direction_partial epsilon a (P3 0 0 0) He D P) as (v & E & _). rewrite E. cbn [bind]. eauto. }
  destruct C0 as (c0 & C0). exists c0. destruct (construct_follows epsilon a n mode hf c0 C0) as (F & _).
  enough (Q : forall l c, follows epsilon a n mode hf l c -> (spread (head a mode l) /\ (hf = true -> a_2D a = false /\ placed epsilon a (viewpoint a (position_of l)))) ->
     (forall l, In l (map fst inputs) -> spread (head a mode l) /\ (hf = true -> a_2D a = false /\ placed epsilon a (viewpoint a (position_of l)))) -> exists c', run epsilon c inputs = Ok c').
  { destruct (Q None c0 F (H None (or_introl eq_refl)) (fun l I => H l (or_intror I))) as (c & R). exists c. split; assumption. }
  clear H F C0 c0. induction inputs as [|[l' os] rest IH]; intros l c F Hl H; [exists c; reflexivity|]. cbn [run]. unfold process. cbn [fst snd].
  set (l'' := match l' with Some x => Some x | None => l end).
  assert (Hl'' : spread (head a mode l'') /\ (hf = true -> a_2D a = false /\ placed epsilon a (viewpoint a (position_of l'')))).
  { unfold l''. destruct l' as [x|]; [apply H; left; reflexivity|exact Hl]. }
  assert (Q : exists c2, match l' with Some x => set_listener epsilon c x | None => Ok c end = Ok c2 /\ follows epsilon a n mode hf l'' c2).
  { unfold l'' in *. destruct l' as [x|]; [|exists c; split; [reflexivity|exact F]].
    assert (E : exists c2, set_listener epsilon c x = Ok c2).
    { unfold set_listener. destruct F as (_ & _ & _ & F4). destruct (g_vbip c) as [v|]; [|cbn [bind]; eauto]. destruct F4 as [-> Fv]. destruct (construct_kept _ _ _ _ Fv) as (KA & KT & KF). rewrite KA, KT, KF.
      fold (cv_construct epsilon a (l_pos x)). destruct Hl'' as [_ K]. destruct (K eq_refl) as [D P]. destruct (C60_direction_partial epsilon a (l_pos x) He D P) as (v' & E & _). rewrite E. cbn [bind]. eauto. }
    destruct E as (c2 & E). exists c2. split; [exact E|]. exact (proj1 (set_listener_follows epsilon a n mode hf l x c c2 F E)). }
  destruct Q as (c2 & E2 & F2). rewrite E2. cbn [bind].
  assert (Q : exists c1, match os with Some objects => process_objects epsilon c2 objects | None => Ok c2 end = Ok c1 /\ follows epsilon a n mode hf l'' c1).
  { destruct os as [objects|]; [|exists c2; split; [reflexivity|exact F2]]. destruct Hl'' as [Sp K].
    destruct (process_objects_ok epsilon He a n mode hf l'' c2 objects F2 B Sp K) as (c1 & E1). exists c1. split; [exact E1|]. pose proof F2 as (G1 & G2 & G3 & G4).
    destruct (process_objects_spec epsilon He c2 objects c1) as (H1 & H2 & H3 & H4 & _); [rewrite G2, G3; apply B|exact E1|]. unfold follows. rewrite H1, H2, H3, H4. exact F2. }
  destruct Q as (c1 & E1 & F1). rewrite E1. cbn [bind]. apply (IH l'' c1 F1 Hl''). intros y I. apply H. right. exact I.
Qed.

(** The high frequency gains of one source have a power of at most one *)
Theorem C61_hf_power_partial : forall epsilon a n mode inputs c0 c objects l,
  0 < epsilon -> (a_regular a <= length (a_positions a))%nat ->
  construct epsilon a n mode true = Ok c0 -> run epsilon c0 inputs = Ok c -> last_scene inputs None = Some (objects, l) ->
  forall ch col, nth_error (g_hf c) ch = Some col -> length col = a_regular a /\ power col <= 1.
Proof.
  intros epsilon a n mode inputs c0 c objects l He B C R LS ch col N. pose proof (C61_scene_partial _ _ _ _ _ _ _ _ He B C R) as O. rewrite LS in O. destruct O as [_ O].
  destruct (O eq_refl) as (v & Ev & _ & K). specialize (K ch col N). destruct (construct_kept _ _ _ _ Ev) as (KA & _). destruct (heard objects ch) as [s|].
  - unfold cv_calculateGains in K. destruct (calcPlainGains v _ _) as [gain| |]; try discriminate. cbn [bind] in K. apply Ok_inj in K. subst col. split; [unfold powerNormalisation; rewrite map_length, applyRerouting_length, KA; reflexivity|now apply powerNormalisation_bound].
  - subst col. rewrite KA. split; [apply repeat_length|]. clear. enough (E : power (repeat 0 (a_regular a)) = 0) by lra. induction (a_regular a) as [|m IH]; [reflexivity|]. unfold power in *. cbn [repeat fold_right]. rewrite IH. ring.
Qed.

(** ** Examples *)
Definition facing : listener := Listener (P3 0 0 0) 0 0 0.
Definition speakers_only (positions : list (pos3 R)) : array := Array false false positions (length positions) [] [].
Lemma head_facing positions mode : head (speakers_only positions) mode (Some facing) = cap_of positions mode.
Proof.
  unfold head, speakers_only, cap_of, facing. cbn [a_regular a_positions position_of axis_of l_pos l_yaw l_pitch l_roll]. rewrite firstn_all. f_equal.
  unfold rotate_z, rotate_y, rotate_x, ears. cbn [px py pz]. rewrite Ropp_0, sin_0, cos_0. apply P3_eq; ring.
Qed.
(** One object of one channel *)
Lemma one_object epsilon positions mode l c k p d row : (k = PointSource p \/ k = PointSourceWithDiffuseness p d) ->
  follows epsilon (speakers_only positions) 1 mode false l c ->
  calcGains (head (speakers_only positions) mode l) [XYZ p false] = Ok [row] -> length row = length positions ->
  exists c', process_objects epsilon c [Object [0%nat] k] = Ok c' /\ g_gains c' = [row] /\ follows epsilon (speakers_only positions) 1 mode false l c'.
Proof.
  intros K (G1 & G2 & G3 & G4) E L. unfold process_objects. rewrite G1, G3.
  assert (A : assign 1 [Object [0%nat] k] = [Source 1 (XYZ p false)]) by (destruct K as [->| ->]; reflexivity). rewrite A. cbn [map s_position]. rewrite E. cbn [bind].
  destruct (g_vbip c) as [v|] eqn:EV; [destruct G4; discriminate|]. cbn [bind]. eexists. split; [reflexivity|]. cbn [g_gains combine map fst snd s_level]. rewrite G2. split.
  - rewrite column_eq by (cbn [speakers_only a_regular]; rewrite L; apply Nat.le_refl). cbn [speakers_only a_regular]. rewrite <- L, firstn_all, (map_ext (fun x => 1 * x) (fun x => x)) by (intros; ring). now rewrite map_id.
  - unfold follows. cbn [g_objects g_loudspeakers g_cap g_vbip]. repeat (split; [reflexivity|]). reflexivity.
Qed.
Lemma one_block epsilon positions mode k p d row : (k = PointSource p \/ k = PointSourceWithDiffuseness p d) ->
  calcGains (head (speakers_only positions) mode (Some facing)) [XYZ p false] = Ok [row] -> length row = length positions ->
  exists c0 c, construct epsilon (speakers_only positions) 1 mode false = Ok c0 /\ run epsilon c0 [(Some facing, Some [Object [0%nat] k])] = Ok c /\ g_gains c = [row].
Proof.
  intros K E L. destruct (construct epsilon (speakers_only positions) 1 mode false) as [c0| |] eqn:EC; try discriminate EC. exists c0. destruct (construct_follows _ _ _ _ _ _ EC) as [F _].
  cbn [run process fst snd]. destruct (set_listener epsilon c0 facing) as [c1| |] eqn:ES.
  2,3: exfalso; unfold set_listener in ES; destruct F as (_ & _ & _ & F4); destruct (g_vbip c0) as [v|]; [destruct F4; discriminate|discriminate ES].
  cbn [bind]. destruct (set_listener_follows _ _ _ _ _ _ _ _ _ F ES) as (F1 & _ & _). destruct (one_object epsilon positions mode (Some facing) c1 k p d row K F1 E L) as (c & EP & G & _).
  exists c. unfold process. cbn [fst snd bind]. rewrite ES. cbn [bind]. rewrite EP. cbn [bind]. split; [reflexivity|]. split; [reflexivity|exact G].
Qed.
Example trio_gains : exists c0 c, construct eps0 (speakers_only front_and_sides) 1 false false = Ok c0
  /\ run eps0 c0 [(Some facing, Some [Object [0%nat] (PointSource (P3 (3/5) (4/5) 0))])] = Ok c /\ g_gains c = [[440/606; -40/606; 200/606]].
Proof. apply (one_block eps0 front_and_sides false _ (P3 (3/5) (4/5) 0) 0); [left; reflexivity|rewrite head_facing; exact front_and_sides_gains|reflexivity]. Qed.
(** Two objects with the same channel, one with two channels, a plane wave and another type *)
Example heard_case :
  let objects := [Object [0%nat] (PointSource (P3 1 0 0)); Object [0%nat] (PlaneWave 0 90 3); Object [0%nat; 1%nat] (PointSource (P3 0 1 0)); Object [2%nat] (PointSource (P3 1 0 0)); Object [2%nat] OtherType] in
  heard objects 0 = Some (XYZ (P3 0 0 1) true) /\ heard objects 1 = None /\ heard objects 2 = None
  /\ last_scene [(None, Some objects); (Some facing, None); (None, Some []); (Some facing, None)] None = Some ([], Some facing).
Proof.
  cbv zeta. unfold heard. cbn [last_kind o_channels o_kind Nat.eqb sound_of]. split; [|repeat split; reflexivity]. do 2 f_equal.
  replace (90 * PI / 180) with (PI / 2) by field. replace (0 * PI / 180) with 0 by field. rewrite sin_PI2, cos_PI2, sin_0, cos_0. apply P3_eq; ring.
Qed.

(** the hypotheses of [C61_defined_partial], with both outputs *)
Lemma far_cosines l : position_of l = origin -> speaker_cosines (head far_axes false l) = [px (axis_of l); py (axis_of l); pz (axis_of l)].
Proof.
  intros El. unfold speaker_cosines, head. cbn [c_speakers c_listener c_axis far_axes a_regular a_positions firstn map]. rewrite El. rewrite !towards_unit_vector by (cbn [px py pz]; lra).
  unfold inner. cbn [px py pz]. repeat apply cons_eq; try reflexivity; ring.
Qed.
Lemma axis_facing : axis_of (Some facing) = P3 0 1 0.
Proof. unfold axis_of, facing, rotate_z, rotate_y, rotate_x. cbn [l_yaw l_pitch l_roll px py pz]. rewrite Ropp_0, sin_0, cos_0. apply P3_eq; ring. Qed.
Example far_hypotheses : forall l, l = None \/ In l (map fst [(Some facing, Some [Object [0%nat] (PlaneWave 0 90 3)])]) ->
  spread (head far_axes false l) /\ (true = true -> a_2D far_axes = false /\ placed eps0 far_axes (viewpoint far_axes (position_of l))).
Proof.
  intros l Hl. split; [|intros _; split; [reflexivity|apply far_axes_placed]]. unfold spread. destruct Hl as [->|[<-|[]]]; cbn [fst]; rewrite far_cosines by reflexivity.
  - exists 1, 0. split; [left; reflexivity|]. split; [right; left; reflexivity|lra].
  - rewrite axis_facing. cbn [px py pz]. exists 0, 1. split; [left; reflexivity|]. split; [right; left; reflexivity|lra].
Qed.

(** ** What does not hold *)
Definition left_right : list (pos3 R) := rev right_left.
Definition frontal : list object := [Object [0%nat] (PointSource (P3 1 0 0))].
Lemma initial_gains : calcGains (head (speakers_only left_right) false None) [XYZ (P3 1 0 0) false] = Ok [[3/2; -3/2]].
Proof.
  assert (R0 : Rabs 0 = 0) by apply Rabs_R0.
  assert (B1 : Rabs 200 = 200) by (rewrite Rabs_pos_eq; lra). assert (B2 : Rabs (-200) = 200) by (rewrite <- Rabs_Ropp, Rabs_pos_eq; lra).
  assert (B3 : Rabs (3/2) = 3/2) by (rewrite Rabs_pos_eq; lra). assert (B4 : Rabs (-3/2) = 3/2) by (rewrite <- Rabs_Ropp, Rabs_pos_eq; lra).
  assert (L1 : limit_pair (3/2) (200, -200) = (3/2, -3/2)).
  { unfold limit_pair. cbn [fst snd]. rewrite B1, B2. dec. f_equal; field. }
  assert (L2 : limit_pair 10 (3/2, -3/2) = (3/2, -3/2)) by (unfold limit_pair; cbn [fst snd]; rewrite B3, B4; dec; reflexivity).
  unfold calcGains, source_gains.
  assert (SD : speaker_directions (head (speakers_only left_right) false None) = [P3 (4/5) (3/5) 0; P3 (4/5) (-3/5) 0]) by (exact (directions_unit left_right false ltac:(unfold left_right, right_left; cbn [rev app]; units))). rewrite SD.
  unfold pair_gains.
  assert (IM : source_image (head (speakers_only left_right) false None) (XYZ (P3 1 0 0) false) = (1, 1, P3 1 0 0)) by (refine (image_unit left_right false (P3 1 0 0) _); cbn [px py pz]; lra). rewrite IM.
  unfold dot, minus. cbn [head axis_of speakers_only c_axis px py pz c_HFmode remap_pair c_maxGainPreComp c_maxGain].
  replace (1 * (1 - 4/5) + 0 * (0 - -3/5) + 0 * (0 - 0) + - (1 * (1 - 4/5) + 0 * (0 - 3/5) + 0 * (0 - 0))) with 0 by field. rewrite R0. dec.
  replace ((1 * (1 - 4/5) + 0 * (0 - -3/5) + 0 * (0 - 0)) / (1/1000)) with 200 by field.
  replace (- (1 * (1 - 4/5) + 0 * (0 - 3/5) + 0 * (0 - 0)) / (1/1000)) with (-200) by field. cbn [bind]. rewrite L1. cbn [fst snd].
  replace (3 / 2 * (1 / 1)) with (3 / 2) by field. replace (-3 / 2 * (1 / 1)) with (-3 / 2) by field. rewrite L2. reflexivity.
Qed.
(** Before the first listener position the ears are in front and behind: a source in front of two
    loudspeakers gets opposite gains.  A listener position that arrives later, without new objects,
    does not change them; if it arrives with the objects the gains are equal. *)
Theorem C61_listener_refuted : exists c0 c1 c2 c3, construct eps0 (speakers_only left_right) 1 false false = Ok c0
  /\ run eps0 c0 [(None, Some frontal)] = Ok c1 /\ g_gains c1 = [[3/2; -3/2]]
  /\ run eps0 c0 [(None, Some frontal); (Some facing, None)] = Ok c2 /\ g_gains c2 = [[3/2; -3/2]]
  /\ run eps0 c0 [(None, None); (Some facing, Some frontal)] = Ok c3 /\ g_gains c3 = [[1/2; 1/2]].
Proof.
  destruct (one_block eps0 left_right false (PointSource (P3 1 0 0)) (P3 1 0 0) 0 [1/2; 1/2] (or_introl eq_refl)) as (c0 & c3 & EC & R3 & G3).
  { rewrite head_facing. exact (proj2 C59_pair_polarity_refuted). } { reflexivity. }
  destruct (construct_follows _ _ _ _ _ _ EC) as [F _]. destruct (one_object eps0 left_right false None c0 (PointSource (P3 1 0 0)) (P3 1 0 0) 0 _ (or_introl eq_refl) F initial_gains eq_refl) as (c1 & E1 & G1 & F1).
  assert (E2 : exists c2, set_listener eps0 c1 facing = Ok c2).
  { unfold set_listener. destruct F1 as (_ & _ & _ & F4). destruct (g_vbip c1) as [v|]; [destruct F4; discriminate|]. eexists. reflexivity. }
  destruct E2 as (c2 & E2). destruct (set_listener_follows _ _ _ _ _ _ _ _ _ F1 E2) as (_ & G2 & _).
  exists c0, c1, c2, c3. split; [exact EC|]. unfold frontal. split; [cbn [run]; unfold process; cbn [fst snd bind]; rewrite E1; reflexivity|]. split; [exact G1|].
  split; [cbn [run]; unfold process; cbn [fst snd bind]; rewrite E1; cbn [bind fst snd]; rewrite E2; reflexivity|]. split; [now rewrite G2|].
  split; [exact R3|exact G3].
Qed.
(** A point source that is entirely diffuse is rendered like one without diffuseness *)
Theorem C61_diffuseness_refuted : exists c0 c, construct eps0 (speakers_only left_right) 1 false false = Ok c0
  /\ run eps0 c0 [(Some facing, Some [Object [0%nat] (PointSourceWithDiffuseness (P3 1 0 0) 1)])] = Ok c /\ g_gains c = [[1/2; 1/2]].
Proof. apply (one_block eps0 left_right false _ (P3 1 0 0) 1); [right; reflexivity|rewrite head_facing; exact (proj2 C59_pair_polarity_refuted)|reflexivity]. Qed.

(** The high frequency gains are those of VBAP: their squares do not recreate the direction (3, 4, 0) *)
Theorem C61_vbip_refuted : exists c0 c col k, construct eps0 far_axes 1 false true = Ok c0
  /\ run eps0 c0 [(Some facing, Some [Object [0%nat] (PointSource (P3 3 4 0))])] = Ok c /\ g_hf c = [col] /\ 0 < k
  /\ total col (directions far_axes origin) = scale3 k (P3 3 4 0)
  /\ forall k', total (map (fun g => g * g) col) (directions far_axes origin) <> scale3 k' (P3 3 4 0).
Proof.
  assert (He : 0 < eps0) by (unfold eps0; lra). set (inputs := [(Some facing, Some [Object [0%nat] (PointSource (P3 3 4 0))])]).
  assert (B : (3 <= a_regular far_axes <= length (a_positions far_axes))%nat) by (cbn; lia).
  destruct (C61_defined_partial eps0 far_axes 1 false true inputs He B) as (c0 & c & EC & ER).
  { intros l Hl. apply far_hypotheses. destruct Hl as [->|[<-|[]]]; [left; reflexivity|right; left; reflexivity]. }
  pose proof (C61_scene_partial eps0 far_axes 1 false true inputs c0 c He (proj2 B) EC ER) as [_ O]. destruct (O eq_refl) as (v & EV & L & K). cbn [position_of facing l_pos] in EV.
  destruct (g_hf c) as [|col [|]] eqn:EG; try discriminate L. specialize (K 0%nat col eq_refl). cbn in K. destruct (construct_kept _ _ _ _ EV) as (KA & _).
  destruct (C60_direction_partial eps0 far_axes (P3 0 0 0) He eq_refl (far_axes_placed _)) as (v' & EV' & H). rewrite EV in EV'. apply Ok_inj in EV'. subst v'.
  destruct (H (P3 3 4 0) false) as (gain & E & LG & _ & T & _). cbn [far_axes a_positions length] in LG.
  assert (VD : directions far_axes (viewpoint far_axes (P3 0 0 0)) = [P3 1 0 0; P3 0 1 0; P3 0 0 1]) by exact far_axes_directions.
  assert (SE : seen far_axes (P3 0 0 0) (P3 3 4 0) false = P3 3 4 0) by (unfold seen; cbn [far_axes a_2D px py pz]; apply P3_eq; ring).
  rewrite VD, SE in T.
  assert (TT : total gain [P3 1 0 0; P3 0 1 0; P3 0 0 1] = P3 3 4 0).
  { apply T. exists (Triplet 0 1 (Some 2%nat)), (3, 4, 0). split; [now left|]. split; [|unfold inside_cone; cbn [fst snd]; repeat split; [lra|lra|right; lra]].
    exists (P3 1 0 0), (P3 0 1 0), (P3 0 0 1). split; [|unfold comb, combine3, add3, scale3; cbn [px py pz fst snd]; apply P3_eq; ring].
    unfold legs. rewrite VD. cbn [t_1 t_2 t_3 nth_error far_axes a_2D]. split; [reflexivity|]. split; [reflexivity|]. exists 2%nat. now split. }
  assert (EGn : gain = [3; 4; 0]).
  { destruct gain as [|g1 [|g2 [|g3 [|]]]]; try discriminate LG. unfold total, add3, scale3, zero3 in TT. cbn [px py pz] in TT. injection TT as T1 T2 T3. repeat apply cons_eq; try reflexivity; lra. }
  subst gain. unfold cv_calculateGains in K. rewrite E in K. cbn [bind] in K. rewrite KA, applyRerouting_regular in K by reflexivity. apply Ok_inj in K.
  destruct (powerNormalisation_loud eps0 [3; 4; 0] He) as (_ & k & K0 & EQ & _); [cbn; unfold eps0; lra|]. rewrite EQ in K. subst col.
  exists c0, c, (map (fun g => k * g) [3; 4; 0]), k. split; [exact EC|]. split; [exact ER|]. split; [exact EG|]. split; [exact K0|].
  change (directions far_axes origin) with (directions far_axes zero3). rewrite far_axes_directions. split.
  - unfold total, add3, scale3, zero3. cbn [map px py pz]. apply P3_eq; ring.
  - intros k' Q. unfold total, add3, scale3, zero3 in Q. cbn [map px py pz] in Q. injection Q as Q1 Q2 _. assert (k * k > 0) by (apply Rmult_lt_0_compat; exact K0). nra.
Qed.

Print Assumptions C61_scene_partial.
Print Assumptions C61_defined_partial.
Print Assumptions C61_hf_power_partial.
Print Assumptions C61_listener_refuted.
Print Assumptions C61_diffuseness_refuted.
Print Assumptions C61_vbip_refuted.
