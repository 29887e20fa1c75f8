(** C90: the signal flow built by BaselineRenderer (src/libsignalflows/baseline_renderer.cpp).

    [baseline_new c] is the flow that the constructor builds for the configuration [c], or its
    exception.  Without tracking, the flow passes the integrity checks, routes the audio signals
    as the core renderer does, feeds the decoded objects to it, and runs.  With tracking, the
    messages of the tracking system do not reach their decoder. *)
From Coq Require Import ZArith Permutation Relation_Operators.
From Verif Require Import Base FlowModel FlowProofs FlowResolve FlowTree FlowProps SchedModel SchedProofs SchedProps
  LayoutModel LayoutTables LayoutProofs LayoutAddr LayoutProps DataflowModel DataflowSpec DataflowProofs DataflowFlow DataflowBlock
  DataflowUnique DataflowHier DataflowAtomic DataflowProps CoreModel CoreProofs CoreProps InfraModel InfraSpec InfraProofs InfraProps InfraCoreProps
  BaselineModel BaselineSpec BaselineProofs.
Local Open Scope res_scope.

(** The constructor succeeds exactly for the configurations that the core renderer accepts. *)
Theorem C90_construct : forall c, int_range c ->
  match baseline_new c with
  | Ok _ => buildable c /\ ~ no_outputs c
  | Throw e => e = InvalidArgument /\ ~ buildable c
  | UB => no_outputs c
  end.
Proof.
  intros c I. pose proof (C72_construct c I) as H. rewrite (base_outcome c (int_range_ints c I)). now destruct (core_new c).
Qed.

(** Without tracking, the flow passes the checks of the runtime engine. *)
Theorem C90_integrity : forall c r, int_range c -> tracking c = false -> baseline_new c = Ok r ->
  checkConnectionIntegrity (base_objects c) r = true.
Proof. intros c r I. apply base_integrity. now apply int_range_ints. Qed.

(** The audio channels are connected as in the core renderer, the inputs and outputs of which are
    those of the renderer. *)
Theorem C90_audio : forall c core r s d, int_range c -> tracking c = false -> core_new c = Ok core -> baseline_new c = Ok r ->
  endpoint r (fst s) -> endpoint r (fst d) -> (wired r s d <-> linked core (into s) (into d)).
Proof.
  intros c core r s d I T K E. apply int_range_ints in I. destruct (base_shape c r I E) as (core' & K' & ->).
  rewrite K in K'. injection K' as <-. destruct (core_shape c core I K) as (P & conns & pconns & -> & J & -> & A).
  apply base_transparent. now apply core_well_connected.
Qed.

(** Where the parameters go, with and without tracking. *)
Theorem C90_parameters : forall c r s d, int_range c -> baseline_new c = Ok r ->
  (pendpoint r s /\ pendpoint r d /\ pwired r s d <-> base_drives c s d).
Proof.
  intros c r s d I E. apply int_range_ints in I. destruct (base_shape c r I E) as (core & K & ->).
  destruct (core_shape c core I K) as (P & conns & pconns & -> & J & -> & A). apply base_reaches.
Qed.

(** With tracking, the flow does not pass the checks: nothing reaches the decoder of the listener
    position, and the messages of the tracking system lead nowhere.  This is so in the renderer
    itself, whatever the core renderer contains. *)
Theorem C90_tracking : forall c r, int_range c -> tracking c = true -> baseline_new c = Ok r ->
  checkConnectionIntegrity (base_objects c) r = false
  /\ (forall s, ~ plinked r s tracker_datagram) /\ (forall d, ~ plinked r tracker_message d)
  /\ (exists i a p children cs ps, r = Composite i a p children cs ps /\ check_params_local (base_objects c) p children ps = false)
  /\ (exists x y, inside x r /\ inside y r /\ In tracker_message (comp_params x) /\ q_dir (base_objects c) tracker_message = Output
        /\ In tracker_datagram (comp_params y) /\ q_dir (base_objects c) tracker_datagram = Input).
Proof.
  intros c r I T E. apply int_range_ints in I. destruct (base_shape c r I E) as (core & K & ->).
  destruct (core_shape c core I K) as (P & conns & pconns & -> & J & -> & A).
  assert (N1 : forall s, ~ plinked (base_root c (core_comp c conns (flat_map wire_params (body c)))) s tracker_datagram).
  { intros s H. apply base_plink in H as [[_ H]|[[_ H]|[(_ & _ & H)|H]]]; try discriminate H. apply drives_ends in H as [H _]. unfold tracker_datagram in H. lia. }
  assert (N2 : forall d, ~ plinked (base_root c (core_comp c conns (flat_map wire_params (body c)))) tracker_message d).
  { intros d H. apply base_plink in H as [[H _]|[[H _]|[(_ & H & _)|H]]]; try discriminate H. apply drives_ends in H as (_ & H & _). unfold tracker_message in H. lia. }
  assert (CL : check_params_local (base_objects c) [] (base_children c (core_comp c conns (flat_map wire_params (body c)))) (base_pconns c) = false).
  { unfold check_params_local. unfold base_children, base_pconns, core_comp, core_params. rewrite T. reflexivity. }
  split; [|split; [exact N1|split; [exact N2|split]]].
  - unfold checkConnectionIntegrity. unfold base_root at 2. cbn [check_params]. unfold core_comp in CL. rewrite CL. now rewrite andb_false_r.
  - do 6 eexists. split; [reflexivity|exact CL].
  - exists (Atomic TrackingReceiver [] [tracker_message]), (Atomic TrackingPositionDecoder [] [tracker_datagram; tracker_position]).
    split; [|split; [|split; [now left|split; [reflexivity|split; [now left|reflexivity]]]]]; (eapply inside_child; [|apply inside_self]);
      unfold base_children; rewrite T; cbn; auto 10.
Qed.

(** *** The flow runs *)
Definition rank (i : nat) : nat := if i =? SceneReceiver then 0 else if i =? SceneDecoder then 1 else i + 2.
Lemma drives_forward c s d : tracking c = false -> base_drives c s d -> rank (q_owner (base_objects c) s) < rank (q_owner (base_objects c) d).
Proof.
  unfold base_drives, drives. intros T H. rewrite T in H.
  repeat match goal with H : _ \/ _ |- _ => destruct H as [H|H] | H : _ /\ _ |- _ => destruct H as [? H] end; try discriminate; try congruence;
    subst; apply Nat.ltb_lt; reflexivity.
Qed.
Lemma joined_forward c conns s d :
  (forall a, In a conns -> exists x, CoreProofs.made c x a
         /\ (In x (body c) \/ wire_ends x = Some (adjust_out, audioOut) \/ wire_ends x = Some (null_out, audioOut))) ->
  In (s, d) (FlowProps.joined conns) -> a_owner (core_objects c) (fst s) < a_owner (core_objects c) (fst d) \/ a_owner (core_objects c) (fst s) = Core
              \/ a_owner (core_objects c) (fst d) = Core.
Proof.
  intros A H. apply in_flat_map in H as (e & He & H). apply in_map_iff in H as ([u v] & H & _). injection H as <- <-. cbn [fst].
  destruct (A e He) as (w & (ME & _) & X). destruct X as [X|[X|X]]; [now apply (wires_forward c w)| |]; rewrite ME in X; injection X as -> ->; right; right; reflexivity.
Qed.
Lemma base_forward c core r a b : int_range c -> tracking c = false -> core_new c = Ok core -> baseline_new c = Ok r ->
  atom r a -> atom r b -> depends r b a -> rank a < rank b.
Proof.
  intros IR T K E Ha Hb H.
  destruct H as [(s & d & W & (x & Hx & Cx & Ix & Px) & (y & Hy & Cy & Iy & Py))|(s & d & W & (x & Hx & Cx & Ix & Px) & (y & Hy & Cy & Iy & Py))].
  - assert (L : linked core (into s) (into d)).
    { apply (C90_audio c core r s d IR T K E); [exists x; auto|exists y; auto|exact W]. }
    apply int_range_ints in IR. destruct (base_shape c r IR E) as (core' & K' & ->). rewrite K in K'. injection K' as <-.
    destruct (core_shape c core IR K) as (P & conns & pconns & -> & J & -> & A).
    apply core_linked in L.
    assert (Q : forall z p, inside z (base_root c (core_comp c conns (flat_map wire_params (body c)))) -> is_composite z = false -> In p (comp_audio z) ->
      In z (core_children c)).
    { intros z p Hz Cz Pz. apply inside_base in Hz as [->|[->|[Hz|[Hz _]]]]; try discriminate Cz; [exact Hz|].
      unfold base_children in Hz. rewrite T in Hz. destruct Hz as [<-|[<-|[<-|[]]]]; [contradiction Pz|contradiction Pz|discriminate Cz]. }
    pose proof (Q x _ Hx Cx Px) as Ox. pose proof (Q y _ Hy Cy Py) as Oy.
    rewrite (into_small s (child_audio_small c x _ Ox Px)), (into_small d (child_audio_small c y _ Oy Py)) in L.
    destruct (core_owners c x Ox) as (Ax & _ & Nx). destruct (core_owners c y Oy) as (Ay & _ & Ny).
    pose proof (joined_forward c conns s d A L) as Fo. rewrite (Ax _ Px), (Ay _ Py) in Fo. subst a b.
    destruct Fo as [Fo|[Fo|Fo]]; [|contradiction|contradiction].
    pose proof (core_child_id c x Ox). pose proof (core_child_id c y Oy). unfold rank, SceneReceiver, SceneDecoder.
    repeat match goal with |- context [?u =? ?v] => destruct (Nat.eqb_spec u v); [lia|] end. lia.
  - assert (D : base_drives c s d).
    { apply (C90_parameters c r s d IR E). split; [exists x; auto|split; [exists y; auto|exact W]]. }
    apply drives_forward in D; [|exact T]. apply int_range_ints in IR. destruct (base_shape c r IR E) as (core' & K' & ->).
    destruct (core_shape c core' IR K') as (P & conns & pconns & -> & J & -> & A).
    destruct (base_describes c conns (flat_map wire_params (body c))) as (_ & O & _ & _).
    rewrite (O x s Hx Px), (O y d Hy Py) in D. congruence.
Qed.

(** The runtime engine accepts the flow without tracking: it finds a schedule, in which the components
    run after those they depend on, and the flow runs as C33 describes, with the audio connections of
    the core renderer, provided that the parameter infrastructure can be set up. *)
Theorem C90_runs : forall c core r type_size block alignment partition alloc infrastructure,
  int_range c -> tracking c = false -> core_new c = Ok core -> baseline_new c = Ok r ->
  type_size 0 <> 0 -> (alignment = 0 \/ Nat.divide (type_size 0) alignment) ->
  new_addresses r alloc -> (forall l, Permutation (partition l) l) ->
  (forall pm params, pfill_recursive (base_objects c) r [] = (true, pm) -> presolve (base_objects c) pm = Ok params -> infrastructure params = true) ->
  exists fl order, construct (base_objects c) type_size block alignment partition alloc infrastructure r = Ok fl
    /\ dependency_order r (fun a b => depends r b a) order
    /\ runs_blocks (base_objects c) type_size block alignment r fl
         (fun s d => endpoint r (fst s) /\ endpoint r (fst d) /\ linked core (into s) (into d)) order.
Proof.
  intros c core r type_size block alignment partition alloc infrastructure IR T K E TS AL NA PP IP.
  pose proof (C90_integrity c r IR T E) as CI. pose proof (fun a b => base_forward c core r a b IR T K E) as FW.
  pose proof (fun s d => C90_audio c core r s d IR T K E) as TR.
  apply int_range_ints in IR. destruct (base_shape c r IR E) as (core' & K' & ->). rewrite K in K'. injection K' as <-.
  destruct (core_shape c core IR K) as (P & conns & pconns & -> & J & -> & A).
  fold (core_comp c conns (flat_map wire_params (body c))) in *.
  set (root := base_root c (core_comp c conns (flat_map wire_params (body c)))) in *.
  assert (NC : ~ cyclic root (fun a b => depends root b a)).
  { intros (a & H). assert (forall x y, clos_trans_1n nat (fun a b => atom root a /\ atom root b /\ depends root b a) x y -> rank x < rank y) as X.
    { intros x y H'. induction H' as [x y (H1 & H2 & H3)|x y z (H1 & H2 & H3) H4 IH]; [now apply FW|]. pose proof (FW x y H1 H2 H3). lia. }
    apply X in H. lia. }
  pose proof (C33_hierarchy_partial (base_objects c) type_size block alignment partition alloc infrastructure root
    (base_audio_nodup c _ _) (base_addresses_nodup c _ _) (base_describes c _ _) eq_refl) as H.
  assert (H1 : forall s s' d, pinner root d -> plinked root s d -> plinked root s' d -> s = s') by apply base_psingle.
  assert (H2 : forall s d, linked root s d -> a_type (base_objects c) (fst s) = a_type (base_objects c) (fst d) /\ a_type (base_objects c) (fst s) <= 8
     /\ type_size (a_type (base_objects c) (fst s)) <> 0 /\ (alignment = 0 \/ Nat.divide (type_size (a_type (base_objects c) (fst s))) alignment)).
  { intros s d _. cbn [a_type base_objects]. repeat split; [lia|exact TS|exact AL]. }
  assert (H3 : external_float (base_objects c) root) by (intros p _; reflexivity).
  specialize (H H1 H2 NA PP H3). destruct (construct _ _ _ _ _ _ _ root) as [fl|e|]; [| |contradiction].
  - destruct H as (_ & _ & order & O & R). exists fl, order. split; [reflexivity|]. split; [exact O|].
    intros W B behaviour base w mem capture before WB AL' HL. destruct (R W B behaviour base w mem capture before WB AL' HL) as [T1 T2].
    assert (SE : forall s d, (endpoint root (fst s) /\ endpoint root (fst d) /\ wired root s d)
                 <-> (endpoint root (fst s) /\ endpoint root (fst d) /\ linked (core_comp c conns (flat_map wire_params (body c))) (into s) (into d))).
    { intros s d. split; intros (X1 & X2 & X3); (split; [exact X1|]); (split; [exact X2|]); now apply TR. }
    split; intros; (apply outcome_ext with (source := fun s d => endpoint root (fst s) /\ endpoint root (fst d) /\ wired root s d);
      [exact SE|]); [now apply T1|now apply T2].
  - exfalso. destruct H as [H|[(x & y & H & W & _)|[(x & y & H & W & _)|[(pm & params & H4 & H5 & _ & H)|H]]]].
    + congruence.
    + revert W. apply base_no_loop; [now apply core_well_connected|exact H].
    + revert W. now apply base_no_ploop.
    + rewrite (IP pm params H4 H5) in H. discriminate.
    + contradiction.
Qed.

(** *** The parameter connections *)
Lemma presolve_receivers o m r : presolve o m = Ok r ->
  Permutation (map fst r) (map fst (filter (fun e => negb (placeholder_param o (fst e))) m)).
Proof.
  unfold presolve. assert (G : forall l r0 r, fold_left (fun r raw => flat <- r ;; presolve_one o m flat raw) l (Ok r0) = Ok r ->
    Permutation (map fst r) (map fst r0 ++ map fst (filter (fun e => negb (placeholder_param o (fst e))) l))).
  { assert (F : forall l e, fold_left (fun r raw => flat <- r ;; presolve_one o m flat raw) l (Throw e) = Throw e) by (induction l; auto).
    assert (F' : forall l, fold_left (fun r raw => flat <- r ;; presolve_one o m flat raw) l UB = UB) by (induction l; auto).
    induction l as [|e l IH]; intros r0 r1 H; cbn [fold_left] in H.
    - injection H as <-. cbn. now rewrite app_nil_r.
    - cbn [bind] in H. unfold presolve_one at 2 in H. cbn [filter]. destruct (placeholder_param o (fst e)); cbn [negb].
      + now apply IH.
      + assert (Q : forall s, Permutation (map fst (pmap_insert (fst e, s) r0) ++ map fst (filter (fun e => negb (placeholder_param o (fst e))) l))
                  (map fst r0 ++ map fst (e :: filter (fun e => negb (placeholder_param o (fst e))) l))).
        { intros s. rewrite pmap_insert_perm. cbn [map fst app]. apply Permutation_middle. }
        destruct (placeholder_param o (snd e)); cbn [negb] in H.
        * destruct (ptrace _ _ _ _ _ _) as [s|x|]; cbn [bind] in H; [|now rewrite F in H|now rewrite F' in H].
          rewrite (IH _ _ H). apply Q.
        * rewrite (IH _ _ H). destruct e as [d s]. apply (Q s). }
  intros H. apply (G m [] r H).
Qed.
Lemma base_receivers_nodup c conns : tracking c = false ->
  NoDup (map snd (all_plinks (base_root c (core_comp c conns (flat_map wire_params (body c)))))).
Proof.
  intros T. assert (flat_map all_plinks (core_children c) = []) as X by (clear; cases c; reflexivity).
  assert (all_plinks (base_root c (core_comp c conns (flat_map wire_params (body c)))) =
    [(scene_message, scene_datagram); (scene_objects, objectData)] ++ flat_map wire_params (body c)) as ->.
  { unfold base_root, base_children, base_pconns, core_comp. rewrite T. cbn [all_plinks app flat_map]. rewrite X, !app_nil_r. reflexivity. }
  rewrite map_app. apply nodup_app. split; [|split].
  - cbn. repeat constructor; cbn; intros H; decompose [or] H; discriminate || contradiction.
  - now apply core_receivers.
  - intros d Hd H. apply in_map_iff in H as ([s d'] & E & H). cbn in E. subst d'. apply core_pairs_drive, drives_ends in H as [H _].
    cbn in Hd. unfold scene_datagram, objectData in Hd. destruct Hd as [<-|[<-|[]]]; lia.
Qed.

Lemma base_compatible c : tracking c = false -> forall s d, base_drives c s d ->
  q_protocol (base_objects c) s <= 2 /\ (q_protocol (base_objects c) s = MessageQueue -> s = scene_message /\ d = scene_datagram)
  /\ q_protocol (base_objects c) s = q_protocol (base_objects c) d /\ q_type (base_objects c) s = q_type (base_objects c) d
  /\ config_compare (base_objects c) (q_config (base_objects c) s) (q_config (base_objects c) d) = Some true.
Proof.
  unfold base_drives, drives. intros T s d H. rewrite T in H.
  repeat match goal with H : _ \/ _ |- _ => destruct H as [H|H] | H : _ /\ _ |- _ => destruct H as [? H] end; try discriminate; try congruence; subst;
    (split; [apply Nat.leb_le; reflexivity|]); (split; [first [discriminate|intros _; split; reflexivity]|]);
    (split; [reflexivity|]); (split; [reflexivity|]); cbn; rewrite ?Nat.eqb_refl; reflexivity.
Qed.

(** Without tracking, the parameter connections are set up if the three protocols are registered, the
    first two of them for several receivers, and the parameters can be created. *)
Theorem C90_infrastructure : forall c r registered creatable pm params,
  int_range c -> tracking c = false -> baseline_new c = Ok r ->
  (forall k, k <= 1 -> registered k = Some true) -> registered MessageQueue <> None -> (forall p t k, creatable p t k = true) ->
  pfill_recursive (base_objects c) r [] = (true, pm) -> presolve (base_objects c) pm = Ok params ->
  accepts (base_objects c) registered creatable r params = true
  /\ (forall s d, In (d, s) params <-> base_drives c s d).
Proof.
  intros c r registered creatable pm params IR T E Rg Rq Cr EF EP.
  pose proof (C90_integrity c r IR T E) as CI. apply andb_true_iff in CI as [_ CP].
  pose proof (fun s d => C90_parameters c r s d IR E) as PR. apply int_range_ints in IR.
  destruct (base_shape c r IR E) as (core & K & ->). destruct (core_shape c core IR K) as (P & conns & pconns & -> & J & -> & A).
  fold (core_comp c conns (flat_map wire_params (body c))) in *.
  set (root := base_root c (core_comp c conns (flat_map wire_params (body c)))) in *.
  pose proof (base_describes c conns _ : describes (base_objects c) root) as D.
  destruct (C30_hierarchy_transparent_partial (base_objects c) root D CP (base_psingle c conns)) as (m & Em & X).
  rewrite EF in Em. injection Em as <-. rewrite EP in X. destruct X as [X _].
  assert (IN : forall s d, In (d, s) params <-> base_drives c s d) by (intros s d; rewrite X; apply PR).
  split; [|exact IN].
  destruct (check_pfills (base_objects c) root CP) as (m & Em & Pm). rewrite EF in Em. injection Em as <-.
  assert (ND : NoDup (map fst params)).
  { rewrite (presolve_receivers _ _ _ EP).
    assert (NM : NoDup (map fst pm)).
    { rewrite Pm. unfold rev_pairs. rewrite map_map. cbn [fst]. now apply base_receivers_nodup. }
    clear - NM. induction pm as [|e l IH]; [constructor|]. cbn [filter map] in *. inversion NM as [|? ? N1 N2]; subst.
    destruct (negb _); [|now apply IH]. cbn [map]. constructor; [|now apply IH]. intros H. apply N1. apply in_map_iff in H as (x & Ex & Hx).
    apply filter_In in Hx as [Hx _]. apply in_map_iff. eauto. }
  unfold accepts. unfold root at 1.
  destruct (C78_hierarchy_partial (base_objects c) registered creatable Baseline base_audio [] (base_children c (core_comp c conns (flat_map wire_params (body c))))
    (base_conns c) (base_pconns c) D CP (base_psingle c conns)) as (m & Em & H).
  fold (base_root c (core_comp c conns (flat_map wire_params (body c)))) in Em, H. fold root in Em, H. rewrite EF in Em. injection Em as <-.
  specialize (H params EP). fold (base_root c (core_comp c conns (flat_map wire_params (body c)))). fold root.
  destruct (initialiseParameterInfrastructure (base_objects c) registered creatable root params) as [st|e|]; [| |destruct H].
  - destruct H as (_ & H & _). apply H. clear H.
    assert (CM : forall s d, base_drives c s d -> q_protocol (base_objects c) s <= 2 /\ (q_protocol (base_objects c) s = MessageQueue -> s = scene_message /\ d = scene_datagram)
      /\ q_protocol (base_objects c) s = q_protocol (base_objects c) d /\ q_type (base_objects c) s = q_type (base_objects c) d
      /\ config_compare (base_objects c) (q_config (base_objects c) s) (q_config (base_objects c) d) = Some true).
    { apply base_compatible. exact T. }
    split.
    + intros d s s' H H'. apply PR in H, H'. apply IN in H, H'. clear - H H' ND.
      induction params as [|[x y] l IH]; [destruct H|]. cbn in ND. inversion ND as [|? ? Ny N']; subst.
      destruct H as [H|H], H' as [H'|H'].
      * congruence.
      * injection H as -> ->. destruct Ny. apply in_map_iff. now exists (d, s').
      * injection H' as -> ->. destruct Ny. apply in_map_iff. now exists (d, s).
      * now apply IH.
    + intros d s H. apply PR, CM in H. unfold agree. tauto.
    + intros d s H. apply PR, CM in H as (H1 & H2 & _). split; [|apply Cr].
      destruct (Nat.eq_dec (q_protocol (base_objects c) s) 2) as [->|N]; [exact Rq|]. rewrite Rg; [discriminate|lia].
    + intros d d' s H H' Q. apply PR, CM in H as (H1 & H2 & _). apply PR, CM in H' as (H1' & H2' & _).
      destruct (Nat.eq_dec (q_protocol (base_objects c) s) 2) as [Eq|N]; [|rewrite Rg in Q; [discriminate|lia]].
      destruct (H2 Eq) as [_ ->]. now destruct (H2' Eq) as [_ ->].
  - destruct H as [_ H]. exfalso. apply H. now apply NoDup_map_inv in ND.
Qed.

(** The renderer without tracking runs with the parameter connections set up. *)
Theorem C90_runs_parameters : forall c core r type_size block alignment partition alloc registered creatable,
  int_range c -> tracking c = false -> core_new c = Ok core -> baseline_new c = Ok r ->
  type_size 0 <> 0 -> (alignment = 0 \/ Nat.divide (type_size 0) alignment) ->
  new_addresses r alloc -> (forall l, Permutation (partition l) l) ->
  (forall k, k <= 1 -> registered k = Some true) -> registered MessageQueue <> None -> (forall p t k, creatable p t k = true) ->
  exists fl order, construct (base_objects c) type_size block alignment partition alloc (accepts (base_objects c) registered creatable r) r = Ok fl
    /\ dependency_order r (fun a b => depends r b a) order
    /\ runs_blocks (base_objects c) type_size block alignment r fl
         (fun s d => endpoint r (fst s) /\ endpoint r (fst d) /\ linked core (into s) (into d)) order.
Proof.
  intros c core r type_size block alignment partition alloc registered creatable IR T K E TS AL NA PP Rg Rq Cr.
  apply C90_runs; auto. intros pm params EF EP. now apply (C90_infrastructure c r registered creatable pm params).
Qed.

(** *** Examples *)
(** dual-band panning, reverberation and output equalisation, without tracking *)
Definition ex_base := ex_core (Some 3) false true true.
Example C90_example : exists core r, core_new ex_base = Ok core /\ baseline_new ex_base = Ok r
  /\ checkConnectionIntegrity (base_objects ex_base) r = true.
Proof.
  destruct (ex_core_ok (Some 3) false true true) as (core & K); [right; auto|]. exists core.
  assert (baseline_new ex_base = Ok (base_root ex_base core)) as E.
  { rewrite base_outcome by apply int_range_ints, ex_core_ints. unfold ex_base. now rewrite K. }
  exists (base_root ex_base core). split; [exact K|]. split; [exact E|]. apply C90_integrity; [apply ex_core_ints|reflexivity|exact E].
Qed.
(** the decoded objects reach the calculators, and nothing else comes from the receivers *)
Example C90_example_drives : base_drives ex_base scene_message scene_datagram /\ base_drives ex_base scene_objects reverb_object
  /\ base_drives ex_base calc_vbip vbip_gain /\ ~ base_drives ex_base tracker_position comp_position.
Proof.
  unfold base_drives, drives. cbn [ex_base ex_core reverb dualband tracking]. split; [auto|]. split; [auto 10|]. split.
  - right. right. right. repeat split; try discriminate. auto 20.
  - intros H. decompose [and or] H; discriminate.
Qed.
(** parameter connections after resolution, and acceptance, of a renderer without options *)
Definition ex_plain := ex_core None false false false.
Definition ex_base_accepts : option (nat * bool) :=
  match baseline_new ex_plain with
  | Ok r => match presolve (base_objects ex_plain) (snd (pfill_recursive (base_objects ex_plain) r [])) with
            | Ok params => Some (length params, accepts (base_objects ex_plain) (fun k => if k <=? 1 then Some true else if k =? 2 then Some false else None)
                                   (fun _ _ _ => true) r params)
            | _ => None
            end
  | _ => None
  end.
Example C90_example_accepts : ex_base_accepts = Some (9, true).
Proof. vm_compute. reflexivity. Qed.

(** The claim that every flow that is built passes the checks is false: with tracking, the messages of
    the tracking system are not passed to their decoder. *)
Theorem C90_tracking_refuted : exists c r, int_range c /\ baseline_new c = Ok r
  /\ checkConnectionIntegrity (base_objects c) r = false /\ ~ plinked r tracker_message tracker_datagram.
Proof.
  set (c := ex_core None true false false). assert (I : int_range c) by apply ex_core_ints.
  destruct (ex_core_ok None true false false) as (core & K); [now left|]. fold c in K.
  assert (baseline_new c = Ok (base_root c core)) as E.
  { rewrite base_outcome by now apply int_range_ints. now rewrite K. }
  exists c, (base_root c core). destruct (C90_tracking c _ I eq_refl E) as (H1 & H2 & _). auto.
Qed.

Print Assumptions C90_construct.
Print Assumptions C90_integrity.
Print Assumptions C90_audio.
Print Assumptions C90_parameters.
Print Assumptions C90_tracking.
Print Assumptions C90_tracking_refuted.
Print Assumptions C90_infrastructure.
Print Assumptions C90_runs.
Print Assumptions C90_runs_parameters.
