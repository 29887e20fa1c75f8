(** C93: the signal flow built by BunchRenderer (src/libsignalflows/bunch_renderer.cpp).

    The constructor connects all outputs of the core renderer to as many channels as there are inputs.
    Therefore it throws unless the numbers of inputs and outputs agree.  If they do, and there is no
    tracking, the flow is that of BaselineRenderer (C90). *)
From Coq Require Import ZArith Permutation Relation_Operators.
From Verif Require Import Base FlowModel FlowProofs FlowResolve FlowTree FlowProps CoreModel CoreProofs CoreProps
  BaselineModel BaselineSpec BaselineProofs BaselineProps BunchModel.
Local Open Scope res_scope.

Definition bunch_pconns : list pconn := [(scene_message, scene_datagram); (scene_objects, objectData)].
Definition bunch_root (c : config) (core : comp) : comp :=
  Composite Baseline base_audio [] (bunch_children core) (base_conns c) bunch_pconns.
Lemma bunch_new_shape c conns pconns :
  let core := Composite Core core_audio (core_params c) (core_children c) conns pconns in
  base_connect_list (base_objects c) base_audio [] (bunch_children core) ([], []) (bunch_wires c)
  = if CoreModel.inputs c =? CoreModel.outputs c then Ok (base_conns c, bunch_pconns) else Throw InvalidArgument.
Proof.
  intros core. unfold bunch_wires, base_conns, bunch_pconns, bunch_children, core, core_params.
  assert (L : forall n, S n <=? list_max (seq 0 (S n)) = false) by (intros n; rewrite list_max_seq; apply Nat.leb_gt; lia).
  destruct (CoreModel.inputs c) as [|n] eqn:En, (CoreModel.outputs c) as [|m] eqn:Em, (tracking c);
    cbn -[seq list_max Nat.leb]; rewrite ?En, ?Em, ?seq_length; cbn -[seq list_max Nat.leb]; rewrite ?L, ?Nat.eqb_refl; cbn -[seq list_max Nat.leb];
    rewrite ?En, ?Em, ?seq_length; cbn -[seq list_max Nat.leb]; rewrite ?L; try reflexivity;
    rewrite (Nat.eqb_sym m n); destruct (Nat.eqb_spec n m) as [->|N]; cbn -[seq list_max Nat.leb]; rewrite ?L; reflexivity.
Qed.
Lemma bunch_outcome c : ints c ->
  bunch_new c = match core_new c with
                | Ok core => if CoreModel.inputs c =? CoreModel.outputs c then Ok (bunch_root c core) else Throw InvalidArgument
                | Throw e => Throw e
                | UB => UB
                end.
Proof.
  intros I. unfold bunch_new. destruct (core_new c) as [core|e|] eqn:K; cbn [bind]; try reflexivity.
  destruct (core_shape c core I K) as (_ & conns & pconns & -> & _). rewrite bunch_new_shape. now destruct (CoreModel.inputs c =? CoreModel.outputs c).
Qed.

(** The constructor succeeds for the configurations that the core renderer accepts and that have as
    many inputs as outputs. *)
Theorem C93_construct : forall c, int_range c ->
  match bunch_new c with
  | Ok _ => buildable c /\ ~ no_outputs c /\ CoreModel.inputs c = CoreModel.outputs c
  | Throw e => e = InvalidArgument /\ (~ buildable c \/ CoreModel.inputs c <> CoreModel.outputs c)
  | UB => no_outputs c
  end.
Proof.
  intros c I. pose proof (C72_construct c I) as H. rewrite (bunch_outcome c (int_range_ints c I)).
  destruct (core_new c) as [core|e|]; [|tauto|exact H]. destruct (Nat.eqb_spec (CoreModel.inputs c) (CoreModel.outputs c)); [tauto|].
  split; [reflexivity|]. now right.
Qed.

(** Without tracking, and if it can be constructed, the renderer is a BaselineRenderer. *)
Theorem C93_baseline : forall c, int_range c -> tracking c = false -> CoreModel.inputs c = CoreModel.outputs c -> bunch_new c = baseline_new c.
Proof.
  intros c I T E. rewrite (bunch_outcome c (int_range_ints c I)), (base_outcome c (int_range_ints c I)), E, Nat.eqb_refl.
  destruct (core_new c) as [core|e|]; try reflexivity. unfold bunch_root, base_root, base_children, base_pconns. rewrite T. reflexivity.
Qed.
(** Then the flow passes the checks, its inputs and outputs are those of the core renderer, and the
    decoded objects reach what the core renderer connects to its input. *)
Theorem C93_flow : forall c core r, int_range c -> tracking c = false -> core_new c = Ok core -> bunch_new c = Ok r ->
  checkConnectionIntegrity (base_objects c) r = true
  /\ (forall s d, endpoint r (fst s) -> endpoint r (fst d) -> (wired r s d <-> linked core (into s) (into d)))
  /\ (forall s d, pendpoint r s /\ pendpoint r d /\ pwired r s d <-> base_drives c s d).
Proof.
  intros c core r I T K B. pose proof (C93_construct c I) as H. rewrite B in H. destruct H as (_ & _ & E).
  rewrite (C93_baseline c I T E) in B. split; [now apply C90_integrity|]. split; [intros s d; now apply (C90_audio c core r s d)|].
  intros s d. now apply C90_parameters.
Qed.

(** With tracking, no flow passes the checks: nothing is connected to the input of the core renderer for
    the position of the listener. *)
Theorem C93_tracking : forall c r, int_range c -> tracking c = true -> bunch_new c = Ok r ->
  checkConnectionIntegrity (base_objects c) r = false
  /\ exists core conns, r = Composite Baseline base_audio [] [Atomic SceneReceiver [] [scene_message]; Atomic SceneDecoder [] [scene_datagram; scene_objects]; core]
       conns [(scene_message, scene_datagram); (scene_objects, objectData)]
     /\ In trackingPosition (comp_params core) /\ q_dir (base_objects c) trackingPosition = Input.
Proof.
  intros c r I T B. apply int_range_ints in I. rewrite (bunch_outcome c I) in B. destruct (core_new c) as [core|e|] eqn:K; try discriminate.
  destruct (CoreModel.inputs c =? CoreModel.outputs c); [|discriminate]. injection B as <-.
  destruct (core_shape c core I K) as (_ & conns & pconns & -> & _). split.
  - assert (CL : check_params_local (base_objects c) [] (bunch_children (Composite Core core_audio (core_params c) (core_children c) conns pconns)) bunch_pconns = false).
    { unfold check_params_local, bunch_children, bunch_pconns, core_params. rewrite T. reflexivity. }
    unfold checkConnectionIntegrity. unfold bunch_root at 2. cbn [check_params]. rewrite CL. now rewrite andb_false_r.
  - eexists _, _. split; [reflexivity|]. unfold core_params. rewrite T. split; [right; now left|reflexivity].
Qed.

(** *** Examples *)
Definition ex_bunch : config := Config 5 5 [4; 2]%Z [1]%Z None 3 false true false.
Example C93_example : int_range ex_bunch /\ exists r, bunch_new ex_bunch = Ok r /\ checkConnectionIntegrity (base_objects ex_bunch) r = true.
Proof.
  assert (I : int_range ex_bunch) by (split; [|cbn; lia]; cbn; intros i [[<-|[<-|[]]]|[<-|[]]]; lia). split; [exact I|].
  assert (exists core, core_new ex_bunch = Ok core) as (core & K) by (eexists; vm_compute; reflexivity).
  exists (bunch_root ex_bunch core). assert (B : bunch_new ex_bunch = Ok (bunch_root ex_bunch core)) by (rewrite (bunch_outcome _ (int_range_ints _ I)); now rewrite K).
  split; [exact B|]. now apply (C93_flow ex_bunch core _ I eq_refl K B).
Qed.
(** The claim that the renderer can be built for every configuration of the core renderer is false. *)
Theorem C93_channels_refuted : exists c core, int_range c /\ tracking c = false /\ core_new c = Ok core /\ bunch_new c = Throw InvalidArgument.
Proof.
  destruct (ex_core_ok None false false false) as (core & K); [now left|]. exists (ex_core None false false false), core.
  split; [apply ex_core_ints|]. split; [reflexivity|]. split; [exact K|]. rewrite bunch_outcome by apply int_range_ints, ex_core_ints. now rewrite K.
Qed.

Print Assumptions C93_construct.
Print Assumptions C93_baseline.
Print Assumptions C93_flow.
Print Assumptions C93_tracking.
Print Assumptions C93_channels_refuted.
