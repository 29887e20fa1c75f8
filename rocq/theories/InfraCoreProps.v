(** C78, continued: the parameter connections of the core renderer are set up, so that the runtime engine accepts it. *)
From Coq Require Import List Relations Arith Lia Bool Permutation.
Import ListNotations.
From Verif Require Import Base FlowModel FlowProofs FlowResolve FlowTree FlowProps LayoutModel LayoutProps SchedModel SchedProps DataflowModel DataflowSpec
  DataflowProofs DataflowFlow DataflowBlock DataflowUnique DataflowHier DataflowAtomic DataflowProps CoreModel CoreProofs CoreProps
  InfraModel InfraSpec InfraProofs InfraProps.
Local Open Scope res_scope.

(** without ports inside the hierarchy, resolution keeps all connections *)
Lemma presolve_flat o m : (forall e, In e m -> placeholder_param o (fst e) = false /\ placeholder_param o (snd e) = false) ->
  exists r, presolve o m = Ok r /\ Permutation r m.
Proof.
  unfold presolve. intros H. 
  enough (G : forall l r0, (forall e, In e l -> placeholder_param o (fst e) = false /\ placeholder_param o (snd e) = false) ->
    exists r, fold_left (fun r raw => flat <- r ;; presolve_one o m flat raw) l (Ok r0) = Ok r /\ Permutation r (r0 ++ l)).
  { destruct (G m [] H) as (r & Er & P). exists r. auto. }
  induction l as [|e l IH]; intros r0 Hl; cbn [fold_left].
  - exists r0. split; [reflexivity|]. now rewrite app_nil_r.
  - destruct (Hl e (or_introl eq_refl)) as [P1 P2]. cbn [bind]. unfold presolve_one at 2. rewrite P1, P2. cbn [negb].
    destruct (IH (pmap_insert e r0)) as (r & Er & P); [intros e' He'; apply Hl; now right|].
    exists r. split; [exact Er|]. rewrite P, pmap_insert_perm. cbn. apply Permutation_middle.
Qed.

(** initialiseParameterInfrastructure() as it is used by the constructor of the flow (audio_signal_flow.cpp 99-103) *)
Definition accepts (o : objects) (registered : nat -> option bool) (creatable : nat -> nat -> nat -> bool) (root : comp) (params : pmap) : bool :=
  match initialiseParameterInfrastructure o registered creatable root params with Ok st => n_result st | _ => false end.

Lemma core_receivers c : tracking c = false -> NoDup (map snd (flat_map wire_params (body c))).
Proof.
  intros T. unfold body, wires_tracking, wires_objects, wires_gains, wires_diffuse, wires_output. rewrite T.
  destruct (dualband c), (reverb c), (has_eq c); cbn; repeat constructor; cbn; intros H; decompose [or] H; discriminate || contradiction.
Qed.
Lemma core_params_shared c q : q_protocol (core_objects c) q <= 1.
Proof. cbn. unfold param_info. do 25 (destruct q as [|q]; [apply Nat.leb_le; reflexivity|]). apply Nat.leb_le. reflexivity. Qed.

(** Without tracking, the parameter connections of the core renderer are set up, for all protocols and
    parameters that are registered. *)
Theorem C78_core : forall c r registered creatable pm params,
  int_range c -> tracking c = false -> core_new c = Ok r ->
  (forall k, k <= 1 -> registered k = Some true) -> (forall p t k, creatable p t k = true) ->
  pfill_recursive (core_objects c) r [] = (true, pm) -> presolve (core_objects c) pm = Ok params ->
  accepts (core_objects c) registered creatable r params = true.
Proof.
  intros c r registered creatable pm params IR T E Rg Cr EF EP.
  pose proof (C72_integrity c r IR T E) as CI. apply andb_true_iff in CI as [_ CP]. apply int_range_ints in IR.
  destruct (core_shape c r IR E) as (P & conns & pconns & -> & J & -> & A).
  set (root := Composite Core core_audio (core_params c) (core_children c) conns (flat_map wire_params (body c))) in *.
  pose proof (core_describes c _ _ : describes (core_objects c) root) as D.
  assert (NP : forall p, ~ pinner root p).
  { intros p (x & Hx & Hp & C & N). apply inside_core in Hx as [->|Hx]; [now apply N|]. apply children_atomic in Hx. congruence. }
  assert (PL : forall s d, plinked root s d -> In (s, d) (flat_map wire_params (body c))).
  { intros s d (i & au & p & children & cs & ps & Hi & He). apply inside_core_composite in Hi. injection Hi as -> -> -> -> -> ->. exact He. }
  destruct (check_pfills (core_objects c) root CP) as (m & Em & Pm). rewrite EF in Em. injection Em as <-.
  assert (AP : forall e, In e (rev_pairs (all_plinks root)) -> In (snd e, fst e) (flat_map wire_params (body c))).
  { intros [d s] He. apply in_map_iff in He as ([s' d'] & Ed & He). injection Ed as -> ->. apply PL. now apply plinked_in. }
  assert (ND : NoDup params).
  { destruct (presolve_flat (core_objects c) pm) as (r' & Er & Pr).
    - intros [d s] He. rewrite Pm in He. apply in_map_iff in He as ([s' d'] & Ed & He). injection Ed as -> ->.
      destruct (plink_ports (core_objects c) root s d CP He) as [(x & Hx & Px) (y & Hy & Py)]. cbn [fst snd].
      split; [apply (pendpoint_ph _ _ D y)|apply (pendpoint_ph _ _ D x)]; auto.
      + exists y. repeat (split; [assumption|]). destruct (is_composite y) eqn:Cy; [right|now left].
        apply inside_core in Hy as [Hy|Hy]; [exact Hy|]. apply children_atomic in Hy. congruence.
      + exists x. repeat (split; [assumption|]). destruct (is_composite x) eqn:Cx; [right|now left].
        apply inside_core in Hx as [Hx|Hx]; [exact Hx|]. apply children_atomic in Hx. congruence.
    - rewrite EP in Er. injection Er as <-. rewrite Pr, Pm. unfold root. cbn [all_plinks].
      apply (NoDup_map_inv fst). unfold rev_pairs. rewrite map_map. cbn [fst].
      assert (flat_map all_plinks (core_children c) = []) as ->.
      { clear. cases c; reflexivity. }
      rewrite app_nil_r. now apply core_receivers. }
  unfold accepts. unfold root at 1.
  destruct (C78_hierarchy_partial (core_objects c) registered creatable Core core_audio (core_params c) (core_children c) conns
    (flat_map wire_params (body c)) D CP) as (m & Em & H).
  { intros s s' d X. now apply NP in X. }
  fold root in Em, H. rewrite EF in Em. injection Em as <-. specialize (H params EP). fold root.
  destruct (initialiseParameterInfrastructure (core_objects c) registered creatable root params) as [st|e|]; [| |destruct H].
  - destruct H as (_ & H & _). apply H. clear H.
    assert (R : forall d s, pendpoint root s /\ pendpoint root d /\ pwired root s d -> In (s, d) (flat_map wire_params (body c))).
    { intros d s (_ & _ & W). apply PL. destruct W as [s d L|s p d L Hi W]; [exact L|]. now apply NP in Hi. }
    split.
    + intros d s s' H H'. apply R in H, H'. pose proof (core_receivers c T) as N. clear - H H' N.
      induction (flat_map wire_params (body c)) as [|[x y] l IH]; [destruct H|]. cbn in N. inversion N as [|? ? Ny N']; subst.
      destruct H as [H|H], H' as [H'|H'].
      * congruence.
      * injection H as -> ->. destruct Ny. apply in_map_iff. now exists (s', d).
      * injection H' as -> ->. destruct Ny. apply in_map_iff. now exists (s, d).
      * now apply IH.
    + intros d s H. apply R in H. pose proof (proj1 (check_params_inside (core_objects c) root) CP _ _ _ _ _ _ (inside_self _)) as CL.
      apply check_params_local_ok in CL as (HF & _). rewrite Forall_forall in HF. apply compatible_iff. apply (HF _ H).
    + intros d s _. split; [|apply Cr]. rewrite Rg; [discriminate|apply core_params_shared].
    + intros d d' s _ _ Q. rewrite Rg in Q; [discriminate|apply core_params_shared].
  - destruct H as [_ H]. contradiction.
Qed.

(** The core renderer without tracking runs with the parameter connections set up. *)
Theorem C78_core_runs : forall c r type_size block alignment partition alloc registered creatable,
  int_range c -> tracking c = false -> core_new c = Ok r ->
  type_size 0 <> 0 -> (alignment = 0 \/ Nat.divide (type_size 0) alignment) ->
  new_addresses r alloc -> (forall l, Permutation (partition l) l) ->
  (forall k, k <= 1 -> registered k = Some true) -> (forall p t k, creatable p t k = true) ->
  exists fl order, construct (core_objects c) type_size block alignment partition alloc (accepts (core_objects c) registered creatable r) r = Ok fl
    /\ dependency_order r (fun a b => depends r b a) order
    /\ runs_blocks (core_objects c) type_size block alignment r fl
         (fun s d => endpoint r (fst s) /\ endpoint r (fst d) /\ linked r s d) order.
Proof.
  intros c r type_size block alignment partition alloc registered creatable IR T E TS AL NA PP Rg Cr.
  apply C72_runs; auto. intros pm params EF EP. now apply (C78_core c r registered creatable pm params).
Qed.

(** dual-band panning, reverberation and output equalisation *)
Definition ex_accepts : option (nat * bool) :=
  match core_new (ex_core (Some 3) false true true) with
  | Ok r => match presolve (core_objects (ex_core (Some 3) false true true)) (snd (pfill_recursive (core_objects (ex_core (Some 3) false true true)) r [])) with
            | Ok params => Some (length params, accepts (core_objects (ex_core (Some 3) false true true)) (fun k => if k <=? 1 then Some true else None)
                                   (fun _ _ _ => true) r params)
            | _ => None
            end
  | _ => None
  end.
Example C78_example_core : ex_accepts = Some (10, true).
Proof. vm_compute. reflexivity. Qed.
Print Assumptions C78_core.
Print Assumptions C78_core_runs.
