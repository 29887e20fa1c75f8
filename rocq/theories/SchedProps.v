(** C28: the schedule runs every atomic component once, producers before consumers.

    The specification speaks about the hierarchy ([atom], [addresses]) and the connections
    only ([feeds], [depends]). *)
From Verif Require Import Base FlowModel FlowProofs FlowResolve FlowTree FlowProps SchedModel SchedProofs SchedGraph.
From Coq Require Import Permutation Relations.
Local Open Scope res_scope.

(** *** Specification *)
(** addresses of all components of a hierarchy *)
Fixpoint addresses (c : comp) : list nat :=
  match c with
  | Atomic a _ _ => [a]
  | Composite a _ _ children _ _ => a :: flat_map addresses children
  end.
(** [a] is the address of an atomic component of the hierarchy *)
Definition atom (root : comp) (a : nat) : Prop :=
  exists x, inside x root /\ is_composite x = false /\ comp_id x = a.
(** a connection of the flat tables leads from component [a] to component [b] *)
Definition feeds (o : objects) (audio : amap) (params : pmap) (a b : nat) : Prop :=
  (exists s d, In (s, d) audio /\ a_owner o (fst s) = a /\ a_owner o (fst d) = b)
  \/ (exists s d, In (d, s) params /\ q_owner o s = a /\ q_owner o d = b).
(** [a] runs before [b] *)
Definition runs_before (sched : list nat) (a b : nat) : Prop :=
  exists l1 l2 l3, sched = l1 ++ a :: l2 ++ b :: l3.
(** senders of connections are ports of atoms or of the top-level component *)
Definition senders_known (o : objects) (root : comp) (audio : amap) (params : pmap) : Prop :=
  (forall s d, In (s, d) audio -> a_owner o (fst s) = comp_id root \/ atom root (a_owner o (fst s)))
  /\ (forall s d, In (d, s) params -> q_owner o s = comp_id root \/ atom root (q_owner o s)).
(** a cycle of connections between atoms *)
Definition cyclic (root : comp) (rel : nat -> nat -> Prop) : Prop :=
  exists a, clos_trans_1n nat (fun a b => atom root a /\ atom root b /\ rel a b) a a.

(** *** Proofs *)
Lemma atoms_in root a : In a (collectAllComponents root) <-> atom root a.
Proof.
  unfold atom. induction root as [c au p|c au p children conns pconns IH] using comp_induction; cbn [collectAllComponents].
  - split.
    + intros [<-|[]]. exists (Atomic c au p). split; [constructor|auto].
    + intros (x & H & _ & E). left. inversion H; subst. reflexivity.
  - rewrite in_flat_map. rewrite Forall_forall in IH. split.
    + intros (ch & Hc & H). apply (IH ch Hc) in H as (x & Hx & E). exists x. split; [|exact E]. now apply inside_child with ch.
    + intros (x & H & C & E). apply inside_composite in H as [->|(ch & Hc & H)]; [discriminate|].
      exists ch. split; [exact Hc|]. apply IH; [exact Hc|]. exists x. auto.
Qed.
Lemma atoms_addresses root : (forall a, In a (collectAllComponents root) -> In a (addresses root))
  /\ (NoDup (addresses root) -> NoDup (collectAllComponents root)).
Proof.
  induction root as [c au p|c au p children conns pconns IH] using comp_induction; cbn [collectAllComponents addresses]; [auto|].
  assert (G : (forall a, In a (flat_map collectAllComponents children) -> In a (flat_map addresses children))
              /\ (NoDup (flat_map addresses children) -> NoDup (flat_map collectAllComponents children))).
  { induction children as [|x l IHl]; cbn [flat_map]; [auto|]. inversion IH as [|? ? [X1 X2] Hl]; subst.
    destruct (IHl Hl) as [L1 L2]. split.
    - intros a H. apply in_or_app. apply in_app_or in H as [H|H]; auto.
    - intros ND. apply nodup_app in ND as (N1 & N2 & DJ). apply nodup_app. split; [auto|]. split; [auto|].
      intros a Ha Ha'. apply (DJ a); auto. }
  destruct G as [G1 G2]. split; [intros a H; right; auto|]. intros ND. inversion ND; auto.
Qed.

Section Schedule.
  Variables (o : objects) (root : comp) (audio : amap) (params : pmap).
  Hypothesis D : describes o root.
  Hypothesis known : senders_known o root audio params.
  Hypothesis comp_root : is_composite root = true.

  Let pairs := audio_pairs o audio ++ param_pairs o params.
  Lemma atom_plain a : atom root a -> composite o a = false.
  Proof using D. intros (x & Hx & C & <-). destruct D as (_ & _ & K & _). now rewrite K. Qed.
  Lemma pairs_in a b : In (a, b) pairs <-> feeds o audio params a b /\ atom root a.
  Proof using D known comp_root.
    destruct known as [K1 K2]. assert (Croot : composite o (comp_id root) = true).
    { destruct D as (_ & _ & K & _). rewrite K; [exact comp_root|constructor]. }
    unfold pairs, feeds, audio_pairs, param_pairs. rewrite in_app_iff, !in_map_iff. split.
    - intros [((s & d) & E & H)|((d & s) & E & H)]; apply filter_In in H as [H N]; cbn [fst snd] in *;
        injection E as <- <-; apply negb_true_iff in N.
      + split; [left; eauto|]. destruct (K1 s d H) as [E|A]; [congruence|exact A].
      + split; [right; eauto|]. destruct (K2 s d H) as [E|A]; [congruence|exact A].
    - intros [[(s & d & H & <- & <-)|(s & d & H & <- & <-)] A]; apply atom_plain in A.
      + left. exists (s, d). split; [reflexivity|]. apply filter_In. split; [exact H|]. cbn [fst]. now rewrite A.
      + right. exists (d, s). split; [reflexivity|]. apply filter_In. split; [exact H|]. cbn [snd]. now rewrite A.
  Qed.
End Schedule.

Lemma before_runs a b sched : before a b sched -> runs_before sched a b.
Proof.
  intros (l1 & l2 & -> & H). apply in_split in H as (k1 & k2 & ->). exists k1, k2, l2. now rewrite <- app_assoc.
Qed.
Lemma cyclic_iff root (R R' : nat -> nat -> Prop) :
  (forall a b, R a b <-> atom root a /\ atom root b /\ R' a b) -> ((exists a, clos_trans_1n nat R a a) <-> cyclic root R').
Proof.
  intros E. unfold cyclic.
  assert (G : forall R1 R2 : nat -> nat -> Prop, (forall a b, R1 a b -> R2 a b) -> forall a b, clos_trans_1n nat R1 a b -> clos_trans_1n nat R2 a b).
  { intros R1 R2 H. induction 1 as [a b S|a b c S _ IH]; [now apply t1n_step, H|].
    apply Relation_Operators.t1n_trans with (y := b); [now apply H|exact IH]. }
  split; intros (a & H); exists a; (eapply G; [|exact H]); intros x y; apply E.
Qed.

(** For every hierarchy and every flat connection tables whose senders are atoms or the
    top-level component: if the dependencies between the atoms are acyclic, the schedule
    contains exactly the atoms, each once, and every atom after all atoms that feed it;
    otherwise std::invalid_argument is thrown. *)
Theorem C28_schedule : forall o root audio params,
  describes o root -> NoDup (addresses root) -> senders_known o root audio params ->
  (is_composite root = false -> audio = [] /\ params = []) ->
  match initialiseSchedule o root audio params with
  | Ok sched =>
      NoDup sched /\ (forall a, In a sched <-> atom root a)
      /\ (forall a b, atom root a -> atom root b -> feeds o audio params a b -> runs_before sched a b)
      /\ ~ cyclic root (feeds o audio params)
  | Throw e => e = InvalidArgument /\ cyclic root (feeds o audio params)
  | UB => False
  end.
Proof.
  intros o root audio params D NA K HA.
  destruct (is_composite root) eqn:C.
  2:{ destruct (HA eq_refl) as [-> ->]. destruct root as [c au p|]; [|discriminate]. cbn [initialiseSchedule].
      split; [repeat constructor; intros []|]. split; [intros a; rewrite <- atoms_in; reflexivity|].
      assert (NF : forall a b, ~ feeds o [] [] a b) by (intros a b [(s & d & [] & _)|(s & d & [] & _)]).
      split; [intros a b _ _ H; now apply NF in H|]. intros (a & H). destruct H as [b (_ & _ & H)|b c' (_ & _ & H) _]; now apply NF in H. }
  pose proof (proj2 (atoms_addresses root) NA) as ND.
  pose proof (pairs_in o root audio params D K C) as PI.
  assert (IS : initialiseSchedule o root audio params
               = (es <- graph_edges (audio_pairs o audio ++ param_pairs o params) (comp_id root) (collectAllComponents root) ;;
                  sequentialSchedule es (collectAllComponents root))).
  { destruct root; [discriminate|reflexivity]. }
  rewrite IS. clear IS. set (pairs := audio_pairs o audio ++ param_pairs o params) in *. set (atoms := collectAllComponents root) in *.
  destruct (graph_edges_ok pairs atoms (comp_id root) ND) as (es & E & S).
  { intros a b H. apply PI in H as [_ H]. now apply atoms_in. }
  rewrite E. cbn [bind]. pose proof (schedule_ok es atoms ND (edges_bounded pairs atoms (comp_id root) es S)) as R.
  assert (CY : cycle es <-> cyclic root (feeds o audio params)).
  { rewrite (cycle_dep pairs atoms (comp_id root) ND es S). apply cyclic_iff. intros a b. unfold dep. rewrite PI.
    unfold atoms. rewrite !atoms_in. tauto. }
  destruct (sequentialSchedule es atoms) as [sched|e|]; [|destruct e; try contradiction; split; [reflexivity|now apply CY]|contradiction].
  destruct R as (NC & P & B). split; [now rewrite P|]. split; [intros a; rewrite P; apply atoms_in|]. split; [|now rewrite <- CY].
  intros a b Ha Hb F. apply before_runs. pose proof Ha as Ia. pose proof Hb as Ib.
  apply atoms_in in Ia, Ib. fold atoms in Ia, Ib. apply In_nth_error in Ia as [i Hi]. apply In_nth_error in Ib as [j Hj].
  apply (B i j a b); [|exact Hi|exact Hj]. apply (edges_inner pairs atoms (comp_id root) es S i j a b Hi Hj). apply PI. auto.
Qed.

(** atom [b] receives from atom [a]: a chain of connections through inner ports leads from
    an audio channel or parameter port of [a] to one of [b] *)
Definition audio_port_of (root : comp) (a p : nat) : Prop :=
  exists x, inside x root /\ is_composite x = false /\ comp_id x = a /\ In p (comp_audio x).
Definition param_port_of (root : comp) (a p : nat) : Prop :=
  exists x, inside x root /\ is_composite x = false /\ comp_id x = a /\ In p (comp_params x).
Definition depends (root : comp) (b a : nat) : Prop :=
  (exists s d, wired root s d /\ audio_port_of root a (fst s) /\ audio_port_of root b (fst d))
  \/ (exists s d, pwired root s d /\ param_port_of root a s /\ param_port_of root b d).

(** The same for the connection entries of the hierarchy itself: when the integrity checks
    pass and resolution succeeds, the schedule of the resolved tables respects the
    connections through all levels of the hierarchy. *)
Theorem C28_hierarchy : forall o root m r pm pr,
  NoDup (all_audio root) -> NoDup (addresses root) -> describes o root ->
  checkConnectionIntegrity o root = true ->
  (forall s s' d, pinner root d -> plinked root s d -> plinked root s' d -> s = s') ->
  amap_new o root = Ok m -> resolvePlaceholders o m = Ok r ->
  pfill_recursive o root [] = (true, pm) -> presolve o pm = Ok pr ->
  match initialiseSchedule o root r pr with
  | Ok sched =>
      NoDup sched /\ (forall a, In a sched <-> atom root a)
      /\ (forall a b, depends root b a -> runs_before sched a b)
      /\ ~ cyclic root (fun a b => depends root b a)
  | Throw e => e = InvalidArgument /\ cyclic root (fun a b => depends root b a)
  | UB => False
  end.
Proof.
  intros o root m r pm pr NA ND D HC single Em Er Epm Epr. apply andb_true_iff in HC as [HCa HCp].
  destruct (C29_hierarchy_transparent o root NA D HCa) as (m' & Em' & H). rewrite Em in Em'. injection Em' as <-.
  rewrite Er in H. destruct H as (HR & _).
  destruct (C30_hierarchy_transparent_partial o root D HCp single) as (pm' & Epm' & H). rewrite Epm in Epm'. injection Epm' as <-.
  rewrite Epr in H. destruct H as (HP & _).
  pose proof D as (DA & DP & DC & DT).
  assert (K : senders_known o root r pr).
  { split.
    - intros s d H. apply HR in H as ((x & Hx & Px & [A| ->]) & _).
      + right. exists x. rewrite (DA x _ Hx Px). auto.
      + left. now apply DA.
    - intros s d H. apply HP in H as ((x & Hx & Px & [A| ->]) & _).
      + right. exists x. rewrite (DP x _ Hx Px). auto.
      + left. now apply DP. }
  assert (HA : is_composite root = false -> r = [] /\ pr = []).
  { destruct root as [c au p|]; [|discriminate]. intros _. cbn in Em. injection Em as <-. cbn in Er. injection Er as <-.
    cbn in Epm. injection Epm as <-. cbn in Epr. injection Epr as <-. auto. }
  assert (FD : forall a b, atom root a -> atom root b -> (feeds o r pr a b <-> depends root b a)).
  { assert (DI : forall x y, inside x root -> inside y root -> comp_id x = comp_id y -> is_composite x = false -> is_composite y = false).
    { intros x y Hx Hy E C. rewrite <- DC in C |- * by assumption. now rewrite <- E. }
    assert (CL : forall x a, inside x root -> (is_composite x = false \/ x = root) -> atom root a -> comp_id x = a -> is_composite x = false).
    { intros x a Hx _ (y & Hy & Cy & Ey) E. apply (DI y x); congruence. }
    intros a b Aa Ab. unfold feeds, depends. split.
    - intros [(s & d & H & E1 & E2)|(s & d & H & E1 & E2)].
      + left. apply HR in H as ((x & Hx & Px & Kx) & (y & Hy & Py & Ky) & W). exists s, d. split; [exact W|].
        rewrite (DA x _ Hx Px) in E1. rewrite (DA y _ Hy Py) in E2. split; [exists x|exists y]; repeat split; auto; eauto using CL.
      + right. apply HP in H as ((x & Hx & Px & Kx) & (y & Hy & Py & Ky) & W). exists s, d. split; [exact W|].
        rewrite (DP x _ Hx Px) in E1. rewrite (DP y _ Hy Py) in E2. split; [exists x|exists y]; repeat split; auto; eauto using CL.
    - intros [(s & d & W & (x & Hx & Cx & Ex & Px) & (y & Hy & Cy & Ey & Py))|(s & d & W & (x & Hx & Cx & Ex & Px) & (y & Hy & Cy & Ey & Py))].
      + left. exists s, d. rewrite (DA x _ Hx Px), (DA y _ Hy Py). split; [|auto]. apply HR.
        split; [exists x; auto|]. split; [exists y; auto|exact W].
      + right. exists s, d. rewrite (DP x _ Hx Px), (DP y _ Hy Py). split; [|auto]. apply HP.
        split; [exists x; auto|]. split; [exists y; auto|exact W]. }
  assert (DAt : forall a b, depends root b a -> atom root a /\ atom root b).
  { intros a b [(s & d & _ & (x & Hx & Cx & Ex & _) & (y & Hy & Cy & Ey & _))|(s & d & _ & (x & Hx & Cx & Ex & _) & (y & Hy & Cy & Ey & _))];
      split; [exists x|exists y|exists x|exists y]; auto. }
  assert (CY : cyclic root (feeds o r pr) <-> cyclic root (fun a b => depends root b a)).
  { unfold cyclic at 1. apply cyclic_iff. intros a b. split; intros (A & B & H); (split; [exact A|]; split; [exact B|]; now apply FD). }
  pose proof (C28_schedule o root r pr D ND K HA) as S.
  destruct (initialiseSchedule o root r pr) as [sched|e|]; [|now rewrite <- CY|exact S].
  destruct S as (S1 & S2 & S3 & S4). split; [exact S1|]. split; [exact S2|]. split; [|now rewrite <- CY].
  intros a b H. destruct (DAt a b H) as [Aa Ab]. apply S3; [exact Aa|exact Ab|]. now apply FD.
Qed.

(** *** Examples *)
(** The flow of FlowProps: external input -> (composite 1:) atom 2 -> atom 3 -> output *)
Example C28_example : NoDup (addresses ex_flow)
  /\ exists m r pm pr, amap_new ex_objects ex_flow = Ok m /\ resolvePlaceholders ex_objects m = Ok r
     /\ pfill_recursive ex_objects ex_flow [] = (true, pm) /\ presolve ex_objects pm = Ok pr
     /\ initialiseSchedule ex_objects ex_flow r pr = Ok [2; 3].
Proof.
  split; [repeat constructor; cbn; intuition discriminate|]. eexists. eexists. eexists. eexists.
  split; [reflexivity|]. split; [reflexivity|]. split; [reflexivity|]. split; reflexivity.
Qed.
(** atoms 1..4 with port p owned by component p: a diamond 4 -> {1, 3} -> 2 is scheduled in
    dependency order; adding 2 -> 4 is rejected, also though no atom is a source *)
Definition four_objects : objects :=
  Objects (fun _ => Input) (fun _ => 1) (fun _ => 0) (fun p => p) (fun _ => Input) (fun _ => 0) (fun _ => 0) (fun p => p)
          (fun _ => 0) (fun _ _ => Some true) (fun c => c =? 0) (fun c => c =? 0).
Definition four_flow : comp := Composite 0 [] [] [Atomic 1 [1] [1]; Atomic 2 [2] [2]; Atomic 3 [3] [3]; Atomic 4 [4] [4]] [] [].
Example C28_diamond :
  initialiseSchedule four_objects four_flow [((4, 0), (1, 0)); ((4, 0), (3, 0)); ((1, 0), (2, 0))] [(2, 3)] = Ok [4; 3; 1; 2]
  /\ initialiseSchedule four_objects four_flow [((4, 0), (1, 0)); ((4, 0), (3, 0)); ((1, 0), (2, 0)); ((2, 0), (4, 0))] [(2, 3)]
     = Throw InvalidArgument.
Proof. split; reflexivity. Qed.

Print Assumptions C28_schedule.
Print Assumptions C28_hierarchy.
