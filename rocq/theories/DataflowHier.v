(** The resolved tables of a hierarchy are a closed flow (proofs). *)
From Verif Require Import Base FlowModel FlowProofs FlowResolve FlowTree FlowProps SchedModel SchedProofs SchedProps
  LayoutModel LayoutTables LayoutProofs LayoutAddr LayoutProps DataflowModel DataflowSpec DataflowProofs DataflowFlow.
Local Open Scope res_scope.

Section Hier.
  Variables (o : objects) (root : comp) (m r : amap) (pm : pmap) (pr : pmap).
  Hypothesis NA : NoDup (all_audio root).
  Hypothesis ND : NoDup (addresses root).
  Hypothesis D : describes o root.
  Hypothesis HC : check_audio o root = true.
  Hypothesis HCp : check_params o root = true.
  Hypothesis single : forall s s' d, pinner root d -> plinked root s d -> plinked root s' d -> s = s'.
  Hypothesis CR : is_composite root = true.
  Hypothesis Em : amap_new o root = Ok m.
  Hypothesis Er : resolvePlaceholders o m = Ok r.
  Hypothesis Epm : pfill_recursive o root [] = (true, pm).
  Hypothesis Epr : presolve o pm = Ok pr.

  Lemma table_audio : (forall s d, In (s, d) r <-> endpoint root (fst s) /\ endpoint root (fst d) /\ wired root s d)
    /\ (forall i a p children conns pconns q k, inside (Composite i a p children conns pconns) root -> local_receiver o a children q ->
          k < a_width o q -> endpoint root q -> In (q, k) (map snd r)).
  Proof using NA D HC Em Er.
    destruct (C29_hierarchy_transparent o root NA D HC) as (m' & Em' & H). rewrite Em in Em'. apply Ok_inj in Em'. subst m'.
    rewrite Er in H. destruct H as (HR & _ & HF & _). split; [exact HR|exact HF].
  Qed.
  Lemma table_params : forall s d, In (d, s) pr <-> pendpoint root s /\ pendpoint root d /\ pwired root s d.
  Proof using D HCp single Epm Epr.
    destruct (C30_hierarchy_transparent_partial o root D HCp single) as (pm' & Epm' & H). rewrite Epm in Epm'. injection Epm' as <-.
    rewrite Epr in H. apply H.
  Qed.
  (** a channel that sends inside some composite and belongs to an endpoint sends in the resolved table *)
  Lemma resolved_sends i au pa children conns pconns p k : inside (Composite i au pa children conns pconns) root ->
    local_sender o au children p -> k < a_width o p -> endpoint root p -> sends r p.
  Proof using NA D HC Em Er.
    intros Hi LS Hw EP. destruct table_audio as (HR & _).
    destruct (proj1 (C31_audio_check_iff_partial o root) HC _ _ _ _ _ _ Hi) as (_ & _ & W). destruct (W p k LS Hw) as (d1 & Hd).
    assert (L : In ((p, k), d1) (all_links root)) by (apply all_links_inside; exists i, au, pa, children, conns, pconns; auto).
    destruct (receives_nodup o root NA) as [NRr _]. destruct (links_nodup o root HC NRr) as [NL _].
    assert (PH : placeholder_channel o (p, k) = false).
    { destruct EP as (x & Hx & Px & Kx). apply (endpoint_ph o root D x); [exact Hx|exact Px|]. exists x. auto. }
    destruct (reaches (placeholder_channel o) (all_links root)) with (c0 := (p, k)) (d1 := d1) as (d & Rd & Pd); [| |exact PH|exact L|].
    - clear - NL. intros s s' d H H'. revert NL H H'. generalize (all_links root). clear.
      induction l as [|[a b] l IH]; intros NL H H'; [contradiction|]. cbn [map snd] in NL. apply NoDup_cons_iff in NL as [Ni ND'].
      destruct H as [E|H], H' as [E'|H'].
      + congruence.
      + exfalso. apply Ni. apply in_map_iff. exists (s', d). split; [cbn; congruence|exact H'].
      + exfalso. apply Ni. apply in_map_iff. exists (s, d). split; [cbn; congruence|exact H].
      + now apply IH.
    - intros x e Px Hx. destruct (link_ports o root e x HC Hx) as [_ (y & Hy & Py)].
      apply linked_in in Hx. pose proof (proj1 (inner_ph o root D y x Hy Py) Px) as (z & Hz & Pz & Cz & Nz).
      destruct (linked_local o root HC _ _ Hx) as (j & a & q & ch & cs & ps & Hj & _ & LR & _ & Hk).
      destruct D as (D1 & _ & D2 & D3). destruct x as [xp xk]. cbn [fst snd] in *.
      destruct (a_dir o xp) eqn:Dx.
      + destruct z as [|zi za zq zch zcs zps]; [discriminate|]. cbn [comp_audio] in Pz.
        destruct (proj1 (C31_audio_check_iff_partial o root) HC _ _ _ _ _ _ Hz) as (_ & _ & Wz).
        destruct (Wz xp xk) as (d & Hdd); [right; auto|exact Hk|]. exists d. apply all_links_inside. exists zi, za, zq, zch, zcs, zps. auto.
      + destruct (inside_parent _ _ Hz) as [->|(j' & ja & jq & jch & jcs & jps & Hj' & Hzj)]; [congruence|].
        destruct (proj1 (C31_audio_check_iff_partial o root) HC _ _ _ _ _ _ Hj') as (_ & _ & Wz).
        destruct (Wz xp xk) as (d & Hdd); [left; exists z; auto|exact Hk|]. exists d. apply all_links_inside. exists j', ja, jq, jch, jcs, jps. auto.
    - apply chain_rchain in Rd. apply (wired_chain o root D _ _ HC) in Rd. exists k, d. apply HR. cbn [fst]. split; [exact EP|]. split; [|exact Rd].
      apply wired_last in Rd as (e & Le). apply linked_in in Le. destruct (link_ports o root e d HC Le) as [_ (y & Hy & Py)].
      now apply (endpoint_ph o root D y d Hy Py).
  Qed.

  Lemma resolved_closed : closed_flow o root r pr.
  Proof using NA ND D HC HCp single CR Em Er Epm Epr.
    destruct table_audio as (HR & HF). pose proof table_params as HP. pose proof D as (DA & DP & DC & DT).
    assert (PA : forall x, atomic_in root x -> exists j ja jq jch jcs jps, inside (Composite j ja jq jch jcs jps) root /\ In x jch).
    { intros x [Hx Cx]. destruct (inside_parent _ _ Hx) as [->|K]; [congruence|exact K]. }
    constructor; try assumption.
    - intros s d H. apply HR in H as (E1 & E2 & Wi). apply wired_first in Wi as (e & L).
      destruct (sender_dir o root D HC _ _ L E1) as (x & Hx & Px & K). exists x. split; [exact Hx|]. split; [exact Px|]. tauto.
    - intros s d H. apply HR in H as (E1 & E2 & Wi). apply wired_last in Wi as (e & L).
      destruct (receiver_dir o root D HC _ _ L E2) as (x & Hx & Px & K). exists x. split; [exact Hx|]. split; [exact Px|]. tauto.
    - intros x d Hx Hd. destruct (PA x Hx) as (j & ja & jq & jch & jcs & jps & Hj & Hxj). destruct Hx as [Hx Cx].
      apply channel_of in Hd as (Pd & Dd & Wd).
      assert (K : In (fst d, snd d) (map snd r)).
      { apply (HF _ _ _ _ _ _ _ _ Hj); [left; exists x; auto|exact Wd|exists x; auto]. }
      apply in_map_iff in K as ([s d'] & E & K). cbn [snd] in E. subst d'. exists s. now destruct d.
    - intros x c Hx Hc. destruct (PA x Hx) as (j & ja & jq & jch & jcs & jps & Hj & Hxj). destruct Hx as [Hx Cx].
      apply channel_of in Hc as (Pc & Dc & Wc). apply (resolved_sends _ _ _ _ _ _ (fst c) (snd c) Hj); [left; exists x; auto|exact Wc|exists x; auto].
    - now apply (resolved_external o root m r NA D HC Em Er).
    - intros s d H. apply HP in H as (E1 & E2 & _). split; [destruct E1 as (x & Hx & Px & [A| ->])|destruct E2 as (x & Hx & Px & [A| ->])].
      + right. exists x. rewrite (DP x _ Hx Px). auto.
      + left. now apply DP.
      + right. exists x. rewrite (DP x _ Hx Px). auto.
      + left. now apply DP.
  Qed.
  Lemma feeds_depends a b : atom root a -> atom root b -> (feeds o r pr a b <-> depends root b a).
  Proof using NA D HC HCp single Em Er Epm Epr.
    destruct table_audio as (HR & _). pose proof table_params as HP. pose proof D as (DA & DP & DC & DT).
    assert (DI : forall x y, inside x root -> inside y root -> comp_id x = comp_id y -> is_composite x = false -> is_composite y = false).
    { intros x y Hx Hy E C. rewrite <- DC in C |- * by assumption. now rewrite <- E. }
    assert (CL : forall x a, inside x root -> (is_composite x = false \/ x = root) -> atom root a -> comp_id x = a -> is_composite x = false).
    { intros x c Hx _ (y & Hy & Cy & Ey) E. apply (DI y x); congruence. }
    intros Aa Ab. unfold feeds, depends. split.
    - intros [(s & d & H & E1 & E2)|(s & d & H & E1 & E2)].
      + left. apply HR in H as ((x & Hx & Px & Kx) & (y & Hy & Py & Ky) & W). exists s, d. split; [exact W|].
        rewrite (DA x _ Hx Px) in E1. rewrite (DA y _ Hy Py) in E2. split; [exists x|exists y]; repeat split; auto; eauto using CL.
      + right. apply HP in H as ((x & Hx & Px & Kx) & (y & Hy & Py & Ky) & W). exists s, d. split; [exact W|].
        rewrite (DP x _ Hx Px) in E1. rewrite (DP y _ Hy Py) in E2. split; [exists x|exists y]; repeat split; auto; eauto using CL.
    - intros [(s & d & W & (x & Hx & Cx & Ex & Px) & (y & Hy & Cy & Ey & Py))|(s & d & W & (x & Hx & Cx & Ex & Px) & (y & Hy & Cy & Ey & Py))].
      + left. exists s, d. rewrite (DA x _ Hx Px), (DA y _ Hy Py). split; [|auto]. apply HR.
        split; [exists x; auto|]. split; [exists y; auto|exact W].
      + right. exists s, d. rewrite (DP x _ Hx Px), (DP y _ Hy Py). split; [|auto]. apply HP.
        split; [exists x; auto|]. split; [exists y; auto|exact W].
  Qed.
  Lemma order_depends order : dependency_order root (feeds o r pr) order <-> dependency_order root (fun a b => depends root b a) order.
  Proof using NA D HC HCp single Em Er Epm Epr.
    assert (AA : forall x, atomic_in root x -> atom root (comp_id x)) by (intros x [Hx Cx]; exists x; auto).
    split; intros (H1 & H2 & H3); (split; [exact H1|]; split; [exact H2|]); intros l1 x l2 E y Hy K;
      (assert (Hx : atomic_in root x) by (apply H2; rewrite E; apply in_or_app; right; now left));
      apply (H3 l1 x l2 E y Hy); apply feeds_depends; auto.
  Qed.
  Lemma cyclic_depends : cyclic root (feeds o r pr) <-> cyclic root (fun a b => depends root b a).
  Proof using NA D HC HCp single Em Er Epm Epr.
    unfold cyclic. apply cyclic_iff. intros a b. split; intros (A & B & H); (split; [exact A|]; split; [exact B|]; now apply feeds_depends).
  Qed.
End Hier.

(** *** The specification does not depend on how the sources are described *)
Section Sources.
  Context {W B : Type}.
  Variables (o : objects) (source source' : channel -> channel -> Prop).
  Variable behaviour : nat -> W -> list (list B) -> res (W * list (list B)).
  Hypothesis same : forall s d, source s d <-> source' s d.
  Lemma arrives_ext (V : valuation B) d v : arrives source V d v -> arrives source' V d v.
  Proof using same. intros (s & H & E). exists s. split; [now apply same|exact E]. Qed.
  Lemma all_arrive_ext (V : valuation B) ds vs : Forall2 (arrives source V) ds vs -> Forall2 (arrives source' V) ds vs.
  Proof using same. induction 1; constructor; [now apply arrives_ext|assumption]. Qed.
  Lemma executes_ext V w order w' : executes o source behaviour V w order w' -> executes o source' behaviour V w order w'.
  Proof using same.
    induction 1 as [w|w x rest ins w1 w2 A Bh R IH]; [constructor|]. apply executes_cons with (ins := ins) (w1 := w1); [|exact Bh|exact IH].
    now apply all_arrive_ext.
  Qed.
  Lemma fails_ext V w order f : fails o source behaviour V w order f -> fails o source' behaviour V w order f.
  Proof using same.
    intros (l1 & x & l2 & w1 & ins & H1 & H2 & H3 & H4). exists l1, x, l2, w1, ins. split; [exact H1|]. split; [now apply executes_ext|]. split; [|exact H4].
    now apply all_arrive_ext.
  Qed.
  Lemma outcome_ext block root size order failure cpos ppos capture before w {M} (result : res (W * M * (nat * nat -> list B))) :
    block_outcome o block root source size behaviour order failure cpos ppos capture before w result ->
    block_outcome o block root source' size behaviour order failure cpos ppos capture before w result.
  Proof using same.
    destruct result as [[[w' m'] after]|e|]; cbn [block_outcome].
    - intros (V & H1 & H2 & H3 & H4). exists V. split; [now apply executes_ext|]. split; [exact H2|]. split; [|exact H4].
      intros n d Hn. destruct (H3 n d Hn) as (v & A & K). exists v. split; [now apply arrives_ext|exact K].
    - intros (E & V & H1 & H2). split; [exact E|]. exists V. split; [exact H1|now apply fails_ext].
    - intros (V & H1 & H2). exists V. split; [exact H1|now apply fails_ext].
  Qed.
End Sources.
