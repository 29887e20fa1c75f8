(** Connections of checked hierarchies: every receive channel has one driver. *)
From Verif Require Import Base FlowModel FlowProofs FlowResolve.
From Coq Require Import Permutation.
Local Open Scope res_scope.

Lemma nodup_app {A} (l l' : list A) : NoDup (l ++ l') <-> NoDup l /\ NoDup l' /\ forall x, In x l -> ~ In x l'.
Proof.
  induction l as [|a l IH]; cbn [app].
  - split; [intros H; split; [constructor|]; split; [exact H|intros x []]|tauto].
  - rewrite !NoDup_cons_iff, IH, in_app_iff. split.
    + intros (H1 & H2 & H3 & H4). split; [tauto|]. split; [exact H3|]. intros x [<-|Hx]; [tauto|now apply H4].
    + intros ((H1 & H2) & H3 & H4). split; [|split; [exact H2|split; [exact H3|]]].
      * intros [K|K]; [contradiction|]. apply (H4 a); [now left|exact K].
      * intros x Hx. apply H4. now right.
Qed.

Section Tree.
  Variable o : objects.

  Fixpoint all_audio (c : comp) : list nat :=
    match c with
    | Atomic _ a _ => a
    | Composite _ a _ children _ _ => a ++ flat_map all_audio children
    end.
  Fixpoint all_receives (c : comp) : list nat :=
    match c with
    | Atomic _ _ _ => []
    | Composite _ a _ children _ _ => receive_ports o a children ++ flat_map all_receives children
    end.

  Lemma own_audio c p : In p (comp_audio c) -> In p (all_audio c).
  Proof. destruct c; cbn; [auto|]. intros H. apply in_or_app. now left. Qed.

  Lemma receives_nodup c : NoDup (all_audio c) ->
    NoDup (all_receives c)
    /\ forall p, In p (all_receives c) -> In p (all_audio c) /\ ~ (In p (comp_audio c) /\ a_dir o p = Input).
  Proof.
    induction c as [c a p|c a p children conns pconns IH] using comp_induction.
    - cbn. intros _. split; [constructor|tauto].
    - cbn [all_audio all_receives comp_audio]. intros ND. apply nodup_app in ND as (NA & NC & DJ).
      assert (G : forall l, Forall (fun c => NoDup (all_audio c) -> NoDup (all_receives c)
                    /\ forall p, In p (all_receives c) -> In p (all_audio c) /\ ~ (In p (comp_audio c) /\ a_dir o p = Input)) l ->
                  NoDup (flat_map all_audio l) ->
                  NoDup (filter (fun p => is_input (a_dir o p)) (flat_map comp_audio l) ++ flat_map all_receives l)
                  /\ forall p, In p (filter (fun p => is_input (a_dir o p)) (flat_map comp_audio l) ++ flat_map all_receives l) ->
                               In p (flat_map all_audio l)).
      { clear. induction l as [|x l IHl]; intros HF ND; cbn [flat_map filter app] in *.
        - split; [constructor|auto].
        - inversion HF as [|? ? Hx Hl]; subst. apply nodup_app in ND as (N1 & N2 & DJ).
          destruct (Hx N1) as [X1 X2]. destruct (IHl Hl N2) as [L1 L2]. rewrite filter_app.
          set (fx := filter (fun p => is_input (a_dir o p)) (comp_audio x)) in *.
          set (fl := filter (fun p => is_input (a_dir o p)) (flat_map comp_audio l)) in *.
          assert (Fx : forall p, In p fx -> In p (all_audio x)).
          { intros p Hp. apply filter_In in Hp as [Hp _]. now apply own_audio. }
          assert (P : Permutation ((fx ++ fl) ++ all_receives x ++ flat_map all_receives l)
                                  ((fx ++ all_receives x) ++ fl ++ flat_map all_receives l)).
          { rewrite <- !app_assoc. apply Permutation_app_head. rewrite !app_assoc. apply Permutation_app_tail, Permutation_app_comm. }
          split.
          + rewrite P. apply nodup_app. split; [|split; [exact L1|]].
            * apply nodup_app. split; [|split; [exact X1|]].
              -- apply NoDup_filter. destruct x; cbn [all_audio comp_audio] in *; [exact N1|]. now apply nodup_app in N1.
              -- intros p Hp Hr. apply X2 in Hr as [_ Hr]. apply Hr. apply filter_In in Hp as [Hp Dp]. split; [exact Hp|].
                 destruct (a_dir o p); [reflexivity|discriminate].
            * intros p Hp Hl'. apply (DJ p).
              -- apply in_app_or in Hp as [Hp|Hp]; [now apply Fx|now apply X2].
              -- now apply L2.
          + intros p Hp. rewrite P in Hp. apply in_app_or in Hp as [Hp|Hp]; apply in_or_app.
            * left. apply in_app_or in Hp as [Hp|Hp]; [now apply Fx|now apply X2].
            * right. now apply L2. }
      destruct (G children IH NC) as [G1 G2].
      unfold receive_ports.
      set (fi := filter (fun p => is_input (a_dir o p)) (flat_map comp_audio children)) in *.
      set (fo := filter (fun p => negb (is_input (a_dir o p))) a).
      assert (P : Permutation ((fi ++ fo) ++ flat_map all_receives children) (fo ++ fi ++ flat_map all_receives children)).
      { rewrite <- !app_assoc. apply Permutation_app_swap_app. }
      assert (Fo : forall p, In p fo -> In p a /\ a_dir o p = Output).
      { intros q Hq. apply filter_In in Hq as [Hq Dq]. split; [exact Hq|]. destruct (a_dir o q); [discriminate|reflexivity]. }
      split.
      + rewrite P. apply nodup_app. split; [now apply NoDup_filter|]. split; [exact G1|].
        intros q Hq Hq'. apply (DJ q); [now apply Fo|now apply G2].
      + intros q Hq. rewrite P in Hq. apply in_app_or in Hq as [Hq|Hq].
        * apply Fo in Hq as [Hq Dq]. split; [apply in_or_app; now left|]. intros [_ D]. congruence.
        * apply G2 in Hq. split; [apply in_or_app; now right|]. intros [Ha _]. now apply (DJ q).
  Qed.

  Lemma local_links_nodup audio children conns :
    check_audio_local o audio children conns = true ->
    NoDup (map snd (flat_map expand conns))
    /\ forall d, In d (map snd (flat_map expand conns)) -> In (fst d) (receive_ports o audio children).
  Proof.
    intros H. apply check_audio_local_ok in H as (HF & HR & _).
    pose proof (expand_known _ _ _ _ HF) as HK. rewrite Forall_forall in HK.
    assert (I : forall d, In d (map snd (flat_map expand conns)) -> channel_in o (receive_ports o audio children) d = true).
    { intros d Hd. apply in_map_iff in Hd as (e & <- & He). now apply HK. }
    split.
    - apply received_nodup. intros c. destruct (received (flat_map expand conns) c) eqn:E; [lia|].
      assert (Hc : In c (map snd (flat_map expand conns))) by (apply received_pos; lia).
      apply I, HR in Hc. lia.
    - intros d Hd. apply I in Hd. unfold channel_in in Hd. apply andb_true_iff in Hd as [Hd _]. now apply mem_spec.
  Qed.
  Lemma links_nodup c : check_audio o c = true -> NoDup (all_receives c) ->
    NoDup (map snd (all_links c)) /\ forall d, In d (map snd (all_links c)) -> In (fst d) (all_receives c).
  Proof.
    induction c as [c a p|c a p children conns pconns IH] using comp_induction.
    - cbn. intros _ _. split; [constructor|tauto].
    - cbn [check_audio all_receives all_links]. intros HC ND. apply andb_true_iff in HC as [HL HC].
      apply nodup_app in ND as (N1 & N2 & DJ). destruct (local_links_nodup _ _ _ HL) as [L1 L2]. rewrite map_app.
      assert (G : NoDup (map snd (flat_map all_links children))
                  /\ forall d, In d (map snd (flat_map all_links children)) -> In (fst d) (flat_map all_receives children)).
      { clear L1 L2 DJ N1 HL. induction children as [|x l IHl]; cbn [flat_map map forallb] in *; [split; [constructor|tauto]|].
        inversion IH as [|? ? Hx Hl]; subst. apply andb_true_iff in HC as [Cx Cl].
        apply nodup_app in N2 as (N1 & N2 & DJ). destruct (Hx Cx N1) as [X1 X2]. destruct (IHl Hl Cl N2) as [L1 L2].
        rewrite map_app. split.
        - apply nodup_app. split; [exact X1|]. split; [exact L1|]. intros d Hd Hd'. apply (DJ (fst d)); auto.
        - intros d Hd. apply in_or_app. apply in_app_or in Hd as [Hd|Hd]; [left|right]; auto. }
      destruct G as [G1 G2]. split.
      + apply nodup_app. split; [exact L1|]. split; [exact G1|]. intros d Hd Hd'. apply (DJ (fst d)); auto.
      + intros d Hd. apply in_or_app. apply in_app_or in Hd as [Hd|Hd]; [left|right]; auto.
  Qed.

  Lemma inside_trans x y z : inside x y -> inside y z -> inside x z.
  Proof. intros H. induction 1; [exact H|]. econstructor; [eassumption|]. auto. Qed.
  Lemma inside_parent x root : inside x root ->
    x = root \/ exists i a p children conns pconns, inside (Composite i a p children conns pconns) root /\ In x children.
  Proof.
    induction 1 as [c|x ch c a p children conns pconns Hi H IH]; [now left|]. right. destruct IH as [->|(i & a' & p' & l & cs & ps & Hl & Hx)].
    - exists c, a, p, children, conns, pconns. split; [constructor|exact Hi].
    - exists i, a', p', l, cs, ps. split; [|exact Hx]. econstructor; eassumption.
  Qed.

  (** [o] describes the components of the hierarchy [root] *)
  Definition is_composite (c : comp) : bool := match c with Atomic _ _ _ => false | Composite _ _ _ _ _ _ => true end.
  Definition describes (root : comp) : Prop :=
    (forall x p, inside x root -> In p (comp_audio x) -> a_owner o p = comp_id x)
    /\ (forall x p, inside x root -> In p (comp_params x) -> q_owner o p = comp_id x)
    /\ (forall x, inside x root -> composite o (comp_id x) = is_composite x)
    /\ (forall x, inside x root -> (toplevel o (comp_id x) = true <-> x = root)).

  Lemma send_ports_in a children p : In p (send_ports o a children)
    <-> (exists x, In x children /\ In p (comp_audio x) /\ a_dir o p = Output) \/ (In p a /\ a_dir o p = Input).
  Proof.
    unfold send_ports. rewrite in_app_iff, !filter_In, in_flat_map.
    destruct (a_dir o p); cbn [is_input negb]; firstorder congruence.
  Qed.
  Lemma receive_ports_in a children p : In p (receive_ports o a children)
    <-> (exists x, In x children /\ In p (comp_audio x) /\ a_dir o p = Input) \/ (In p a /\ a_dir o p = Output).
  Proof.
    unfold receive_ports. rewrite in_app_iff, !filter_In, in_flat_map.
    destruct (a_dir o p); cbn [is_input negb]; firstorder congruence.
  Qed.

  Lemma placeholder_driven root e : describes root -> check_audio o root = true -> In e (all_links root) ->
    placeholder_channel o (fst e) = true -> In (fst e) (map snd (all_links root)).
  Proof.
    intros (D1 & _ & D2 & D3) HC He Ph. pose proof (proj1 (check_audio_inside o root) HC) as CI.
    assert (Local : forall i a p children conns pconns, inside (Composite i a p children conns pconns) root ->
              In (fst (fst e)) (receive_ports o a children) -> snd (fst e) < a_width o (fst (fst e)) ->
              In (fst e) (map snd (all_links root))).
    { intros i a p children conns pconns Hi Hr Hw. specialize (CI _ _ _ _ _ _ Hi).
      apply check_audio_local_ok in CI as (_ & CR & _).
      assert (R1 : received (flat_map expand conns) (fst e) = 1).
      { apply CR. unfold channel_in. apply andb_true_iff. rewrite mem_spec, Nat.ltb_lt. auto. }
      assert (Hm : In (fst e) (map snd (flat_map expand conns))) by (apply received_pos; lia).
      apply in_map_iff in Hm as (x & Ex & Hx). rewrite <- Ex. apply in_map. apply all_links_inside.
      exists i, a, p, children, conns, pconns. auto. }
    apply all_links_inside in He as (i & a & p & children & conns & pconns & Hi & He).
    pose proof (CI _ _ _ _ _ _ Hi) as CL. apply check_audio_local_ok in CL as (HF & _ & _).
    pose proof (expand_known _ _ _ _ HF) as HK. rewrite Forall_forall in HK. destruct (HK e He) as [HS _].
    unfold channel_in in HS. apply andb_true_iff in HS as [HS HW]. apply mem_spec in HS. apply Nat.ltb_lt in HW.
    unfold placeholder_channel, placeholder in Ph. apply andb_true_iff in Ph as [P1 P2].
    apply send_ports_in in HS as [(x & Hx & Hp & Dp)|[Hp Dp]].
    - assert (Ix : inside x root).
      { eapply inside_trans; [|exact Hi]. apply inside_composite. right. exists x. split; [exact Hx|constructor]. }
      rewrite (D1 x _ Ix Hp), (D2 x Ix) in P1. destruct x as [|j aj pj lj cj qj]; [discriminate|].
      eapply Local; [exact Ix| |exact HW]. apply receive_ports_in. now right.
    - rewrite (D1 _ _ Hi Hp) in P2. apply negb_true_iff in P2.
      destruct (inside_parent _ _ Hi) as [E|(j & aj & pj & lj & cj & qj & Hj & Hx)].
      + assert (toplevel o (comp_id (Composite i a p children conns pconns)) = true) by now apply D3. congruence.
      + eapply Local; [exact Hj| |exact HW]. apply receive_ports_in. left.
        exists (Composite i a p children conns pconns). auto.
  Qed.

  Lemma check_fills root : check_audio o root = true -> exists m, amap_new o root = Ok m /\ Permutation m (all_links root).
  Proof.
    intros HC. pose proof (fill_recursive_ok o root []) as [F1 F2]. cbv zeta in F1, F2. unfold amap_new.
    destruct (fill_recursive o root []) as [ok m]. cbn [fst snd] in *.
    assert (all_ok o root).
    { apply all_ok_inside. intros i a p children conns pconns Hi. apply check_audio_inside with (i := i) (a := a) (p := p) (children := children) (conns := conns) (pconns := pconns) in HC; [|exact Hi].
      now apply check_audio_local_ok in HC as (HF & _). }
    assert (ok = true) by now apply F1. subst ok. exists m. split; [reflexivity|]. specialize (F2 eq_refl). now rewrite app_nil_r in F2.
  Qed.
End Tree.

(** *** enumerating a hierarchy *)
Fixpoint subcomps (c : comp) : list comp :=
  c :: match c with Atomic _ _ _ => [] | Composite _ _ _ children _ _ => flat_map subcomps children end.
Lemma inside_subcomps x c : inside x c <-> In x (subcomps c).
Proof.
  induction c as [c a p|c a p children conns pconns IH] using comp_induction; cbn [subcomps In].
  - split; [intros H; inversion H; auto|intros [<-|[]]; constructor].
  - rewrite inside_composite, in_flat_map. rewrite Forall_forall in IH. split.
    + intros [->|(ch & Hc & H)]; [now left|]. right. exists ch. split; [exact Hc|]. now apply IH.
    + intros [<-|(ch & Hc & H)]; [now left|]. right. exists ch. split; [exact Hc|]. now apply IH.
Qed.

Lemma chain_mono {A} (ph : A -> bool) m m' s d : (forall e, In e m -> In e m') -> chain ph m s d -> chain ph m' s d.
Proof.
  intros I. induction 1 as [s d H|s p d H Hp _ IH].
  - apply chain_one. now apply I.
  - apply chain_step with p; [now apply I|exact Hp|exact IH].
Qed.
Lemma chain_perm {A} (ph : A -> bool) m m' s d : Permutation m m' -> (chain ph m s d <-> chain ph m' s d).
Proof.
  intros P. split; apply chain_mono; intros e He; [now rewrite <- P|now rewrite P].
Qed.

(** following the drivers backwards ends at a real port, in a loop or at an undriven port *)
Section Walk.
  Variable ph : nat -> bool.
  Variable m : list (nat * nat).
  Lemma walk_outcome : forall fuel trace x,
    ph x = true -> NoDup trace -> (forall y, In y trace -> ph y = true /\ chain ph m x y) -> incl trace (map snd m) ->
    length m < fuel + length trace ->
    (exists s, ph s = false /\ chain ph m s x)
    \/ (exists q, ph q = true /\ feeds ph m q x /\ chain ph m q q)
    \/ (exists q, ph q = true /\ feeds ph m q x /\ forall z, ~ In (z, q) m).
  Proof.
    induction fuel as [|fuel IH]; intros trace x Px ND T Inc F.
    - exfalso. pose proof (NoDup_incl_length ND Inc) as L. rewrite map_length in L. lia.
    - destruct (find (fun e => snd e =? x) m) as [[y x']|] eqn:Ef.
      2:{ right. right. exists x. split; [exact Px|]. split; [now left|]. intros z Hz.
          apply (List.find_none _ _ Ef) in Hz. cbn [snd] in Hz. rewrite Nat.eqb_refl in Hz. discriminate. }
      apply List.find_some in Ef as [Hy E]. apply Nat.eqb_eq in E. cbn [snd] in E. subst x'.
      destruct (in_dec Nat.eq_dec x trace) as [Hi|Hi].
      { right. left. exists x. split; [exact Px|]. split; [now left|]. now apply T. }
      destruct (ph y) eqn:Py.
      2:{ left. exists y. split; [exact Py|now apply chain_one]. }
      specialize (IH (x :: trace) y Py ltac:(now constructor)).
      destruct IH as [(s & Ps & H)|[(q & Pq & H & L)|(q & Pq & H & L)]].
      + intros z [<-|Hz].
        * split; [exact Px|now apply chain_one].
        * destruct (T z Hz) as [Pz C]. split; [exact Pz|]. eapply chain_step; [exact Hy|exact Px|exact C].
      + intros z [<-|Hz]; [apply in_map_iff; now exists (y, x)|now apply Inc].
      + cbn [length]. lia.
      + left. exists s. split; [exact Ps|]. eapply chain_app; [exact H|exact Py|now apply chain_one].
      + right. left. exists q. split; [exact Pq|]. split; [|exact L]. now apply feeds_step with y.
      + right. right. exists q. split; [exact Pq|]. split; [|exact L]. now apply feeds_step with y.
  Qed.
End Walk.

Section ParamTree.
  Variable o : objects.
  Lemma send_params_in a children p : In p (send_params o a children)
    <-> (exists x, In x children /\ In p (comp_params x) /\ q_dir o p = Output) \/ (In p a /\ q_dir o p = Input).
  Proof.
    unfold send_params. rewrite in_app_iff, !filter_In, in_flat_map.
    destruct (q_dir o p); cbn [is_input negb]; firstorder congruence.
  Qed.
  Lemma receive_params_in a children p : In p (receive_params o a children)
    <-> (exists x, In x children /\ In p (comp_params x) /\ q_dir o p = Input) \/ (In p a /\ q_dir o p = Output).
  Proof.
    unfold receive_params. rewrite in_app_iff, !filter_In, in_flat_map.
    destruct (q_dir o p); cbn [is_input negb]; firstorder congruence.
  Qed.

  Lemma param_driven root s d : describes o root -> check_params o root = true -> In (s, d) (all_plinks root) ->
    placeholder_param o s = true -> exists z, In (z, s) (all_plinks root).
  Proof.
    intros (_ & D1 & D2 & D3) HC He Ph. pose proof (proj1 (check_params_inside o root) HC) as CI.
    assert (Local : forall i a p children conns pconns, inside (Composite i a p children conns pconns) root ->
              In s (receive_params o p children) -> exists z, In (z, s) (all_plinks root)).
    { intros i a p children conns pconns Hi Hr. specialize (CI _ _ _ _ _ _ Hi).
      apply check_params_local_ok in CI as (_ & _ & CR). apply CR in Hr. apply in_map_iff in Hr as ([z s'] & E & Hz).
      cbn [snd] in E. subst s'. exists z. apply all_plinks_inside. exists i, a, p, children, conns, pconns. auto. }
    apply all_plinks_inside in He as (i & a & p & children & conns & pconns & Hi & He).
    pose proof (CI _ _ _ _ _ _ Hi) as CL. apply check_params_local_ok in CL as (HF & _ & _).
    rewrite Forall_forall in HF. destruct (HF _ He) as (HS & _ & _). cbn [fst] in HS.
    unfold placeholder_param, placeholder in Ph. apply andb_true_iff in Ph as [P1 P2].
    apply send_params_in in HS as [(x & Hx & Hp & Dp)|[Hp Dp]].
    - assert (Ix : inside x root).
      { eapply inside_trans; [|exact Hi]. apply inside_composite. right. exists x. split; [exact Hx|constructor]. }
      rewrite (D1 x _ Ix Hp), (D2 x Ix) in P1. destruct x as [|j aj pj lj cj qj]; [discriminate|].
      eapply Local; [exact Ix|]. apply receive_params_in. now right.
    - rewrite (D1 _ _ Hi Hp) in P2. apply negb_true_iff in P2.
      destruct (inside_parent _ _ Hi) as [E|(j & aj & pj & lj & cj & qj & Hj & Hx)].
      + assert (toplevel o (comp_id (Composite i a p children conns pconns)) = true) by now apply D3. congruence.
      + eapply Local; [exact Hj|]. apply receive_params_in. left.
        exists (Composite i a p children conns pconns). auto.
  Qed.

  Lemma check_pfills root : check_params o root = true ->
    exists m, pfill_recursive o root [] = (true, m) /\ Permutation m (rev_pairs (all_plinks root)).
  Proof.
    intros HC. pose proof (pfill_recursive_ok o root []) as [F1 F2]. cbv zeta in F1, F2.
    destruct (pfill_recursive o root []) as [ok m]. cbn [fst snd] in *.
    assert (ok = true).
    { apply F1. intros i a p children conns pconns Hi. pose proof (proj1 (check_params_inside o root) HC _ _ _ _ _ _ Hi) as CL.
      now apply check_params_local_ok in CL as (HF & _). }
    subst ok. exists m. split; [reflexivity|]. specialize (F2 eq_refl). now rewrite app_nil_r in F2.
  Qed.

  Lemma ptrace_terminates m limit : forall fuel count e, limit + 2 <= fuel + count -> (count = 1 \/ count < limit) ->
    ptrace o fuel m limit count e <> UB.
  Proof.
    induction fuel as [|fuel IH]; intros count e F C; [exfalso; lia|]. cbn [ptrace].
    destruct e as [e|]; [|discriminate]. destruct (placeholder_param o (snd e)); cbn [negb]; [|discriminate].
    destruct (Nat.leb_spec limit (S count)); [discriminate|]. apply IH; lia.
  Qed.
  Lemma presolve_terminates m : presolve o m <> UB.
  Proof.
    pose proof (presolve_fold o m m []) as R.
    change (fold_left (fun r raw => flat <- r ;; presolve_one o m flat raw) m (Ok [])) with (presolve o m) in R.
    destruct (presolve o m); try discriminate. destruct R as (raw & _ & _ & R). exfalso. revert R. unfold psender.
    destruct (placeholder_param o (snd raw)); cbn [negb]; [|discriminate].
    apply ptrace_terminates; [lia|now left].
  Qed.
End ParamTree.
