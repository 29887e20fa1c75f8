From Coq Require Import List Relations Arith Lia Bool Permutation.
Import ListNotations.
From Verif Require Import Base FlowModel InfraModel InfraSpec.
Local Open Scope res_scope.

Lemma mem_iff x l : mem x l = true <-> In x l.
Proof.
  unfold mem. rewrite existsb_exists. split.
  - intros (y & H & E). apply Nat.eqb_eq in E. now subst.
  - intros H. exists x. now rewrite Nat.eqb_refl.
Qed.
Lemma mem_no x l : mem x l = false <-> ~ In x l.
Proof. rewrite <- mem_iff. destruct (mem x l); split; congruence. Qed.

(** *** the graph *)
Lemma repeated_snoc m x : repeated (m ++ [x]) <-> repeated m \/ exists e, In e m /\ (x = e \/ x = (snd e, fst e)).
Proof.
  split.
  - intros (a & e & b & e' & c & E & H). destruct c as [|y c _] using rev_ind.
    + right. replace (a ++ e :: b ++ [e']) with ((a ++ e :: b) ++ [e']) in E by now rewrite <- app_assoc.
      apply app_inj_tail in E as [-> ->]. exists e. split; [|exact H]. apply in_app_iff. right. now left.
    + left. replace (a ++ e :: b ++ e' :: c ++ [y]) with ((a ++ e :: b ++ e' :: c) ++ [y]) in E.
      * apply app_inj_tail in E as [-> ->]. now exists a, e, b, e', c.
      * rewrite <- app_assoc. cbn. rewrite <- app_assoc. reflexivity.
  - intros [(a & e & b & e' & c & -> & H)|(e & He & H)].
    + exists a, e, b, e', (c ++ [x]). split; [|exact H]. rewrite <- app_assoc. cbn. rewrite <- app_assoc. reflexivity.
    + apply in_split in He as (a & b & ->). exists a, e, b, x, []. split; [|exact H]. now rewrite <- app_assoc.
Qed.
Lemma port_snoc m e q : port (m ++ [e]) q <-> port m q \/ q = fst e \/ q = snd e.
Proof.
  unfold port. split.
  - intros (x & Hx & H). apply in_app_iff in Hx as [Hx|[->|[]]]; [left; now exists x|now right].
  - intros [(x & Hx & H)|H]; [exists x|exists e]; (split; [|exact H]); apply in_app_iff; [now left|right; now left].
Qed.
Lemma add_vertex_in q l x : In x (add_vertex q l) <-> In x l \/ x = q.
Proof.
  unfold add_vertex. destruct (mem q l) eqn:E; [|rewrite in_app_iff; cbn; intuition congruence].
  apply mem_iff in E. split; [now left|]. now intros [H| ->].
Qed.
Lemma NoDup_snoc {A} (l : list A) x : NoDup l -> ~ In x l -> NoDup (l ++ [x]).
Proof.
  intros N H. apply NoDup_rev in N. rewrite <- (rev_involutive (l ++ [x])). apply NoDup_rev. rewrite rev_app_distr. cbn.
  constructor; [now rewrite <- in_rev|exact N].
Qed.
Lemma add_vertex_nodup q l : NoDup l -> NoDup (add_vertex q l).
Proof. intros N. unfold add_vertex. destruct (mem q l) eqn:E; [exact N|]. apply mem_no in E. now apply NoDup_snoc. Qed.

Definition swap (e : nat * nat) : nat * nat := (snd e, fst e).
Lemma has_edge_iff u v l : has_edge u v l = true <-> In (u, v) l \/ In (v, u) l.
Proof.
  unfold has_edge. rewrite existsb_exists. split.
  - intros ([a b] & H & E). cbn [fst snd] in E. apply orb_true_iff in E as [E|E]; apply andb_true_iff in E as [E1 E2];
      apply Nat.eqb_eq in E1, E2; subst; auto.
  - intros [H|H]; eexists; (split; [exact H|]); cbn [fst snd]; rewrite !Nat.eqb_refl; auto using orb_true_r.
Qed.
Lemma connection_graph_spec m :
  match connection_graph m with
  | Ok g => ~ repeated m /\ g_edges g = map swap m /\ NoDup (g_vertices g) /\ (forall q, In q (g_vertices g) <-> port m q)
  | Throw e => e = LogicError /\ repeated m
  | UB => False
  end.
Proof.
  unfold connection_graph. induction m as [|e m IH] using rev_ind.
  - cbn. split; [|split; [reflexivity|split; [constructor|]]].
    + intros (a & e & b & e' & c & E & _). destruct a; discriminate.
    + intros q. split; [intros []|]. intros (e & [] & _).
  - rewrite fold_left_app. cbn [fold_left]. destruct (fold_left _ m _) as [g|x|]; cbn [bind]; [|destruct IH as [-> H]; split; [reflexivity|]; apply repeated_snoc; now left|exact IH].
    destruct IH as (NR & Ed & ND & V). destruct e as [r s]. unfold add_connection.
    destruct (has_edge s r (g_edges g)) eqn:H.
    + split; [reflexivity|]. apply repeated_snoc. right. apply has_edge_iff in H. rewrite Ed in H.
      destruct H as [H|H]; apply in_map_iff in H as ([a b] & E & H); injection E as E1 E2; subst; eexists; (split; [exact H|]); cbn; auto.
    + cbn [g_vertices g_edges]. split; [|split; [|split]].
      * rewrite repeated_snoc. intros [R|([a b] & He & R)]; [now apply NR|].
        enough (has_edge s r (g_edges g) = true) by congruence. apply has_edge_iff. rewrite Ed.
        cbn [fst snd] in R. destruct R as [R|R]; injection R as -> ->; [left|right]; apply in_map_iff; eexists; (split; [|exact He]); reflexivity.
      * rewrite Ed, map_app. reflexivity.
      * now apply add_vertex_nodup, add_vertex_nodup.
      * intros q. rewrite !add_vertex_in, V, port_snoc. cbn [fst snd]. tauto.
Qed.

(** *** the components *)
Lemma labels_snoc l e : labels (l ++ [e]) = merge (labels l) e.
Proof. unfold labels. now rewrite fold_left_app. Qed.
Lemma joined_mono m m' a b : (forall e, In e m -> In e m' \/ In (swap e) m') -> joined m a b -> joined m' a b.
Proof.
  intros H. unfold joined. induction 1 as [x y K|x|x y _ IH|x y z _ IH1 _ IH2].
  - destruct (H _ K) as [K'|K']; [now apply rst_step|]. apply rst_sym. now apply rst_step.
  - apply rst_refl.
  - now apply rst_sym.
  - now apply rst_trans with y.
Qed.
Lemma labels_joined l a b : labels l a = labels l b <-> joined l a b.
Proof.
  revert a b. induction l as [|e l IH] using rev_ind; intros a b.
  - cbn. split; [intros ->; apply rst_refl|]. unfold joined. induction 1; cbn in *; try congruence; tauto.
  - rewrite labels_snoc. unfold merge.
    assert (J : forall x y, labels l x = labels l y -> joined (l ++ [e]) x y).
    { intros x y H. apply IH in H. revert H. apply joined_mono. intros e' He. left. apply in_app_iff. now left. }
    assert (Je : joined (l ++ [e]) (fst e) (snd e)).
    { apply rst_step. destruct e. apply in_app_iff. right. now left. }
    assert (Js : forall x y, joined (l ++ [e]) x y -> joined (l ++ [e]) y x) by (intros; now apply rst_sym).
    assert (Jt : forall x y z, joined (l ++ [e]) x y -> joined (l ++ [e]) y z -> joined (l ++ [e]) x z)
      by (intros x y z ? ?; now apply rst_trans with y).
    split.
    + destruct (Nat.eqb_spec (labels l a) (labels l (fst e))) as [A|A]; destruct (Nat.eqb_spec (labels l b) (labels l (fst e))) as [B|B]; intros E.
      * apply J. congruence.
      * apply Jt with (fst e); [now apply J|]. apply Jt with (snd e); [exact Je|now apply J].
      * apply Js. apply Jt with (fst e); [now apply J|]. apply Jt with (snd e); [exact Je|now apply J].
      * now apply J.
    + clear J Je Js Jt. unfold joined at 1. induction 1 as [x y K|x|x y _ IH1|x y z _ IH1 _ IH2]; try congruence.
      apply in_app_iff in K as [K|[->|[]]].
      * assert (labels l x = labels l y) as -> by (apply IH; now apply rst_step). reflexivity.
      * cbn [fst snd]. rewrite Nat.eqb_refl. now destruct (Nat.eqb _ _).
Qed.
Lemma joined_swap m a b : joined (map swap m) a b <-> joined m a b.
Proof.
  split; apply joined_mono.
  - intros e He. apply in_map_iff in He as ([x y] & <- & He). right. exact He.
  - intros [x y] He. right. apply in_map_iff. exists (x, y). auto.
Qed.
Lemma joined_port m a b : joined m a b -> (port m a <-> port m b).
Proof.
  unfold joined. induction 1 as [x y K|x|x y _ IH|x y z _ IH1 _ IH2]; try tauto.
  split; intros _; exists (x, y); cbn; auto.
Qed.

Lemma firsts_in l : forall seen x, In x (firsts seen l) <-> In x l /\ ~ In x seen.
Proof.
  induction l as [|y l IH]; intros seen x; cbn; [tauto|]. destruct (mem y seen) eqn:E.
  - apply mem_iff in E. rewrite IH. intuition congruence.
  - apply mem_no in E. cbn. rewrite IH. cbn. destruct (Nat.eq_dec y x) as [->|]; intuition.
Qed.
Lemma firsts_nodup l : forall seen, NoDup (firsts seen l).
Proof.
  induction l as [|y l IH]; intros seen; cbn; [constructor|]. destruct (mem y seen) eqn:E; [apply IH|].
  constructor; [|apply IH]. rewrite firsts_in. cbn. tauto.
Qed.
Lemma groups_in g grp : In grp (groups g) <->
  exists q, In q (g_vertices g) /\ grp = filter (fun p => labels (g_edges g) p =? labels (g_edges g) q) (g_vertices g).
Proof.
  unfold groups. rewrite in_map_iff. split.
  - intros (l & <- & H). apply firsts_in in H as [H _]. apply in_map_iff in H as (q & <- & H). now exists q.
  - intros (q & H & ->). exists (labels (g_edges g) q). split; [reflexivity|]. apply firsts_in. split; [now apply in_map|auto].
Qed.
Lemma classes_nodup {A} (lab : A -> nat) (vs : list A) ls : NoDup vs -> NoDup ls ->
  NoDup (concat (map (fun l => filter (fun q => lab q =? l) vs) ls)).
Proof.
  intros NV. induction 1 as [|l ls H N IH]; cbn; [constructor|].
  assert (D : forall x, In x (filter (fun q => lab q =? l) vs) -> ~ In x (concat (map (fun l => filter (fun q => lab q =? l) vs) ls))).
  { intros x Hx K. apply filter_In in Hx as [_ Hx]. apply Nat.eqb_eq in Hx. apply in_concat in K as (y & Hy & K).
    apply in_map_iff in Hy as (l' & <- & Hy). apply filter_In in K as [_ K]. apply Nat.eqb_eq in K. congruence. }
  assert (N1 : NoDup (filter (fun q => lab q =? l) vs)) by now apply NoDup_filter.
  induction N1 as [|x t Hx N1 IHt]; cbn; [exact IH|]. constructor.
  - rewrite in_app_iff. intros [K|K]; [now apply Hx|]. apply (D x); [now left|exact K].
  - apply IHt. intros y Hy. apply D. now right.
Qed.

Section Infra.
  Variable o : objects.
  Notation is_receiver := (is_receiver o).
  Notation connectedPorts := (connectedPorts o).

  Lemma is_receiver_iff q : is_receiver q = true <-> receives o q.
  Proof.
    unfold InfraModel.is_receiver, toplevel_port, receives. destruct (toplevel o (q_owner o q)), (q_dir o q); cbn; intuition congruence.
  Qed.
  Lemma is_sender_iff q : negb (is_receiver q) = true <-> sends o q.
  Proof.
    unfold InfraModel.is_receiver, toplevel_port, sends. destruct (toplevel o (q_owner o q)), (q_dir o q); cbn; intuition congruence.
  Qed.
  Lemma sends_receives q : sends o q -> receives o q -> False.
  Proof. rewrite <- is_sender_iff, <- is_receiver_iff. destruct (is_receiver q); discriminate. Qed.
  Lemma sends_or_receives q : sends o q \/ receives o q.
  Proof. rewrite <- is_sender_iff, <- is_receiver_iff. destruct (is_receiver q); auto. Qed.
  Lemma compatible_iff s r : compatible o s r = true <-> agree o s r.
  Proof.
    unfold compatible, agree. destruct (Nat.eqb_spec (q_protocol o s) (q_protocol o r)); cbn; [|split; [discriminate|tauto]].
    destruct (Nat.eqb_spec (q_type o s) (q_type o r)); [|split; [discriminate|tauto]].
    destruct (config_compare o _ _) as [[|]|]; intuition congruence.
  Qed.

  (** the connected ports of a graph *)
  Lemma connected_spec m g : connection_graph m = Ok g ->
    (forall c, In c (connectedPorts g) -> exists q, port m q
       /\ (forall p, In p (sendPorts c) <-> sends o p /\ joined m q p)
       /\ (forall p, In p (receivePorts c) <-> receives o p /\ joined m q p)
       /\ NoDup (sendPorts c) /\ NoDup (receivePorts c))
    /\ (forall q, port m q -> exists c, In c (connectedPorts g)
       /\ (forall p, In p (sendPorts c) <-> sends o p /\ joined m q p)
       /\ (forall p, In p (receivePorts c) <-> receives o p /\ joined m q p))
    /\ NoDup (flat_map (@sendPorts) (connectedPorts g)) /\ NoDup (flat_map (@receivePorts) (connectedPorts g)).
  Proof.
    intros E. pose proof (connection_graph_spec m) as S1. rewrite E in S1. destruct S1 as (NR & Ed & ND & V).
    assert (L : forall q p, port m q -> (In p (filter (fun x => labels (g_edges g) x =? labels (g_edges g) q) (g_vertices g)) <-> joined m q p)).
    { intros q p Pq. rewrite filter_In, Nat.eqb_eq, labels_joined, Ed, joined_swap, V. split.
      - intros [_ J]. now apply rst_sym.
      - intros J. split; [now apply (joined_port m q p)|now apply rst_sym]. }
    split; [|split; [|split]].
    - intros c Hc. apply in_map_iff in Hc as (grp & <- & Hg). apply groups_in in Hg as (q & Hq & ->). apply V in Hq.
      exists q. split; [exact Hq|]. cbn [sendPorts receivePorts]. split; [|split; [|split]].
      + intros p. rewrite filter_In, (L q p Hq), is_sender_iff. tauto.
      + intros p. rewrite filter_In, (L q p Hq), is_receiver_iff. tauto.
      + now apply NoDup_filter, NoDup_filter.
      + now apply NoDup_filter, NoDup_filter.
    - intros q Hq. exists (ConnectedPorts (filter (fun p => negb (is_receiver p)) (filter (fun x => labels (g_edges g) x =? labels (g_edges g) q) (g_vertices g)))
                             (filter is_receiver (filter (fun x => labels (g_edges g) x =? labels (g_edges g) q) (g_vertices g)))).
      cbn [sendPorts receivePorts]. split; [|split].
      + unfold InfraModel.connectedPorts. apply in_map_iff. eexists. split; [reflexivity|]. apply groups_in. exists q. split; [now apply V|reflexivity].
      + intros p. rewrite filter_In, (L q p Hq), is_sender_iff. tauto.
      + intros p. rewrite filter_In, (L q p Hq), is_receiver_iff. tauto.
    - unfold InfraModel.connectedPorts. rewrite flat_map_concat_map, map_map. cbn [sendPorts].
      rewrite <- (map_map (fun x => x) (filter (fun q => negb (is_receiver q)))), map_id, concat_filter_map.
      apply NoDup_filter. unfold groups. apply classes_nodup; [exact ND|apply firsts_nodup].
    - unfold InfraModel.connectedPorts. rewrite flat_map_concat_map, map_map. cbn [receivePorts].
      rewrite <- (map_map (fun x => x) (filter is_receiver)), map_id, concat_filter_map.
      apply NoDup_filter. unfold groups. apply classes_nodup; [exact ND|apply firsts_nodup].
  Qed.

  (** *** one connection *)
  Lemma senders_result l : forall st i, n_result (fst (connect_senders o st i l)) = true -> n_result st = true.
  Proof.
    induction l as [|q l IH]; intros st i; cbn [connect_senders]; [auto|]. destruct (toplevel_port o q).
    - destruct (connectOutput i (i_kind i) q); cbn [fst]; auto. intros H. now apply IH in H.
    - destruct (connectOutput i (q_protocol o q) q); intros H; now apply IH in H.
  Qed.
  Lemma senders_second l i p st : i_output i = Some p -> l <> [] ->
    n_result (fst (connect_senders o st i l)) = false \/ is_ok (snd (connect_senders o st i l)) = false.
  Proof.
    intros Ho Hl. destruct l as [|q l]; [congruence|]. cbn [connect_senders]. unfold connectOutput. rewrite Ho, Nat.eqb_refl. cbn [negb].
    destruct (toplevel_port o q); [now right|].
    assert (H : n_result (fst (connect_senders o (Infra false (n_protocols st) (n_receive st) (n_send st)) i l)) = false).
    { destruct (n_result (fst _)) eqn:H; [|reflexivity]. now apply senders_result in H. }
    left. destruct (negb (q_protocol o q =? i_kind i)); exact H.
  Qed.
  Lemma receivers_result l : forall st i, n_result (fst (connect_receivers o st i l)) = true -> n_result st = true.
  Proof.
    induction l as [|q l IH]; intros st i; cbn [connect_receivers]; [auto|]. destruct (toplevel_port o q).
    - destruct (connectInput i (i_kind i) q); cbn [fst]; auto. intros H. now apply IH in H.
    - destruct (connectInput i (q_protocol o q) q); intros H; now apply IH in H.
  Qed.
  Definition with_inputs (i : protocol) (l : list nat) : protocol :=
    Protocol (i_kind i) (i_type i) (i_config i) (i_multi i) (i_output i) l.
  Lemma receivers_ok l : forall st i, Forall (fun q => q_protocol o q = i_kind i) l -> NoDup (i_inputs i ++ l) ->
    (i_multi i = true \/ length (i_inputs i ++ l) <= 1) ->
    connect_receivers o st i l
    = (Infra (n_result st) (n_protocols st) (n_receive st) (n_send st ++ filter (toplevel_port o) l), Ok (with_inputs i (i_inputs i ++ l))).
  Proof.
    induction l as [|q l IH]; intros st i F N M; cbn [connect_receivers filter].
    - rewrite !app_nil_r. destruct st, i. reflexivity.
    - inversion F as [|? ? Fq F']; subst. 
      assert (E : connectInput i (i_kind i) q = Ok (with_inputs i (i_inputs i ++ [q]))).
      { unfold connectInput. rewrite Nat.eqb_refl. cbn [negb].
        assert (negb (i_multi i) && negb (length (i_inputs i) =? 0) = false) as ->.
        { destruct M as [->|M]; [reflexivity|]. rewrite app_length in M. cbn in M. replace (length (i_inputs i)) with 0 by lia. now rewrite andb_false_r. }
        assert (mem q (i_inputs i) = false) as ->; [|reflexivity].
        apply mem_no. intros H. apply NoDup_remove_2 in N. apply N. apply in_app_iff. now left. }
      assert (R : i_inputs (with_inputs i (i_inputs i ++ [q])) ++ l = i_inputs i ++ q :: l) by (cbn; now rewrite <- app_assoc).
      rewrite Fq, E. destruct (toplevel_port o q).
      + rewrite IH; rewrite ?R; auto. cbn. rewrite <- !app_assoc. reflexivity.
      + rewrite IH; rewrite ?R; auto.
  Qed.
  Lemma receivers_bad : forall l st i, i_multi i = false -> NoDup (i_inputs i ++ l) -> l <> [] -> 1 < length (i_inputs i ++ l) ->
    n_result (fst (connect_receivers o st i l)) = false \/ is_ok (snd (connect_receivers o st i l)) = false.
  Proof.
    assert (B : forall q l st i, i_multi i = false -> i_inputs i <> [] ->
      n_result (fst (connect_receivers o st i (q :: l))) = false \/ is_ok (snd (connect_receivers o st i (q :: l))) = false).
    { intros q l st i M N. cbn [connect_receivers]. unfold connectInput. rewrite M, Nat.eqb_refl. cbn [negb andb].
      destruct (Nat.eqb_spec (length (i_inputs i)) 0) as [Z|Z]; [destruct (i_inputs i); [congruence|discriminate]|]. cbn [negb].
      destruct (toplevel_port o q); [now right|].
      assert (H : n_result (fst (connect_receivers o (Infra false (n_protocols st) (n_receive st) (n_send st)) i l)) = false).
      { destruct (n_result (fst _)) eqn:H; [|reflexivity]. now apply receivers_result in H. }
      left. destruct (negb (q_protocol o q =? i_kind i)); exact H. }
    intros l st i M N Hl L. destruct l as [|q l]; [congruence|].
    destruct (i_inputs i) as [|x inputs] eqn:Ei; [|apply B; [exact M|rewrite Ei; discriminate]].
    destruct l as [|q' l]; [cbn in L; lia|].
    assert (G : forall st' i', connectInput i (q_protocol o q) q = Ok i' \/ connectInput i (i_kind i) q = Ok i' ->
      n_result (fst (connect_receivers o st' i' (q' :: l))) = false \/ is_ok (snd (connect_receivers o st' i' (q' :: l))) = false).
    { intros st' i' H. apply B.
      - destruct H as [H|H]; unfold connectInput in H; rewrite Ei in H; cbn in H;
          destruct (negb (_ =? i_kind i)); try discriminate; rewrite M in H; cbn in H; injection H as <-; reflexivity || exact M.
      - destruct H as [H|H]; unfold connectInput in H; rewrite Ei in H; cbn in H;
          destruct (negb (_ =? i_kind i)); try discriminate; rewrite M in H; cbn in H; injection H as <-; discriminate. }
    cbn [connect_receivers] in G |- *. destruct (toplevel_port o q).
    - destruct (connectInput i (i_kind i) q) as [i'| |] eqn:H; cbn [snd]; auto.
    - destruct (connectInput i (q_protocol o q) q) as [i'| |] eqn:H; auto; left;
        match goal with |- ?x = false => destruct x eqn:R; [|reflexivity] end; exfalso;
        change (n_result (fst (connect_receivers o (Infra false (n_protocols st) (n_receive st) (n_send st)) i (q' :: l))) = true) in R;
        apply receivers_result in R; discriminate.
  Qed.

  (** *** connections from senders to receivers *)
  Lemma flat_joined m s r : flat o m -> (forall r s s', In (r, s) m -> In (r, s') m -> s' = s) ->
    sends o s -> receives o r -> (joined m s r <-> In (r, s) m).
  Proof.
    intros F Un Ss Rr. split; [|intros H; apply rst_sym; now apply rst_step]. intros J.
    assert (D : forall a b, joined m a b -> forall t, ((a = t /\ sends o a) \/ In (a, t) m) <-> ((b = t /\ sends o b) \/ In (b, t) m)).
    { unfold joined. induction 1 as [x y K|x|x y _ IH|x y z _ IH1 _ IH2]; intros t; [|tauto|now rewrite IH|now rewrite IH1].
      destruct (F _ _ K) as [Rx Sy]. split.
      - intros [[_ Sx]|K']; [destruct (sends_receives x Sx Rx)|]. left. split; [symmetry; now apply (Un x y t)|exact Sy].
      - intros [[<- _]|K']; [now right|]. destruct (F _ _ K') as [Ry _]. destruct (sends_receives y Sy Ry). }
    destruct (proj1 (D s r J s)) as [[_ Sr]|H]; [now left| |exact H]. destruct (sends_receives r Sr Rr).
  Qed.
  Lemma flat_repeated m : flat o m -> (repeated m <-> ~ NoDup m).
  Proof.
    intros F. assert (D : forall x y : nat * nat, {x = y} + {x <> y}) by (decide equality; apply Nat.eq_dec). split.
    - intros (a & e & b & e' & c & -> & [->| ->]) N.
      + apply NoDup_remove_2 in N. apply N. rewrite !in_app_iff. right. right. now left.
      + destruct e as [r s]. destruct (F r s) as [Rr Ss]; [apply in_app_iff; right; now left|].
        destruct (F s r) as [Rs _]; [rewrite in_app_iff; right; right; apply in_app_iff; right; now left|]. destruct (sends_receives s Ss Rs).
    - intros H. induction m as [|e m IH]; [destruct H; constructor|]. destruct (in_dec D e m) as [K|K].
      + apply in_split in K as (b & c & ->). exists [], e, b, e, c. auto.
      + destruct IH as (a & e1 & b & e2 & c & -> & R).
        * intros r s Hm. apply F. now right.
        * intros N. apply H. now constructor.
        * exists (e :: a), e1, b, e2, c. auto.
  Qed.

  Variable registered : nat -> option bool.
  Variable creatable : nat -> nat -> nat -> bool.
  Notation connect := (connect o registered creatable).

  (** what [connect] requires from the ports of a connection, and what it adds *)
  Definition good (c : connected_ports) : Prop :=
    exists s multi, sendPorts c = [s] /\ Forall (agree o s) (receivePorts c)
    /\ registered (q_protocol o s) = Some multi /\ creatable (q_protocol o s) (q_type o s) (q_config o s) = true
    /\ (multi = true \/ length (receivePorts c) <= 1).
  Definition made (c : connected_ports) (i : protocol) : Prop :=
    exists s multi, sendPorts c = [s] /\ registered (q_protocol o s) = Some multi
    /\ i = Protocol (q_protocol o s) (q_type o s) (q_config o s) multi (Some s) (receivePorts c).

  Lemma fail_result st : n_result (fail st) = false.
  Proof. reflexivity. Qed.
  Lemma all_compatible s l : forallb (compatible o s) l = true <-> Forall (agree o s) l.
  Proof. rewrite forallb_forall, Forall_forall. split; intros H x Hx; apply compatible_iff; auto. Qed.

  Lemma connect_good st c : good c -> NoDup (receivePorts c) ->
    exists i, made c i /\ connect st c
    = Infra (n_result st) (n_protocols st ++ [i]) (n_receive st ++ filter (toplevel_port o) (sendPorts c))
        (n_send st ++ filter (toplevel_port o) (receivePorts c)).
  Proof.
    intros (s & multi & Es & F & R & Cr & M) N.
    exists (Protocol (q_protocol o s) (q_type o s) (q_config o s) multi (Some s) (receivePorts c)).
    split; [exists s, multi; auto|]. unfold InfraModel.connect, numSenders, numReceivers. rewrite Es. cbn [length Nat.ltb Nat.leb forallb andb].
    assert (forallb (compatible o s) (receivePorts c) = true) as -> by now apply all_compatible.
    unfold createProtocol. rewrite R, Cr. cbn [connect_senders]. unfold connectOutput. cbn [i_kind i_output i_type i_config i_multi i_inputs].
    rewrite Nat.eqb_refl. cbn [negb].
    assert (F' : Forall (fun q => q_protocol o q = q_protocol o s) (receivePorts c)).
    { rewrite Forall_forall in *. intros x Hx. symmetry. apply (F x Hx). }
    destruct (toplevel_port o s) eqn:T; cbn [connect_senders]; rewrite receivers_ok by (cbn; auto); cbn; rewrite T; [reflexivity|].
    now rewrite app_nil_r.
  Qed.
  Lemma connect_bad st c : NoDup (receivePorts c) -> n_result (connect st c) = true -> n_result st = true /\ good c.
  Proof.
    intros N. unfold InfraModel.connect, numSenders, numReceivers. destruct (sendPorts c) as [|s others] eqn:Es; [cbn; discriminate|].
    cbn [length Nat.ltb Nat.leb]. destruct (forallb (compatible o s) others && forallb (compatible o s) (receivePorts c)) eqn:EC.
    - apply andb_true_iff in EC as [_ EC]. apply all_compatible in EC. unfold createProtocol.
      destruct (registered (q_protocol o s)) as [multi|] eqn:R; [|cbn; discriminate].
      destruct (creatable (q_protocol o s) (q_type o s) (q_config o s)) eqn:Cr; [|cbn; discriminate].
      set (i0 := Protocol (q_protocol o s) (q_type o s) (q_config o s) multi None []).
      set (i1 := Protocol (q_protocol o s) (q_type o s) (q_config o s) multi (Some s) []).
      assert (F' : Forall (fun q => q_protocol o q = q_protocol o s) (receivePorts c)).
      { rewrite Forall_forall in *. intros x Hx. symmetry. apply (EC x Hx). }
      assert (H1 : exists st', n_result st' = n_result st /\ connect_senders o st i0 (s :: others) = connect_senders o st' i1 others).
      { cbn [connect_senders]. unfold connectOutput, i0. cbn [i_kind i_output i_type i_config i_multi i_inputs]. rewrite Nat.eqb_refl. cbn [negb].
        destruct (toplevel_port o s); eexists; (split; [|reflexivity]); reflexivity. }
      destruct H1 as (st' & E1 & ->). destruct others as [|s2 others].
      + cbn [connect_senders]. intros H. enough (good c).
        { split; [|assumption]. destruct (connect_receivers o st' i1 (receivePorts c)) as [st5 [i5| |]] eqn:E5; cbn in H; try discriminate.
          rewrite <- E1. apply (receivers_result (receivePorts c) st' i1). now rewrite E5. }
        exists s, multi. repeat (split; [assumption|]). destruct multi; [now left|]. right.
        destruct (le_lt_dec (length (receivePorts c)) 1) as [L|L]; [exact L|]. exfalso.
        destruct (receivers_bad (receivePorts c) st' i1 eq_refl N) as [B|B]; [intros E0; rewrite E0 in L; cbn in L; lia|exact L| |];
          destruct (connect_receivers o st' i1 (receivePorts c)) as [st5 [i5| |]]; cbn in *; congruence.
      + intros H. exfalso. destruct (senders_second (s2 :: others) i1 s st' eq_refl) as [B|B]; [discriminate| |];
          destruct (connect_senders o st' i1 (s2 :: others)) as [st4 [i4| |]]; cbn [fst snd is_ok] in B; try discriminate; try (cbn in H; discriminate).
        destruct (connect_receivers o st4 i4 (receivePorts c)) as [st5 [i5| |]] eqn:E5; cbn in H; try discriminate.
        assert (n_result st4 = true) by (apply (receivers_result (receivePorts c) st4 i4); now rewrite E5). congruence.
    - intros H. exfalso. destruct (createProtocol _ _ _ _ _) as [i| |]; try (cbn in H; discriminate).
      destruct (connect_senders o (fail st) i (s :: others)) as [st4 [i4| |]] eqn:E4; try (cbn in H; discriminate).
      destruct (connect_receivers o st4 i4 (receivePorts c)) as [st5 [i5| |]] eqn:E5; cbn in H; try discriminate.
      assert (n_result st4 = true) by (apply (receivers_result (receivePorts c) st4 i4); now rewrite E5).
      assert (n_result (fail st) = true) by (apply (senders_result (s :: others) (fail st) i); now rewrite E4). discriminate.
  Qed.

  Lemma connect_all cs : Forall (fun c => NoDup (receivePorts c)) cs -> forall st,
    (n_result (fold_left connect cs st) = true -> n_result st = true /\ Forall good cs)
    /\ (Forall good cs -> exists is, Forall2 made cs is /\ fold_left connect cs st
         = Infra (n_result st) (n_protocols st ++ is) (n_receive st ++ filter (toplevel_port o) (flat_map sendPorts cs))
             (n_send st ++ filter (toplevel_port o) (flat_map receivePorts cs))).
  Proof.
    induction 1 as [|c cs N _ IH]; intros st; cbn [fold_left flat_map].
    - split; [auto|]. intros _. exists []. split; [constructor|]. cbn. rewrite !app_nil_r. now destruct st.
    - destruct (IH (connect st c)) as [I1 I2]. split.
      + intros H. apply I1 in H as [H G]. apply connect_bad in H as [H G']; auto.
      + intros G. inversion G as [|? ? Gc Gs]; subst. destruct (connect_good st c Gc N) as (i & Mi & Ei). destruct (I2 Gs) as (is & Mis & Eis).
        exists (i :: is). split; [now constructor|]. rewrite Eis, Ei. cbn. rewrite !filter_app, <- !app_assoc. reflexivity.
  Qed.

  (** *** the composite case *)
  Lemma good_set_up m g : connection_graph m = Ok g -> (Forall good (connectedPorts g) <-> set_up o registered creatable m).
  Proof.
    intros E. destruct (connected_spec m g E) as (C1 & C2 & _). rewrite Forall_forall. split.
    - intros G. split.
      + intros q Pq. destruct (C2 q Pq) as (c & Hc & S1 & R1). destruct (G c Hc) as (s & multi & Es & _).
        exists s. rewrite Es in S1. destruct (proj1 (S1 s) (or_introl eq_refl)) as [Ss J]. split; [split; [exact Ss|now apply rst_sym]|].
        intros s' Ss' J'. destruct (proj2 (S1 s')) as [->|[]]; [|reflexivity]. split; [exact Ss'|now apply rst_sym].
      + intros s r Ps Ss Rr J. destruct (C2 s Ps) as (c & Hc & S1 & R1). destruct (G c Hc) as (s' & multi & Es & F & _).
        rewrite Es in S1. destruct (proj2 (S1 s)) as [->|[]]; [split; [exact Ss|apply rst_refl]|].
        rewrite Forall_forall in F. apply F. now apply R1.
      + intros s Ps Ss. destruct (C2 s Ps) as (c & Hc & S1 & R1). destruct (G c Hc) as (s' & multi & Es & F & Rg & Cr & _).
        rewrite Es in S1. destruct (proj2 (S1 s)) as [->|[]]; [split; [exact Ss|apply rst_refl]|]. split; [congruence|exact Cr].
      + intros s r r' Ps Ss Q Rr Rr' J J'. destruct (C2 s Ps) as (c & Hc & S1 & R1). destruct (G c Hc) as (s' & multi & Es & F & Rg & Cr & M).
        rewrite Es in S1. destruct (proj2 (S1 s)) as [->|[]]; [split; [exact Ss|apply rst_refl]|].
        destruct M as [->|M]; [congruence|]. assert (K : In r (receivePorts c)) by now apply R1. assert (K' : In r' (receivePorts c)) by now apply R1.
        destruct (receivePorts c) as [|x [|y l]]; [destruct K|destruct K as [<-|[]], K' as [<-|[]]; reflexivity|cbn in M; lia].
    - intros U c Hc. destruct (C1 c Hc) as (q & Pq & S1 & R1 & N1 & N2). destruct (one_sender _ _ _ _ U q Pq) as (s & [Ss J] & Un).
      assert (Ps : port m s) by now apply (joined_port m s q).
      assert (Es : sendPorts c = [s]).
      { assert (A : In s (sendPorts c)) by (apply S1; split; [exact Ss|now apply rst_sym]).
        assert (B : forall x, In x (sendPorts c) -> x = s) by (intros x Hx; apply S1 in Hx as [Sx Jx]; apply Un; [exact Sx|now apply rst_sym]).
        destruct (sendPorts c) as [|x [|y l]]; [destruct A|f_equal; apply B; now left|].
        exfalso. inversion N1 as [|? ? Nx _]; subst. apply Nx. rewrite (B x), (B y); cbn; auto. }
      destruct (known _ _ _ _ U s Ps Ss) as [Kn Cr]. destruct (registered (q_protocol o s)) as [multi|] eqn:Rg; [|congruence].
      exists s, multi. split; [exact Es|]. split; [|split; [exact Rg|split; [exact Cr|]]].
      + apply Forall_forall. intros r Hr. apply R1 in Hr as [Rr Jr]. apply (fitting _ _ _ _ U); auto. now apply rst_trans with q.
      + destruct multi; [now left|]. right. destruct (receivePorts c) as [|x [|y l]]; cbn; [lia|lia|]. exfalso.
        assert (x = y).
        { destruct (proj1 (R1 x)) as [Rx Jx]; [now left|]. destruct (proj1 (R1 y)) as [Ry Jy]; [right; now left|].
          apply (one_receiver _ _ _ _ U s); auto; now apply rst_trans with q. }
        subst. inversion N2 as [|? ? Nx _]; subst. apply Nx. now left.
  Qed.

  Lemma composite_outcome m :
    match infra_composite o registered creatable m with
    | Ok st => ~ repeated m /\ (n_result st = true <-> set_up o registered creatable m)
    | Throw e => e = LogicError /\ repeated m
    | UB => False
    end.
  Proof.
    unfold infra_composite. pose proof (connection_graph_spec m) as S1. destruct (connection_graph m) as [g|e|] eqn:E; cbn [bind]; auto.
    split; [apply S1|]. rewrite <- (good_set_up m g E). destruct (connected_spec m g E) as (C1 & _).
    assert (N : Forall (fun c => NoDup (receivePorts c)) (connectedPorts g)).
    { apply Forall_forall. intros c Hc. destruct (C1 c Hc) as (q & H). apply H. }
    destruct (connect_all _ N (Infra true [] [] [])) as [A B]. split.
    - intros H. now apply A.
    - intros H. destruct (B H) as (is & _ & ->). reflexivity.
  Qed.

  (** the protocol of the sender [s] *)
  Record serves (m : list (nat * nat)) (s : nat) (i : protocol) : Prop := {
    se_output : i_output i = Some s;
    se_kind : i_kind i = q_protocol o s /\ i_type i = q_type o s /\ i_config i = q_config o s;
    se_inputs : forall r, In r (i_inputs i) <-> receives o r /\ joined m s r;
    se_once : NoDup (i_inputs i) }.
  Lemma Forall2_in {A B} (R : A -> B -> Prop) l l' : Forall2 R l l' ->
    (forall x, In x l -> exists y, In y l' /\ R x y) /\ (forall y, In y l' -> exists x, In x l /\ R x y).
  Proof.
    induction 1 as [|x y l l' H _ [I1 I2]]; [split; intros ? []|]. split.
    - intros z [<-|Hz]; [exists y; cbn; auto|]. destruct (I1 z Hz) as (w & Hw & Rw). exists w. cbn. auto.
    - intros z [<-|Hz]; [exists x; cbn; auto|]. destruct (I2 z Hz) as (w & Hw & Rw). exists w. cbn. auto.
  Qed.
  Lemma composite_wiring m st : infra_composite o registered creatable m = Ok st -> n_result st = true ->
    (forall s, port m s -> sends o s -> exists i, In i (n_protocols st) /\ serves m s i)
    /\ (forall i, In i (n_protocols st) -> exists s, port m s /\ sends o s /\ serves m s i)
    /\ NoDup (map i_output (n_protocols st))
    /\ (forall q, In q (n_receive st) <-> port m q /\ sends o q /\ toplevel o (q_owner o q) = true) /\ NoDup (n_receive st)
    /\ (forall q, In q (n_send st) <-> port m q /\ receives o q /\ toplevel o (q_owner o q) = true) /\ NoDup (n_send st).
  Proof.
    unfold infra_composite. destruct (connection_graph m) as [g|e|] eqn:E; cbn [bind]; try discriminate. intros H R. apply Ok_inj in H. subst st.
    destruct (connected_spec m g E) as (C1 & C2 & NS & NR).
    assert (N : Forall (fun c => NoDup (receivePorts c)) (connectedPorts g)).
    { apply Forall_forall. intros c Hc. destruct (C1 c Hc) as (q & H). apply H. }
    destruct (connect_all _ N (Infra true [] [] [])) as [A B]. destruct (A R) as [_ G]. destruct (B G) as (is & M & ->). clear A B R.
    cbn [n_protocols n_receive n_send app]. destruct (Forall2_in _ _ _ M) as [M1 M2].
    assert (SV : forall c i, In c (connectedPorts g) -> made c i -> exists s, sendPorts c = [s] /\ port m s /\ sends o s /\ serves m s i).
    { intros c i Hc (s & multi & Es & Rg & ->). destruct (C1 c Hc) as (q & Pq & S1 & R1 & _ & N2). rewrite Es in S1.
      destruct (proj1 (S1 s) (or_introl eq_refl)) as [Ss J]. exists s. split; [exact Es|]. split; [now apply (joined_port m q s)|]. split; [exact Ss|].
      split; cbn [i_output i_kind i_type i_config i_inputs]; auto. intros r. rewrite R1. split; intros [Rr Jr]; (split; [exact Rr|]).
      - apply rst_trans with q; [now apply rst_sym|exact Jr].
      - apply rst_trans with s; [exact J|exact Jr]. }
    split; [|split; [|split; [|split; [|split; [|split]]]]].
    - intros s Ps Ss. destruct (C2 s Ps) as (c & Hc & S1 & R1). destruct (M1 c Hc) as (i & Hi & Mi). exists i. split; [exact Hi|].
      destruct (SV c i Hc Mi) as (s' & Es & _ & _ & Sv). rewrite Es in S1. destruct (proj2 (S1 s)) as [->|[]]; [split; [exact Ss|apply rst_refl]|exact Sv].
    - intros i Hi. destruct (M2 i Hi) as (c & Hc & Mi). destruct (SV c i Hc Mi) as (s & _ & H). now exists s.
    - assert (Eo : map i_output is = map Some (flat_map (@sendPorts) (connectedPorts g))).
      { clear - M. induction M as [|c i cs is (s & multi & Es & _ & ->) _ IH]; [reflexivity|]. cbn. rewrite Es, IH. reflexivity. }
      rewrite Eo. apply FinFun.Injective_map_NoDup; [|exact NS]. intros x y H. congruence.
    - intros q. rewrite filter_In, in_flat_map. unfold toplevel_port. split.
      + intros [(c & Hc & Hq) T]. destruct (C1 c Hc) as (p & Pp & S1 & _). apply S1 in Hq as [Sq J]. split; [now apply (joined_port m p q)|auto].
      + intros (Pq & Sq & T). split; [|exact T]. destruct (C2 q Pq) as (c & Hc & S1 & _). exists c. split; [exact Hc|]. apply S1. split; [exact Sq|apply rst_refl].
    - now apply NoDup_filter.
    - intros q. rewrite filter_In, in_flat_map. unfold toplevel_port. split.
      + intros [(c & Hc & Hq) T]. destruct (C1 c Hc) as (p & Pp & _ & R1 & _). apply R1 in Hq as [Sq J]. split; [now apply (joined_port m p q)|auto].
      + intros (Pq & Sq & T). split; [|exact T]. destruct (C2 q Pq) as (c & Hc & _ & R1). exists c. split; [exact Hc|]. apply R1. split; [exact Sq|apply rst_refl].
    - now apply NoDup_filter.
  Qed.

  Lemma flat_served m : flat o m -> (set_up o registered creatable m <-> served o registered creatable (fun r s => In (r, s) m)).
  Proof.
    intros F. split.
    - intros U. assert (P : forall r s, In (r, s) m -> port m s /\ sends o s /\ receives o r /\ joined m s r).
      { intros r s H. destruct (F _ _ H). split; [exists (r, s); cbn; auto|]. repeat (split; [assumption|]). apply rst_sym. now apply rst_step. }
      split.
      + intros r s s' H H'. destruct (P _ _ H) as (_ & Ss & _ & J). destruct (P _ _ H') as (_ & Ss' & _ & J').
        destruct (one_sender _ _ _ _ U r) as (x & _ & Un); [exists (r, s); cbn; auto|]. now rewrite (Un s), (Un s').
      + intros r s H. destruct (P _ _ H) as (Ps & Ss & Rr & J). now apply (fitting _ _ _ _ U).
      + intros r s H. destruct (P _ _ H) as (Ps & Ss & Rr & J). now apply (known _ _ _ _ U).
      + intros r r' s H H' Q. destruct (P _ _ H) as (Ps & Ss & Rr & J). destruct (P _ _ H') as (_ & _ & Rr' & J'). now apply (one_receiver _ _ _ _ U s).
    - intros V. pose proof (fun s r => flat_joined m s r F (sv_sender _ _ _ _ V)) as FJ.
      assert (Sd : forall s, port m s -> sends o s -> exists r, In (r, s) m).
      { intros s ([r t] & H & [-> | ->]) Ss; cbn in *; [|now exists r]. destruct (F _ _ H) as [Rr _]. destruct (sends_receives r Ss Rr). }
      split.
      + intros q ([r s] & H & Eq). destruct (F _ _ H) as [Rr Ss]. exists s.
        assert (J : joined m s r) by (apply rst_sym; now apply rst_step). cbn [fst snd] in Eq.
        assert (Jq : joined m s q) by (destruct Eq as [-> | ->]; [exact J|apply rst_refl]). split; [auto|].
        intros s' Ss' J'. apply (sv_sender _ _ _ _ V r); [exact H|]. apply FJ; auto. apply rst_trans with q; [exact J'|].
        apply rst_trans with s; [now apply rst_sym|exact J].
      + intros s r Ps Ss Rr J. apply (sv_fit _ _ _ _ V). now apply FJ.
      + intros s Ps Ss. destruct (Sd s Ps Ss) as (r & H). now apply (sv_known _ _ _ _ V r).
      + intros s r r' Ps Ss Q Rr Rr' J J'. apply (sv_queue _ _ _ _ V r r' s); auto; now apply FJ.
  Qed.
  (** *** the atomic case *)
  Definition available (q : nat) : Prop := registered (q_protocol o q) <> None /\ creatable (q_protocol o q) (q_type o q) (q_config o q) = true.
  Lemma atomic_outcome ports :
    match infra_atomic o registered creatable ports with
    | Ok st => Forall available ports /\ n_result st = true
        /\ map (fun i => (i_kind i, i_type i, i_config i, i_output i, i_inputs i)) (n_protocols st)
            = map (fun q => (q_protocol o q, q_type o q, q_config o q, Some q, [q])) ports
        /\ n_receive st = filter (fun q => is_input (q_dir o q)) ports
        /\ n_send st = filter (fun q => negb (is_input (q_dir o q))) ports
    | Throw _ => ~ Forall available ports
    | UB => False
    end.
  Proof.
    unfold infra_atomic. induction ports as [|q ports IH] using rev_ind; [cbn; auto|]. rewrite fold_left_app. cbn [fold_left].
    destruct (fold_left _ ports _) as [st|e|]; unfold connect_atomic; cbn [bind]; auto.
    - destruct IH as (F & R & P & E1 & E2). unfold createProtocol.
      assert (X : ~ available q -> ~ Forall available (ports ++ [q])).
      { intros X H. apply Forall_app in H as [_ H]. inversion H; auto. }
      destruct (registered (q_protocol o q)) as [multi|] eqn:Rg; cbn [bind]; [|apply X; unfold available; tauto].
      destruct (creatable (q_protocol o q) (q_type o q) (q_config o q)) eqn:Cr; cbn [bind]; [|apply X; unfold available; intros [_ H]; congruence].
      unfold connectInput. cbn [i_kind i_multi i_inputs length Nat.eqb negb mem existsb]. rewrite Nat.eqb_refl, andb_false_r. cbn [negb bind i_kind i_output].
      unfold connectOutput. cbn [i_kind i_output]. rewrite Nat.eqb_refl. cbn [negb bind i_kind i_type i_config i_multi i_inputs app].
      rewrite !filter_app, !map_app. cbn [filter map]. rewrite <- E1, <- E2, <- P.
      assert (Fq : Forall available (ports ++ [q])).
      { apply Forall_app. split; [exact F|]. constructor; [|constructor]. split; [congruence|exact Cr]. }
      destruct (is_input (q_dir o q)); cbn [negb n_result n_protocols n_receive n_send]; rewrite map_app, ?app_nil_r; auto.
    - intros H. apply IH. apply Forall_app in H. apply H.
  Qed.
End Infra.
