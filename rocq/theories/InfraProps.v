(** C78: the set-up of the parameter communication. *)
From Coq Require Import List Relations Arith Lia Bool.
Import ListNotations.
From Verif Require Import Base FlowModel FlowProofs FlowTree FlowProps InfraModel InfraSpec InfraProofs.
Local Open Scope res_scope.

(** The connection graph divides the ports into the sets that are joined by connections, and each of
    them into senders and receivers.  It is refused if a connection is made twice. *)
Theorem C78_graph : forall o m,
  match connection_graph m with
  | Ok g => ~ repeated m
      /\ (forall c, In c (connectedPorts o g) -> exists q, port m q
            /\ (forall p, In p (sendPorts c) <-> sends o p /\ joined m q p)
            /\ (forall p, In p (receivePorts c) <-> receives o p /\ joined m q p))
      /\ (forall q, port m q -> exists c, In c (connectedPorts o g) /\ (In q (sendPorts c) \/ In q (receivePorts c)))
      /\ NoDup (flat_map (@sendPorts) (connectedPorts o g)) /\ NoDup (flat_map (@receivePorts) (connectedPorts o g))
  | Throw e => e = LogicError /\ repeated m
  | UB => False
  end.
Proof.
  intros o m. pose proof (connection_graph_spec m) as S1. destruct (connection_graph m) as [g|e|] eqn:E; auto.
  split; [apply S1|]. destruct (connected_spec o m g E) as (C1 & C2 & N). split; [|split; [|exact N]].
  - intros c Hc. destruct (C1 c Hc) as (q & Pq & S & R & _). exists q. auto.
  - intros q Pq. destruct (C2 q Pq) as (c & Hc & S & R). exists c. split; [exact Hc|]. rewrite S, R.
    destruct (sends_or_receives o q); [left|right]; (split; [assumption|apply rst_refl]).
Qed.

(** The set-up of a composite flow succeeds exactly if joined ports have one sender, which agrees with
    all receivers, uses a known protocol and parameter type and, if the protocol is for two ports
    only, has one receiver. *)
Theorem C78_outcome : forall o registered creatable m,
  match infra_composite o registered creatable m with
  | Ok st => ~ repeated m /\ (n_result st = true <-> set_up o registered creatable m)
  | Throw e => e = LogicError /\ repeated m
  | UB => False
  end.
Proof. exact composite_outcome. Qed.

(** After a successful set-up each sender is the output of exactly one protocol, which has its
    protocol type, parameter type and configuration, and the inputs of which are the receivers that
    are joined with the sender; the external ports that are accessible are those that are connected. *)
Theorem C78_wiring : forall o registered creatable m st,
  infra_composite o registered creatable m = Ok st -> n_result st = true ->
  (forall s, port m s -> sends o s -> exists i, In i (n_protocols st) /\ i_output i = Some s)
  /\ NoDup (map i_output (n_protocols st))
  /\ (forall i, In i (n_protocols st) -> exists s, port m s /\ sends o s /\ i_output i = Some s
        /\ i_kind i = q_protocol o s /\ i_type i = q_type o s /\ i_config i = q_config o s
        /\ (forall r, In r (i_inputs i) <-> receives o r /\ joined m s r) /\ NoDup (i_inputs i))
  /\ (forall q, (externalParameterReceivePort st q = Ok q /\ port m q /\ toplevel o (q_owner o q) = true /\ q_dir o q = Input)
        \/ (externalParameterReceivePort st q = Throw OutOfRange /\ ~ (port m q /\ toplevel o (q_owner o q) = true /\ q_dir o q = Input)))
  /\ (forall q, (externalParameterSendPort st q = Ok q /\ port m q /\ toplevel o (q_owner o q) = true /\ q_dir o q = Output)
        \/ (externalParameterSendPort st q = Throw OutOfRange /\ ~ (port m q /\ toplevel o (q_owner o q) = true /\ q_dir o q = Output))).
Proof.
  intros o registered creatable m st E R. destruct (composite_wiring o registered creatable m st E R) as (W1 & W2 & W3 & W4 & _ & W5 & _).
  split; [|split; [exact W3|split; [|split]]].
  - intros s Ps Ss. destruct (W1 s Ps Ss) as (i & Hi & Sv). exists i. split; [exact Hi|apply Sv].
  - intros i Hi. destruct (W2 i Hi) as (s & Ps & Ss & [S1 (S2 & S3 & S4) S5 S6]). exists s. repeat (split; [assumption|]). assumption.
  - intros q. unfold externalParameterReceivePort. specialize (W4 q). unfold sends in W4.
    destruct (mem q (n_receive st)) eqn:M; [apply mem_iff in M|apply mem_no in M]; [left|right]; (split; [reflexivity|]);
      rewrite W4 in M; intuition congruence.
  - intros q. unfold externalParameterSendPort. specialize (W5 q). unfold receives in W5.
    destruct (mem q (n_send st)) eqn:M; [apply mem_iff in M|apply mem_no in M]; [left|right]; (split; [reflexivity|]);
      rewrite W5 in M; intuition congruence.
Qed.

(** For connections that lead from senders to receivers this means: one sender per receiver, and the
    protocol of a sender has exactly the receivers it is connected with. *)
Theorem C78_flat : forall o registered creatable m, flat o m ->
  match infra_composite o registered creatable m with
  | Ok st => NoDup m
      /\ (n_result st = true <-> served o registered creatable (fun r s => In (r, s) m))
      /\ (n_result st = true -> forall r s, In (r, s) m <-> exists i, In i (n_protocols st) /\ i_output i = Some s /\ In r (i_inputs i))
  | Throw e => e = LogicError /\ ~ NoDup m
  | UB => False
  end.
Proof.
  intros o registered creatable m F. pose proof (composite_outcome o registered creatable m) as H. pose proof (flat_repeated o m F) as FR.
  destruct (infra_composite o registered creatable m) as [st|e|] eqn:E; [| |exact H].
  - destruct H as [H1 H2]. split; [|split].
    + destruct (ListDec.NoDup_dec (fun x y : nat * nat => ltac:(decide equality; apply Nat.eq_dec)) m) as [N|N]; [exact N|]. now apply FR in N.
    + rewrite H2. now apply flat_served.
    + intros R. assert (V : served o registered creatable (fun r s => In (r, s) m)) by now apply flat_served, H2.
      destruct (composite_wiring o registered creatable m st E R) as (W1 & W2 & _). intros r s. split.
      * intros K. destruct (F r s K) as [Rr Ss]. destruct (W1 s) as (i & Hi & Sv); [exists (r, s); cbn; auto|exact Ss|].
        exists i. split; [exact Hi|]. split; [apply Sv|]. apply (se_inputs _ _ _ _ Sv). split; [exact Rr|]. apply rst_sym. now apply rst_step.
      * intros (i & Hi & Eo & Hr). destruct (W2 i Hi) as (s' & Ps & Ss & Sv). assert (s' = s) as -> by (pose proof (se_output _ _ _ _ Sv); congruence).
        apply (se_inputs _ _ _ _ Sv) in Hr as [Rr J]. apply (flat_joined o m s r F); auto. exact (sv_sender _ _ _ _ V).
  - destruct H as [-> H]. split; [reflexivity|]. now apply FR.
Qed.

(** *** Hierarchical flows *)
Lemma inside_fewer x y : inside x y -> length (subcomps x) <= length (subcomps y).
Proof.
  induction 1 as [c|x ch c a p children conns pconns Hi _ IH]; [lia|]. cbn [subcomps length]. apply in_split in Hi as (l & l' & ->).
  rewrite flat_map_app, app_length. cbn [flat_map]. rewrite app_length. lia.
Qed.
Lemma child_not_root i a p children conns pconns root x :
  inside (Composite i a p children conns pconns) root -> In x children -> x <> root.
Proof.
  intros H Hx ->. apply inside_fewer in H. cbn [subcomps length] in H. apply in_split in Hx as (l & l' & ->).
  rewrite flat_map_app, app_length in H. cbn [flat_map] in H. rewrite app_length in H. lia.
Qed.
Section Hierarchy.
  Variables (o : objects) (root : comp).
  Hypothesis D : describes o root.
  Hypothesis HC : check_params o root = true.
  Lemma own_toplevel i a p children conns pconns q : inside (Composite i a p children conns pconns) root ->
    In q p -> pendpoint root q -> toplevel o (q_owner o q) = true.
  Proof using D.
    intros Hi Hq (y & Hy & Hqy & Cy). destruct D as (_ & D1 & D2 & D3).
    pose proof (D1 _ q Hi Hq) as E1. pose proof (D1 y q Hy Hqy) as E2.
    pose proof (D2 _ Hi) as K1. pose proof (D2 y Hy) as K2. rewrite <- E1 in K1. rewrite <- E2 in K2. cbn in K1.
    rewrite E2. apply D3; [exact Hy|]. destruct Cy as [Cy|Cy]; [congruence|exact Cy].
  Qed.
  Lemma child_inner i a p children conns pconns x q : inside (Composite i a p children conns pconns) root ->
    In x children -> In q (comp_params x) -> toplevel o (q_owner o q) = false.
  Proof using D.
    intros Hi Hx Hq. pose proof (child_not_root _ _ _ _ _ _ _ _ Hi Hx) as N. destruct D as (_ & D1 & D2 & D3).
    assert (Ix : inside x root).
    { eapply inside_trans; [|exact Hi]. apply inside_composite. right. exists x. split; [exact Hx|constructor]. }
    rewrite (D1 x q Ix Hq). destruct (toplevel o (comp_id x)) eqn:T; [|reflexivity]. now apply (D3 x Ix) in T.
  Qed.
  Lemma link_sends s d : plinked root s d -> pendpoint root s -> sends o s.
  Proof using D HC.
    intros (i & a & p & children & conns & pconns & Hi & H) Ps.
    pose proof (proj1 (check_params_inside o root) HC _ _ _ _ _ _ Hi) as CL. apply check_params_local_ok in CL as (HF & _).
    rewrite Forall_forall in HF. destruct (HF _ H) as (HS & _). cbn [fst] in HS. apply send_params_in in HS as [(x & Hx & Hq & Dq)|[Hq Dq]].
    - left. split; [|exact Dq]. eapply child_inner; eassumption.
    - right. split; [|exact Dq]. eapply own_toplevel; eassumption.
  Qed.
  Lemma link_receives s d : plinked root s d -> pendpoint root d -> receives o d.
  Proof using D HC.
    intros (i & a & p & children & conns & pconns & Hi & H) Ps.
    pose proof (proj1 (check_params_inside o root) HC _ _ _ _ _ _ Hi) as CL. apply check_params_local_ok in CL as (HF & _).
    rewrite Forall_forall in HF. destruct (HF _ H) as (_ & HR & _). cbn [snd] in HR. apply receive_params_in in HR as [(x & Hx & Hq & Dq)|[Hq Dq]].
    - left. split; [|exact Dq]. eapply child_inner; eassumption.
    - right. split; [|exact Dq]. eapply own_toplevel; eassumption.
  Qed.
  Lemma pwired_ends s d : pwired root s d -> (exists e, plinked root s e) /\ (exists e, plinked root e d).
  Proof. induction 1 as [s d H|s p d H _ _ [_ IH]]; split; eauto. Qed.
End Hierarchy.

(** A hierarchical flow that passes the parameter check: the set-up succeeds exactly if the ports that
    are connected through the hierarchy meet the requirements, and each sender is connected to
    exactly the receivers that it reaches through the hierarchy. *)
Theorem C78_hierarchy_partial : forall o registered creatable i a p children conns pconns,
  let root := Composite i a p children conns pconns in
  describes o root -> check_params o root = true ->
  (forall s s' d, pinner root d -> plinked root s d -> plinked root s' d -> s = s') ->
  let reaches r s := pendpoint root s /\ pendpoint root r /\ pwired root s r in
  exists m, pfill_recursive o root [] = (true, m) /\ forall r, presolve o m = Ok r ->
  match initialiseParameterInfrastructure o registered creatable root r with
  | Ok st => NoDup r
      /\ (n_result st = true <-> served o registered creatable reaches)
      /\ (n_result st = true ->
            (forall d s, reaches d s <-> exists i, In i (n_protocols st) /\ i_output i = Some s /\ In d (i_inputs i))
            /\ (forall q, In q p -> q_dir o q = Output -> externalParameterSendPort st q = Ok q))
  | Throw e => e = LogicError /\ ~ NoDup r
  | UB => False
  end.
Proof.
  intros o registered creatable i a p children conns pconns root D HC single reaches.
  destruct (C30_hierarchy_transparent_partial o root D HC single) as (m & Em & R). exists m. split; [exact Em|]. intros r Er. rewrite Er in R.
  destruct R as [R1 R2].
  assert (F : flat o r).
  { intros d s H. apply R1 in H as (Ps & Pd & W). destruct (pwired_ends root s d W) as [(e & H1) (e' & H2)].
    split; [now apply (link_receives o root D HC e' d)|now apply (link_sends o root D HC s e)]. }
  cbn [root initialiseParameterInfrastructure]. pose proof (C78_flat o registered creatable r F) as H.
  destruct (infra_composite o registered creatable r) as [st|e|] eqn:E; [|exact H|exact H]. destruct H as (N & H1 & H2).
  split; [exact N|]. split; [|intros T; split].
  - rewrite H1. split; intros [V1 V2 V3 V4]; split.
    + intros d s s' K K'. now apply (V1 d s s'); apply R1.
    + intros d s K. now apply V2, R1.
    + intros d s K. now apply (V3 d), R1.
    + intros d d' s K K'. now apply (V4 d d' s); apply R1.
    + intros d s s' K K'. now apply (V1 d s s'); apply R1.
    + intros d s K. now apply V2, R1.
    + intros d s K. now apply (V3 d), R1.
    + intros d d' s K K'. now apply (V4 d d' s); apply R1.
  - intros d s. rewrite <- (H2 T). unfold reaches. now rewrite R1.
  - intros q Hq Dq. destruct (C78_wiring o registered creatable r st E T) as (_ & _ & _ & _ & X). destruct (X q) as [[X1 _]|[_ X2]]; [exact X1|].
    exfalso. apply X2. assert (Pq : pendpoint root q) by (exists root; split; [constructor|]; split; [exact Hq|now right]).
    pose proof (proj1 (check_params_inside o root) HC i a p children conns pconns (inside_self _)) as CL.
    apply check_params_local_ok in CL as (_ & _ & CR). 
    assert (K : In q (receive_params o p children)) by (apply receive_params_in; right; auto).
    apply CR in K. apply in_map_iff in K as ([s d] & Ed & K). cbn [snd] in Ed. subst d.
    assert (L : plinked root s q) by (exists i, a, p, children, conns, pconns; split; [constructor|exact K]).
    apply R2 in L; [|exact Pq]. apply in_map_iff in L as ([d t] & Ed & L). cbn [fst] in Ed. subst d.
    split; [exists (q, t); cbn; auto|]. split; [|exact Dq]. exact (own_toplevel o root D i a p children conns pconns q (inside_self _) Hq Pq).
Qed.

(** An atomic flow: each of its ports gets a protocol of its own that leads to an external endpoint. *)
Theorem C78_atomic : forall o registered creatable i a ports m,
  match initialiseParameterInfrastructure o registered creatable (Atomic i a ports) m with
  | Ok st => (forall q, In q ports -> registered (q_protocol o q) <> None /\ creatable (q_protocol o q) (q_type o q) (q_config o q) = true)
      /\ n_result st = true
      /\ map (fun i => (i_kind i, i_type i, i_config i, i_output i, i_inputs i)) (n_protocols st)
          = map (fun q => (q_protocol o q, q_type o q, q_config o q, Some q, [q])) ports
      /\ (forall q, externalParameterReceivePort st q = Ok q <-> In q ports /\ q_dir o q = Input)
      /\ (forall q, externalParameterSendPort st q = Ok q <-> In q ports /\ q_dir o q = Output)
  | Throw _ => exists q, In q ports /\ (registered (q_protocol o q) = None \/ creatable (q_protocol o q) (q_type o q) (q_config o q) = false)
  | UB => False
  end.
Proof.
  intros o registered creatable i a ports m. cbn [initialiseParameterInfrastructure]. pose proof (atomic_outcome o registered creatable ports) as H.
  destruct (infra_atomic o registered creatable ports) as [st|e|]; [| |exact H].
  - destruct H as (F & R & P & E1 & E2). rewrite Forall_forall in F. split; [exact F|]. split; [exact R|]. split; [exact P|].
    unfold externalParameterReceivePort, externalParameterSendPort. rewrite E1, E2. split; intros q.
    + destruct (mem q (filter (fun q => is_input (q_dir o q)) ports)) eqn:M; [apply mem_iff in M|apply mem_no in M]; rewrite filter_In in M;
        destruct (q_dir o q); cbn in M; intuition congruence.
    + destruct (mem q (filter (fun q => negb (is_input (q_dir o q))) ports)) eqn:M; [apply mem_iff in M|apply mem_no in M]; rewrite filter_In in M;
        destruct (q_dir o q); cbn in M; intuition congruence.
  - assert (Dc : forall q, {available o registered creatable q} + {~ available o registered creatable q}).
    { intros q. unfold available. destruct (registered (q_protocol o q)), (creatable (q_protocol o q) (q_type o q) (q_config o q));
        [left; split; congruence|right; intros [? ?]; congruence..]. }
    apply (neg_Forall_Exists_neg Dc) in H. apply Exists_exists in H as (q & Hq & H). exists q. split; [exact Hq|]. unfold available in H.
    destruct (registered (q_protocol o q)); [|now left]. right. destruct (creatable _ _); [|reflexivity]. destruct H. split; congruence.
Qed.

(** numReceivers() does not count the receivers *)
Theorem C78_count_refuted : exists o m g c,
  flat o m /\ NoDup m /\ connection_graph m = Ok g /\ In c (connectedPorts o g) /\ numReceivers c <> length (receivePorts c).
Proof.
  exists (Objects (fun _ => Input) (fun _ => 1) (fun _ => 0) (fun _ => 0)
    (fun q => if q =? 1 then Output else Input) (fun _ => 0) (fun _ => 0) (fun q => q) (fun _ => 0) (fun _ _ => Some true) (fun _ => false) (fun _ => false)),
    [(2, 1); (3, 1)]. eexists. eexists. split; [|split; [|split; [reflexivity|split; [left; reflexivity|cbn; lia]]]].
  - intros r s [H|[H|[]]]; injection H as <- <-; split; left; auto.
  - repeat constructor; cbn; intuition congruence.
Qed.

(** A connection that is registered twice passes the parameter check, but the set-up throws. *)
Definition twice_objects : objects :=
  Objects (fun _ => Input) (fun _ => 1) (fun _ => 0) (fun _ => 0)
    (fun q => if q =? 1 then Output else Input) (fun _ => 0) (fun _ => 0) (fun q => q) (fun _ => 0) (fun _ _ => Some true)
    (fun c => c =? 0) (fun c => c =? 0).
Definition twice_flow : comp := Composite 0 [] [] [Atomic 1 [] [1]; Atomic 2 [] [2]] [] [(1, 2); (1, 2)].
Lemma twice_describes : describes twice_objects twice_flow.
Proof.
  unfold describes. setoid_rewrite inside_subcomps. cbn [subcomps flat_map twice_flow app].
  split; [|split; [|split]].
  - intros x p [<-|[<-|[<-|[]]]] [].
  - intros x p [<-|[<-|[<-|[]]]]; cbn; [intros []|intros [<-|[]]..]; reflexivity.
  - intros x [<-|[<-|[<-|[]]]]; reflexivity.
  - unfold twice_flow. intros x [<-|[<-|[<-|[]]]]; cbn; split; intros H; reflexivity || discriminate.
Qed.
Theorem C78_twice_refuted : exists o root m r,
  describes o root /\ check_params o root = true /\ pfill_recursive o root [] = (true, m) /\ presolve o m = Ok r
  /\ forall registered creatable, initialiseParameterInfrastructure o registered creatable root r = Throw LogicError.
Proof.
  exists twice_objects, twice_flow. eexists. eexists. split; [exact twice_describes|]. split; [reflexivity|]. split; [reflexivity|].
  split; [reflexivity|]. reflexivity.
Qed.

(** The check that a connection has a receiver has no effect. *)
Theorem C78_no_receiver_refuted : exists o m st,
  infra_composite o (fun _ => Some true) (fun _ _ _ => true) m = Ok st /\ n_result st = true
  /\ n_protocols st <> [] /\ forall q, port m q -> ~ receives o q.
Proof.
  exists twice_objects, [(1, 1)]. eexists. split; [reflexivity|]. split; [reflexivity|]. split; [discriminate|].
  intros q ([r s] & [H|[]] & Eq). injection H as <- <-. assert (q = 1) as -> by (destruct Eq; assumption).
  intros [[_ H]|[H _]]; discriminate.
Qed.

(** *** Examples *)
(** components 1, 2 and 3 in the flow 0, 3 inside the composite 4; protocol 0 for several receivers,
    protocol 1 for one; port 1 external input, port 2 external output *)
Definition ex_objects : objects :=
  Objects (fun _ => Input) (fun _ => 1) (fun _ => 0) (fun _ => 0)
    (fun q => if mem q [11; 12; 2] then Output else Input) (fun q => if mem q [1; 22] then 1 else 0) (fun q => if mem q [12; 2] then 7 else 5)
    (fun q => if q <? 10 then 0 else q / 10) (fun _ => 3) (fun a b => Some (a =? b))
    (fun c => mem c [0; 4]) (fun c => c =? 0).
Definition ex_flow (pconns : list pconn) : comp :=
  Composite 0 [] [1; 2]
    [Atomic 1 [] [11; 12]; Atomic 2 [] [21; 22]; Composite 4 [] [41] [Atomic 3 [] [31]] [] [(41, 31)]] [] pconns.
Definition ex_conns : list pconn := [(11, 21); (11, 41); (1, 22); (12, 2)].
Definition ex_registered (k : nat) : option bool := match k with 0 => Some true | 1 => Some false | _ => None end.
Definition ex_setup (pconns : list pconn) : res infra :=
  r <- presolve ex_objects (snd (pfill_recursive ex_objects (ex_flow pconns) [])) ;;
  initialiseParameterInfrastructure ex_objects ex_registered (fun _ t _ => (t =? 5) || (t =? 7)) (ex_flow pconns) r.
Example ex_describes : describes ex_objects (ex_flow ex_conns) /\ check_params ex_objects (ex_flow ex_conns) = true.
Proof.
  split; [|reflexivity]. unfold describes. setoid_rewrite inside_subcomps. cbn [subcomps flat_map ex_flow app].
  split; [|split; [|split]].
  - intros x p [<-|[<-|[<-|[<-|[<-|[]]]]]] [].
  - intros x p [<-|[<-|[<-|[<-|[<-|[]]]]]]; cbn; intros H; repeat (destruct H as [<-|H]; [reflexivity|]); destruct H.
  - intros x [<-|[<-|[<-|[<-|[<-|[]]]]]]; reflexivity.
  - unfold ex_flow. intros x [<-|[<-|[<-|[<-|[<-|[]]]]]]; cbn; split; intros H; reflexivity || discriminate.
Qed.
Example ex_single : forall s s' d, pinner (ex_flow ex_conns) d -> plinked (ex_flow ex_conns) s d -> plinked (ex_flow ex_conns) s' d -> s = s'.
Proof.
  intros s s' d _ H H'. apply plinked_in in H, H'. cbn in H, H'.
  repeat (destruct H as [H|H]; [injection H as <- <-; repeat (destruct H' as [H'|H']; [congruence|]); destruct H'|]). destruct H.
Qed.
Example ex_outcome : ex_setup ex_conns
  = Ok (Infra true [Protocol 0 7 3 true (Some 12) [2]; Protocol 0 5 3 true (Some 11) [21; 31]; Protocol 1 5 3 false (Some 1) [22]] [1] [2]).
Proof. reflexivity. Qed.
Example ex_graph : exists g, connection_graph [(21, 11); (31, 11); (22, 1); (2, 12)] = Ok g
  /\ connectedPorts ex_objects g = [ConnectedPorts [11] [21; 31]; ConnectedPorts [1] [22]; ConnectedPorts [12] [2]].
Proof. eexists. split; reflexivity. Qed.
(** two senders for one receiver, and two receivers of a message queue: the parameter check passes, the set-up does not *)
Definition fan_objects (kind : nat) : objects :=
  Objects (fun _ => Input) (fun _ => 1) (fun _ => 0) (fun _ => 0)
    (fun q => if q <? 20 then Output else Input) (fun _ => kind) (fun _ => 0) (fun q => q / 10) (fun _ => 0) (fun _ _ => Some true)
    (fun c => c =? 0) (fun c => c =? 0).
Definition fan_setup (kind : nat) (ports : list nat) (pconns : list pconn) : bool * res bool :=
  let root := Composite 0 [] [] [Atomic 1 [] (filter (fun q => q <? 20) ports); Atomic 2 [] (filter (fun q => negb (q <? 20)) ports)] [] pconns in
  (check_params (fan_objects kind) root,
   r <- presolve (fan_objects kind) (snd (pfill_recursive (fan_objects kind) root [])) ;;
   st <- initialiseParameterInfrastructure (fan_objects kind) ex_registered (fun _ _ _ => true) root r ;; Ok (n_result st)).
Example ex_two_senders : fan_setup 0 [11; 12; 21] [(11, 21); (12, 21)] = (true, Ok false).
Proof. reflexivity. Qed.
Example ex_two_receivers : fan_setup 0 [11; 21; 22] [(11, 21); (11, 22)] = (true, Ok true)
  /\ fan_setup 1 [11; 21; 22] [(11, 21); (11, 22)] = (true, Ok false) /\ fan_setup 2 [11; 21] [(11, 21)] = (true, Ok false).
Proof. repeat split. Qed.
Example ex_flat : flat (fan_objects 0) [(21, 11); (22, 11)].
Proof. intros r s [H|[H|[]]]; injection H as <- <-; split; left; auto. Qed.
Example ex_atomic : initialiseParameterInfrastructure ex_objects ex_registered (fun _ _ _ => true) (Atomic 1 [] [11; 21]) []
  = Ok (Infra true [Protocol 0 5 3 true (Some 11) [11]; Protocol 0 5 3 true (Some 21) [21]] [21] [11]).
Proof. reflexivity. Qed.
Example ex_atomic_unknown : initialiseParameterInfrastructure (fan_objects 2) ex_registered (fun _ _ _ => true) (Atomic 1 [] [11]) [] = Throw OutOfRange.
Proof. reflexivity. Qed.

Print Assumptions C78_graph.
Print Assumptions C78_outcome.
Print Assumptions C78_wiring.
Print Assumptions C78_flat.
Print Assumptions C78_hierarchy_partial.
Print Assumptions C78_atomic.
Print Assumptions C78_count_refuted.
Print Assumptions C78_twice_refuted.
Print Assumptions C78_no_receiver_refuted.
