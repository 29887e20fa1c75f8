(** C64: the component tree. *)

From Coq Require Import Ascii String Lia.
From Verif Require Import Base TreeModel TreeSpec TreeProofs TreeOps TreeNames.
Local Open Scope string_scope.
Local Open Scope list_scope.

(** A program that uses existing objects and deletes ports before their component runs without
    undefined behaviour, from its start ... *)
Theorem C64_safe ops : legal_run empty ops -> exists h, run empty ops = Ok h.
Proof. intros L. destruct (run_wf ops empty wf_empty L) as (h & E & _). eauto. Qed.

(** ... and each operation succeeds or throws invalid_argument. *)
Theorem C64_step h o : reachable h -> legal h o ->
  (exists h', step h o = Ok h' /\ reachable h') \/ step h o = Throw InvalidArgument.
Proof.
  intros R L. pose proof (step_wf h o (reachable_wf h R) L) as S. destruct (step h o) as [h'|e|] eqn:E; [|right; congruence|easy].
  left. exists h'. split; [easy|]. eapply reachable_step; eauto.
Qed.

(** The components form trees: parents exist and are composite components; a composite component
    lists its children, each once; siblings have different names; no component is below itself,
    and each is below a top level component or is one. *)
Theorem C64_tree h : reachable h ->
  (forall c p, child_of h c p -> exists_composite h p) /\
  (forall p y, h_comps h p = Some y -> NoDup (c_children y) /\ forall c, In c (c_children y) <-> child_of h c p) /\
  (forall a b p n, child_of h a p -> child_of h b p -> name_is h a n -> name_is h b n -> a = b) /\
  (forall c, ~ below h c c) /\
  (forall c x, h_comps h c = Some x -> top_level h c \/ exists r, top_level h r /\ below h c r).
Proof.
  intros R. pose proof (reachable_wf h R) as W. split; [|split; [|split; [|split]]].
  - intros c p (x & E & P). destruct (wf_parent h W c x p E P) as (_ & y & ? & ? & _). exists y. auto.
  - intros p y E. split; [eapply NoDup_children; eauto|]. intros c. symmetry. now apply child_In.
  - intros a b p n. now apply sibling_names.
  - intros c B. apply (below_lt h c c W) in B. lia.
  - intros c x E. destruct (path_exists h W c x E) as (r & l & P). clear E.
    induction P as [T|c p n l C N P IH]; [now left|]. right. destruct IH as [T|(q & T & B)].
    + exists p. split; [easy|]. now constructor.
    + exists q. split; [easy|]. now apply below_more with p.
Qed.

(** Every port belongs to an existing component, which lists it; the names of the audio ports of
    a component are different, and those of its parameter ports are. *)
Theorem C64_ports h : reachable h ->
  (forall p y, h_ports h p = Some y -> exists c x, port_of h p c (p_audio y) /\ h_comps h c = Some x) /\
  (forall c x, h_comps h c = Some x ->
     NoDup (c_audio x) /\ NoDup (c_param x) /\
     (forall p, In p (c_audio x) <-> port_of h p c true) /\ (forall p, In p (c_param x) <-> port_of h p c false)) /\
  (forall p q c a n, port_of h p c a -> port_of h q c a -> port_name_is h p n -> port_name_is h q n -> p = q).
Proof.
  intros R. pose proof (reachable_wf h R) as W. split; [|split].
  - intros p y E. destruct (wf_port h W p y E) as (c & x & P & Ex & _). exists c, x. split; [exists y; auto|easy].
  - intros c x E. split; [exact (NoDup_portlist h c x true W E)|]. split; [exact (NoDup_portlist h c x false W E)|].
    split; intros p; symmetry; [exact (port_In h p c true x W E)|exact (port_In h p c false x W E)].
  - intros p q c a n. now apply port_names.
Qed.

(** A new component is refused if and only if the parent has a child of that name. *)
Theorem C64_new_component h n p b : reachable h -> exists_composite h p ->
  ((exists c, child_of h c p /\ name_is h c n) -> newComponent h n (Some p) b = Throw InvalidArgument) /\
  (~ (exists c, child_of h c p /\ name_is h c n) -> exists h' c, newComponent h n (Some p) b = Ok (h', c) /\
     h_comps h c = None /\ same_except [c; p] [] h h' /\
     (exists x, h_comps h' c = Some x /\ c_name x = n /\ c_parent x = Some p /\ c_composite x = b /\
        c_audio x = [] /\ c_param x = [] /\ c_children x = [] /\ c_aconns x = [] /\ c_pconns x = []) /\
     (exists y y', h_comps h p = Some y /\ h_comps h' p = Some y' /\ same_identity y y' /\ same_ports y y' /\
        same_connections y y' /\ c_parent y' = c_parent y /\ c_children y' = c_children y ++ [c])).
Proof.
  intros R (y & Ey & Cy). pose proof (reachable_wf h R) as W.
  destruct (new_child_outcome h n b p y W Ey) as [[X E]|[X E]]; split.
  - easy.
  - intros NX. now destruct NX.
  - intros (c & Hc & Nc). now destruct (X c Hc).
  - intros _. destruct (wf_fresh h W (h_next h) (le_n _)) as [F _]. assert (p <> h_next h) by (intros ->; congruence).
    eexists; exists (h_next h). split; [exact E|]. split; [easy|]. split; [split|split].
    + intros c N. cbn. cbn in N. rewrite !upd_other; [easy|intros ->; tauto|intros ->; tauto].
    + intros q _. easy.
    + eexists. cbn. rewrite upd_same. split; [reflexivity|]. cbn. auto 10.
    + exists y. eexists. split; [easy|]. cbn. rewrite upd_other, upd_same by easy. split; [reflexivity|]. now cbn.
Qed.
(** A new top level component has a clock of its own. *)
Theorem C64_new_top_level h n b : reachable h -> exists h' c, newComponent h n None b = Ok (h', c) /\
  h_comps h c = None /\ same_except [c] [] h h' /\
  (forall d x, h_comps h d = Some x -> c_time x <> c) /\
  (exists x, h_comps h' c = Some x /\ c_name x = n /\ c_parent x = None /\ c_composite x = b /\ c_time x = c /\
     c_audio x = [] /\ c_param x = [] /\ c_children x = [] /\ c_aconns x = [] /\ c_pconns x = []).
Proof.
  intros R. pose proof (reachable_wf h R) as W. destruct (wf_fresh h W (h_next h) (le_n _)) as [F _].
  eexists; exists (h_next h). split; [reflexivity|]. split; [easy|]. split; [split|split].
  - intros c N. cbn in *. rewrite upd_other; [easy|intros ->; tauto].
  - easy.
  - intros d x E. pose proof (wf_time h W d x E). intros T. assert (h_next h <= d) by lia. destruct (wf_fresh h W d); [easy|congruence].
  - eexists. cbn. rewrite upd_same. split; [reflexivity|]. cbn. auto 10.
Qed.

(** A component that is deleted is taken from the list of its parent, and its children become top
    level components.  Nothing else changes. *)
Theorem C64_delete_component h c x : reachable h -> h_comps h c = Some x -> (forall p a, ~ port_of h p c a) ->
  exists h', deleteComponent h c = Ok h' /\ h_comps h' c = None /\
    (forall p, h_ports h' p = h_ports h p) /\
    (forall d, d <> c -> h_comps h d = None -> h_comps h' d = None) /\
    (forall d z, d <> c -> h_comps h d = Some z -> exists z', h_comps h' d = Some z' /\
       same_identity z z' /\ same_ports z z' /\ same_connections z z' /\
       (c_parent z = Some c -> c_parent z' = None) /\ (c_parent z <> Some c -> c_parent z' = c_parent z) /\
       c_children z' = filter (fun e => negb (Nat.eqb e c)) (c_children z)).
Proof.
  intros R Ex NP. pose proof (reachable_wf h R) as W.
  destruct (delete_spec h c x W Ex) as (h' & E & _ & P & C0 & C). exists h'. split; [easy|]. split; [easy|].
  split; [intros p; now rewrite P|]. split. { intros d Nd Ed. now rewrite C, Ed. }
  intros d z Nd Ez. rewrite C, Ez by easy. cbn [option_map]. eexists. split; [reflexivity|].
  assert (PC : c_parent z = Some c <-> In d (c_children x)).
  { split.
    - intros Pz. apply (child_In h d c x W Ex). exists z. auto.
    - intros I. apply (child_In h d c x W Ex) in I. destruct I as (z' & ? & ?). congruence. }
  set (z1 := orphaned (c_children x) d z).
  assert (Z1 : same_identity z z1 /\ same_ports z z1 /\ same_connections z z1 /\ c_children z1 = c_children z /\
     (c_parent z = Some c -> c_parent z1 = None) /\ (c_parent z <> Some c -> c_parent z1 = c_parent z)).
  { unfold z1, orphaned. destruct (existsb _ _) eqn:B.
    - apply existsb_In in B. apply PC in B. split; [easy|]. split; [easy|]. split; [easy|]. split; [easy|]. split; [easy|]. intros NB. now destruct NB.
    - apply existsb_not_In in B. split; [easy|]. split; [easy|]. split; [easy|]. split; [easy|]. split; [|easy]. intros Q. now apply PC in Q. }
  clearbody z1. destruct Z1 as (I1 & I2 & I3 & I4 & I5 & I6).
  assert (NI : c_parent x <> Some d -> ~ In c (c_children z)).
  { intros Np I. apply (child_In h c d z W Ez) in I. destruct I as (x' & ? & ?). congruence. }
  assert (FI : ~ In c (c_children z) -> filter (fun e => negb (Nat.eqb e c)) (c_children z) = c_children z).
  { clear. induction (c_children z) as [|a l IH]; cbn; [easy|]. intros N. destruct (Nat.eqb_spec a c); cbn; [tauto|]. f_equal. tauto. }
  unfold deprived. destruct (c_parent x) as [p|]; [destruct (Nat.eqb_spec d p) as [->|Ndp]|].
  - split; [easy|]. split; [easy|]. split; [easy|]. split; [easy|]. split; [easy|]. cbn. rewrite I4. apply erase_filter. eapply NoDup_children; eauto.
  - repeat (split; [easy|]). rewrite FI; [easy|]. apply NI. congruence.
  - repeat (split; [easy|]). rewrite FI; [easy|]. now apply NI.
Qed.

(** A new port is refused if and only if the component has a port of that kind and name. *)
Theorem C64_new_port h n c a w : reachable h -> (exists x, h_comps h c = Some x) ->
  ((exists p, port_of h p c a /\ port_name_is h p n) -> newPort h n c a w = Throw InvalidArgument) /\
  (~ (exists p, port_of h p c a /\ port_name_is h p n) -> exists h' p, newPort h n c a w = Ok (h', p) /\
     h_ports h p = None /\ same_except [c] [p] h h' /\
     h_ports h' p = Some (Port n (Some c) a w) /\
     (exists x x', h_comps h c = Some x /\ h_comps h' c = Some x' /\ same_identity x x' /\ same_connections x x' /\
        c_parent x' = c_parent x /\ c_children x' = c_children x /\
        c_audio x' = (if a then c_audio x ++ [p] else c_audio x) /\ c_param x' = (if a then c_param x else c_param x ++ [p]))).
Proof.
  intros R [x Ex]. pose proof (reachable_wf h R) as W.
  destruct (new_port_outcome h n c x a w W Ex) as [[X E]|[X E]]; split.
  - easy.
  - intros NX. now destruct NX.
  - intros (p & Hp & Np). now destruct (X p Hp).
  - intros _. destruct (wf_fresh h W (h_next h) (le_n _)) as [_ F].
    eexists; exists (h_next h). split; [exact E|]. split; [easy|]. split; [split|split].
    + intros d N. cbn in *. rewrite upd_other; [easy|intros ->; tauto].
    + intros q N. cbn in *. rewrite upd_other; [easy|intros ->; tauto].
    + apply upd_same.
    + exists x. eexists. split; [easy|]. cbn. rewrite upd_same. split; [reflexivity|]. now destruct a.
Qed.

(** A port that is deleted is taken from the list of its component.  Nothing else changes. *)
Theorem C64_delete_port h p c a : reachable h -> port_of h p c a ->
  exists h' x x', deletePort h p = Ok h' /\ same_except [c] [p] h h' /\ h_ports h' p = None /\
    h_comps h c = Some x /\ h_comps h' c = Some x' /\ same_identity x x' /\ same_connections x x' /\
    c_parent x' = c_parent x /\ c_children x' = c_children x /\
    c_audio x' = filter (fun q => negb (Nat.eqb q p)) (c_audio x) /\ c_param x' = filter (fun q => negb (Nat.eqb q p)) (c_param x).
Proof.
  intros R (y & Ey & Py & Ay). pose proof (reachable_wf h R) as W.
  destruct (wf_port h W p y Ey) as (d & x & Pd & Ex & I). assert (d = c) by congruence. subst d.
  unfold deletePort, port_at. rewrite Ey. cbn [bind]. rewrite Py. unfold comp_at. rewrite Ex. cbn [bind].
  eexists; exists x; eexists. split; [reflexivity|]. split; [split|split; [|split; [easy|]]].
  - intros d N. cbn in *. rewrite upd_other; [easy|intros ->; tauto].
  - intros q N. cbn in *. rewrite upd_other; [easy|intros ->; tauto].
  - apply upd_same.
  - cbn. rewrite upd_same. split; [reflexivity|].
    assert (O : ~ In p (ports_of (negb (p_audio y)) x)).
    { intros J. apply (port_In h p c _ x W Ex) in J. destruct J as (y' & Ey' & _ & Ay'). assert (y' = y) by congruence. subst y'.
      now destruct (p_audio y). }
    assert (FI : forall l, ~ In p l -> l = filter (fun e => negb (Nat.eqb e p)) l).
    { clear. induction l as [|a l IH]; cbn; [easy|]. intros N. destruct (Nat.eqb_spec a p); cbn; [tauto|]. f_equal. apply IH. tauto. }
    pose proof (NoDup_portlist h c x (p_audio y) W Ex) as D. rewrite (erase_filter p _ D).
    destruct (p_audio y); cbn in *; repeat (split; [easy|]); auto.
Qed.

(** The width of an audio port changes, and nothing else. *)
Theorem C64_set_width h p y w : h_ports h p = Some y ->
  exists h', setWidth h p w = Ok h' /\ same_except [] [p] h h' /\
    h_ports h' p = Some (Port (p_name y) (p_parent y) (p_audio y) w).
Proof.
  intros E. unfold setWidth, port_at. rewrite E. cbn [bind]. eexists. split; [reflexivity|]. split; [split|].
  - easy.
  - intros q N. cbn in *. rewrite upd_other; [easy|intros ->; tauto].
  - apply upd_same.
Qed.

(** Lookup by name finds exactly what the names stand for. *)
Theorem C64_find h c x name : reachable h -> h_comps h c = Some x ->
  exists r, findComponent h c name = Ok r /\ forall d, r = Some d <-> stands_for h c name d.
Proof.
  intros R Ex. destruct (findComponent_outcome h c x name (reachable_wf h R) Ex) as (r & E & S). exists r. split; [easy|].
  intros d. rewrite S. symmetry. apply stands_designates.
Qed.
Theorem C64_find_port h c x a cn pn : reachable h -> h_comps h c = Some x ->
  exists r, findPortIn h c a cn pn = Ok r /\ forall p, r = Some p <-> names_port h c a cn pn p.
Proof.
  intros R Ex. destruct (findPortIn_outcome h c x a cn pn (reachable_wf h R) Ex) as (r & E & S). exists r. split; [easy|].
  intros p. rewrite S. unfold names_port. split; intros (d & D & Q); exists d; (split; [now apply stands_designates|easy]).
Qed.

(** A connection of channels of two ports is refused unless both ports belong to the composite
    component or its children, the lists are equally long and the channels exist. *)
Theorem C64_connect h c s si r ri : reachable h -> exists_composite h c -> exists_port h s true -> exists_port h r true ->
  (~ connectable h c s si r ri -> audioConnection h c s si r ri = Throw InvalidArgument) /\
  (connectable h c s si r ri -> exists h' x x', audioConnection h c s si r ri = Ok h' /\ same_except [c] [] h h' /\
     h_comps h c = Some x /\ h_comps h' c = Some x' /\ same_identity x x' /\ same_ports x x' /\
     c_parent x' = c_parent x /\ c_children x' = c_children x /\ c_pconns x' = c_pconns x /\
     c_aconns x' = c_aconns x ++ (match si with [] => [] | _ => [AConn s si r ri] end)).
Proof.
  intros R (x & Ex & _) Hs Hr. pose proof (reachable_wf h R) as W.
  destruct (audioConnection_outcome h c x s si r ri W Ex Hs Hr) as [(K & N & E)|[(K & Z & E)|(K & E)]]; split; try easy; intros _.
  - eexists; exists x; eexists. split; [exact E|]. split; [split|].
    + intros d Nd. cbn in *. rewrite upd_other; [easy|intros ->; tauto].
    + easy.
    + split; [easy|]. cbn. rewrite upd_same. split; [reflexivity|]. cbn. destruct si; [easy|]. easy.
  - exists h, x, x. subst si. rewrite app_nil_r. easy.
Qed.
(** All the channels of two ports. *)
Theorem C64_connect_all h c s r ws wr : reachable h -> exists_composite h c -> exists_port h s true -> exists_port h r true ->
  width_is h s ws -> width_is h r wr ->
  let ok := reachable_port h c s true /\ reachable_port h c r true /\ ws = wr in
  (~ ok -> audioConnectionAll h c s r = Throw InvalidArgument) /\
  (ok -> exists h' x x', audioConnectionAll h c s r = Ok h' /\ same_except [c] [] h h' /\
     h_comps h c = Some x /\ h_comps h' c = Some x' /\ same_identity x x' /\ same_ports x x' /\
     c_parent x' = c_parent x /\ c_children x' = c_children x /\ c_pconns x' = c_pconns x /\
     exists added, c_aconns x' = c_aconns x ++ added /\
       ((ws = 0 /\ added = []) \/
        exists e, added = [e] /\ ac_send e = s /\ ac_receive e = r /\ length (ac_sendIndices e) = ws /\ length (ac_receiveIndices e) = ws /\
          forall i, i < ws -> nth_error (ac_sendIndices e) i = Some i /\ nth_error (ac_receiveIndices e) i = Some i)).
Proof.
  intros R (x & Ex & _) Hs Hr Ws Wr ok. pose proof (reachable_wf h R) as W.
  destruct (audioConnectionAll_outcome h c x s r W Ex Hs Hr) as (ws' & wr' & Ws' & Wr' & O).
  assert (ws' = ws) by (destruct Ws as (? & ? & ?), Ws' as (? & ? & ?); congruence).
  assert (wr' = wr) by (destruct Wr as (? & ? & ?), Wr' as (? & ? & ?); congruence). subst ws' wr'.
  fold ok in O. destruct O as [(K & N & E)|[(K & Z & E)|(K & E)]]; split; try easy; intros _.
  - eexists; exists x; eexists. split; [exact E|]. split; [split|].
    + intros d Nd. cbn in *. rewrite upd_other; [easy|intros ->; tauto].
    + easy.
    + split; [easy|]. cbn. rewrite upd_same. split; [reflexivity|]. cbn. repeat (split; [easy|]). eexists. split; [reflexivity|].
      right. eexists. split; [reflexivity|]. cbn. split; [easy|]. split; [easy|]. split; [apply seq_length|]. split; [apply seq_length|].
      assert (Q : forall i, i < ws -> nth_error (seq 0 ws) i = Some i).
      { intros i L. rewrite (nth_error_nth' _ 0) by now rewrite seq_length. now rewrite seq_nth. }
      auto.
  - exists h, x, x. repeat (split; [easy|]). exists []. rewrite app_nil_r. auto.
Qed.
(** Ports given by names: neither the lengths of the lists nor the channels are looked at. *)
Theorem C64_connect_named h c sc sp si rc rp ri : reachable h -> exists_composite h c ->
  ((forall s, ~ names_port h c true sc sp s) \/ (forall r, ~ names_port h c true rc rp r) ->
     audioConnectionNamed h c sc sp si rc rp ri = Throw InvalidArgument) /\
  (forall s r, names_port h c true sc sp s -> names_port h c true rc rp r ->
     exists h' x x', audioConnectionNamed h c sc sp si rc rp ri = Ok h' /\ same_except [c] [] h h' /\
       h_comps h c = Some x /\ h_comps h' c = Some x' /\ same_identity x x' /\ same_ports x x' /\
       c_parent x' = c_parent x /\ c_children x' = c_children x /\ c_pconns x' = c_pconns x /\
       c_aconns x' = c_aconns x ++ [AConn s si r ri]).
Proof.
  intros R (x & Ex & Cx). pose proof (reachable_wf h R) as W.
  assert (NP : forall cn pn p, names_port h c true cn pn p <-> exists d, designates h c cn d /\ port_of h p d true /\ port_name_is h p pn).
  { intros cn pn p. unfold names_port. split; intros (d & D & Q); exists d; (split; [now apply stands_designates|easy]). }
  assert (UN : forall cn pn p q, names_port h c true cn pn p -> names_port h c true cn pn q -> p = q).
  { intros cn pn p q. rewrite !NP. intros P Q. destruct (findPortIn_outcome h c x true cn pn W Ex) as (r & _ & S).
    apply S in P, Q. congruence. }
  destruct (audioConnectionNamed_outcome h c x sc sp si rc rp ri W Ex) as [(ds & s & dr & r & D1 & P1 & N1 & D2 & P2 & N2 & E)|[X E]]; split.
  - assert (names_port h c true sc sp s) by (apply NP; eauto). assert (names_port h c true rc rp r) by (apply NP; eauto).
    intros [X|X]; edestruct X; eauto.
  - intros s' r' Hs Hr. assert (s' = s) by (eapply UN; [exact Hs|apply NP; eauto]). assert (r' = r) by (eapply UN; [exact Hr|apply NP; eauto]). subst.
    eexists; exists x; eexists. split; [exact E|]. split; [split|].
    + intros d Nd. cbn in *. rewrite upd_other; [easy|intros ->; tauto].
    + easy.
    + split; [easy|]. cbn. rewrite upd_same. split; [reflexivity|]. now cbn.
  - easy.
  - intros s r Hs Hr. apply NP in Hs, Hr. destruct Hs as (d1 & ? & ? & ?), Hr as (d2 & ? & ? & ?).
    destruct X as [X|X]; [destruct (X d1 s)|destruct (X d2 r)]; auto.
Qed.
Theorem C64_connect_parameter h c s r : reachable h -> exists_composite h c -> exists_port h s false -> exists_port h r false ->
  let ok := reachable_port h c s false /\ reachable_port h c r false in
  (~ ok -> parameterConnection h c s r = Throw InvalidArgument) /\
  (ok -> exists h' x x', parameterConnection h c s r = Ok h' /\ same_except [c] [] h h' /\
     h_comps h c = Some x /\ h_comps h' c = Some x' /\ same_identity x x' /\ same_ports x x' /\
     c_parent x' = c_parent x /\ c_children x' = c_children x /\ c_aconns x' = c_aconns x /\
     c_pconns x' = c_pconns x ++ [(s, r)]).
Proof.
  intros R (x & Ex & _) Hs Hr ok. pose proof (reachable_wf h R) as W.
  destruct (parameterConnection_outcome h c x s r W Ex Hs Hr) as [(K1 & K2 & E)|(K & E)]; split; try easy.
  - intros K. destruct K. now split.
  - intros _. eexists; exists x; eexists. split; [exact E|]. split; [split|].
    + intros d Nd. cbn in *. rewrite upd_other; [easy|intros ->; tauto].
    + easy.
    + split; [easy|]. cbn. rewrite upd_same. split; [reflexivity|]. now cbn.
Qed.
Theorem C64_connect_parameter_named h c sc sp rc rp : reachable h -> exists_composite h c ->
  ((forall s, ~ names_port h c false sc sp s) \/ (forall r, ~ names_port h c false rc rp r) ->
     parameterConnectionNamed h c sc sp rc rp = Throw InvalidArgument) /\
  (forall s r, names_port h c false sc sp s -> names_port h c false rc rp r ->
     exists h' x x', parameterConnectionNamed h c sc sp rc rp = Ok h' /\ same_except [c] [] h h' /\
       h_comps h c = Some x /\ h_comps h' c = Some x' /\ same_identity x x' /\ same_ports x x' /\
       c_parent x' = c_parent x /\ c_children x' = c_children x /\ c_aconns x' = c_aconns x /\
       c_pconns x' = c_pconns x ++ [(s, r)]).
Proof.
  intros R (x & Ex & Cx). pose proof (reachable_wf h R) as W.
  assert (NP : forall cn pn p, names_port h c false cn pn p <-> exists d, designates h c cn d /\ port_of h p d false /\ port_name_is h p pn).
  { intros cn pn p. unfold names_port. split; intros (d & D & Q); exists d; (split; [now apply stands_designates|easy]). }
  assert (UN : forall cn pn p q, names_port h c false cn pn p -> names_port h c false cn pn q -> p = q).
  { intros cn pn p q. rewrite !NP. intros P Q. destruct (findPortIn_outcome h c x false cn pn W Ex) as (r & _ & S).
    apply S in P, Q. congruence. }
  destruct (parameterConnectionNamed_outcome h c x sc sp rc rp W Ex) as [(ds & s & dr & r & D1 & P1 & N1 & D2 & P2 & N2 & E)|[X E]]; split.
  - assert (names_port h c false sc sp s) by (apply NP; eauto). assert (names_port h c false rc rp r) by (apply NP; eauto).
    intros [X|X]; edestruct X; eauto.
  - intros s' r' Hs Hr. assert (s' = s) by (eapply UN; [exact Hs|apply NP; eauto]). assert (r' = r) by (eapply UN; [exact Hr|apply NP; eauto]). subst.
    eexists; exists x; eexists. split; [exact E|]. split; [split|].
    + intros d Nd. cbn in *. rewrite upd_other; [easy|intros ->; tauto].
    + easy.
    + split; [easy|]. cbn. rewrite upd_same. split; [reflexivity|]. now cbn.
  - easy.
  - intros s r Hs Hr. apply NP in Hs, Hr. destruct Hs as (d1 & ? & ? & ?), Hr as (d2 & ? & ? & ?).
    destruct X as [X|X]; [destruct (X d1 s)|destruct (X d2 r)]; auto.
Qed.

(** The ends of every connection of a composite component are ports of it or its children, or
    ports that have been deleted. *)
Theorem C64_connections_partial h c x : reachable h -> h_comps h c = Some x ->
  (forall e, In e (c_aconns x) -> forall p, p = ac_send e \/ p = ac_receive e -> h_ports h p = None \/ reachable_port h c p true) /\
  (forall s r, In (s, r) (c_pconns x) -> forall p, p = s \/ p = r -> h_ports h p = None \/ reachable_port h c p false).
Proof.
  intros R Ex. pose proof (reachable_wf h R) as W. split.
  - intros e I p [->| ->]; destruct (wf_aconns h W c x e Ex I) as [[_ ?] [_ ?]]; auto.
  - intros s r I p [->| ->]; destruct (wf_pconns h W c x s r Ex I) as [[_ ?] [_ ?]]; auto.
Qed.

(** The full name of a component is the names on the way from below the top level component to
    it, separated by colons; that of a top level component is its name. *)
Theorem C64_full_name h r c l n fuel : reachable h -> path h r c l -> name_is h c n -> c < fuel ->
  fullName fuel h c = Ok (match l with [] => n | _ => join l end).
Proof.
  intros R P (x & Ex & Nx) L. destruct (fullName_spec h (reachable_wf h R) c x fuel Ex L) as (r' & l' & P' & E).
  destruct (path_unique h r c l P r' l' P') as [_ <-]. rewrite E. unfold path_name. now rewrite Nx.
Qed.
(** Below a top level component it is unique as long as no name contains a colon. *)
Theorem C64_full_name_unique_partial h r c d l m fuel s : reachable h -> path h r c l -> path h r d m -> c <> r -> d <> r ->
  Forall (fun n => ~ has_colon n) l -> Forall (fun n => ~ has_colon n) m ->
  c < fuel -> d < fuel -> fullName fuel h c = Ok s -> fullName fuel h d = Ok s -> c = d.
Proof.
  intros R Pc Pd Nc Nd Fl Fm Lc Ld Ec Ed. pose proof (reachable_wf h R) as W.
  assert (l <> []) by (intros Z; now apply (proj2 (path_nil h r c l Pc)) in Z).
  assert (m <> []) by (intros Z; now apply (proj2 (path_nil h r d m Pd)) in Z).
  destruct (path_live h r c l Pc) as [x Ex]. destruct (path_live h r d m Pd) as [y Ey].
  rewrite (C64_full_name h r c l (c_name x) fuel R Pc) in Ec by (try exists x; auto).
  rewrite (C64_full_name h r d m (c_name y) fuel R Pd) in Ed by (try exists y; auto).
  assert (join l = join m) as J by (destruct l, m; try easy; congruence).
  assert (l = m) by (apply join_inj; auto). subst m. eapply path_inj; eauto.
Qed.

(** All the components of a tree share the clock of the top level component. *)
Theorem C64_clock h r c l x y : reachable h -> path h r c l -> h_comps h c = Some x -> h_comps h r = Some y -> c_time x = c_time y.
Proof. intros R P. exact (path_time h r c l (reachable_wf h R) P x y). Qed.

(** ** Where more is not true *)

(** A child called "this" is not found by its name, nor is one without name. *)
Theorem C64_find_refuted : exists h c d x y, reachable h /\ child_of h d c /\ child_of h x c /\ name_is h d "this" /\ name_is h x "" /\
  findComponent h c "this" = Ok (Some y) /\ y <> d /\ findComponent h c "" = Ok (Some y) /\ y <> x.
Proof.
  exists (after [NewComponent "top" None true; NewComponent "this" (Some 0) false; NewComponent "" (Some 0) false]), 0, 1, 2, 0.
  split; [apply after_reachable|].
  split; [eexists; split; reflexivity|]. split; [eexists; split; reflexivity|]. split; [eexists; split; reflexivity|]. split; [eexists; split; reflexivity|].
  split; [reflexivity|]. split; [easy|]. split; [reflexivity|easy].
Qed.

(** Two channels of a port of one channel, by name, to one: refused for the ports, accepted for their names. *)
Theorem C64_named_channels_refuted : exists h c s r si ri e, reachable h /\
  audioConnection h c s si r ri = Throw InvalidArgument /\
  (exists h' x, audioConnectionNamed h c "a" "out" si "b" "in" ri = Ok h' /\ reachable h' /\ h_comps h' c = Some x /\ In e (c_aconns x)) /\
  ac_send e = s /\ ac_receive e = r /\ length (ac_sendIndices e) <> length (ac_receiveIndices e) /\
  width_is h s 1 /\ In 1 (ac_sendIndices e).
Proof.
  set (ops := [NewComponent "top" None true; NewComponent "a" (Some 0) false; NewComponent "b" (Some 0) false; NewPort "out" 1 true 1; NewPort "in" 2 true 1]).
  exists (after ops), 0, 3, 4, [0; 1], [0], (AConn 3 [0; 1] 4 [0]). split; [apply after_reachable|]. split; [reflexivity|]. split.
  - exists (after (ops ++ [ConnectNamed 0 "a" "out" [0; 1] "b" "in" [0]])). eexists. split; [reflexivity|]. split; [apply after_reachable|].
    split; [reflexivity|]. now left.
  - split; [easy|]. split; [easy|]. split; [easy|]. split; [eexists; split; reflexivity|]. right. now left.
Qed.

(** A connection stays when its ports are deleted, together with the child they belonged to. *)
Theorem C64_dangling_refuted : exists h c x e, reachable h /\ h_comps h c = Some x /\ In e (c_aconns x) /\
  h_ports h (ac_send e) = None /\ h_comps h 1 = None.
Proof.
  exists (after [NewComponent "top" None true; NewComponent "a" (Some 0) false; NewPort "out" 1 true 1; NewPort "out" 0 true 1;
    ConnectAll 0 2 3; DeletePort 2; DeleteComponent 1]), 0. eexists. exists (AConn 2 [0] 3 [0]).
  split; [apply after_reachable|]. split; [reflexivity|]. split; [now left|]. split; reflexivity.
Qed.

(** ... and when the channels it uses are taken away. *)
Theorem C64_width_refuted : exists h c x e w, reachable h /\ h_comps h c = Some x /\ In e (c_aconns x) /\
  width_is h (ac_send e) w /\ ~ Forall (fun i => i < w) (ac_sendIndices e).
Proof.
  exists (after [NewComponent "top" None true; NewComponent "a" (Some 0) false; NewPort "out" 1 true 2; NewPort "out" 0 true 2;
    ConnectAll 0 2 3; SetWidth 2 1]), 0. eexists. exists (AConn 2 [0; 1] 3 [0; 1]), 1.
  split; [apply after_reachable|]. split; [reflexivity|]. split; [now left|]. split; [eexists; split; reflexivity|].
  inversion 1 as [|? ? _ F]. inversion F. lia.
Qed.

(** Two components of a tree have the same full name if a name contains a colon; and a child may
    have that of the top level component. *)
Theorem C64_full_name_refuted : exists h r c d l m fuel s, reachable h /\ path h r c l /\ path h r d m /\ c <> r /\ d <> r /\ c <> d /\
  fullName fuel h c = Ok s /\ fullName fuel h d = Ok s.
Proof.
  set (h := after [NewComponent "top" None true; NewComponent "a" (Some 0) true; NewComponent "b" (Some 1) false; NewComponent "a:b" (Some 0) false]).
  assert (path h 0 0 []) as P0 by (constructor; eexists; split; reflexivity).
  exists h, 0, 2, 3, (([] ++ ["a"]) ++ ["b"]), ([] ++ ["a:b"]), 9, "a:b". split; [apply after_reachable|].
  split; [|split; [|split; [easy|split; [easy|split; [easy|split; reflexivity]]]]].
  - apply path_step with 1; [eexists; split; reflexivity|eexists; split; reflexivity|].
    apply path_step with 0; [eexists; split; reflexivity|eexists; split; reflexivity|exact P0].
  - apply path_step with 0; [eexists; split; reflexivity|eexists; split; reflexivity|exact P0].
Qed.
Theorem C64_full_name_top_refuted : exists h r c l fuel s, reachable h /\ path h r c l /\ c <> r /\ Forall (fun n => ~ has_colon n) l /\
  fullName fuel h c = Ok s /\ fullName fuel h r = Ok s.
Proof.
  set (h := after [NewComponent "a" None true; NewComponent "a" (Some 0) true]).
  exists h, 0, 1, ([] ++ ["a"]), 9, "a". split; [apply after_reachable|]. split.
  - apply path_step with 0; [eexists; split; reflexivity|eexists; split; reflexivity|]. constructor. eexists. split; reflexivity.
  - split; [easy|]. split; [|split; reflexivity]. constructor; [|constructor]. cbn. intuition discriminate.
Qed.

(** Trees may share a clock: the former children of a deleted component do. *)
Theorem C64_clock_refuted : exists h a b x y, reachable h /\ a <> b /\ top_level h a /\ top_level h b /\
  h_comps h a = Some x /\ h_comps h b = Some y /\ c_time x = c_time y.
Proof.
  exists (after [NewComponent "top" None true; NewComponent "a" (Some 0) false; NewComponent "b" (Some 0) false; DeleteComponent 0]), 1, 2.
  eexists; eexists. split; [apply after_reachable|]. split; [easy|]. split; [eexists; split; reflexivity|]. split; [eexists; split; reflexivity|].
  split; [reflexivity|]. split; reflexivity.
Qed.

(** The rule that ports go first is needed: the port that remains refers to the deleted component. *)
Theorem C64_port_outlives_refuted : exists h h' p, reachable h /\ deleteComponent h 0 = Ok h' /\ (exists y, h_ports h' p = Some y) /\ deletePort h' p = UB.
Proof.
  set (ops := [NewComponent "a" None false; NewPort "out" 0 true 1]).
  exists (after ops). eexists. exists 1. split; [apply after_reachable|]. split; [reflexivity|]. split; [eexists; reflexivity|reflexivity].
Qed.

(** ** Examples *)

(** A renderer with two parts, connected in three ways. *)
Definition opsE : list op :=
  [NewComponent "renderer" None true; NewComponent "gains" (Some 0) false; NewComponent "reverb" (Some 0) true; NewComponent "late" (Some 2) false;
   NewPort "in" 1 true 2; NewPort "out" 1 true 2; NewPort "in" 2 true 2; NewPort "in" 1 false 0; NewPort "in" 0 true 4; NewPort "in" 0 false 0].
Definition is_ok {A} (m : res A) : bool := match m with Ok _ => true | _ => false end.
Definition heapE : heap := after opsE.
Definition opsF : list op :=
  opsE ++ [Connect 0 8 [3; 2] 4 [0; 1]; ConnectAll 0 5 6; ConnectParameterNamed 0 "this" "in" "gains" "in"].

Example C64_run_E : legal_run empty [NewComponent "t" None true; NewComponent "c" (Some 0) false; NewComponent "c" (Some 0) false; NewPort "p" 1 true 1] /\
  exists h, run empty [NewComponent "t" None true; NewComponent "c" (Some 0) false; NewComponent "c" (Some 0) false; NewPort "p" 1 true 1] = Ok h /\
    name_is h 1 "c" /\ h_comps h 2 = None /\ port_name_is h 2 "p".
Proof.
  split.
  - cbn. split; [easy|]. split; [eexists; split; [vm_compute; reflexivity|reflexivity]|]. split; [eexists; split; [vm_compute; reflexivity|reflexivity]|]. split; [eexists; reflexivity|easy].
  - eexists. split; [reflexivity|]. split; [eexists; split; [vm_compute; reflexivity|reflexivity]|]. split; [reflexivity|eexists; split; [vm_compute; reflexivity|reflexivity]].
Qed.
Example C64_tree_E : reachable heapE /\ child_of heapE 3 2 /\ child_of heapE 2 0 /\ top_level heapE 0 /\
  newComponent heapE "gains" (Some 0) false = Throw InvalidArgument /\ (is_ok (newComponent heapE "gains" (Some 2) false) = true) /\
  newPort heapE "out" 1 true 7 = Throw InvalidArgument /\ (is_ok (newPort heapE "out" 1 false 0) = true).
Proof.
  split; [apply after_reachable|]. split; [eexists; split; [vm_compute; reflexivity|reflexivity]|]. split; [eexists; split; [vm_compute; reflexivity|reflexivity]|]. split; [eexists; split; [vm_compute; reflexivity|reflexivity]|].
  split; [vm_compute; reflexivity|]. split; [vm_compute; reflexivity|]. split; vm_compute; reflexivity.
Qed.
Example C64_find_E : findComponent heapE 0 "reverb" = Ok (Some 2) /\ findComponent heapE 0 "late" = Ok None /\ findComponent heapE 2 "" = Ok (Some 2) /\
  findPortIn heapE 0 true "gains" "out" = Ok (Some 5) /\ findPortIn heapE 0 false "gains" "in" = Ok (Some 7) /\ findPortIn heapE 0 false "reverb" "in" = Ok None.
Proof. vm_compute. repeat split. Qed.
Example C64_connect_E : reachable (after opsF) /\ exists x, h_comps (after opsF) 0 = Some x /\
  c_aconns x = [AConn 8 [3; 2] 4 [0; 1]; AConn 5 [0; 1] 6 [0; 1]] /\ c_pconns x = [(9, 7)].
Proof. split; [apply after_reachable|]. eexists. split; [vm_compute; reflexivity|]. split; reflexivity. Qed.
Example C64_connectable_E : connectable heapE 0 8 [3; 2] 4 [0; 1] /\ audioConnection heapE 0 8 [4; 2] 4 [0; 1] = Throw InvalidArgument /\
  audioConnection heapE 2 8 [3; 2] 4 [0; 1] = Throw InvalidArgument /\ audioConnectionAll heapE 0 8 4 = Throw InvalidArgument.
Proof.
  split; [|vm_compute; repeat split]. split; [exists 0; split; [eexists; split; [vm_compute; reflexivity|easy]|now left]|]. split; [exists 1; split; [eexists; split; [vm_compute; reflexivity|easy]|right; eexists; split; [vm_compute; reflexivity|reflexivity]]|].
  split; [easy|]. exists 4, 2. split; [eexists; split; [vm_compute; reflexivity|reflexivity]|]. split; [eexists; split; [vm_compute; reflexivity|reflexivity]|]. split; repeat constructor.
Qed.
(** The renderer is deleted, and the reverb becomes a tree of its own. *)
Example C64_delete_E : let m := deleteComponent (after [NewComponent "renderer" None true; NewComponent "reverb" (Some 0) true; NewComponent "late" (Some 1) false]) 0 in
  is_ok m = true /\ let h' := the empty m in top_level h' 1 /\ child_of h' 2 1 /\ fullName 9 h' 2 = Ok "late".
Proof. split; [reflexivity|]. split; [eexists; split; [vm_compute; reflexivity|reflexivity]|]. split; [eexists; split; [vm_compute; reflexivity|reflexivity]|reflexivity]. Qed.
Example C64_delete_port_E : port_of heapE 5 1 true /\ is_ok (deletePort heapE 5) = true /\
  exists x, h_comps (the empty (deletePort heapE 5)) 1 = Some x /\ c_audio x = [4] /\ c_param x = [7].
Proof.
  split; [eexists; split; [vm_compute; reflexivity|easy]|]. split; [vm_compute; reflexivity|]. eexists.
  split; [vm_compute; reflexivity|]. split; reflexivity.
Qed.
Example C64_full_name_E : path heapE 0 3 ["reverb"; "late"] /\ fullName 4 heapE 3 = Ok "reverb:late" /\ fullName 4 heapE 2 = Ok "reverb" /\ fullName 4 heapE 0 = Ok "renderer".
Proof.
  split; [|vm_compute; repeat split]. change ["reverb"; "late"] with (([] ++ ["reverb"]) ++ ["late"]).
  apply path_step with 2; [eexists; split; [vm_compute; reflexivity|reflexivity]|eexists; split; [vm_compute; reflexivity|reflexivity]|].
  apply path_step with 0; [eexists; split; [vm_compute; reflexivity|reflexivity]|eexists; split; [vm_compute; reflexivity|reflexivity]|]. constructor. eexists. split; [vm_compute; reflexivity|reflexivity].
Qed.

Print Assumptions C64_safe.
Print Assumptions C64_step.
Print Assumptions C64_tree.
Print Assumptions C64_ports.
Print Assumptions C64_new_component.
Print Assumptions C64_new_top_level.
Print Assumptions C64_delete_component.
Print Assumptions C64_new_port.
Print Assumptions C64_delete_port.
Print Assumptions C64_set_width.
Print Assumptions C64_find.
Print Assumptions C64_find_port.
Print Assumptions C64_connect.
Print Assumptions C64_connect_all.
Print Assumptions C64_connect_named.
Print Assumptions C64_connect_parameter.
Print Assumptions C64_connect_parameter_named.
Print Assumptions C64_connections_partial.
Print Assumptions C64_full_name.
Print Assumptions C64_full_name_unique_partial.
Print Assumptions C64_clock.
Print Assumptions C64_find_refuted.
Print Assumptions C64_named_channels_refuted.
Print Assumptions C64_dangling_refuted.
Print Assumptions C64_width_refuted.
Print Assumptions C64_full_name_refuted.
Print Assumptions C64_full_name_top_refuted.
Print Assumptions C64_clock_refuted.
Print Assumptions C64_port_outlives_refuted.
