(** The tree is well formed in every reachable state. *)

From Coq Require Import String Lia.
From Verif Require Import Base TreeModel TreeSpec.
Local Open Scope res_scope.

Lemma upd_same {A} (f : nat -> option A) k v : upd f k v k = v.
Proof. unfold upd. now rewrite Nat.eqb_refl. Qed.
Lemma upd_other {A} (f : nat -> option A) k v x : x <> k -> upd f k v x = f x.
Proof. unfold upd. intros N. apply Nat.eqb_neq in N. now rewrite N. Qed.

Definition nameOf (h : heap) (c : nat) : option string := option_map c_name (h_comps h c).
Definition pnameOf (h : heap) (p : nat) : option string := option_map p_name (h_ports h p).

Record wf (h : heap) : Prop := Wf {
  wf_fresh : forall n, h_next h <= n -> h_comps h n = None /\ h_ports h n = None;
  wf_parent : forall c x p, h_comps h c = Some x -> c_parent x = Some p ->
      p < c /\ exists y, h_comps h p = Some y /\ c_composite y = true /\ In c (c_children y) /\ c_time x = c_time y;
  wf_child : forall p y c, h_comps h p = Some y -> In c (c_children y) -> exists x, h_comps h c = Some x /\ c_parent x = Some p;
  wf_names : forall p y, h_comps h p = Some y -> NoDup (map (nameOf h) (c_children y));
  wf_port : forall p y, h_ports h p = Some y ->
      exists c x, p_parent y = Some c /\ h_comps h c = Some x /\ In p (ports_of (p_audio y) x);
  wf_ports : forall c x a p, h_comps h c = Some x -> In p (ports_of a x) ->
      exists y, h_ports h p = Some y /\ p_parent y = Some c /\ p_audio y = a;
  wf_pnames : forall c x a, h_comps h c = Some x -> NoDup (map (pnameOf h) (ports_of a x));
  wf_aconns : forall c x e, h_comps h c = Some x -> In e (c_aconns x) ->
      (ac_send e < h_next h /\ (h_ports h (ac_send e) = None \/ reachable_port h c (ac_send e) true)) /\
      (ac_receive e < h_next h /\ (h_ports h (ac_receive e) = None \/ reachable_port h c (ac_receive e) true));
  wf_pconns : forall c x s r, h_comps h c = Some x -> In (s, r) (c_pconns x) ->
      (s < h_next h /\ (h_ports h s = None \/ reachable_port h c s false)) /\
      (r < h_next h /\ (h_ports h r = None \/ reachable_port h c r false));
  wf_time : forall c x, h_comps h c = Some x -> c_time x <= c }.

Lemma wf_empty : wf empty.
Proof. split; cbn; auto; discriminate. Qed.

(** ** Searches *)

Lemma findComponentEntry_spec h n l :
  (forall c, In c l -> exists x, h_comps h c = Some x) ->
  exists r, findComponentEntry h n l = Ok r /\
    match r with
    | Some c => In c l /\ nameOf h c = Some n
    | None => forall c, In c l -> nameOf h c <> Some n
    end.
Proof.
  induction l as [|c l IH]; intros Hl; cbn [findComponentEntry].
  - exists None. split; auto.
  - destruct (Hl c (or_introl eq_refl)) as [x Ex]. unfold comp_at. rewrite Ex. cbn [bind].
    destruct (String.eqb_spec n (c_name x)) as [->|N].
    + exists (Some c). split; [easy|]. split; [now left|]. unfold nameOf. now rewrite Ex.
    + destruct IH as (r & E & R). { intros d Hd. apply Hl. now right. }
      exists r. split; [easy|]. destruct r as [d|].
      * destruct R. split; [now right|easy].
      * intros d [<-|Hd]; [|auto]. unfold nameOf. rewrite Ex. cbn. intros [= E']. now apply N.
Qed.

Lemma findPortEntry_spec h n l :
  (forall p, In p l -> exists y, h_ports h p = Some y) ->
  exists r, findPortEntry h n l = Ok r /\
    match r with
    | Some p => In p l /\ pnameOf h p = Some n
    | None => forall p, In p l -> pnameOf h p <> Some n
    end.
Proof.
  induction l as [|p l IH]; intros Hl; cbn [findPortEntry].
  - exists None. split; auto.
  - destruct (Hl p (or_introl eq_refl)) as [x Ex]. unfold port_at. rewrite Ex. cbn [bind].
    destruct (String.eqb_spec (p_name x) n) as [<-|N].
    + exists (Some p). split; [easy|]. split; [now left|]. unfold pnameOf. now rewrite Ex.
    + destruct IH as (r & E & R). { intros d Hd. apply Hl. now right. }
      exists r. split; [easy|]. destruct r as [d|].
      * destruct R. split; [now right|easy].
      * intros d [<-|Hd]; [|auto]. unfold pnameOf. rewrite Ex. cbn. intros [= E']. now apply N.
Qed.

Lemma erasePort_In p l : NoDup l -> forall q, In q (erasePort p l) <-> In q l /\ q <> p.
Proof.
  induction 1 as [|a l Ha D IH]; intros q; cbn; [tauto|].
  destruct (Nat.eqb_spec a p) as [->|N]; cbn.
  - split; [intros Hq; split; [auto|intros ->; auto]|]. intros [[->|] ?]; [congruence|easy].
  - rewrite IH. split; [intros [->|[? ?]]; auto|]. intros [[->|] ?]; auto.
Qed.
Lemma erasePort_sub p l q : In q (erasePort p l) -> In q l.
Proof. induction l as [|a l IH]; cbn; [easy|]. destruct (Nat.eqb a p); cbn; intuition. Qed.
Lemma NoDup_map_erase {B} (f : nat -> B) p l : NoDup (map f l) -> NoDup (map f (erasePort p l)).
Proof.
  induction l as [|a l IH]; cbn; [easy|]. intros D. apply NoDup_cons_iff in D. destruct D as [Ha D].
  destruct (Nat.eqb a p); [easy|]. cbn. apply NoDup_cons_iff. split; [|auto].
  intros E. apply Ha. apply in_map_iff in E. destruct E as (q & <- & Hq). apply in_map. now apply erasePort_sub in Hq.
Qed.

(** Names being different, the entry of a child's name is the child. *)
Lemma eraseEntry_spec h c x l :
  h_comps h c = Some x -> In c l -> (forall d, In d l -> exists z, h_comps h d = Some z) -> NoDup (map (nameOf h) l) ->
  eraseEntry h (c_name x) l = Ok (erasePort c l).
Proof.
  intros Ex. induction l as [|d l IH]; [easy|]. intros Hc Hl D. cbn [eraseEntry erasePort].
  destruct (Hl d (or_introl eq_refl)) as [z Ez]. unfold comp_at. rewrite Ez. cbn [bind].
  cbn in D. apply NoDup_cons_iff in D. destruct D as [Hd D].
  destruct (Nat.eqb_spec d c) as [->|N].
  - rewrite Ex in Ez. injection Ez as <-. now rewrite String.eqb_refl.
  - destruct Hc as [->|Hc]; [easy|].
    destruct (String.eqb_spec (c_name x) (c_name z)) as [E|_].
    + destruct Hd. unfold nameOf at 1. rewrite Ez. cbn. rewrite <- E.
      replace (Some (c_name x)) with (nameOf h c) by (unfold nameOf; now rewrite Ex). now apply in_map.
    + rewrite IH; auto. intros e He. apply Hl. now right.
Qed.

Lemma NoDup_map_ext {A B} (f g : A -> B) l : (forall x, In x l -> f x = g x) -> NoDup (map f l) -> NoDup (map g l).
Proof. intros E. now rewrite (map_ext_in _ _ _ E). Qed.

Lemma NoDup_children h p y : wf h -> h_comps h p = Some y -> NoDup (c_children y).
Proof. intros W E. eapply NoDup_map_inv. eapply wf_names; eauto. Qed.
Lemma NoDup_portlist h c x a : wf h -> h_comps h c = Some x -> NoDup (ports_of a x).
Proof. intros W E. eapply NoDup_map_inv. eapply wf_pnames; eauto. Qed.

Lemma NoDup_snoc {A} (l : list A) a : NoDup l -> ~ In a l -> NoDup (l ++ [a]).
Proof.
  induction 1 as [|b l Hb D IH]; intros N; cbn.
  - constructor; [easy|constructor].
  - constructor. { rewrite in_app_iff. cbn. intros [?|[->|[]]]; [easy|]. apply N. now left. }
    apply IH. intros Ha. apply N. now right.
Qed.

(** ** Preservation *)

Ltac look k :=
  match goal with
  | H : context [upd _ k _ ?x] |- _ =>
      destruct (Nat.eq_dec x k) as [?|?]; [subst x; rewrite ?upd_same in * | rewrite ?(upd_other _ k _ x) in * by assumption]
  | |- context [upd _ k _ ?x] =>
      destruct (Nat.eq_dec x k) as [?|?]; [subst x; rewrite ?upd_same in * | rewrite ?(upd_other _ k _ x) in * by assumption]
  end.

Lemma reachable_port_mono h h' c p a :
  (forall y, h_ports h p = Some y -> exists y', h_ports h' p = Some y' /\ p_parent y' = p_parent y /\ p_audio y' = p_audio y) ->
  (forall d, child_of h d c -> child_of h' d c) ->
  reachable_port h c p a -> reachable_port h' c p a.
Proof.
  intros P C (q & (y & E1 & E2 & E3) & Q). destruct (P y E1) as (y' & F1 & F2 & F3).
  exists q. split. { exists y'. rewrite F2, F3. auto. } destruct Q as [->|Q]; auto.
Qed.

(** A new component. *)
Lemma new_top_wf h n b : wf h ->
  wf (Heap (S (h_next h)) (upd (h_comps h) (h_next h) (Some (Comp n None (h_next h) [] [] b [] [] []))) (h_ports h)).
Proof.
  intros W. set (k := h_next h). pose proof (wf_fresh h W k (le_n k)) as [F1 F2].
  assert (NE : forall c x, h_comps h c = Some x -> c <> k) by (intros c x E ->; congruence).
  assert (CH : forall d c, child_of h d c -> child_of (Heap (S k) (upd (h_comps h) k (Some (Comp n None k [] [] b [] [] []))) (h_ports h)) d c).
  { intros d c (x & E & P). exists x. cbn. rewrite upd_other; eauto. }
  split; cbn.
  - intros m Hm. rewrite upd_other by lia. apply wf_fresh; [easy|lia].
  - intros c x p E P. look k. { injection E as <-. discriminate. }
    destruct (wf_parent h W c x p E P) as (L & y & Ey & ? & ? & ?). split; [easy|]. exists y. rewrite upd_other; eauto.
  - intros p y c E I. look k. { injection E as <-. now cbn in I. }
    destruct (wf_child h W p y c E I) as (x & Ex & P). exists x. rewrite upd_other; eauto.
  - intros p y E. look k. { injection E as <-. constructor. }
    eapply NoDup_map_ext; [|eapply (wf_names h W); eauto]. intros c I.
    destruct (wf_child h W p y c E I) as (x & Ex & P). unfold nameOf. cbn. rewrite upd_other; eauto.
  - intros p y E. destruct (wf_port h W p y E) as (c & x & ? & Ex & ?). exists c, x. rewrite upd_other; eauto.
  - intros c x a p E I. look k. { injection E as <-. now destruct a. } eapply (wf_ports h W); eauto.
  - intros c x a E. look k. { injection E as <-. destruct a; constructor. } exact (wf_pnames h W c x a E).
  - intros c x e E I. look k. { injection E as <-. now cbn in I. }
    destruct (wf_aconns h W c x e E I) as [[L1 R1] [L2 R2]].
    split; (split; [lia|]); [destruct R1 as [?|R1]|destruct R2 as [?|R2]]; auto; right; (eapply reachable_port_mono; [| |eassumption]); cbn; eauto.
  - intros c x s r E I. look k. { injection E as <-. now cbn in I. }
    destruct (wf_pconns h W c x s r E I) as [[L1 R1] [L2 R2]].
    split; (split; [lia|]); [destruct R1 as [?|R1]|destruct R2 as [?|R2]]; auto; right; (eapply reachable_port_mono; [| |eassumption]); cbn; eauto.
  - intros c x E. look k; [injection E as <-; now cbn|exact (wf_time h W c x E)].
Qed.

Lemma new_child_wf h n b p y : wf h -> h_comps h p = Some y -> c_composite y = true ->
  (forall c, In c (c_children y) -> nameOf h c <> Some n) ->
  wf (Heap (S (h_next h))
        (upd (upd (h_comps h) p (Some (with_children y (c_children y ++ [h_next h])))) (h_next h)
           (Some (Comp n (Some p) (c_time y) [] [] b [] [] []))) (h_ports h)).
Proof.
  intros W Ep Cy Nn. set (k := h_next h). pose proof (wf_fresh h W k (le_n k)) as [F1 F2].
  assert (NE : forall c x, h_comps h c = Some x -> c <> k) by (intros c x E ->; congruence).
  assert (LT : forall c x, h_comps h c = Some x -> c < k).
  { intros c x E. destruct (le_lt_dec k c) as [L|]; [|easy]. destruct (wf_fresh h W c L). congruence. }
  set (y' := with_children y (c_children y ++ [k])).
  set (f := upd (upd (h_comps h) p (Some y')) k (Some (Comp n (Some p) (c_time y) [] [] b [] [] []))).
  assert (OLD : forall c x, h_comps h c = Some x -> c <> p -> f c = Some x).
  { intros c x E N. unfold f. rewrite upd_other by eauto. now rewrite upd_other. }
  assert (AT : f p = Some y') by (unfold f; rewrite upd_other by eauto; apply upd_same).
  assert (NEW : f k = Some (Comp n (Some p) (c_time y) [] [] b [] [] [])) by (apply upd_same).
  assert (INV : forall c x, f c = Some x ->
     (c = k /\ x = Comp n (Some p) (c_time y) [] [] b [] [] []) \/ (c = p /\ x = y') \/ (h_comps h c = Some x /\ c <> p /\ c <> k)).
  { intros c x E. unfold f in E. look k. { left. split; [easy|congruence]. } look p; [right; left|right; right]; split; auto; congruence. }
  assert (FR : forall m, k < m -> f m = None /\ h_ports h m = None).
  { intros m Hm. unfold f. destruct (wf_fresh h W m ltac:(lia)) as [G1 G2]. rewrite upd_other by lia.
    rewrite upd_other; auto. intros ->. congruence. }
  clearbody f.
  assert (NM : forall c x, h_comps h c = Some x -> nameOf (Heap (S k) f (h_ports h)) c = nameOf h c).
  { intros c x E. unfold nameOf. cbn. rewrite E. destruct (Nat.eq_dec c p) as [->|N]; [|now rewrite (OLD c x E N)].
    rewrite AT. cbn. congruence. }
  assert (CH : forall d c, child_of h d c -> child_of (Heap (S k) f (h_ports h)) d c).
  { intros d c (x & E & P). destruct (Nat.eq_dec d p) as [->|N].
    - exists y'. cbn. split; [easy|]. assert (x = y) by congruence. now subst.
    - exists x. cbn. eauto. }
  split; cbn.
  - intros m Hm. apply FR. lia.
  - intros c x q E P. destruct (INV c x E) as [[-> ->]|[[-> ->]|(Ec & Np & Nk)]].
    + injection P as <-. split; [eauto|]. exists y'. split; [easy|]. split; [easy|]. split; [|easy]. cbn. apply in_app_iff. right. now left.
    + cbn in P. destruct (wf_parent h W p y q Ep P) as (L & z & Ez & ? & ? & ?). split; [easy|].
      exists z. split; [apply OLD; [easy|lia]|auto].
    + destruct (wf_parent h W c x q Ec P) as (L & z & Ez & ? & ? & ?). split; [easy|].
      destruct (Nat.eq_dec q p) as [->|N].
      * assert (z = y) by congruence. subst z. exists y'. split; [easy|]. split; [easy|]. split; [|easy]. cbn. apply in_app_iff. now left.
      * exists z. eauto.
  - intros q z c E I. destruct (INV q z E) as [[-> ->]|[[-> ->]|(Ec & Np & Nk)]].
    + now cbn in I.
    + cbn in I. apply in_app_iff in I. destruct I as [I|[<-|[]]].
      * destruct (wf_child h W p y c Ep I) as (x & Ex & P).
        assert (c <> p). { intros ->. destruct (wf_parent h W p x p Ex P). lia. } exists x. eauto.
      * eexists. split; [exact NEW|reflexivity].
    + destruct (wf_child h W q z c Ec I) as (x & Ex & P).
      destruct (CH c q) as (x' & ? & ?); [exists x; auto|]. exists x'. auto.
  - intros q z E. destruct (INV q z E) as [[-> ->]|[[-> ->]|(Ec & Np & Nk)]].
    + constructor.
    + cbn. rewrite map_app. cbn. unfold nameOf at 2. cbn. rewrite NEW. cbn. apply NoDup_snoc.
      * eapply NoDup_map_ext; [|eapply (wf_names h W); eauto]. intros c I.
        destruct (wf_child h W p y c Ep I) as (x & Ex & P). symmetry. eapply NM; eauto.
      * intros I. apply in_map_iff in I. destruct I as (c & Ec & I). apply (Nn c I).
        destruct (wf_child h W p y c Ep I) as (x & Ex & P). rewrite <- Ec. symmetry. eapply NM; eauto.
    + eapply NoDup_map_ext; [|eapply (wf_names h W); eauto]. intros c I.
      destruct (wf_child h W q z c Ec I) as (x & Ex & P). symmetry. eapply NM; eauto.
  - intros q z E. destruct (wf_port h W q z E) as (c & x & P & Ex & I). exists c.
    destruct (Nat.eq_dec c p) as [->|N]; [exists y'|exists x; eauto].
    assert (x = y) by congruence. subst x. split; [easy|]. split; [easy|]. now destruct (p_audio z).
  - intros c x a q E I. destruct (INV c x E) as [[-> ->]|[[-> ->]|(Ec & Np & Nk)]].
    + now destruct a.
    + apply (wf_ports h W p y a q Ep). now destruct a.
    + eapply (wf_ports h W); eauto.
  - intros c x a E. destruct (INV c x E) as [[-> ->]|[[-> ->]|(Ec & Np & Nk)]].
    + destruct a; constructor.
    + change (ports_of a y') with (ports_of a (with_children y (c_children y ++ [k]))).
      pose proof (wf_pnames h W p y a Ep). now destruct a.
    + exact (wf_pnames h W c x a Ec).
  - intros c x e E I.
    assert (exists x0, h_comps h c = Some x0 /\ In e (c_aconns x0)) as (x0 & E0 & I0).
    { destruct (INV c x E) as [[-> ->]|[[-> ->]|(Ec & Np & Nk)]]; [now cbn in I|exists y; auto|exists x; auto]. }
    destruct (wf_aconns h W c x0 e E0 I0) as [[L1 R1] [L2 R2]].
    split; (split; [lia|]); [destruct R1 as [?|R1]|destruct R2 as [?|R2]]; auto; right; (eapply reachable_port_mono; [| |eassumption]); cbn; eauto.
  - intros c x s r E I.
    assert (exists x0, h_comps h c = Some x0 /\ In (s, r) (c_pconns x0)) as (x0 & E0 & I0).
    { destruct (INV c x E) as [[-> ->]|[[-> ->]|(Ec & Np & Nk)]]; [now cbn in I|exists y; auto|exists x; auto]. }
    destruct (wf_pconns h W c x0 s r E0 I0) as [[L1 R1] [L2 R2]].
    split; (split; [lia|]); [destruct R1 as [?|R1]|destruct R2 as [?|R2]]; auto; right; (eapply reachable_port_mono; [| |eassumption]); cbn; eauto.
  - intros c x E. pose proof (wf_time h W p y Ep). pose proof (LT p y Ep).
    destruct (INV c x E) as [[-> ->]|[[-> ->]|(Ec & _)]]; cbn; [lia|easy|exact (wf_time h W c x Ec)].
Qed.

(** Deletion of a component. *)
Definition orphaned (l : list nat) (d : nat) (z : component) : component :=
  if existsb (Nat.eqb d) l then with_parent z None else z.
Definition deprived (c : nat) (parent : option nat) (d : nat) (z : component) : component :=
  match parent with
  | Some p => if Nat.eqb d p then with_children z (erasePort c (c_children z)) else z
  | None => z
  end.

Lemma existsb_In d l : existsb (Nat.eqb d) l = true <-> In d l.
Proof.
  rewrite existsb_exists. split.
  - intros (e & I & E). apply Nat.eqb_eq in E. now subst.
  - intros I. exists d. split; [easy|]. apply Nat.eqb_refl.
Qed.
Lemma existsb_not_In d l : existsb (Nat.eqb d) l = false <-> ~ In d l.
Proof. rewrite <- existsb_In. now destruct (existsb (Nat.eqb d) l). Qed.

Lemma orphan_spec l : forall h, NoDup l -> (forall c, In c l -> exists x, h_comps h c = Some x) ->
  exists h', orphan h l = Ok h' /\ h_next h' = h_next h /\ h_ports h' = h_ports h /\
    forall d, h_comps h' d = option_map (orphaned l d) (h_comps h d).
Proof.
  induction l as [|c l IH]; intros h D L; cbn [orphan].
  - exists h. repeat (split; [easy|]). intros d. now destruct (h_comps h d).
  - apply NoDup_cons_iff in D. destruct D as [N D]. destruct (L c (or_introl eq_refl)) as [x Ex].
    unfold comp_at. rewrite Ex. cbn [bind].
    destruct (IH (set_comp h c (Some (with_parent x None)))) as (h' & E & E1 & E2 & E3); [easy| |].
    { intros d I. cbn. look c; eauto. apply L. now right. }
    exists h'. split; [easy|]. split; [easy|]. split; [easy|]. intros d. rewrite E3. cbn. look c.
    + rewrite Ex. cbn. unfold orphaned. cbn. rewrite Nat.eqb_refl. cbn.
      apply existsb_not_In in N. now rewrite N.
    + destruct (h_comps h d); [|easy]. cbn. unfold orphaned. cbn. apply Nat.eqb_neq in n. now rewrite n.
Qed.

Lemma delete_spec h c x : wf h -> h_comps h c = Some x ->
  exists h', deleteComponent h c = Ok h' /\ h_next h' = h_next h /\ h_ports h' = h_ports h /\ h_comps h' c = None /\
    forall d, d <> c -> h_comps h' d = option_map (fun z => deprived c (c_parent x) d (orphaned (c_children x) d z)) (h_comps h d).
Proof.
  intros W Ex. unfold deleteComponent, comp_at at 1. rewrite Ex. cbn [bind].
  destruct (orphan_spec (c_children x) h) as (h1 & E1 & N1 & P1 & C1).
  { eapply NoDup_children; eauto. } { intros d I. destruct (wf_child h W c x d Ex I) as (z & ? & ?). eauto. }
  rewrite E1. cbn [bind].
  assert (NC : ~ In c (c_children x)).
  { intros I. destruct (wf_child h W c x c Ex I) as (z & Ez & Pz). destruct (wf_parent h W c z c Ez Pz). lia. }
  assert (Ec : h_comps h1 c = Some x).
  { rewrite C1, Ex. cbn. unfold orphaned. apply existsb_not_In in NC. now rewrite NC. }
  unfold comp_at at 1. rewrite Ec. cbn [bind].
  destruct (c_parent x) as [p|] eqn:Px.
  - destruct (wf_parent h W c x p Ex Px) as (L & y & Ey & Cy & Iy & Ty).
    assert (NP : ~ In p (c_children x)).
    { intros I. destruct (wf_child h W c x p Ex I) as (z & Ez & Pz). destruct (wf_parent h W p z c Ez Pz). lia. }
    assert (Ep : h_comps h1 p = Some y).
    { rewrite C1, Ey. cbn. unfold orphaned. apply existsb_not_In in NP. now rewrite NP. }
    unfold unregisterChildComponent, comp_at. rewrite Ep, Ec. cbn [bind].
    assert (NM : forall d, nameOf h1 d = nameOf h d).
    { intros d. unfold nameOf. rewrite C1. destruct (h_comps h d) as [z|]; [|easy]. cbn. unfold orphaned. now destruct (existsb _ _). }
    rewrite (eraseEntry_spec h1 c x); [|easy|easy| |].
    2:{ intros d I. destruct (wf_child h W p y d Ey I) as (z & Ez & _). rewrite C1, Ez. cbn. eauto. }
    2:{ eapply NoDup_map_ext; [|eapply (wf_names h W); eauto]. intros d _. now rewrite NM. }
    cbn [bind]. eexists. split; [reflexivity|]. split; [easy|]. split; [easy|]. cbn. split; [apply upd_same|].
    intros d Nd. rewrite upd_other by easy. look p.
    + rewrite Ey. cbn. rewrite Nat.eqb_refl. unfold orphaned. apply existsb_not_In in NP. now rewrite NP.
    + rewrite C1. destruct (h_comps h d); [|easy]. cbn. apply Nat.eqb_neq in n. now rewrite n.
  - cbn [bind]. eexists. split; [reflexivity|]. split; [easy|]. split; [easy|]. cbn. split; [apply upd_same|].
    intros d Nd. rewrite upd_other by easy. now rewrite C1.
Qed.

Lemma delete_wf h h' c x : wf h -> h_comps h c = Some x -> (forall p a, ~ port_of h p c a) ->
  h_next h' = h_next h -> h_ports h' = h_ports h -> h_comps h' c = None ->
  (forall d, d <> c -> h_comps h' d = option_map (fun z => deprived c (c_parent x) d (orphaned (c_children x) d z)) (h_comps h d)) ->
  wf h'.
Proof.
  intros W Ex NP N P C0 C.
  set (g := fun d z => deprived c (c_parent x) d (orphaned (c_children x) d z)).
  change (forall d, d <> c -> h_comps h' d = option_map (g d) (h_comps h d)) in C.
  assert (G : forall d z, c_name (g d z) = c_name z /\ c_time (g d z) = c_time z /\ c_composite (g d z) = c_composite z /\
     (forall a, ports_of a (g d z) = ports_of a z) /\ c_aconns (g d z) = c_aconns z /\ c_pconns (g d z) = c_pconns z).
  { intros d z. unfold g, deprived, orphaned. destruct (c_parent x) as [p|]; [destruct (Nat.eqb d p)|]; destruct (existsb _ _); 
    (split; [reflexivity|split; [reflexivity|split; [reflexivity|split; [intros [|]; reflexivity|split; reflexivity]]]]). }
  assert (GC : forall d z e, h_comps h d = Some z -> In e (c_children (g d z)) <-> In e (c_children z) /\ e <> c).
  { intros d z e Ez. assert (c_children (orphaned (c_children x) d z) = c_children z) as Eo by (unfold orphaned; now destruct (existsb _ _)).
    assert (In c (c_children z) -> c_parent x = Some d) as Q.
    { intros I. destruct (wf_child h W d z c Ez I) as (x' & Ex' & Px'). congruence. }
    unfold g, deprived. destruct (c_parent x) as [p|]; [destruct (Nat.eqb_spec d p) as [->|Nd]|]; cbn; rewrite Eo.
    - apply erasePort_In. eapply NoDup_children; eauto.
    - split; [|tauto]. intros I. split; [easy|]. intros ->. specialize (Q I). congruence.
    - split; [|tauto]. intros I. split; [easy|]. intros ->. specialize (Q I). congruence. }
  assert (GS : forall d z f, h_comps h d = Some z -> NoDup (map f (c_children z)) -> NoDup (map (f : nat -> option string) (c_children (g d z)))).
  { intros d z f Ez D. unfold g, deprived, orphaned. destruct (c_parent x) as [p|]; [destruct (Nat.eqb d p)|]; destruct (existsb _ _); cbn; auto using @NoDup_map_erase. }
  assert (GP : forall d z, h_comps h d = Some z -> c_parent (g d z) = if existsb (Nat.eqb d) (c_children x) then None else c_parent z).
  { intros d z Ez. unfold g, deprived, orphaned. destruct (c_parent x) as [p|]; [destruct (Nat.eqb d p)|]; now destruct (existsb _ _). }
  assert (PC : forall d z, h_comps h d = Some z -> c_parent z = Some c <-> In d (c_children x)).
  { intros d z Ez. split.
    - intros Pz. destruct (wf_parent h W d z c Ez Pz) as (_ & y & Ey & _ & I & _). congruence.
    - intros I. destruct (wf_child h W c x d Ex I) as (z' & Ez' & Pz'). congruence. }
  clearbody g.
  assert (INV : forall d z', h_comps h' d = Some z' -> d <> c /\ exists z, h_comps h d = Some z /\ z' = g d z).
  { intros d z' E. destruct (Nat.eq_dec d c) as [->|Nd]; [congruence|]. split; [easy|]. rewrite C in E by easy.
    destruct (h_comps h d) as [z|]; [|easy]. injection E as <-. eauto. }
  assert (FWD : forall d z, h_comps h d = Some z -> d <> c -> h_comps h' d = Some (g d z)).
  { intros d z E Nd. rewrite C, E; easy. }
  assert (CH : forall d e, child_of h d e -> d <> c -> e <> c -> child_of h' d e).
  { intros d e (z & Ez & Pz) Nd Ne. exists (g d z). split; [auto|]. rewrite (GP d z Ez).
    destruct (existsb _ _) eqn:B; [|easy]. apply existsb_In in B. apply (PC d z Ez) in B. congruence. }
  assert (RP : forall e s a, e <> c -> h_ports h s = None \/ reachable_port h e s a -> h_ports h' s = None \/ reachable_port h' e s a).
  { intros e s a Ne [R|R]; [left; now rewrite P|right]. destruct R as (q & Pq & Q). exists q. split.
    - destruct Pq as (y & ? & ? & ?). exists y. now rewrite P.
    - destruct Q as [->|Q]; [now left|right]. apply CH; auto. intros ->. now apply (NP s a). }
  split.
  - intros n Hn. rewrite N in Hn. destruct (wf_fresh h W n Hn) as [F1 F2]. rewrite P. split; [|easy].
    destruct (Nat.eq_dec n c) as [->|Nn]; [easy|]. now rewrite C, F1.
  - intros d z' q E Pq. destruct (INV d z' E) as (Nd & z & Ez & ->). rewrite (GP d z Ez) in Pq.
    destruct (existsb _ _) eqn:B; [easy|]. apply existsb_not_In in B. rewrite <- (PC d z Ez) in B.
    destruct (wf_parent h W d z q Ez Pq) as (L & y & Ey & Cy & Iy & Ty). split; [easy|].
    assert (q <> c) by congruence. exists (g q y). destruct (G q y) as (_ & G2 & G3 & _). destruct (G d z) as (_ & G2' & _).
    split; [auto|]. split; [congruence|]. split; [|congruence]. apply GC; auto.
  - intros q y' d E I. destruct (INV q y' E) as (Nq & y & Ey & ->). apply (GC q y d Ey) in I. destruct I as [I Nd].
    destruct (wf_child h W q y d Ey I) as (z & Ez & Pz). apply CH; auto. exists z. auto.
  - intros q y' E. destruct (INV q y' E) as (Nq & y & Ey & ->).
    eapply NoDup_map_ext; [|apply (GS q y _ Ey); apply (wf_names h W q y Ey)].
    intros d I. apply (GC q y d Ey) in I. destruct I as [I Nd].
    destruct (wf_child h W q y d Ey I) as (z & Ez & Pz). unfold nameOf. rewrite (FWD d z Ez Nd), Ez. cbn.
    destruct (G d z) as (G1 & _). now rewrite G1.
  - intros p y E. rewrite P in E. destruct (wf_port h W p y E) as (d & z & Pp & Ez & I).
    exists d, (g d z). split; [easy|]. split.
    + apply FWD; [easy|]. intros ->. apply (NP p (p_audio y)). exists y. auto.
    + destruct (G d z) as (_ & _ & _ & G4 & _). now rewrite G4.
  - intros d z' a p E I. destruct (INV d z' E) as (Nd & z & Ez & ->). destruct (G d z) as (_ & _ & _ & G4 & _).
    rewrite G4 in I. rewrite P. eapply (wf_ports h W); eauto.
  - intros d z' a E. destruct (INV d z' E) as (Nd & z & Ez & ->). destruct (G d z) as (_ & _ & _ & G4 & _).
    rewrite G4. unfold pnameOf. rewrite P. exact (wf_pnames h W d z a Ez).
  - intros d z' e E I. destruct (INV d z' E) as (Nd & z & Ez & ->). destruct (G d z) as (_ & _ & _ & _ & G5 & _).
    rewrite G5 in I. destruct (wf_aconns h W d z e Ez I) as [[L1 R1] [L2 R2]]. rewrite N. auto.
  - intros d z' s r E I. destruct (INV d z' E) as (Nd & z & Ez & ->). destruct (G d z) as (_ & _ & _ & _ & _ & G6).
    rewrite G6 in I. destruct (wf_pconns h W d z s r Ez I) as [[L1 R1] [L2 R2]]. rewrite N. auto.
  - intros d z' E. destruct (INV d z' E) as (Nd & z & Ez & ->). destruct (G d z) as (_ & G2 & _). rewrite G2. exact (wf_time h W d z Ez).
Qed.

(** Operations that leave the tree of components as it is. *)
Definition tree_part (x : component) := (c_name x, c_parent x, c_time x, c_composite x, c_children x).
Definition agree (h h' : heap) : Prop :=
  forall d, option_map tree_part (h_comps h' d) = option_map tree_part (h_comps h d).

Lemma agree_at h h' d x : agree h h' -> h_comps h d = Some x ->
  exists x', h_comps h' d = Some x' /\ c_name x' = c_name x /\ c_parent x' = c_parent x /\ c_time x' = c_time x /\
    c_composite x' = c_composite x /\ c_children x' = c_children x.
Proof.
  intros A E. specialize (A d). rewrite E in A. destruct (h_comps h' d) as [x'|]; [|easy]. cbn in A. unfold tree_part in A.
  injection A as A1 A2 A3 A4 A5. exists x'. auto 10.
Qed.
Lemma agree_sym h h' : agree h h' -> agree h' h.
Proof. intros A d. symmetry. apply A. Qed.
Lemma agree_child h h' d e : agree h h' -> child_of h d e -> child_of h' d e.
Proof. intros A (x & E & P). destruct (agree_at h h' d x A E) as (x' & E' & _ & P' & _). exists x'. split; [easy|congruence]. Qed.
Lemma agree_name h h' d : agree h h' -> nameOf h' d = nameOf h d.
Proof.
  intros A. specialize (A d). unfold nameOf. destruct (h_comps h' d), (h_comps h d); try easy. cbn in *. unfold tree_part in A. congruence.
Qed.
Lemma agree_set h c x x' : h_comps h c = Some x -> tree_part x' = tree_part x -> agree h (set_comp h c (Some x')).
Proof. intros E T d. cbn. look c; [|easy]. rewrite E. cbn. congruence. Qed.

Lemma agree_wf h h' : wf h -> agree h h' ->
  (forall n, h_next h' <= n -> h_comps h' n = None /\ h_ports h' n = None) ->
  (forall p y, h_ports h' p = Some y -> exists c x, p_parent y = Some c /\ h_comps h' c = Some x /\ In p (ports_of (p_audio y) x)) ->
  (forall c x a p, h_comps h' c = Some x -> In p (ports_of a x) -> exists y, h_ports h' p = Some y /\ p_parent y = Some c /\ p_audio y = a) ->
  (forall c x a, h_comps h' c = Some x -> NoDup (map (pnameOf h') (ports_of a x))) ->
  (forall c x e, h_comps h' c = Some x -> In e (c_aconns x) ->
      (ac_send e < h_next h' /\ (h_ports h' (ac_send e) = None \/ reachable_port h' c (ac_send e) true)) /\
      (ac_receive e < h_next h' /\ (h_ports h' (ac_receive e) = None \/ reachable_port h' c (ac_receive e) true))) ->
  (forall c x s r, h_comps h' c = Some x -> In (s, r) (c_pconns x) ->
      (s < h_next h' /\ (h_ports h' s = None \/ reachable_port h' c s false)) /\
      (r < h_next h' /\ (h_ports h' r = None \/ reachable_port h' c r false))) ->
  wf h'.
Proof.
  intros W A F P1 P2 P3 A1 A2. pose proof (agree_sym h h' A) as A'. split; auto.
  - intros c x p E P. destruct (agree_at h' h c x A' E) as (z & Ez & _ & Pz & Tz & _). rewrite <- Pz in P.
    destruct (wf_parent h W c z p Ez P) as (L & y & Ey & Cy & Iy & Ty). split; [easy|].
    destruct (agree_at h h' p y A Ey) as (y' & Ey' & _ & _ & Ty' & Cy' & Iy'). exists y'.
    split; [easy|]. split; [congruence|]. split; congruence.
  - intros p y c E I. destruct (agree_at h' h p y A' E) as (z & Ez & _ & _ & _ & _ & Iz). rewrite <- Iz in I.
    apply (agree_child h h' c p A). apply (wf_child h W p z c Ez I).
  - intros p y E. destruct (agree_at h' h p y A' E) as (z & Ez & _ & _ & _ & _ & Iz). rewrite <- Iz.
    eapply NoDup_map_ext; [|apply (wf_names h W p z Ez)]. intros c _. symmetry. now apply agree_name.
  - intros c x E. destruct (agree_at h' h c x A' E) as (z & Ez & _ & _ & Tz & _). rewrite <- Tz. exact (wf_time h W c z Ez).
Qed.

Lemma lt_next h p y : wf h -> h_ports h p = Some y -> p < h_next h.
Proof. intros W E. destruct (le_lt_dec (h_next h) p) as [L|]; [|easy]. destruct (wf_fresh h W p L). congruence. Qed.

Lemma ports_of_with a b x l : ports_of b (with_ports a x l) = if Bool.eqb a b then l else ports_of b x.
Proof. now destruct a, b. Qed.
Lemma with_ports_tree a x l : tree_part (with_ports a x l) = tree_part x.
Proof. now destruct a. Qed.
Lemma with_ports_conns a x l : c_aconns (with_ports a x l) = c_aconns x /\ c_pconns (with_ports a x l) = c_pconns x.
Proof. now destruct a. Qed.

(** Connections. *)
Lemma conns_wf h c x x' : wf h -> h_comps h c = Some x -> tree_part x' = tree_part x ->
  (forall a, ports_of a x' = ports_of a x) ->
  (forall e, In e (c_aconns x') -> In e (c_aconns x) \/ (reachable_port h c (ac_send e) true /\ reachable_port h c (ac_receive e) true)) ->
  (forall s r, In (s, r) (c_pconns x') -> In (s, r) (c_pconns x) \/ (reachable_port h c s false /\ reachable_port h c r false)) ->
  wf (set_comp h c (Some x')).
Proof.
  intros W E T PO A1 A2. pose proof (agree_set h c x x' E T) as A.
  assert (RP : forall d s a, reachable_port h d s a -> reachable_port (set_comp h c (Some x')) d s a).
  { intros d s a (q & (y & ?) & Q). exists q. split; [exists y; easy|]. destruct Q as [->|Q]; [now left|right]. eapply agree_child; eauto. }
  assert (RN : forall d s a, h_ports h s = None \/ reachable_port h d s a -> h_ports (set_comp h c (Some x')) s = None \/ reachable_port (set_comp h c (Some x')) d s a).
  { intros d s a [?|?]; [left|right]; auto. }
  assert (RL : forall d s a, reachable_port h d s a -> s < h_next h).
  { intros d s a (q & (y & Ey & _) & _). eapply lt_next; eauto. }
  apply (agree_wf h); auto.
  - intros n Hn. destruct (wf_fresh h W n Hn). cbn. rewrite upd_other; [easy|]. intros ->. congruence.
  - intros p y Ep. destruct (wf_port h W p y Ep) as (d & z & P & Ez & I). exists d. cbn. look c; [|eauto].
    exists x'. rewrite PO. assert (z = x) by congruence. now subst.
  - intros d z a p Ez I. cbn in Ez. look c; [|eapply (wf_ports h W); eauto].
    injection Ez as <-. rewrite PO in I. eapply (wf_ports h W); eauto.
  - intros d z a Ez. cbn in Ez. change (pnameOf (set_comp h c (Some x'))) with (pnameOf h).
    look c; [|eapply (wf_pnames h W); eauto]. injection Ez as <-. rewrite PO. eapply (wf_pnames h W); eauto.
  - intros d z e Ez I. cbn in Ez. cbn [h_next set_comp]. look c.
    + injection Ez as <-. destruct (A1 e I) as [I'|[R1 R2]].
      * destruct (wf_aconns h W c x e E I') as [[? ?] [? ?]]. auto.
      * split; (split; [eauto|right; auto]).
    + destruct (wf_aconns h W d z e Ez I) as [[? ?] [? ?]]. auto.
  - intros d z s r Ez I. cbn in Ez. cbn [h_next set_comp]. look c.
    + injection Ez as <-. destruct (A2 s r I) as [I'|[R1 R2]].
      * destruct (wf_pconns h W c x s r E I') as [[? ?] [? ?]]. auto.
      * split; (split; [eauto|right; auto]).
    + destruct (wf_pconns h W d z s r Ez I) as [[? ?] [? ?]]. auto.
Qed.

(** A new port. *)
Lemma new_port_wf h n c x a w : wf h -> h_comps h c = Some x ->
  (forall p, In p (ports_of a x) -> pnameOf h p <> Some n) ->
  wf (Heap (S (h_next h)) (upd (h_comps h) c (Some (with_ports a x (ports_of a x ++ [h_next h]))))
        (upd (h_ports h) (h_next h) (Some (Port n (Some c) a w)))).
Proof.
  intros W E Nn. set (k := h_next h). pose proof (wf_fresh h W k (le_n k)) as [F1 F2].
  set (x' := with_ports a x (ports_of a x ++ [k])).
  set (h' := Heap _ _ _).
  assert (A : agree h h') by (apply (agree_set h c x x' E), with_ports_tree).
  assert (RP : forall d s b, h_ports h s = None \/ reachable_port h d s b -> s < k -> h_ports h' s = None \/ reachable_port h' d s b).
  { intros d s b R L. unfold h'. cbn. destruct R as [?|R]; [left; rewrite upd_other; [easy|lia]|right].
    eapply reachable_port_mono; [| |exact R].
    - intros y Ey. exists y. cbn. rewrite upd_other; [easy|lia].
    - intros e. now apply agree_child. }
  assert (PO : forall b, ports_of b x' = if Bool.eqb a b then ports_of b x ++ [k] else ports_of b x).
  { intros b. unfold x'. rewrite ports_of_with. now destruct a, b. }
  destruct (with_ports_conns a x (ports_of a x ++ [k])) as [C1 C2]. fold x' in C1, C2. clearbody x'.
  apply (agree_wf h); auto.
  - intros m Hm. cbn in *. destruct (wf_fresh h W m ltac:(lia)). rewrite !upd_other; [easy|lia|]. intros ->. congruence.
  - intros p y Ep. cbn in Ep. look k.
    + injection Ep as <-. exists c, x'. cbn. rewrite upd_same. split; [easy|]. split; [easy|].
      rewrite PO, Bool.eqb_reflx. apply in_app_iff. right. now left.
    + destruct (wf_port h W p y Ep) as (d & z & P & Ez & I). exists d. cbn. look c; [|eauto].
      exists x'. split; [easy|]. split; [easy|]. assert (z = x) by congruence. subst z. rewrite PO.
      destruct (Bool.eqb _ _); [|easy]. apply in_app_iff. now left.
  - intros d z b p Ez I. cbn in Ez. cbn. look c.
    + injection Ez as <-. rewrite PO in I. destruct (Bool.eqb a b) eqn:B.
      * apply Bool.eqb_prop in B. subst b. apply in_app_iff in I. destruct I as [I|[<-|[]]].
        -- destruct (wf_ports h W c x a p E I) as (y & Ey & ?). exists y. rewrite upd_other; [easy|]. intros ->. congruence.
        -- rewrite upd_same. eauto.
      * destruct (wf_ports h W c x b p E I) as (y & Ey & ?). exists y. rewrite upd_other; [easy|]. intros ->. congruence.
    + destruct (wf_ports h W d z b p Ez I) as (y & Ey & ?). exists y. rewrite upd_other; [easy|]. intros ->. congruence.
  - intros d z b Ez. cbn in Ez.
    assert (NM : forall e u b', h_comps h e = Some u -> forall p, In p (ports_of b' u) -> pnameOf h p = pnameOf h' p).
    { intros e u b' Eu p I. destruct (wf_ports h W e u b' p Eu I) as (y & Ey & _). unfold pnameOf. cbn. rewrite upd_other; [easy|]. intros ->. congruence. }
    look c.
    + injection Ez as <-. rewrite PO. destruct (Bool.eqb a b) eqn:B.
      * apply Bool.eqb_prop in B. subst b. rewrite map_app. apply NoDup_snoc.
        -- eapply NoDup_map_ext; [|eapply (wf_pnames h W); eauto]. eauto.
        -- intros I. apply in_map_iff in I. destruct I as (p & Ip & I). apply (Nn p I).
           rewrite (NM c x a E p I), Ip. unfold pnameOf. cbn. now rewrite upd_same.
      * eapply NoDup_map_ext; [|eapply (wf_pnames h W); eauto]. eauto.
    + eapply NoDup_map_ext; [|eapply (wf_pnames h W); eauto]. eauto.
  - intros d z e Ez I. cbn in Ez.
    assert (exists u, h_comps h d = Some u /\ In e (c_aconns u)) as (u & Eu & Iu).
    { look c; [|eauto]. injection Ez as <-. rewrite C1 in I. eauto. }
    destruct (wf_aconns h W d u e Eu Iu) as [[L1 R1] [L2 R2]]. cbn [h_next h'].
    split; (split; [unfold h'; cbn; fold k in L1, L2; lia|auto]).
  - intros d z s r Ez I. cbn in Ez.
    assert (exists u, h_comps h d = Some u /\ In (s, r) (c_pconns u)) as (u & Eu & Iu).
    { look c; [|eauto]. injection Ez as <-. rewrite C2 in I. eauto. }
    destruct (wf_pconns h W d u s r Eu Iu) as [[L1 R1] [L2 R2]].
    split; (split; [unfold h'; cbn; fold k in L1, L2; lia|auto]).
Qed.

(** Deletion of a port. *)
Lemma delete_port_wf h p y c x : wf h -> h_ports h p = Some y -> p_parent y = Some c -> h_comps h c = Some x ->
  wf (set_port (set_comp h c (Some (with_ports (p_audio y) x (erasePort p (ports_of (p_audio y) x))))) p None).
Proof.
  intros W Ep Pp E. set (a := p_audio y). set (x' := with_ports a x (erasePort p (ports_of a x))).
  set (h' := set_port _ _ _).
  assert (A : agree h h') by (apply (agree_set h c x x' E), with_ports_tree).
  assert (RP : forall d s b, h_ports h s = None \/ reachable_port h d s b -> h_ports h' s = None \/ reachable_port h' d s b).
  { intros d s b R. unfold h'. cbn. destruct (Nat.eq_dec s p) as [->|Ns]; [left; apply upd_same|]. rewrite upd_other by easy.
    destruct R as [?|R]; [now left|right]. eapply reachable_port_mono; [| |exact R].
    - intros z Ez. exists z. cbn. now rewrite upd_other.
    - intros e. now apply agree_child. }
  assert (PO : forall b q, In q (ports_of b x') <-> In q (ports_of b x) /\ q <> p).
  { intros b q. unfold x'. rewrite ports_of_with. destruct (Bool.eqb a b) eqn:B.
    - apply Bool.eqb_prop in B. subst b. apply erasePort_In. eapply NoDup_portlist; eauto.
    - split; [|tauto]. intros I. split; [easy|]. intros ->.
      destruct (wf_ports h W c x b p E I) as (z & Ez & _ & Az). assert (z = y) by congruence. subst z.
      unfold a in B. rewrite Az, Bool.eqb_reflx in B. discriminate. }
  assert (PD : forall b, NoDup (map (pnameOf h) (ports_of b x'))).
  { intros b. unfold x'. rewrite ports_of_with. destruct (Bool.eqb a b) eqn:B; [|eapply (wf_pnames h W); eauto].
    apply Bool.eqb_prop in B. subst b. apply NoDup_map_erase. eapply (wf_pnames h W); eauto. }
  destruct (with_ports_conns a x (erasePort p (ports_of a x))) as [C1 C2]. fold x' in C1, C2. clearbody x'.
  apply (agree_wf h); auto.
  - intros m Hm. cbn in *. destruct (wf_fresh h W m Hm). split; [rewrite upd_other; [easy|intros ->; congruence]|]. look p; [easy|easy].
  - intros q z Eq. cbn in Eq. look p; [discriminate|].
    destruct (wf_port h W q z Eq) as (d & u & P & Eu & I). exists d. cbn. look c; [|eauto].
    exists x'. split; [easy|]. split; [easy|]. apply PO. split; [|easy]. congruence.
  - intros d z b q Ez I. cbn in Ez. cbn. look c.
    + injection Ez as <-. apply PO in I. destruct I as [I Nq]. rewrite upd_other by easy. eapply (wf_ports h W); eauto.
    + rewrite upd_other; [eapply (wf_ports h W); eauto|]. intros ->.
      destruct (wf_ports h W d z b p Ez I) as (u & Eu & Pu & _). congruence.
  - intros d z b Ez. cbn in Ez. look c.
    + injection Ez as <-. eapply NoDup_map_ext; [|apply PD]. intros q I. apply PO in I. destruct I as [I Nq].
      unfold pnameOf. cbn. now rewrite upd_other.
    + eapply NoDup_map_ext; [|eapply (wf_pnames h W); eauto]. intros q I. unfold pnameOf. cbn. rewrite upd_other; [easy|].
      intros ->. destruct (wf_ports h W d z b p Ez I) as (u & Eu & Pu & _). congruence.
  - intros d z e Ez I. cbn in Ez.
    assert (exists u, h_comps h d = Some u /\ In e (c_aconns u)) as (u & Eu & Iu).
    { look c; [|eauto]. injection Ez as <-. rewrite C1 in I. eauto. }
    destruct (wf_aconns h W d u e Eu Iu) as [[L1 R1] [L2 R2]]. auto.
  - intros d z s r Ez I. cbn in Ez.
    assert (exists u, h_comps h d = Some u /\ In (s, r) (c_pconns u)) as (u & Eu & Iu).
    { look c; [|eauto]. injection Ez as <-. rewrite C2 in I. eauto. }
    destruct (wf_pconns h W d u s r Eu Iu) as [[L1 R1] [L2 R2]]. auto.
Qed.

(** A change of width. *)
Lemma set_width_wf h p y w : wf h -> h_ports h p = Some y ->
  wf (set_port h p (Some (Port (p_name y) (p_parent y) (p_audio y) w))).
Proof.
  intros W Ep. set (y' := Port _ _ _ w). set (h' := set_port _ _ _).
  assert (A : agree h h') by easy.
  assert (PP : forall q z, h_ports h q = Some z -> exists z', h_ports h' q = Some z' /\ p_parent z' = p_parent z /\ p_audio z' = p_audio z).
  { intros q z Ez. unfold h'. cbn. look p; [|eauto]. assert (z = y) by congruence. subst z. exists y'. auto. }
  assert (PN : forall q, h_ports h q = None -> h_ports h' q = None).
  { intros q Ez. unfold h'. cbn. look p; [congruence|easy]. }
  assert (RP : forall d s b, h_ports h s = None \/ reachable_port h d s b -> h_ports h' s = None \/ reachable_port h' d s b).
  { intros d s b [R|R]; [left; auto|right]. eapply reachable_port_mono; [| |exact R]; eauto. }
  assert (NM : forall q, pnameOf h' q = pnameOf h q).
  { intros q. unfold pnameOf, h'. cbn. look p; [now rewrite Ep|easy]. }
  apply (agree_wf h); auto.
  - intros n Hn. destruct (wf_fresh h W n Hn). split; auto.
  - intros q z Ez. unfold h' in Ez. cbn in Ez. look p; [|apply (wf_port h W q z Ez)].
    injection Ez as <-. exact (wf_port h W p y Ep).
  - intros d x a q Ex I. destruct (wf_ports h W d x a q Ex I) as (z & Ez & ? & ?).
    destruct (PP q z Ez) as (z' & ? & ? & ?). exists z'. split; [easy|]. split; congruence.
  - intros d x a Ex. eapply NoDup_map_ext; [|eapply (wf_pnames h W); eauto]. intros; now rewrite NM.
  - intros d x e Ex I. destruct (wf_aconns h W d x e Ex I) as [[? ?] [? ?]]. auto.
  - intros d x s r Ex I. destruct (wf_pconns h W d x s r Ex I) as [[? ?] [? ?]]. auto.
Qed.
