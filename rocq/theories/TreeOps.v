(** The outcome of every operation in a well formed state. *)

From Coq Require Import String Lia.
From Verif Require Import Base TreeModel TreeSpec TreeProofs.
Local Open Scope res_scope.

Lemma child_In h c p y : wf h -> h_comps h p = Some y -> child_of h c p <-> In c (c_children y).
Proof.
  intros W Ey. split.
  - intros (x & Ex & Px). destruct (wf_parent h W c x p Ex Px) as (_ & z & Ez & _ & I & _). congruence.
  - intros I. apply (wf_child h W p y c Ey I).
Qed.
Lemma name_nameOf h c n : name_is h c n <-> nameOf h c = Some n.
Proof.
  unfold name_is, nameOf. split.
  - intros (x & -> & <-). easy.
  - destruct (h_comps h c) as [x|]; [|easy]. intros [= <-]. eauto.
Qed.
Lemma port_In h p c a x : wf h -> h_comps h c = Some x -> port_of h p c a <-> In p (ports_of a x).
Proof.
  intros W Ex. split.
  - intros (y & Ey & Py & <-). destruct (wf_port h W p y Ey) as (d & z & Pd & Ez & I). congruence.
  - intros I. destruct (wf_ports h W c x a p Ex I) as (y & ? & ? & ?). exists y. auto.
Qed.
Lemma port_name_nameOf h p n : port_name_is h p n <-> pnameOf h p = Some n.
Proof.
  unfold port_name_is, pnameOf. split.
  - intros (x & -> & <-). easy.
  - destruct (h_ports h p) as [x|]; [|easy]. intros [= <-]. eauto.
Qed.

Lemma NoDup_map_same {A B} (f : A -> B) l a b : NoDup (map f l) -> In a l -> In b l -> f a = f b -> a = b.
Proof.
  induction l as [|c l IH]; cbn; [easy|]. intros D. apply NoDup_cons_iff in D. destruct D as [N D].
  intros [->|Ia] [->|Ib] E; auto.
  - destruct N. rewrite E. now apply in_map.
  - destruct N. rewrite <- E. now apply in_map.
Qed.

(** Names identify children and ports. *)
Lemma sibling_names h a b p n : wf h -> child_of h a p -> child_of h b p -> name_is h a n -> name_is h b n -> a = b.
Proof.
  intros W Ha Hb Na Nb. destruct Ha as (xa & Ea & Pa). destruct (wf_parent h W a xa p Ea Pa) as (_ & y & Ey & _ & Ia & _).
  apply (child_In h b p y W Ey) in Hb. apply name_nameOf in Na, Nb.
  eapply (NoDup_map_same (nameOf h)); [exact (wf_names h W p y Ey)|easy|easy|congruence].
Qed.
Lemma port_names h p q c a n : wf h -> port_of h p c a -> port_of h q c a -> port_name_is h p n -> port_name_is h q n -> p = q.
Proof.
  intros W Hp Hq Np Nq. destruct Hp as (y & Ey & Py & Ay). destruct (wf_port h W p y Ey) as (d & x & Pd & Ex & I).
  assert (d = c) by congruence. subst d. rewrite Ay in I. apply (port_In h q c a x W Ex) in Hq.
  apply port_name_nameOf in Np, Nq.
  eapply (NoDup_map_same (pnameOf h)); [exact (wf_pnames h W c x a Ex)|easy|easy|congruence].
Qed.

(** *** New components *)

Lemma new_child_outcome h n b p y : wf h -> h_comps h p = Some y ->
  ((exists c, child_of h c p /\ name_is h c n) /\ newComponent h n (Some p) b = Throw InvalidArgument) \/
  ((forall c, child_of h c p -> ~ name_is h c n) /\
   newComponent h n (Some p) b =
     Ok (Heap (S (h_next h))
        (upd (upd (h_comps h) p (Some (with_children y (c_children y ++ [h_next h])))) (h_next h)
           (Some (Comp n (Some p) (c_time y) [] [] b [] [] []))) (h_ports h), h_next h)).
Proof.
  intros W Ey. unfold newComponent, registerChildComponent, comp_at. rewrite Ey. cbn [bind].
  destruct (findComponentEntry_spec h n (c_children y)) as (r & E & R).
  { intros c I. destruct (wf_child h W p y c Ey I) as (x & ? & _). eauto. }
  rewrite E. cbn [bind]. destruct r as [c|].
  - left. split; [|easy]. exists c. destruct R as [I N]. split; [now apply (child_In h c p y)|now apply name_nameOf].
  - right. split; [|easy]. intros c Hc. rewrite name_nameOf. apply R. now apply (child_In h c p y).
Qed.

(** *** New ports *)

Lemma new_port_outcome h n c x a w : wf h -> h_comps h c = Some x ->
  ((exists p, port_of h p c a /\ port_name_is h p n) /\ newPort h n c a w = Throw InvalidArgument) \/
  ((forall p, port_of h p c a -> ~ port_name_is h p n) /\
   newPort h n c a w =
     Ok (Heap (S (h_next h)) (upd (h_comps h) c (Some (with_ports a x (ports_of a x ++ [h_next h]))))
        (upd (h_ports h) (h_next h) (Some (Port n (Some c) a w))), h_next h)).
Proof.
  intros W Ex. unfold newPort, comp_at. rewrite Ex. cbn [bind].
  destruct (findPortEntry_spec h n (ports_of a x)) as (r & E & R).
  { intros p I. destruct (wf_ports h W c x a p Ex I) as (y & ? & _). eauto. }
  rewrite E. cbn [bind]. destruct r as [p|].
  - left. split; [|easy]. exists p. destruct R as [I N]. split; [now apply (port_In h p c a x)|now apply port_name_nameOf].
  - right. split; [|easy]. intros p Hp. rewrite port_name_nameOf. apply R. now apply (port_In h p c a x).
Qed.

(** *** Lookup *)

(** The component that a name stands for in [c]. *)
Definition designates (h : heap) (c : nat) (name : string) (d : nat) : Prop :=
  if orb (String.eqb name "") (String.eqb name "this") then d = c else child_of h d c /\ name_is h d name.

Lemma stands_designates h c name d : stands_for h c name d <-> designates h c name d.
Proof.
  unfold stands_for, designates. destruct (String.eqb_spec name ""), (String.eqb_spec name "this"); cbn [orb]; intuition.
Qed.

Lemma findComponent_outcome h c x name : wf h -> h_comps h c = Some x ->
  exists r, findComponent h c name = Ok r /\ forall d, r = Some d <-> designates h c name d.
Proof.
  intros W Ex. unfold findComponent, designates. destruct (orb _ _).
  - exists (Some c). split; [easy|]. intros d. split; [now intros [= ->]|now intros ->].
  - unfold comp_at. rewrite Ex. cbn [bind]. destruct (findComponentEntry_spec h name (c_children x)) as (r & E & R).
    { intros d I. destruct (wf_child h W c x d Ex I) as (z & ? & _). eauto. }
    exists r. split; [easy|]. intros d. destruct r as [e|].
    + destruct R as [I N]. apply (child_In h e c x W Ex) in I. apply name_nameOf in N. split.
      * intros [= ->]. auto.
      * intros [Hd Nd]. f_equal. eapply sibling_names; eauto.
    + split; [easy|]. intros [Hd Nd]. apply (child_In h d c x W Ex) in Hd. apply name_nameOf in Nd. now destruct (R d Hd).
Qed.

Lemma findPort_outcome h c x a name : wf h -> h_comps h c = Some x ->
  exists r, findPort h c a name = Ok r /\ forall p, r = Some p <-> port_of h p c a /\ port_name_is h p name.
Proof.
  intros W Ex. unfold findPort, comp_at. rewrite Ex. cbn [bind].
  destruct (findPortEntry_spec h name (ports_of a x)) as (r & E & R).
  { intros p I. destruct (wf_ports h W c x a p Ex I) as (y & ? & _). eauto. }
  exists r. split; [easy|]. intros p. destruct r as [q|].
  - destruct R as [I N]. apply (port_In h q c a x W Ex) in I. apply port_name_nameOf in N. split.
    + intros [= ->]. auto.
    + intros [Hp Np]. f_equal. eapply port_names; eauto.
  - split; [easy|]. intros [Hp Np]. apply (port_In h p c a x W Ex) in Hp. apply port_name_nameOf in Np. now destruct (R p Hp).
Qed.

Lemma designates_exists h c x name d : h_comps h c = Some x -> designates h c name d -> exists z, h_comps h d = Some z.
Proof. unfold designates. intros Ex. destruct (orb _ _); [intros ->; eauto|]. intros [(z & ? & _) _]. eauto. Qed.
Lemma designates_reachable h c name d p a : designates h c name d -> port_of h p d a -> reachable_port h c p a.
Proof. unfold designates. intros D P. exists d. split; [easy|]. destruct (orb _ _); [now left|right; apply D]. Qed.

Lemma findPortIn_outcome h c x a cn pn : wf h -> h_comps h c = Some x ->
  exists r, findPortIn h c a cn pn = Ok r /\
    forall p, r = Some p <-> exists d, designates h c cn d /\ port_of h p d a /\ port_name_is h p pn.
Proof.
  intros W Ex. unfold findPortIn. destruct (findComponent_outcome h c x cn W Ex) as (r & E & R). rewrite E. cbn [bind].
  destruct r as [d|].
  - assert (D : designates h c cn d) by now apply R. destruct (designates_exists h c x cn d Ex D) as [z Ez].
    destruct (findPort_outcome h d z a pn W Ez) as (r & E' & R'). exists r. split; [easy|]. intros p. rewrite R'. split.
    + intros P. exists d. auto.
    + intros (e & De & Pe). apply R in De. injection De as ->. easy.
  - exists None. split; [easy|]. intros p. split; [easy|]. intros (d & D & _). now apply R in D.
Qed.

(** *** Connections *)

Lemma checkPortParent_outcome h p c a : wf h -> exists_port h p a ->
  (reachable_port h c p a /\ checkPortParent h p c = Ok tt) \/
  (~ reachable_port h c p a /\ checkPortParent h p c = Throw InvalidArgument).
Proof.
  intros W (y & Ey & Ay). destruct (wf_port h W p y Ey) as (q & x & Pq & Ex & _).
  unfold checkPortParent, port_at. rewrite Ey. cbn [bind]. rewrite Pq.
  assert (PO : port_of h p q a) by (exists y; auto).
  assert (U : forall d b, port_of h p d b -> d = q) by (intros d b (z & Ez & Pz & _); congruence).
  destruct (Nat.eqb_spec q c) as [->|N].
  - left. split; [|easy]. exists c. auto.
  - unfold comp_at. rewrite Ex. cbn [bind].
    assert (NR : c_parent x <> Some c -> ~ reachable_port h c p a).
    { intros NP (d & Pd & [->|(z & Ez & Pz)]); [apply U in Pd; congruence|]. apply U in Pd. subst d. congruence. }
    destruct (c_parent x) as [r|] eqn:Px.
    + destruct (Nat.eqb_spec r c) as [->|Nr].
      * left. split; [|easy]. exists q. split; [easy|]. right. exists x. auto.
      * right. split; [|easy]. apply NR. congruence.
    + right. split; [|easy]. now apply NR.
Qed.

Lemma maxChannelIndex_lt l w : l <> [] -> Nat.leb w (maxChannelIndex l) = false <-> Forall (fun i => i < w) l.
Proof.
  intros N. rewrite Nat.leb_gt. unfold maxChannelIndex. induction l as [|a l IH]; [easy|]. cbn. destruct l as [|b l].
  - cbn. rewrite Nat.max_0_r. split; [intros; now repeat constructor|now inversion 1].
  - assert (IH' := IH ltac:(easy)). split.
    + intros L. constructor; [lia|]. apply IH'. lia.
    + inversion 1; subst. apply IH' in H3. lia.
Qed.

Lemma audioConnection_outcome h c x s si r ri : wf h -> h_comps h c = Some x -> exists_port h s true -> exists_port h r true ->
  (connectable h c s si r ri /\ si <> [] /\
   audioConnection h c s si r ri = Ok (set_comp h c (Some (with_aconns x (c_aconns x ++ [AConn s si r ri]))))) \/
  (connectable h c s si r ri /\ si = [] /\ audioConnection h c s si r ri = Ok h) \/
  (~ connectable h c s si r ri /\ audioConnection h c s si r ri = Throw InvalidArgument).
Proof.
  intros W Ex Hs Hr. unfold audioConnection, connectable.
  destruct (checkPortParent_outcome h s c true W Hs) as [[Rs Es]|[Rs Es]]; rewrite Es; cbn [bind]; [|right; right; tauto].
  destruct (checkPortParent_outcome h r c true W Hr) as [[Rr Er]|[Rr Er]]; rewrite Er; cbn [bind]; [|right; right; tauto].
  destruct (Nat.eqb_spec (length si) (length ri)) as [El|Nl]; cbn [negb]; [|right; right; tauto].
  destruct Hs as (ys & Eys & _). destruct Hr as (yr & Eyr & _).
  destruct (Nat.eqb_spec (length si) 0) as [Z|Z].
  - right. left. apply length_zero_iff_nil in Z. subst si. cbn in El. symmetry in El. apply length_zero_iff_nil in El. subst ri.
    split; [|easy]. split; [easy|]. split; [easy|]. split; [easy|]. exists (p_width ys), (p_width yr).
    split; [exists ys; auto|]. split; [exists yr; auto|]. split; constructor.
  - assert (si <> []) as Ni by (intros ->; now apply Z). assert (ri <> []) as Nr by (intros ->; cbn in El; now rewrite El in Z).
    unfold port_at. rewrite Eys, Eyr. cbn [bind].
    assert (QS : forall w, width_is h s w -> w = p_width ys) by (intros w (z & ? & <-); congruence).
    assert (QR : forall w, width_is h r w -> w = p_width yr) by (intros w (z & ? & <-); congruence).
    pose proof (maxChannelIndex_lt si (p_width ys) Ni) as Ms. pose proof (maxChannelIndex_lt ri (p_width yr) Nr) as Mr.
    destruct (Nat.leb (p_width ys) _).
    { right. right. split; [|easy]. intros (_ & _ & _ & ws & wr & W1 & W2 & F1 & F2). rewrite (QS ws W1) in F1. now apply Ms in F1. }
    destruct (Nat.leb (p_width yr) _).
    { right. right. split; [|easy]. intros (_ & _ & _ & ws & wr & W1 & W2 & F1 & F2). rewrite (QR wr W2) in F2. now apply Mr in F2. }
    left. split; [|split; [easy|]].
    + split; [easy|]. split; [easy|]. split; [easy|]. exists (p_width ys), (p_width yr).
      split; [exists ys; auto|]. split; [exists yr; auto|]. split; [now apply Ms|now apply Mr].
    + unfold addAudio, comp_at. now rewrite Ex.
Qed.

Lemma Forall_seq n : Forall (fun i => i < n) (seq 0 n).
Proof. apply Forall_forall. intros i I. apply in_seq in I. lia. Qed.

Lemma audioConnectionAll_outcome h c x s r : wf h -> h_comps h c = Some x -> exists_port h s true -> exists_port h r true ->
  exists ws wr, width_is h s ws /\ width_is h r wr /\
  let ok := reachable_port h c s true /\ reachable_port h c r true /\ ws = wr in
  (ok /\ ws <> 0 /\
   audioConnectionAll h c s r = Ok (set_comp h c (Some (with_aconns x (c_aconns x ++ [AConn s (seq 0 ws) r (seq 0 ws)]))))) \/
  (ok /\ ws = 0 /\ audioConnectionAll h c s r = Ok h) \/
  (~ ok /\ audioConnectionAll h c s r = Throw InvalidArgument).
Proof.
  intros W Ex Hs Hr. pose proof Hs as (ys & Eys & _). pose proof Hr as (yr & Eyr & _).
  exists (p_width ys), (p_width yr). split; [exists ys; auto|]. split; [exists yr; auto|].
  unfold audioConnectionAll, port_at. rewrite Eys, Eyr. cbn [bind].
  destruct (wf_port h W s ys Eys) as (qs & xs & Ps & Exs & _). destruct (wf_port h W r yr Eyr) as (qr & xr & Pr & Exr & _).
  destruct (Nat.eqb_spec (p_width ys) (p_width yr)) as [E|N]; cbn [negb].
  2:{ right. right. split; [tauto|]. rewrite Ps, Pr. unfold comp_at. rewrite Exs, Exr. easy. }
  assert (K : connectable h c s (seq 0 (p_width ys)) r (seq 0 (p_width ys)) <->
              (reachable_port h c s true /\ reachable_port h c r true /\ p_width ys = p_width yr)).
  { unfold connectable. split; [tauto|]. intros (? & ? & _). split; [easy|]. split; [easy|]. split; [easy|].
    exists (p_width ys), (p_width yr). split; [exists ys; auto|]. split; [exists yr; auto|]. rewrite <- E. split; apply Forall_seq. }
  destruct (audioConnection_outcome h c x s (seq 0 (p_width ys)) r (seq 0 (p_width ys)) W Ex Hs Hr) as [(Kc & Nn & Er)|[(Kc & Nn & Er)|(Kc & Er)]];
    rewrite K in Kc.
  - left. split; [easy|]. split; [|easy]. intros Z. now rewrite Z in Nn.
  - right. left. split; [easy|]. split; [|easy]. now destruct (p_width ys).
  - right. right. easy.
Qed.

Lemma audioConnectionNamed_outcome h c x sc sp si rc rp ri : wf h -> h_comps h c = Some x ->
  (exists ds s dr r, designates h c sc ds /\ port_of h s ds true /\ port_name_is h s sp /\
     designates h c rc dr /\ port_of h r dr true /\ port_name_is h r rp /\
     audioConnectionNamed h c sc sp si rc rp ri = Ok (set_comp h c (Some (with_aconns x (c_aconns x ++ [AConn s si r ri]))))) \/
  (((forall d s, designates h c sc d -> port_of h s d true -> ~ port_name_is h s sp) \/
    (forall d r, designates h c rc d -> port_of h r d true -> ~ port_name_is h r rp)) /\
   audioConnectionNamed h c sc sp si rc rp ri = Throw InvalidArgument).
Proof.
  intros W Ex. unfold audioConnectionNamed.
  destruct (findPortIn_outcome h c x true sc sp W Ex) as (rs & Es & Rs). rewrite Es. cbn [bind].
  destruct rs as [s|].
  2:{ right. split; [left|easy]. intros d s D P N. assert (None = Some s) by (apply Rs; eauto). discriminate. }
  destruct (findPortIn_outcome h c x true rc rp W Ex) as (rr & Er & Rr). rewrite Er. cbn [bind].
  destruct rr as [r|].
  2:{ right. split; [right|easy]. intros d r D P N. assert (None = Some r) by (apply Rr; eauto). discriminate. }
  left. destruct (proj1 (Rs s) eq_refl) as (ds & D1 & P1 & N1). destruct (proj1 (Rr r) eq_refl) as (dr & D2 & P2 & N2).
  exists ds, s, dr, r. repeat (split; [easy|]). unfold addAudio, comp_at. now rewrite Ex.
Qed.

Lemma parameterConnection_outcome h c x s r : wf h -> h_comps h c = Some x -> exists_port h s false -> exists_port h r false ->
  (reachable_port h c s false /\ reachable_port h c r false /\
   parameterConnection h c s r = Ok (set_comp h c (Some (with_pconns x (c_pconns x ++ [(s, r)]))))) \/
  (~ (reachable_port h c s false /\ reachable_port h c r false) /\ parameterConnection h c s r = Throw InvalidArgument).
Proof.
  intros W Ex Hs Hr. unfold parameterConnection.
  destruct (checkPortParent_outcome h s c false W Hs) as [[Rs Es]|[Rs Es]]; rewrite Es; cbn [bind]; [|right; tauto].
  destruct (checkPortParent_outcome h r c false W Hr) as [[Rr Er]|[Rr Er]]; rewrite Er; cbn [bind]; [|right; tauto].
  left. split; [easy|]. split; [easy|]. unfold addParameter, comp_at. now rewrite Ex.
Qed.

Lemma parameterConnectionNamed_outcome h c x sc sp rc rp : wf h -> h_comps h c = Some x ->
  (exists ds s dr r, designates h c sc ds /\ port_of h s ds false /\ port_name_is h s sp /\
     designates h c rc dr /\ port_of h r dr false /\ port_name_is h r rp /\
     parameterConnectionNamed h c sc sp rc rp = Ok (set_comp h c (Some (with_pconns x (c_pconns x ++ [(s, r)]))))) \/
  (((forall d s, designates h c sc d -> port_of h s d false -> ~ port_name_is h s sp) \/
    (forall d r, designates h c rc d -> port_of h r d false -> ~ port_name_is h r rp)) /\
   parameterConnectionNamed h c sc sp rc rp = Throw InvalidArgument).
Proof.
  intros W Ex. unfold parameterConnectionNamed.
  destruct (findPortIn_outcome h c x false sc sp W Ex) as (rs & Es & Rs). rewrite Es. cbn [bind].
  destruct rs as [s|].
  2:{ right. split; [left|easy]. intros d s D P N. assert (None = Some s) by (apply Rs; eauto). discriminate. }
  destruct (findPortIn_outcome h c x false rc rp W Ex) as (rr & Er & Rr). rewrite Er. cbn [bind].
  destruct rr as [r|].
  2:{ right. split; [right|easy]. intros d r D P N. assert (None = Some r) by (apply Rr; eauto). discriminate. }
  left. destruct (proj1 (Rs s) eq_refl) as (ds & D1 & P1 & N1). destruct (proj1 (Rr r) eq_refl) as (dr & D2 & P2 & N2).
  exists ds, s, dr, r. repeat (split; [easy|]). unfold addParameter, comp_at. now rewrite Ex.
Qed.

Lemma add_audio_wf h c x e : wf h -> h_comps h c = Some x -> reachable_port h c (ac_send e) true -> reachable_port h c (ac_receive e) true ->
  wf (set_comp h c (Some (with_aconns x (c_aconns x ++ [e])))).
Proof.
  intros W Ex R1 R2. apply (conns_wf h c x); auto. intros f I. cbn in I. apply in_app_iff in I. destruct I as [I|[<-|[]]]; auto.
Qed.
Lemma add_parameter_wf h c x s r : wf h -> h_comps h c = Some x -> reachable_port h c s false -> reachable_port h c r false ->
  wf (set_comp h c (Some (with_pconns x (c_pconns x ++ [(s, r)])))).
Proof.
  intros W Ex R1 R2. apply (conns_wf h c x); auto. intros t u I. cbn in I. apply in_app_iff in I. destruct I as [I|[[= <- <-]|[]]]; auto.
Qed.

(** *** Every step *)

Lemma step_wf h o : wf h -> legal h o ->
  match step h o with Ok h' => wf h' | Throw e => e = InvalidArgument | UB => False end.
Proof.
  intros W. destruct o as [n p b|c|n c a w|p|p w|c s si r ri|c s r|c sc sp si rc rp ri|c s r|c sc sp rc rp]; cbn [step legal].
  - destruct p as [p|].
    + intros (y & Ey & Cy). destruct (new_child_outcome h n b p y W Ey) as [[_ E]|[N E]]; rewrite E; [easy|]. cbn [bind].
      apply new_child_wf; auto. intros c I. rewrite <- name_nameOf. apply N. now apply (child_In h c p y).
    + intros _. now apply new_top_wf.
  - intros [[x Ex] NP]. destruct (delete_spec h c x W Ex) as (h' & E & ? & ? & ? & ?). rewrite E. eapply delete_wf; eauto.
  - intros [x Ex]. destruct (new_port_outcome h n c x a w W Ex) as [[_ E]|[N E]]; rewrite E; [easy|]. cbn [bind].
    apply new_port_wf; auto. intros p I. rewrite <- port_name_nameOf. apply N. now apply (port_In h p c a x).
  - intros [y Ey]. destruct (wf_port h W p y Ey) as (c & x & Pc & Ex & _). unfold deletePort, port_at. rewrite Ey. cbn [bind].
    rewrite Pc. unfold comp_at. rewrite Ex. cbn [bind]. now apply delete_port_wf.
  - intros (y & Ey & _). unfold setWidth, port_at. rewrite Ey. cbn [bind]. now apply set_width_wf.
  - intros ((x & Ex & _) & Hs & Hr).
    destruct (audioConnection_outcome h c x s si r ri W Ex Hs Hr) as [((K1 & K2 & _) & _ & E)|[(_ & _ & E)|(_ & E)]]; rewrite E; auto.
    apply add_audio_wf; auto.
  - intros ((x & Ex & _) & Hs & Hr).
    destruct (audioConnectionAll_outcome h c x s r W Ex Hs Hr) as (ws & wr & _ & _ & [((K1 & K2 & _) & _ & E)|[(_ & _ & E)|(_ & E)]]); rewrite E; auto.
    apply add_audio_wf; auto.
  - intros (x & Ex & _). destruct (audioConnectionNamed_outcome h c x sc sp si rc rp ri W Ex) as [(ds & s & dr & r & D1 & P1 & _ & D2 & P2 & _ & E)|[_ E]]; rewrite E; auto.
    apply add_audio_wf; eauto using designates_reachable.
  - intros ((x & Ex & _) & Hs & Hr).
    destruct (parameterConnection_outcome h c x s r W Ex Hs Hr) as [(K1 & K2 & E)|(_ & E)]; rewrite E; auto.
    apply add_parameter_wf; auto.
  - intros (x & Ex & _). destruct (parameterConnectionNamed_outcome h c x sc sp rc rp W Ex) as [(ds & s & dr & r & D1 & P1 & _ & D2 & P2 & _ & E)|[_ E]]; rewrite E; auto.
    apply add_parameter_wf; eauto using designates_reachable.
Qed.

Lemma reachable_wf h : reachable h -> wf h.
Proof.
  induction 1 as [|h o h' R W L E]; [apply wf_empty|]. pose proof (step_wf h o W L) as S. now rewrite E in S.
Qed.

Lemma run_wf ops : forall h, wf h -> legal_run h ops -> exists h', run h ops = Ok h' /\ wf h'.
Proof.
  induction ops as [|o ops IH]; intros h W; cbn.
  - intros _. eauto.
  - intros [L K]. pose proof (step_wf h o W L) as S. destruct (step h o); auto. destruct S.
Qed.
