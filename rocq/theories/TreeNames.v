(** Full names, clocks, and programs for the examples. *)

From Coq Require Import Ascii String Lia.
From Verif Require Import Base TreeModel TreeSpec TreeProofs TreeOps.
Local Open Scope res_scope.

(** *** Shape of the tree *)

Lemma below_lt h c r : wf h -> below h c r -> r < c.
Proof.
  intros W. induction 1 as [c p (x & E & P)|c p r (x & E & P) _ IH].
  - apply (wf_parent h W c x p E P).
  - destruct (wf_parent h W c x p E P). lia.
Qed.

Lemma path_exists h : wf h -> forall c x, h_comps h c = Some x -> exists r l, path h r c l.
Proof.
  intros W c. induction c as [c IH] using lt_wf_ind. intros x Ex. destruct (c_parent x) as [p|] eqn:Px.
  - destruct (wf_parent h W c x p Ex Px) as (L & y & Ey & _). destruct (IH p L y Ey) as (r & l & P).
    exists r, (l ++ [c_name x]). apply path_step with p; auto; exists x; auto.
  - exists c, []. constructor. exists x. auto.
Qed.

Lemma path_live h r c l : path h r c l -> exists x, h_comps h c = Some x.
Proof. intros [(x & ? & _)|c' p n m (x & ? & _) _ _]; eauto. Qed.
Lemma path_nil h r c l : path h r c l -> (l = [] <-> top_level h c) /\ (l = [] -> c = r).
Proof.
  intros [T|c' p n m (x & Ex & Px) N P].
  - split; [easy|easy].
  - split; [|now destruct m]. split; [now destruct m|]. intros (y & Ey & Py). congruence.
Qed.

Lemma path_unique h r c l : path h r c l -> forall r' l', path h r' c l' -> r = r' /\ l = l'.
Proof.
  induction 1 as [(x & Ex & Px)|c p n l (x & Ex & Px) (x' & Ex' & N) P IH]; intros r' l' P'; inversion P' as [T|c0 p0 n0 l0 (y & Ey & Py) (y' & Ey' & Ny) P0]; subst.
  - easy.
  - congruence.
  - destruct T as (z & Ez & Pz). congruence.
  - assert (p0 = p) by congruence. subst p0. destruct (IH _ _ P0) as [-> ->]. split; [easy|]. do 2 f_equal. congruence.
Qed.

Lemma path_inj h r : wf h -> forall c l, path h r c l -> forall d, path h r d l -> c = d.
Proof.
  intros W. induction 1 as [T|c p n l C N P IH]; intros d P'; inversion P' as [T'|d0 q m l0 C' N' P0]; subst; auto.
  - destruct l0; discriminate.
  - destruct l; discriminate.
  - match goal with H : _ ++ _ = _ ++ _ |- _ => apply app_inj_tail in H; destruct H as [-> ->] end. assert (p = q) by auto. subst q. eapply sibling_names; eauto.
Qed.

Lemma path_time h r c l : wf h -> path h r c l -> forall x y, h_comps h c = Some x -> h_comps h r = Some y -> c_time x = c_time y.
Proof.
  intros W. induction 1 as [T|c p n l (z & Ez & Pz) N P IH]; intros x y Ex Ey; [congruence|].
  destruct (wf_parent h W c z p Ez Pz) as (_ & u & Eu & _ & _ & Tu). rewrite <- (IH u y Eu Ey). congruence.
Qed.

(** *** Full names *)

Lemma join_snoc l n : l <> [] -> join (l ++ [n]) = (join l ++ ":" ++ n)%string.
Proof.
  induction l as [|s l IH]; [easy|]. intros _. destruct l as [|t l]; [easy|].
  change (join ((s :: t :: l) ++ [n])) with (s ++ ":" ++ join ((t :: l) ++ [n]))%string.
  rewrite IH by easy. change (join (s :: t :: l)) with (s ++ ":" ++ join (t :: l))%string.
  generalize (join (t :: l)). intros u. induction s as [|a s IHs]; cbn; [easy|]. f_equal. exact IHs.
Qed.

Definition path_name (n : string) (l : list string) : string := match l with [] => n | _ => join l end.

Lemma fullName_spec h : wf h -> forall c x fuel, h_comps h c = Some x -> c < fuel ->
  exists r l, path h r c l /\ fullName fuel h c = Ok (path_name (c_name x) l).
Proof.
  intros W c. induction c as [c IH] using lt_wf_ind. intros x fuel Ex L. destruct fuel as [|fuel]; [lia|].
  cbn [fullName]. unfold comp_at. rewrite Ex. cbn [bind]. destruct (c_parent x) as [p|] eqn:Px.
  - destruct (wf_parent h W c x p Ex Px) as (Lp & y & Ey & _). rewrite Ey. cbn [bind].
    assert (ST : forall r l, path h r p l -> path h r c (l ++ [c_name x])).
    { intros r l P. apply path_step with p; auto; exists x; auto. }
    destruct (c_parent y) as [q|] eqn:Py.
    + destruct (IH p Lp y fuel Ey ltac:(lia)) as (r & l & P & E). rewrite E. cbn [bind].
      exists r, (l ++ [c_name x]). split; [auto|].
      assert (l <> []) as Nl. { intros Z. apply (proj1 (path_nil h r p l P)) in Z. destruct Z as (z & Ez & Pz). congruence. }
      destruct l as [|s l]; [easy|]. unfold path_name at 1. unfold path_name.
      rewrite <- join_snoc by easy. easy.
    + exists p, [c_name x]. split; [|easy]. apply (ST p []). constructor. exists y. auto.
  - exists c, []. split; [|easy]. constructor. exists x. auto.
Qed.

Lemma colon_split s t : forall s' t', ~ has_colon s -> ~ has_colon s' -> (s ++ ":" ++ t = s' ++ ":" ++ t')%string -> s = s' /\ t = t'.
Proof.
  induction s as [|a s IH]; intros [|a' s'] t' N N' E; cbn in *.
  - injection E as E. auto.
  - injection E as E1 E2. subst. tauto.
  - injection E as E1 E2. subst. tauto.
  - injection E as E1 E2. subst a'. destruct (IH s' t') as [-> ->]; auto.
Qed.
Lemma colon_in s t : has_colon (s ++ ":" ++ t).
Proof. induction s; cbn; auto. Qed.

Lemma join_inj l : forall m, l <> [] -> m <> [] -> Forall (fun s => ~ has_colon s) l -> Forall (fun s => ~ has_colon s) m -> join l = join m -> l = m.
Proof.
  induction l as [|s l IH]; intros m Nl Nm Fl Fm E; [easy|]. destruct m as [|s' m]; [easy|].
  inversion Fl as [|? ? Hs Fl']; inversion Fm as [|? ? Hs' Fm']; subst.
  destruct l as [|t l], m as [|t' m].
  - cbn in E. congruence.
  - exfalso. cbn [join] in E. apply Hs. rewrite E. apply colon_in.
  - exfalso. cbn [join] in E. apply Hs'. rewrite <- E. apply colon_in.
  - change (join (s :: t :: l)) with (s ++ ":" ++ join (t :: l))%string in E.
    change (join (s' :: t' :: m)) with (s' ++ ":" ++ join (t' :: m))%string in E.
    apply colon_split in E; auto. destruct E as [-> E]. f_equal. apply IH; auto; easy.
Qed.

(** *** Entries removed *)

Lemma erase_filter p l : NoDup l -> erasePort p l = filter (fun q => negb (Nat.eqb q p)) l.
Proof.
  induction 1 as [|a l Ha D IH]; cbn; [easy|]. destruct (Nat.eqb_spec a p) as [->|N]; cbn; [|congruence].
  symmetry. clear -Ha. induction l as [|b l IH]; cbn; [easy|]. cbn in Ha.
  destruct (Nat.eqb_spec b p) as [->|N]; cbn; [tauto|]. f_equal. apply IH. tauto.
Qed.

(** *** Programs that obey the rules, for the examples *)

Definition is_composite (h : heap) (c : nat) : bool := match h_comps h c with Some x => c_composite x | None => false end.
Definition is_port (h : heap) (p : nat) (a : bool) : bool := match h_ports h p with Some y => Bool.eqb (p_audio y) a | None => false end.
Definition legalb (h : heap) (o : op) : bool :=
  match o with
  | NewComponent _ None _ => true
  | NewComponent _ (Some p) _ => is_composite h p
  | DeleteComponent c => match h_comps h c with Some x => match c_audio x, c_param x with [], [] => true | _, _ => false end | None => false end
  | NewPort _ c _ _ => match h_comps h c with Some _ => true | None => false end
  | DeletePort p => match h_ports h p with Some _ => true | None => false end
  | SetWidth p _ => is_port h p true
  | Connect c s _ r _ | ConnectAll c s r => is_composite h c && (is_port h s true && is_port h r true)
  | ConnectParameter c s r => is_composite h c && (is_port h s false && is_port h r false)
  | ConnectNamed c _ _ _ _ _ _ | ConnectParameterNamed c _ _ _ _ => is_composite h c
  end.
Fixpoint obey (h : heap) (ops : list op) : option heap :=
  match ops with
  | [] => Some h
  | o :: rest => if legalb h o then match step h o with Ok h => obey h rest | _ => None end else None
  end.
Definition after (ops : list op) : heap := match obey empty ops with Some h => h | None => empty end.

Lemma is_composite_exists h c : is_composite h c = true -> exists_composite h c.
Proof. unfold is_composite. destruct (h_comps h c) as [x|] eqn:E; [|easy]. intros C. exists x. auto. Qed.
Lemma is_port_exists h p a : is_port h p a = true -> exists_port h p a.
Proof. unfold is_port. destruct (h_ports h p) as [x|] eqn:E; [|easy]. intros C. apply Bool.eqb_prop in C. exists x. auto. Qed.
Lemma legalb_legal h o : wf h -> legalb h o = true -> legal h o.
Proof.
  intros W. destruct o as [n [p|] b|c|n c a w|p|p w|c s si r ri|c s r|c sc sp si rc rp ri|c s r|c sc sp rc rp]; cbn; auto using is_composite_exists, is_port_exists.
  - destruct (h_comps h c) as [x|] eqn:Ex; [|easy]. intros E. split; [eauto|]. intros p a P. apply (port_In h p c a x W Ex) in P.
    destruct a; cbn in P; destruct (c_audio x), (c_param x); easy.
  - destruct (h_comps h c); [eauto|easy].
  - destruct (h_ports h p); [eauto|easy].
  - intros E. apply andb_prop in E. destruct E as [E1 E]. apply andb_prop in E. destruct E. auto using is_composite_exists, is_port_exists.
  - intros E. apply andb_prop in E. destruct E as [E1 E]. apply andb_prop in E. destruct E. auto using is_composite_exists, is_port_exists.
  - intros E. apply andb_prop in E. destruct E as [E1 E]. apply andb_prop in E. destruct E. auto using is_composite_exists, is_port_exists.
Qed.
Lemma obey_reachable ops : forall h h', reachable h -> obey h ops = Some h' -> reachable h'.
Proof.
  induction ops as [|o ops IH]; intros h h' R; cbn.
  - congruence.
  - destruct (legalb h o) eqn:L; [|easy]. destruct (step h o) as [h1| |] eqn:E; try easy. intros K. apply (IH h1 h'); auto.
    eapply reachable_step; eauto. apply legalb_legal; [now apply reachable_wf|easy].
Qed.
Lemma after_reachable ops : reachable (after ops).
Proof.
  unfold after. destruct (obey empty ops) as [h|] eqn:E; [|constructor]. eapply obey_reachable; eauto. constructor.
Qed.
