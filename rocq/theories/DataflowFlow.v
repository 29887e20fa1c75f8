(** The flow with the inserted routing components: schedule, dependencies (proofs). *)
From Verif Require Import Base FlowModel FlowProofs FlowTree FlowProps SchedModel SchedProofs SchedProps
  LayoutModel LayoutTables LayoutProofs LayoutAddr LayoutProps DataflowModel DataflowSpec DataflowProofs.
From Coq Require Import Permutation Relations.
Local Open Scope res_scope.

Lemma inside_addresses x root : inside x root -> In (comp_id x) (addresses root).
Proof.
  induction 1 as [c|x ch c a p children conns pconns Hi H IH]; [destruct c; cbn; now left|]. cbn [addresses]. right. apply in_flat_map. eauto.
Qed.
Lemma inside_audio x root p : inside x root -> In p (comp_audio x) -> In p (all_audio root).
Proof.
  induction 1 as [c|x ch c a q children conns pconns Hi H IH]; intros Hp; [now apply own_audio|].
  cbn [all_audio]. apply in_or_app. right. apply in_flat_map. eauto.
Qed.
Lemma nodup_flat_map {A C} (f : A -> list C) l : NoDup (flat_map f l) -> forall x y z, In x l -> In y l -> In z (f x) -> In z (f y) -> x = y \/ False.
Proof. Abort.

(** components with equal addresses are the same *)
Lemma same_address root : NoDup (addresses root) -> forall x y, inside x root -> inside y root -> comp_id x = comp_id y -> x = y.
Proof.
  induction root as [c au p|c au p children conns pconns IH] using comp_induction; intros ND x y Hx Hy E.
  - inversion Hx; inversion Hy; subst. reflexivity.
  - cbn [addresses] in ND. apply NoDup_cons_iff in ND as [Ni ND].
    apply inside_composite in Hx as [->|(cx & Hcx & Hx)], Hy as [Hy|(cy & Hcy & Hy)].
    + now subst y.
    + exfalso. apply Ni. cbn [comp_id] in E. rewrite E. apply in_flat_map. exists cy. split; [exact Hcy|now apply inside_addresses].
    + exfalso. apply Ni. subst y. cbn [comp_id] in E. rewrite <- E. apply in_flat_map. exists cx. split; [exact Hcx|now apply inside_addresses].
    + apply inside_addresses in Hx as Ax. apply inside_addresses in Hy as Ay. rewrite E in Ax.
      revert IH ND Hcx Hcy. clear Ni. induction children as [|z l IHl]; intros IH ND Hcx Hcy; [destruct Hcx|]. cbn [flat_map] in ND.
      apply nodup_app in ND as (N1 & N2 & DJ). inversion IH as [|? ? IHz IHl']; subst.
      destruct Hcx as [->|Hcx], Hcy as [->|Hcy].
      * now apply (IHz N1).
      * exfalso. apply (DJ (comp_id y)); [exact Ax|]. apply in_flat_map. eauto.
      * exfalso. apply (DJ (comp_id y)); [exact Ay|]. apply in_flat_map. eauto.
      * now apply IHl.
Qed.
Lemma atoms_ports_in root e : In e (atoms_ports root) <-> exists x, inside x root /\ is_composite x = false /\ e = (comp_id x, comp_audio x).
Proof.
  induction root as [c au p|c au p children conns pconns IH] using comp_induction; cbn [atoms_ports].
  - split.
    + intros [<-|[]]. exists (Atomic c au p). split; [constructor|auto].
    + intros (x & H & _ & ->). left. inversion H; subst. reflexivity.
  - rewrite in_flat_map. rewrite Forall_forall in IH. split.
    + intros (ch & Hc & H). apply (IH ch Hc) in H as (x & Hx & E). exists x. split; [|exact E]. now apply inside_child with ch.
    + intros (x & H & C & E). apply inside_composite in H as [->|(ch & Hc & H)]; [discriminate|]. exists ch. split; [exact Hc|]. apply IH; [exact Hc|]. eauto.
Qed.
Lemma component_ports_atom root x : NoDup (addresses root) -> atomic_in root x -> component_ports root (comp_id x) = comp_audio x.
Proof.
  intros ND [Hx Cx]. unfold component_ports. destruct (find _ (atoms_ports root)) as [e|] eqn:E.
  - apply find_some in E as [E K]. apply Nat.eqb_eq in K. apply atoms_ports_in in E as (z & Hz & Cz & ->). cbn [fst snd] in *.
    now rewrite (same_address root ND z x Hz Hx K).
  - exfalso. apply find_none with (x := (comp_id x, comp_audio x)) in E; [cbn [fst] in E; now rewrite Nat.eqb_refl in E|].
    apply atoms_ports_in. eauto.
Qed.
Lemma comp_audio_nodup root x : NoDup (all_audio root) -> inside x root -> NoDup (comp_audio x).
Proof.
  intros ND H. induction H as [c|x ch c a p children conns pconns Hi H IH].
  - destruct c; cbn in *; [exact ND|]. now apply nodup_app in ND.
  - apply IH. cbn [all_audio] in ND. apply nodup_app in ND as (_ & ND & _). clear - ND Hi.
    induction children as [|z l IHl]; [destruct Hi|]. cbn [flat_map] in ND. apply nodup_app in ND as (N1 & N2 & _). destruct Hi as [->|Hi]; auto.
Qed.
Lemma channels_nodup (o : objects) ports : NoDup ports -> NoDup (flat_map (fun p => map (fun k => (p, k)) (seq 0 (a_width o p))) ports).
Proof.
  induction ports as [|p l IH]; intros ND; cbn [flat_map]; [constructor|]. apply NoDup_cons_iff in ND as [Ni ND]. apply nodup_app. split; [|split].
  - apply FinFun.Injective_map_NoDup; [|apply seq_NoDup]. intros a b E. now injection E.
  - now apply IH.
  - intros [q k] H H'. apply in_map_iff in H as (j & E & _). injection E as <- <-. apply in_flat_map in H' as (q' & Hq & H').
    apply in_map_iff in H' as (j' & E & _). injection E as -> ->. contradiction.
Qed.
Lemma channel_of (o : objects) d ports c : In c (port_channels_of o d ports) <-> In (fst c) ports /\ a_dir o (fst c) = d /\ snd c < a_width o (fst c).
Proof.
  destruct c as [p k]. unfold port_channels_of. rewrite in_flat_map. cbn [fst snd]. split.
  - intros (q & Hq & Hk). apply filter_In in Hq as [Hq Dq]. apply in_map_iff in Hk as (j & E & Hj). injection E as <- <-. apply in_seq in Hj.
    split; [exact Hq|]. split; [|lia]. destruct (a_dir o q), d; try reflexivity; discriminate.
  - intros (Hp & Dp & Hk). exists p. split; [apply filter_In; split; [exact Hp|]; rewrite Dp; now destruct d|].
    apply in_map_iff. exists k. split; [reflexivity|]. apply in_seq. lia.
Qed.

Section Flow.
  Variables (o : objects) (type_size : nat -> nat) (block alignment : nat) (alloc : nat -> nat * nat * nat).
  Variables (root : comp) (conns : amap) (params : pmap) (y : layout) (D : list nat).
  Hypothesis CF : closed_flow o root conns params.
  Hypothesis F : flat o conns.
  Hypothesis NA : new_addresses root alloc.
  Hypothesis GL : good_layout o type_size block alignment conns y (comp_audio root).
  Hypothesis HD : forall p, In p D <-> receiver conns p.
  Hypothesis G : global_inv o alloc conns D (y_conns y) (y_routings y).
  Hypothesis LI : forall r, In r (y_routings y) -> length (r_indices r) = a_width o (r_for r).
  Notation RS := (y_routings y).
  Notation C := (y_conns y).
  Notation o' := (with_routings o RS).
  Notation root' := (add_components root RS).

  Lemma in_ports_sender p : sender conns p -> In p (all_audio root).
  Proof using CF. intros ([q k] & d & H & E). cbn in E. subst q. destruct (c_senders _ _ _ _ CF _ _ H) as (x & Hx & Px & _). now apply inside_audio with x. Qed.
  Lemma in_ports_receiver p : receiver conns p -> In p (all_audio root).
  Proof using CF. intros (s & [q k] & H & E). cbn in E. subst q. destruct (c_receivers _ _ _ _ CF _ _ H) as (x & Hx & Px & _). now apply inside_audio with x. Qed.
  Lemma new_objects_conns : new_objects conns alloc.
  Proof using CF NA.
    split; [apply (n_ports _ _ NA)|]. intros n a. split; intros H; apply (n_fresh_port _ _ NA n a).
    - apply in_ports_sender. now apply sends_sender.
    - apply in_ports_receiver. now apply receives_receiver.
  Qed.
  Lemma alloc_in_new n : alloc_in alloc n = new_port alloc n false.
  Proof. unfold alloc_in, new_port. now destruct (alloc n) as [[? ?] ?]. Qed.
  Lemma alloc_out_new n : alloc_out alloc n = new_port alloc n true.
  Proof. unfold alloc_out, new_port. now destruct (alloc n) as [[? ?] ?]. Qed.
  Lemma routing_at r : In r RS -> exists n, nth_error RS n = Some r /\ r_comp r = new_comp alloc n /\ r_in r = new_port alloc n false /\ r_out r = new_port alloc n true.
  Proof using G.
    intros H. apply In_nth_error in H as (n & H). exists n. split; [exact H|]. apply (g_alloc _ _ _ _ _ _ G) in H. unfold new_comp, new_port. rewrite H. auto.
  Qed.
  Lemma routing_ports r p : In r RS -> (r_in r = p \/ r_out r = p) -> ~ In p (all_audio root).
  Proof using NA G.
    intros H E. destruct (routing_at r H) as (n & _ & _ & E1 & E2). destruct E as [<-|<-]; rewrite ?E1, ?E2; apply (n_fresh_port _ _ NA).
  Qed.
  Lemma routing_same r q : In r RS -> In q RS -> (r_in r = r_in q \/ r_out r = r_out q \/ r_comp r = r_comp q) -> r = q.
  Proof using NA G.
    intros Hr Hq E. destruct (routing_at r Hr) as (n & A0 & A1 & A2 & A3). destruct (routing_at q Hq) as (m & B0 & B1 & B2 & B3).
    assert (n = m); [|congruence]. destruct E as [E|[E|E]].
    - rewrite A2, B2 in E. now apply (n_ports _ _ NA) in E.
    - rewrite A3, B3 in E. now apply (n_ports _ _ NA) in E.
    - rewrite A1, B1 in E. now apply (n_comps _ _ NA).
  Qed.
  Lemma routing_differ r q : In r RS -> In q RS -> r_in r <> r_out q.
  Proof using NA G.
    intros Hr Hq E. destruct (routing_at r Hr) as (n & A0 & A1 & A2 & A3). destruct (routing_at q Hq) as (m & B0 & B1 & B2 & B3).
    rewrite A2, B3 in E. now apply (n_ports _ _ NA) in E as [_ E].
  Qed.
  Lemma find_plain p : In p (all_audio root) -> find (fun r => (r_in r =? p) || (r_out r =? p)) RS = None.
  Proof using NA G.
    intros Hp. destruct (find _ RS) as [r|] eqn:E; [|reflexivity]. exfalso. apply find_some in E as [E K]. apply orb_true_iff in K. rewrite !Nat.eqb_eq in K.
    now apply (routing_ports r p).
  Qed.
  Lemma find_port r p : In r RS -> (r_in r = p \/ r_out r = p) -> find (fun r => (r_in r =? p) || (r_out r =? p)) RS = Some r.
  Proof using NA G.
    intros Hr E. destruct (find _ RS) as [q|] eqn:Ef.
    - apply find_some in Ef as [Hq K]. apply orb_true_iff in K. rewrite !Nat.eqb_eq in K. f_equal. symmetry.
      destruct E as [E|E], K as [K|K].
      + apply routing_same; auto. left. congruence.
      + exfalso. apply (routing_differ r q Hr Hq). congruence.
      + exfalso. apply (routing_differ q r Hq Hr). congruence.
      + apply routing_same; auto. right. left. congruence.
    - exfalso. apply find_none with (x := r) in Ef; [|exact Hr]. apply orb_false_iff in Ef. rewrite !Nat.eqb_neq in Ef. tauto.
  Qed.
  Lemma owner_plain p : In p (all_audio root) -> a_owner o' p = a_owner o p.
  Proof using NA G. intros H. cbn [with_routings a_owner]. now rewrite find_plain. Qed.
  Lemma owner_routing r p : In r RS -> (r_in r = p \/ r_out r = p) -> a_owner o' p = r_comp r.
  Proof using NA G. intros H E. cbn [with_routings a_owner]. now rewrite (find_port r p H E). Qed.
  Lemma type_plain p : In p (all_audio root) -> port_type o RS p = a_type o p.
  Proof using NA G. intros H. unfold port_type. now rewrite find_plain. Qed.
  Lemma type_routing r p : In r RS -> (r_in r = p \/ r_out r = p) -> port_type o RS p = r_type r.
  Proof using NA G. intros H E. unfold port_type. now rewrite (find_port r p H E). Qed.
  Lemma inserted_plain a : In a (addresses root) -> existsb (fun r => r_comp r =? a) RS = false.
  Proof using NA G.
    intros H. destruct (existsb _ RS) eqn:E; [|reflexivity]. exfalso. apply existsb_exists in E as (r & Hr & K). apply Nat.eqb_eq in K.
    destruct (routing_at r Hr) as (n & _ & A & _). apply (n_fresh_comp _ _ NA n). congruence.
  Qed.
  Lemma inserted_routing r : In r RS -> existsb (fun q => r_comp q =? r_comp r) RS = true.
  Proof. intros H. apply existsb_exists. exists r. split; [exact H|apply Nat.eqb_refl]. Qed.

  (** the extended hierarchy *)
  Lemma inside_extended x : inside x root' -> x = root' \/ (inside x root /\ x <> root) \/ exists r, In r RS /\ x = Atomic (r_comp r) [r_in r; r_out r] [].
  Proof using CF.
    pose proof (c_composite _ _ _ _ CF) as CR. clear - CR. destruct root as [|c au pa children cs ps]; [discriminate|]. cbn [add_components]. intros H.
    apply inside_composite in H as [->|(ch & Hc & H)]; [now left|]. right. apply in_app_or in Hc as [Hc|Hc].
    - left. split; [now apply inside_child with ch|]. intros ->. apply inside_size in H. cbn [comp_size] in H. pose proof (child_size _ _ Hc). lia.
    - right. apply in_map_iff in Hc as (r & <- & Hr). exists r. split; [exact Hr|]. now inversion H.
  Qed.
  Lemma extended_inside x : inside x root -> x <> root -> inside x root'.
  Proof using CF.
    pose proof (c_composite _ _ _ _ CF) as CR. clear - CR. destruct root as [|c au pa children cs ps]; [discriminate|]. cbn [add_components]. intros H Ne.
    apply inside_composite in H as [->|(ch & Hc & H)]; [now destruct Ne|]. apply inside_child with ch; [apply in_or_app; now left|exact H].
  Qed.
  Lemma extended_routing r : In r RS -> inside (Atomic (r_comp r) [r_in r; r_out r] []) root'.
  Proof using CF.
    pose proof (c_composite _ _ _ _ CF) as CR. clear - CR. destruct root as [|c au pa children cs ps]; [discriminate|]. cbn [add_components]. intros H.
    apply inside_child with (Atomic (r_comp r) [r_in r; r_out r] []); [|constructor]. apply in_or_app. right. apply in_map_iff. eauto.
  Qed.
  Lemma extended_root : comp_id root' = comp_id root /\ comp_audio root' = comp_audio root /\ comp_params root' = comp_params root /\ is_composite root' = true.
  Proof using CF. pose proof (c_composite _ _ _ _ CF) as CR. clear - CR. destruct root; [discriminate|]. auto. Qed.
  Lemma describes_extended : describes o' root'.
  Proof using CF NA G.
    destruct (c_describes _ _ _ _ CF) as (D1 & D2 & D3 & D4). destruct extended_root as (E1 & E2 & E3 & E4).
    split; [|split; [|split]].
    - intros x p Hx Hp. apply inside_extended in Hx as [->|[[Hx Nx]|(r & Hr & ->)]].
      + rewrite E1. rewrite E2 in Hp. rewrite owner_plain by (apply own_audio, Hp). apply D1; [constructor|exact Hp].
      + rewrite owner_plain by now apply inside_audio with x. now apply D1.
      + cbn [comp_id]. apply owner_routing; [exact Hr|]. cbn in Hp. tauto.
    - intros x p Hx Hp. cbn [with_routings q_owner]. apply inside_extended in Hx as [->|[[Hx Nx]|(r & Hr & ->)]].
      + rewrite E1. rewrite E3 in Hp. apply D2; [constructor|exact Hp].
      + now apply D2.
      + destruct Hp.
    - intros x Hx. cbn [with_routings composite]. apply inside_extended in Hx as [->|[[Hx Nx]|(r & Hr & ->)]].
      + rewrite E1, inserted_plain by (apply inside_addresses; constructor). rewrite E4, (D3 root) by constructor. apply (c_composite _ _ _ _ CF).
      + rewrite inserted_plain by now apply inside_addresses. now apply D3.
      + cbn [comp_id]. now rewrite inserted_routing.
    - intros x Hx. cbn [with_routings toplevel]. apply inside_extended in Hx as [->|[[Hx Nx]|(r & Hr & ->)]].
      + rewrite E1, inserted_plain by (apply inside_addresses; constructor). split; [reflexivity|]. intros _. apply (D4 root); constructor.
      + rewrite inserted_plain by now apply inside_addresses. split; intros H; [now apply D4 in H|]. exfalso. apply Nx. apply (D4 x Hx).
        rewrite H, E1. apply (D4 root); constructor.
      + cbn [comp_id]. rewrite inserted_routing by exact Hr. split; [discriminate|]. intros H. rewrite <- H in E4. discriminate.
  Qed.
  Lemma addresses_extended : NoDup (addresses root').
  Proof using CF NA G.
    pose proof (c_composite _ _ _ _ CF) as CR. pose proof (c_addresses _ _ _ _ CF) as ND. pose proof (n_fresh_comp _ _ NA) as FR.
    assert (NR : NoDup (map r_comp RS)).
    { apply NoDup_nth_error. intros i j Hi E. rewrite map_length in Hi. rewrite !nth_error_map in E.
      destruct (nth_error RS i) as [r|] eqn:Ei; [|apply nth_error_None in Ei; lia]. destruct (nth_error RS j) as [q|] eqn:Ej; [|discriminate].
      cbn in E. injection E as E. apply (n_comps _ _ NA). unfold new_comp. rewrite (g_alloc _ _ _ _ _ _ G _ _ Ei), (g_alloc _ _ _ _ _ _ G _ _ Ej). exact E. }
    assert (FA : forall r, In r RS -> ~ In (r_comp r) (addresses root)).
    { intros r Hr. destruct (routing_at r Hr) as (n & _ & A & _). rewrite A. apply FR. }
    clear - CR ND NR FA. destruct root as [|c au pa children cs ps]; [discriminate|]. cbn [add_components addresses] in *.
    assert (E : flat_map addresses (map (fun r => Atomic (r_comp r) [r_in r; r_out r] []) RS) = map r_comp RS).
    { clear. induction (y_routings y) as [|r l IH]; cbn; [reflexivity|]. now rewrite IH. }
    rewrite flat_map_app, E. apply NoDup_cons_iff in ND as [Ni ND]. constructor.
    - rewrite in_app_iff. intros [K|K]; [contradiction|]. apply in_map_iff in K as (r & K & Hr). apply (FA r Hr). rewrite K. now left.
    - apply nodup_app. split; [exact ND|]. split; [exact NR|]. intros a Ha Hb. apply in_map_iff in Hb as (r & <- & Hr). apply (FA r Hr). now right.
  Qed.
  Lemma atom_extended a : atom root' a <-> (exists x, atomic_in root x /\ comp_id x = a) \/ exists r, In r RS /\ r_comp r = a.
  Proof using CF.
    destruct extended_root as (_ & _ & _ & E4). split.
    - intros (x & Hx & Cx & Ex). apply inside_extended in Hx as [->|[[Hx Nx]|(r & Hr & ->)]]; [congruence| |].
      + left. exists x. split; [split; assumption|exact Ex].
      + right. exists r. auto.
    - intros [(x & [Hx Cx] & Ex)|(r & Hr & Er)].
      + exists x. split; [|auto]. apply extended_inside; [exact Hx|]. intros ->. pose proof (c_composite _ _ _ _ CF). congruence.
      + exists (Atomic (r_comp r) [r_in r; r_out r] []). split; [now apply extended_routing|auto].
  Qed.
  Lemma owner_sender s d : In (s, d) conns -> a_owner o' (fst s) = a_owner o (fst s) /\ In (fst s) (all_audio root)
    /\ (a_owner o (fst s) = comp_id root \/ atom root (a_owner o (fst s))).
  Proof using CF NA G.
    intros H. assert (P : In (fst s) (all_audio root)) by (apply in_ports_sender; exists s, d; auto). split; [now apply owner_plain|]. split; [exact P|].
    destruct (c_senders _ _ _ _ CF _ _ H) as (x & Hx & Px & K). destruct (c_describes _ _ _ _ CF) as (D1 & _). rewrite (D1 x _ Hx Px).
    destruct K as [[K _]|[-> _]]; [right|now left]. exists x. auto.
  Qed.
  Lemma owner_receiver s d : In (s, d) conns -> a_owner o' (fst d) = a_owner o (fst d) /\ In (fst d) (all_audio root).
  Proof using CF NA G.
    intros H. assert (P : In (fst d) (all_audio root)) by (apply in_ports_receiver; exists s, d; auto). split; [now apply owner_plain|exact P].
  Qed.
  Lemma senders_extended : senders_known o' root' C params.
  Proof using CF NA G.
    destruct extended_root as (E1 & _).
    assert (A : forall a, atom root a -> atom root' a) by (intros a (x & Hx & Cx & Ex); apply atom_extended; left; exists x; repeat split; assumption).
    split.
    - intros s d H. apply (g_conns _ _ _ _ _ _ G) in H as [(H & _)|[(r & k & Hr & H & _)|(r & k & Hr & _ & -> & ->)]].
      + destruct (owner_sender s d H) as (-> & _ & [K|K]); [left; congruence|right; auto].
      + destruct (owner_sender _ _ H) as (-> & _ & [K|K]); [left; congruence|right; auto].
      + right. cbn [fst]. rewrite (owner_routing r (r_out r) Hr (or_intror eq_refl)). apply atom_extended. right. eauto.
    - intros s d H. cbn [with_routings q_owner]. destruct (proj1 (c_params _ _ _ _ CF _ _ H)) as [K|K]; [left; congruence|right; auto].
  Qed.

  (** *** Dependencies *)
  Notation edge := (feeds o' C params).
  (** a connection of the original table passes directly or through one inserted component *)
  Lemma edge_of s d : In (s, d) conns ->
    (In (s, d) C /\ (forall r, In r RS -> r_for r <> fst d) /\ edge (a_owner o' (fst s)) (a_owner o' (fst d)))
    \/ exists r i, In r RS /\ r_for r = fst d /\ nth_error (r_indices r) (snd d) = Some i
         /\ In (s, (r_in r, i)) C /\ In ((r_out r, snd d), d) C
         /\ edge (a_owner o' (fst s)) (r_comp r) /\ edge (r_comp r) (a_owner o' (fst d)).
  Proof using CF F NA G HD LI.
    intros H. assert (Rd : receiver conns (fst d)) by (exists s, d; auto).
    destruct (in_dec Nat.eq_dec (fst d) (map r_for RS)) as [I|I].
    - right. apply in_map_iff in I as (r & Er & Hr). pose proof (f_receive _ _ F _ _ H) as Wd.
      destruct (nth_error (r_indices r) (snd d)) as [i|] eqn:Ei; [|apply nth_error_None in Ei; rewrite (LI r Hr), Er in Ei; lia].
      exists r, i. split; [exact Hr|]. split; [exact Er|]. split; [exact Ei|].
      assert (H1 : In (s, (r_in r, i)) C).
      { apply (g_conns _ _ _ _ _ _ G). right. left. exists r, (snd d). rewrite Er. destruct d as [p k]. cbn [fst snd] in *. auto. }
      assert (H2 : In ((r_out r, snd d), d) C).
      { apply (g_conns _ _ _ _ _ _ G). right. right. exists r, (snd d). rewrite Er. destruct d as [p k]. cbn [fst snd] in *. auto. }
      split; [exact H1|]. split; [exact H2|]. split; left.
      + exists s, (r_in r, i). split; [exact H1|]. split; [reflexivity|]. cbn [fst]. apply owner_routing; auto.
      + exists (r_out r, snd d), d. split; [exact H2|]. split; [|reflexivity]. cbn [fst]. apply owner_routing; auto.
    - left. assert (Nr : forall r, In r RS -> r_for r <> fst d) by (intros r Hr K; apply I; rewrite <- K; now apply in_map).
      assert (H1 : In (s, d) C) by (apply (g_conns _ _ _ _ _ _ G); left; split; [exact H|]; split; [now apply HD|exact Nr]).
      split; [exact H1|]. split; [exact Nr|]. left. exists s, d. auto.
  Qed.
  (** ... and the other way round *)
  Definition dep (a b : nat) : Prop := atom root a /\ atom root b /\ feeds o conns params a b.
  Definition dep' (a b : nat) : Prop := atom root' a /\ atom root' b /\ edge a b.
  Lemma atom_plain_not r a : In r RS -> atom root a -> r_comp r <> a.
  Proof using NA G.
    intros Hr (x & Hx & _ & <-) E. destruct (routing_at r Hr) as (n & _ & A & _). apply (n_fresh_comp _ _ NA n). rewrite <- A, E. now apply inside_addresses.
  Qed.
  Lemma edge_cases a b : dep' a b ->
    dep a b
    \/ (exists r, In r RS /\ b = r_comp r /\ atom root a /\ forall c, a_owner o (r_for r) = c -> atom root c -> dep a c)
    \/ (exists r, In r RS /\ a = r_comp r /\ atom root b /\ a_owner o (r_for r) = b).
  Proof using CF NA G HD.
    intros (Aa & Ab & E). destruct (c_describes _ _ _ _ CF) as (D1 & D2 & D3 & D4).
    assert (PL : forall x, atom root' x -> (x = comp_id root \/ atom root x) -> atom root x).
    { intros x (z & Hz & Cz & Ez) [->|K]; [|exact K]. exfalso. destruct describes_extended as (_ & _ & D3' & _).
      pose proof (D3' z Hz) as K. rewrite Ez, <- (proj1 extended_root), (D3' root') in K by constructor.
      destruct extended_root as (_ & _ & _ & E4). congruence. }
    assert (PR : forall s d, In (s, d) conns -> atom root' (a_owner o (fst d)) -> atom root (a_owner o (fst d))).
    { intros s d H K. apply PL; [exact K|]. destruct (c_receivers _ _ _ _ CF _ _ H) as (x & Hx & Px & Q). rewrite (D1 x _ Hx Px).
      destruct Q as [[Q _]|[-> _]]; [right; exists x; auto|now left]. }
    destruct E as [(s & d & H & Es & Ed)|(s & d & H & Es & Ed)].
    - apply (g_conns _ _ _ _ _ _ G) in H as [(H & _)|[(r & k & Hr & H & Er & _)|(r & k & Hr & Hk & -> & ->)]].
      + left. destruct (owner_sender s d H) as (O1 & _ & O2). destruct (owner_receiver s d H) as (O3 & _). rewrite O1 in Es. rewrite O3 in Ed. subst a b.
        split; [now apply PL|]. split; [now apply (PR s)|]. left. eauto.
      + right. left. exists r. split; [exact Hr|]. rewrite (owner_routing r (fst d) Hr (or_introl (eq_sym Er))) in Ed.
        split; [now symmetry|]. destruct (owner_sender _ _ H) as (O1 & _ & O2). rewrite O1 in Es. subst a.
        split; [now apply PL|]. intros c Ec Hc. split; [now apply PL|]. split; [exact Hc|]. left. exists s, (r_for r, k). auto.
      + right. right. exists r. split; [exact Hr|]. cbn [fst] in *. rewrite (owner_routing r (r_out r) Hr (or_intror eq_refl)) in Es.
        split; [now symmetry|]. destruct (g_for _ _ _ _ _ _ G r Hr) as [Gd _]. apply HD in Gd. pose proof Gd as (s & [p j] & H & E). cbn in E. subst p.
        destruct (owner_receiver _ _ H) as (O3 & _). cbn [fst] in O3. rewrite O3 in Ed. subst b. split; [now apply (PR s (r_for r, j))|reflexivity].
    - left. cbn [with_routings q_owner] in *. split; [|split; [|right; eauto]].
      + apply PL; [exact Aa|]. subst a. apply (c_params _ _ _ _ CF _ _ H).
      + apply PL; [exact Ab|]. subst b. apply (c_params _ _ _ _ CF _ _ H).
  Qed.

  Lemma dep_path a b : dep a b -> clos_trans_1n nat dep' a b.
  Proof using CF F NA G HD LI.
    intros (Aa & Ab & E). assert (X : forall x, atom root x -> atom root' x) by (intros x (z & Hz & Cz & Ez); apply atom_extended; left; exists z; repeat split; assumption).
    destruct E as [(s & d & H & Es & Ed)|E].
    - destruct (owner_sender s d H) as (O1 & _). destruct (owner_receiver s d H) as (O2 & _). rewrite <- O1 in Es. rewrite <- O2 in Ed. subst a b.
      destruct (edge_of s d H) as [(_ & _ & E)|(r & i & Hr & _ & _ & _ & _ & E1 & E2)].
      + apply t1n_step. split; [apply X; exact Aa|]. split; [apply X; exact Ab|exact E].
      + assert (Ar : atom root' (r_comp r)) by (apply atom_extended; right; eauto).
        apply Relation_Operators.t1n_trans with (y := r_comp r); [split; [apply X; exact Aa|]; split; [exact Ar|exact E1]|].
        apply t1n_step. split; [exact Ar|]. split; [apply X; exact Ab|exact E2].
    - apply t1n_step. split; [now apply X|]. split; [now apply X|]. right. exact E.
  Qed.
  (** the component an inserted component works for *)
  Definition image (x z : nat) : Prop := (atom root x /\ z = x) \/ exists r, In r RS /\ x = r_comp r /\ z = a_owner o (r_for r).
  Lemma image_atom a z : atom root a -> image a z -> z = a.
  Proof using NA G. intros A [[_ ->]|(r & Hr & E & _)]; [reflexivity|]. exfalso. now apply (atom_plain_not r a Hr A). Qed.
  Lemma image_routing r z : In r RS -> image (r_comp r) z -> z = a_owner o (r_for r).
  Proof using NA G.
    intros Hr [[A _]|(q & Hq & E & ->)]; [exfalso; now apply (atom_plain_not r (r_comp r) Hr A)|].
    now rewrite (routing_same r q Hr Hq (or_intror (or_intror E))).
  Qed.
  Lemma image_some a : atom root' a -> exists z, image a z.
  Proof using CF.
    intros H. apply atom_extended in H as [(x & [Hx Cx] & <-)|(r & Hr & <-)].
    - exists (comp_id x). left. split; [|reflexivity]. exists x. auto.
    - exists (a_owner o (r_for r)). right. eauto.
  Qed.
  Lemma path_image a b : clos_trans_1n nat dep' a b -> forall za zb, image a za -> image b zb -> atom root zb ->
    atom root za /\ (clos_trans nat dep za zb \/ (za = zb /\ atom root b /\ exists r, In r RS /\ a = r_comp r)).
  Proof using CF NA G HD.
    induction 1 as [a b H|a c b H P IH]; intros za zb Ia Ib Az.
    - pose proof H as (Aa & Ab & _). destruct (edge_cases a b H) as [E|[(r & Hr & -> & A & E)|(r & Hr & -> & A & E)]].
      + pose proof E as (Ba & Bb & _). rewrite (image_atom a za Ba Ia) in *. rewrite (image_atom b zb Bb Ib) in *. split; [exact Ba|]. left. now apply t_step.
      + rewrite (image_atom a za A Ia) in *. rewrite (image_routing r zb Hr Ib) in *. split; [exact A|]. left. apply t_step. now apply E.
      + rewrite (image_routing r za Hr Ia), E. rewrite (image_atom b zb A Ib). split; [exact A|]. right. split; [reflexivity|]. split; [exact A|eauto].
    - pose proof H as (Aa & Ac & _). destruct (image_some c Ac) as (zc & Ic). destruct (IH zc zb Ic Ib Az) as (Azc & K).
      destruct (edge_cases a c H) as [E|[(r & Hr & -> & A & E)|(r & Hr & -> & A & E)]].
      + pose proof E as (Ba & Bc & _). rewrite (image_atom a za Ba Ia) in *. rewrite (image_atom c zc Bc Ic) in *. split; [exact Ba|]. left.
        destruct K as [K|(_ & _ & r & Hr & ->)]; [|exfalso; now apply (atom_plain_not r (r_comp r) Hr)]. apply t_trans with c; [now apply t_step|exact K].
      + rewrite (image_atom a za A Ia) in *. rewrite (image_routing r zc Hr Ic) in *. split; [exact A|]. left.
        specialize (E _ eq_refl Azc). destruct K as [K|(<- & _)]; [|now apply t_step]. apply t_trans with (a_owner o (r_for r)); [now apply t_step|exact K].
      + rewrite (image_routing r za Hr Ia), E. rewrite (image_atom c zc A Ic) in *. split; [exact A|]. left.
        destruct K as [K|(_ & _ & q & Hq & ->)]; [exact K|exfalso; now apply (atom_plain_not q (r_comp q) Hq)].
  Qed.
  (** the inserted components neither make nor break cycles *)
  Lemma cyclic_same : cyclic root' edge <-> cyclic root (feeds o conns params).
  Proof using CF F NA G HD LI.
    split.
    - intros (a & P). assert (P' : clos_trans_1n nat dep' a a) by exact P. assert (Aa : atom root' a) by (inversion P' as [? (? & _)|? ? (? & _)]; assumption).
      destruct (image_some a Aa) as (z & Iz). assert (Az : atom root z).
      { apply atom_extended in Aa as [(x & [Hx Cx] & <-)|(r & Hr & <-)].
        - rewrite (image_atom (comp_id x) z); [exists x; auto|exists x; auto|exact Iz].
        - rewrite (image_routing r z Hr Iz).
          assert (X : forall c, dep' (r_comp r) c -> atom root (a_owner o (r_for r))).
          { intros c H. destruct (edge_cases _ c H) as [(A & _)|[(q & _ & _ & A & _)|(q & Hq & Eq & A & E)]];
              [exfalso; now apply (atom_plain_not r (r_comp r) Hr)|exfalso; now apply (atom_plain_not r (r_comp r) Hr)|].
            rewrite (routing_same r q Hr Hq (or_intror (or_intror Eq))), E. exact A. }
          inversion P' as [? H|b ? H]; eauto. }
      destruct (path_image a a P' z z Iz Iz Az) as (_ & [K|(_ & A & r & Hr & ->)]); [|exfalso; now apply (atom_plain_not r (r_comp r) Hr)].
      exists z. apply clos_trans_t1n in K. exact K.
    - intros (a & P). exists a. apply clos_trans_t1n. apply clos_t1n_trans in P.
      assert (Gn : forall x z, clos_trans nat (fun a b => atom root a /\ atom root b /\ feeds o conns params a b) x z -> clos_trans nat dep' x z).
      { induction 1 as [x z H|x z u _ IH1 _ IH2]; [apply clos_t1n_trans, dep_path, H|now apply t_trans with z]. }
      now apply Gn.
  Qed.
End Flow.
