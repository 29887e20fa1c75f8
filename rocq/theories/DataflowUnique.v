(** Every order of the components that respects the dependencies gives the same result (proofs). *)
From Verif Require Import Base FlowModel FlowProofs FlowTree FlowProps SchedProps LayoutModel LayoutProps DataflowSpec DataflowFlow.
From Coq Require Import Permutation.

Section Unique.
  Context {W B : Type}.
  Variables (o : objects) (root : comp) (source : channel -> channel -> Prop).
  Variable behaviour : nat -> W -> list (list B) -> res (W * list (list B)).
  Variable feeds : nat -> nat -> Prop.
  Hypothesis single : forall s s' d, source s d -> source s' d -> s = s'.
  Hypothesis indep : independent root feeds behaviour.
  Notation exec := (executes o source behaviour).

  Lemma executes_app V w l1 l2 w' : exec V w (l1 ++ l2) w' <-> exists w1, exec V w l1 w1 /\ exec V w1 l2 w'.
  Proof.
    revert w. induction l1 as [|x l1 IH]; intros w; cbn [app].
    - split; [intros H; exists w; split; [constructor|exact H]|]. intros (w1 & H & K). inversion H; subst. exact K.
    - split.
      + intros H. inversion H as [|? ? ? ins w1 w2 A Bh R]; subst. apply IH in R as (w2 & R1 & R2). exists w2. split; [|exact R2]. econstructor; eassumption.
      + intros (w1 & H & K). inversion H as [|? ? ? ins w2 w3 A Bh R]; subst. econstructor; [exact A|exact Bh|]. apply IH. eauto.
  Qed.
  Lemma to_front V x : forall l1 w l2 w', (forall z, In z l1 -> commute behaviour (comp_id z) (comp_id x)) ->
    exec V w (l1 ++ x :: l2) w' -> exec V w (x :: l1 ++ l2) w'.
  Proof.
    induction l1 as [|z l1 IH]; intros w l2 w' HC H; [exact H|]. cbn [app] in H. inversion H as [|? ? ? ins w1 w2 A Bh R]; subst.
    apply IH in R; [|intros u Hu; apply HC; now right]. inversion R as [|? ? ? ins' w2 w3 A' Bh' R']; subst.
    destruct (HC z (or_introl eq_refl) _ _ _ _ _ _ _ Bh Bh') as (wb & B1 & B2).
    apply executes_cons with (ins := ins') (w1 := wb); [exact A'|exact B1|]. cbn [app]. apply executes_cons with (ins := ins) (w1 := w2); assumption.
  Qed.
  Lemma arrives_same (V V' : valuation B) ds ins ins' : (forall d s, In d ds -> source s d -> V s = V' s) ->
    Forall2 (arrives source V) ds ins -> Forall2 (arrives source V') ds ins' -> ins = ins'.
  Proof using single.
    intros H F1. revert ins'. induction F1 as [|d v ds ins (s & Hs & ->) _ IH]; intros ins' F2; inversion F2 as [|? v' ? ins2 (s' & Hs' & ->) F2']; subst; [reflexivity|].
    rewrite (single s' s d Hs' Hs). f_equal; [apply (H d s); [now left|exact Hs]|]. apply IH; [intros e u He; apply H; now right|exact F2'].
  Qed.
  (** every component after those in the list that feed it *)
  Definition sorted (order : list comp) : Prop :=
    forall l1 x l2, order = l1 ++ x :: l2 -> forall z, In z order -> feeds (comp_id z) (comp_id x) -> In z l1.
  Lemma split_app {A} (l1 l2 k1 k2 : list A) z : l1 ++ l2 = k1 ++ z :: k2 ->
    (exists k, l1 = k1 ++ z :: k /\ k2 = k ++ l2) \/ (exists k, l2 = k ++ z :: k2 /\ k1 = l1 ++ k).
  Proof.
    revert k1. induction l1 as [|a l1 IH]; intros k1 E; cbn [app] in E.
    - right. exists k1. auto.
    - destruct k1 as [|b k1]; cbn [app] in E; injection E as <- E.
      + left. exists l1. auto.
      + destruct (IH k1 E) as [(k & -> & ->)|(k & -> & ->)]; [left|right]; exists k; auto.
  Qed.
  Lemma same_results (V V' : valuation B) : forall order order' w w1 w2,
    (forall x, In x order -> atomic_in root x) -> NoDup (map comp_id order) -> Permutation order order' ->
    sorted order -> sorted order' ->
    (forall l1 x l2, order = l1 ++ x :: l2 -> forall d s, In d (inputs o x) -> source s d -> V s = V' s \/ exists z, In z l1 /\ In s (outputs o z)) ->
    exec V w order w1 -> exec V' w order' w2 ->
    w1 = w2 /\ forall x c, In x order -> In c (outputs o x) -> V c = V' c.
  Proof using single indep.
    induction order as [|x rest IH]; intros order' w w1 w2 HA ND P S S' HI E E'.
    - apply Permutation_nil in P. subst order'. inversion E; inversion E'; subst. split; [reflexivity|intros ? ? []].
    - assert (Hx : In x order') by (apply (Permutation_in _ P); now left). apply in_split in Hx as (l1 & l2 & ->).
      cbn [map] in ND. apply NoDup_cons_iff in ND as [Ni ND].
      assert (P' : Permutation rest (l1 ++ l2)) by (apply Permutation_cons_inv with x; rewrite P; symmetry; apply Permutation_middle).
      assert (Nx : forall z, In z (l1 ++ l2) -> comp_id z <> comp_id x).
      { intros z Hz K. apply Ni. rewrite <- K. apply in_map. now apply (Permutation_in _ (Permutation_sym P')). }
      apply to_front in E'.
      2:{ intros z Hz. assert (Hz' : In z (l1 ++ l2)) by (apply in_or_app; now left). apply indep.
          - apply HA. right. now apply (Permutation_in _ (Permutation_sym P')).
          - apply HA. now left.
          - now apply Nx.
          - intros K. apply (S [] x rest eq_refl z); [right; now apply (Permutation_in _ (Permutation_sym P'))|exact K].
          - intros K. apply in_split in Hz as (j1 & j2 & ->).
            assert (Hx : In x j1). { apply (S' j1 z (j2 ++ x :: l2)); [now rewrite <- app_assoc|apply in_or_app; right; now left|exact K]. }
            apply (Nx x); [|reflexivity]. rewrite !in_app_iff. tauto. }
      inversion E as [|? ? ? ins wa wb A Bh R]; subst. inversion E' as [|? ? ? ins' wa' wb' A' Bh' R']; subst.
      assert (EI : ins = ins').
      { apply (arrives_same V V' (inputs o x)); [|exact A|exact A']. intros d s Hd Hs. destruct (HI [] x rest eq_refl d s Hd Hs) as [K|(z & [] & _)]. exact K. }
      subst ins'. rewrite Bh in Bh'. injection Bh' as <- EV.
      assert (HV : forall c, In c (outputs o x) -> V c = V' c).
      { revert EV. generalize (outputs o x). clear. induction l as [|a l IH]; intros E c Hc; [destruct Hc|]. cbn [map] in E. injection E as E1 E2.
        destruct Hc as [<-|Hc]; [exact E1|now apply IH]. }
      destruct (IH (l1 ++ l2) wa w1 w2) as [I1 I2]; try assumption.
      + intros z Hz. apply HA. now right.
      + intros k1 z k2 Ek u Hu K. destruct (S (x :: k1) z k2) with (z := u) as [Eu|Hi]; [now rewrite Ek|now right|exact K| |exact Hi].
        exfalso. apply Ni. subst u. now apply in_map.
      + intros k1 z k2 Ek u Hu K. pose proof (Nx u Hu) as Nu. assert (Iu : In u (l1 ++ x :: l2)) by (rewrite in_app_iff in *; cbn [In]; tauto).
        destruct (split_app _ _ _ _ _ Ek) as [(k & -> & ->)|(k & -> & ->)].
        * apply (S' k1 z (k ++ x :: l2)); [now rewrite <- app_assoc|exact Iu|exact K].
        * assert (Hi : In u (l1 ++ x :: k)) by (apply (S' (l1 ++ x :: k) z k2); [now rewrite <- app_assoc|exact Iu|exact K]).
          rewrite in_app_iff in *. destruct Hi as [Hi|[->|Hi]]; auto. now destruct Nu.
      + intros k1 z k2 Ek d s Hd Hs. destruct (HI (x :: k1) z k2) with (d := d) (s := s) as [K|(u & [->|Hu] & Ho)]; [now rewrite Ek|exact Hd|exact Hs|now left| |].
        * left. now apply HV.
        * right. eauto.
      + split; [exact I1|]. intros z c [->|Hz] Hc; [now apply HV|now apply (I2 z)].
  Qed.
End Unique.

(** the sources of a closed flow *)
Lemma closed_sources o root conns params s d : closed_flow o root conns params -> flat o conns -> In (s, d) conns ->
  In s (external o root Input) \/ exists z, atomic_in root z /\ In s (outputs o z)
    /\ (forall x, inside x root -> In (fst d) (comp_audio x) -> feeds o conns params (comp_id z) (comp_id x)).
Proof.
  intros CF F H. pose proof (f_send _ _ F _ _ H) as Ws. destruct (c_senders _ _ _ _ CF _ _ H) as (z & Hz & Pz & [[Cz Dz]|[-> Dz]]).
  - right. exists z. split; [split; assumption|]. split; [now apply channel_of|]. intros x Hx Px. left. exists s, d. split; [exact H|].
    destruct (c_describes _ _ _ _ CF) as (D1 & _). split; [now apply D1|now apply D1].
  - left. now apply channel_of.
Qed.
Lemma dependency_sorted root feeds order : dependency_order root feeds order -> sorted feeds order.
Proof. intros (_ & H2 & H3) l1 x l2 E z Hz K. apply (H3 l1 x l2 E z); [now apply H2|exact K]. Qed.
Lemma nodup_single {A C : Type} (l : list (A * C)) : NoDup (map snd l) -> forall s s' d, In (s, d) l -> In (s', d) l -> s = s'.
Proof.
  induction l as [|[a b] l IH]; intros ND s s' d H H'; [destruct H|]. cbn [map snd] in ND. apply NoDup_cons_iff in ND as [Ni ND].
  destruct H as [E|H], H' as [E'|H'].
  - congruence.
  - exfalso. apply Ni. injection E as _ ->. apply in_map_iff. now exists (s', d).
  - exfalso. apply Ni. injection E' as _ ->. apply in_map_iff. now exists (s, d).
  - now apply (IH ND s s' d).
Qed.
Lemma dependency_unique {W B : Type} o root conns params (behaviour : nat -> W -> list (list B) -> res (W * list (list B))) order order' :
  closed_flow o root conns params -> flat o conns -> independent root (feeds o conns params) behaviour ->
  dependency_order root (feeds o conns params) order -> dependency_order root (feeds o conns params) order' ->
  forall (V V' : valuation B) w w1 w2, (forall c, In c (external o root Input) -> V c = V' c) ->
    executes o (fun s d => In (s, d) conns) behaviour V w order w1 -> executes o (fun s d => In (s, d) conns) behaviour V' w order' w2 ->
    w1 = w2 /\ forall s d, In (s, d) conns -> V s = V' s.
Proof.
  intros CF F I O O' V V' w w1 w2 HE E E'. pose proof O as (N1 & M1 & P1). pose proof O' as (N2 & M2 & P2).
  destruct (same_results o root (fun s d => In (s, d) conns) behaviour (feeds o conns params) (nodup_single conns (f_single _ _ F)) I V V' order order' w w1 w2) as [K1 K2];
    try assumption.
  - intros x Hx. now apply M1.
  - apply NoDup_Permutation; [now apply NoDup_map_inv in N1|now apply NoDup_map_inv in N2|]. intros x. now rewrite M1, M2.
  - now apply dependency_sorted with root.
  - now apply dependency_sorted with root.
  - intros l1 x l2 El d s Hd Hs. destruct (closed_sources o root conns params s d CF F Hs) as [K|(z & Hz & Oz & Fz)]; [left; now apply HE|].
    right. exists z. split; [|exact Oz]. apply (P1 l1 x l2 El z Hz).
    assert (Hx : atomic_in root x) by (apply M1; rewrite El; apply in_or_app; right; now left). destruct Hx as [Hx Cx].
    apply Fz; [exact Hx|]. now apply channel_of in Hd.
  - split; [exact K1|]. intros s d H. destruct (closed_sources o root conns params s d CF F H) as [K|(z & Hz & Oz & _)]; [now apply HE|].
    apply (K2 z); [now apply M1|exact Oz].
Qed.
