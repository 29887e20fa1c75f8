(** Construction of the scheduling graph: lemmas. *)
From Verif Require Import Base FlowModel FlowProofs FlowTree SchedModel SchedProofs.
From Coq Require Import Permutation Relations.
Local Open Scope res_scope.

Lemma predecessors_in pairs node a : In a (predecessors pairs node) <-> In (a, node) pairs.
Proof.
  unfold predecessors.
  assert (G : forall l s, In a (fold_left (fun s p => if snd p =? node then set_add (fst p) s else s) l s) <-> In a s \/ In (a, node) l).
  { induction l as [|[x y] l IH]; intros s; cbn [fold_left In fst snd]; [tauto|]. rewrite IH.
    destruct (Nat.eqb_spec y node) as [->|N].
    - rewrite set_add_in. split; [intros [[->|H]|H]; auto|intros [H|[E|H]]; auto; left; left; congruence].
    - split; [intros [H|H]; auto|intros [H|[E|H]]; auto; congruence]. }
  rewrite G. cbn [In]. tauto.
Qed.
Lemma successors_in pairs node b : In b (successors pairs node) <-> In (node, b) pairs.
Proof.
  unfold successors.
  assert (G : forall l s, In b (fold_left (fun s p => if fst p =? node then set_add (snd p) s else s) l s) <-> In b s \/ In (node, b) l).
  { induction l as [|[x y] l IH]; intros s; cbn [fold_left In fst snd]; [tauto|]. rewrite IH.
    destruct (Nat.eqb_spec x node) as [->|N].
    - rewrite set_add_in. split; [intros [[->|H]|H]; auto|intros [H|[E|H]]; auto; left; left; congruence].
    - split; [intros [H|H]; auto|intros [H|[E|H]]; auto; congruence]. }
  rewrite G. cbn [In]. tauto.
Qed.

Lemma index_of_some x l i : index_of x l = Some i -> nth_error l i = Some x.
Proof.
  revert i. induction l as [|y l IH]; intros i; cbn [index_of]; [discriminate|].
  destruct (Nat.eqb_spec x y) as [->|N]; [intros E; injection E as <-; reflexivity|].
  destruct (index_of x l) as [k|]; [|discriminate]. intros E. injection E as <-. now apply IH.
Qed.
Lemma index_of_known x l : In x l -> exists i, index_of x l = Some i.
Proof.
  induction l as [|y l IH]; [intros []|]. intros H. cbn [index_of]. destruct (Nat.eqb_spec x y) as [->|N]; [eauto|].
  destruct H as [->|H]; [contradiction|]. destruct (IH H) as [i ->]. eauto.
Qed.

Section Edges.
  Variables (pairs : list (nat * nat)) (atoms : list nat) (flow : nat).
  Hypothesis ND : NoDup atoms.

  Lemma index_of_nth x i : nth_error atoms i = Some x -> index_of x atoms = Some i.
  Proof using ND.
    intros H. destruct (index_of_known x atoms) as [k E]; [now apply nth_error_In with i|].
    rewrite E. f_equal. pose proof (index_of_some _ _ _ E) as E'.
    apply (proj1 (NoDup_nth_error atoms) ND); [|congruence]. apply nth_error_Some. congruence.
  Qed.

  (** edges found for the vertex [v] of component [node] *)
  Definition VE (v node x y : nat) : Prop :=
    (y = v /\ ((x = 0 /\ forall a, ~ In (a, node) pairs)
               \/ exists i a, x = 2 + i /\ nth_error atoms i = Some a /\ In (a, node) pairs))
    \/ (x = v /\ y = 1 /\ v <> 1 /\ forall b, ~ In (node, b) pairs).

  Lemma vertex_edges_ok v node : (forall a, In (a, node) pairs -> In a atoms) ->
    exists es, vertex_edges pairs atoms v node = Ok es /\ forall x y, In (x, y) es <-> VE v node x y.
  Proof using ND.
    intros K. unfold vertex_edges.
    assert (G : forall l es, (forall a, In a l -> In a atoms) ->
              exists es', fold_left (fun r p => es <- r ;; u <- vertex_of atoms p ;; Ok (es ++ [(u, v)])) l (Ok es) = Ok es'
                /\ forall x y, In (x, y) es' <-> In (x, y) es
                     \/ (y = v /\ exists i a, x = 2 + i /\ nth_error atoms i = Some a /\ In a l)).
    { induction l as [|a l IH]; intros es Hl; cbn [fold_left].
      - exists es. split; [reflexivity|]. intros x y. split; [auto|]. intros [H|(_ & i & a & _ & _ & [])]. exact H.
      - cbn [bind]. unfold vertex_of at 2. destruct (index_of_known a atoms) as [k Ek]; [apply Hl; now left|]. rewrite Ek. cbn [bind].
        destruct (IH (es ++ [(2 + k, v)])) as (es' & E & S); [intros b Hb; apply Hl; now right|].
        exists es'. split; [exact E|]. intros x y. rewrite S, in_app_iff. cbn [In]. pose proof (index_of_some _ _ _ Ek) as Nk. split.
        + intros [[H|[H|[]]]|(-> & i & b & -> & H1 & H2)]; auto.
          * injection H as <- <-. right. split; [reflexivity|]. exists k, a. auto.
          * right. split; [reflexivity|]. exists i, b. auto.
        + intros [H|(-> & i & b & -> & H1 & [<-|H2])]; auto.
          * left. right. left. apply index_of_nth in H1. rewrite H1 in Ek. injection Ek as <-. reflexivity.
          * right. split; [reflexivity|]. exists i, b. auto. }
    destruct (predecessors pairs node) as [|p preds] eqn:EP.
    - cbn [bind]. eexists. split; [reflexivity|]. intros x y. unfold VE.
      assert (NP : forall a, ~ In (a, node) pairs) by (intros a H; apply predecessors_in in H; now rewrite EP in H).
      rewrite in_app_iff. split.
      + intros [[H|[]]|H].
        * injection H as <- <-. left. split; [reflexivity|]. left. auto.
        * right. destruct (successors pairs node) eqn:ES; [|contradiction]. destruct (Nat.eqb_spec v 1); [contradiction|].
          destruct H as [H|[]]. injection H as <- <-. repeat split; auto. intros b H. apply successors_in in H. now rewrite ES in H.
      + intros [(-> & [(-> & _)|(i & a & -> & _ & H)])|(-> & -> & N & H)].
        * left. now left.
        * now apply NP in H.
        * right. destruct (successors pairs node) as [|b l] eqn:ES.
          -- destruct (Nat.eqb_spec v 1); [contradiction|]. now left.
          -- exfalso. apply (H b). apply successors_in. rewrite ES. now left.
    - assert (PI : forall a, In a (p :: preds) <-> In (a, node) pairs) by (intros a; rewrite <- EP; apply predecessors_in).
      destruct (G (p :: preds) []) as (es & E & S).
      { intros a H. apply PI in H. now apply K. }
      rewrite E. cbn [bind]. eexists. split; [reflexivity|]. intros x y. unfold VE.
      rewrite in_app_iff, S. split.
      + intros [[[]|(-> & i & a & -> & H1 & H2)]|H].
        * left. split; [reflexivity|]. right. exists i, a. apply PI in H2. auto.
        * right. destruct (successors pairs node) eqn:ES; [|contradiction]. destruct (Nat.eqb_spec v 1); [contradiction|].
          destruct H as [H|[]]. injection H as <- <-. repeat split; auto. intros b H. apply successors_in in H. now rewrite ES in H.
      + intros [(-> & [(-> & H)|(i & a & -> & H1 & H)])|(-> & -> & N & H)].
        * exfalso. apply (H p). apply PI. now left.
        * left. right. split; [reflexivity|]. exists i, a. rewrite PI. auto.
        * right. destruct (successors pairs node) as [|b l] eqn:ES.
          -- destruct (Nat.eqb_spec v 1); [contradiction|]. now left.
          -- exfalso. apply (H b). apply successors_in. rewrite ES. now left.
  Qed.

  Hypothesis known : forall a b, In (a, b) pairs -> In a atoms.
  Lemma graph_edges_ok : exists es, graph_edges pairs flow atoms = Ok es
    /\ forall x y, In (x, y) es <-> VE 1 flow x y \/ exists j b, nth_error atoms j = Some b /\ VE (2 + j) b x y.
  Proof using ND known.
    unfold graph_edges. destruct (vertex_edges_ok 1 flow (fun a => known a flow)) as (e0 & E0 & S0). rewrite E0.
    assert (G : forall l es, (forall a, In a l -> In a atoms) ->
              exists es', fold_left (fun r a => es <- r ;; v <- vertex_of atoms a ;; new <- vertex_edges pairs atoms v a ;; Ok (es ++ new)) l (Ok es) = Ok es'
                /\ forall x y, In (x, y) es' <-> In (x, y) es \/ exists j b, nth_error atoms j = Some b /\ In b l /\ VE (2 + j) b x y).
    { induction l as [|a l IH]; intros es Hl; cbn [fold_left].
      - exists es. split; [reflexivity|]. intros x y. split; [auto|]. intros [H|(j & b & _ & [] & _)]. exact H.
      - cbn [bind]. unfold vertex_of at 2. destruct (index_of_known a atoms) as [k Ek]; [apply Hl; now left|]. rewrite Ek. cbn [bind].
        destruct (vertex_edges_ok (2 + k) a (fun b => known b a)) as (e1 & E1 & S1). rewrite E1. cbn [bind].
        destruct (IH (es ++ e1)) as (es' & E & S); [intros b Hb; apply Hl; now right|].
        exists es'. split; [exact E|]. intros x y. rewrite S, in_app_iff, S1. pose proof (index_of_some _ _ _ Ek) as Nk. split.
        + intros [[H|H]|(j & b & H1 & H2 & H3)]; [now left|right; exists k, a; cbn; auto|right; exists j, b; cbn; auto].
        + intros [H|(j & b & H1 & [<-|H2] & H3)]; [auto| |right; exists j, b; auto].
          apply index_of_nth in H1. rewrite H1 in Ek. injection Ek as <-. auto. }
    destruct (G (sorted_atoms atoms) e0) as (es & E & S).
    - intros a H. now rewrite (sorted_atoms_perm atoms ND) in H.
    - exists es. split; [exact E|]. intros x y. rewrite S, S0. split.
      + intros [H|(j & b & H1 & _ & H2)]; eauto.
      + intros [H|(j & b & H1 & H2)]; [now left|]. right. exists j, b. split; [exact H1|]. split; [|exact H2].
        rewrite (sorted_atoms_perm atoms ND). now apply nth_error_In with j.
  Qed.

  (** dependencies between atoms *)
  Definition dep (a b : nat) : Prop := In (a, b) pairs /\ In a atoms /\ In b atoms.

  Variable es : list edge.
  Hypothesis spec : forall x y, In (x, y) es <-> VE 1 flow x y \/ exists j b, nth_error atoms j = Some b /\ VE (2 + j) b x y.

  Lemma edges_bounded x y : In (x, y) es -> x < 2 + length atoms /\ y < 2 + length atoms.
  Proof using spec.
    assert (B : forall i a, nth_error atoms i = Some a -> i < length atoms) by (intros i a H; apply nth_error_Some; congruence).
    intros H. apply spec in H as [H|(j & b & Hj & H)]; destruct H as [(-> & [(-> & _)|(i & a & -> & Hi & _)])|(-> & -> & N & _)];
      try apply B in Hi; try apply B in Hj; lia.
  Qed.
  Lemma edges_from_sink y : ~ In (1, y) es.
  Proof using spec.
    intros H. apply spec in H as [H|(j & b & Hj & H)]; destruct H as [(-> & [(E & _)|(i & a & E & Hi & _)])|(E & -> & N & _)];
      try discriminate. now apply N.
  Qed.
  Lemma edges_to_source x : ~ In (x, 0) es.
  Proof using spec.
    intros H. apply spec in H as [H|(j & b & Hj & H)]; destruct H as [(E & _)|(_ & E & _)]; discriminate.
  Qed.
  Lemma edges_inner i j a b : nth_error atoms i = Some a -> nth_error atoms j = Some b -> (In (2 + i, 2 + j) es <-> In (a, b) pairs).
  Proof using spec.
    intros Hi Hj. rewrite spec. split.
    - intros [H|(k & c & Hk & H)]; destruct H as [(E & [(E' & _)|(i' & a' & E' & Hi' & P)])|(E & E' & N & _)]; try discriminate.
      injection E as <-. injection E' as <-. congruence.
    - intros P. right. exists j, b. split; [exact Hj|]. left. split; [reflexivity|]. right. exists i, a. auto.
  Qed.
  Lemma path_from_sink x y : path es x y -> x = 1 -> y = 1.
  Proof using spec. induction 1 as [x|x y z H]; [auto|]. intros ->. now apply edges_from_sink in H. Qed.
  Lemma path_to_source x y : path es x y -> y = 0 -> x = 0.
  Proof using spec.
    induction 1 as [x|x y z H _ IH]; [auto|]. intros ->. specialize (IH eq_refl). subst y. now apply edges_to_source in H.
  Qed.
  Lemma path_dep x y : path es x y -> forall i j a b, x = 2 + i -> y = 2 + j ->
    nth_error atoms i = Some a -> nth_error atoms j = Some b -> clos_refl_trans_1n _ dep a b.
  Proof using spec.
    induction 1 as [x|x y z H P IH]; intros i j a b -> E Hi Hj.
    - injection E as <-. rewrite Hi in Hj. injection Hj as <-. constructor.
    - subst z. destruct y as [|[|k]]; [now apply edges_to_source in H|apply path_from_sink in P; [discriminate|reflexivity]|].
      pose proof (proj2 (edges_bounded _ _ H)) as L. destruct (nth_error atoms k) as [c|] eqn:Hk.
      2:{ apply nth_error_None in Hk. lia. }
      apply Relation_Operators.rt1n_trans with (y := c); [|now apply (IH k j)]. split; [now apply (edges_inner i k)|].
      split; eapply nth_error_In; eassumption.
  Qed.
  Lemma cycle_dep : cycle es <-> exists a, clos_trans_1n _ dep a a.
  Proof using spec ND.
    split.
    - intros (x & y & H & P).
      destruct x as [|[|i]]; [apply path_to_source in P; [subst; now apply edges_to_source in H|reflexivity]|now apply edges_from_sink in H|].
      destruct y as [|[|j]]; [now apply edges_to_source in H|apply path_from_sink in P; [discriminate|reflexivity]|].
      destruct (edges_bounded _ _ H) as [L1 L2].
      destruct (nth_error atoms i) as [a|] eqn:Hi; [|apply nth_error_None in Hi; lia].
      destruct (nth_error atoms j) as [b|] eqn:Hj; [|apply nth_error_None in Hj; lia].
      exists a. pose proof (path_dep _ _ P j i b a eq_refl eq_refl Hj Hi) as R.
      assert (D : dep a b) by (split; [now apply (edges_inner i j)|split; eapply nth_error_In; eassumption]).
      assert (K : forall b c, clos_refl_trans_1n _ dep b c -> forall s, dep s b -> clos_trans_1n _ dep s c).
      { clear. induction 1 as [b|b c d D' R IH]; intros s D; [now apply t1n_step|].
        apply Relation_Operators.t1n_trans with (y := b); [exact D|]. now apply IH. }
      now apply K with b.
    - intros (a & R).
      assert (G : forall a b, clos_trans_1n _ dep a b -> exists i j, nth_error atoms i = Some a /\ nth_error atoms j = Some b
                   /\ exists y, In (2 + i, y) es /\ path es y (2 + j)).
      { clear a R. induction 1 as [a b (P & Ia & Ib)|a b c (P & Ia & Ib) _ IH].
        - apply In_nth_error in Ia as [i Hi]. apply In_nth_error in Ib as [j Hj]. exists i, j. split; [exact Hi|]. split; [exact Hj|].
          exists (2 + j). split; [now apply (edges_inner i j a b)|constructor].
        - destruct IH as (j & k & Hj & Hk & y & Hy & Py). apply In_nth_error in Ia as [i Hi]. exists i, k.
          split; [exact Hi|]. split; [exact Hk|]. exists (2 + j). split; [now apply (edges_inner i j a b)|].
          now apply path_step with y. }
      destruct (G a a R) as (i & j & Hi & Hj & y & Hy & Py).
      assert (i = j) as ->; [|now exists (2 + j), y].
      apply (proj1 (NoDup_nth_error atoms) ND); [apply nth_error_Some; congruence|congruence].
  Qed.
End Edges.
