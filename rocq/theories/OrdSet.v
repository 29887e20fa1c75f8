(** std::set< A, Less > as a sorted list, and its relation to finite maps.

    Model (the documented contract of std::set): find(), insert() (which does nothing
    and reports false if an equivalent element exists) and erase( iterator ). *)
From Verif Require Import Base.
From Coq Require Import Sorted.

Section Model.
  Context {A : Type} (less : A -> A -> bool).
  Definition equiv (a b : A) : bool := negb (less a b) && negb (less b a).
  Definition set_find (x : A) (l : list A) : option A := find (equiv x) l.
  Fixpoint set_insert (x : A) (l : list A) : list A * bool :=
    match l with
    | [] => ([x], true)
    | y :: r => if less x y then (x :: l, true)
                else if less y x then let '(r', b) := set_insert x r in (y :: r', b)
                else (l, false)
    end.
  Fixpoint set_erase (x : A) (l : list A) : list A :=
    match l with
    | [] => []
    | y :: r => if equiv x y then r else y :: set_erase x r
    end.
  (** the idiom [findIt = find( x ); if( findIt != end() ) erase( findIt ); insert( x )] *)
  Definition set_replace (x : A) (l : list A) : list A * bool :=
    set_insert x (match set_find x l with Some _ => set_erase x l | None => l end).
End Model.

(** Finite maps *)
Section Maps.
  Context {Key A : Type} (eqk : Key -> Key -> bool).
  Definition mempty : Key -> option A := fun _ => None.
  Definition mset (m : Key -> option A) (k : Key) (v : option A) : Key -> option A :=
    fun k' => if eqk k' k then v else m k'.
End Maps.

Section Proofs.
  Context {A Key : Type} (less : A -> A -> bool) (key : A -> Key)
          (eqk : Key -> Key -> bool) (ltk : Key -> Key -> Prop).
  Hypothesis eqk_spec : forall a b, reflect (a = b) (eqk a b).
  Hypothesis less_spec : forall a b, less a b = true <-> ltk (key a) (key b).
  Hypothesis lt_irr : forall a, ~ ltk a a.
  Hypothesis lt_trans : forall a b c, ltk a b -> ltk b c -> ltk a c.
  Hypothesis lt_total : forall a b, ltk a b \/ a = b \/ ltk b a.

  Definition sorted (l : list A) : Prop := StronglySorted (fun a b => ltk (key a) (key b)) l.

  (** [l] is the sorted list of the values of the map [m] *)
  Definition repr (l : list A) (m : Key -> option A) : Prop :=
    sorted l /\ forall k x, m k = Some x <-> In x l /\ key x = k.

  Lemma less_false a b : less a b = false <-> ~ ltk (key a) (key b).
  Proof. rewrite <- less_spec. destruct (less a b); split; congruence. Qed.
  Lemma equiv_spec a b : equiv less a b = eqk (key a) (key b).
  Proof.
    unfold equiv. destruct (eqk_spec (key a) (key b)) as [E|N].
    - assert (less a b = false) as ->. { apply less_false. rewrite E. apply lt_irr. }
      assert (less b a = false) as ->. { apply less_false. rewrite E. apply lt_irr. } reflexivity.
    - destruct (lt_total (key a) (key b)) as [L|[L|L]]; [|contradiction|]; apply less_spec in L; rewrite L.
      + reflexivity.
      + apply andb_false_r.
  Qed.

  Lemma sorted_unique l x y : sorted l -> In x l -> In y l -> key x = key y -> x = y.
  Proof.
    induction 1 as [|z l S IH F]; intros Hx Hy E; [destruct Hx|]. rewrite Forall_forall in F.
    destruct Hx as [->|Hx], Hy as [->|Hy]; auto.
    - destruct (lt_irr (key y)). rewrite <- E at 1. now apply F.
    - destruct (lt_irr (key x)). rewrite E at 1. now apply F.
  Qed.

  Lemma repr_empty : repr [] mempty.
  Proof. split; [constructor|]. intros k x. split; [discriminate|intros [[] _]]. Qed.

  Lemma repr_nodup l m : repr l m -> NoDup (map key l).
  Proof.
    intros [S _]. induction S as [|x l S IH F]; simpl; constructor; [|exact IH].
    intros H. apply in_map_iff in H as (y & E & Hy). rewrite Forall_forall in F.
    destruct (lt_irr (key x)). rewrite <- E at 2. now apply F.
  Qed.

  (** the list is determined by the map *)
  Lemma repr_functional l l' m : repr l m -> repr l' m -> l = l'.
  Proof.
    intros [S M] [S' M']. assert (I : forall x, In x l <-> In x l').
    { intros x. split; intros H.
      - apply (proj1 (M' (key x) x)). apply M. auto.
      - apply (proj1 (M (key x) x)). apply M'. auto. }
    clear M M'. revert l' S' I. induction S as [|x l S IH F]; intros l' S' I.
    - destruct l' as [|y l']; [reflexivity|]. destruct (proj2 (I y) (or_introl eq_refl)).
    - destruct l' as [|y l']; [destruct (proj1 (I x) (or_introl eq_refl))|].
      assert (F' := StronglySorted_inv S'). destruct F' as [S2 F'].
      rewrite Forall_forall in F, F'.
      assert (x = y).
      { destruct (proj1 (I x) (or_introl eq_refl)) as [E|Hx]; [congruence|].
        destruct (proj2 (I y) (or_introl eq_refl)) as [E|Hy]; [congruence|].
        destruct (lt_irr (key x)). apply lt_trans with (key y); auto. }
      subst y. f_equal. apply IH; [exact S2|]. intros z. split; intros Hz.
      + destruct (proj1 (I z) (or_intror Hz)) as [<-|H]; [|exact H]. destruct (lt_irr (key x)). now apply F.
      + destruct (proj2 (I z) (or_intror Hz)) as [<-|H]; [|exact H]. destruct (lt_irr (key x)). now apply F'.
  Qed.

  Lemma find_repr l m x : repr l m -> set_find less x l = m (key x).
  Proof.
    intros [S M]. unfold set_find. destruct (find (equiv less x) l) as [y|] eqn:E.
    - apply find_some in E as [H E]. rewrite equiv_spec in E. destruct (eqk_spec (key x) (key y)) as [Q|]; [|discriminate].
      symmetry. apply M. auto.
    - destruct (m (key x)) as [y|] eqn:Q; [|reflexivity]. apply M in Q as [H Q].
      assert (N := find_none _ _ E y H). rewrite equiv_spec in N.
      destruct (eqk_spec (key x) (key y)); [discriminate|congruence].
  Qed.

  Lemma erase_in l x y : sorted l -> In y (set_erase less x l) <-> In y l /\ key y <> key x.
  Proof.
    induction 1 as [|z l S IH F]; simpl; [tauto|]. rewrite equiv_spec. rewrite Forall_forall in F.
    destruct (eqk_spec (key x) (key z)) as [E|N].
    - split.
      + intros H. split; [auto|]. intros Q. destruct (lt_irr (key z)). rewrite <- E at 2. rewrite <- Q. now apply F.
      + intros [[->|H] Q]; [congruence|exact H].
    - simpl. rewrite IH. split.
      + intros [->|[H Q]]; [split; [auto|congruence]|auto].
      + intros [[->|H] Q]; auto.
  Qed.
  Lemma erase_sorted l x : sorted l -> sorted (set_erase less x l).
  Proof.
    induction 1 as [|z l S IH F]; simpl; [constructor|]. destruct (equiv less x z); [exact S|].
    constructor; [exact IH|]. rewrite Forall_forall in *. intros y Hy. apply (erase_in l x y S) in Hy. now apply F.
  Qed.
  Lemma erase_repr l m x : repr l m -> repr (set_erase less x l) (mset eqk m (key x) None).
  Proof.
    intros [S M]. split; [now apply erase_sorted|]. intros k y. rewrite (erase_in l x y S).
    unfold mset. destruct (eqk_spec k (key x)) as [->|N].
    - split; [discriminate|]. intros [[_ H] Q]. contradiction.
    - rewrite M. split; [intros [H Q]; subst; auto|intros [[H H'] Q]; auto].
  Qed.

  Lemma insert_in l x y : In y (fst (set_insert less x l)) -> y = x \/ In y l.
  Proof.
    induction l as [|z l IH]; simpl; [intros [<-|[]]; auto|].
    destruct (less x z); simpl; [intros [<-|H]; auto|].
    destruct (less z x); simpl; [|auto]. destruct (set_insert less x l) as [r' b]. simpl in *.
    intros [->|H]; auto. destruct (IH H); auto.
  Qed.
  Lemma insert_new l m x : repr l m -> m (key x) = None ->
    exists l', set_insert less x l = (l', true) /\ repr l' (mset eqk m (key x) (Some x)).
  Proof.
    intros [S M] N.
    assert (Nk : forall y, In y l -> key y <> key x).
    { intros y Hy E. assert (m (key x) = Some y) by (apply M; auto). congruence. }
    assert (G : exists l', set_insert less x l = (l', true) /\ sorted l' /\ forall y, In y l' <-> y = x \/ In y l).
    { clear M N. induction S as [|z l S IH F]; simpl.
      - exists [x]. split; [reflexivity|]. split; [repeat constructor|]. simpl. intros y. intuition.
      - rewrite Forall_forall in F. destruct (less x z) eqn:L.
        + apply less_spec in L. exists (x :: z :: l). split; [reflexivity|]. split.
          * constructor; [constructor; [exact S|now rewrite Forall_forall]|].
            rewrite Forall_forall. intros y [<-|H]; [exact L|]. apply lt_trans with (key z); auto.
          * simpl. intros y. intuition.
        + destruct (less z x) eqn:L2.
          * destruct IH as (l' & E & S' & I); [intros y Hy; apply Nk; now right|]. rewrite E.
            exists (z :: l'). split; [reflexivity|]. split.
            -- constructor; [exact S'|]. rewrite Forall_forall. intros y Hy. apply I in Hy as [->|Hy]; [now apply less_spec|auto].
            -- simpl. intros y. rewrite I. tauto.
          * exfalso. apply less_false in L, L2. destruct (lt_total (key x) (key z)) as [H|[H|H]]; auto.
            apply (Nk z); [now left|congruence]. }
    destruct G as (l' & E & S' & I). exists l'. split; [exact E|]. split; [exact S'|].
    intros k y. rewrite I. unfold mset. destruct (eqk_spec k (key x)) as [->|Nn].
    - split; [intros [= <-]; auto|]. intros [[->|H] Q]; [reflexivity|]. destruct (Nk y H Q).
    - rewrite M. split; [intros [H Q]; auto|]. intros [[->|H] Q]; [congruence|auto].
  Qed.
  Lemma insert_old l m x y : repr l m -> m (key x) = Some y -> set_insert less x l = (l, false).
  Proof.
    intros [S M] E. apply M in E as [H E]. clear M. induction S as [|z l S IH F]; [destruct H|].
    simpl. rewrite Forall_forall in F.
    destruct H as [->|H].
    - assert (less x y = false) as ->. { apply less_false. rewrite E. apply lt_irr. }
      assert (less y x = false) as ->. { apply less_false. rewrite E. apply lt_irr. } reflexivity.
    - assert (L : ltk (key z) (key x)) by (rewrite <- E; auto).
      assert (less x z = false) as ->.
      { apply less_false. intros L'. apply (lt_irr (key z)). now apply lt_trans with (key x). }
      apply less_spec in L. rewrite L. now rewrite IH.
  Qed.

  (** erase an equivalent element, if any, then insert *)
  Lemma replace_repr l m x : repr l m ->
    exists l', set_replace less x l = (l', true) /\ repr l' (mset eqk m (key x) (Some x)).
  Proof.
    intros R. unfold set_replace. rewrite (find_repr l m x R). destruct (m (key x)) as [y|] eqn:Ey.
    - assert (R' := erase_repr l m x R). destruct (insert_new _ _ x R') as (l' & E & [S M]).
      + unfold mset. destruct (eqk_spec (key x) (key x)); congruence.
      + exists l'. split; [exact E|]. split; [exact S|]. intros k z. rewrite <- M. unfold mset.
        destruct (eqk k (key x)); reflexivity.
    - now apply insert_new.
  Qed.
  Lemma repr_ext l m m' : (forall k, m k = m' k) -> repr l m -> repr l m'.
  Proof. intros E [S M]. split; [exact S|]. intros k x. rewrite <- E. apply M. Qed.
  Lemma repr_key l m k x : repr l m -> m k = Some x -> key x = k.
  Proof. intros [_ M] H. now apply M in H. Qed.
  Lemma repr_in l m x : repr l m -> In x l -> m (key x) = Some x.
  Proof. intros [_ M] H. now apply M. Qed.
End Proofs.

(** Pairs with the lexicographic order *)
Definition pair_eqb (a b : nat * nat) : bool := (fst a =? fst b) && (snd a =? snd b).
Definition pair_lt (a b : nat * nat) : Prop := fst a < fst b \/ (fst a = fst b /\ snd a < snd b).
Lemma pair_eqb_spec a b : reflect (a = b) (pair_eqb a b).
Proof.
  unfold pair_eqb. destruct a as [a1 a2], b as [b1 b2]; simpl.
  destruct (Nat.eqb_spec a1 b1), (Nat.eqb_spec a2 b2); simpl; constructor; congruence.
Qed.
Lemma pl_irr a : ~ pair_lt a a. Proof. unfold pair_lt. lia. Qed.
Lemma pl_trans a b c : pair_lt a b -> pair_lt b c -> pair_lt a c. Proof. unfold pair_lt. lia. Qed.
Lemma pl_total a b : pair_lt a b \/ a = b \/ pair_lt b a.
Proof.
  destruct a as [a1 a2], b as [b1 b2]. unfold pair_lt; simpl.
  destruct (lt_eq_lt_dec a1 b1) as [[H|H]|H]; auto. subst.
  destruct (lt_eq_lt_dec a2 b2) as [[H|H]|H]; subst; auto.
Qed.
