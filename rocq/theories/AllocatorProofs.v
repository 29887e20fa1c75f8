From Coq Require Import Permutation Sorted.
From Verif Require Import Base AllocatorModel.
Local Open Scope Z_scope.

Definition channel_of (a : alloc) (id : Z) : option nat :=
  match find (fun kv => fst kv =? id) (a_lookup a) with Some kv => Some (snd kv) | None => None end.

(** Active objects *)
Definition active (a : alloc) : list Z := map fst (a_lookup a).

Notation keys m := (map fst m).
Notation sorted := (StronglySorted Z.lt).

Record a_inv (a : alloc) : Prop := {
  ai_sorted : sorted (keys (a_lookup a));
  ai_perm : Permutation (map snd (a_lookup a) ++ a_unused a) (seq 0 (a_max a))
}.

Lemma a_new_inv n : a_inv (alloc_new n).
Proof. constructor; simpl; [constructor|reflexivity]. Qed.

(** ** Sorting *)
Lemma insert_sorted_perm x l : Permutation (insert_sorted x l) (x :: l).
Proof.
  induction l as [|y l IH]; simpl; [reflexivity|].
  destruct (x <=? y); [reflexivity|]. rewrite IH. constructor.
Qed.
Lemma sort_perm l : Permutation (sort_ids l) l.
Proof. induction l as [|x l IH]; simpl; [reflexivity|]. now rewrite insert_sorted_perm, IH. Qed.

Lemma insert_sorted_sorted x l : ~ In x l -> sorted l -> sorted (insert_sorted x l).
Proof.
  induction l as [|y l IH]; intros Hn S; simpl.
  - repeat constructor.
  - inversion S as [|? ? S' F]; subst. destruct (Z.leb_spec x y).
    + assert (x <> y) by (intros ->; apply Hn; now left).
      constructor; [constructor; auto|]. constructor; [lia|].
      eapply Forall_impl; [|exact F]. simpl. lia.
    + constructor.
      * apply IH; [|exact S']. intros Hi. apply Hn. now right.
      * rewrite Forall_forall. intros z Hz. rewrite insert_sorted_perm in Hz.
        destruct Hz as [<-|Hz]; [lia|]. rewrite Forall_forall in F. auto.
Qed.
Lemma sort_sorted l : NoDup l -> sorted (sort_ids l).
Proof.
  induction 1 as [|x l Hn ND IH]; simpl; [constructor|].
  apply insert_sorted_sorted; [|exact IH]. now rewrite sort_perm.
Qed.

(** ** First pass *)
Lemma sorted_lt x l y : sorted (x :: l) -> In y l -> x < y.
Proof. intros S Hy. inversion S as [|? ? _ F]; subst. rewrite Forall_forall in F. auto. Qed.
Lemma sorted_tl x l : sorted (x :: l) -> sorted l.
Proof. now inversion 1. Qed.

Definition mem (ids : list Z) (kv : Z * nat) : bool := existsb (Z.eqb (fst kv)) ids.

Lemma mem_true ids kv : mem ids kv = true <-> In (fst kv) ids.
Proof.
  unfold mem. rewrite existsb_exists. split.
  - intros (x & Hx & E). apply Z.eqb_eq in E. now subst.
  - intros H. exists (fst kv). split; [exact H|apply Z.eqb_refl].
Qed.
Lemma mem_false ids kv : mem ids kv = false <-> ~ In (fst kv) ids.
Proof. rewrite <- mem_true. destruct (mem ids kv); split; congruence. Qed.

Lemma filter_ext_in' (f g : Z * nat -> bool) l : (forall x, In x l -> f x = g x) -> filter f l = filter g l.
Proof.
  induction l as [|x l IH]; intros H; [reflexivity|]. simpl. rewrite (H x) by now left.
  rewrite IH by (intros; apply H; now right). reflexivity.
Qed.

Lemma pass1_spec lookup : forall ids unused l u,
  sorted (keys lookup) -> sorted ids ->
  pass1 lookup ids unused = (l, u) ->
  l = filter (mem ids) lookup
  /\ Permutation (map snd l ++ u) (map snd lookup ++ unused).
Proof.
  induction lookup as [|[k ch] rest IH]; intros ids unused l u SL SI H.
  - destruct ids; simpl in H; injection H as <- <-; auto.
  - cbn [map] in SL.
    assert (Rel : forall ids' unused' l u, (forall i, In i ids' -> k < i) -> sorted ids' ->
       pass1 rest ids' (ch :: unused') = (l, u) ->
       l = filter (mem ids') ((k, ch) :: rest)
       /\ Permutation (map snd l ++ u) (map snd ((k, ch) :: rest) ++ unused')).
    { intros ids' unused' l' u' Hlt SI' E. apply IH in E as [-> P]; [|now apply sorted_tl in SL|exact SI'].
      cbn [filter]. assert (M : mem ids' (k, ch) = false).
      { apply mem_false. simpl. intros Hin. apply Hlt in Hin. lia. }
      rewrite M. split; [reflexivity|]. rewrite P. cbn [map snd app].
      symmetry. apply Permutation_middle. }
    induction ids as [|i ids IHi].
    + simpl in H. apply Rel; [simpl; tauto|constructor|exact H].
    + simpl in H.
      destruct (Z.ltb_spec i k) as [L|L].
      * destruct (IHi (sorted_tl _ _ SI) H) as [-> P]. split; [|exact P].
        apply filter_ext_in'. intros [k' ch'] Hin. unfold mem. cbn [fst existsb].
        assert (k <= k').
        { destruct Hin as [E|Hin]; [injection E as -> ->; lia|].
          assert (k < k') by (eapply sorted_lt; [exact SL|]; apply in_map_iff; exists (k', ch'); auto). lia. }
        destruct (Z.eqb_spec k' i); [lia|reflexivity].
      * destruct (Z.eqb_spec i k) as [->|Hne].
        -- destruct (pass1 rest ids unused) as [l' u'] eqn:E. injection H as <- <-.
           destruct (IH _ _ _ _ (sorted_tl _ _ SL) (sorted_tl _ _ SI) E) as [-> P].
           cbn [filter]. assert (M : mem (k :: ids) (k, ch) = true) by (apply mem_true; now left).
           rewrite M. split.
           ++ f_equal. apply filter_ext_in'. intros [k' ch'] Hin. unfold mem. cbn [fst existsb].
              assert (k < k') by (eapply sorted_lt; [exact SL|]; apply in_map_iff; exists (k', ch'); auto).
              destruct (Z.eqb_spec k' k); [lia|reflexivity].
           ++ cbn [map snd app]. now constructor.
        -- assert (Lt : k < i) by lia.
           apply Rel; [|exact SI|exact H]. intros j [<-|Hj]; [exact Lt|].
           assert (i < j) by (eapply sorted_lt; eauto). lia.
Qed.

(** ** Second pass *)
Lemma map_insert_new k v m : sorted (keys m) -> ~ In k (keys m) ->
  exists m', map_insert k v m = Some m' /\ sorted (keys m') /\ Permutation m' ((k, v) :: m)
    /\ forall j, find (fun kv => fst kv =? j) m' = if k =? j then Some (k, v) else find (fun kv => fst kv =? j) m.
Proof.
  induction m as [|[k' v'] m IH]; intros S Hn; cbn [map_insert].
  - eexists. split; [reflexivity|]. split; [repeat constructor|]. split; [reflexivity|]. intros j. reflexivity.
  - cbn [map fst] in S, Hn. destruct (Z.ltb_spec k k') as [L|L].
    + eexists. split; [reflexivity|]. split; [|split; [reflexivity|]].
      * constructor; [exact S|]. constructor; [exact L|].
        inversion S as [|? ? _ F]; subst. eapply Forall_impl; [|exact F]. simpl. lia.
      * intros j. reflexivity.
    + destruct (Z.eqb_spec k k') as [E|E]; [exfalso; apply Hn; left; auto|].
      destruct IH as (m' & -> & S' & P & G); [now apply sorted_tl in S|intros Hi; apply Hn; now right|].
      eexists. split; [reflexivity|]. split; [|split].
      * cbn [map fst]. constructor; [exact S'|]. rewrite Forall_forall. intros z Hz.
        assert (Hz' : In z (k :: keys m)).
        { change (k :: keys m) with (keys ((k, v) :: m)). rewrite <- P. exact Hz. }
        destruct Hz' as [<-|Hz']; [lia|]. eapply sorted_lt; eauto.
      * rewrite P. constructor.
      * intros j. cbn [find fst]. destruct (Z.eqb_spec k' j) as [->|Hj].
        -- destruct (Z.eqb_spec k j); [lia|reflexivity].
        -- apply G.
Qed.

Lemma sorted_NoDup l : sorted l -> NoDup l.
Proof.
  induction l as [|x l IH]; intros S; constructor.
  - intros Hx. pose proof (sorted_lt _ _ _ S Hx). lia.
  - apply IH. now apply sorted_tl in S.
Qed.

Lemma pass2_spec ids : forall rest m unused,
  sorted ids -> sorted (keys m) -> sorted (keys rest) ->
  (forall k, In k (keys rest) -> In k ids) ->
  (forall i, In i ids -> In i (keys m) -> In i (keys rest)) ->
  incl (keys rest) (keys m) ->
  (length ids <= length rest + length unused)%nat ->
  exists m' u', pass2 ids rest m unused = (m', u', Ok tt)
    /\ sorted (keys m')
    /\ (forall i, In i (keys m') <-> In i (keys m) \/ In i ids)
    /\ Permutation (map snd m' ++ u') (map snd m ++ unused)
    /\ (forall i, In i (keys m) -> find (fun kv => fst kv =? i) m' = find (fun kv => fst kv =? i) m).
Proof.
  induction ids as [|i ids IH]; intros rest m unused SI SM SR Sub Fresh Inc Len; cbn [pass2].
  - exists m, unused. split; [reflexivity|]. split; [exact SM|]. split; [intros; simpl; tauto|]. auto.
  - destruct (match rest with [] => true | (k, _) :: _ => i <? k end) eqn:C.
    + assert (Lr : forall k, In k (keys rest) -> i < k).
      { destruct rest as [|[k v] rest]; [simpl; tauto|]. apply Z.ltb_lt in C.
        intros k' [<-|Hk]; [exact C|]. assert (k < k') by (eapply sorted_lt; eauto). lia. }
      assert (Sub' : forall k, In k (keys rest) -> In k ids).
      { intros k Hk. destruct (Sub k Hk) as [<-|]; [|assumption]. apply Lr in Hk. lia. }
      assert (Hc : (length rest <= length ids)%nat).
      { rewrite <- (map_length fst). apply NoDup_incl_length; [now apply sorted_NoDup|exact Sub']. }
      destruct unused as [|ch unused]; [simpl in Len; lia|].
      assert (Hn : ~ In i (keys m)).
      { intros Hi. assert (Hr := Fresh i (or_introl eq_refl) Hi). apply Lr in Hr. lia. }
      destruct (map_insert_new i ch m SM Hn) as (m1 & -> & S1 & P1 & G1).
      assert (K1 : forall x, In x (keys m1) <-> x = i \/ In x (keys m)).
      { intros x. split; intros H.
        - assert (H' : In x (keys ((i, ch) :: m))) by (rewrite <- P1; exact H).
          destruct H' as [<-|H']; auto.
        - rewrite P1. destruct H as [->|H]; [now left|now right]. }
      destruct (IH rest m1 unused) as (m' & u' & E & S' & K' & P' & G'); auto.
      { now apply sorted_tl in SI. }
      { intros j Hj Hm. apply K1 in Hm as [->|Hm].
        - exfalso. pose proof (sorted_lt _ _ _ SI Hj). lia.
        - apply Fresh; [now right|exact Hm]. }
      { intros x Hx. apply K1. right. now apply Inc. }
      { simpl in Len. lia. }
      exists m', u'. split; [exact E|]. split; [exact S'|]. split; [|split].
      * intros x. rewrite K', K1. simpl. split; intros; intuition.
      * rewrite P'. rewrite (Permutation_map snd P1). cbn [map snd].
        cbn [app]. apply Permutation_middle.
      * intros x Hx. rewrite G' by (apply K1; now right). rewrite G1.
        destruct (Z.eqb_spec i x); [subst; contradiction|reflexivity].
    + destruct rest as [|[k v] rest]; [discriminate|]. apply Z.ltb_ge in C. cbn [tl].
      assert (Ei : i = k).
      { destruct (Sub k (or_introl eq_refl)) as [->|Hk]; [reflexivity|].
        pose proof (sorted_lt _ _ _ SI Hk). lia. }
      subst k.
      destruct (IH rest m unused) as (m' & u' & E & S' & K' & P' & G'); auto.
      { now apply sorted_tl in SI. } { now apply sorted_tl in SR. }
      { intros k Hk. pose proof (sorted_lt _ _ _ SR Hk).
        destruct (Sub k (or_intror Hk)) as [E|]; [simpl in *; lia|assumption]. }
      { intros j Hj Hm. destruct (Fresh j (or_intror Hj) Hm) as [E|]; [|assumption].
        simpl in E. pose proof (sorted_lt _ _ _ SI Hj). lia. }
      { intros x Hx. apply Inc. now right. }
      { simpl in Len. lia. }
      exists m', u'. split; [exact E|]. split; [exact S'|]. split; [|split; auto].
      intros x. rewrite K'. simpl. split; [tauto|]. intros [H|[<-|H]]; auto.
      left. apply Inc. now left.
Qed.

(** ** setObjects *)
Lemma find_filter_mem ids l i : In i ids ->
  find (fun kv => fst kv =? i) (filter (mem ids) l) = find (fun kv => fst kv =? i) l.
Proof.
  intros Hi. induction l as [|[k v] l IH]; [reflexivity|]. cbn [filter find fst].
  destruct (Z.eqb_spec k i) as [->|Hne].
  - assert (M : mem ids (i, v) = true) by (apply mem_true; exact Hi). rewrite M. cbn [find fst].
    now rewrite Z.eqb_refl.
  - destruct (mem ids (k, v)); cbn [find fst]; [|exact IH].
    destruct (Z.eqb_spec k i); [contradiction|exact IH].
Qed.

Lemma filter_sorted f (l : list (Z * nat)) : sorted (keys l) -> sorted (keys (filter f l)).
Proof.
  induction l as [|[k v] l IH]; intros S; [constructor|]. cbn [filter].
  assert (S' : sorted (keys (filter f l))) by (apply IH; now apply sorted_tl in S).
  destruct (f (k, v)); [|exact S']. cbn [map fst]. constructor; [exact S'|].
  rewrite Forall_forall. intros x Hx. apply in_map_iff in Hx as (kv & <- & Hkv).
  apply filter_In in Hkv as [Hkv _]. eapply sorted_lt; [exact S|]. now apply in_map.
Qed.

Lemma find_key_in (l : list (Z * nat)) i kv : find (fun kv => fst kv =? i) l = Some kv -> In i (keys l).
Proof.
  intros H. apply find_some in H as [H1 H2]. apply Z.eqb_eq in H2. subst i. now apply in_map.
Qed.

Lemma set_objects_ok a ids :
  a_inv a -> NoDup ids -> (length ids <= a_max a)%nat ->
  exists a', set_objects a ids = (a', Ok tt) /\ a_inv a' /\ a_max a' = a_max a
    /\ (forall i, In i (active a') <-> In i ids)
    /\ (forall i, In i ids -> In i (active a) -> channel_of a' i = channel_of a i).
Proof.
  intros [S P] ND Len. unfold set_objects.
  destruct (Nat.ltb_spec (a_max a) (length ids)); [lia|].
  set (so := sort_ids ids). assert (Ps : Permutation so ids) by apply sort_perm.
  assert (Ss : sorted so) by now apply sort_sorted.
  destruct (pass1 (a_lookup a) so (a_unused a)) as [l1 u1] eqn:E1.
  destruct (pass1_spec _ _ _ _ _ S Ss E1) as [El P1].
  assert (S1 : sorted (keys l1)) by (rewrite El; now apply filter_sorted).
  assert (Sub : forall k, In k (keys l1) -> In k so).
  { intros k Hk. rewrite El in Hk. apply in_map_iff in Hk as (kv & <- & Hkv).
    apply filter_In in Hkv as [_ M]. now apply mem_true in M. }
  destruct (pass2_spec so l1 l1 u1) as (m' & u' & E2 & S2 & K2 & P2 & G2); auto.
  { apply incl_refl. }
  { rewrite (Permutation_length Ps).
    assert (L : length (map snd l1 ++ u1) = length (seq 0 (a_max a)))
      by (apply Permutation_length; now rewrite P1).
    rewrite app_length, map_length, seq_length in L. lia. }
  rewrite E2. eexists. split; [reflexivity|]. split; [|split; [reflexivity|split]].
  - constructor; cbn; [exact S2|]. now rewrite P2, P1.
  - intros i. unfold active. cbn. rewrite K2. rewrite <- Ps. split; [|tauto].
    intros [H1|H1]; [now apply Sub|exact H1].
  - intros i Hi Ha. unfold channel_of. cbn.
    assert (Hs : In i so) by now rewrite Ps.
    rewrite G2.
    + rewrite El, find_filter_mem by exact Hs. reflexivity.
    + rewrite El. unfold active in Ha. apply in_map_iff in Ha as (kv & <- & Hkv).
      apply in_map. apply filter_In. split; [exact Hkv|now apply mem_true].
Qed.

(** ** Consequences of the invariant *)
Lemma channel_in a i ch : channel_of a i = Some ch -> In (i, ch) (a_lookup a).
Proof.
  unfold channel_of. destruct (find _ _) as [[k v]|] eqn:F; [|discriminate].
  intros E. injection E as <-. apply find_some in F as [F1 F2]. apply Z.eqb_eq in F2.
  simpl in *. now subst.
Qed.

Lemma in_channel a i ch : a_inv a -> In (i, ch) (a_lookup a) -> channel_of a i = Some ch.
Proof.
  intros [S _]. unfold channel_of. induction (a_lookup a) as [|[k v] l IH]; intros H; [destruct H|].
  cbn [find fst]. cbn [map fst] in S. destruct H as [E|H].
  - injection E as -> ->. now rewrite Z.eqb_refl.
  - assert (k < i) by (eapply sorted_lt; [exact S|]; apply in_map_iff; exists (i, ch); auto).
    destruct (Z.eqb_spec k i); [lia|]. apply IH; [now apply sorted_tl in S|exact H].
Qed.

Lemma active_channel a i : In i (active a) <-> exists ch, channel_of a i = Some ch.
Proof.
  unfold active, channel_of. split.
  - induction (a_lookup a) as [|[k v] l IH]; intros H; [destruct H|]. cbn [find fst].
    destruct (Z.eqb_spec k i); [eauto|]. destruct H as [E|H]; [simpl in E; contradiction|auto].
  - intros [ch H]. destruct (find _ _) as [kv|] eqn:F; [|discriminate].
    eapply find_key_in. exact F.
Qed.

Lemma values_NoDup a : a_inv a -> NoDup (map snd (a_lookup a)).
Proof.
  intros [_ P]. assert (N : NoDup (map snd (a_lookup a) ++ a_unused a)).
  { eapply Permutation_NoDup; [symmetry; exact P|apply seq_NoDup]. }
  clear P. induction (map snd (a_lookup a)) as [|x l IH]; [constructor|].
  simpl in N. inversion N as [|? ? N1 N2]; subst. constructor; [|auto].
  intros Hx. apply N1. apply in_or_app. now left.
Qed.

Lemma channels_exclusive a i j ch : a_inv a ->
  channel_of a i = Some ch -> channel_of a j = Some ch -> i = j.
Proof.
  intros I Hi Hj. apply channel_in in Hi, Hj. pose proof (values_NoDup a I) as N.
  induction (a_lookup a) as [|[k v] l IH]; [destruct Hi|].
  cbn [map snd] in N. inversion N as [|? ? N1 N2]; subst.
  assert (No : forall x, In (x, v) l -> False).
  { intros x Hx. apply N1. apply in_map_iff. exists (x, v). auto. }
  destruct Hi as [Ei|Hi], Hj as [Ej|Hj].
  - congruence.
  - injection Ei as -> ->. exfalso. eauto.
  - injection Ej as -> ->. exfalso. eauto.
  - auto.
Qed.

Lemma channel_bound a i ch : a_inv a -> channel_of a i = Some ch -> (ch < a_max a)%nat.
Proof.
  intros I H. apply channel_in in H. destruct I as [_ P].
  assert (Hin : In ch (seq 0 (a_max a))).
  { rewrite <- P. apply in_or_app. left. apply in_map_iff. exists (i, ch). auto. }
  apply in_seq in Hin. lia.
Qed.

Lemma get_object_inverse a i ch : a_inv a -> channel_of a i = Some ch -> get_object a ch = i.
Proof.
  intros I H. unfold get_object.
  destruct (find (fun kv => Nat.eqb (snd kv) ch) (a_lookup a)) as [[k v]|] eqn:F.
  - apply find_some in F as [F1 F2]. apply Nat.eqb_eq in F2. simpl in F2. subst v.
    simpl. eapply channels_exclusive; eauto. now apply in_channel.
  - apply channel_in in H. exfalso. pose proof (find_none _ _ F _ H) as N. simpl in N.
    now rewrite Nat.eqb_refl in N.
Qed.

Lemma get_object_unused a ch : a_inv a -> (forall i, channel_of a i <> Some ch) ->
  get_object a ch = invalid_id.
Proof.
  intros I H. unfold get_object.
  destruct (find (fun kv => Nat.eqb (snd kv) ch) (a_lookup a)) as [[k v]|] eqn:F; [|reflexivity].
  apply find_some in F as [F1 F2]. apply Nat.eqb_eq in F2. simpl in F2. subst v.
  exfalso. apply (H k). now apply in_channel.
Qed.
