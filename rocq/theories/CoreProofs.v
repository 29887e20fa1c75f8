(** Proofs about the signal flow built by CoreRenderer. *)
From Coq Require Import ZArith Permutation.
From Verif Require Import Base FlowModel FlowProofs FlowResolve FlowTree FlowProps CoreModel.
Local Open Scope res_scope.

(** *** Channels joined by a list of connections *)
Definition pairs (s : nat) (si : list nat) (r : nat) (ri : list nat) : list (channel * channel) :=
  map (fun p => ((s, fst p), (r, snd p))) (combine si ri).
Definition wire_pairs (c : config) (x : wire) : list (channel * channel) :=
  match x with
  | All s r => pairs s (seq 0 (a_width (core_objects c) s)) r (seq 0 (a_width (core_objects c) s))
  | Chans s si r ri => pairs s si r ri
  | Param _ _ => []
  end.
Definition wire_params (x : wire) : list pconn := match x with Param s r => [(s, r)] | _ => [] end.
Definition chans_ok (c : config) s si r ri : bool :=
  (length si =? length ri)
  && ((length si =? 0) || ((list_max si <? a_width (core_objects c) s) && (list_max ri <? a_width (core_objects c) r))).
Definition wire_ok (c : config) (x : wire) : bool :=
  match x with
  | All s r => audio_exists c s && audio_exists c r && (a_width (core_objects c) s =? a_width (core_objects c) r)
  | Chans s si r ri => audio_exists c s && audio_exists c r && chans_ok c s si r ri
  | Param s r => param_exists c s && param_exists c r
  end.
Definition wire_ends (x : wire) : option (nat * nat) :=
  match x with All s r | Chans s _ r _ => Some (s, r) | Param _ _ => None end.
(** a connection entry made for [x] *)
Definition made (c : config) (x : wire) (a : aconn) : Prop :=
  wire_ends x = Some (c_sender a, c_receiver a) /\ length (c_send a) = length (c_receive a)
  /\ (forall k, In k (c_send a) -> k < a_width (core_objects c) (c_sender a))
  /\ (forall k, In k (c_receive a) -> k < a_width (core_objects c) (c_receiver a)).

Lemma list_max_in l k : In k l -> k <= list_max l.
Proof.
  induction l as [|x l IH]; [contradiction|]. intros [->|H]; cbn [list_max fold_right]; [apply Nat.le_max_l|].
  transitivity (list_max l); [auto|apply Nat.le_max_r].
Qed.
Lemma list_max_seq a n : 0 < n -> list_max (seq a n) = a + n - 1.
Proof.
  intros H. apply Nat.le_antisymm.
  - apply list_max_le, Forall_forall. intros k Hk. apply in_seq in Hk. lia.
  - apply list_max_in, in_seq. lia.
Qed.
Lemma joined_app l l' : joined (l ++ l') = joined l ++ joined l'.
Proof. unfold joined. apply flat_map_app. Qed.

Lemma connect_channels_ok c w s si r ri :
  chans_ok c s si r ri = true ->
  exists w', connect_channels c w s si r ri = Ok w' /\ joined (fst w') = joined (fst w) ++ pairs s si r ri
    /\ snd w' = snd w /\ forall a, In a (fst w') -> In a (fst w) \/ made c (Chans s si r ri) a.
Proof.
  unfold chans_ok, connect_channels. intros H. apply andb_true_iff in H as [H1 H2]. rewrite H1. cbn [negb].
  apply Nat.eqb_eq in H1. destruct (length si =? 0) eqn:E.
  - apply Nat.eqb_eq, length_zero_iff_nil in E. subst si. exists w. cbn [pairs combine map]. rewrite app_nil_r. auto.
  - cbn [orb] in H2. apply andb_true_iff in H2 as [H2 H3]. apply Nat.ltb_lt in H2, H3.
    rewrite (proj2 (Nat.leb_gt _ _) H2), (proj2 (Nat.leb_gt _ _) H3). eexists. split; [reflexivity|]. cbn [fst snd].
    rewrite joined_app. split; [unfold joined at 2, pairs; cbn [flat_map c_send c_receive c_sender c_receiver]; now rewrite app_nil_r|].
    split; [reflexivity|]. intros a Ha. apply in_app_or in Ha as [Ha|[<-|[]]]; [now left|right].
    split; [reflexivity|]. split; [exact H1|]. cbn [c_send c_receive c_sender c_receiver].
    split; intros k Hk; apply list_max_in in Hk; lia.
Qed.
Lemma connect_channels_bad c w s si r ri :
  chans_ok c s si r ri = false -> connect_channels c w s si r ri = Throw InvalidArgument.
Proof.
  unfold chans_ok, connect_channels. intros H. destruct (length si =? length ri) eqn:E1; [|reflexivity]. cbn [negb andb] in *.
  destruct (length si =? 0) eqn:E; [discriminate|]. cbn [orb] in H. apply andb_false_iff in H as [H|H]; apply Nat.ltb_ge in H.
  - now rewrite (proj2 (Nat.leb_le _ _) H).
  - destruct (_ <=? list_max si); [reflexivity|]. now rewrite (proj2 (Nat.leb_le _ _) H).
Qed.

Lemma all_chans_ok c s r : a_width (core_objects c) s = a_width (core_objects c) r ->
  chans_ok c s (seq 0 (a_width (core_objects c) s)) r (seq 0 (a_width (core_objects c) s)) = true.
Proof.
  intros E. unfold chans_ok. rewrite <- E. set (k := a_width (core_objects c) s). rewrite Nat.eqb_refl. cbn [andb]. rewrite seq_length.
  destruct (Nat.eqb_spec k 0) as [E0|N]; [reflexivity|]. cbn [orb]. rewrite list_max_seq by lia.
  assert (0 + k - 1 <? k = true) as -> by (apply Nat.ltb_lt; lia). reflexivity.
Qed.

Lemma connect_ok c w x : wire_ok c x = true ->
  exists w', connect c w x = Ok w' /\ joined (fst w') = joined (fst w) ++ wire_pairs c x
    /\ snd w' = snd w ++ wire_params x /\ forall a, In a (fst w') -> In a (fst w) \/ made c x a.
Proof.
  intros H. destruct x as [s r|s si r ri|s r]; cbn [wire_ok connect wire_pairs wire_params] in *.
  - apply andb_true_iff in H as [H1 H2]. rewrite H1, H2. cbn [negb]. apply Nat.eqb_eq in H2.
    destruct (connect_channels_ok c w s _ r _ (all_chans_ok c s r H2)) as (w' & E & J & P & A).
    exists w'. rewrite app_nil_r. repeat split; try assumption.
  - apply andb_true_iff in H as [H1 H2]. rewrite H1. cbn [negb].
    destruct (connect_channels_ok c w s si r ri H2) as (w' & E & J & P & A). exists w'. rewrite app_nil_r. auto.
  - rewrite H. cbn [negb]. eexists. split; [reflexivity|]. cbn [fst snd]. rewrite app_nil_r. auto.
Qed.
Lemma connect_bad c w x : wire_ok c x = false -> connect c w x = Throw InvalidArgument.
Proof.
  intros H. destruct x as [s r|s si r ri|s r]; cbn [wire_ok connect] in *.
  - destruct (audio_exists c s && audio_exists c r); [|reflexivity]. cbn [negb andb] in *. now rewrite H.
  - destruct (audio_exists c s && audio_exists c r); [|reflexivity]. cbn [negb andb] in *. now apply connect_channels_bad.
  - now rewrite H.
Qed.
Lemma connect_list_ok c l : forall w, forallb (wire_ok c) l = true ->
  exists w', connect_list c w l = Ok w' /\ joined (fst w') = joined (fst w) ++ flat_map (wire_pairs c) l
    /\ snd w' = snd w ++ flat_map wire_params l
    /\ forall a, In a (fst w') -> In a (fst w) \/ exists x, In x l /\ made c x a.
Proof.
  induction l as [|x l IH]; intros w H.
  - exists w. cbn [flat_map connect_list]. rewrite !app_nil_r. auto.
  - cbn [forallb] in H. apply andb_true_iff in H as [Hx Hl]. destruct (connect_ok c w x Hx) as (w1 & E1 & J1 & P1 & A1).
    destruct (IH w1 Hl) as (w2 & E2 & J2 & P2 & A2). exists w2. cbn [connect_list flat_map]. rewrite E1. cbn [bind]. split; [exact E2|].
    rewrite J2, J1, P2, P1, !app_assoc. split; [reflexivity|]. split; [reflexivity|].
    intros a Ha. destruct (A2 a Ha) as [Ha'|(y & Hy & M)]; [|right; exists y; split; [now right|exact M]].
    destruct (A1 a Ha') as [?|M]; [now left|]. right. exists x. split; [now left|exact M].
Qed.
Lemma connect_list_bad c l : forall w, forallb (wire_ok c) l = false -> connect_list c w l = Throw InvalidArgument.
Proof.
  induction l as [|x l IH]; intros w H; [discriminate|]. cbn [forallb connect_list] in *.
  destruct (wire_ok c x) eqn:Hx.
  - destruct (connect_ok c w x Hx) as (w1 & E1 & _). rewrite E1. cbn [bind]. now apply IH.
  - now rewrite connect_bad.
Qed.

(** *** Sorting and the silent channels *)
Inductive increasing : list Z -> Prop :=
| inc_nil : increasing []
| inc_cons x l : Forall (fun y => (x <= y)%Z) l -> increasing l -> increasing (x :: l).
Lemma insert_perm x l : Permutation (x :: l) (insert x l).
Proof.
  induction l as [|y l IH]; [reflexivity|]. cbn [insert]. destruct (x <=? y)%Z; [reflexivity|].
  rewrite perm_swap. now constructor.
Qed.
Lemma sort_perm l : Permutation l (sort l).
Proof. induction l as [|x l IH]; [reflexivity|]. cbn [sort fold_right]. rewrite <- insert_perm. now constructor. Qed.
Lemma insert_increasing x l : increasing l -> increasing (insert x l).
Proof.
  intros H. induction H as [|y l Hy Hl IH]; cbn [insert]; [repeat constructor|].
  destruct (Z.leb_spec x y) as [E|E].
  - constructor; [|now constructor]. constructor; [exact E|]. eapply Forall_impl; [|exact Hy]. cbv beta. lia.
  - constructor; [|exact IH]. rewrite <- insert_perm. constructor; [lia|exact Hy].
Qed.
Lemma sort_increasing l : increasing (sort l).
Proof. induction l as [|x l IH]; [constructor|]. cbn [sort fold_right]. now apply insert_increasing. Qed.
Lemma adjacent_nodup l : increasing l -> (adjacent_equal l = false <-> NoDup l).
Proof.
  intros H. induction H as [|x l Hx Hl IH]; [split; [constructor|reflexivity]|].
  destruct l as [|y l]; [split; [repeat constructor; auto|reflexivity]|].
  cbn [adjacent_equal]. rewrite orb_false_iff, Z.eqb_neq. change (adjacent_equal (y :: l)) with (adjacent_equal (y :: l)) in IH.
  rewrite IH. split.
  - intros [N D]. constructor; [|exact D]. intros [E|Hi]; [auto|]. inversion Hl as [|? ? Hy ?]; subst.
    rewrite Forall_forall in Hy. apply Hy in Hi. inversion Hx; subst. lia.
  - intros D. inversion D as [|? ? N D']; subst. split; [|exact D']. intros ->. apply N. now left.
Qed.

Definition free (l : list Z) (k : nat) : bool := negb (existsb (Z.eqb (Z.of_nat k)) l).
Lemma silent_filter : forall steps idx l,
  increasing l -> NoDup l -> Forall (fun x => (Z.of_nat idx <= x)%Z) l ->
  silent_loop idx steps l = filter (free l) (seq idx steps).
Proof.
  induction steps as [|steps IH]; intros idx l I D F; [reflexivity|]. cbn [silent_loop seq filter].
  destruct l as [|x r].
  - cbn [free existsb negb]. f_equal. now apply IH.
  - inversion I as [|? ? Hx Ir]; inversion D as [|? ? Nx Dr]; subst. pose proof (Forall_inv F) as Fx. cbv beta in Fx.
    destruct (Z.ltb_spec (Z.of_nat idx) x) as [E|E].
    + assert (free (x :: r) idx = true) as ->.
      { unfold free. apply negb_true_iff. apply not_true_is_false. intros X. apply existsb_exists in X as (y & Hy & E').
        apply Z.eqb_eq in E'. destruct Hy as [<-|Hy]; [lia|]. rewrite Forall_forall in Hx. apply Hx in Hy. lia. }
      f_equal. apply IH; [exact I|exact D|]. constructor; [lia|]. eapply Forall_impl; [|exact Hx]. cbv beta. lia.
    + assert (x = Z.of_nat idx) as -> by lia.
      assert (free (Z.of_nat idx :: r) idx = false) as -> by (unfold free; cbn [existsb]; now rewrite Z.eqb_refl).
      rewrite IH; [|exact Ir|exact Dr|].
      * apply filter_ext_in. intros k Hk. apply in_seq in Hk. unfold free. cbn [existsb].
        assert ((Z.of_nat k =? Z.of_nat idx)%Z = false) as -> by (apply Z.eqb_neq; lia). reflexivity.
      * apply Forall_forall. intros y Hy. rewrite Forall_forall in Hx. pose proof (Hx y Hy). assert (y <> Z.of_nat idx) by (intros ->; auto). lia.
Qed.
Lemma free_perm l l' k : Permutation l l' -> free l k = free l' k.
Proof.
  intros P. unfold free. f_equal. apply eq_iff_eq_true. rewrite !existsb_exists. setoid_rewrite P. reflexivity.
Qed.

(** *** Playback channels *)
Definition chans (c : config) : list Z := lsp_channels c ++ sub_channels c.
Definition chans_valid (c : config) : Prop :=
  Forall (fun i => (1 <= i <= Z.of_nat (outputs c))%Z) (chans c) /\ NoDup (chans c).
Definition ints (c : config) : Prop :=
  Forall (fun i => (- 2 ^ 31 < i < 2 ^ 31)%Z) (chans c) /\ (Z.of_nat (outputs c) < 2 ^ 31)%Z.
Definition play (c : config) : list nat := map (fun i => Z.to_nat (i - 1)) (chans c).
Definition unused (c : config) : list nat := filter (fun k => negb (mem k (play c))) (seq 0 (outputs c)).

Lemma assign_ok m l : Forall (fun i => (i - 1 < Z.of_nat m)%Z) l -> assign m l = Ok (map (fun i => to_size (i - 1)) l).
Proof.
  intros H. induction H as [|i l Hi Hl IH]; [reflexivity|]. cbn [assign map]. rewrite (proj2 (Z.leb_gt _ _) Hi), IH. reflexivity.
Qed.
Lemma assign_cases m l : (Forall (fun i => (i - 1 < Z.of_nat m)%Z) l /\ assign m l = Ok (map (fun i => to_size (i - 1)) l))
  \/ (~ Forall (fun i => (i - 1 < Z.of_nat m)%Z) l /\ assign m l = Throw InvalidArgument).
Proof.
  induction l as [|i l IH]; [left; split; [constructor|reflexivity]|]. cbn [assign map].
  destruct (Z.leb_spec (Z.of_nat m) (i - 1)) as [E|E].
  - right. split; [|reflexivity]. intros X. pose proof (Forall_inv X) as Y. cbv beta in Y. lia.
  - destruct IH as [[H ->]|[H ->]]; [left|right]; (split; [|reflexivity]); [now constructor|].
    intros X. now apply H, (Forall_inv_tail X).
Qed.

Lemma mem_play c k : mem k (play c) = true <-> In k (play c).
Proof. apply mem_spec. Qed.

Lemma play_nodup c : chans_valid c -> NoDup (play c).
Proof.
  unfold chans_valid, play. intros [F D]. induction D as [|i l N D IH]; [constructor|]. inversion F as [|? ? Hi Fl]; subst. cbn [map].
  constructor; [|now apply IH]. intros X. apply in_map_iff in X as (j & E & Hj). rewrite Forall_forall in Fl. pose proof (Fl j Hj).
  assert (j = i) by lia. now subst.
Qed.
Lemma play_bound c k : chans_valid c -> In k (play c) -> k < outputs c.
Proof.
  intros [F _] H. apply in_map_iff in H as (i & <- & Hi). rewrite Forall_forall in F. apply F in Hi. lia.
Qed.
Lemma play_length c : length (play c) = nOut c.
Proof. unfold play, chans, nOut, nLsp, nSub. now rewrite map_length, app_length. Qed.

Lemma filter_split {A} (f : A -> bool) l : length (filter f l) + length (filter (fun x => negb (f x)) l) = length l.
Proof. induction l as [|x l IH]; [reflexivity|]. cbn [filter length]. destruct (f x); cbn [negb length]; lia. Qed.
Lemma unused_length c : chans_valid c -> length (unused c) = outputs c - nOut c /\ nOut c <= outputs c.
Proof.
  intros V. pose proof (filter_split (fun k => mem k (play c)) (seq 0 (outputs c))) as E. rewrite seq_length in E.
  assert (Permutation (filter (fun k => mem k (play c)) (seq 0 (outputs c))) (play c)) as P.
  { apply NoDup_Permutation; [apply NoDup_filter, seq_NoDup|now apply play_nodup|]. intros k. rewrite filter_In, mem_spec, in_seq.
    split; [tauto|]. intros H. pose proof (play_bound c k V H). split; [lia|exact H]. }
  apply Permutation_length in P. rewrite P, play_length in E. unfold unused. lia.
Qed.

Lemma to_size_valid c i : ints c -> chans_valid c -> In i (chans c) -> to_size (i - 1) = (i - 1)%Z.
Proof.
  intros [I1 I2] [F _] H. rewrite Forall_forall in F, I1. specialize (F i H). specialize (I1 i H). apply Z.mod_small. lia.
Qed.
Lemma exists_ends c : audio_exists c adjust_out = true /\ audio_exists c audioOut = true /\ audio_exists c null_out = true.
Proof.
  unfold audio_exists. rewrite !mem_spec. split; [|split]; [| now right; left |];
  apply in_or_app; right; apply in_flat_map.
  - exists (Atomic OutputAdjustment [adjust_in; adjust_out] []). split; [|now right; left]. apply in_or_app. left. cbn. auto.
  - exists (Atomic NullSource [null_out] []). split; [|now left]. unfold core_children. apply in_or_app. right. apply in_or_app. right.
    apply in_or_app. left. cbn. auto 10.
Qed.

Lemma width_adjust c : a_width (core_objects c) adjust_out = nOut c. Proof. reflexivity. Qed.
Lemma width_out c : a_width (core_objects c) audioOut = outputs c. Proof. reflexivity. Qed.

Lemma list_max_lt l m : l <> [] -> Forall (fun k => k < m) l -> list_max l < m.
Proof. intros N F. now apply list_max_lt. Qed.

Lemma silent_is_unused c : ints c -> chans_valid c ->
  silent_loop 0 (outputs c) (sort (map (fun i => to_size (i - 1)) (chans c))) = unused c.
Proof.
  intros I V. assert (E : map (fun i => to_size (i - 1)) (chans c) = map (fun i => i - 1)%Z (chans c)).
  { apply map_ext_in. intros i Hi. now apply (to_size_valid c). }
  rewrite E. rewrite silent_filter.
  - apply filter_ext_in. intros k _. rewrite <- (free_perm _ _ k (sort_perm _)). unfold free. f_equal.
    apply eq_iff_eq_true. rewrite existsb_exists, mem_spec. unfold play. rewrite in_map_iff. destruct V as [F _]. rewrite Forall_forall in F.
    split.
    + intros (x & Hx & Ex). apply in_map_iff in Hx as (i & <- & Hi). apply Z.eqb_eq in Ex. exists i. split; [lia|exact Hi].
    + intros (i & Ei & Hi). exists (i - 1)%Z. split; [apply in_map_iff; now exists i|]. apply Z.eqb_eq. specialize (F i Hi). lia.
  - apply sort_increasing.
  - apply (Permutation_NoDup (sort_perm _)). destruct V as [_ D]. apply FinFun.Injective_map_NoDup; [|exact D]. intros x y. lia.
  - rewrite <- sort_perm. destruct V as [F _]. apply Forall_map. eapply Forall_impl; [|exact F]. cbv beta. intros i Hi. lia.
Qed.

Lemma sorted_distinct c : ints c ->
  adjacent_equal (sort (map (fun i => to_size (i - 1)) (chans c))) = false <-> NoDup (chans c).
Proof.
  intros I. rewrite adjacent_nodup by apply sort_increasing. split; intros H.
  - apply (Permutation_NoDup (Permutation_sym (sort_perm _))) in H. now apply NoDup_map_inv in H.
  - apply (Permutation_NoDup (sort_perm _)). destruct I as [I _]. induction H as [|i l N D IH]; [constructor|].
    inversion I as [|? ? Hi Il]; subst. cbn [map]. constructor; [|now apply IH]. intros X. apply in_map_iff in X as (j & E & Hj).
    rewrite Forall_forall in Il. pose proof (Il j Hj). unfold to_size in E.
    assert (j = i) as ->; [|now apply N].
    assert (D2 : ((j - 1) mod 2 ^ 64 = j - 1 \/ (j - 1) mod 2 ^ 64 = j - 1 + 2 ^ 64)%Z).
    { destruct (Z.leb_spec 1 j); [left; apply Z.mod_small; lia|right]. rewrite <- (Z_mod_plus_full (j - 1) 1). apply Z.mod_small. lia. }
    assert (D3 : ((i - 1) mod 2 ^ 64 = i - 1 \/ (i - 1) mod 2 ^ 64 = i - 1 + 2 ^ 64)%Z).
    { destruct (Z.leb_spec 1 i); [left; apply Z.mod_small; lia|right]. rewrite <- (Z_mod_plus_full (i - 1) 1). apply Z.mod_small. lia. }
    lia.
Qed.

Lemma connect_outputs_ok c w : ints c -> chans_valid c ->
  exists w', connect_outputs c w = Ok w'
    /\ joined (fst w') = joined (fst w) ++ pairs adjust_out (seq 0 (nOut c)) audioOut (play c)
                         ++ pairs null_out (repeat 0 (length (unused c))) audioOut (unused c)
    /\ snd w' = snd w
    /\ forall a, In a (fst w') -> In a (fst w) \/ exists x, made c x a
         /\ (wire_ends x = Some (adjust_out, audioOut) \/ wire_ends x = Some (null_out, audioOut)).
Proof.
  intros I V. destruct (unused_length c V) as [UL UB]. pose proof V as [F D]. pose proof I as [I1 I2]. unfold connect_outputs.
  change (nLsp c + nSub c) with (nOut c). rewrite (proj2 (Nat.ltb_ge _ _) UB).
  assert (FL : Forall (fun i => (i - 1 < Z.of_nat (outputs c))%Z) (chans c)) by (eapply Forall_impl; [|exact F]; cbv beta; lia).
  apply Forall_app in FL as [FL1 FL2]. rewrite (assign_ok _ _ FL1), (assign_ok _ _ FL2). cbn [bind]. rewrite <- map_app.
  change (lsp_channels c ++ sub_channels c) with (chans c).
  assert (existsb (Z.eqb invalidIdx) (map (fun i => to_size (i - 1)) (chans c)) = false) as ->.
  { apply not_true_is_false. intros X. apply existsb_exists in X as (x & Hx & E). apply in_map_iff in Hx as (i & <- & Hi).
    rewrite (to_size_valid c i I V Hi) in E. apply Z.eqb_eq in E. unfold invalidIdx in E. rewrite Forall_forall in I1. specialize (I1 i Hi). lia. }
  rewrite (proj2 (sorted_distinct c I) D), (silent_is_unused c I V).
  assert (map Z.to_nat (map (fun i => to_size (i - 1)) (chans c)) = play c) as ->.
  { rewrite map_map. apply map_ext_in. intros i Hi. now rewrite (to_size_valid c i I V Hi). }
  destruct (exists_ends c) as (X1 & X2 & X3).
  assert (range 0 (nOut c) = seq 0 (nOut c)) as -> by (unfold range; now rewrite Nat.sub_0_r).
  assert (K : wire_ok c (Chans adjust_out (seq 0 (nOut c)) audioOut (play c)) = true).
  { cbn [wire_ok]. rewrite X1, X2. cbn [andb]. unfold chans_ok. rewrite seq_length, play_length, Nat.eqb_refl. cbn [andb].
    destruct (Nat.eqb_spec (nOut c) 0) as [E|E]; [reflexivity|]. cbn [orb]. apply andb_true_iff. rewrite !Nat.ltb_lt, width_adjust, width_out.
    rewrite list_max_seq by lia. split; [lia|]. apply list_max_lt.
    - intros E2. apply (f_equal (@length _)) in E2. rewrite play_length in E2. auto.
    - apply Forall_forall. intros k Hk. now apply (play_bound c). }
  destruct (connect_ok c w _ K) as (w1 & E1 & J1 & P1 & A1). rewrite E1. cbn [bind]. cbn [wire_pairs wire_params] in J1, P1. rewrite app_nil_r in P1.
  destruct (Nat.ltb_spec 0 (outputs c - nOut c)) as [L|L].
  - rewrite UL, Nat.ltb_irrefl, Nat.eqb_refl. cbn [negb].
    assert (K2 : wire_ok c (Chans null_out (repeat 0 (outputs c - nOut c)) audioOut (unused c)) = true).
    { cbn [wire_ok]. rewrite X3, X2. cbn [andb]. unfold chans_ok. rewrite repeat_length, UL, Nat.eqb_refl. cbn [andb].
      destruct (Nat.eqb_spec (outputs c - nOut c) 0) as [E|E]; [reflexivity|]. cbn [orb]. apply andb_true_iff. rewrite !Nat.ltb_lt, width_out.
      split.
      - apply Nat.le_lt_trans with 0; [apply list_max_le, Forall_forall; intros k Hk; apply repeat_spec in Hk; lia|].
        change (a_width (core_objects c) null_out) with (if outputs c =? nOut c then 0 else 1).
        destruct (Nat.eqb_spec (outputs c) (nOut c)); lia.
      - apply list_max_lt; [intros E2; rewrite E2 in UL; cbn in UL; lia|]. apply Forall_forall. intros k Hk.
        apply filter_In in Hk as [Hk _]. apply in_seq in Hk. lia. }
    destruct (connect_ok c w1 _ K2) as (w2 & E2 & J2 & P2 & A2). exists w2. split; [exact E2|]. cbn [wire_pairs wire_params] in J2, P2.
    rewrite app_nil_r in P2. rewrite J2, J1, P2, P1, app_assoc. split; [reflexivity|]. split; [reflexivity|].
    intros a Ha. destruct (A2 a Ha) as [Ha'|M]; [destruct (A1 a Ha') as [Hw|M]; [now left|]|]; right; eexists; (split; [exact M|]); cbn; auto.
  - exists w1. split; [reflexivity|]. assert (unused c = []) as -> by (apply length_zero_iff_nil; lia). cbn [length repeat pairs combine map].
    rewrite app_nil_r. split; [exact J1|]. split; [exact P1|].
    intros a Ha. destruct (A1 a Ha) as [Hw|M]; [now left|]. right. eexists. split; [exact M|]. cbn; auto.
Qed.

Lemma connect_outputs_bad c w : ints c -> nOut c <> 0 -> ~ chans_valid c -> connect_outputs c w = Throw InvalidArgument.
Proof.
  intros I NZ V. pose proof I as [I1 I2]. unfold connect_outputs. change (nLsp c + nSub c) with (nOut c).
  destruct (outputs c <? nOut c) eqn:EO; [reflexivity|]. apply Nat.ltb_ge in EO.
  destruct (assign_cases (outputs c) (lsp_channels c)) as [[F1 ->]|[F1 ->]]; [|reflexivity]. cbn [bind].
  destruct (assign_cases (outputs c) (sub_channels c)) as [[F2 ->]|[F2 ->]]; [|reflexivity]. cbn [bind]. rewrite <- map_app.
  change (lsp_channels c ++ sub_channels c) with (chans c).
  destruct (existsb _ _) eqn:EX; [reflexivity|].
  destruct (adjacent_equal _) eqn:EA; [reflexivity|]. apply (sorted_distinct c I) in EA.
  assert (FL : Forall (fun i => (i - 1 < Z.of_nat (outputs c))%Z) (chans c)) by (apply Forall_app; auto).
  assert (~ Forall (fun i => (1 <= i)%Z) (chans c)) as NF.
  { intros X. apply V. split; [|exact EA]. rewrite Forall_forall in *. intros i Hi. specialize (X i Hi). specialize (FL i Hi). lia. }
  assert (exists i, In i (chans c) /\ (i < 1)%Z) as (i & Hi & Li).
  { apply Exists_exists. apply neg_Forall_Exists_neg in NF; [|intros x; apply Z_le_dec]. eapply Exists_impl; [|exact NF]. cbv beta. lia. }
  rewrite connect_bad; [reflexivity|]. cbn [wire_ok]. apply andb_false_iff. right. unfold chans_ok.
  rewrite !map_length. unfold range. rewrite seq_length, Nat.sub_0_r.
  assert (length (chans c) = nOut c) as -> by (unfold chans, nOut, nLsp, nSub; now rewrite app_length). rewrite Nat.eqb_refl. cbn [andb].
  rewrite (proj2 (Nat.eqb_neq _ _) NZ). cbn [orb]. apply andb_false_iff. right. apply Nat.ltb_ge. rewrite width_out.
  transitivity (Z.to_nat (to_size (i - 1))).
  - rewrite Forall_forall in I1. specialize (I1 i Hi).
    assert (to_size (i - 1) = i - 1 + 2 ^ 64)%Z as ->.
    { unfold to_size. rewrite <- (Z_mod_plus_full (i - 1) 1). apply Z.mod_small. lia. }
    apply Nat2Z.inj_le. rewrite Z2Nat.id; lia.
  - apply list_max_in, in_map_iff. exists (to_size (i - 1)). split; [reflexivity|]. apply in_map_iff. now exists i.
Qed.

(** *** The other connections *)
Definition body (c : config) : list wire :=
  wires_tracking c ++ wires_objects c ++ wires_gains c ++ wires_diffuse c ++ wires_output c.

Lemma range_ok c s a b r a' b' : b - a = b' - a' -> b <= a_width (core_objects c) s -> b' <= a_width (core_objects c) r ->
  chans_ok c s (range a b) r (range a' b') = true.
Proof.
  intros E H1 H2. unfold chans_ok, range. rewrite !seq_length, <- E, Nat.eqb_refl. cbn [andb].
  destruct (Nat.eqb_spec (b - a) 0) as [E0|N]; [reflexivity|]. cbn [orb]. rewrite !list_max_seq by lia.
  apply andb_true_iff. rewrite !Nat.ltb_lt. lia.
Qed.

Ltac cases c := destruct c as [n m ls ss eq es [] [] []]; destruct eq as [q|].
Lemma all_ok c s r : audio_exists c s = true -> audio_exists c r = true -> a_width (core_objects c) s = a_width (core_objects c) r ->
  wire_ok c (All s r) = true.
Proof. intros H1 H2 H3. cbn [wire_ok]. now rewrite H1, H2, H3, Nat.eqb_refl. Qed.
Lemma range_wire_ok c s a b r a' b' : audio_exists c s = true -> audio_exists c r = true ->
  b - a = b' - a' -> b <= a_width (core_objects c) s -> b' <= a_width (core_objects c) r ->
  wire_ok c (Chans s (range a b) r (range a' b')) = true.
Proof. intros H1 H2 H3 H4 H5. cbn [wire_ok]. now rewrite H1, H2, range_ok. Qed.

Lemma forallb_forall' {A} (f : A -> bool) l : (forall x, In x l -> f x = true) -> forallb f l = true.
Proof. intros H. apply forallb_forall. exact H. Qed.

Ltac wire_tac :=
  lazymatch goal with
  | |- wire_ok _ (All _ _) = true => apply all_ok; [reflexivity|reflexivity|reflexivity]
  | |- wire_ok _ (Chans _ _ _ _) = true =>
      apply range_wire_ok; [reflexivity|reflexivity|cbn [nLsp nSub inputs lsp_channels sub_channels]; lia| |];
      cbn [a_width core_objects audio_info snd adjust_in adjust_out outeq_in outeq_out mix_out sub_out listener_out eq_out bank_in bank_out
           vbap_in vbip_in nOut nLsp nSub inputs lsp_channels sub_channels]; unfold nOut, nLsp, nSub; cbn [lsp_channels sub_channels]; lia
  | |- wire_ok _ (Param _ _) = true => reflexivity
  end.
Ltac each_wire := apply forallb_forall'; let H := fresh "H" in intros ? H; cbn in H;
  repeat (destruct H as [<-|H]; [wire_tac|]); contradiction.

Lemma tracking_ok c : forallb (wire_ok c) (wires_tracking c) = true.
Proof. cases c; reflexivity. Qed.
Lemma objects_ok c : forallb (wire_ok c) (wires_objects c) = true.
Proof.
  apply forallb_forall'. intros x H. unfold wires_objects in H.
  cases c; cbn [dualband tracking app In] in H; repeat (destruct H as [<-|H]; [wire_tac|]); contradiction.
Qed.
Lemma gains_ok c : forallb (wire_ok c) (wires_gains c) = true.
Proof.
  apply forallb_forall'. intros x H. unfold wires_gains in H.
  cases c; cbn [app In] in H; repeat (destruct H as [<-|H]; [wire_tac|]); contradiction.
Qed.
Lemma diffuse_ok c : forallb (wire_ok c) (wires_diffuse c) = true.
Proof.
  apply forallb_forall'. intros x H. unfold wires_diffuse in H.
  cases c; cbn [reverb dualband app In] in H; repeat (destruct H as [<-|H]; [wire_tac|]); contradiction.
Qed.
Definition output_possible (c : config) : bool := negb (tracking c && has_eq c) || (nSub c =? 0).
Lemma output_ok c : output_possible c = true -> forallb (wire_ok c) (wires_output c) = true.
Proof.
  intros P. apply forallb_forall'. intros x H. unfold wires_output in H.
  cases c; cbn [tracking has_eq eq_filters app In] in H;
    try (repeat (destruct H as [<-|H]; [wire_tac|]); contradiction);
    (destruct H as [<-|[<-|[<-|[]]]]; [wire_tac|wire_tac|]; cbn in P; apply Nat.eqb_eq in P; apply all_ok; [reflexivity|reflexivity|];
     change (length ls = length ls + length ss); unfold nSub in P; cbn in P; lia).
Qed.
Lemma output_bad c : output_possible c = false -> forallb (wire_ok c) (wires_output c) = false.
Proof.
  unfold output_possible. intros P. apply orb_false_iff in P as [P1 P2]. apply negb_false_iff, andb_true_iff in P1 as [PT PE].
  unfold wires_output. rewrite PT, PE. cbn [app forallb]. rewrite !andb_false_iff. right. right. left. cbn [wire_ok].
  apply andb_false_iff. right. apply Nat.eqb_neq. apply Nat.eqb_neq in P2. change (nLsp c <> nLsp c + nSub c). lia.
Qed.

Definition eq_fits (c : config) : Prop := match eq_filters c with Some k => k = nOut c | None => True end.
Definition possible (c : config) : Prop :=
  eq_fits c /\ nOut c <> 0 /\ (tracking c = true -> has_eq c = true -> nSub c = 0) /\ chans_valid c.

Definition out_pairs (c : config) : list (channel * channel) :=
  pairs adjust_out (seq 0 (nOut c)) audioOut (play c) ++ pairs null_out (repeat 0 (length (unused c))) audioOut (unused c).

Lemma possible_output c : (tracking c = true -> has_eq c = true -> nSub c = 0) <-> output_possible c = true.
Proof.
  unfold output_possible. rewrite orb_true_iff, Nat.eqb_eq, negb_true_iff, andb_false_iff.
  destruct (tracking c), (has_eq c); intuition congruence.
Qed.

Lemma core_new_ok c : ints c -> possible c ->
  exists conns pconns, core_new c = Ok (Composite Core core_audio (core_params c) (core_children c) conns pconns)
    /\ joined conns = flat_map (wire_pairs c) (body c) ++ out_pairs c
    /\ pconns = flat_map wire_params (body c)
    /\ forall a, In a conns -> exists x, made c x a
         /\ (In x (body c) \/ wire_ends x = Some (adjust_out, audioOut) \/ wire_ends x = Some (null_out, audioOut)).
Proof.
  intros I (EF & NZ & PO & V). apply possible_output in PO. unfold core_new.
  destruct (connect_list_ok c _ ([], []) (tracking_ok c)) as (w1 & E1 & J1 & P1 & A1). rewrite E1. cbn [bind].
  assert (match eq_filters c with Some k => if negb (nOut c =? k) then Throw InvalidArgument else Ok tt | None => Ok tt end = Ok tt) as ->.
  { unfold eq_fits in EF. destruct (eq_filters c) as [k|]; [|reflexivity]. now rewrite EF, Nat.eqb_refl. }
  cbn [bind].
  destruct (connect_list_ok c _ w1 (objects_ok c)) as (w2 & E2 & J2 & P2 & A2). rewrite E2. cbn [bind].
  destruct (connect_list_ok c _ w2 (gains_ok c)) as (w3 & E3 & J3 & P3 & A3). rewrite E3. cbn [bind].
  rewrite (proj2 (Nat.eqb_neq _ _) NZ). cbn [bind].
  destruct (connect_list_ok c _ w3 (diffuse_ok c)) as (w4 & E4 & J4 & P4 & A4). rewrite E4. cbn [bind].
  destruct (connect_list_ok c _ w4 (output_ok c PO)) as (w5 & E5 & J5 & P5 & A5). rewrite E5. cbn [bind].
  destruct (connect_outputs_ok c w5 I V) as (w6 & E6 & J6 & P6 & A6). rewrite E6. cbn [bind].
  exists (fst w6), (snd w6). split; [reflexivity|]. unfold body. rewrite !flat_map_app.
  split; [rewrite J6, J5, J4, J3, J2, J1; cbn [joined flat_map fst app]; unfold out_pairs; now rewrite !app_assoc|].
  split; [rewrite P6, P5, P4, P3, P2, P1; cbn [app snd]; now rewrite !app_assoc|].
  intros a Ha. rewrite !in_app_iff || idtac.
  destruct (A6 a Ha) as [H|(x & M & X)]; [|exists x; auto].
  destruct (A5 a H) as [H5|(x & X & M)]; [|exists x; split; [exact M|left; rewrite !in_app_iff; auto 10]].
  destruct (A4 a H5) as [H4|(x & X & M)]; [|exists x; split; [exact M|left; rewrite !in_app_iff; auto 10]].
  destruct (A3 a H4) as [H3|(x & X & M)]; [|exists x; split; [exact M|left; rewrite !in_app_iff; auto 10]].
  destruct (A2 a H3) as [H2|(x & X & M)]; [|exists x; split; [exact M|left; rewrite !in_app_iff; auto 10]].
  destruct (A1 a H2) as [[]|(x & X & M)]; exists x; split; [exact M|left; rewrite !in_app_iff; auto 10].
Qed.

Lemma core_new_bad c : ints c -> ~ possible c ->
  core_new c = if nOut c =? 0 then match eq_filters c with Some (S _) => Throw InvalidArgument | _ => UB end
               else Throw InvalidArgument.
Proof.
  intros I NP. unfold core_new.
  destruct (connect_list_ok c _ ([], []) (tracking_ok c)) as (w1 & E1 & _). rewrite E1. cbn [bind].
  destruct (match eq_filters c with Some k => if negb (nOut c =? k) then Throw InvalidArgument else Ok tt | None => Ok tt end) as [[]|e|] eqn:EE.
  2:{ cbn [bind]. destruct (eq_filters c) as [k|]; [|discriminate]. destruct (Nat.eqb_spec (nOut c) k) as [E|N]; [discriminate|]. cbn in EE.
      injection EE as <-. destruct (Nat.eqb_spec (nOut c) 0); [|reflexivity]. destruct k; [congruence|reflexivity]. }
  2:{ destruct (eq_filters c) as [k|]; [|discriminate]. destruct (negb _); discriminate. }
  cbn [bind].
  assert (EF : eq_fits c).
  { unfold eq_fits. destruct (eq_filters c) as [k|]; [|exact Logic.I]. destruct (Nat.eqb_spec (nOut c) k); [auto|discriminate]. }
  destruct (connect_list_ok c _ w1 (objects_ok c)) as (w2 & E2 & _). rewrite E2. cbn [bind].
  destruct (connect_list_ok c _ w2 (gains_ok c)) as (w3 & E3 & _). rewrite E3. cbn [bind].
  destruct (Nat.eqb_spec (nOut c) 0) as [Z|NZ].
  - cbn [bind]. unfold eq_fits in EF. destruct (eq_filters c) as [k|]; [|reflexivity]. now rewrite EF, Z.
  - cbn [bind]. destruct (connect_list_ok c _ w3 (diffuse_ok c)) as (w4 & E4 & _). rewrite E4. cbn [bind].
    destruct (output_possible c) eqn:PO.
    + destruct (connect_list_ok c _ w4 (output_ok c PO)) as (w5 & E5 & _). rewrite E5. cbn [bind].
      rewrite connect_outputs_bad; [reflexivity|exact I|exact NZ|]. intros V. apply NP. split; [exact EF|]. split; [exact NZ|].
      split; [now apply possible_output|exact V].
    + rewrite (connect_list_bad c _ w4 (output_bad c PO)). reflexivity.
Qed.

(** *** Every receiving channel is driven once *)
Lemma count_pairs s si : forall r ri p k, length si = length ri ->
  count_occ channel_dec (map snd (pairs s si r ri)) (p, k) = if r =? p then count_occ Nat.eq_dec ri k else 0.
Proof.
  unfold pairs. induction si as [|i si IH]; intros r [|j ri] p k E; try discriminate; [now destruct (r =? p)|].
  cbn [combine map fst snd count_occ]. injection E as E. rewrite IH by exact E.
  destruct (channel_dec (r, j) (p, k)) as [X|X].
  - injection X as -> ->. rewrite Nat.eqb_refl. destruct (Nat.eq_dec k k); [reflexivity|contradiction].
  - destruct (Nat.eqb_spec r p) as [->|N]; [|reflexivity]. destruct (Nat.eq_dec j k) as [->|N2]; [now contradiction X|reflexivity].
Qed.
Lemma count_seq a n k : count_occ Nat.eq_dec (seq a n) k = if (a <=? k) && (k <? a + n) then 1 else 0.
Proof.
  destruct ((a <=? k) && (k <? a + n)) eqn:E.
  - apply andb_true_iff in E as [E1 E2]. apply Nat.leb_le in E1. apply Nat.ltb_lt in E2.
    apply Nat.le_antisymm; [apply (proj1 (NoDup_count_occ Nat.eq_dec _) (seq_NoDup n a))|].
    apply (count_occ_In Nat.eq_dec). apply in_seq. lia.
  - apply count_occ_not_In. intros H. apply in_seq in H. apply andb_false_iff in E as [E|E]; [apply Nat.leb_gt in E|apply Nat.ltb_ge in E]; lia.
Qed.
Definition hit (c : config) (p k : nat) (x : wire) : nat :=
  match x with
  | All s r => if r =? p then (if k <? a_width (core_objects c) s then 1 else 0) else 0
  | Chans s si r ri => if r =? p then count_occ Nat.eq_dec ri k else 0
  | Param _ _ => 0
  end.
Lemma count_wire c p k x : wire_ok c x = true -> count_occ channel_dec (map snd (wire_pairs c x)) (p, k) = hit c p k x.
Proof.
  intros H. destruct x as [s r|s si r ri|s r]; cbn [wire_pairs hit]; [| |reflexivity].
  - rewrite count_pairs by reflexivity. destruct (r =? p); [|reflexivity]. now rewrite count_seq.
  - apply count_pairs. cbn [wire_ok] in H. apply andb_true_iff in H as [_ H]. unfold chans_ok in H. apply andb_true_iff in H as [H _].
    now apply Nat.eqb_eq.
Qed.
Lemma count_wires c p k l : forallb (wire_ok c) l = true ->
  count_occ channel_dec (map snd (flat_map (wire_pairs c) l)) (p, k) = list_sum (map (hit c p k) l).
Proof.
  induction l as [|x l IH]; intros H; [reflexivity|]. cbn [forallb] in H. apply andb_true_iff in H as [Hx Hl].
  cbn [flat_map map list_sum fold_right]. rewrite map_app, count_occ_app, (count_wire c p k x Hx), (IH Hl). reflexivity.
Qed.
Lemma count_out c p k : chans_valid c ->
  count_occ channel_dec (map snd (out_pairs c)) (p, k) = if audioOut =? p then (if k <? outputs c then 1 else 0) else 0.
Proof.
  intros V. unfold out_pairs. rewrite map_app, count_occ_app.
  rewrite !count_pairs by (rewrite ?seq_length, ?repeat_length, ?play_length; reflexivity).
  destruct (audioOut =? p); [|reflexivity].
  destruct (Nat.ltb_spec k (outputs c)) as [L|L].
  - destruct (mem k (play c)) eqn:M.
    + rewrite (proj1 (count_occ_not_In Nat.eq_dec (unused c) k)).
      2:{ unfold unused. intros H. apply filter_In in H as [_ H]. rewrite M in H. discriminate. }
      apply mem_spec in M. rewrite Nat.add_0_r. apply Nat.le_antisymm; [apply (proj1 (NoDup_count_occ Nat.eq_dec _) (play_nodup c V))|].
      now apply (count_occ_In Nat.eq_dec).
    + rewrite (proj1 (count_occ_not_In Nat.eq_dec (play c) k)).
      2:{ intros H. apply mem_spec in H. congruence. }
      apply Nat.le_antisymm.
      * apply (proj1 (NoDup_count_occ Nat.eq_dec _)). apply NoDup_filter, seq_NoDup.
      * apply (count_occ_In Nat.eq_dec). apply filter_In. split; [apply in_seq; lia|]. now rewrite M.
  - rewrite !(proj1 (count_occ_not_In Nat.eq_dec _ k)); [reflexivity| |].
    + intros H. apply filter_In in H as [H _]. apply in_seq in H. lia.
    + intros H. apply (play_bound c k V) in H. lia.
Qed.
Lemma body_ok c : output_possible c = true -> forallb (wire_ok c) (body c) = true.
Proof. intros H. unfold body. now rewrite !forallb_app, tracking_ok, objects_ok, gains_ok, diffuse_ok, output_ok. Qed.

Lemma times_total c conns p k : possible c -> joined conns = flat_map (wire_pairs c) (body c) ++ out_pairs c ->
  times_driven conns (p, k) = list_sum (map (hit c p k) (body c)) + (if audioOut =? p then (if k <? outputs c then 1 else 0) else 0).
Proof.
  intros (_ & _ & PO & V) J. unfold times_driven. rewrite J, map_app, count_occ_app, count_out, count_wires; [reflexivity| |exact V].
  now apply body_ok, possible_output.
Qed.

Lemma driven_once c p k : tracking c = false -> In p (receive_ports (core_objects c) core_audio (core_children c)) ->
  k < a_width (core_objects c) p ->
  list_sum (map (hit c p k) (body c)) + (if audioOut =? p then (if k <? outputs c then 1 else 0) else 0) = 1.
Proof.
  intros T H L. unfold body, wires_tracking, wires_objects, wires_gains, wires_diffuse, wires_output.
  cases c; try discriminate T; cbn in H;
    repeat match goal with H : _ \/ _ |- _ => destruct H as [<-|H] end; try contradiction;
    cbn in L; cbn -[Nat.add Nat.ltb seq Nat.sub range Nat.mul];
    change (mix_in 0) with 17; change (mix_in 1) with 18; change (mix_in 2) with 19; change (mix_in 3) with 20;
    cbn -[Nat.add Nat.ltb seq Nat.sub range Nat.mul]; unfold range; rewrite ?count_seq;
    unfold nOut, nLsp, nSub in *; cbn [lsp_channels sub_channels] in *;
    repeat match goal with
      | |- context [?a <? ?b] => destruct (Nat.ltb_spec a b)
      | |- context [?a <=? ?b] => destruct (Nat.leb_spec a b)
      end; cbn [andb] in *; lia.
Qed.

(** *** Every sending channel is used *)
Lemma count_pairs_fst s si : forall r ri p k, length si = length ri ->
  count_occ channel_dec (map fst (pairs s si r ri)) (p, k) = if s =? p then count_occ Nat.eq_dec si k else 0.
Proof.
  unfold pairs. induction si as [|i si IH]; intros r [|j ri] p k E; try discriminate; [now destruct (s =? p)|].
  cbn [combine map fst snd count_occ]. injection E as E. rewrite IH by exact E.
  destruct (channel_dec (s, i) (p, k)) as [X|X].
  - injection X as -> ->. rewrite Nat.eqb_refl. destruct (Nat.eq_dec k k); [reflexivity|contradiction].
  - destruct (Nat.eqb_spec s p) as [->|N]; [|reflexivity]. destruct (Nat.eq_dec i k) as [->|N2]; [now contradiction X|reflexivity].
Qed.
Definition use (c : config) (p k : nat) (x : wire) : nat :=
  match x with
  | All s r => if s =? p then (if k <? a_width (core_objects c) s then 1 else 0) else 0
  | Chans s si r ri => if s =? p then count_occ Nat.eq_dec si k else 0
  | Param _ _ => 0
  end.
Lemma use_wire c p k x : wire_ok c x = true -> count_occ channel_dec (map fst (wire_pairs c x)) (p, k) = use c p k x.
Proof.
  intros H. destruct x as [s r|s si r ri|s r]; cbn [wire_pairs use]; [| |reflexivity].
  - rewrite count_pairs_fst by reflexivity. destruct (s =? p); [|reflexivity]. now rewrite count_seq.
  - apply count_pairs_fst. cbn [wire_ok] in H. apply andb_true_iff in H as [_ H]. unfold chans_ok in H. apply andb_true_iff in H as [H _].
    now apply Nat.eqb_eq.
Qed.
Lemma use_wires c p k l : forallb (wire_ok c) l = true ->
  count_occ channel_dec (map fst (flat_map (wire_pairs c) l)) (p, k) = list_sum (map (use c p k) l).
Proof.
  induction l as [|x l IH]; intros H; [reflexivity|]. cbn [forallb] in H. apply andb_true_iff in H as [Hx Hl].
  cbn [flat_map map list_sum fold_right]. rewrite map_app, count_occ_app, (use_wire c p k x Hx), (IH Hl). reflexivity.
Qed.
Lemma count_repeat n k : count_occ Nat.eq_dec (repeat 0 n) k = if k =? 0 then n else 0.
Proof.
  induction n as [|n IH]; [now destruct (k =? 0)|]. cbn [repeat count_occ]. rewrite IH.
  destruct (Nat.eq_dec 0 k) as [E|E], (Nat.eqb_spec k 0); congruence.
Qed.
Lemma use_out c p k : 
  count_occ channel_dec (map fst (out_pairs c)) (p, k)
  = (if adjust_out =? p then (if k <? nOut c then 1 else 0) else 0) + (if null_out =? p then (if k =? 0 then length (unused c) else 0) else 0).
Proof.
  unfold out_pairs. rewrite map_app, count_occ_app.
  rewrite !count_pairs_fst by (rewrite ?seq_length, ?repeat_length, ?play_length; reflexivity). rewrite count_seq, count_repeat. reflexivity.
Qed.
Lemma used_some c conns p k : possible c -> joined conns = flat_map (wire_pairs c) (body c) ++ out_pairs c ->
  0 < list_sum (map (use c p k) (body c))
      + ((if adjust_out =? p then (if k <? nOut c then 1 else 0) else 0) + (if null_out =? p then (if k =? 0 then length (unused c) else 0) else 0)) ->
  exists d, In ((p, k), d) (joined conns).
Proof.
  intros (_ & _ & PO & V) J H. assert (In (p, k) (map fst (joined conns))) as X.
  { apply (count_occ_In channel_dec). rewrite J, map_app, count_occ_app, use_out, use_wires; [exact H|]. now apply body_ok, possible_output. }
  apply in_map_iff in X as ([s d] & E & X). cbn [fst] in E. subst s. now exists d.
Qed.
Lemma used_all c p k : tracking c = false -> chans_valid c -> In p (send_ports (core_objects c) core_audio (core_children c)) ->
  k < a_width (core_objects c) p ->
  0 < list_sum (map (use c p k) (body c))
      + ((if adjust_out =? p then (if k <? nOut c then 1 else 0) else 0) + (if null_out =? p then (if k =? 0 then length (unused c) else 0) else 0)).
Proof.
  intros T V H L. destruct (unused_length c V) as [UL UO]. destruct (Nat.eqb_spec p null_out) as [->|NN].
  { change (a_width (core_objects c) null_out) with (if outputs c =? nOut c then 0 else 1) in L. rewrite Nat.eqb_refl.
    destruct (Nat.eqb_spec (outputs c) (nOut c)); [lia|]. destruct (Nat.eqb_spec k 0); [|lia]. lia. }
  rewrite UL. clear UL V. unfold body, wires_tracking, wires_objects, wires_gains, wires_diffuse, wires_output.
  cases c; try discriminate T; cbn in H;
    repeat match goal with H : _ \/ _ |- _ => destruct H as [<-|H] end; try contradiction; try (now contradiction NN);
    cbn in L; cbn -[Nat.add Nat.ltb seq Nat.sub range Nat.mul]; unfold range; rewrite ?count_seq;
    unfold nOut, nLsp, nSub in *; cbn [lsp_channels sub_channels] in *;
    repeat match goal with
      | |- context [?a <? ?b] => destruct (Nat.ltb_spec a b)
      | |- context [?a <=? ?b] => destruct (Nat.leb_spec a b)
      end; cbn [andb] in *; lia.
Qed.

(** *** The connections join ports of the right directions *)
Lemma ends_known c x s r : In x (body c) -> wire_ends x = Some (s, r) ->
  In s (send_ports (core_objects c) core_audio (core_children c)) /\ In r (receive_ports (core_objects c) core_audio (core_children c)).
Proof.
  intros H E. rewrite <- !mem_spec. unfold body, wires_tracking, wires_objects, wires_gains, wires_diffuse, wires_output in H.
  cases c; cbn [tracking reverb dualband has_eq eq_filters app In] in H;
    repeat match goal with H : _ \/ _ |- _ => destruct H as [<-|H] end; try contradiction;
    cbn [wire_ends] in E; try discriminate E; injection E as <- <-; split; reflexivity.
Qed.
Lemma ends_out c : 
  In adjust_out (send_ports (core_objects c) core_audio (core_children c))
  /\ In null_out (send_ports (core_objects c) core_audio (core_children c))
  /\ In audioOut (receive_ports (core_objects c) core_audio (core_children c)).
Proof. rewrite <- !mem_spec. cases c; repeat split; reflexivity. Qed.

Lemma core_well_connected c conns : possible c -> tracking c = false ->
  joined conns = flat_map (wire_pairs c) (body c) ++ out_pairs c ->
  (forall a, In a conns -> exists x, made c x a
     /\ (In x (body c) \/ wire_ends x = Some (adjust_out, audioOut) \/ wire_ends x = Some (null_out, audioOut))) ->
  well_connected (core_objects c) core_audio (core_children c) conns.
Proof.
  intros P T J A. split; [|split].
  - intros a Ha. destruct (A a Ha) as (x & (ME & ML & MS & MR) & X). unfold local_sender, local_receiver. rewrite <- send_ports_in, <- receive_ports_in.
    assert (In (c_sender a) (send_ports (core_objects c) core_audio (core_children c))
            /\ In (c_receiver a) (receive_ports (core_objects c) core_audio (core_children c))) as [K1 K2].
    { destruct X as [X|[X|X]]; [now apply (ends_known c x)| |]; rewrite ME in X; injection X as -> ->; destruct (ends_out c) as (? & ? & ?); auto. }
    auto.
  - intros p k Hp Hk. unfold local_receiver in Hp. rewrite <- receive_ports_in in Hp. rewrite (times_total c conns p k P J). now apply driven_once.
  - intros p k Hp Hk. unfold local_sender in Hp. rewrite <- send_ports_in in Hp. apply (used_some c conns p k P J). apply used_all; [exact T|apply P|exact Hp|exact Hk].
Qed.

Lemma core_params_connected c : tracking c = false ->
  params_connected (core_objects c) (core_params c) (core_children c) (flat_map wire_params (body c)).
Proof.
  intros T. unfold params_connected. cbv zeta. setoid_rewrite <- (send_params_in (core_objects c)). setoid_rewrite <- (receive_params_in (core_objects c)).
  unfold body, wires_tracking, wires_objects, wires_gains, wires_diffuse, wires_output.
  cases c; try discriminate T; (split; [|split]);
    [intros s r H|intros s H|intros r H|intros s r H|intros s H|intros r H|intros s r H|intros s H|intros r H|intros s r H|intros s H|intros r H
    |intros s r H|intros s H|intros r H|intros s r H|intros s H|intros r H|intros s r H|intros s H|intros r H|intros s r H|intros s H|intros r H];
    cbn in H; repeat match goal with H : _ \/ _ |- _ => destruct H as [H|H] end; try contradiction;
    try (injection H as <- <-; rewrite <- !mem_spec; split; [reflexivity|]; split; [reflexivity|]; split; [reflexivity|]; split; [reflexivity|];
         cbn; rewrite ?Nat.eqb_refl; reflexivity);
    subst; eexists; cbn; eauto 20.
Qed.
