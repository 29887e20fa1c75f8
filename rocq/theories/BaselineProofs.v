(** Proofs about the flow of the baseline renderer. *)
From Coq Require Import ZArith Permutation Relation_Operators.
From Verif Require Import Base FlowModel FlowProofs FlowResolve FlowTree FlowProps SchedModel SchedProps
  LayoutModel LayoutProps DataflowModel DataflowSpec DataflowHier DataflowProps CoreModel CoreProofs CoreProps BaselineModel BaselineSpec.
Local Open Scope res_scope.

(** *** Shape *)
Definition base_conns (c : config) : list aconn :=
  (if CoreModel.inputs c =? 0 then [] else [AConn base_in audioIn (seq 0 (CoreModel.inputs c)) (seq 0 (CoreModel.inputs c))])
  ++ (if CoreModel.outputs c =? 0 then [] else [AConn audioOut base_out (seq 0 (CoreModel.outputs c)) (seq 0 (CoreModel.outputs c))]).
Definition base_pconns (c : config) : list pconn :=
  [(scene_message, scene_datagram); (scene_objects, objectData)] ++ (if tracking c then [(tracker_position, trackingPosition)] else []).
Definition base_root (c : config) (core : comp) : comp :=
  Composite Baseline base_audio [] (base_children c core) (base_conns c) (base_pconns c).

Lemma list_max_seq n : list_max (seq 0 (S n)) = n.
Proof.
  induction n as [|n IH]; [reflexivity|]. rewrite seq_S, list_max_app, IH. cbn [list_max fold_right Nat.add]. lia.
Qed.
Lemma base_new_shape c conns pconns :
  let core := Composite Core core_audio (core_params c) (core_children c) conns pconns in
  base_connect_list (base_objects c) base_audio [] (base_children c core) ([], []) (base_wires c) = Ok (base_conns c, base_pconns c).
Proof.
  intros core. unfold base_wires, base_conns, base_pconns, base_children, core, core_params.
  destruct (CoreModel.inputs c) as [|n] eqn:En, (CoreModel.outputs c) as [|m] eqn:Em, (tracking c);
    cbn -[seq list_max Nat.leb]; rewrite ?En, ?Em; cbn -[seq list_max Nat.leb]; rewrite ?Nat.eqb_refl, ?seq_length; cbn -[seq list_max Nat.leb];
    rewrite ?Nat.eqb_refl, ?seq_length; cbn -[seq list_max Nat.leb];
    rewrite ?list_max_seq; rewrite ?(proj2 (Nat.leb_gt _ _) (Nat.lt_succ_diag_r _)); cbn -[seq list_max Nat.leb];
    rewrite ?Em, ?Nat.eqb_refl, ?seq_length; cbn -[seq list_max Nat.leb]; rewrite ?Nat.eqb_refl, ?seq_length; cbn -[seq list_max Nat.leb];
    rewrite ?list_max_seq; rewrite ?(proj2 (Nat.leb_gt _ _) (Nat.lt_succ_diag_r _)); cbn -[seq list_max Nat.leb]; try reflexivity.
Qed.
Lemma base_shape c r : ints c -> baseline_new c = Ok r -> exists core, core_new c = Ok core /\ r = base_root c core.
Proof.
  intros I E. unfold baseline_new in E. destruct (core_new c) as [core|e|] eqn:K; cbn [bind] in E; try discriminate.
  exists core. split; [reflexivity|]. destruct (core_shape c core I K) as (_ & conns & pconns & -> & _).
  rewrite base_new_shape in E. cbn [bind fst snd] in E. injection E as <-. reflexivity.
Qed.
Lemma base_outcome c : ints c ->
  baseline_new c = match core_new c with Ok core => Ok (base_root c core) | Throw e => Throw e | UB => UB end.
Proof.
  intros I. unfold baseline_new. destruct (core_new c) as [core|e|] eqn:K; cbn [bind]; try reflexivity.
  destruct (core_shape c core I K) as (_ & conns & pconns & -> & _). now rewrite base_new_shape.
Qed.

(** *** The ports of the core renderer have the same attributes *)
Lemma base_audio_core c p : p < 32 -> base_audio_info c p = audio_info c p.
Proof.
  intros H. unfold base_audio_info, base_in, base_out. destruct (Nat.eqb_spec p 32); [lia|]. destruct (Nat.eqb_spec p 33); [lia|]. reflexivity.
Qed.
Lemma base_param_core c p : p < 25 -> base_param_info c p = param_info c p.
Proof.
  intros H. unfold base_param_info, scene_message, scene_datagram, scene_objects, tracker_message, tracker_datagram, tracker_position.
  repeat match goal with |- context [p =? ?k] => destruct (Nat.eqb_spec p k); [lia|] end. reflexivity.
Qed.
Definition small (b : nat) (l : list nat) : bool := forallb (fun p => p <? b) l.
Lemma small_in b l p : small b l = true -> In p l -> p < b.
Proof. intros H Hp. unfold small in H. rewrite forallb_forall in H. now apply Nat.ltb_lt, H. Qed.
Lemma core_audio_small c p : In p (core_audio ++ flat_map comp_audio (core_children c)) -> p < 32.
Proof. apply small_in. cases c; reflexivity. Qed.
Lemma core_params_small c p : In p (core_params c ++ flat_map comp_params (core_children c)) -> p < 25.
Proof. apply small_in. cases c; reflexivity. Qed.
Lemma child_audio_small c x p : In x (core_children c) -> In p (comp_audio x) -> p < 32.
Proof. intros Hx Hp. apply (core_audio_small c). apply in_or_app. right. apply in_flat_map. eauto. Qed.
Lemma child_params_small c x p : In x (core_children c) -> In p (comp_params x) -> p < 25.
Proof. intros Hx Hp. apply (core_params_small c). apply in_or_app. right. apply in_flat_map. eauto. Qed.

Lemma core_connected_base c conns : well_connected (core_objects c) core_audio (core_children c) conns ->
  well_connected (base_objects c) core_audio (core_children c) conns.
Proof.
  assert (A : forall p, p < 32 -> a_dir (base_objects c) p = a_dir (core_objects c) p /\ a_width (base_objects c) p = a_width (core_objects c) p).
  { intros p H. cbn. now rewrite base_audio_core. }
  assert (O : forall p, In p core_audio -> p < 32) by (intros p H; apply (core_audio_small c), in_or_app; now left).
  assert (S : forall p, local_sender (base_objects c) core_audio (core_children c) p <-> local_sender (core_objects c) core_audio (core_children c) p).
  { intros p. split; (intros [(x & Hx & Hp & Hd)|[Hp Hd]]; [left; exists x; split; [exact Hx|]; split; [exact Hp|]|right; split; [exact Hp|]]);
      [rewrite <- (proj1 (A p (child_audio_small c x p Hx Hp)))|rewrite <- (proj1 (A p (O p Hp)))
      |rewrite (proj1 (A p (child_audio_small c x p Hx Hp)))|rewrite (proj1 (A p (O p Hp)))]; exact Hd. }
  assert (R : forall p, local_receiver (base_objects c) core_audio (core_children c) p <-> local_receiver (core_objects c) core_audio (core_children c) p).
  { intros p. split; (intros [(x & Hx & Hp & Hd)|[Hp Hd]]; [left; exists x; split; [exact Hx|]; split; [exact Hp|]|right; split; [exact Hp|]]);
      [rewrite <- (proj1 (A p (child_audio_small c x p Hx Hp)))|rewrite <- (proj1 (A p (O p Hp)))
      |rewrite (proj1 (A p (child_audio_small c x p Hx Hp)))|rewrite (proj1 (A p (O p Hp)))]; exact Hd. }
  assert (SS : forall p, local_sender (core_objects c) core_audio (core_children c) p -> p < 32).
  { intros p [(x & Hx & Hp & _)|[Hp _]]; [now apply (child_audio_small c x)|now apply O]. }
  assert (RS : forall p, local_receiver (core_objects c) core_audio (core_children c) p -> p < 32).
  { intros p [(x & Hx & Hp & _)|[Hp _]]; [now apply (child_audio_small c x)|now apply O]. }
  intros (W1 & W2 & W3). split; [|split].
  - intros a Ha. destruct (W1 a Ha) as (X1 & X2 & X3 & X4 & X5). rewrite S, R. rewrite (proj2 (A _ (SS _ X1))), (proj2 (A _ (RS _ X2))). auto.
  - intros p k Hp Hk. apply R in Hp. rewrite (proj2 (A _ (RS _ Hp))) in Hk. now apply W2.
  - intros p k Hp Hk. apply S in Hp. rewrite (proj2 (A _ (SS _ Hp))) in Hk. now apply W3.
Qed.
Lemma core_params_base c pconns : params_connected (core_objects c) (core_params c) (core_children c) pconns ->
  params_connected (base_objects c) (core_params c) (core_children c) pconns.
Proof.
  assert (A : forall p, p < 25 -> base_param_info c p = param_info c p) by (intros; now apply base_param_core).
  assert (O : forall p, In p (core_params c) -> p < 25) by (intros p H; apply (core_params_small c), in_or_app; now left).
  assert (D : forall d d' p, ((exists x, In x (core_children c) /\ In p (comp_params x) /\ q_dir (base_objects c) p = d) \/ (In p (core_params c) /\ q_dir (base_objects c) p = d'))
    <-> ((exists x, In x (core_children c) /\ In p (comp_params x) /\ q_dir (core_objects c) p = d) \/ (In p (core_params c) /\ q_dir (core_objects c) p = d'))).
  { intros d d' p. cbn [q_dir base_objects core_objects].
    split; (intros [(x & Hx & Hp & Hd)|[Hp Hd]]; [left; exists x; split; [exact Hx|]; split; [exact Hp|]|right; split; [exact Hp|]]);
      [rewrite (A p (child_params_small c x p Hx Hp)) in Hd|rewrite (A p (O p Hp)) in Hd
      |rewrite (A p (child_params_small c x p Hx Hp))|rewrite (A p (O p Hp))]; exact Hd. }
  assert (SM : forall d d' p, ((exists x, In x (core_children c) /\ In p (comp_params x) /\ q_dir (core_objects c) p = d) \/ (In p (core_params c) /\ q_dir (core_objects c) p = d')) -> p < 25).
  { intros d d' p [(x & Hx & Hp & _)|[Hp _]]; [now apply (child_params_small c x)|now apply O]. }
  unfold params_connected. cbv zeta. intros (W1 & W2 & W3). split; [|split].
  - intros s r Hs. destruct (W1 s r Hs) as (X1 & X2 & X3 & X4 & X5). split; [now apply D|]. split; [now apply D|].
    cbn [q_protocol q_type q_config config_compare base_objects]. rewrite (A s (SM _ _ s X1)), (A r (SM _ _ r X2)). repeat split; assumption.
  - intros s Hs. apply D in Hs. now apply W2.
  - intros s Hs. apply D in Hs. now apply W3.
Qed.

(** *** The hierarchy *)
Definition core_comp (c : config) (conns : list aconn) (pconns : list pconn) : comp :=
  Composite Core core_audio (core_params c) (core_children c) conns pconns.
Lemma inside_base c conns pconns x : inside x (base_root c (core_comp c conns pconns)) ->
  x = base_root c (core_comp c conns pconns) \/ x = core_comp c conns pconns \/ In x (core_children c)
  \/ (In x (base_children c (core_comp c conns pconns)) /\ is_composite x = false).
Proof.
  intros H. apply inside_composite in H as [->|(ch & Hc & H)]; [now left|right].
  destruct (is_composite ch) eqn:C.
  - assert (ch = core_comp c conns pconns) as ->.
    { unfold base_children in Hc. cbn [app] in Hc. destruct Hc as [<-|[<-|[<-|Hc]]]; try discriminate C; [reflexivity|].
      destruct (tracking c); [|contradiction]. destruct Hc as [<-|[<-|[]]]; discriminate C. }
    apply inside_core in H as [->|H]; auto.
  - apply inside_atomic in H; [|exact C]. subst x. right. right. auto.
Qed.
Lemma inside_core_in_base c core : inside core (base_root c core).
Proof. unfold base_root. eapply inside_child; [|apply inside_self]. unfold base_children. cbn. auto. Qed.
Lemma inside_base_composite c conns pconns i a p children cs ps :
  inside (Composite i a p children cs ps) (base_root c (core_comp c conns pconns)) ->
  Composite i a p children cs ps = base_root c (core_comp c conns pconns) \/ Composite i a p children cs ps = core_comp c conns pconns.
Proof.
  intros H. apply inside_base in H as [H|[H|[H|[_ H]]]]; auto.
  - apply children_atomic in H. discriminate.
  - discriminate.
Qed.

(** *** The connections of the renderer itself *)
Definition base_pairs (c : config) : list (channel * channel) :=
  map (fun k => ((base_in, k), (audioIn, k))) (seq 0 (CoreModel.inputs c))
  ++ map (fun k => ((audioOut, k), (base_out, k))) (seq 0 (CoreModel.outputs c)).
Lemma combine_self (l : list nat) : combine l l = map (fun k => (k, k)) l.
Proof. induction l as [|x l IH]; cbn; [reflexivity|now rewrite IH]. Qed.
Lemma joined_base c : joined (base_conns c) = base_pairs c.
Proof.
  unfold base_conns, base_pairs, joined. rewrite flat_map_app. f_equal.
  - destruct (CoreModel.inputs c) as [|n]; [reflexivity|]. cbn [Nat.eqb flat_map c_sender c_receiver c_send c_receive].
    rewrite combine_self, map_map, app_nil_r. reflexivity.
  - destruct (CoreModel.outputs c) as [|n]; [reflexivity|]. cbn [Nat.eqb flat_map c_sender c_receiver c_send c_receive].
    rewrite combine_self, map_map, app_nil_r. reflexivity.
Qed.
Lemma base_children_audio c conns pconns p :
  (exists x, In x (base_children c (core_comp c conns pconns)) /\ In p (comp_audio x)) <-> p = audioIn \/ p = audioOut.
Proof.
  split.
  - intros (x & Hx & Hp). unfold base_children in Hx. cbn [app] in Hx. destruct Hx as [<-|[<-|[<-|Hx]]]; try contradiction Hp.
    + cbn in Hp. destruct Hp as [<-|[<-|[]]]; auto.
    + destruct (tracking c); [|contradiction]. destruct Hx as [<-|[<-|[]]]; contradiction Hp.
  - intros H. exists (core_comp c conns pconns). split; [unfold base_children; cbn; auto|]. cbn. destruct H as [->| ->]; auto.
Qed.
Lemma base_senders c conns pconns p : local_sender (base_objects c) base_audio (base_children c (core_comp c conns pconns)) p <-> p = audioOut \/ p = base_in.
Proof.
  unfold local_sender. split.
  - intros [(x & Hx & Hp & Hd)|[Hp Hd]].
    + destruct (proj1 (base_children_audio c conns pconns p)) as [->| ->]; [eauto|discriminate Hd|now left].
    + destruct Hp as [<-|[<-|[]]]; [now right|discriminate Hd].
  - intros [->| ->]; [left|right; split; [now left|reflexivity]].
    destruct (proj2 (base_children_audio c conns pconns audioOut) (or_intror eq_refl)) as (x & Hx & Hp). exists x. auto.
Qed.
Lemma base_receivers c conns pconns p : local_receiver (base_objects c) base_audio (base_children c (core_comp c conns pconns)) p <-> p = audioIn \/ p = base_out.
Proof.
  unfold local_receiver. split.
  - intros [(x & Hx & Hp & Hd)|[Hp Hd]].
    + destruct (proj1 (base_children_audio c conns pconns p)) as [->| ->]; [eauto|now left|discriminate Hd].
    + destruct Hp as [<-|[<-|[]]]; [discriminate Hd|now right].
  - intros [->| ->]; [left|right; split; [right; now left|reflexivity]].
    destruct (proj2 (base_children_audio c conns pconns audioIn) (or_introl eq_refl)) as (x & Hx & Hp). exists x. auto.
Qed.
Lemma base_well_connected c conns pconns :
  well_connected (base_objects c) base_audio (base_children c (core_comp c conns pconns)) (base_conns c).
Proof.
  split; [|split].
  - intros a Ha. rewrite base_senders, base_receivers. unfold base_conns in Ha. apply in_app_or in Ha as [Ha|Ha].
    + destruct (CoreModel.inputs c =? 0); [contradiction|]. destruct Ha as [<-|[]]. cbn [c_sender c_receiver c_send c_receive].
      repeat split; auto; intros k Hk; apply in_seq in Hk; cbn; lia.
    + destruct (CoreModel.outputs c =? 0); [contradiction|]. destruct Ha as [<-|[]]. cbn [c_sender c_receiver c_send c_receive].
      repeat split; auto; intros k Hk; apply in_seq in Hk; cbn; lia.
  - intros p k Hp Hk. apply base_receivers in Hp. unfold times_driven. rewrite joined_base. unfold base_pairs.
    rewrite map_app, !map_map. cbn [snd]. apply NoDup_count_occ'.
    + apply nodup_app. split; [|split].
      * apply FinFun.Injective_map_NoDup; [|apply seq_NoDup]. intros x y E. congruence.
      * apply FinFun.Injective_map_NoDup; [|apply seq_NoDup]. intros x y E. congruence.
      * intros x H1 H2. apply in_map_iff in H1 as (i & <- & _). apply in_map_iff in H2 as (j & E & _). discriminate E.
    + apply in_or_app. destruct Hp as [->| ->]; [left|right]; apply in_map_iff; exists k; (split; [reflexivity|]); apply in_seq; cbn in Hk; lia.
  - intros p k Hp Hk. apply base_senders in Hp. rewrite joined_base. unfold base_pairs.
    destruct Hp as [->| ->]; [exists (base_out, k)|exists (audioIn, k)]; apply in_or_app; [right|left]; apply in_map_iff; exists k;
      (split; [reflexivity|]); apply in_seq; cbn in Hk; lia.
Qed.
Lemma base_params_connected c conns pconns : tracking c = false ->
  params_connected (base_objects c) [] (base_children c (core_comp c conns pconns)) (base_pconns c).
Proof.
  intros T. unfold params_connected, base_children, base_pconns, core_comp, core_params. rewrite T. cbv zeta.
  setoid_rewrite <- (send_params_in (base_objects c)). setoid_rewrite <- (receive_params_in (base_objects c)).
  cbn. split; [|split].
  - intros s r [H|[H|[]]]; injection H as <- <-; cbn; auto 10.
  - intros s [<-|[<-|[]]]; eauto.
  - intros s [<-|[<-|[]]]; eauto.
Qed.
Lemma base_integrity c r : ints c -> tracking c = false -> baseline_new c = Ok r -> checkConnectionIntegrity (base_objects c) r = true.
Proof.
  intros I T E. destruct (base_shape c r I E) as (core & K & ->). destruct (core_shape c core I K) as (P & conns & pconns & -> & J & -> & A).
  apply andb_true_iff. split.
  - apply C31_audio_check_iff_partial. intros i a p children cs ps H. apply inside_base_composite in H as [H|H]; injection H as -> -> -> -> -> ->.
    + apply base_well_connected.
    + apply core_connected_base. now apply core_well_connected.
  - apply C31_parameter_check_iff. intros i a p children cs ps H. apply inside_base_composite in H as [H|H]; injection H as -> -> -> -> -> ->.
    + now apply base_params_connected.
    + apply core_params_base. now apply core_params_connected.
Qed.

(** *** Connections *)
Lemma base_plinked c conns pconns s d : plinked (base_root c (core_comp c conns pconns)) s d <-> In (s, d) (base_pconns c) \/ In (s, d) pconns.
Proof.
  split.
  - intros (i & a & p & children & cs & ps & Hi & H). apply inside_base_composite in Hi as [Hi|Hi]; injection Hi as -> -> -> -> -> ->; auto.
  - intros [H|H]; [do 6 eexists; split; [apply inside_self|exact H]|do 6 eexists; split; [apply inside_core_in_base|exact H]].
Qed.
Lemma linked_joined root s d : linked root s d <->
  exists i a p children cs ps, inside (Composite i a p children cs ps) root /\ In (s, d) (joined cs).
Proof.
  unfold linked, joined. split.
  - intros (i & a & p & children & cs & ps & e & j & Hi & He & Es & Ed & Hs & Hd). exists i, a, p, children, cs, ps. split; [exact Hi|].
    apply in_flat_map. exists e. split; [exact He|]. apply in_map_iff. exists (snd s, snd d). cbn [fst snd].
    split; [rewrite <- Es, <- Ed; now destruct s, d|]. apply in_combine_nth. eauto.
  - intros (i & a & p & children & cs & ps & Hi & H). apply in_flat_map in H as (e & He & H). apply in_map_iff in H as ([u v] & H & Hc).
    injection H as <- <-. apply in_combine_nth in Hc as (j & H1 & H2). exists i, a, p, children, cs, ps, e, j. auto 10.
Qed.
Lemma base_linked c conns pconns s d : linked (base_root c (core_comp c conns pconns)) s d <-> In (s, d) (base_pairs c) \/ In (s, d) (joined conns).
Proof.
  rewrite linked_joined, <- joined_base. split.
  - intros (i & a & p & children & cs & ps & Hi & H). apply inside_base_composite in Hi as [Hi|Hi]; injection Hi as -> -> -> -> -> ->; auto.
  - intros [H|H]; [do 6 eexists; split; [apply inside_self|exact H]|do 6 eexists; split; [apply inside_core_in_base|exact H]].
Qed.
Lemma core_linked c conns pconns s d : linked (core_comp c conns pconns) s d <-> In (s, d) (joined conns).
Proof.
  rewrite linked_joined. split.
  - intros (i & a & p & children & cs & ps & Hi & H). apply inside_core_composite in Hi. injection Hi as -> -> -> -> -> ->. exact H.
  - intros H. do 6 eexists; split; [apply inside_self|exact H].
Qed.

(** *** Addresses *)
Lemma base_owners c conns pconns x : In x (base_children c (core_comp c conns pconns)) ->
  (forall p, In p (comp_audio x) -> a_owner (base_objects c) p = comp_id x)
  /\ (forall p, In p (comp_params x) -> q_owner (base_objects c) p = comp_id x)
  /\ comp_id x <> Baseline /\ (is_composite x = false -> comp_id x <> Core).
Proof.
  intros H. unfold base_children, core_comp, core_params in H. destruct (tracking c); cbn in H;
    repeat match goal with H : _ \/ _ |- _ => destruct H as [<-|H] end; try contradiction; cbn [comp_audio comp_params comp_id is_composite];
    (split; [|split; [|split]]); try discriminate; intros p Hp; cbn in Hp;
    repeat match goal with H : _ \/ _ |- _ => destruct H as [<-|H] end; try contradiction; try discriminate; reflexivity.
Qed.
Lemma core_child_id c x : In x (core_children c) -> comp_id x < 19.
Proof.
  intros H. apply (small_in 19 (map comp_id (core_children c))); [cases c; reflexivity|now apply in_map].
Qed.
Lemma base_describes c conns pconns : describes (base_objects c) (base_root c (core_comp c conns pconns)).
Proof.
  assert (CO : forall x, In x (core_children c) -> (forall p, In p (comp_audio x) -> a_owner (base_objects c) p = comp_id x)
    /\ (forall p, In p (comp_params x) -> q_owner (base_objects c) p = comp_id x) /\ comp_id x <> Core /\ comp_id x <> Baseline).
  { intros x Hx. destruct (core_owners c x Hx) as (H1 & H2 & H3). pose proof (core_child_id c x Hx) as H4. split; [|split; [|split]]; auto.
    - intros p Hp. cbn. rewrite base_audio_core by now apply (child_audio_small c x). now apply H1.
    - intros p Hp. cbn. rewrite base_param_core by now apply (child_params_small c x). now apply H2.
    - unfold Baseline. lia. }
  assert (CC : In (core_comp c conns pconns) (base_children c (core_comp c conns pconns))) by (unfold base_children; cbn; auto).
  split; [|split; [|split]].
  - intros x p H Hp. apply inside_base in H as [->|[->|[H|[H _]]]].
    + destruct Hp as [<-|[<-|[]]]; reflexivity.
    + now apply (base_owners c conns pconns _ CC).
    + now apply (CO x H).
    + now apply (base_owners c conns pconns x H).
  - intros x p H Hp. apply inside_base in H as [->|[->|[H|[H _]]]].
    + contradiction Hp.
    + now apply (base_owners c conns pconns _ CC).
    + now apply (CO x H).
    + now apply (base_owners c conns pconns x H).
  - intros x H. apply inside_base in H as [->|[->|[H|[H N]]]]; try reflexivity.
    + destruct (CO x H) as (_ & _ & N1 & N2). rewrite (children_atomic c x H). cbn.
      apply Nat.eqb_neq in N1, N2. change (comp_id x =? Core) with (comp_id x =? 0) in N1. unfold Core, Baseline in *. now rewrite N1, N2.
    + destruct (base_owners c conns pconns x H) as (_ & _ & N2 & N1). specialize (N1 N). rewrite N. cbn.
      apply Nat.eqb_neq in N1, N2. unfold Core, Baseline in *. now rewrite N1, N2.
  - intros x H. apply inside_base in H as [->|[->|[H|[H N]]]].
    + split; reflexivity.
    + split; discriminate.
    + destruct (CO x H) as (_ & _ & _ & N). split; [intros X; apply Nat.eqb_eq in X; contradiction|]. intros ->. apply children_atomic in H. discriminate.
    + destruct (base_owners c conns pconns x H) as (_ & _ & N2 & _). split; [intros X; apply Nat.eqb_eq in X; contradiction|]. intros ->. discriminate N.
Qed.
Lemma base_audio_nodup c conns pconns : NoDup (all_audio (base_root c (core_comp c conns pconns))).
Proof. apply distinct_nodup. cases c; reflexivity. Qed.
Lemma base_addresses_nodup c conns pconns : NoDup (addresses (base_root c (core_comp c conns pconns))).
Proof. apply distinct_nodup. cases c; reflexivity. Qed.

(** *** Paths of the audio signals *)
Lemma core_children_large c p : In p (flat_map comp_audio (core_children c)) -> p <> audioIn /\ p <> audioOut.
Proof.
  intros H. assert (X : forallb (fun p => 2 <=? p) (flat_map comp_audio (core_children c)) = true) by (cases c; reflexivity).
  rewrite forallb_forall in X. apply X, Nat.leb_le in H. unfold audioIn, audioOut. lia.
Qed.
Lemma core_ends c conns s d : well_connected (core_objects c) core_audio (core_children c) conns -> In (s, d) (joined conns) ->
  fst s <> audioOut /\ fst d <> audioIn /\ fst s < 32 /\ fst d < 32
  /\ snd s < a_width (core_objects c) (fst s) /\ snd d < a_width (core_objects c) (fst d).
Proof.
  intros (W & _ & _) H. apply in_flat_map in H as (e & He & H). apply in_map_iff in H as ([u v] & H & Hc). injection H as <- <-. cbn [fst snd].
  destruct (W e He) as (S & R & _ & U & V). pose proof (in_combine_l _ _ _ _ Hc) as Hu. pose proof (in_combine_r _ _ _ _ Hc) as Hv.
  assert (SS : fst (c_sender e, u) <> audioOut /\ c_sender e < 32).
  { destruct S as [(x & Hx & Hp & Hd)|[Hp Hd]].
    - split; [|now apply (child_audio_small c x)]. apply (core_children_large c). apply in_flat_map. eauto.
    - destruct Hp as [Hp|[Hp|[]]]; rewrite <- Hp in *; [split; [discriminate|unfold audioIn; lia]|discriminate Hd]. }
  assert (RR : fst (c_receiver e, v) <> audioIn /\ c_receiver e < 32).
  { destruct R as [(x & Hx & Hp & Hd)|[Hp Hd]].
    - split; [|now apply (child_audio_small c x)]. apply (core_children_large c). apply in_flat_map. eauto.
    - destruct Hp as [Hp|[Hp|[]]]; rewrite <- Hp in *; [discriminate Hd|split; [discriminate|unfold audioOut; lia]]. }
  cbn [fst] in SS, RR. destruct SS, RR. auto 10.
Qed.

Lemma base_pairs_in c s d : In (s, d) (base_pairs c) <->
  (exists k, k < CoreModel.inputs c /\ s = (base_in, k) /\ d = (audioIn, k)) \/ (exists k, k < CoreModel.outputs c /\ s = (audioOut, k) /\ d = (base_out, k)).
Proof.
  unfold base_pairs. rewrite in_app_iff, !in_map_iff. setoid_rewrite in_seq. split.
  - intros [(k & E & Hk)|(k & E & Hk)]; injection E as <- <-; [left|right]; exists k; (split; [lia|auto]).
  - intros [(k & Hk & -> & ->)|(k & Hk & -> & ->)]; [left|right]; exists k; (split; [reflexivity|lia]).
Qed.
Lemma base_inner c conns pconns p : inner (base_root c (core_comp c conns pconns)) p <-> p = audioIn \/ p = audioOut.
Proof.
  split.
  - intros (x & Hx & Hp & C & N). apply inside_base in Hx as [->|[->|[H|[_ H]]]].
    + now contradiction N.
    + destruct Hp as [<-|[<-|[]]]; auto.
    + apply children_atomic in H. congruence.
    + congruence.
  - intros H. exists (core_comp c conns pconns). split; [apply inside_core_in_base|]. split; [destruct H as [->| ->]; cbn; auto|].
    split; [reflexivity|discriminate].
Qed.
Lemma base_endpoint c conns pconns p : endpoint (base_root c (core_comp c conns pconns)) p -> p <> audioIn /\ p <> audioOut.
Proof.
  intros (x & Hx & Hp & H). apply inside_base in Hx as [->|[->|[Hx|[Hx N]]]].
  - destruct Hp as [<-|[<-|[]]]; split; discriminate.
  - destruct H as [H|H]; discriminate H.
  - apply (core_children_large c). apply in_flat_map. eauto.
  - exfalso. unfold base_children in Hx. cbn [app] in Hx. destruct Hx as [<-|[<-|[<-|Hx]]]; try contradiction Hp; try discriminate N.
    destruct (tracking c); [|contradiction]. destruct Hx as [<-|[<-|[]]]; contradiction Hp.
Qed.

Lemma into_small s : fst s < 32 -> into s = s.
Proof.
  intros H. unfold into, base_in, base_out. destruct (Nat.eqb_spec (fst s) 32); [lia|]. destruct (Nat.eqb_spec (fst s) 33); [lia|]. now destruct s.
Qed.

Section Paths.
  Variables (c : config) (conns : list aconn) (pconns : list pconn).
  Hypothesis WC : well_connected (core_objects c) core_audio (core_children c) conns.
  Notation core := (core_comp c conns pconns).
  Notation root := (base_root c core).
  Lemma wired_out k d : wired root (audioOut, k) d -> d = (base_out, k).
  Proof.
    assert (L : forall e, linked root (audioOut, k) e -> e = (base_out, k)).
    { intros e H. apply base_linked in H as [H|H].
      - apply base_pairs_in in H as [(j & _ & E & _)|(j & _ & E & ->)]; [discriminate E|]. now injection E as ->.
      - destruct (core_ends c conns _ _ WC H) as [N _]. now contradiction N. }
    intros W. inversion W as [s' d' H|s' p d' H Hi W']; subst; [now apply L|].
    apply L in H. subst p. apply base_inner in Hi as [Hi|Hi]; discriminate Hi.
  Qed.
  Lemma wired_mid s d : fst s <> base_in -> fst s <> audioOut -> wired root s d ->
    In (s, d) (joined conns) \/ exists k, d = (base_out, k) /\ In (s, (audioOut, k)) (joined conns).
  Proof.
    intros N1 N2 W. assert (L : forall e, linked root s e -> In (s, e) (joined conns)).
    { intros e H. apply base_linked in H as [H|H]; [|exact H].
      apply base_pairs_in in H as [(j & _ & E & _)|(j & _ & E & _)]; subst s; [now contradiction N1|now contradiction N2]. }
    inversion W as [s' d' H|s' p d' H Hi W']; subst; [left; now apply L|]. apply L in H. right.
    apply base_inner in Hi as [Hi|Hi]; [destruct (core_ends c conns _ _ WC H) as (_ & N & _); contradiction|].
    destruct p as [p k]. cbn in Hi. subst p. apply wired_out in W'. eauto.
  Qed.
  Lemma wired_in k d : wired root (base_in, k) d -> k < CoreModel.inputs c /\ (d = (audioIn, k) \/ wired root (audioIn, k) d).
  Proof.
    assert (L : forall e, linked root (base_in, k) e -> k < CoreModel.inputs c /\ e = (audioIn, k)).
    { intros e H. apply base_linked in H as [H|H].
      - apply base_pairs_in in H as [(j & Hj & E & ->)|(j & _ & E & ->)]; [|discriminate E]. now injection E as ->.
      - destruct (core_ends c conns _ _ WC H) as (_ & _ & N & _). cbn in N. unfold base_in in N. lia. }
    intros W. inversion W as [s' d' H|s' p d' H Hi W']; subst; [apply L in H; tauto|]. apply L in H as [H ->]. auto.
  Qed.
  Lemma base_transparent s d : endpoint root (fst s) -> endpoint root (fst d) -> (wired root s d <-> linked core (into s) (into d)).
  Proof.
    intros Es Ed. apply base_endpoint in Es as [S1 S2]. apply base_endpoint in Ed as [D1 D2]. rewrite core_linked.
    assert (IO : forall k, into (base_out, k) = (audioOut, k)) by reflexivity.
    assert (IB : forall k, into (base_in, k) = (audioIn, k)) by reflexivity.
    split.
    - intros W. destruct (Nat.eq_dec (fst s) base_in) as [E|N].
      + destruct s as [p k]. cbn in E. subst p. apply wired_in in W as [Hk [->|W]]; [now contradiction D1|]. rewrite IB.
        apply wired_mid in W as [H|(j & -> & H)]; try discriminate; [|exact H].
        rewrite into_small; [exact H|]. now apply (core_ends c conns _ _ WC H).
      + apply wired_mid in W as [H|(j & -> & H)]; auto; destruct (core_ends c conns _ _ WC H) as (_ & _ & X1 & X2 & _).
        * now rewrite !into_small.
        * now rewrite IO, into_small.
    - intros H. pose proof (core_ends c conns _ _ WC H) as (X1 & X2 & X3 & X4 & X5 & X6).
      assert (G : forall e, fst e <> audioOut -> In (e, into d) (joined conns) -> wired root e d).
      { intros e Ne He. destruct (Nat.eq_dec (fst d) base_out) as [E|N].
        - destruct d as [p k]. cbn in E. subst p. rewrite IO in *. apply wired_through with (p := (audioOut, k)).
          + apply base_linked. now right.
          + apply base_inner. now right.
          + apply wired_one. apply base_linked. left. apply base_pairs_in. right. exists k. auto.
        - apply wired_one, base_linked. right. assert (into d = d) as <-; [|exact He].
          unfold into in X2 |- *. cbn [fst] in X2. apply Nat.eqb_neq in N. rewrite N in *. destruct (fst d =? base_in); [now contradiction X2|now destruct d]. }
      destruct (Nat.eq_dec (fst s) base_in) as [E|N].
      + destruct s as [p k]. cbn in E. subst p. rewrite IB in *. apply wired_through with (p := (audioIn, k)).
        * apply base_linked. left. apply base_pairs_in. left. exists k. auto.
        * apply base_inner. now left.
        * apply G; [discriminate|exact H].
      + assert (into s = s) as Ei.
        { unfold into in X1 |- *. cbn [fst] in X1. apply Nat.eqb_neq in N. rewrite N in *. destruct (fst s =? base_out); [now contradiction X1|now destruct s]. }
        rewrite Ei in H. now apply G.
  Qed.
  Lemma base_no_loop p : inner root (fst p) -> ~ wired root p p.
  Proof.
    intros Hi W. destruct p as [p k]. cbn in Hi. apply base_inner in Hi as [->| ->].
    - apply wired_mid in W as [H|(j & E & H)]; try discriminate. destruct (core_ends c conns _ _ WC H) as (_ & N & _). now contradiction N.
    - apply wired_out in W. discriminate.
  Qed.
End Paths.

(** *** Paths of the parameters *)
Lemma core_pairs_drive c s d : In (s, d) (flat_map wire_params (body c)) <-> drives c s d.
Proof.
  unfold drives, body, wires_tracking, wires_objects, wires_gains, wires_diffuse, wires_output. split.
  - intros H. cases c; cbn in H; repeat match goal with H : _ \/ _ |- _ => destruct H as [H|H] end; try contradiction;
      injection H as <- <-; cbn [reverb dualband tracking]; tauto.
  - intros H. cases c; cbn [reverb dualband tracking] in H;
      repeat match goal with H : _ \/ _ |- _ => destruct H as [H|H] | H : _ /\ _ |- _ => destruct H as [? H] end; try discriminate; subst; cbn; auto 30.
Qed.
Lemma drives_ends c s d : drives c s d -> 2 <= d < 25 /\ s < 25 /\ (s = trackingPosition -> tracking c = true).
Proof.
  unfold drives. intros H.
  repeat match goal with H : _ \/ _ |- _ => destruct H as [H|H] | H : _ /\ _ |- _ => destruct H as [? H] end; subst;
    (split; [split; apply Nat.leb_le; reflexivity|]); (split; [apply Nat.leb_le; reflexivity|]); intros E; try discriminate E; assumption.
Qed.
Lemma drives_owned c s d : drives c s d -> 2 <= s -> exists x, In x (core_children c) /\ In s (comp_params x).
Proof.
  unfold drives. intros H L.
  assert (In s (flat_map comp_params (core_children c))) as X; [|apply in_flat_map in X as (x & Hx & X); eauto].
  cases c; cbn [reverb dualband tracking] in H;
    repeat match goal with H : _ \/ _ |- _ => destruct H as [H|H] | H : _ /\ _ |- _ => destruct H as [? H] end; try discriminate; subst;
    unfold objectData, trackingPosition in L; try lia; cbn; auto 40.
Qed.
Lemma driven_owned c s d : drives c s d -> exists x, In x (core_children c) /\ In d (comp_params x).
Proof.
  unfold drives. intros H.
  assert (In d (flat_map comp_params (core_children c))) as X; [|apply in_flat_map in X as (x & Hx & X); eauto].
  cases c; cbn [reverb dualband tracking] in H;
    repeat match goal with H : _ \/ _ |- _ => destruct H as [H|H] | H : _ /\ _ |- _ => destruct H as [? H] end; try discriminate; subst; cbn; auto 40.
Qed.
Lemma base_pinner c conns pconns p : pinner (base_root c (core_comp c conns pconns)) p <-> p = objectData \/ (p = trackingPosition /\ tracking c = true).
Proof.
  split.
  - intros (x & Hx & Hp & C & N). apply inside_base in Hx as [->|[->|[H|[_ H]]]].
    + now contradiction N.
    + cbn in Hp. unfold core_params in Hp. destruct Hp as [<-|Hp]; [now left|right]. destruct (tracking c); [|contradiction]. destruct Hp as [<-|[]]; auto.
    + apply children_atomic in H. congruence.
    + congruence.
  - intros H. exists (core_comp c conns pconns). split; [apply inside_core_in_base|]. split; [|split; [reflexivity|discriminate]].
    cbn. unfold core_params. destruct H as [->|[-> ->]]; cbn; auto.
Qed.
Lemma child_pendpoint c conns pconns x p : In x (core_children c) -> In p (comp_params x) -> pendpoint (base_root c (core_comp c conns pconns)) p.
Proof.
  intros Hx Hp. exists x. split; [|split; [exact Hp|left; now apply (children_atomic c)]].
  eapply inside_trans; [|apply inside_core_in_base]. unfold core_comp. eapply inside_child; [exact Hx|apply inside_self].
Qed.
Lemma base_pendpoint c conns pconns p : pendpoint (base_root c (core_comp c conns pconns)) p -> p <> objectData /\ p <> trackingPosition.
Proof.
  intros (x & Hx & Hp & H). apply inside_base in Hx as [->|[->|[Hx|[Hx N]]]].
  - contradiction Hp.
  - destruct H as [H|H]; discriminate H.
  - assert (X : forallb (fun p => 2 <=? p) (flat_map comp_params (core_children c)) = true) by (cases c; reflexivity).
    rewrite forallb_forall in X. assert (2 <= p) as L by (apply Nat.leb_le, X, in_flat_map; eauto). unfold objectData, trackingPosition. lia.
  - unfold base_children in Hx. cbn [app] in Hx. destruct Hx as [<-|[<-|[<-|Hx]]]; try discriminate N; cbn in Hp.
    + destruct Hp as [<-|[]]; split; discriminate.
    + destruct Hp as [<-|[<-|[]]]; split; discriminate.
    + destruct (tracking c); [|contradiction]. destruct Hx as [<-|[<-|[]]]; cbn in Hp.
      * destruct Hp as [<-|[]]; split; discriminate.
      * destruct Hp as [<-|[<-|[]]]; split; discriminate.
Qed.
Lemma base_own_pendpoint c conns pconns x p : In x (base_children c (core_comp c conns pconns)) -> is_composite x = false -> In p (comp_params x) ->
  pendpoint (base_root c (core_comp c conns pconns)) p.
Proof.
  intros Hx N Hp. exists x. split; [|auto]. unfold base_root. eapply inside_child; [exact Hx|apply inside_self].
Qed.

Section Params.
  Variables (c : config) (conns : list aconn).
  Notation core := (core_comp c conns (flat_map wire_params (body c))).
  Notation root := (base_root c core).
  Lemma base_plink s d : plinked root s d <->
    (s = scene_message /\ d = scene_datagram) \/ (s = scene_objects /\ d = objectData)
    \/ (tracking c = true /\ s = tracker_position /\ d = trackingPosition) \/ drives c s d.
  Proof.
    rewrite base_plinked, core_pairs_drive. unfold base_pconns. rewrite in_app_iff. cbn [In]. destruct (tracking c); cbn [In].
    - split; [intros [[[H|[H|[]]]|[H|[]]]|H]; try (injection H as <- <-); auto 10|].
      intros [[-> ->]|[[-> ->]|[(_ & -> & ->)|H]]]; auto 10.
    - split; [intros [[[H|[H|[]]]|[]]|H]; try (injection H as <- <-); auto 10|].
      intros [[-> ->]|[[-> ->]|[(X & _)|H]]]; auto 10. discriminate X.
  Qed.
  Lemma pwired_core p d : p < 25 -> pwired root p d -> drives c p d.
  Proof.
    intros L W. assert (X : forall e, plinked root p e -> drives c p e).
    { intros e H. apply base_plink in H as [[-> _]|[[-> _]|[(_ & -> & _)|H]]]; [| | |exact H];
        unfold scene_message, scene_objects, tracker_position in L; lia. }
    inversion W as [s' d' H|s' q d' H Hi W']; subst; [now apply X|]. apply X in H. apply drives_ends in H as (H & _).
    apply base_pinner in Hi as [->|[-> _]]; unfold objectData, trackingPosition in H; lia.
  Qed.
  Lemma base_no_ploop p : pinner root p -> ~ pwired root p p.
  Proof.
    intros Hi W. assert (p < 2) by (apply base_pinner in Hi as [->|[-> _]]; unfold objectData, trackingPosition; lia).
    apply pwired_core in W; [|lia]. apply drives_ends in W. lia.
  Qed.
  Lemma base_psingle s s' d : pinner root d -> plinked root s d -> plinked root s' d -> s = s'.
  Proof.
    intros Hi H H'. assert (d < 2) as L by (apply base_pinner in Hi as [->|[-> _]]; unfold objectData, trackingPosition; lia).
    assert (X : forall e, plinked root e d -> (d = objectData -> e = scene_objects) /\ (d = trackingPosition -> e = tracker_position)).
    { intros e He. apply base_plink in He as [[_ ->]|[[-> ->]|[(_ & -> & ->)|He]]]; [discriminate L || (unfold scene_datagram in L; lia)| | |].
      - split; [reflexivity|discriminate].
      - split; [discriminate|reflexivity].
      - apply drives_ends in He. lia. }
    apply X in H as [A1 A2]. apply X in H' as [B1 B2]. apply base_pinner in Hi as [->|[-> _]].
    - now rewrite A1, B1.
    - now rewrite A2, B2.
  Qed.
  Lemma base_reaches s d : pendpoint root s /\ pendpoint root d /\ pwired root s d <-> base_drives c s d.
  Proof.
    assert (LT : forall x y, drives c x y -> y <> objectData /\ y <> trackingPosition).
    { intros x y H. apply drives_ends in H as [H _]. unfold objectData, trackingPosition. lia. }
    split.
    - intros (Es & Ed & W). apply base_pendpoint in Es as [S1 S2]. apply base_pendpoint in Ed as [D1 D2]. unfold base_drives.
      inversion W as [s' d' H|s' q d' H Hi W']; subst.
      + apply base_plink in H as [H|[[_ H]|[(_ & _ & H)|H]]]; [now left|contradiction|contradiction|tauto].
      + assert (q < 2) as L by (apply base_pinner in Hi as [->|[-> _]]; unfold objectData, trackingPosition; lia).
        assert (drives c q d) as DR by (apply pwired_core; [lia|exact W']).
        apply base_plink in H as [[_ ->]|[[-> ->]|[(T & -> & ->)|H]]]; [unfold scene_datagram in L; lia|auto|auto 6|].
        apply LT in H. apply base_pinner in Hi as [->|[-> _]]; tauto.
    - assert (PC : forall x y, drives c x y -> pendpoint root y).
      { intros x y H. destruct (driven_owned c x y H) as (z & Hz & Hp). now apply (child_pendpoint c conns _ z). }
      intros [[-> ->]|[[-> H]|[[-> H]|(N1 & N2 & H)]]].
      + split; [|split].
        * apply (base_own_pendpoint c conns _ (Atomic SceneReceiver [] [scene_message])); [left; reflexivity|reflexivity|now left].
        * apply (base_own_pendpoint c conns _ (Atomic SceneDecoder [] [scene_datagram; scene_objects])); [right; left; reflexivity|reflexivity|now left].
        * constructor. apply base_plink. auto.
      + split; [|split; [now apply PC in H|]].
        * apply (base_own_pendpoint c conns _ (Atomic SceneDecoder [] [scene_datagram; scene_objects])); [right; left; reflexivity|reflexivity|right; now left].
        * apply pwired_through with (p := objectData); [apply base_plink; auto|apply base_pinner; auto|]. constructor. apply base_plink. auto.
      + assert (tracking c = true) as T by (apply drives_ends in H; tauto). split; [|split; [now apply PC in H|]].
        * apply (base_own_pendpoint c conns _ (Atomic TrackingPositionDecoder [] [tracker_datagram; tracker_position])); [|reflexivity|right; now left].
          unfold base_children. rewrite T. cbn. auto 10.
        * apply pwired_through with (p := trackingPosition); [apply base_plink; auto 10|apply base_pinner; auto|]. constructor. apply base_plink. auto.
      + assert (2 <= s) as L by (unfold objectData, trackingPosition in *; lia).
        split; [|split; [now apply PC in H|]].
        * destruct (drives_owned c s d H L) as (z & Hz & Hp). now apply (child_pendpoint c conns _ z).
        * constructor. apply base_plink. auto.
  Qed.
End Params.
