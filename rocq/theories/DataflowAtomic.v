(** One block of a flow that is a single atomic component (proofs). *)
From Verif Require Import Base FlowModel FlowProofs FlowTree FlowProps SchedModel SchedProps
  LayoutModel LayoutTables LayoutProofs LayoutAddr LayoutProps DataflowModel DataflowSpec DataflowProofs DataflowFlow DataflowBlock.
Local Open Scope res_scope.

Lemma finish_routings o type_size block alignment audio tables conns rs y :
  finish o type_size block alignment audio tables conns rs = Ok y -> y_routings y = rs.
Proof.
  unfold finish. intros E. destruct (fold_left _ tables _) as [[offset configs]|e|]; [|discriminate|discriminate]. cbn [bind] in E.
  destruct (negb _); [discriminate|]. destruct (external_channels _ _ _ _ _) as [l1|e|]; [|discriminate|discriminate]. cbn [bind] in E.
  destruct (external_channels _ _ _ _ _) as [l2|e|]; [|discriminate|discriminate]. cbn [bind] in E. apply Ok_inj in E. subst y. reflexivity.
Qed.

Section Atomic.
  Variables (o : objects) (type_size : nat -> nat) (block alignment : nat) (id : nat) (audio ps : list nat) (y : layout).
  Notation root := (Atomic id audio ps).
  Notation fl := (Flow y [id]).
  Hypothesis ND : NoDup audio.
  Hypothesis HT : forall p, In p audio -> a_type o p = floatId.
  Hypothesis RY : y_routings y = [].
  Definition channel_in (c : channel) : Prop := In (fst c) audio /\ snd c < a_width o (fst c).
  Hypothesis own : forall c, In (fst c) audio -> snd c < a_width o (fst c) -> owns_buffer o type_size block alignment y c.
  Hypothesis dj : forall c c', In (fst c) audio -> snd c < a_width o (fst c) -> In (fst c') audio -> snd c' < a_width o (fst c') ->
          c <> c' -> disjoint o type_size block y c c'.
  Hypothesis XA : external_at o type_size y audio.
  Notation addr := (channel_address o type_size fl).
  Notation cbytes := (channel_bytes o type_size block fl).

  Lemma a_own c : channel_in c -> exists a, addr c = Ok a.
  Proof using own. intros [H1 H2]. destruct (own c H1 H2) as (a & E & _). exists a. exact E. Qed.
  Lemma a_disj c c' : channel_in c -> channel_in c' -> c <> c' -> exists a a', addr c = Ok a /\ addr c' = Ok a' /\ (a + cbytes c <= a' \/ a' + cbytes c' <= a).
  Proof using dj. intros [H1 H2] [H3 H4] Ne. exact (dj c c' H1 H2 H3 H4 Ne). Qed.
  Lemma a_bytes c : In (fst c) audio -> cbytes c = block * type_size floatId.
  Proof using HT RY. intros H. unfold channel_bytes, port_type. cbn [f_layout]. rewrite RY. cbn [find]. now rewrite HT. Qed.
  Lemma a_in d c : In c (external o root d) -> channel_in c.
  Proof. intros H. apply channel_of in H as (P & _ & L). split; assumption. Qed.
  Lemma a_nodup d : NoDup (external o root d).
  Proof using ND. apply channels_nodup. now apply NoDup_filter. Qed.
  Lemma a_at : Forall2 (fun c a => addr c = Ok a) (external o root Input) (y_capture y)
    /\ Forall2 (fun c a => addr c = Ok a) (external o root Output) (y_playback y).
  Proof using XA.
    destruct XA as (K1 & K2). split.
    - assert (E : external o root Input = channels o (filter (fun p => is_input (a_dir o p)) audio)).
      { unfold external, port_channels_of, channels. f_equal. apply filter_ext. intros p. now destruct (a_dir o p). }
      rewrite E. exact K1.
    - exact K2.
  Qed.
  Context {W B : Type}.
  Variable behaviour : nat -> W -> list (list B) -> res (W * list (list B)).
  Variable pool_base : nat.
  Hypothesis WB : well_behaved o type_size block root behaviour.
  Notation cont := (content (B := B) o type_size block fl).

  Lemma a_bytes_all d : map cbytes (external o root d) = map (fun c => block * type_size (a_type o (fst c))) (external o root d).
  Proof using HT RY. apply map_ext_in. intros c H. apply a_in in H as [H _]. rewrite a_bytes by exact H. now rewrite HT. Qed.
  Lemma a_length m ds : (forall c, In c ds -> channel_in c) -> map (@length B) (map (cont m) ds) = map cbytes ds.
  Proof using own.
    intros H. rewrite map_map. apply map_ext_in. intros c Hc. destruct (a_own c (H c Hc)) as (a & E). unfold content. rewrite E. apply fetch_length.
  Qed.
  Lemma a_block failure cpos ppos (capture before : nat * nat -> list B) w m :
    (forall p, length (capture p) = type_size floatId) ->
    positions_differ block ppos (length (external o root Output)) ->
    block_outcome o block root eq (type_size floatId) behaviour [root] failure cpos ppos capture before w
      (process_with o type_size block pool_base root fl behaviour failure cpos ppos capture before (w, m)).
  Proof using ND HT RY own dj XA WB.
    intros HL PD. unfold process_with, executeComponents. cbn [fst snd f_schedule]. set (m0 := copy_in block fl cpos capture m).
    destruct a_at as [XC XP].
    assert (Cap : captured o block root cpos capture (cont m0)).
    { intros n c Hn. destruct (copy_in_all o type_size block fl channel_in a_disj (fun ch => flat_map (fun i => capture (cpos ch i)) (seq 0 block))
        (external o root Input) (y_capture y) 0 m XC (a_nodup Input)) as [K _].
      - intros z Hz. now apply a_in in Hz.
      - intros k z Hz. rewrite (data_length type_size) by exact HL. symmetry. apply a_bytes. apply nth_error_In, a_in in Hz. apply Hz.
      - apply (K n c Hn). }
    assert (IN : inputs o root = external o root Input) by reflexivity. assert (OUT : outputs o root = external o root Output) by reflexivity.
    assert (At : atomic_in root root) by (split; [constructor|reflexivity]).
    assert (RC : run_component o type_size block pool_base root fl behaviour (w, m0) id
      = (result <- behaviour id w (map (cont m0) (external o root Input)) ;;
         m' <- write_channels o type_size fl m0 (external o root Output) (snd result) ;; Ok (fst result, m'))).
    { unfold run_component. cbn [f_layout]. rewrite RY. cbn [find]. unfold component_ports. cbn [atoms_ports find fst]. rewrite Nat.eqb_refl. cbn [snd].
      change audio with (comp_audio root) at 1 2. rewrite (filter_in o root), (filter_out o root). rewrite IN, OUT.
      rewrite (read_ok o type_size block fl m0 (external o root Input)); [reflexivity|]. intros c Hc. apply a_own. now apply a_in in Hc. }
    assert (Arr : forall V : valuation B, Forall2 (arrives eq V) (external o root Input) (map V (external o root Input))).
    { intros V. generalize (external o root Input). induction l as [|c l IH]; cbn [map]; constructor; [exists c; auto|exact IH]. }
    unfold run_schedule. cbn [fold_left bind]. rewrite RC.
    destruct (behaviour id w (map (cont m0) (external o root Input))) as [[w1 outs]|e|] eqn:EB; cbn [bind block_outcome snd fst].
    - assert (Lo : map (@length B) outs = map cbytes (external o root Output)).
      { rewrite a_bytes_all. apply (WB root w (map (cont m0) (external o root Input)) w1 outs At); [|exact EB].
        rewrite IN, <- a_bytes_all. apply a_length. apply a_in. }
      destruct (write_ok o type_size block fl channel_in a_own a_disj (external o root Output) outs m0 (a_nodup Output) (a_in Output) Lo) as (m1 & Em & M1 & M2).
      rewrite Em. cbn [bind block_outcome snd].
      assert (Keep : forall c, In c (external o root Input) -> cont m1 c = cont m0 c).
      { intros c Hc. apply M2; [now apply a_in in Hc|]. intros K. apply channel_of in Hc as (_ & Hc & _), K as (_ & K & _). congruence. }
      exists (cont m1). split; [|split].
      + apply executes_cons with (ins := map (cont m0) (external o root Input)) (w1 := w1); [| |constructor].
        * rewrite IN. rewrite (map_ext_in (cont m0) (cont m1)); [apply Arr|]. intros c Hc. symmetry. now apply Keep.
        * cbn [comp_id]. rewrite EB, OUT. now rewrite M1.
      + intros n c Hn. rewrite Keep; [now apply Cap|now apply nth_error_In in Hn].
      + assert (Len : length (external o root Output) = length (y_playback y)) by (clear - XP; induction XP; cbn; congruence).
        rewrite Len in PD. destruct (copy_out_ok type_size block fl ppos m1 before PD) as [C1 C2].
        split; [|intros p Hp; apply C2; cbn [f_layout]; now rewrite <- Len].
        intros n d Hn. exists (cont m1 d). split; [exists d; auto|]. intros i Hi.
        destruct (nth_error (y_playback y) n) as [a|] eqn:Ea.
        2:{ exfalso. apply nth_error_None in Ea. assert (n < length (external o root Output)) by (apply nth_error_Some; congruence). lia. }
        rewrite (C1 n a i Ea Hi). assert (Ad : addr d = Ok a).
        { clear - XP Hn Ea. revert n Hn Ea. induction XP as [|c b cs l H _ IH]; intros [|n] Hn Ea; try discriminate; cbn in *; [congruence|eauto]. }
        unfold content. rewrite Ad, a_bytes; [|apply nth_error_In, a_in in Hn; apply Hn]. unfold slice. apply fetch_sub. nia.
    - split; [reflexivity|]. exists (cont m0). split; [exact Cap|]. exists [], root, [], w, (map (cont m0) (external o root Input)).
      split; [reflexivity|]. split; [constructor|]. split; [apply Arr|]. exists e. exact EB.
    - exists (cont m0). split; [exact Cap|]. exists [], root, [], w, (map (cont m0) (external o root Input)).
      split; [reflexivity|]. split; [constructor|]. split; [apply Arr|]. exact EB.
  Qed.
End Atomic.
