(** One block of a flow whose layout is good (proofs). *)
From Verif Require Import Base FlowModel FlowProofs FlowTree FlowProps SchedModel SchedProofs SchedProps
  LayoutModel LayoutTables LayoutProofs LayoutAddr LayoutProps DataflowModel DataflowSpec DataflowProofs DataflowFlow.
From Coq Require Import Permutation Relations.
Local Open Scope res_scope.

(** *** Copying in and out *)
Lemma fold_left_flat_map {A C D} (f : D -> C -> D) (g : A -> list C) l d :
  fold_left f (flat_map g l) d = fold_left (fun d x => fold_left f (g x) d) l d.
Proof. revert d. induction l as [|x l IH]; intros d; cbn [flat_map fold_left]; [reflexivity|]. rewrite fold_left_app. apply IH. Qed.
Lemma fold_left_map {A C D} (f : D -> C -> D) (g : A -> C) l d : fold_left f (map g l) d = fold_left (fun d x => f d (g x)) l d.
Proof. revert d. induction l as [|x l IH]; intros d; cbn [map fold_left]; [reflexivity|]. apply IH. Qed.
Lemma fold_left_ext_in {A D} (f g : D -> A -> D) l : (forall d x, In x l -> f d x = g d x) -> forall d, fold_left f l d = fold_left g l d.
Proof. induction l as [|x l IH]; intros H d; cbn [fold_left]; [reflexivity|]. rewrite H by now left. apply IH. intros e y Hy. apply H. now right. Qed.
Lemma pos_eqb_true a b : pos_eqb a b = true <-> a = b.
Proof. destruct a, b. unfold pos_eqb. cbn [fst snd]. rewrite andb_true_iff, !Nat.eqb_eq. split; [intros [-> ->]; reflexivity|]. intros E. now injection E. Qed.
Lemma assign_ok {V : Type} (L : list (nat * nat * V)) : forall (dest : nat * nat -> V), NoDup (map fst L) ->
  let out := fold_left (fun (d : nat * nat -> V) pv x => if pos_eqb x (fst pv) then snd pv else d x) L dest in
  (forall p v, In (p, v) L -> out p = v) /\ (forall p, ~ In p (map fst L) -> out p = dest p).
Proof.
  induction L as [|[q u] L IH]; intros dest ND; cbn [fold_left]; [split; [intros p v []|reflexivity]|].
  cbn [map fst] in ND. apply NoDup_cons_iff in ND as [Ni ND]. destruct (IH (fun x => if pos_eqb x q then u else dest x) ND) as [I1 I2]. cbn [fst snd]. split.
  - intros p v [H|H]; [|now apply I1]. injection H as -> ->. rewrite I2 by exact Ni. now rewrite (proj2 (pos_eqb_true p p) eq_refl).
  - intros p Np. cbn [map fst In] in Np. rewrite I2 by tauto. destruct (pos_eqb p q) eqn:E; [|reflexivity]. apply pos_eqb_true in E. subst q. tauto.
Qed.
Lemma combine_seq_in {A} (l : list A) n i a : In (i, a) (combine (seq n (length l)) l) <-> n <= i /\ nth_error l (i - n) = Some a.
Proof.
  revert n. induction l as [|x l IH]; intros n; cbn [length seq combine In].
  - split; [intros []|]. intros [_ H]. now destruct (i - n).
  - rewrite IH. split.
    + intros [E|[L E]]; [injection E as -> ->; rewrite Nat.sub_diag; auto|]. split; [lia|]. replace (i - n) with (S (i - S n)) by lia. exact E.
    + intros [L E]. destruct (Nat.eq_dec i n) as [->|Ne]; [left; rewrite Nat.sub_diag in E; cbn in E; injection E as ->; reflexivity|].
      right. split; [lia|]. replace (i - n) with (S (i - S n)) in E by lia. exact E.
Qed.
Lemma nodup_flat {A C} (g : A -> list C) l : NoDup l -> (forall x, In x l -> NoDup (g x)) ->
  (forall x y z, In x l -> In y l -> In z (g x) -> In z (g y) -> x = y) -> NoDup (flat_map g l).
Proof.
  induction l as [|x l IH]; intros ND H1 H2; cbn [flat_map]; [constructor|]. apply NoDup_cons_iff in ND as [Ni ND]. apply nodup_app. split; [|split].
  - apply H1. now left.
  - apply IH; [exact ND|intros y Hy; apply H1; now right|]. intros a b z Ha Hb. apply H2; now right.
  - intros z Hz K. apply in_flat_map in K as (y & Hy & K). apply Ni. now rewrite (H2 x y z (or_introl eq_refl) (or_intror Hy) Hz K).
Qed.

Section Copy.
  Context {B : Type}.
  Variables (o : objects) (type_size : nat -> nat) (block : nat) (fl : flow).
  Lemma copy_out_ok pos (m : memory B) dest : positions_differ block pos (length (y_playback (f_layout fl))) ->
    let out := copy_out type_size block fl pos m dest in
    (forall n a i, nth_error (y_playback (f_layout fl)) n = Some a -> i < block -> out (pos n i) = fetch m (a + i * type_size floatId) (type_size floatId))
    /\ (forall p, (forall n i, n < length (y_playback (f_layout fl)) -> i < block -> p <> pos n i) -> out p = dest p).
  Proof.
    intros PD. set (pl := y_playback (f_layout fl)) in *. set (sz := type_size floatId).
    set (L := flat_map (fun ch_a => map (fun i => (pos (fst ch_a) i, fetch m (snd ch_a + i * sz) sz)) (seq 0 block)) (combine (seq 0 (length pl)) pl)).
    assert (E : copy_out type_size block fl pos m dest = fold_left (fun (d : nat * nat -> list B) pv x => if pos_eqb x (fst pv) then snd pv else d x) L dest).
    { unfold L. rewrite fold_left_flat_map. unfold copy_out. fold pl sz. apply fold_left_ext_in. intros d x _. rewrite fold_left_map. reflexivity. }
    intros out. unfold out. rewrite E.
    assert (IL : forall p v, In (p, v) L <-> exists n a i, nth_error pl n = Some a /\ i < block /\ p = pos n i /\ v = fetch m (a + i * sz) sz).
    { intros p v. unfold L. rewrite in_flat_map. split.
      - intros ([n a] & H & K). apply combine_seq_in in H as [_ H]. rewrite Nat.sub_0_r in H. apply in_map_iff in K as (i & K & Hi). injection K as <- <-.
        apply in_seq in Hi. exists n, a, i. repeat split; [exact H|lia].
      - intros (n & a & i & H & Hi & -> & ->). exists (n, a). split; [apply combine_seq_in; rewrite Nat.sub_0_r; split; [lia|exact H]|].
        apply in_map_iff. exists i. split; [reflexivity|]. apply in_seq. lia. }
    assert (NDL : NoDup (map fst L)).
    { assert (EM : map fst L = flat_map (fun ch_a => map (fun i => pos (fst ch_a) i) (seq 0 block)) (combine (seq 0 (length pl)) pl)).
      { unfold L. rewrite flat_map_concat_map, concat_map, map_map, flat_map_concat_map. f_equal. apply map_ext. intros x. rewrite map_map. reflexivity. }
      rewrite EM. apply nodup_flat.
      - clear. assert (Gn : forall (l : list nat) n, NoDup (combine (seq n (length l)) l)); [|apply Gn].
        induction l as [|x l IH]; intros n; cbn [length seq combine]; [constructor|]. constructor; [|apply IH]. intros K. apply combine_seq_in in K as [K _]. lia.
      - intros [n a] H. apply combine_seq_in in H as [_ H]. rewrite Nat.sub_0_r in H. assert (n < length pl) by (apply nth_error_Some; congruence).
        cbn [fst]. assert (Gn : forall k l, l + k <= block -> NoDup (map (fun i => pos n i) (seq l k))); [|apply Gn; lia].
        induction k as [|k IH]; intros l Lk; cbn [seq map]; constructor; [|apply IH; lia]. intros K. apply in_map_iff in K as (j & K & Hj). apply in_seq in Hj.
        apply PD in K; [lia|lia|lia|lia|lia].
      - intros [n a] [n' a'] z H H' Hz Hz'. apply combine_seq_in in H as [_ H], H' as [_ H']. rewrite Nat.sub_0_r in H, H'. cbn [fst] in *.
        apply in_map_iff in Hz as (i & <- & Hi), Hz' as (i' & Hz' & Hi'). apply in_seq in Hi, Hi'.
        assert (n < length pl) by (apply nth_error_Some; congruence). assert (n' < length pl) by (apply nth_error_Some; congruence).
        apply PD in Hz' as [<- _]; [|lia|lia|lia|lia]. congruence. }
    destruct (assign_ok L dest NDL) as [A1 A2]. split.
    - intros n a i Hn Hi. apply A1. apply IL. exists n, a, i. auto.
    - intros p Hp. apply A2. intros K. apply in_map_iff in K as ([q v] & <- & K). apply IL in K as (n & a & i & Hn & Hi & -> & _). cbn [fst] in Hp.
      apply (Hp n i); [apply nth_error_Some; congruence|exact Hi|reflexivity].
  Qed.
  Variable send : channel -> Prop.
  Notation addr := (channel_address o type_size fl).
  Notation cbytes := (channel_bytes o type_size block fl).
  Notation cont := (content (B := B) o type_size block fl).
  Hypothesis disj : forall c c', send c -> send c' -> c <> c' ->
    exists a a', addr c = Ok a /\ addr c' = Ok a' /\ (a + cbytes c <= a' \/ a' + cbytes c' <= a).
  Lemma copy_in_all (data : nat -> list B) : forall cs l n m, Forall2 (fun c a => addr c = Ok a) cs l -> NoDup cs -> (forall c, In c cs -> send c) ->
    (forall k c, nth_error cs k = Some c -> length (data (n + k)) = cbytes c) ->
    let m' := fold_left (fun m ch_a => store m (snd ch_a) (data (fst ch_a))) (combine (seq n (length l)) l) m in
    (forall k c, nth_error cs k = Some c -> cont m' c = data (n + k)) /\ (forall c, send c -> ~ In c cs -> cont m' c = cont m c).
  Proof using disj.
    induction cs as [|c cs IH]; intros l n m FA ND Hs Hl; inversion FA as [|? a ? l' Ha FA']; subst; cbn [length seq combine fold_left fst snd].
    - split; [intros [|k] c H; discriminate|reflexivity].
    - apply NoDup_cons_iff in ND as [Ni ND].
      destruct (IH l' (S n) (store m a (data n)) FA' ND) as [I1 I2].
      { intros z Hz. apply Hs. now right. }
      { intros k z Hz. replace (S n + k) with (n + S k) by lia. now apply Hl. }
      destruct (content_store o type_size block fl send disj m c a (data n) (Hs c (or_introl eq_refl)) Ha) as [C1 C2].
      { specialize (Hl 0 c eq_refl). now rewrite Nat.add_0_r in Hl. }
      split.
      + intros [|k] z Hz; cbn [nth_error] in Hz.
        * injection Hz as <-. rewrite Nat.add_0_r, I2; [exact C1|apply Hs; now left|exact Ni].
        * replace (n + S k) with (S n + k) by lia. now apply I1.
      + intros z Hz Nz. cbn [In] in Nz. rewrite I2; [|exact Hz|tauto]. apply C2; [exact Hz|]. intros ->. tauto.
  Qed.
  Lemma data_length (src : nat * nat -> list B) (pos : nat -> nat -> nat * nat) n : (forall p, length (src p) = type_size floatId) ->
    length (flat_map (fun i => src (pos n i)) (seq 0 block)) = block * type_size floatId.
  Proof.
    intros H. rewrite flat_map_concat_map. rewrite <- (seq_length block 0) at 2. generalize (seq 0 block). induction l as [|i l IH]; cbn; [reflexivity|].
    rewrite app_length, IH, H. reflexivity.
  Qed.
End Copy.

Lemma before_in_front (l l1 l2 : list nat) a b : NoDup l -> runs_before l a b -> l = l1 ++ b :: l2 -> In a l1.
Proof.
  intros ND (k1 & k2 & k3 & E) E'. rewrite E' in E. replace (k1 ++ a :: k2 ++ b :: k3) with ((k1 ++ a :: k2) ++ b :: k3) in E by now rewrite <- app_assoc.
  rewrite E' in ND. assert (l1 = k1 ++ a :: k2) as ->; [|apply in_or_app; right; now left].
  clear E'. revert ND E. generalize (k1 ++ a :: k2) as m. clear. induction l1 as [|x l1 IH]; intros [|y m] ND E; cbn [app] in *.
  - reflexivity.
  - injection E as <- E. exfalso. apply NoDup_cons_iff in ND as [Ni _]. apply Ni. rewrite E. apply in_or_app. right. now left.
  - injection E as -> E. exfalso. apply NoDup_cons_iff in ND as [Ni _]. apply Ni. apply in_or_app. right. now left.
  - injection E as -> E. f_equal. apply NoDup_cons_iff in ND as [_ ND]. now apply IH.
Qed.
Lemma before_filter (l : list nat) (f : nat -> bool) a b : runs_before l a b -> f a = true -> f b = true -> runs_before (filter f l) a b.
Proof.
  intros (k1 & k2 & k3 & ->) Ha Hb. exists (filter f k1), (filter f k2), (filter f k3). rewrite filter_app. cbn [filter]. rewrite Ha, filter_app. cbn [filter]. now rewrite Hb.
Qed.
Lemma before_trans (l : list nat) a b c : NoDup l -> runs_before l a b -> runs_before l b c -> runs_before l a c.
Proof.
  intros ND H (k1 & k2 & k3 & E). pose proof (before_in_front l k1 _ a b ND H E) as Hi. apply in_split in Hi as (j1 & j2 & ->).
  exists j1, (j2 ++ b :: k2), k3. rewrite E, <- !app_assoc. cbn [app]. rewrite <- ?app_assoc. reflexivity.
Qed.

Section Block.
  Variables (o : objects) (type_size : nat -> nat) (block alignment : nat) (alloc : nat -> nat * nat * nat).
  Variables (root : comp) (conns : amap) (params : pmap) (fl : flow) (D : list nat).
  Notation y := (f_layout fl).
  Hypothesis CF : closed_flow o root conns params.
  Hypothesis F : flat o conns.
  Hypothesis NA : new_addresses root alloc.
  Hypothesis GL : good_layout o type_size block alignment conns y (comp_audio root).
  Hypothesis HD : forall p, In p D <-> receiver conns p.
  Hypothesis G : global_inv o alloc conns D (y_conns y) (y_routings y).
  Hypothesis LI : forall r, In r (y_routings y) -> length (r_indices r) = a_width o (r_for r).
  Notation RS := (y_routings y).
  Notation C := (y_conns y).
  Notation o' := (with_routings o RS).
  Notation root' := (add_components root RS).
  Notation send := (send_channel o conns y).
  Notation owner := (a_owner o').
  Notation edge := (feeds o' C params).
  Notation addr := (channel_address o type_size fl).
  Notation cbytes := (channel_bytes o type_size block fl).
  Notation sched := (f_schedule fl).
  Hypothesis S1 : NoDup sched.
  Hypothesis S2 : forall a, In a sched <-> atom root' a.
  Hypothesis S3 : forall a b, atom root' a -> atom root' b -> edge a b -> runs_before sched a b.

  Lemma x_own c : send c -> exists a, addr c = Ok a.
  Proof using GL. intros H. destruct GL as (K & _). destruct (K c H) as (a & E & _). exists a. exact E. Qed.
  Lemma x_disj c c' : send c -> send c' -> c <> c' -> exists a a', addr c = Ok a /\ addr c' = Ok a' /\ (a + cbytes c <= a' \/ a' + cbytes c' <= a).
  Proof using GL. intros H H' Ne. destruct GL as (_ & K & _). exact (K c c' H H' Ne). Qed.
  Lemma x_plain x r : atomic_in root x -> In r RS -> r_comp r <> comp_id x.
  Proof using NA G. intros [Hx Cx] Hr. apply (atom_plain_not o alloc root conns y D NA G r _ Hr). exists x. auto. Qed.
  Lemma x_send s d : In (s, d) conns -> send s.
  Proof using F. intros H. left. split; [destruct s; exists n0, d; exact H|apply (f_send _ _ F _ _ H)]. Qed.
  Lemma x_bytes c : In (fst c) (all_audio root) -> cbytes c = block * type_size (a_type o (fst c)).
  Proof using NA G. intros H. unfold channel_bytes. now rewrite (type_plain o alloc root conns y D NA G _ H). Qed.
  Lemma x_bytes_routing r c : In r RS -> (r_in r = fst c \/ r_out r = fst c) -> cbytes c = block * type_size (r_type r).
  Proof using NA G. intros H E. unfold channel_bytes. now rewrite (type_routing o alloc root conns y D NA G r _ H E). Qed.

  (** how a connection is realised *)
  Lemma x_route s d : In (s, d) conns ->
    (In (s, d) C /\ (forall r, In r RS -> r_for r <> fst d) /\ addr s = addr d /\ edge (owner (fst s)) (owner (fst d)))
    \/ exists r i, In r RS /\ r_for r = fst d /\ nth_error (r_indices r) (snd d) = Some i
         /\ addr s = addr (r_in r, i) /\ addr (r_out r, snd d) = addr d /\ edge (owner (fst s)) (r_comp r) /\ edge (r_comp r) (owner (fst d)).
  Proof using CF F NA GL HD G LI.
    intros H. destruct GL as (_ & _ & K & _). specialize (K s d H).
    destruct (owner_sender o alloc root conns params y D CF NA G s d H) as (_ & Ps & _).
    destruct (owner_receiver o alloc root conns params y D CF NA G s d H) as (_ & Pd).
    destruct (edge_of o alloc root conns params y D CF F NA HD G LI s d H) as [(E1 & E2 & E3)|(r & i & Hr & Er & Ei & I1 & I2 & E1 & E2)].
    - left. split; [exact E1|]. split; [exact E2|]. split; [|exact E3]. destruct K as [(_ & a & A1 & A2)|(r & i & a & b & Hr & _ & _ & _ & _ & _ & I & _)].
      + unfold at_ in *. unfold channel_address. congruence.
      + exfalso. apply (g_conns _ _ _ _ _ _ G) in I as [(I & _)|[(q & k & Hq & I & _)|(q & k & Hq & _ & I & J)]].
        * apply (routing_ports o alloc root conns y D NA G r (r_out r) Hr); [auto|]. apply (owner_sender o alloc root conns params y D CF NA G _ _ I).
        * apply (routing_ports o alloc root conns y D NA G r (r_out r) Hr); [auto|]. apply (owner_sender o alloc root conns params y D CF NA G _ _ I).
        * subst d. cbn [fst] in *. now apply (E2 q Hq).
    - right. exists r, i. split; [exact Hr|]. split; [exact Er|]. split; [exact Ei|].
      destruct K as [(I & _)|(q & j & a & b & Hq & Ej & _ & J1 & A1 & A2 & J2 & A3 & A4)].
      + exfalso. apply (g_conns _ _ _ _ _ _ G) in I as [(_ & _ & I)|[(q & k & Hq & _ & I & _)|(q & k & Hq & _ & I & _)]].
        * now apply (I r Hr).
        * apply (routing_ports o alloc root conns y D NA G q (fst d) Hq); auto.
        * apply (routing_ports o alloc root conns y D NA G q (fst s) Hq); [subst s; auto|exact Ps].
      + assert (q = r).
        { apply (g_conns _ _ _ _ _ _ G) in J2 as [(I & _)|[(q' & k & Hq' & I & _)|(q' & k & Hq' & _ & I & J)]].
          - exfalso. apply (routing_ports o alloc root conns y D NA G q (r_out q) Hq); [auto|]. apply (owner_sender o alloc root conns params y D CF NA G _ _ I).
          - exfalso. apply (routing_ports o alloc root conns y D NA G q (r_out q) Hq); [auto|]. apply (owner_sender o alloc root conns params y D CF NA G _ _ I).
          - injection I as I _. rewrite <- (routing_same o alloc root conns y D NA G q q' Hq Hq' (or_intror (or_introl I))) in J.
            assert (Eq : r_for q = r_for r) by (rewrite Er, J; reflexivity). clear - G Hq Hr Eq. pose proof (g_forinj _ _ _ _ _ _ G) as ND.
            revert Hq Hr Eq ND. generalize RS. induction l as [|z l IH]; intros Hq Hr E ND; [destruct Hq|]. cbn [map] in ND. apply NoDup_cons_iff in ND as [Ni ND].
            destruct Hq as [->|Hq], Hr as [->|Hr]; [reflexivity| | |auto].
            + exfalso. apply Ni. rewrite E. now apply in_map.
            + exfalso. apply Ni. rewrite <- E. now apply in_map. }
        subst q. rewrite Ei in Ej. injection Ej as <-. unfold at_ in *. unfold channel_address. rewrite A1, A2, A3, A4. auto.
  Qed.
  Lemma x_feeds s d r i : In (s, d) conns -> In r RS -> r_for r = fst d -> addr s = addr (r_in r, i) -> feeds_input o type_size block fl send r i s.
  Proof using CF F NA G.
    intros H Hr Er E. destruct (owner_sender o alloc root conns params y D CF NA G s d H) as (_ & Ps & _).
    split; [now apply x_send with d|]. split.
    - intros K. apply (routing_ports o alloc root conns y D NA G r (r_out r) Hr); [auto|]. now rewrite <- K.
    - split; [exact E|]. rewrite (x_bytes s Ps). destruct (g_for _ _ _ _ _ _ G r Hr) as [_ ->]. rewrite Er. now rewrite (proj1 (f_types _ _ F _ _ H)).
  Qed.
  Lemma x_delivered s d : In (s, d) conns -> send s /\ cbytes s = cbytes d
    /\ ((addr s = addr d /\ edge (owner (fst s)) (owner (fst d)))
        \/ exists r k i, In r RS /\ nth_error (r_indices r) k = Some i /\ feeds_input o type_size block fl send r i s
             /\ edge (owner (fst s)) (r_comp r) /\ addr (r_out r, k) = addr d /\ cbytes (r_out r, k) = cbytes d /\ edge (r_comp r) (owner (fst d))).
  Proof using CF F NA GL HD G LI.
    intros H. destruct (owner_sender o alloc root conns params y D CF NA G s d H) as (_ & Ps & _).
    destruct (owner_receiver o alloc root conns params y D CF NA G s d H) as (_ & Pd).
    split; [now apply x_send with d|]. split; [rewrite (x_bytes s Ps), (x_bytes d Pd); now rewrite (proj1 (f_types _ _ F _ _ H))|].
    destruct (x_route s d H) as [(_ & _ & E1 & E2)|(r & i & Hr & Er & Ei & A1 & A2 & E1 & E2)]; [left; auto|right].
    exists r, (snd d), i. split; [exact Hr|]. split; [exact Ei|]. split; [now apply (x_feeds s d)|]. split; [exact E1|]. split; [exact A2|].
    split; [|exact E2]. rewrite (x_bytes_routing r (r_out r, snd d) Hr (or_intror eq_refl)), (x_bytes d Pd).
    destruct (g_for _ _ _ _ _ _ G r Hr) as [_ ->]. now rewrite Er.
  Qed.
  Lemma x_outputs x c : atomic_in root x -> In c (outputs o x) -> send c /\ owner (fst c) = comp_id x.
  Proof using CF NA G.
    intros Hx Hc. pose proof (c_outputs _ _ _ _ CF x c Hx Hc) as Sc. apply channel_of in Hc as (Pc & _ & Wc). split; [left; auto|].
    destruct Hx as [Hx Cx]. rewrite (owner_plain o alloc root conns y D NA G); [|now apply inside_audio with x].
    now apply (c_describes _ _ _ _ CF).
  Qed.
  Lemma x_inputs x d : atomic_in root x -> In d (inputs o x) -> owner (fst d) = comp_id x.
  Proof using CF NA G.
    intros [Hx Cx] Hd. apply channel_of in Hd as (Pd & _). rewrite (owner_plain o alloc root conns y D NA G); [|now apply inside_audio with x].
    now apply (c_describes _ _ _ _ CF).
  Qed.
  Lemma x_nodup x : atomic_in root x -> NoDup (outputs o x).
  Proof using CF.
    intros [Hx Cx]. apply channels_nodup. apply NoDup_filter. apply (comp_audio_nodup root); [apply (c_ports _ _ _ _ CF)|exact Hx].
  Qed.
  Lemma x_out r k : In r RS -> owner (r_out r) = r_comp r /\ cbytes (r_out r, k) = block * type_size (r_type r) /\ (k < length (r_indices r) -> send (r_out r, k)).
  Proof using NA G.
    intros Hr. split; [apply (owner_routing o alloc root conns y D NA G r _ Hr); auto|]. split; [apply (x_bytes_routing r _ Hr); auto|]. intros L. right. exists r. auto.
  Qed.
  Lemma x_in r k i : In r RS -> nth_error (r_indices r) k = Some i -> exists s, feeds_input o type_size block fl send r i s /\ edge (owner (fst s)) (r_comp r).
  Proof using CF F NA GL HD G LI.
    intros Hr Ei. assert (Lk : k < a_width o (r_for r)) by (rewrite <- (LI r Hr); apply nth_error_Some; congruence).
    destruct (g_for _ _ _ _ _ _ G r Hr) as [Gd _]. apply HD, receives_receiver in Gd. destruct (f_full _ _ F _ _ Gd Lk) as (s & H). exists s.
    destruct (x_route s (r_for r, k) H) as [(_ & K & _)|(q & j & Hq & Eq & Ej & A1 & _ & E1 & _)]; [exfalso; now apply (K r Hr)|]. cbn [fst snd] in *.
    assert (q = r).
    { clear - G Hq Hr Eq. pose proof (g_forinj _ _ _ _ _ _ G) as ND.
      revert Hq Hr Eq ND. generalize RS. induction l as [|z l IH]; intros Hq Hr E ND; [destruct Hq|]. cbn [map] in ND. apply NoDup_cons_iff in ND as [Ni ND].
      destruct Hq as [->|Hq], Hr as [->|Hr]; [reflexivity| | |auto].
      - exfalso. apply Ni. rewrite E. now apply in_map.
      - exfalso. apply Ni. rewrite <- E. now apply in_map. }
    subst q. rewrite Ei in Ej. injection Ej as <-. split; [|exact E1]. now apply (x_feeds s (r_for r, k)).
  Qed.

  (** *** The order of the components *)
  Lemma x_known a : In a sched -> known root fl a.
  Proof using CF S2. intros H. apply S2 in H. now apply (atom_extended o root conns params y CF) in H. Qed.
  Lemma x_before b a : edge b a -> In b sched -> In a sched -> runs_before sched b a.
  Proof using S2 S3. intros E Hb Ha. apply S2 in Hb, Ha. now apply S3. Qed.
  Lemma x_ordered : ordered root fl edge sched.
  Proof using CF S1 S2 S3.
    split; [exact x_known|]. intros l1 a l2 E. pose proof S1 as ND. rewrite E in ND. apply NoDup_remove_2 in ND as ND2. split.
    - intros b He K. assert (Hb : In b sched) by (rewrite E; apply in_or_app; right; exact K).
      assert (Ha : In a sched) by (rewrite E; apply in_or_app; right; now left).
      pose proof (before_in_front sched l1 l2 b a S1 (x_before b a He Hb Ha) E) as Hi.
      apply in_split in Hi as (j1 & j2 & ->). rewrite <- app_assoc in ND. cbn [app] in ND. apply NoDup_remove_2 in ND. apply ND.
      rewrite !in_app_iff. tauto.
    - intros K. apply ND2. apply in_or_app. now right.
  Qed.
  Lemma x_routing_in r : In r RS -> In (r_comp r) sched.
  Proof using CF S2. intros H. apply S2. apply (atom_extended o root conns params y CF). right. eauto. Qed.
  Lemma x_closed : closed root fl edge sched.
  Proof using CF S2. intros b a _ _ (r & Hr & <-) _. now apply x_routing_in. Qed.
  Lemma x_prefix : forall l1 l2, sched = l1 ++ l2 -> forall b a, edge b a -> (exists x, atomic_in root x /\ comp_id x = a) ->
      (exists r, In r RS /\ r_comp r = b) -> (In a l1 \/ exists k, l2 = a :: k) -> In b l1.
  Proof using CF S1 S2 S3.
    intros l1 l2 E b a He _ (r & Hr & <-) [Ha|(k & ->)].
    - pose proof (x_routing_in r Hr) as Hb. assert (Ha' : In a sched) by (rewrite E; apply in_or_app; now left).
      apply in_split in Ha as (j1 & j2 & ->). rewrite <- app_assoc in E. cbn [app] in E.
      pose proof (before_in_front sched j1 _ (r_comp r) a S1 (x_before _ a He Hb Ha') E). apply in_or_app. now left.
    - pose proof (x_routing_in r Hr) as Hb. assert (Ha' : In a sched) by (rewrite E; apply in_or_app; right; now left).
      exact (before_in_front sched l1 k (r_comp r) a S1 (x_before _ a He Hb Ha') E).
  Qed.
  Lemma x_same x x' : atomic_in root x -> atomic_in root x' -> comp_id x = comp_id x' -> x = x'.
  Proof using CF. intros [Hx _] [Hx' _]. apply (same_address root); [apply (c_addresses _ _ _ _ CF)|exact Hx|exact Hx']. Qed.
  Lemma x_atom_in x : atomic_in root x -> In (comp_id x) sched.
  Proof using CF S2. intros H. apply S2. apply (atom_extended o root conns params y CF). left. eauto. Qed.
  (** a dependency of the flow without the inserted components *)
  Lemma x_dep x z : atomic_in root x -> atomic_in root z -> feeds o conns params (comp_id z) (comp_id x) -> runs_before sched (comp_id z) (comp_id x).
  Proof using CF F NA HD G LI S1 S2 S3.
    intros Hx Hz [(s & d & H & Es & Ed)|K].
    - destruct (owner_sender o alloc root conns params y D CF NA G s d H) as (O1 & _). destruct (owner_receiver o alloc root conns params y D CF NA G s d H) as (O2 & _).
      rewrite <- O1 in Es. rewrite <- O2 in Ed. rewrite <- Es, <- Ed. pose proof (x_atom_in x Hx) as Ix. pose proof (x_atom_in z Hz) as Iz. rewrite <- Es in Iz. rewrite <- Ed in Ix.
      destruct (edge_of o alloc root conns params y D CF F NA HD G LI s d H) as [(_ & _ & E)|(r & i & Hr & _ & _ & _ & _ & E1 & E2)]; [now apply x_before|].
      pose proof (x_routing_in r Hr). apply before_trans with (r_comp r); [exact S1|now apply x_before|now apply x_before].
    - apply x_before; [right; exact K|now apply x_atom_in|now apply x_atom_in].
  Qed.
  Lemma x_order : exists order, without_routings root fl sched order /\ dependency_order root (feeds o conns params) order.
  Proof using CF F NA HD G LI S1 S2 S3.
    destruct (order_exists root fl x_plain sched x_known) as (order & O). exists order. split; [exact O|]. destruct O as [O1 O2].
    set (f := fun a => negb (existsb (fun r => r_comp r =? a) RS)) in *.
    assert (FA : forall x, atomic_in root x -> f (comp_id x) = true) by (intros x Hx; unfold f; now rewrite (inserted_false root fl x_plain x Hx)).
    assert (IO : forall x, atomic_in root x -> In x order).
    { intros x Hx. assert (K : In (comp_id x) (map comp_id order)) by (rewrite O2; apply filter_In; split; [now apply x_atom_in|now apply FA]).
      apply in_map_iff in K as (z & E & Hz). now rewrite <- (x_same z x (O1 z Hz) Hx E). }
    split; [rewrite O2; apply NoDup_filter, S1|]. split; [intros x; split; [apply O1|apply IO]|].
    intros l1 x l2 E z Hz K. assert (Hx : atomic_in root x) by (apply O1; rewrite E; apply in_or_app; right; now left).
    pose proof (before_filter sched f _ _ (x_dep x z Hx Hz K) (FA z Hz) (FA x Hx)) as Bf. rewrite <- O2 in Bf.
    assert (ND : NoDup (map comp_id order)) by (rewrite O2; apply NoDup_filter, S1).
    assert (Em : map comp_id order = map comp_id l1 ++ comp_id x :: map comp_id l2) by (rewrite E, map_app; reflexivity).
    pose proof (before_in_front _ _ _ _ _ ND Bf Em) as Hi. apply in_map_iff in Hi as (z' & Ez & Hz').
    rewrite <- (x_same z' z); [exact Hz'|apply O1; rewrite E; apply in_or_app; now left|exact Hz|exact Ez].
  Qed.

  (** *** One block *)
  Context {W B : Type}.
  Variable behaviour : nat -> W -> list (list B) -> res (W * list (list B)).
  Variable pool_base : nat.
  Hypothesis WB : well_behaved o type_size block root behaviour.
  Hypothesis AL : forall r, In r RS -> alignment <> 0 /\ Nat.divide (cVectorAlignmentSamples * type_size (r_type r)) alignment
    /\ Nat.divide (cVectorAlignmentSamples * type_size (r_type r)) pool_base.
  Notation runs := (run_schedule o type_size block pool_base root fl behaviour).
  Notation cont := (content (B := B) o type_size block fl).

  Lemma x_aligned r : In r RS -> forall c a, send c -> cbytes c = block * type_size (r_type r) -> addr c = Ok a ->
    checkAlignment pool_base (type_size (r_type r)) a cVectorAlignmentSamples = true.
  Proof using GL AL.
    intros Hr c a Hc _ Ha. destruct (AL r Hr) as (A1 & A2 & A3). destruct GL as (K & _). destruct (K c Hc) as (a' & E & _ & A).
    unfold at_ in E. unfold channel_address in Ha. rewrite Ha in E. apply Ok_inj in E. subst a'. unfold checkAlignment. change cVectorAlignmentSamples with 16 in *.
    cbn iota. apply Nat.eqb_eq. assert (Dv : Nat.divide (16 * type_size (r_type r)) (pool_base + a)).
    { apply Nat.divide_add_r; [exact A3|]. apply Nat.divide_trans with alignment; [exact A2|now apply A]. }
    destruct Dv as (q & ->). destruct (Nat.eq_dec (16 * type_size (r_type r)) 0) as [->|Ne]; [now rewrite Nat.mul_0_r|now apply Nat.mod_mul].
  Qed.
  Lemma x_map_bytes x d : atomic_in root x -> map cbytes (port_channels_of o d (comp_audio x)) = map (fun c => block * type_size (a_type o (fst c))) (port_channels_of o d (comp_audio x)).
  Proof using NA G.
    intros [Hx Cx]. apply map_ext_in. intros c Hc. apply channel_of in Hc as (Pc & _). apply x_bytes. now apply inside_audio with x.
  Qed.
  Lemma x_shaped x w ins w' outs : atomic_in root x -> map (@length B) ins = map cbytes (inputs o x) ->
    behaviour (comp_id x) w ins = Ok (w', outs) -> map (@length B) outs = map cbytes (outputs o x).
  Proof using NA G WB.
    intros Hx Hi E. unfold inputs, outputs in *. rewrite (x_map_bytes x Input Hx) in Hi. rewrite (x_map_bytes x Output Hx). now apply (WB x w ins w' outs).
  Qed.
  Definition x_executed := executed o type_size block pool_base root fl behaviour send owner edge conns x_own x_disj
    (fun x => component_ports_atom root x (c_addresses _ _ _ _ CF)) x_plain
    (fun r r' H H' E => routing_same o alloc root conns y D NA G r r' H H' (or_intror (or_intror E))) x_same x_nodup x_outputs
    (fun x d H K => c_inputs _ _ _ _ CF x d H K) x_delivered x_inputs x_out x_in x_aligned x_shaped.
  Definition x_failed := failed o type_size block pool_base root fl behaviour send owner edge conns x_own x_disj
    (fun x => component_ports_atom root x (c_addresses _ _ _ _ CF)) x_plain
    (fun r r' H H' E => routing_same o alloc root conns y D NA G r r' H H' (or_intror (or_intror E))) x_same x_nodup x_outputs
    (fun x d H K => c_inputs _ _ _ _ CF x d H K) x_delivered x_inputs x_out x_in x_aligned x_shaped.
  Definition x_frame := runs_frame o type_size block pool_base root fl behaviour send owner edge conns x_own x_disj
    (fun x => component_ports_atom root x (c_addresses _ _ _ _ CF)) x_plain
    (fun r r' H H' E => routing_same o alloc root conns y D NA G r r' H H' (or_intror (or_intror E))) x_nodup x_outputs
    (fun x d H K => c_inputs _ _ _ _ CF x d H K) x_delivered x_out x_in x_aligned x_shaped.
  Definition x_routed := routed o type_size block pool_base root fl behaviour send owner edge conns x_own x_disj
    (fun x => component_ports_atom root x (c_addresses _ _ _ _ CF)) x_plain
    (fun r r' H H' E => routing_same o alloc root conns y D NA G r r' H H' (or_intror (or_intror E))) x_nodup x_outputs
    (fun x d H K => c_inputs _ _ _ _ CF x d H K) x_delivered x_out x_in x_aligned x_shaped.

  Hypothesis XF : forall p, In p (comp_audio root) -> a_type o p = floatId.

  Lemma x_external c d : In c (external o root d) -> In (fst c) (comp_audio root) /\ a_dir o (fst c) = d /\ snd c < a_width o (fst c).
  Proof. apply channel_of. Qed.
  Lemma x_external_bytes c d : In c (external o root d) -> cbytes c = block * type_size floatId.
  Proof using NA G XF. intros H. apply x_external in H as (P & _). rewrite x_bytes by now apply own_audio. now rewrite XF. Qed.
  Lemma x_external_send c : In c (external o root Input) -> send c /\ ~ In (owner (fst c)) sched.
  Proof using CF NA G S2.
    intros H. apply x_external in H as (P & Dr & Wd). split.
    - left. split; [|exact Wd]. pose proof (c_external _ _ _ _ CF (fst c) P) as K. rewrite Dr in K. apply K. lia.
    - intros K. apply S2 in K as (x & Hx & Cx & Ex). rewrite (owner_plain o alloc root conns y D NA G) in Ex by now apply own_audio.
      destruct (c_describes _ _ _ _ CF) as (D1 & _). rewrite (D1 root) in Ex; [|constructor|exact P].
      destruct (describes_extended o alloc root conns params y D CF NA G) as (_ & _ & D3 & _). pose proof (D3 x Hx) as K.
      rewrite Ex, <- (proj1 (extended_root o root conns params y CF)), (D3 root') in K by constructor.
      destruct (extended_root o root conns params y CF) as (_ & _ & _ & E4). congruence.
  Qed.
  Lemma x_external_nodup d : NoDup (external o root d).
  Proof using CF.
    apply channels_nodup. apply NoDup_filter. apply (comp_audio_nodup root); [apply (c_ports _ _ _ _ CF)|constructor].
  Qed.
  Lemma x_external_at : Forall2 (fun c a => addr c = Ok a) (external o root Input) (y_capture y)
    /\ Forall2 (fun c a => addr c = Ok a) (external o root Output) (y_playback y).
  Proof using GL.
    destruct GL as (_ & _ & _ & K1 & K2). split.
    - assert (E : external o root Input = channels o (filter (fun p => is_input (a_dir o p)) (comp_audio root))).
      { unfold external, port_channels_of, channels. f_equal. apply filter_ext. intros p. now destruct (a_dir o p). }
      rewrite E. exact K1.
    - exact K2.
  Qed.
  Lemma x_captured pos (src : nat * nat -> list B) m : (forall p, length (src p) = type_size floatId) ->
    captured o block root pos src (cont (copy_in block fl pos src m)).
  Proof using CF NA GL G S2 XF.
    intros HL n c Hn. destruct x_external_at as [XA _].
    destruct (copy_in_all o type_size block fl send x_disj (fun ch => flat_map (fun i => src (pos ch i)) (seq 0 block)) (external o root Input) (y_capture y) 0 m XA (x_external_nodup Input)) as [K _].
    - intros z Hz. now apply x_external_send.
    - intros k z Hz. rewrite (data_length type_size) by exact HL. symmetry. apply x_external_bytes with Input. now apply nth_error_In with k.
    - apply (K n c Hn).
  Qed.
  Lemma x_block order failure cpos ppos (capture before : nat * nat -> list B) w m :
    without_routings root fl sched order ->
    (forall p, length (capture p) = type_size floatId) ->
    positions_differ block ppos (length (external o root Output)) ->
    block_outcome o block root (fun s d => In (s, d) conns) (type_size floatId) behaviour order failure cpos ppos capture before w
      (process_with o type_size block pool_base root fl behaviour failure cpos ppos capture before (w, m)).
  Proof using CF F NA GL HD G LI S1 S2 S3 WB AL XF.
    intros O HL PD. unfold process_with, executeComponents. cbn [fst snd]. set (m0 := copy_in block fl cpos capture m).
    assert (Cap : captured o block root cpos capture (cont m0)) by now apply x_captured.
    assert (Keep : forall m1, (forall c, send c -> ~ In (owner (fst c)) sched -> cont m1 c = cont m0 c) -> captured o block root cpos capture (cont m1)).
    { intros m1 H n c Hn. pose proof (nth_error_In _ _ Hn) as Hi. apply x_external_send in Hi as [H1 H2]. rewrite H by assumption. now apply Cap. }
    destruct (runs sched (w, m0)) as [[w' m']|e|] eqn:E; cbn [bind block_outcome snd].
    - exists (cont m'). split; [now apply (x_executed sched w m0 w' m' x_ordered x_closed E)|]. split.
      { apply Keep. intros c Hc Nc. apply (x_frame sched x_known w m0 w' m' E c Hc Nc). }
      destruct x_external_at as [_ XA]. assert (Len : length (external o root Output) = length (y_playback y)) by (clear - XA; induction XA; cbn; congruence).
      rewrite Len in PD. destruct (copy_out_ok type_size block fl ppos m' before PD) as [C1 C2]. split; [|intros p Hp; apply C2; now rewrite <- Len].
      intros n d Hn. pose proof (nth_error_In _ _ Hn) as Hd. pose proof (x_external d Output Hd) as (Pd & Dd & Wd).
      assert (Rd : receives conns (fst d)) by (pose proof (c_external _ _ _ _ CF (fst d) Pd) as K; rewrite Dd in K; apply K; lia).
      destruct (f_full _ _ F _ _ Rd Wd) as (s & Hs). replace (fst d, snd d) with d in Hs by now destruct d.
      exists (cont m' s). split; [exists s; auto|]. intros i Hi.
      assert (Ed : cont m' s = cont m' d).
      { destruct (x_delivered s d Hs) as (Ss & Bs & [[Ea Ee]|(r & k & j & Hr & K & Fs & Ee & Ea & Eb & Ee')]).
        - unfold content. now rewrite <- Ea, Bs.
        - rewrite <- (x_routed sched w m0 w' m' r x_ordered E Hr (x_routing_in r Hr) k j s K Fs Ee). unfold content. now rewrite Ea, Eb. }
      destruct (nth_error (y_playback y) n) as [a|] eqn:Ea.
      2:{ exfalso. apply nth_error_None in Ea. assert (n < length (external o root Output)) by (apply nth_error_Some; congruence). lia. }
      rewrite (C1 n a i Ea Hi), Ed. assert (Ad : addr d = Ok a).
      { clear - XA Hn Ea. revert n Hn Ea. induction XA as [|c b cs l H _ IH]; intros [|n] Hn Ea; try discriminate; cbn in *; [congruence|eauto]. }
      unfold content. rewrite Ad, (x_external_bytes d Output Hd). unfold slice. apply fetch_sub. nia.
    - split; [reflexivity|]. destruct (x_failed sched w m0 x_ordered x_prefix) with (order := order) as (m1 & K1 & K2); [rewrite E; discriminate|exact O|].
      exists (cont m1). split; [now apply Keep|]. destruct K2 as (l1 & x & l2 & w1 & ins & H1 & H2 & H3 & H4). exists l1, x, l2, w1, ins.
      split; [exact H1|]. split; [exact H2|]. split; [exact H3|]. rewrite E in H4. destruct (behaviour (comp_id x) w1 ins) as [|e'|]; [destruct H4| |destruct H4]. eauto.
    - destruct (x_failed sched w m0 x_ordered x_prefix) with (order := order) as (m1 & K1 & K2); [rewrite E; discriminate|exact O|].
      exists (cont m1). split; [now apply Keep|]. destruct K2 as (l1 & x & l2 & w1 & ins & H1 & H2 & H3 & H4). exists l1, x, l2, w1, ins.
      split; [exact H1|]. split; [exact H2|]. split; [exact H3|]. rewrite E in H4. destruct (behaviour (comp_id x) w1 ins) as [|e'|]; [destruct H4|destruct H4|reflexivity].
  Qed.
End Block.
