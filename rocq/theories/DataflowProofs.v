(** Execution of a schedule on the audio pool (proofs). *)
From Verif Require Import Base FlowModel FlowProofs FlowTree SchedModel LayoutModel DataflowModel DataflowSpec.
Local Open Scope res_scope.

(** *** Memory *)
Section Memory.
  Context {B : Type}.
  Lemma fetch_length (m : memory B) a n : length (fetch m a n) = n.
  Proof. unfold fetch. now rewrite map_length, seq_length. Qed.
  Lemma fetch_ext (m m' : memory B) a n : (forall x, a <= x < a + n -> m x = m' x) -> fetch m a n = fetch m' a n.
  Proof. intros H. unfold fetch. apply map_ext_in. intros x Hx. apply H. apply in_seq in Hx. lia. Qed.
  Lemma fetch_store_other (m : memory B) a l b n : a + length l <= b \/ b + n <= a -> fetch (store m a l) b n = fetch m b n.
  Proof.
    intros H. apply fetch_ext. intros x Hx. unfold store. destruct (Nat.ltb_spec x a); [reflexivity|].
    rewrite nth_overflow; [reflexivity|lia].
  Qed.
  Lemma fetch_store_same (m : memory B) a l : fetch (store m a l) a (length l) = l.
  Proof.
    unfold fetch, store. revert a m. induction l as [|x l IH]; intros a m; [reflexivity|]. cbn [length seq map].
    rewrite Nat.ltb_irrefl, Nat.sub_diag. cbn [nth]. f_equal.
    etransitivity; [|apply (IH (S a) (fun z => if z <? S a then m z else m z))]. apply map_ext_in. intros z Hz. apply in_seq in Hz.
    destruct (Nat.ltb_spec z a); [lia|]. destruct (Nat.ltb_spec z (S a)); [lia|].
    replace (z - a) with (S (z - S a)) by lia. reflexivity.
  Qed.
  Lemma fetch_sub (m : memory B) a n i k : i + k <= n -> fetch m (a + i) k = firstn k (skipn i (fetch m a n)).
  Proof.
    intros H. unfold fetch. rewrite skipn_map, firstn_map. f_equal.
    replace n with (i + (k + (n - i - k))) by lia. rewrite !seq_app, skipn_app, skipn_all2 by (rewrite seq_length; lia).
    rewrite seq_length. cbn [app]. replace (i - i) with 0 by lia. cbn [skipn]. rewrite firstn_app, firstn_all2 by (rewrite seq_length; lia).
    rewrite seq_length, Nat.sub_diag, firstn_O, app_nil_r. reflexivity.
  Qed.
End Memory.

Lemma combine_seq_nth {A} (l : list A) : forall n k x, In (k, x) (combine (seq n (length l)) l) <-> exists j, k = n + j /\ nth_error l j = Some x.
Proof.
  induction l as [|y l IH]; intros n k x; cbn [length seq combine In].
  - split; [intros []|]. intros ([|j] & _ & H); discriminate.
  - rewrite IH. split.
    + intros [E|(j & -> & H)]; [injection E as -> ->; exists 0; split; [lia|reflexivity]|]. exists (S j). split; [lia|exact H].
    + intros ([|j] & -> & H); [left; cbn in H; injection H as ->; f_equal; lia|]. right. exists j. split; [lia|exact H].
Qed.

Section Exec.
  Context {W B : Type}.
  Variables (o : objects) (type_size : nat -> nat) (block pool_base : nat) (root : comp) (fl : flow).
  Variable behaviour : nat -> W -> list (list B) -> res (W * list (list B)).
  Notation addr := (channel_address o type_size fl).
  Notation bytes := (channel_bytes o type_size block fl).
  Notation RS := (y_routings (f_layout fl)).
  Variables (send : channel -> Prop) (owner : nat -> nat) (edge : nat -> nat -> Prop) (conns : amap).

  (** content of a channel *)
  Definition content (m : memory B) (c : channel) : list B :=
    match addr c with Ok a => fetch m a (bytes c) | _ => [] end.

  Hypothesis own : forall c, send c -> exists a, addr c = Ok a.
  Hypothesis disj : forall c c', send c -> send c' -> c <> c' ->
    exists a a', addr c = Ok a /\ addr c' = Ok a' /\ (a + bytes c <= a' \/ a' + bytes c' <= a).

  Lemma content_store m c a d : send c -> addr c = Ok a -> length d = bytes c ->
    content (store m a d) c = d /\ forall c', send c' -> c' <> c -> content (store m a d) c' = content m c'.
  Proof using disj.
    intros Hc Ha Hl. split.
    - unfold content. rewrite Ha, <- Hl. apply fetch_store_same.
    - intros c' Hc' Ne. destruct (disj c' c Hc' Hc Ne) as (a' & a2 & E1 & E2 & L). rewrite Ha in E2. apply Ok_inj in E2. subst a2.
      unfold content. rewrite E1. apply fetch_store_other. rewrite Hl. lia.
  Qed.
  Lemma write_ok : forall cs data m, NoDup cs -> (forall c, In c cs -> send c) -> map (@length B) data = map bytes cs ->
    exists m', write_channels o type_size fl m cs data = Ok m' /\ map (content m') cs = data
      /\ forall c, send c -> ~ In c cs -> content m' c = content m c.
  Proof using own disj.
    induction cs as [|c cs IH]; intros data m ND Hs Hl.
    - destruct data; [|discriminate]. exists m. cbn. auto.
    - destruct data as [|d data]; [discriminate|]. cbn [map] in Hl. injection Hl as Hd Hl. apply NoDup_cons_iff in ND as [Ni ND].
      destruct (own c) as (a & Ha); [apply Hs; now left|]. cbn [write_channels]. rewrite Ha. cbn [bind].
      destruct (content_store m c a d) as [S1 S2]; [apply Hs; now left|exact Ha|exact Hd|].
      destruct (IH data (store m a d) ND) as (m' & E & M1 & M2); [intros x Hx; apply Hs; now right|exact Hl|].
      exists m'. split; [exact E|]. split.
      + cbn [map]. rewrite M1. f_equal. rewrite M2; [exact S1|apply Hs; now left|exact Ni].
      + intros x Hx Nx. rewrite M2; [|exact Hx|intros K; apply Nx; now right]. apply S2; [exact Hx|]. intros ->. apply Nx. now left.
  Qed.
  Lemma read_ok m cs : (forall c, In c cs -> exists a, addr c = Ok a) ->
    read_channels o type_size block fl m cs = Ok (map (content m) cs).
  Proof.
    induction cs as [|c cs IH]; intros H; [reflexivity|]. cbn [read_channels map]. destruct (H c (or_introl eq_refl)) as (a & Ha).
    unfold content at 1. rewrite Ha. cbn [bind]. rewrite IH by (intros x Hx; apply H; now right). reflexivity.
  Qed.

  (** *** Routing components *)
  (** [s] is the send channel whose buffer is input [i] of routing component [r] *)
  Definition feeds_input (r : routing) (i : nat) (s : channel) : Prop :=
    send s /\ fst s <> r_out r /\ addr s = addr (r_in r, i) /\ bytes s = block * type_size (r_type r).
  Lemma route_ok r m :
    (forall k i, nth_error (r_indices r) k = Some i -> send (r_out r, k) /\ exists s, feeds_input r i s) ->
    (forall k, bytes (r_out r, k) = block * type_size (r_type r)) ->
    (forall c a, send c -> bytes c = block * type_size (r_type r) -> addr c = Ok a -> checkAlignment pool_base (type_size (r_type r)) a cVectorAlignmentSamples = true) ->
    exists m', route o type_size block pool_base fl r m = Ok m'
      /\ (forall k i s, nth_error (r_indices r) k = Some i -> feeds_input r i s -> content m' (r_out r, k) = content m s)
      /\ forall c, send c -> fst c <> r_out r -> content m' c = content m c.
  Proof using own disj.
    intros HI HB HA. unfold route.
    assert (Gn : forall l n m0, (forall k i, nth_error l k = Some i -> send (r_out r, n + k) /\ exists s, feeds_input r i s) ->
      exists m', fold_left (route_channel o type_size block pool_base fl r) (combine (seq n (length l)) l) (Ok m0) = Ok m'
        /\ (forall k i s, nth_error l k = Some i -> feeds_input r i s -> content m' (r_out r, n + k) = content m0 s)
        /\ (forall c, send c -> fst c <> r_out r -> content m' c = content m0 c)
        /\ (forall j, j < n -> send (r_out r, j) -> content m' (r_out r, j) = content m0 (r_out r, j))).
    { induction l as [|i l IH]; intros n m0 H.
      - exists m0. cbn. split; [reflexivity|]. split; [|auto]. intros [|k] ? ? K; discriminate.
      - cbn [length seq combine fold_left]. destruct (H 0 i eq_refl) as (So & s & Hs). rewrite Nat.add_0_r in So.
        destruct (own _ So) as (dest & Ed). destruct Hs as (Ss & Ns & Es & Bs). destruct (own _ Ss) as (src & Esrc).
        unfold route_channel at 2. cbn [bind fst snd]. rewrite <- Es, Esrc. cbn [bind]. rewrite Ed. cbn [bind].
        rewrite (HA s src Ss Bs Esrc), (HA (r_out r, n) dest So (HB n) Ed). cbn [andb].
        set (d := fetch m0 src (block * type_size (r_type r))).
        destruct (content_store m0 (r_out r, n) dest d So Ed) as [S1 S2]; [unfold d; rewrite fetch_length; now rewrite HB|].
        assert (Dv : forall s', feeds_input r i s' -> d = content m0 s').
        { intros s' (_ & _ & Es' & Bs'). unfold content. rewrite Es', <- Es, Esrc, Bs'. reflexivity. }
        destruct (IH (S n) (store m0 dest d)) as (m' & E & M1 & M2 & M3).
        { intros k j K. destruct (H (S k) j K) as (A1 & A2). replace (S n + k) with (n + S k) by lia. auto. }
        exists m'. split; [exact E|]. split; [|split].
        + intros [|k] j s' K Hs'.
          * cbn in K. injection K as <-. rewrite Nat.add_0_r. rewrite (M3 n); [|lia|exact So]. rewrite S1. now apply Dv.
          * replace (n + S k) with (S n + k) by lia. rewrite (M1 k j s' K Hs'). destruct Hs' as (A1 & A2 & _). apply S2; [exact A1|]. intros ->. now apply A2.
        + intros c Hc Nc. rewrite (M2 c Hc Nc). apply S2; [exact Hc|]. intros ->. now apply Nc.
        + intros j Lj Hj. rewrite (M3 j); [|lia|exact Hj]. apply S2; [exact Hj|]. intros K. injection K as ->. lia. }
    destruct (Gn (r_indices r) 0 m) as (m' & E & M1 & M2 & _); [exact HI|]. exists m'. split; [exact E|]. split; [|exact M2].
    intros k i s K Hs. apply (M1 k i s K Hs).
  Qed.

  (** *** The schedule *)
  Notation atom_of := (atomic_in root).
  Hypothesis lookup : forall x, atom_of x -> component_ports root (comp_id x) = comp_audio x.
  Hypothesis plain : forall x r, atom_of x -> In r RS -> r_comp r <> comp_id x.
  Hypothesis inserted_once : forall r r', In r RS -> In r' RS -> r_comp r = r_comp r' -> r = r'.
  Hypothesis atom_once : forall x x', atom_of x -> atom_of x' -> comp_id x = comp_id x' -> x = x'.
  Hypothesis out_nodup : forall x, atom_of x -> NoDup (outputs o x).
  Hypothesis out_send : forall x c, atom_of x -> In c (outputs o x) -> send c /\ owner (fst c) = comp_id x.
  Hypothesis in_driven : forall x d, atom_of x -> In d (inputs o x) -> exists s, In (s, d) conns.
  Hypothesis delivered : forall s d, In (s, d) conns -> send s /\ bytes s = bytes d
    /\ ((addr s = addr d /\ edge (owner (fst s)) (owner (fst d)))
        \/ exists r k i, In r RS /\ nth_error (r_indices r) k = Some i /\ feeds_input r i s
             /\ edge (owner (fst s)) (r_comp r) /\ addr (r_out r, k) = addr d /\ bytes (r_out r, k) = bytes d /\ edge (r_comp r) (owner (fst d))).
  Hypothesis in_owner : forall x d, atom_of x -> In d (inputs o x) -> owner (fst d) = comp_id x.
  Hypothesis route_out : forall r k, In r RS -> owner (r_out r) = r_comp r /\ bytes (r_out r, k) = block * type_size (r_type r)
    /\ (k < length (r_indices r) -> send (r_out r, k)).
  Hypothesis route_in : forall r k i, In r RS -> nth_error (r_indices r) k = Some i ->
    exists s, feeds_input r i s /\ edge (owner (fst s)) (r_comp r).
  Hypothesis aligned : forall r, In r RS -> forall c a, send c -> bytes c = block * type_size (r_type r) -> addr c = Ok a ->
    checkAlignment pool_base (type_size (r_type r)) a cVectorAlignmentSamples = true.
  (** the shape of what the components compute *)
  Hypothesis shaped : forall x w ins w' outs, atom_of x -> map (@length B) ins = map bytes (inputs o x) ->
    behaviour (comp_id x) w ins = Ok (w', outs) -> map (@length B) outs = map bytes (outputs o x).
  Notation run := (run_component o type_size block pool_base root fl behaviour).
  Notation runs := (run_schedule o type_size block pool_base root fl behaviour).

  Definition known (a : nat) : Prop := (exists x, atom_of x /\ comp_id x = a) \/ exists r, In r RS /\ r_comp r = a.

  Lemma find_routing r : In r RS -> find (fun q => r_comp q =? r_comp r) RS = Some r.
  Proof using inserted_once.
    intros H. destruct (find _ RS) as [q|] eqn:E.
    - apply find_some in E as [E K]. apply Nat.eqb_eq in K. now rewrite (inserted_once q r E H K).
    - exfalso. apply find_none with (x := r) in E; [|exact H]. now rewrite Nat.eqb_refl in E.
  Qed.
  Lemma find_atom x : atom_of x -> find (fun q => r_comp q =? comp_id x) RS = None.
  Proof using plain.
    intros H. destruct (find _ RS) as [q|] eqn:E; [|reflexivity]. exfalso. apply find_some in E as [E K]. apply Nat.eqb_eq in K.
    now apply (plain x q).
  Qed.
  Lemma filter_in (x : comp) : port_channels o (filter (fun p => is_input (a_dir o p)) (comp_audio x)) = inputs o x.
  Proof.
    unfold inputs, port_channels_of, port_channels. f_equal. apply filter_ext. intros p. now destruct (a_dir o p).
  Qed.
  Lemma filter_out (x : comp) : port_channels o (filter (fun p => negb (is_input (a_dir o p))) (comp_audio x)) = outputs o x.
  Proof.
    reflexivity.
  Qed.
  Lemma addr_some s d : In (s, d) conns -> exists a, addr d = Ok a.
  Proof using own delivered route_out.
    intros H. destruct (delivered s d H) as (Hs & _ & [[E _]|(r & k & i & Hr & K & _ & _ & E & _)]); rewrite <- E.
    - now apply own.
    - apply own. apply (route_out r k Hr). apply nth_error_Some. congruence.
  Qed.

  (** one component *)
  Lemma run_atom x w m : atom_of x ->
    let ins := map (content m) (inputs o x) in
    map (@length B) ins = map bytes (inputs o x)
    /\ match behaviour (comp_id x) w ins with
       | Ok (w', outs) => exists m', run (w, m) (comp_id x) = Ok (w', m') /\ map (content m') (outputs o x) = outs
           /\ forall c, send c -> owner (fst c) <> comp_id x -> content m' c = content m c
       | Throw e => run (w, m) (comp_id x) = Throw e
       | UB => run (w, m) (comp_id x) = UB
       end.
  Proof using own disj lookup plain out_nodup out_send in_driven delivered route_out shaped.
    intros Hx ins.
    assert (A : forall c, In c (inputs o x) -> exists a, addr c = Ok a) by (intros c Hc; destruct (in_driven x c Hx Hc) as (s & Hs); now apply addr_some in Hs).
    assert (L : map (@length B) ins = map bytes (inputs o x)).
    { unfold ins. rewrite map_map. apply map_ext_in. intros c Hc. destruct (A c Hc) as (a & Ea). unfold content. rewrite Ea. apply fetch_length. }
    split; [exact L|].
    assert (E : run (w, m) (comp_id x) = (result <- behaviour (comp_id x) w ins ;; m' <- write_channels o type_size fl m (outputs o x) (snd result) ;; Ok (fst result, m'))).
    { unfold run_component. rewrite (find_atom x Hx), (lookup x Hx), filter_in, filter_out, (read_ok m _ A). reflexivity. }
    rewrite E. destruct (behaviour (comp_id x) w ins) as [[w' outs]|e|] eqn:EB; [|reflexivity|reflexivity]. cbn [bind fst snd].
    destruct (write_ok (outputs o x) outs m (out_nodup x Hx)) as (m' & E' & M1 & M2); [intros c Hc; now apply (out_send x)|now apply (shaped x w ins w')|].
    exists m'. rewrite E'. cbn [bind]. split; [reflexivity|]. split; [exact M1|]. intros c Hc Nc. apply M2; [exact Hc|]. intros K. apply Nc. now apply (out_send x).
  Qed.
  Lemma run_routing r w m : In r RS -> exists m', run (w, m) (r_comp r) = Ok (w, m')
    /\ (forall k i s, nth_error (r_indices r) k = Some i -> feeds_input r i s -> content m' (r_out r, k) = content m s)
    /\ forall c, send c -> owner (fst c) <> r_comp r -> content m' c = content m c.
  Proof using own disj inserted_once route_out route_in aligned.
    intros Hr. unfold run_component. rewrite (find_routing r Hr).
    destruct (route_ok r m) as (m' & E & M1 & M2).
    - intros k i K. split; [apply (route_out r k Hr), nth_error_Some; congruence|]. destruct (route_in r k i Hr K) as (s & Hs & _). eauto.
    - intros k. now apply route_out.
    - now apply aligned.
    - exists m'. rewrite E. cbn [bind]. split; [reflexivity|]. split; [exact M1|]. intros c Hc Nc. apply M2; [exact Hc|].
      intros K. apply Nc. rewrite K. now apply (route_out r 0).
  Qed.
  Lemma run_frame w m a w' m' : known a -> run (w, m) a = Ok (w', m') -> forall c, send c -> owner (fst c) <> a -> content m' c = content m c.
  Proof using own disj lookup plain inserted_once out_nodup out_send in_driven delivered route_out route_in aligned shaped.
    intros [(x & Hx & <-)|(r & Hr & <-)] E.
    - destruct (run_atom x w m Hx) as (_ & K). destruct (behaviour _ w _) as [[w1 outs]|e|]; [|congruence|congruence].
      destruct K as (m1 & E1 & _ & M). rewrite E in E1. apply Ok_inj in E1. injection E1 as <- <-. exact M.
    - destruct (run_routing r w m Hr) as (m1 & E1 & _ & M). rewrite E in E1. apply Ok_inj in E1. injection E1 as <- <-. exact M.
  Qed.

  Lemma runs_nil st : runs [] st = Ok st.
  Proof. reflexivity. Qed.
  Lemma runs_stuck l r : (forall st, r <> Ok st) -> fold_left (fun r c => st <- r ;; run st c) l r = r.
  Proof. induction l as [|c l IH]; intros H; [reflexivity|]. cbn [fold_left]. destruct r as [st|e|]; [now destruct (H st)|apply IH; discriminate|apply IH; discriminate]. Qed.
  Lemma runs_cons a l st : runs (a :: l) st = (st' <- run st a ;; runs l st').
  Proof.
    unfold run_schedule. cbn [fold_left bind]. destruct (run st a) as [st'|e|] eqn:E; cbn [bind]; [reflexivity| |]; apply runs_stuck; discriminate.
  Qed.
  Lemma runs_app l1 l2 st : runs (l1 ++ l2) st = (st' <- runs l1 st ;; runs l2 st').
  Proof.
    revert st. induction l1 as [|a l1 IH]; intros st; [reflexivity|]. cbn [app]. rewrite !runs_cons.
    destruct (run st a) as [st'|e|]; cbn [bind]; [apply IH|reflexivity|reflexivity].
  Qed.
  Lemma runs_frame l : (forall a, In a l -> known a) -> forall w m w' m', runs l (w, m) = Ok (w', m') ->
    forall c, send c -> ~ In (owner (fst c)) l -> content m' c = content m c.
  Proof using own disj lookup plain inserted_once out_nodup out_send in_driven delivered route_out route_in aligned shaped.
    induction l as [|a l IH]; intros Hk w m w' m' E c Hc Nc.
    - rewrite runs_nil in E. apply Ok_inj in E. now injection E as <- <-.
    - rewrite runs_cons in E. destruct (run (w, m) a) as [[w1 m1]|e|] eqn:E1; [|discriminate|discriminate]. cbn [bind] in E.
      rewrite (IH (fun b Hb => Hk b (or_intror Hb)) w1 m1 w' m' E c Hc); [|intros K; apply Nc; now right].
      apply (run_frame w m a w1 m1); [apply Hk; now left|exact E1|exact Hc|]. intros K. apply Nc. left. now symmetry.
  Qed.

  (** a list of components in dependency order *)
  Definition ordered (sched : list nat) : Prop :=
    (forall a, In a sched -> known a)
    /\ forall l1 a l2, sched = l1 ++ a :: l2 -> (forall b, edge b a -> ~ In b (a :: l2)) /\ ~ In a l2.
  Lemma ordered_prefix l1 l2 : ordered (l1 ++ l2) -> ordered l1.
  Proof.
    intros [H1 H2]. split; [intros a Ha; apply H1, in_or_app; now left|]. intros k1 a k2 ->.
    destruct (H2 k1 a (k2 ++ l2)) as [A1 A2]; [now rewrite <- app_assoc|]. split.
    - intros b Hb K. apply (A1 b Hb). cbn [In] in *. rewrite in_app_iff. tauto.
    - intros K. apply A2. rewrite in_app_iff. tauto.
  Qed.

  (** the sources of [a] keep their content from the start of [a] to the end *)
  Lemma kept l1 a l2 w m w1 m1 w2 m2 : ordered (l1 ++ a :: l2) -> runs l1 (w, m) = Ok (w1, m1) -> runs (a :: l2) (w1, m1) = Ok (w2, m2) ->
    forall s, send s -> edge (owner (fst s)) a -> content m2 s = content m1 s.
  Proof using own disj lookup plain inserted_once out_nodup out_send in_driven delivered route_out route_in aligned shaped.
    intros [O1 O2] _ E s Hs He. apply (runs_frame (a :: l2)) with w1 w2; [intros b Hb; apply O1, in_or_app; now right|exact E|exact Hs|].
    now apply (O2 l1 a l2).
  Qed.
  (** routing components copy *)
  Lemma routed sched w m w' m' r : ordered sched -> runs sched (w, m) = Ok (w', m') -> In r RS -> In (r_comp r) sched ->
    forall k i s, nth_error (r_indices r) k = Some i -> feeds_input r i s -> edge (owner (fst s)) (r_comp r) ->
    content m' (r_out r, k) = content m' s.
  Proof using own disj lookup plain inserted_once out_nodup out_send in_driven delivered route_out route_in aligned shaped.
    intros O E Hr Hi k i s K Fs Es. apply in_split in Hi as (l1 & l2 & ->). pose proof O as [O1 O2].
    rewrite runs_app in E. destruct (runs l1 (w, m)) as [[w1 m1]|e|] eqn:E1; [|discriminate|discriminate]. cbn [bind] in E.
    pose proof (kept l1 (r_comp r) l2 w m w1 m1 w' m' O E1 E s (proj1 Fs) Es) as Ks.
    rewrite runs_cons in E. destruct (run_routing r w1 m1 Hr) as (m2 & E2 & M1 & _). rewrite E2 in E. cbn [bind] in E.
    rewrite Ks, <- (M1 k i s K Fs).
    apply (runs_frame l2) with w1 w'; [intros b Hb; apply O1, in_or_app; right; now right|exact E| |].
    - apply (route_out r k Hr), nth_error_Some. congruence.
    - cbn [fst]. destruct (route_out r k Hr) as [-> _]. now apply (O2 l1 (r_comp r) l2).
  Qed.
  (** what a component reads *)
  Lemma arrive sched w m w' m' : ordered sched -> runs sched (w, m) = Ok (w', m') ->
    (forall b a, edge b a -> (exists x, atom_of x /\ comp_id x = a) -> (exists r, In r RS /\ r_comp r = b) -> In a sched -> In b sched) ->
    forall l1 x l2 w1 m1, sched = l1 ++ comp_id x :: l2 -> atom_of x -> runs l1 (w, m) = Ok (w1, m1) ->
    Forall2 (arrives (fun s d => In (s, d) conns) (content m')) (inputs o x) (map (content m1) (inputs o x)).
  Proof using own disj lookup plain inserted_once out_nodup out_send in_driven delivered in_owner route_out route_in aligned shaped.
    intros O E closed l1 x l2 w1 m1 Es Hx E1. subst sched.
    assert (A : forall d, In d (inputs o x) -> arrives (fun s d => In (s, d) conns) (content m') d (content m1 d)).
    { intros d Hd. destruct (in_driven x d Hx Hd) as (s & Hs). exists s. split; [exact Hs|].
      pose proof E as E'. rewrite runs_app, E1 in E'. cbn [bind] in E'.
      destruct (delivered s d Hs) as (Ss & Bs & [[Ea Ee]|(r & k & i & Hr & K & Fs & Ee & Ea & Eb & Ee')]).
      - rewrite (in_owner x d Hx Hd) in Ee. rewrite (kept l1 (comp_id x) l2 w m w1 m1 w' m' O E1 E' s Ss Ee).
        unfold content. now rewrite <- Ea, Bs.
      - rewrite (in_owner x d Hx Hd) in Ee'.
        assert (Hrs : In (r_comp r) (l1 ++ comp_id x :: l2)).
        { apply (closed (r_comp r) (comp_id x) Ee'); [now exists x|now exists r|apply in_or_app; right; now left]. }
        rewrite <- (routed _ _ _ _ _ r O E Hr Hrs k i s K Fs Ee).
        rewrite (kept l1 (comp_id x) l2 w m w1 m1 w' m' O E1 E' (r_out r, k)).
        + unfold content. now rewrite Ea, Eb.
        + apply (route_out r k Hr), nth_error_Some. congruence.
        + cbn [fst]. destruct (route_out r k Hr) as [-> _]. exact Ee'. }
    revert A. generalize (inputs o x). clear. induction l as [|d l IH]; intros A; cbn [map]; constructor; [apply A; now left|]. apply IH. intros e He. apply A. now right.
  Qed.

  (** the components of the flow in the order of the schedule *)
  Fixpoint find_comp (xs : list comp) (a : nat) : option comp :=
    match xs with [] => None | x :: xs' => if comp_id x =? a then Some x else find_comp xs' a end.
  Definition without_routings (sched : list nat) (order : list comp) : Prop :=
    (forall x, In x order -> atom_of x)
    /\ map comp_id order = filter (fun a => negb (existsb (fun r => r_comp r =? a) RS)) sched.
  Lemma inserted_true r : In r RS -> existsb (fun q => r_comp q =? r_comp r) RS = true.
  Proof. intros H. apply existsb_exists. exists r. split; [exact H|apply Nat.eqb_refl]. Qed.
  Lemma inserted_false x : atom_of x -> existsb (fun q => r_comp q =? comp_id x) RS = false.
  Proof using plain.
    intros H. destruct (existsb _ RS) eqn:E; [|reflexivity]. exfalso. apply existsb_exists in E as (q & Hq & K). apply Nat.eqb_eq in K. now apply (plain x q).
  Qed.
  Lemma order_exists sched : (forall a, In a sched -> known a) -> exists order, without_routings sched order.
  Proof using plain.
    induction sched as [|a l IH]; intros H; [exists []; split; [intros x []|reflexivity]|].
    destruct IH as (order & O1 & O2); [intros b Hb; apply H; now right|].
    destruct (H a (or_introl eq_refl)) as [(x & Hx & <-)|(r & Hr & <-)].
    - exists (x :: order). split; [intros y [<-|Hy]; auto|]. cbn [map filter]. now rewrite (inserted_false x Hx), O2.
    - exists order. split; [exact O1|]. cbn [filter]. now rewrite (inserted_true r Hr).
  Qed.

  Definition closed (sched : list nat) : Prop :=
    forall b a, edge b a -> (exists x, atom_of x /\ comp_id x = a) -> (exists r, In r RS /\ r_comp r = b) -> In a sched -> In b sched.
  Lemma executed sched w m w' m' : ordered sched -> closed sched -> runs sched (w, m) = Ok (w', m') ->
    forall order, without_routings sched order -> executes o (fun s d => In (s, d) conns) behaviour (content m') w order w'.
  Proof using own disj lookup plain inserted_once atom_once out_nodup out_send in_driven delivered in_owner route_out route_in aligned shaped.
    intros O CL E. pose proof O as [O1 O2].
    assert (Gn : forall l2 l1 w1 m1, sched = l1 ++ l2 -> runs l1 (w, m) = Ok (w1, m1) -> forall order, without_routings l2 order ->
              executes o (fun s d => In (s, d) conns) behaviour (content m') w1 order w').
    { induction l2 as [|a l2 IH]; intros l1 w1 m1 Es E1 order [R1 R2].
      - cbn in R2. destruct order; [|discriminate]. rewrite app_nil_r in Es. subst l1. rewrite E in E1. apply Ok_inj in E1. injection E1 as <- <-. constructor.
      - assert (Es' : sched = (l1 ++ [a]) ++ l2) by (now rewrite <- app_assoc).
        destruct (O1 a) as [(x & Hx & <-)|(r & Hr & <-)]; [rewrite Es; apply in_or_app; right; now left| |].
        + cbn [filter] in R2. rewrite (inserted_false x Hx) in R2. cbn [negb] in R2. destruct order as [|x' order]; [discriminate|]. cbn [map] in R2. injection R2 as R0 R2.
          assert (x' = x) as -> by (apply atom_once; [apply R1; now left|exact Hx|exact R0]).
          assert (Er : exists w2 m2, runs (l1 ++ [comp_id x]) (w, m) = Ok (w2, m2) /\ run (w1, m1) (comp_id x) = Ok (w2, m2)).
          { pose proof E as E'. rewrite Es', runs_app, runs_app, E1 in E'. cbn [bind] in E'. rewrite runs_cons in E'.
            destruct (run (w1, m1) (comp_id x)) as [[w2 m2]|e|] eqn:E2; [|discriminate|discriminate].
            exists w2, m2. split; [|reflexivity]. rewrite runs_app, E1. cbn [bind]. rewrite runs_cons, E2. reflexivity. }
          destruct Er as (w2 & m2 & E2 & E3). destruct (run_atom x w1 m1 Hx) as (_ & K).
          destruct (behaviour (comp_id x) w1 (map (content m1) (inputs o x))) as [[w3 outs]|e|] eqn:EB; [|congruence|congruence].
          destruct K as (m3 & E4 & M1 & _). rewrite E3 in E4. apply Ok_inj in E4. injection E4 as <- <-.
          apply executes_cons with (ins := map (content m1) (inputs o x)) (w1 := w2).
          * apply (arrive sched w m w' m' O E CL l1 x l2 w1 m1 Es Hx E1).
          * rewrite EB. f_equal. f_equal. rewrite <- M1. apply map_ext_in. intros c Hc. symmetry.
            destruct (out_send x c Hx Hc) as [Sc Oc].
            pose proof E as E'. rewrite Es', runs_app, E2 in E'. cbn [bind] in E'.
            apply (runs_frame l2) with w2 w'; [intros b Hb; apply O1; rewrite Es; apply in_or_app; right; now right|exact E'|exact Sc|].
            rewrite Oc. apply (O2 l1 (comp_id x) l2 Es).
          * apply (IH (l1 ++ [comp_id x]) w2 m2 Es' E2). split; [intros y Hy; apply R1; now right|exact R2].
        + cbn [filter] in R2. rewrite (inserted_true r Hr) in R2. cbn [negb] in R2.
          destruct (run_routing r w1 m1 Hr) as (m2 & E2 & _).
          apply (IH (l1 ++ [r_comp r]) w1 m2 Es'); [|split; [exact R1|exact R2]].
          rewrite runs_app, E1. cbn [bind]. rewrite runs_cons, E2. reflexivity. }
    intros order HO. apply (Gn sched [] w m); [reflexivity|reflexivity|exact HO].
  Qed.

  (** a schedule that does not complete *)
  Lemma runs_failure sched st : match runs sched st with Ok _ => True
    | r => exists l1 a l2 st1, sched = l1 ++ a :: l2 /\ runs l1 st = Ok st1 /\ run st1 a = r end.
  Proof.
    revert st. induction sched as [|a l IH]; intros st; [exact I|]. rewrite runs_cons. destruct (run st a) as [st1|e|] eqn:E; cbn [bind].
    - specialize (IH st1). destruct (runs l st1); [exact I| |]; destruct IH as (l1 & b & l2 & st2 & -> & E1 & E2); exists (a :: l1), b, l2, st2;
        (split; [reflexivity|]; split; [rewrite runs_cons, E; exact E1|exact E2]).
    - exists [], a, l, st. auto.
    - exists [], a, l, st. auto.
  Qed.
  Definition same_failure (r : res (W * memory B)) (q : res (W * list (list B))) : Prop :=
    match r, q with Throw e, Throw e' => e = e' | UB, UB => True | _, _ => False end.
  Lemma failed sched w m : ordered sched -> (forall l1 l2, sched = l1 ++ l2 -> forall b a, edge b a -> (exists x, atom_of x /\ comp_id x = a) ->
      (exists r, In r RS /\ r_comp r = b) -> (In a l1 \/ exists k, l2 = a :: k) -> In b l1) ->
    (forall st, runs sched (w, m) <> Ok st) -> forall order, without_routings sched order ->
    exists m1, (forall c, send c -> ~ In (owner (fst c)) sched -> content m1 c = content m c)
      /\ fails o (fun s d => In (s, d) conns) behaviour (content m1) w order (same_failure (runs sched (w, m))).
  Proof using own disj lookup plain inserted_once atom_once out_nodup out_send in_driven delivered in_owner route_out route_in aligned shaped.
    intros O CL NOk order [R1 R2]. pose proof (runs_failure sched (w, m)) as Fl. pose proof O as [O1 O2].
    assert (X : exists l1 a l2 st1, sched = l1 ++ a :: l2 /\ runs l1 (w, m) = Ok st1 /\ run st1 a = runs sched (w, m)).
    { destruct (runs sched (w, m)) as [st|e|]; [now destruct (NOk st)|exact Fl|exact Fl]. }
    clear Fl. destruct X as (l1 & a & l2 & [w1 m1] & Es & E1 & E2). exists m1.
    split.
    { intros c Hc Nc. apply (runs_frame l1) with w w1; [intros b Hb; apply O1; rewrite Es; apply in_or_app; now left|exact E1|exact Hc|].
      intros K. apply Nc. rewrite Es. apply in_or_app. now left. }
    destruct (O1 a) as [(x & Hx & <-)|(r & Hr & <-)]; [rewrite Es; apply in_or_app; right; now left| |].
    2:{ destruct (run_routing r w1 m1 Hr) as (m2 & E3 & _). rewrite E3 in E2. now destruct (NOk (w1, m2)). }
    rewrite Es, filter_app in R2. cbn [filter] in R2. rewrite (inserted_false x Hx) in R2. cbn [negb] in R2.
    apply map_eq_app in R2 as (k1 & k2 & -> & R2 & R3). destruct k2 as [|x' k2]; [discriminate|]. cbn [map] in R3. injection R3 as R0 R3.
    assert (x' = x) as -> by (apply atom_once; [apply R1, in_or_app; right; now left|exact Hx|exact R0]).
    exists k1, x, k2, w1, (map (content m1) (inputs o x)). split; [reflexivity|].
    assert (Ol : ordered l1) by (apply (ordered_prefix l1 (comp_id x :: l2)); now rewrite <- Es).
    split; [|split].
    - apply (executed l1 w m w1 m1 Ol); [|exact E1|split; [intros y Hy; apply R1, in_or_app; now left|exact R2]].
      intros b a Hba Ha Hb Hi. apply (CL l1 (comp_id x :: l2) Es b a Hba Ha Hb). now left.
    - assert (A : forall d, In d (inputs o x) -> arrives (fun s d => In (s, d) conns) (content m1) d (content m1 d)).
      { intros d Hd. destruct (in_driven x d Hx Hd) as (s & Hs). exists s. split; [exact Hs|].
        destruct (delivered s d Hs) as (Ss & Bs & [[Ea Ee]|(r & k & i & Hr & K & Fs & Ee & Ea & Eb & Ee')]).
        - unfold content. now rewrite <- Ea, Bs.
        - rewrite (in_owner x d Hx Hd) in Ee'. assert (Hrs : In (r_comp r) l1).
          { apply (CL l1 (comp_id x :: l2) Es (r_comp r) (comp_id x) Ee'); [now exists x|now exists r|right; eauto]. }
          rewrite <- (routed l1 w m w1 m1 r Ol E1 Hr Hrs k i s K Fs Ee). unfold content. now rewrite Ea, Eb. }
      revert A. generalize (inputs o x). clear. induction l as [|d l IH]; intros A; cbn [map]; constructor; [apply A; now left|]. apply IH. intros e' He. apply A. now right.
    - rewrite <- E2. destruct (run_atom x w1 m1 Hx) as (_ & K). destruct (behaviour (comp_id x) w1 (map (content m1) (inputs o x))) as [[w3 outs]|e'|].
      + destruct K as (m3 & E4 & _). rewrite E4 in E2. now destruct (NOk (w3, m3)).
      + rewrite K. reflexivity.
      + rewrite K. exact I.
  Qed.
End Exec.
