(** Placement of receive ports and insertion of routing components: lemmas. *)
From Verif Require Import Base FlowModel FlowProofs FlowTree SchedModel SchedProofs LayoutModel LayoutTables.
From Coq Require Import Permutation.
Local Open Scope res_scope.

Lemma list_set_length {A} (l : list A) k x : length (list_set l k x) = length l.
Proof. revert k. induction l as [|a l IH]; intros [|k]; cbn [list_set length]; auto. Qed.
Lemma list_set_same {A} (l : list A) k x d : k < length l -> nth k (list_set l k x) d = x.
Proof. revert k. induction l as [|a l IH]; intros [|k]; cbn [list_set length nth]; intros H; try lia; [reflexivity|]. apply IH. lia. Qed.
Lemma list_set_other {A} (l : list A) k j x d : j <> k -> nth j (list_set l k x) d = nth j l d.
Proof.
  revert k j. induction l as [|a l IH]; intros [|k] [|j] H; cbn [list_set nth]; try reflexivity; try lia.
  apply IH. lia.
Qed.
Lemma Permutation_in_iff {A} (l m : list A) x : Permutation l m -> (In x l <-> In x m).
Proof. intros P. split; apply Permutation_in; [exact P|now symmetry]. Qed.
Lemma filter_id {A} (f : A -> bool) l : (forall x, In x l -> f x = true) -> filter f l = l.
Proof.
  induction l as [|a l IH]; intros H; [reflexivity|]. cbn [filter]. rewrite (H a) by now left.
  f_equal. apply IH. intros x Hx. apply H. now right.
Qed.

Fixpoint contig (offs : list nat) : bool :=
  match offs with a :: ((b :: _) as rest) => if negb (a + 1 =? b) then false else contig rest | _ => true end.
Lemma contig_nth offs k : contig offs = true -> k < length offs -> nth k offs 0 = nth 0 offs 0 + k.
Proof.
  revert k. induction offs as [|a [|b offs] IH]; intros k C H; cbn [length] in H; [lia|destruct k; cbn; lia|].
  cbn [contig] in C. destruct (Nat.eqb_spec (a + 1) b) as [<-|]; [|discriminate]. cbn [negb] in C.
  destruct k as [|k]; [cbn; lia|]. cbn [nth] in *. rewrite (IH k C) by (cbn; lia). lia.
Qed.
Lemma contiguous_contig table sends offs : Forall2 (fun c x => offset_at table c = Ok x) sends offs ->
  contiguousRange sends table = Ok (contig offs).
Proof.
  intros F. induction F as [|a x sends offs Ha F IH]; [reflexivity|].
  destruct F as [|b y sends offs Hb F]; [reflexivity|]. cbn [contiguousRange contig]. rewrite Ha, Hb. cbn [bind].
  destruct (x + 1 =? y); cbn [negb]; [|reflexivity]. cbn [contiguousRange contig] in IH. rewrite Hb in IH.
  destruct sends; exact IH.
Qed.
Lemma send_indices_ok table sends offs : Forall2 (fun c x => offset_at table c = Ok x) sends offs ->
  send_indices table sends = Ok offs.
Proof.
  induction 1 as [|a x sends offs Ha F IH]; [reflexivity|]. cbn [send_indices].
  unfold send_index, offset_at in *. destruct a as [[p k]|]; [|discriminate]. destruct (offsets_find table p); [|discriminate].
  injection Ha as <-. cbn [bind]. rewrite IH. reflexivity.
Qed.
Lemma list_min_in l : l <> [] -> In (list_min l) l.
Proof.
  destruct l as [|x l]; [congruence|intros _]. cbn [list_min].
  assert (G : forall l x, In (fold_left Nat.min l x) (x :: l)).
  { clear. induction l as [|y l IH]; intros x; cbn [fold_left]; [now left|].
    destruct (IH (Nat.min x y)) as [<-|H]; [|right; now right]. destruct (Nat.min_dec x y) as [E| E]; rewrite E; [now left|right; now left]. }
  apply G.
Qed.
Lemma list_min_le l x : In x l -> list_min l <= x.
Proof.
  destruct l as [|y l]; [intros []|]. cbn [list_min].
  assert (G : forall l y, fold_left Nat.min l y <= y /\ forall x, In x l -> fold_left Nat.min l y <= x).
  { clear. induction l as [|z l IH]; intros y; cbn [fold_left]; [split; [lia|intros x []]|].
    destruct (IH (Nat.min y z)) as [A B]. split; [lia|]. intros x [<-|H]; [lia|now apply B]. }
  destruct (G l y) as [A B]. intros [<-|H]; [exact A|now apply B].
Qed.
Lemma list_max_ge l x : In x l -> x <= list_max l.
Proof. intros H. induction l as [|y l IH]; [destruct H|]. cbn. destruct H as [<-|H]; [lia|]. specialize (IH H). unfold list_max in IH. lia. Qed.
Lemma list_max_in l : l <> [] -> In (list_max l) l.
Proof.
  induction l as [|y l IH]; [congruence|intros _]. destruct l as [|z l]; [cbn; lia|].
  change (list_max (y :: z :: l)) with (Nat.max y (list_max (z :: l))).
  destruct (Nat.max_dec y (list_max (z :: l))) as [E| E]; rewrite E; [now left|]. right. apply IH. discriminate.
Qed.
Lemma amap_insert_in x m c : In c (amap_insert x m) <-> c = x \/ In c m.
Proof. rewrite (amap_insert_perm x m). cbn. intuition. Qed.
Lemma amap_inserts_in {A} (f : A -> channel * channel) l m c :
  In c (fold_left (fun m a => amap_insert (f a) m) l m) <-> In c m \/ exists a, In a l /\ c = f a.
Proof.
  revert m. induction l as [|a l IH]; intros m; cbn [fold_left In].
  - split; [auto|]. intros [H|(a & [] & _)]. exact H.
  - rewrite IH, amap_insert_in. split.
    + intros [[->|H]|(b & Hb & ->)]; [right; eauto|auto|right; eauto].
    + intros [H|(b & [<-|Hb] & ->)]; [auto|auto|right; eauto].
Qed.

Section Place.
  Variable o : objects.
  Variable alloc : nat -> nat * nat * nat.
  Variable conns : amap.

  Definition sender (p : nat) : Prop := exists s d, In (s, d) conns /\ fst s = p.
  Definition receiver (p : nat) : Prop := exists s d, In (s, d) conns /\ fst d = p.
  Definition alloc_in n := snd (fst (alloc n)).
  Definition alloc_out n := snd (alloc n).

  Hypothesis single : NoDup (map snd conns).
  Hypothesis send_range : forall s d, In (s, d) conns -> snd s < a_width o (fst s).
  Hypothesis recv_range : forall s d, In (s, d) conns -> snd d < a_width o (fst d).
  Hypothesis full : forall p k, receiver p -> k < a_width o p -> exists s, In (s, (p, k)) conns.
  Hypothesis types : forall s d, In (s, d) conns -> a_type o (fst s) = a_type o (fst d).
  Hypothesis known_type : forall s d, In (s, d) conns -> a_type o (fst s) <= 8.
  Hypothesis directed : forall p, sender p -> ~ receiver p.
  Hypothesis alloc_in_inj : forall n m, alloc_in n = alloc_in m -> n = m.
  Hypothesis alloc_out_inj : forall n m, alloc_out n = alloc_out m -> n = m.
  Hypothesis alloc_in_out : forall n m, alloc_in n <> alloc_out m.
  Hypothesis alloc_fresh : forall n, ~ sender (alloc_in n) /\ ~ receiver (alloc_in n) /\ ~ sender (alloc_out n) /\ ~ receiver (alloc_out n).

  Lemma driver_unique s s' d : In (s, d) conns -> In (s', d) conns -> s = s'.
  Proof using single.
    clear - single. intros H H'. induction conns as [|[a b] m IH]; [contradiction|]. cbn [map snd] in single.
    inversion single as [|? ? Ni ND']; subst. destruct H as [E|H], H' as [E'|H'].
    - congruence.
    - exfalso. apply Ni. apply in_map_iff. exists (s', d). split; [cbn; congruence|exact H'].
    - exfalso. apply Ni. apply in_map_iff. exists (s, d). split; [cbn; congruence|exact H].
    - now apply IH.
  Qed.

  Lemma sendChannels_ok p local : receiver p -> NoDup (map snd local) ->
    (forall s d, In (s, d) local <-> In (s, d) conns /\ fst d = p) ->
    exists range, sendChannels o p local = Ok range /\ length range = a_width o p
      /\ forall s k, In (s, (p, k)) conns -> nth k range None = Some s.
  Proof using recv_range full.
    clear - recv_range full. intros Hr NL HL. unfold sendChannels.
    rewrite filter_id.
    2:{ intros [s d] H. apply HL in H as [_ H]. cbn [fst snd]. now apply Nat.eqb_eq. }
    assert (Len : length local = a_width o p).
    { rewrite <- (map_length snd local). transitivity (length (map (fun k => (p, k)) (seq 0 (a_width o p)))).
      2:{ now rewrite map_length, seq_length. }
      apply Permutation_length, NoDup_Permutation; [exact NL| |].
      - apply FinFun.Injective_map_NoDup; [|apply seq_NoDup]. intros a b E. congruence.
      - intros [q k]. rewrite !in_map_iff. split.
        + intros ([s d] & E & H). cbn [snd] in E. subst d. apply HL in H as [H E]. cbn [fst] in E. subst q.
          exists k. split; [reflexivity|]. apply in_seq. specialize (recv_range _ _ H). cbn [fst snd] in recv_range. lia.
        + intros (j & E & H). injection E as <- <-. apply in_seq in H. destruct (full p j Hr) as (s & Hs); [lia|].
          exists (s, (p, j)). split; [reflexivity|]. apply HL. auto. }
    cbv zeta. match goal with |- context [length ?L =? _] => change (length L) with (length local) end. rewrite Len, Nat.eqb_refl. cbn [negb].
    assert (G : forall (l : amap) (range : list (option channel)), NoDup (map snd l) -> length range = a_width o p ->
              (forall s d, In (s, d) l -> fst d = p /\ snd d < a_width o p /\ nth (snd d) range None = None) ->
              exists range', fold_left (fun r c => range <- r ;; let k := snd (snd c) in
                        if a_width o p <=? k then Throw LogicError
                        else match nth k range None with Some _ => Throw LogicError | None => Ok (list_set range k (Some (fst c))) end)
                        l (Ok range) = Ok range'
                /\ length range' = a_width o p
                /\ (forall s d, In (s, d) l -> nth (snd d) range' None = Some s)
                /\ (forall k, (forall s d, In (s, d) l -> snd d <> k) -> nth k range' None = nth k range None)).
    { clear NL HL Len local full recv_range. induction l as [|[s d] l IH]; intros range ND HR Hl; cbn [fold_left].
      - exists range. split; [reflexivity|]. split; [exact HR|]. split; [intros s d []|auto].
      - cbn [bind fst snd]. destruct (Hl s d (or_introl eq_refl)) as (E1 & E2 & E3).
        destruct (Nat.leb_spec (a_width o p) (snd d)); [lia|]. rewrite E3. cbn [map snd] in ND. inversion ND as [|? ? Ni ND']; subst.
        destruct (IH (list_set range (snd d) (Some s)) ND') as (range' & F1 & F2 & F3 & F4).
        + now rewrite list_set_length.
        + intros s' d' H'. destruct (Hl s' d' (or_intror H')) as (A & B & C). split; [exact A|]. split; [exact B|].
          rewrite list_set_other; [exact C|]. intros E. apply Ni. apply in_map_iff. exists (s', d'). split; [|exact H'].
          destruct d, d'. cbn in *. congruence.
        + exists range'. split; [exact F1|]. split; [exact F2|]. split.
          * intros s' d' [E|H']; [|now apply F3]. injection E as <- <-. rewrite F4.
            -- apply list_set_same. lia.
            -- intros s' d' H' E. apply Ni. apply in_map_iff. exists (s', d'). split; [|exact H'].
               destruct (Hl s' d' (or_intror H')) as (A & _). destruct d, d'. cbn in *. congruence.
          * intros k Hk. rewrite F4 by (intros s' d' H'; apply (Hk s' d'); now right).
            apply list_set_other. intros ->. apply (Hk s d); [now left|reflexivity]. }
    destruct (G local (repeat None (a_width o p)) NL) as (range & F1 & F2 & F3 & _).
    - apply repeat_length.
    - intros s d H. apply HL in H as [H E]. split; [exact E|]. split; [rewrite <- E; now apply (recv_range s)|].
      destruct (Nat.lt_ge_cases (snd d) (length (repeat (@None channel) (a_width o p)))) as [L|L];
        [now apply nth_repeat|now rewrite nth_overflow].
    - exists range. split; [exact F1|]. split; [exact F2|]. intros s k H. apply (F3 s (p, k)). apply HL. auto.
  Qed.

  (** *** the invariant *)
  Definition placed (Sd R : offsets) (RS : list routing) (p : nat) : Prop :=
    exists off, In (Entry p (a_width o p) off) R
    /\ (((forall s k, In (s, (p, k)) conns -> exists e, In e Sd /\ e_port e = fst s /\ off + k = e_offset e + snd s)
         /\ (forall r, In r RS -> r_for r <> p))
        \/ exists r m, In r RS /\ r_for r = p /\ In (Entry (r_out r) (a_width o p) off) Sd
             /\ In (Entry (r_in r) (r_inwidth r) m) R /\ length (r_indices r) = a_width o p
             /\ forall s k, In (s, (p, k)) conns -> exists e i, In e Sd /\ e_port e = fst s
                  /\ nth_error (r_indices r) k = Some i /\ i < r_inwidth r /\ m + i = e_offset e + snd s).

  Record global_inv (D : list nat) (C : amap) (RS : list routing) : Prop := {
    g_conns : forall x y, In (x, y) C <->
      (In (x, y) conns /\ In (fst y) D /\ (forall r, In r RS -> r_for r <> fst y))
      \/ (exists r k, In r RS /\ In (x, (r_for r, k)) conns /\ fst y = r_in r /\ nth_error (r_indices r) k = Some (snd y))
      \/ (exists r k, In r RS /\ k < a_width o (r_for r) /\ x = (r_out r, k) /\ y = (r_for r, k));
    g_alloc : forall n r, nth_error RS n = Some r -> alloc n = (r_comp r, r_in r, r_out r);
    g_for : forall r, In r RS -> In (r_for r) D /\ r_type r = a_type o (r_for r);
    g_forinj : NoDup (map r_for RS);
    g_done : forall p, In p D -> receiver p }.

  Record table_inv (t : nat) (D : list nat) (RS : list routing) (Sd R : offsets) (next : nat) : Prop := {
    t_ok : table_ok Sd next;
    t_sports : forall p, In p (map e_port Sd) <-> (sender p /\ a_type o p = t) \/ exists r, In r RS /\ r_type r = t /\ r_out r = p;
    t_swidth : forall e, In e Sd -> (sender (e_port e) /\ e_width e = a_width o (e_port e))
                                    \/ exists r, In r RS /\ e_port e = r_out r /\ e_width e = a_width o (r_for r);
    t_rports : forall p, In p (map e_port R) <-> (In p D /\ a_type o p = t) \/ exists r, In r RS /\ r_type r = t /\ r_in r = p;
    t_rnodup : NoDup (map e_port R);
    t_placed : forall p, In p D -> a_type o p = t -> placed Sd R RS p }.

  Lemma placed_mono Sd R RS Sd' R' RS' p : (forall e, In e Sd -> In e Sd') -> (forall e, In e R -> In e R') ->
    (forall r, In r RS -> In r RS') -> (forall r, In r RS' -> In r RS \/ r_for r <> p) ->
    placed Sd R RS p -> placed Sd' R' RS' p.
  Proof.
    intros HS HR HRS HRS' (off & HO & H). exists off. split; [auto|]. destruct H as [(H1 & H2)|(r & m & H1 & H2 & H3 & H4 & H5 & H6)].
    - left. split.
      + intros s k Hs. destruct (H1 s k Hs) as (e & He & A). exists e. split; auto.
      + intros r Hr. destruct (HRS' r Hr) as [K|K]; [now apply H2|exact K].
    - right. exists r, m. repeat (split; [now auto|]). intros s k Hs. destruct (H6 s k Hs) as (e & i & He & A). exists e, i. split; auto.
  Qed.

  Lemma connect_ok table next m rin indices : table_ok table next ->
    forall l c0, (forall i, In i l -> m + i < next) ->
    exists c1, fold_left (connect_input table m rin indices) l (Ok c0) = Ok c1
      /\ forall c, In c c1 <-> In c c0 \/ exists i e, In i l /\ In i indices /\ In e table
            /\ e_offset e <= m + i /\ m + i < e_offset e + e_width e /\ c = ((e_port e, m + i - e_offset e), (rin, i)).
  Proof.
    clear. intros T. induction l as [|i l IH]; intros c0 Hl; cbn [fold_left].
    - exists c0. split; [reflexivity|]. intros c. split; [auto|]. intros [H|(i & e & [] & _)]. exact H.
    - unfold connect_input at 2. cbn [bind].
      destruct (table_cover table next (m + i) T (Hl i (or_introl eq_refl))) as (e & He & B1 & B2).
      destruct (find (fun e => (e_offset e <=? m + i) && (m + i <? e_offset e + e_width e)) table) as [f|] eqn:F.
      2:{ exfalso. apply find_none with (x := e) in F; [|exact He]. apply andb_false_iff in F.
          rewrite Nat.leb_gt, Nat.ltb_ge in F. lia. }
      apply find_some in F as [Hf F]. apply andb_true_iff in F as [F1 F2]. apply Nat.leb_le in F1. apply Nat.ltb_lt in F2.
      assert (U : forall e', In e' table -> e_offset e' <= m + i -> m + i < e_offset e' + e_width e' -> e' = f).
      { intros e' He' A1 A2. apply (table_disjoint table next e' f (m + i - e_offset e') (m + i - e_offset f) T); auto; lia. }
      destruct (mem i indices) eqn:Mi.
      + apply mem_spec in Mi. destruct (IH (amap_insert ((e_port f, m + i - e_offset f), (rin, i)) c0)) as (c1 & E & S).
        * intros j Hj. apply Hl. now right.
        * exists c1. split; [exact E|]. intros c. rewrite S, amap_insert_in. split.
          -- intros [[->|H]|(j & g & Hj & R)]; [right; exists i, f; cbn; auto 10|auto|right; exists j, g; cbn; auto].
          -- intros [H|(j & g & [<-|Hj] & K1 & K2 & K3 & K4 & ->)]; [auto| |right; exists j, g; auto 10].
             left. left. now rewrite (U g K2 K3 K4).
      + apply mem_false in Mi. destruct (IH c0) as (c1 & E & S); [intros j Hj; apply Hl; now right|].
        exists c1. split; [exact E|]. intros c. rewrite S. split.
        * intros [H|(j & g & Hj & R)]; [auto|right; exists j, g; cbn; auto].
        * intros [H|(j & g & [<-|Hj] & K1 & R)]; [auto|contradiction|right; exists j, g; auto].
  Qed.

  Lemma nodup_filter_snd (f : channel * channel -> bool) (m : amap) : NoDup (map snd m) -> NoDup (map snd (filter f m)).
  Proof.
    clear. induction m as [|c m IH]; intros ND; [constructor|]. cbn [map] in ND. apply NoDup_cons_iff in ND as [Ni ND].
    cbn [filter]. destruct (f c); [|auto]. cbn [map]. constructor; [|auto]. intros H. apply Ni.
    apply in_map_iff in H as (d & E & H). apply filter_In in H as [H _]. apply in_map_iff. eauto.
  Qed.

  Lemma local_in t p s d : receiver p -> a_type o p = t ->
    (In (s, d) (filter (fun c => fst (snd c) =? p) (filter (fun c => a_type o (fst (fst c)) =? t) conns))
     <-> In (s, d) conns /\ fst d = p).
  Proof using types.
    clear - types. intros _ Ht. rewrite !filter_In. cbn [fst snd]. rewrite !Nat.eqb_eq. split; [tauto|].
    intros [H E]. repeat split; auto. rewrite (types _ _ H). congruence.
  Qed.

  Lemma fresh_out n RS (A : forall n r, nth_error RS n = Some r -> alloc n = (r_comp r, r_in r, r_out r)) r :
    length RS <= n -> In r RS -> alloc_out n <> r_out r /\ alloc_in n <> r_in r /\ alloc_in n <> r_out r /\ alloc_out n <> r_in r.
  Proof using alloc_in_inj alloc_out_inj alloc_in_out.
    clear - alloc_in_inj alloc_out_inj alloc_in_out A. intros L H. apply In_nth_error in H as (m & E).
    assert (m < length RS) by (apply nth_error_Some; congruence).
    specialize (A m r E). assert (A1 : alloc_in m = r_in r) by (unfold alloc_in; now rewrite A).
    assert (A2 : alloc_out m = r_out r) by (unfold alloc_out; now rewrite A). rewrite <- A1, <- A2. repeat split.
    - intros E'. apply alloc_out_inj in E'. lia.
    - intros E'. apply alloc_in_inj in E'. lia.
    - apply alloc_in_out.
    - intros E'. now apply (alloc_in_out m n).
  Qed.

  Lemma fresh_ports RS (A : forall n r, nth_error RS n = Some r -> alloc n = (r_comp r, r_in r, r_out r)) r :
    In r RS -> ~ sender (r_in r) /\ ~ receiver (r_in r) /\ ~ sender (r_out r) /\ ~ receiver (r_out r).
  Proof using alloc_fresh.
    clear - alloc_fresh A. intros H. apply In_nth_error in H as (m & E). specialize (A m r E). specialize (alloc_fresh m).
    unfold alloc_in, alloc_out in alloc_fresh. rewrite A in alloc_fresh. exact alloc_fresh.
  Qed.

  (** the offsets of the channels driving a port *)
  Lemma offsets_of t D C RS Sd R next p range : global_inv D C RS -> table_inv t D RS Sd R next ->
    receiver p -> a_type o p = t -> length range = a_width o p ->
    (forall s k, In (s, (p, k)) conns -> nth k range None = Some s) ->
    exists offs, Forall2 (fun c x => offset_at Sd c = Ok x) range offs /\ length offs = a_width o p
      /\ forall s k, In (s, (p, k)) conns -> exists e, In e Sd /\ e_port e = fst s /\ snd s < e_width e
            /\ k < length offs /\ nth k offs 0 = e_offset e + snd s.
  Proof using full recv_range send_range types alloc_fresh alloc_in_inj.
    intros G T Hr Ht Hl Hrange.
    assert (X : forall s k, In (s, (p, k)) conns -> exists e, In e Sd /\ e_port e = fst s /\ snd s < e_width e
              /\ offset_at Sd (Some s) = Ok (e_offset e + snd s)).
    { intros s k H. assert (Hs : sender (fst s)) by (exists s, (p, k); auto).
      assert (I : In (fst s) (map e_port Sd)).
      { apply (t_sports _ _ _ _ _ _ T). left. split; [exact Hs|]. rewrite (types _ _ H). exact Ht. }
      apply in_map_iff in I as (e & Ee & He). exists e. split; [exact He|]. split; [exact Ee|]. split.
      - destruct (t_swidth _ _ _ _ _ _ T e He) as [[_ ->]|(r & Hin & E & _)].
        + rewrite Ee. exact (send_range _ _ H).
        + exfalso. destruct (fresh_ports RS (g_alloc _ _ _ G) r Hin) as (_ & _ & K & _). apply K. rewrite <- E, Ee. exact Hs.
      - destruct s as [q j]. cbn [offset_at fst snd] in *. subst q. rewrite (offsets_find_some Sd e); [reflexivity| |exact He].
        apply (t_ok _ _ _ _ _ _ T). }
    assert (F : exists offs, Forall2 (fun c x => offset_at Sd c = Ok x) range offs).
    { assert (P : forall c, In c range -> exists x, offset_at Sd c = Ok x).
      { intros c Hc. apply In_nth with (d := None) in Hc as (k & Hk & <-).
        destruct (full p k Hr) as (s & Hs); [lia|]. rewrite (Hrange s k Hs). destruct (X s k Hs) as (e & _ & _ & _ & E). eauto. }
      clear - P. induction range as [|c range IH]; [exists []; constructor|].
      destruct (P c (or_introl eq_refl)) as (x & Hx). destruct IH as (offs & F); [intros d Hd; apply P; now right|].
      exists (x :: offs). constructor; assumption. }
    destruct F as (offs & F). assert (L : length offs = a_width o p) by (rewrite <- Hl; symmetry; clear - F; induction F; cbn; congruence).
    exists offs. split; [exact F|]. split; [exact L|]. intros s k H. destruct (X s k H) as (e & A1 & A2 & A3 & A4).
    exists e. repeat split; auto.
    - rewrite L. apply (recv_range _ _ H).
    - assert (K : offset_at Sd (nth k range None) = Ok (nth k offs 0)).
      { assert (k < length range) by (rewrite Hl; apply (recv_range _ _ H)). clear - F H0. revert k H0.
        induction F as [|c x range offs Hc F IH]; intros k H; [cbn in H; lia|]. destruct k; [exact Hc|]. cbn [nth]. apply IH. cbn in H. lia. }
      rewrite (Hrange s k H), A4 in K. congruence.
  Qed.

  Lemma place_step t D st p : receiver p -> a_type o p = t -> ~ In p D ->
    global_inv D (l_conns st) (l_routings st) -> table_inv t D (l_routings st) (l_send st) (l_receive st) (l_next st) ->
    exists st', place_receive o alloc t (filter (fun c => a_type o (fst (fst c)) =? t) conns) st p = Ok st'
      /\ global_inv (p :: D) (l_conns st') (l_routings st')
      /\ table_inv t (p :: D) (l_routings st') (l_send st') (l_receive st') (l_next st')
      /\ exists new, l_routings st' = l_routings st ++ new /\ forall r, In r new -> r_type r = t.
  Proof using full recv_range send_range types known_type single directed alloc_in_inj alloc_out_inj alloc_in_out alloc_fresh.
    intros Hr Ht Hp G T. unfold place_receive.
    assert (Hw : a_width o p <> 0).
    { destruct Hr as (s & d & H & <-). specialize (recv_range _ _ H). lia. }
    destruct (Nat.eqb_spec (a_width o p) 0) as [|_]; [contradiction|]. cbv zeta.
    set (local := filter (fun c => fst (snd c) =? p) _).
    assert (HL : forall s d, In (s, d) local <-> In (s, d) conns /\ fst d = p) by (intros s d; apply local_in; assumption).
    destruct (sendChannels_ok p local Hr) as (range & E1 & Len & Hrange).
    { apply nodup_filter_snd, nodup_filter_snd, single. }
    { exact HL. }
    rewrite E1. cbn [bind].
    destruct (offsets_of t D _ _ _ _ _ p range G T Hr Ht Len Hrange) as (offs & F & Lo & Hoffs).
    rewrite (contiguous_contig _ _ _ F). cbn [bind].
    assert (Hnew : forall r, In r (l_routings st) -> r_for r <> p).
    { intros r Hin E. apply Hp. rewrite <- E. apply (g_for _ _ _ G r Hin). }
    assert (HpR : ~ In p (map e_port (l_receive st))).
    { intros I. apply (t_rports _ _ _ _ _ _ T) in I as [[I _]|(r & Hin & _ & E)]; [contradiction|].
      destruct (fresh_ports _ (g_alloc _ _ _ G) r Hin) as (_ & K & _). apply K. now rewrite E. }
    destruct (contig offs) eqn:C.
    - destruct (full p 0 Hr) as (s0 & H0); [lia|]. rewrite (Hrange s0 0 H0). destruct (Hoffs s0 0 H0) as (e0 & A1 & A2 & A3 & A4 & A5).
      destruct s0 as [p0 k0]. cbn [fst snd] in *. subst p0. rewrite (offsets_find_some _ e0); [|apply (t_ok _ _ _ _ _ _ T)|exact A1].
      eexists. split; [reflexivity|]. cbn [l_conns l_routings l_send l_receive l_next]. rewrite <- A5.
      assert (PR : forall e, In e (l_receive st) -> In e (offsets_insert (Entry p (a_width o p) (nth 0 offs 0)) (l_receive st))).
      { intros e He. rewrite (offsets_insert_perm (Entry p (a_width o p) (nth 0 offs 0)) _ HpR). now right. }
      split; [|split].
      + constructor.
        * intros x y. rewrite (amap_inserts_in (fun c => c)). rewrite (g_conns _ _ _ G). split.
          -- intros [[(B1 & B2 & B3)|[B|B]]|(c & Hc & E)].
             ++ left. cbn. auto.
             ++ right. now left.
             ++ right. now right.
             ++ subst c. apply HL in Hc as [Hc E]. left. split; [exact Hc|]. rewrite E. split; [now left|exact Hnew].
          -- intros [(B1 & [B2|B2] & B3)|[B|B]].
             ++ right. exists (x, y). split; [|reflexivity]. apply HL. auto.
             ++ left. left. auto.
             ++ left. right. now left.
             ++ left. right. now right.
        * apply (g_alloc _ _ _ G).
        * intros r Hin. destruct (g_for _ _ _ G r Hin) as [B1 B2]. split; [now right|exact B2].
        * apply (g_forinj _ _ _ G).
        * intros q [<-|Hq]; [exact Hr|now apply (g_done _ _ _ G)].
      + constructor.
        * apply (t_ok _ _ _ _ _ _ T).
        * apply (t_sports _ _ _ _ _ _ T).
        * apply (t_swidth _ _ _ _ _ _ T).
        * intros q. transitivity (In q (p :: map e_port (l_receive st))).
          { apply Permutation_in_iff. change (p :: map e_port (l_receive st)) with (map e_port (Entry p (a_width o p) (nth 0 offs 0) :: l_receive st)).
            apply Permutation_map. now apply offsets_insert_perm. }
          cbn [In]. rewrite (t_rports _ _ _ _ _ _ T). split.
          -- intros [<-|[[B1 B2]|B]]; [left; auto|left; auto|now right].
          -- intros [[[B1|B1] B2]|B]; auto.
        * eapply Permutation_NoDup; [symmetry; apply Permutation_map; now apply offsets_insert_perm|].
          cbn [map e_port]. constructor; [exact HpR|apply (t_rnodup _ _ _ _ _ _ T)].
        * intros q [<-|Hq] Hqt.
          -- exists (nth 0 offs 0). split; [rewrite (offsets_insert_perm (Entry p (a_width o p) (nth 0 offs 0)) _ HpR); now left|].
             left. split; [|exact Hnew]. intros s k Hs. destruct (Hoffs s k Hs) as (e & D1 & D2 & _ & D4 & D5).
             exists e. split; [exact D1|]. split; [exact D2|]. rewrite <- D5. symmetry. now apply contig_nth.
          -- eapply placed_mono; [| | | |apply (t_placed _ _ _ _ _ _ T q Hq Hqt)]; auto.
      + exists []. split; [symmetry; apply app_nil_r|intros r []].
    - rewrite (send_indices_ok _ _ _ F). cbn [bind].
      set (m := list_min offs). set (indices := map (fun x => x - m) offs). set (inwidth := list_max indices + 1).
      assert (Ho : offs <> []) by (intros E; rewrite E in Lo; cbn in Lo; lia).
      assert (Hi : forall k, k < length offs -> nth_error indices k = Some (nth k offs 0 - m) /\ m + (nth k offs 0 - m) = nth k offs 0).
      { intros k Hk. split.
        - unfold indices. rewrite nth_error_map. rewrite (nth_error_nth' offs 0 Hk). reflexivity.
        - assert (m <= nth k offs 0) by (apply list_min_le, nth_In, Hk). lia. }
      assert (Li : length indices = a_width o p) by (unfold indices; rewrite map_length; exact Lo).
      assert (Hin : forall i, In i indices -> exists s k e, In (s, (p, k)) conns /\ nth_error indices k = Some i
                 /\ In e (l_send st) /\ e_port e = fst s /\ snd s < e_width e /\ m + i = e_offset e + snd s).
      { intros i Hii. apply In_nth_error in Hii as (k & Hk). assert (k < length indices) by (apply nth_error_Some; congruence).
        destruct (full p k Hr) as (s & Hs); [lia|]. destruct (Hoffs s k Hs) as (e & D1 & D2 & D3 & D4 & D5).
        exists s, k, e. destruct (Hi k D4) as [I1 I2]. rewrite I1 in Hk. injection Hk as <-. repeat split; auto. lia. }
      assert (Hmax : forall i, i < inwidth -> m + i < l_next st).
      { intros i Hii. assert (In (list_max indices) indices).
        { apply list_max_in. intros E. rewrite E in Li. cbn in Li. lia. }
        destruct (Hin _ H) as (s & k & e & _ & _ & D1 & _ & D3 & D4).
        pose proof (table_bounds _ _ e (t_ok _ _ _ _ _ _ T) D1). unfold inwidth in Hii. lia. }
      unfold createSignalRoutingComponent.
      destruct (Nat.ltb_spec 8 t) as [Bad|_].
      { exfalso. destruct Hr as (s & d & H & Ed). specialize (known_type _ _ H). rewrite (types _ _ H), Ed in known_type. lia. }
      destruct (negb (length indices =? 0) && (inwidth <=? list_max indices)) eqn:Bad.
      { exfalso. apply andb_true_iff in Bad as [_ Bad]. apply Nat.leb_le in Bad. unfold inwidth in Bad. lia. }
      clear Bad. destruct (alloc (length (l_routings st))) as [[rc rin] rout] eqn:EA. cbn [bind r_in r_out].
      set (r := Routing rc rin rout p t inwidth indices).
      assert (Erin : alloc_in (length (l_routings st)) = rin) by (unfold alloc_in; now rewrite EA).
      assert (Erout : alloc_out (length (l_routings st)) = rout) by (unfold alloc_out; now rewrite EA).
      destruct (connect_ok (l_send st) (l_next st) m rin indices (t_ok _ _ _ _ _ _ T) (seq 0 inwidth) (l_conns st)) as (c1 & EC & HC).
      { intros i Hii. apply in_seq in Hii. apply Hmax. lia. }
      rewrite EC. cbn [bind]. eexists. split; [reflexivity|]. cbn [l_conns l_routings l_send l_receive l_next].
      destruct (alloc_fresh (length (l_routings st))) as (Fr1 & Fr2 & Fr3 & Fr4). rewrite Erin in Fr1, Fr2. rewrite Erout in Fr3, Fr4.
      assert (Frs : forall q, In q (l_routings st) -> rout <> r_out q /\ rin <> r_in q /\ rin <> r_out q /\ rout <> r_in q).
      { intros q Hq. rewrite <- Erin, <- Erout. apply (fresh_out _ (l_routings st) (g_alloc _ _ _ G)); auto. }
      assert (NS : ~ In rout (map e_port (l_send st))).
      { intros I. apply (t_sports _ _ _ _ _ _ T) in I as [[I _]|(q & Hq & _ & E)]; [contradiction|].
        destruct (Frs q Hq) as (K & _). congruence. }
      assert (NR : ~ In rin (map e_port (l_receive st))).
      { intros I. apply (t_rports _ _ _ _ _ _ T) in I as [[I _]|(q & Hq & _ & E)].
        - apply Fr2. now apply (g_done _ _ _ G).
        - destruct (Frs q Hq) as (_ & K & _). congruence. }
      assert (Np : p <> rin) by congruence.
      pose proof (offsets_insert_perm (Entry rout (a_width o p) (l_next st)) _ NS) as PS.
      pose proof (offsets_insert_perm (Entry rin inwidth m) _ NR) as PR1.
      set (R1 := offsets_insert (Entry rin inwidth m) (l_receive st)) in *.
      assert (HpR1 : ~ In p (map e_port R1)).
      { intros I. apply (Permutation_in _ (Permutation_map e_port PR1)) in I. cbn [map e_port In] in I. destruct I; [congruence|contradiction]. }
      pose proof (offsets_insert_perm (Entry p (a_width o p) (l_next st)) _ HpR1) as PR2.
      set (R2 := offsets_insert (Entry p (a_width o p) (l_next st)) R1) in *.
      set (S2 := offsets_insert (Entry rout (a_width o p) (l_next st)) (l_send st)) in *.
      assert (PR : Permutation R2 (Entry p (a_width o p) (l_next st) :: Entry rin inwidth m :: l_receive st))
        by (rewrite PR2; now rewrite PR1).
      clearbody R2 S2. clear PR2 PR1 HpR1 R1.
      assert (Hrs : forall q, In q (l_routings st ++ [r]) <-> In q (l_routings st) \/ q = r).
      { intros q. rewrite in_app_iff. cbn. intuition. }
      split; [|split].
      + constructor.
        * intros x y. rewrite (amap_inserts_in (fun k => ((rout, k), (p, k)))). rewrite HC, (g_conns _ _ _ G). split.
          -- intros [[[(B1 & B2 & B3)|[(q & k & B1 & B2)|(q & k & B1 & B2)]]|(i & e & B1 & B2 & B3 & B4 & B5 & B6)]|(k & B1 & B2)].
             ++ left. split; [exact B1|]. split; [now right|]. intros q Hq. apply Hrs in Hq as [Hq|Hq]; [now apply B3|subst q; cbn [r_for]].
                change (p <> fst y). intros E. apply Hp. now rewrite E.
             ++ right. left. exists q, k. rewrite Hrs. auto.
             ++ right. right. exists q, k. rewrite Hrs. auto.
             ++ right. left. destruct (Hin i B2) as (s & k & f & D1 & D2 & D3 & D4 & D5 & D6).
                destruct (table_disjoint _ _ f e (snd s) (m + i - e_offset e) (t_ok _ _ _ _ _ _ T) D3 B3) as [<- D7]; [lia|lia|lia|].
                exists r, k. rewrite Hrs. split; [now right|]. injection B6 as -> ->. cbn [r_for r_in r_indices fst snd].
                split; [|auto]. rewrite <- D7, D4. destruct s. exact D1.
             ++ right. right. exists r, k. rewrite Hrs. cbn [r_for r_out]. apply in_seq in B1. injection B2 as -> ->.
                split; [now right|]. change (r_for r) with p. split; [lia|auto].
          -- intros [(B1 & [B2|B2] & B3)|[(q & k & B1 & B2 & B3 & B4)|(q & k & B1 & B2 & B3 & B4)]].
             ++ exfalso. apply (B3 r); [apply Hrs; now right|exact B2].
             ++ left. left. left. split; [exact B1|]. split; [exact B2|]. intros q Hq. apply B3. apply Hrs. now left.
             ++ apply Hrs in B1 as [B1|B1].
                ** left. left. right. left. exists q, k. auto.
                ** subst q. change (r_for r) with p in *. change (r_in r) with rin in *. change (r_indices r) with indices in *. left. right.
                   assert (Hii : In (snd y) indices) by (eapply nth_error_In; exact B4).
                   destruct (Hoffs x k B2) as (e & D1 & D2 & D3 & D4 & D5). destruct (Hi k D4) as [I1 I2].
                   rewrite I1 in B4. injection B4 as B4. exists (snd y), e.
                   split; [apply in_seq; pose proof (list_max_ge indices _ Hii); unfold inwidth; lia|]. split; [exact Hii|].
                   split; [exact D1|]. split; [lia|]. split; [lia|]. destruct x as [x1 x2], y as [y1 y2]. cbn [fst snd] in *.
                   rewrite D2, B3. do 2 f_equal. lia.
             ++ apply Hrs in B1 as [B1|B1].
                ** left. left. right. right. exists q, k. auto.
                ** subst q. change (r_for r) with p in *. change (r_out r) with rout in *. right. exists k. split; [apply in_seq; lia|rewrite B3, B4; reflexivity].
        * intros n q Hn. destruct (Nat.lt_ge_cases n (length (l_routings st))) as [Hlt|Hge].
          -- rewrite nth_error_app1 in Hn by exact Hlt. now apply (g_alloc _ _ _ G).
          -- rewrite nth_error_app2 in Hn by exact Hge. destruct (n - length (l_routings st)) as [|j] eqn:En.
             ++ cbn in Hn. injection Hn as <-. replace n with (length (l_routings st)) by lia. exact EA.
             ++ cbn in Hn. destruct j; discriminate.
        * intros q Hq. apply Hrs in Hq as [Hq|Hq].
          -- destruct (g_for _ _ _ G q Hq) as [B1 B2]. split; [now right|exact B2].
          -- subst q. cbn [r_for r_type]. split; [now left|symmetry; exact Ht].
        * rewrite map_app. cbn [map r_for]. apply (Permutation_NoDup (l := p :: map r_for (l_routings st))); [apply Permutation_cons_append|].
          constructor; [|apply (g_forinj _ _ _ G)]. intros I. apply in_map_iff in I as (q & E & Hq). now apply (Hnew q).
        * intros q [<-|Hq]; [exact Hr|now apply (g_done _ _ _ G)].
      + constructor.
        * clear - T NS PS. destruct (t_ok _ _ _ _ _ _ T) as (ND & L & P & K & TL). split.
          -- eapply Permutation_NoDup; [symmetry; apply Permutation_map, PS|]. cbn [map e_port]. now constructor.
          -- exists (L ++ [Entry rout (a_width o p) (l_next st)]). split.
             ++ rewrite PS, P. apply Permutation_cons_append.
             ++ split; [apply packed_app; split; [exact K|cbn; split; [lia|exact I]]|rewrite total_app; cbn; lia].
        * intros q. transitivity (In q (rout :: map e_port (l_send st))).
          { apply Permutation_in_iff. change (rout :: map e_port (l_send st)) with (map e_port (Entry rout (a_width o p) (l_next st) :: l_send st)).
            now apply Permutation_map. }
          cbn [In]. rewrite (t_sports _ _ _ _ _ _ T). split.
          -- intros [<-|[B|(q' & B1 & B2)]].
             ++ right. exists r. rewrite Hrs. cbn. auto.
             ++ now left.
             ++ right. exists q'. rewrite Hrs. auto.
          -- intros [B|(q' & B1 & B2 & B3)]; [auto|]. apply Hrs in B1 as [B1|B1].
             ++ right. right. exists q'. auto.
             ++ left. subst q'. exact B3.
        * intros e He. rewrite PS in He. destruct He as [<-|He]; cbn [e_port e_width].
          -- right. exists r. rewrite Hrs. cbn. auto.
          -- destruct (t_swidth _ _ _ _ _ _ T e He) as [B|(q & B1 & B2)]; [now left|]. right. exists q. rewrite Hrs. auto.
        * intros q. transitivity (In q (p :: rin :: map e_port (l_receive st))).
          { apply Permutation_in_iff.
            change (p :: rin :: map e_port (l_receive st))
              with (map e_port (Entry p (a_width o p) (l_next st) :: Entry rin inwidth m :: l_receive st)).
            now apply Permutation_map. }
          cbn [In]. rewrite (t_rports _ _ _ _ _ _ T). split.
          -- intros [<-|[<-|[[B1 B2]|(q' & B1 & B2)]]].
             ++ left. auto.
             ++ right. exists r. rewrite Hrs. cbn. auto.
             ++ left. auto.
             ++ right. exists q'. rewrite Hrs. auto.
          -- intros [[[B1|B1] B2]|(q' & B1 & B2 & B3)]; [auto|auto|]. apply Hrs in B1 as [B1|B1].
             ++ right. right. right. exists q'. auto.
             ++ subst q'. right. left. exact B3.
        * eapply Permutation_NoDup; [symmetry; apply Permutation_map, PR|]. cbn [map e_port].
          constructor; [|constructor; [exact NR|apply (t_rnodup _ _ _ _ _ _ T)]]. cbn [In]. intros [E|I]; [congruence|contradiction].
        * assert (MS : forall e, In e (l_send st) -> In e S2) by (intros e He; rewrite PS; now right).
          assert (MR : forall e, In e (l_receive st) -> In e R2) by (intros e He; rewrite PR; right; now right).
          intros q [<-|Hq] Hqt.
          -- exists (l_next st). split; [rewrite PR; now left|]. right. exists r, m.
             split; [apply Hrs; now right|]. split; [reflexivity|]. split; [rewrite PS; now left|].
             split; [rewrite PR; right; now left|]. split; [exact Li|]. intros s k Hs.
             destruct (Hoffs s k Hs) as (e & D1 & D2 & D3 & D4 & D5). destruct (Hi k D4) as [I1 I2].
             exists e, (nth k offs 0 - m). split; [now apply MS|]. split; [exact D2|]. split; [exact I1|]. split; [|lia].
             assert (Hii : In (nth k offs 0 - m) indices) by (eapply nth_error_In; exact I1).
             pose proof (list_max_ge indices _ Hii). change (r_inwidth r) with inwidth. unfold inwidth. lia.
          -- eapply placed_mono; [exact MS|exact MR| | |apply (t_placed _ _ _ _ _ _ T q Hq Hqt)].
             ++ intros q' Hq'. apply Hrs. now left.
             ++ intros q' Hq'. apply Hrs in Hq' as [Hq'|Hq']; [now left|right]. subst q'. change (p <> q). intros E. apply Hp. now rewrite E.
      + exists [r]. split; [reflexivity|]. intros q [<-|[]]. reflexivity.
  Qed.

  Lemma place_all t l : forall D st, NoDup l -> (forall p, In p l -> receiver p /\ a_type o p = t /\ ~ In p D) ->
    global_inv D (l_conns st) (l_routings st) -> table_inv t D (l_routings st) (l_send st) (l_receive st) (l_next st) ->
    exists D' st', fold_left (fun r p => st <- r ;; place_receive o alloc t (filter (fun c => a_type o (fst (fst c)) =? t) conns) st p) l (Ok st) = Ok st'
      /\ (forall p, In p D' <-> In p l \/ In p D)
      /\ global_inv D' (l_conns st') (l_routings st')
      /\ table_inv t D' (l_routings st') (l_send st') (l_receive st') (l_next st')
      /\ exists new, l_routings st' = l_routings st ++ new /\ forall r, In r new -> r_type r = t.
  Proof using full recv_range send_range types known_type single directed alloc_in_inj alloc_out_inj alloc_in_out alloc_fresh.
    induction l as [|p l IH]; intros D st ND Hl G T; cbn [fold_left].
    - exists D, st. split; [reflexivity|]. split; [intros p; cbn; tauto|]. split; [exact G|]. split; [exact T|].
      exists []. split; [symmetry; apply app_nil_r|intros r []].
    - apply NoDup_cons_iff in ND as [Ni ND]. destruct (Hl p (or_introl eq_refl)) as (H1 & H2 & H3).
      destruct (place_step t D st p H1 H2 H3 G T) as (st1 & E & G1 & T1 & new1 & E1 & N1). cbn [bind]. rewrite E.
      destruct (IH (p :: D) st1 ND) as (D' & st' & E' & HD & G' & T' & new2 & E2 & N2); [|exact G1|exact T1|].
      + intros q Hq. destruct (Hl q (or_intror Hq)) as (A1 & A2 & A3). repeat split; auto. intros [<-|K]; contradiction.
      + exists D', st'. split; [exact E'|]. split; [|split; [exact G'|split; [exact T'|]]].
        * intros q. rewrite HD. cbn. clear. tauto.
        * exists (new1 ++ new2). split; [rewrite E2, E1; now rewrite app_assoc|]. intros r Hin. apply in_app_iff in Hin as [K|K]; auto.
  Qed.

  Lemma table_inv_extend t D D' RS new Sd R next : table_inv t D RS Sd R next ->
    (forall p, In p D -> In p D') -> (forall p, In p D' -> In p D \/ a_type o p <> t) ->
    (forall r, In r new -> r_type r <> t /\ a_type o (r_for r) = r_type r) ->
    table_inv t D' (RS ++ new) Sd R next.
  Proof.
    clear. intros T M1 M2 N.
    assert (X : forall r, In r (RS ++ new) /\ r_type r = t <-> In r RS /\ r_type r = t).
    { intros r. rewrite in_app_iff. split; [|tauto]. intros [[H|H] E]; [auto|]. now apply N in H as [H _]. }
    constructor.
    - apply (t_ok _ _ _ _ _ _ T).
    - intros p. rewrite (t_sports _ _ _ _ _ _ T). split; (intros [H|(r & H1 & H2 & H3)]; [now left|right; exists r]).
      + destruct (proj2 (X r) (conj H1 H2)). auto.
      + destruct (proj1 (X r) (conj H1 H2)). auto.
    - intros e He. destruct (t_swidth _ _ _ _ _ _ T e He) as [H|(r & H1 & H2)]; [now left|right]. exists r. rewrite in_app_iff. auto.
    - intros p. rewrite (t_rports _ _ _ _ _ _ T). split; (intros [[H1 H2]|(r & H1 & H2 & H3)]; [left|right; exists r]).
      + auto.
      + destruct (proj2 (X r) (conj H1 H2)). auto.
      + destruct (M2 p H1); [auto|contradiction].
      + destruct (proj1 (X r) (conj H1 H2)). auto.
    - apply (t_rnodup _ _ _ _ _ _ T).
    - intros p Hp Ht. destruct (M2 p Hp) as [Hp'|]; [|contradiction].
      eapply placed_mono; [| | | |apply (t_placed _ _ _ _ _ _ T p Hp' Ht)]; auto.
      + intros r Hr. apply in_app_iff. now left.
      + intros r Hr. apply in_app_iff in Hr as [Hr|Hr]; [now left|right]. destruct (N r Hr) as [N1 N2]. intros E. apply N1. rewrite <- N2, E. exact Ht.
  Qed.

  Variable partition : list nat -> list nat.
  Hypothesis partition_perm : forall l, Permutation (partition l) l.

  Definition types_inv (done : list nat) (D : list nat) (acc : lacc) : Prop :=
    (forall p, In p D <-> receiver p /\ In (a_type o p) done)
    /\ global_inv D (snd (fst acc)) (snd acc)
    /\ map t_type (fst (fst acc)) = done
    /\ (forall tb, In tb (fst (fst acc)) -> table_inv (t_type tb) D (snd acc) (t_send tb) (t_receive tb) (t_count tb)).

  Lemma port_list_in l p : In p (port_list partition l) <-> In p l.
  Proof using partition_perm. unfold port_list. rewrite (Permutation_in_iff _ _ _ (partition_perm _)). apply set_of_in. Qed.
  Lemma port_list_nodup l : NoDup (port_list partition l).
  Proof using partition_perm. unfold port_list. eapply Permutation_NoDup; [symmetry; apply partition_perm|]. apply set_of_nodup. Qed.

  Lemma type_step done D acc t : types_inv done D acc -> ~ In t done ->
    exists D' acc', layout_type o partition alloc conns (Ok acc) t = Ok acc' /\ types_inv (done ++ [t]) D' acc'.
  Proof using full recv_range send_range types known_type single directed alloc_in_inj alloc_out_inj alloc_in_out alloc_fresh partition_perm.
    destruct acc as [[tables final] RS]. intros (HD & G & HT & TI) Nt. cbn [fst snd] in *.
    unfold layout_type. cbn [bind]. set (tc := filter (fun c => a_type o (fst (fst c)) =? t) conns).
    set (sp := port_list partition (map (fun c => fst (fst c)) tc)). set (rp := port_list partition (map (fun c => fst (snd c)) tc)).
    assert (Hsp : forall p, In p sp <-> sender p /\ a_type o p = t).
    { intros p. unfold sp. rewrite port_list_in, in_map_iff. unfold tc. split.
      - intros ([s d] & <- & H). apply filter_In in H as [H E]. cbn [fst] in *. apply Nat.eqb_eq in E. split; [|exact E]. exists s, d. auto.
      - intros [(s & d & H & <-) E]. exists (s, d). split; [reflexivity|]. apply filter_In. split; [exact H|]. now apply Nat.eqb_eq. }
    assert (Hrp : forall p, In p rp <-> receiver p /\ a_type o p = t).
    { intros p. unfold rp. rewrite port_list_in, in_map_iff. unfold tc. split.
      - intros ([s d] & <- & H). apply filter_In in H as [H E]. cbn [fst snd] in *. apply Nat.eqb_eq in E. split; [exists s, d; auto|].
        rewrite <- (types _ _ H). exact E.
      - intros [(s & d & H & <-) E]. exists (s, d). split; [reflexivity|]. apply filter_In. split; [exact H|]. apply Nat.eqb_eq.
        cbn [fst]. rewrite (types _ _ H). exact E. }
    assert (Ht : forall r, In r RS -> r_type r <> t).
    { intros r Hr E. destruct (g_for _ _ _ G r Hr) as [B1 B2]. apply HD in B1 as [_ B1]. apply Nt. congruence. }
    destruct (place_sends_ok o sp (port_list_nodup _)) as (P1 & P2 & P3).
    destruct (place_sends o sp) as [sends next] eqn:PS. cbn [fst snd] in *.
    destruct (place_all t rp D (LState sends [] next final RS)) as (D' & st' & E & HD' & G' & T' & new & En & Nn).
    - apply port_list_nodup.
    - intros p Hp. apply Hrp in Hp as [A1 A2]. repeat split; auto. intros H. apply HD in H as [_ H]. apply Nt. congruence.
    - exact G.
    - cbn [l_send l_receive l_next l_routings]. constructor.
      + exact P1.
      + intros p. rewrite P2, Hsp. split; [now left|]. intros [H|(r & H1 & H2 & _)]; [exact H|]. now apply Ht in H1.
      + intros e He. left. split; [|now apply P3]. apply (Hsp (e_port e)). apply P2. now apply in_map.
      + intros p. cbn. split; [tauto|]. intros [[H1 H2]|(r & H1 & H2 & _)].
        * apply HD in H1 as [_ H1]. apply Nt. congruence.
        * now apply Ht in H1.
      + constructor.
      + intros p H1 H2. exfalso. apply HD in H1 as [_ H1]. apply Nt. congruence.
    - fold tc in E. rewrite E. cbn [bind]. exists D'. eexists. split; [reflexivity|]. cbn [l_routings] in En.
      assert (HDD : forall p, In p D' <-> receiver p /\ In (a_type o p) (done ++ [t])).
      { intros p. rewrite HD', HD, Hrp, in_app_iff. cbn [In]. split.
        - intros [[A B]|[A B]]; split; auto.
        - intros [A [B|[B|[]]]]; auto. }
      split; [exact HDD|]. cbn [fst snd]. split; [exact G'|]. split; [rewrite map_app, HT; reflexivity|].
      intros tb Htb. apply in_app_iff in Htb as [Htb|[<-|[]]]; [|exact T'].
      rewrite En. assert (Hd : In (t_type tb) done) by (rewrite <- HT; now apply in_map).
      apply table_inv_extend with D; [now apply TI| | |].
      + intros p Hp. apply HD'. now right.
      + intros p Hp. apply HD' in Hp as [Hp|Hp]; [right|now left]. apply Hrp in Hp as [_ Hp]. intros E'. apply Nt. congruence.
      + intros r Hr. rewrite (Nn r Hr). split; [intros E'; apply Nt; congruence|].
        rewrite <- (Nn r Hr). symmetry. apply (g_for _ _ _ G'). rewrite En. apply in_app_iff. now right.
  Qed.

  Lemma layout_types_ok : exists D acc,
    fold_left (layout_type o partition alloc conns) (used_types (map (fun c => a_type o (fst (fst c))) conns)) (Ok ([], [], [])) = Ok acc
    /\ types_inv (used_types (map (fun c => a_type o (fst (fst c))) conns)) D acc
    /\ (forall p, In p D <-> receiver p).
  Proof using full recv_range send_range types known_type single directed alloc_in_inj alloc_out_inj alloc_in_out alloc_fresh partition_perm.
    set (ut := used_types _).
    assert (G : forall l done D acc, types_inv done D acc -> NoDup (done ++ l) ->
              exists D' acc', fold_left (layout_type o partition alloc conns) l (Ok acc) = Ok acc' /\ types_inv (done ++ l) D' acc').
    { induction l as [|t l IH]; intros done D acc I ND.
      - exists D, acc. rewrite app_nil_r. auto.
      - cbn [fold_left]. destruct (type_step done D acc t I) as (D1 & acc1 & E1 & I1).
        { apply NoDup_remove_2 in ND. intros H. apply ND. apply in_app_iff. now left. }
        rewrite E1. destruct (IH (done ++ [t]) D1 acc1 I1) as (D2 & acc2 & E2 & I2); [now rewrite <- app_assoc|].
        rewrite <- app_assoc in I2. eauto. }
    destruct (G ut [] [] ([], [], [])) as (D & acc & E & I).
    - split; [intros p; cbn; tauto|]. cbn [fst snd map]. split; [|split; [reflexivity|intros tb []]]. constructor.
      + intros x y. cbn. split; [tauto|]. intros [(_ & [] & _)|[(r & k & [] & _)|(r & k & [] & _)]].
      + intros [|n] r; discriminate.
      + intros r [].
      + constructor.
      + intros p [].
    - apply set_of_nodup.
    - exists D, acc. split; [exact E|]. split; [exact I|]. destruct I as (HD & _). intros p. rewrite HD. split; [tauto|]. intros H.
      split; [exact H|]. cbn [app]. apply set_of_in. destruct H as (s & d & H & <-). rewrite <- (types _ _ H). apply in_map_iff. exists (s, d). auto.
  Qed.
End Place.
