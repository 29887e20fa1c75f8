(** Lemmas for FlowModel. *)
From Verif Require Import Base FlowModel.
From Coq Require Import Permutation.
Local Open Scope res_scope.

(** induction over component hierarchies *)
Section CompInd.
  Variable P : comp -> Prop.
  Hypothesis HA : forall c a p, P (Atomic c a p).
  Hypothesis HC : forall c a p children conns pconns, Forall P children -> P (Composite c a p children conns pconns).
  Fixpoint comp_induction (c : comp) : P c :=
    match c with
    | Atomic c a p => HA c a p
    | Composite c a p children conns pconns =>
        HC c a p children conns pconns
           ((fix go (l : list comp) : Forall P l :=
               match l with [] => Forall_nil P | x :: l' => Forall_cons x (comp_induction x) (go l') end) children)
    end.
End CompInd.

Lemma channel_eqb_spec a b : reflect (a = b) (channel_eqb a b).
Proof.
  destruct a as [a1 a2], b as [b1 b2]. unfold channel_eqb. cbn [fst snd].
  destruct (Nat.eqb_spec a1 b1), (Nat.eqb_spec a2 b2); cbn; constructor; congruence.
Qed.
Lemma channel_eqb_refl a : channel_eqb a a = true.
Proof. now destruct (channel_eqb_spec a a). Qed.
Lemma channel_dec (a b : channel) : {a = b} + {a <> b}.
Proof. destruct (channel_eqb_spec a b); [now left|now right]. Qed.

Lemma mem_spec x l : mem x l = true <-> In x l.
Proof.
  unfold mem. rewrite existsb_exists. split.
  - intros (y & H & E). apply Nat.eqb_eq in E. now subst.
  - intros H. exists x. split; [exact H|apply Nat.eqb_refl].
Qed.
Lemma mem_false x l : mem x l = false <-> ~ In x l.
Proof. rewrite <- mem_spec. destruct (mem x l); split; congruence. Qed.

Lemma amap_insert_perm x m : Permutation (amap_insert x m) (x :: m).
Proof.
  induction m as [|y m IH]; [reflexivity|]. cbn [amap_insert].
  destruct (channel_ltb (fst x) (fst y)); [reflexivity|].
  rewrite IH. apply perm_swap.
Qed.
Lemma pmap_insert_perm x m : Permutation (pmap_insert x m) (x :: m).
Proof.
  induction m as [|y m IH]; [reflexivity|]. cbn [pmap_insert].
  destruct (fst x <? fst y); [reflexivity|].
  rewrite IH. apply perm_swap.
Qed.

Section Fill.
  Variable o : objects.

  (** *** Channel-level connections of a connection entry, of a composite, of a hierarchy *)
  Definition expand (c : aconn) : list (channel * channel) :=
    map (fun p => ((c_sender c, fst p), (c_receiver c, snd p))) (combine (c_send c) (c_receive c)).
  Fixpoint all_links (c : comp) : list (channel * channel) :=
    match c with
    | Atomic _ _ _ => []
    | Composite _ _ _ children conns _ => flat_map expand conns ++ flat_map all_links children
    end.
  Definition conn_ok (sends receives : list nat) (c : aconn) : Prop :=
    In (c_sender c) sends /\ In (c_receiver c) receives /\ length (c_send c) = length (c_receive c)
    /\ Forall (fun k => k < a_width o (c_sender c)) (c_send c)
    /\ Forall (fun k => k < a_width o (c_receiver c)) (c_receive c).
  Fixpoint all_ok (c : comp) : Prop :=
    match c with
    | Atomic _ _ _ => True
    | Composite _ audio _ children conns _ =>
        Forall (conn_ok (send_ports o audio children) (receive_ports o audio children)) conns
        /\ fold_right (fun ch P => all_ok ch /\ P) True children
    end.

  Lemma fold_insert c : forall l m,
    Permutation (fold_left (fun m p => amap_insert ((c_sender c, fst p), (c_receiver c, snd p)) m) l m)
                (map (fun p => ((c_sender c, fst p), (c_receiver c, snd p))) l ++ m).
  Proof.
    induction l as [|p l IH]; intros m; [reflexivity|]. cbn [fold_left map app].
    rewrite IH, amap_insert_perm. symmetry. apply Permutation_middle.
  Qed.

  Lemma max_bound l n : l <> [] -> (n <=? list_max l = false <-> Forall (fun k => k < n) l).
  Proof.
    intros N. rewrite <- (list_max_lt n N), Nat.leb_gt. reflexivity.
  Qed.

  Lemma fill_one_ok sends receives st c :
    let r := fill_one o sends receives st c in
    (fst r = true <-> fst st = true /\ conn_ok sends receives c)
    /\ (fst r = true -> Permutation (snd r) (expand c ++ snd st)).
  Proof.
    destruct st as [result m]. cbv zeta. unfold fill_one, conn_ok. cbn [fst snd].
    destruct (mem (c_sender c) sends) eqn:E1; cbn [negb].
    2:{ apply mem_false in E1. cbn [fst snd]. split; [split; [discriminate|tauto]|discriminate]. }
    apply mem_spec in E1. destruct (mem (c_receiver c) receives) eqn:E2; cbn [negb].
    2:{ apply mem_false in E2. cbn [fst snd]. split; [split; [discriminate|tauto]|discriminate]. }
    apply mem_spec in E2. destruct (Nat.eqb_spec (length (c_receive c)) (length (c_send c))) as [E3|E3]; cbn [negb].
    2:{ cbn [fst snd]. split; [split; [discriminate|intros (_ & _ & _ & L & _); lia]|discriminate]. }
    destruct (Nat.ltb_spec 0 (length (c_receive c))) as [E4|E4].
    - assert (N1 : c_send c <> []) by (destruct (c_send c); cbn in *; [lia|discriminate]).
      assert (N2 : c_receive c <> []) by (destruct (c_receive c); cbn in *; [lia|discriminate]).
      destruct (a_width o (c_sender c) <=? list_max (c_send c)) eqn:E5.
      { cbn [fst snd]. split; [|discriminate]. split; [discriminate|]. intros (_ & _ & _ & _ & F & _).
        apply max_bound in F; [congruence|exact N1]. }
      destruct (a_width o (c_receiver c) <=? list_max (c_receive c)) eqn:E6.
      { cbn [fst snd]. split; [|discriminate]. split; [discriminate|]. intros (_ & _ & _ & _ & _ & F).
        apply max_bound in F; [congruence|exact N2]. }
      apply max_bound in E5; [|exact N1]. apply max_bound in E6; [|exact N2].
      cbn [fst snd]. split; [|intros _; apply fold_insert]. split; [|tauto].
      intros H. repeat (split; [now auto|]). exact E6.
    - cbn [fst snd]. assert (c_receive c = []) as Z by (destruct (c_receive c); cbn in *; [reflexivity|lia]).
      assert (c_send c = []) as Z2 by (destruct (c_send c); [reflexivity|rewrite Z in E3; cbn in E3; lia]).
      split; [|intros _; unfold expand; now rewrite Z2]. split; [|tauto].
      intros H. rewrite Z, Z2. repeat (split; [now auto|]). auto.
  Qed.

  Lemma fill_fold_ok sends receives : forall conns st,
    let r := fold_left (fill_one o sends receives) conns st in
    (fst r = true <-> fst st = true /\ Forall (conn_ok sends receives) conns)
    /\ (fst r = true -> Permutation (snd r) (flat_map expand conns ++ snd st)).
  Proof.
    induction conns as [|c conns IH]; intros st; cbn [fold_left flat_map app].
    - cbv zeta. split; [|reflexivity]. split; [auto|tauto].
    - destruct (IH (fill_one o sends receives st c)) as [IH1 IH2].
      destruct (fill_one_ok sends receives st c) as [F1 F2]. cbv zeta in *. split.
      + rewrite IH1, F1, Forall_cons_iff. tauto.
      + intros H. rewrite (IH2 H). apply IH1 in H as [H _]. rewrite (F2 H), <- app_assoc.
        rewrite !app_assoc. apply Permutation_app_tail. apply Permutation_app_comm.
  Qed.

  Lemma fill_recursive_ok c : forall m,
    let r := fill_recursive o c m in
    (fst r = true <-> all_ok c) /\ (fst r = true -> Permutation (snd r) (all_links c ++ m)).
  Proof.
    induction c as [c a p|c a p children conns pconns IH] using comp_induction; intros m; cbv zeta.
    - cbn. split; [tauto|reflexivity].
    - cbn [fill_recursive all_ok all_links].
      destruct (fill_fold_ok (send_ports o a children) (receive_ports o a children) conns (true, m)) as [F1 F2].
      cbv zeta in F1, F2. fold (fill_local o a children conns m) in F1, F2.
      set (st := fill_local o a children conns m) in *. clearbody st. cbn [fst snd] in F1, F2.
      assert (G : forall l st, Forall (fun c => forall m, let r := fill_recursive o c m in
                    (fst r = true <-> all_ok c) /\ (fst r = true -> Permutation (snd r) (all_links c ++ m))) l ->
                  let r := fold_left (fun (st : bool * amap) child => if fst st then fill_recursive o child (snd st) else st) l st in
                  (fst r = true <-> fst st = true /\ fold_right (fun ch P => all_ok ch /\ P) True l)
                  /\ (fst r = true -> Permutation (snd r) (flat_map all_links l ++ snd st))).
      { clear. induction l as [|x l IHl]; intros st HF; cbn [fold_left fold_right flat_map app]; cbv zeta.
        - split; [tauto|reflexivity].
        - inversion HF as [|? ? Hx Hl]; subst. destruct (fst st) eqn:Es.
          + specialize (Hx (snd st)). cbv zeta in Hx. destruct Hx as [X1 X2].
            destruct (IHl (fill_recursive o x (snd st)) Hl) as [I1 I2]. cbv zeta in I1, I2. split.
            * rewrite I1, X1. tauto.
            * intros H. rewrite (I2 H). apply I1 in H as [H _]. rewrite (X2 H), <- app_assoc.
              rewrite !app_assoc. apply Permutation_app_tail, Permutation_app_comm.
          + destruct (IHl st Hl) as [I1 I2]. cbv zeta in I1, I2. split.
            * rewrite I1, Es. split; [intros [? _]; discriminate|intros [? _]; discriminate].
            * intros H. apply I1 in H as [H _]. congruence. }
      destruct (G children st IH) as [G1 G2]. cbv zeta in G1, G2. split.
      + rewrite G1, F1. tauto.
      + intros H. rewrite (G2 H). apply G1 in H as [H _]. rewrite (F2 H).
        rewrite !app_assoc. apply Permutation_app_tail, Permutation_app_comm.
  Qed.
End Fill.

(** *** Count tables *)
Section Tables.
  Variable o : objects.
  Definition keys (t : table) : list channel := map fst t.

  Lemma table_find_in t c n : NoDup (keys t) -> (table_find t c = Some n <-> In (c, n) t).
  Proof.
    unfold table_find, keys. induction t as [|[c' n'] t IH]; intros ND; cbn [find In map fst] in *.
    - split; [discriminate|tauto].
    - inversion ND as [|? ? Hn ND']; subst. destruct (channel_eqb_spec c' c) as [->|Ne]; cbn [snd].
      + split; [intros E; left; congruence|]. intros [E|H]; [congruence|].
        exfalso. apply Hn. apply in_map_iff. now exists (c, n).
      + rewrite (IH ND'). split; [auto|]. intros [E|H]; [congruence|exact H].
  Qed.
  Lemma table_find_none t c : table_find t c = None <-> ~ In c (keys t).
  Proof.
    unfold table_find, keys. induction t as [|[c' n'] t IH]; cbn [find In map fst] in *; [tauto|].
    destruct (channel_eqb_spec c' c) as [->|Ne]; [split; [discriminate|tauto]|].
    rewrite IH. tauto.
  Qed.
  Lemma table_count_keys t c : keys (table_count t c) = keys t.
  Proof.
    unfold keys, table_count. rewrite map_map. apply map_ext. intros [c' n']. cbn [fst snd].
    now destruct (channel_eqb c' c).
  Qed.
  Lemma table_count_find t c c' : table_find (table_count t c) c'
    = match table_find t c' with Some n => Some (if channel_eqb c c' then S n else n) | None => None end.
  Proof.
    unfold table_find, table_count. induction t as [|[d n] t IH]; [reflexivity|]. cbn [map find fst snd].
    destruct (channel_eqb_spec d c) as [->|Ne]; cbn [find fst snd].
    - destruct (channel_eqb_spec c c') as [->|Ne']; [reflexivity|].
      rewrite IH. reflexivity.
    - destruct (channel_eqb_spec d c') as [->|Ne']; [|exact IH].
      destruct (channel_eqb_spec c c') as [->|]; [contradiction|reflexivity].
  Qed.

  Lemma table_insert_keys t c : NoDup (keys t) -> NoDup (keys (table_insert t c)).
  Proof.
    intros ND. unfold table_insert. destruct (table_find t c) eqn:E; [exact ND|].
    apply table_find_none in E. unfold keys. rewrite map_app. cbn [map fst].
    rewrite Permutation_app_comm. constructor; assumption.
  Qed.
  Lemma table_insert_find t c c' : table_find (table_insert t c) c'
    = match table_find t c' with Some n => Some n | None => if channel_eqb c c' then Some 0 else None end.
  Proof.
    unfold table_insert. destruct (table_find t c) as [n|] eqn:E.
    - destruct (table_find t c') eqn:E'; [reflexivity|].
      destruct (channel_eqb_spec c c'); [congruence|reflexivity].
    - unfold table_find in *. clear E. induction t as [|[d n] t IH]; cbn [app find fst snd].
      + now destruct (channel_eqb c c').
      + destruct (channel_eqb d c'); [reflexivity|exact IH].
  Qed.

  Definition channel_in (ports : list nat) (c : channel) : bool := mem (fst c) ports && (snd c <? a_width o (fst c)).
  Lemma fillTable_ok ports : NoDup (keys (fillTable o ports))
    /\ forall c, table_find (fillTable o ports) c = if channel_in ports c then Some 0 else None.
  Proof.
    unfold fillTable.
    assert (K : forall p n s t, NoDup (keys t) ->
              let r := fold_left (fun t k => table_insert t (p, k)) (seq s n) t in
              NoDup (keys r) /\ forall c, table_find r c
                = match table_find t c with
                  | Some x => Some x
                  | None => if (fst c =? p) && (s <=? snd c) && (snd c <? s + n) then Some 0 else None end).
    { intros p. induction n as [|n IH]; intros s t ND; cbn [seq fold_left]; cbv zeta.
      - split; [exact ND|]. intros c. destruct (table_find t c); [reflexivity|].
        destruct (Nat.eqb_spec (fst c) p), (Nat.leb_spec s (snd c)), (Nat.ltb_spec (snd c) (s + 0)); cbn; auto; lia.
      - destruct (IH (S s) (table_insert t (p, s)) (table_insert_keys _ _ ND)) as [I1 I2]. split; [exact I1|].
        intros c. rewrite I2, table_insert_find. destruct (table_find t c); [reflexivity|].
        destruct (channel_eqb_spec (p, s) c) as [<-|Ne]; cbn [fst snd].
        + rewrite Nat.eqb_refl. destruct (Nat.leb_spec s s), (Nat.ltb_spec s (s + S n)); cbn; auto; lia.
        + destruct c as [q k]. cbn [fst snd].
          destruct (Nat.eqb_spec q p) as [->|]; [|reflexivity].
          destruct (Nat.leb_spec (S s) k), (Nat.leb_spec s k), (Nat.ltb_spec k (S s + n)), (Nat.ltb_spec k (s + S n));
            cbn; auto; try lia. exfalso. apply Ne. f_equal. lia. }
    assert (G : forall ps t, NoDup (keys t) ->
              let r := fold_left (fun t p => fold_left (fun t k => table_insert t (p, k)) (seq 0 (a_width o p)) t) ps t in
              NoDup (keys r) /\ forall c, table_find r c
                = match table_find t c with Some x => Some x | None => if channel_in ps c then Some 0 else None end).
    { induction ps as [|p ps IH]; intros t ND; cbn [fold_left]; cbv zeta.
      - split; [exact ND|]. intros c. now destruct (table_find t c).
      - destruct (K p (a_width o p) 0 t ND) as [K1 K2]. cbv zeta in K1, K2.
        destruct (IH _ K1) as [I1 I2]. split; [exact I1|]. intros c. rewrite I2, K2.
        destruct (table_find t c); [reflexivity|]. destruct c as [q k]. unfold channel_in, mem. cbn [fst snd existsb].
        destruct (Nat.eqb_spec q p) as [->|]; cbn [andb orb Nat.leb Nat.add].
        + destruct (k <? a_width o p); [reflexivity|]. cbn. now rewrite andb_false_r.
        + reflexivity. }
    destruct (G ports [] ltac:(constructor)) as [G1 G2]. split; [exact G1|]. intros c. rewrite G2. reflexivity.
  Qed.

  (** number of connections of a channel *)
  Definition sent (m : amap) (c : channel) : nat := length (filter (fun e => channel_eqb (fst e) c) m).
  Definition received (m : amap) (c : channel) : nat := length (filter (fun e => channel_eqb (snd e) c) m).

  Lemma count_fold : forall m result sends receives,
    Forall (fun e => table_find sends (fst e) <> None /\ table_find receives (snd e) <> None) m ->
    exists result' sends' receives',
      fold_left count_connection m (result, sends, receives) = (result', sends', receives')
      /\ keys sends' = keys sends /\ keys receives' = keys receives
      /\ (forall c, table_find sends' c = match table_find sends c with Some n => Some (n + sent m c) | None => None end)
      /\ (forall c, table_find receives' c = match table_find receives c with Some n => Some (n + received m c) | None => None end)
      /\ (result' = true <-> result = true /\ NoDup (map snd m) /\ forall c, In c (map snd m) -> table_find receives c = Some 0).
  Proof.
    induction m as [|e m IH]; intros result sends receives HF; cbn [fold_left].
    - exists result, sends, receives. split; [reflexivity|]. split; [reflexivity|]. split; [reflexivity|].
      split; [intros c; destruct (table_find sends c); [f_equal; cbn; lia|reflexivity]|].
      split; [intros c; destruct (table_find receives c); [f_equal; cbn; lia|reflexivity]|].
      cbn [map In]. split; [intros ->; split; [reflexivity|]; split; [constructor|tauto]|tauto].
    - apply Forall_cons_iff in HF as [[Hs Hr] HF]. unfold count_connection at 2.
      destruct (table_find sends (fst e)) as [ns|] eqn:Es; [|congruence].
      destruct (table_find receives (snd e)) as [nr|] eqn:Er; [|congruence].
      destruct (IH (result && negb (0 <? nr)) (table_count sends (fst e)) (table_count receives (snd e)))
        as (r' & s' & t' & E & K1 & K2 & F1 & F2 & R).
      { eapply Forall_impl; [|exact HF]. intros x [X1 X2]. rewrite !table_count_find.
        destruct (table_find sends (fst x)); [|congruence]. destruct (table_find receives (snd x)); [|congruence].
        split; discriminate. }
      exists r', s', t'. split; [exact E|]. rewrite table_count_keys in K1, K2. split; [exact K1|]. split; [exact K2|].
      split; [|split].
      + intros c. rewrite F1, table_count_find. destruct (table_find sends c) as [n|]; [|reflexivity].
        unfold sent. cbn [filter]. destruct (channel_eqb (fst e) c); cbn [length]; f_equal; lia.
      + intros c. rewrite F2, table_count_find. destruct (table_find receives c) as [n|]; [|reflexivity].
        unfold received. cbn [filter]. destruct (channel_eqb (snd e) c); cbn [length]; f_equal; lia.
      + rewrite R, andb_true_iff, negb_true_iff. cbn [map].
        split.
        * intros ((-> & N0) & ND & H0). apply Nat.ltb_ge in N0. assert (nr = 0) by lia. subst nr.
          assert (Ni : ~ In (snd e) (map snd m)).
          { intros H. specialize (H0 _ H). rewrite table_count_find, Er, channel_eqb_refl in H0. discriminate. }
          split; [reflexivity|]. split; [now constructor|]. intros c [<-|Hc]; [exact Er|].
          specialize (H0 c Hc). rewrite table_count_find in H0. destruct (table_find receives c); [|discriminate].
          destruct (channel_eqb (snd e) c); [discriminate|exact H0].
        * intros (-> & ND & H0). inversion ND as [|? ? Ni ND']; subst.
          assert (nr = 0) by (specialize (H0 (snd e) (or_introl eq_refl)); congruence). subst nr.
          split; [split; reflexivity|]. split; [exact ND'|]. intros c Hc.
          rewrite table_count_find, (H0 c (or_intror Hc)).
          destruct (channel_eqb_spec (snd e) c) as [<-|]; [contradiction|reflexivity].
  Qed.

  Lemma received_perm m m' c : Permutation m m' -> received m c = received m' c.
  Proof.
    intros P. unfold received. induction P; cbn [filter]; try congruence.
    - destruct (channel_eqb (snd x) c); cbn [length]; congruence.
    - destruct (channel_eqb (snd x) c), (channel_eqb (snd y) c); reflexivity.
  Qed.
  Lemma sent_perm m m' c : Permutation m m' -> sent m c = sent m' c.
  Proof.
    intros P. unfold sent. induction P; cbn [filter]; try congruence.
    - destruct (channel_eqb (fst x) c); cbn [length]; congruence.
    - destruct (channel_eqb (fst x) c), (channel_eqb (fst y) c); reflexivity.
  Qed.
  Lemma received_nodup m : (forall c, received m c <= 1) <-> NoDup (map snd m).
  Proof.
    unfold received. induction m as [|e m IH]; cbn [filter map].
    - split; [constructor|auto].
    - split.
      + intros H. assert (Ni : ~ In (snd e) (map snd m)).
        { intros Hi. apply in_map_iff in Hi as (x & Ex & Hx). specialize (H (snd e)).
          rewrite channel_eqb_refl in H. cbn [length] in H.
          assert (In x (filter (fun y => channel_eqb (snd y) (snd e)) m)).
          { apply filter_In. split; [exact Hx|]. rewrite Ex. apply channel_eqb_refl. }
          destruct (filter _ m); [contradiction|cbn in H; lia]. }
        constructor; [exact Ni|]. apply IH. intros c. specialize (H c).
        destruct (channel_eqb (snd e) c); cbn [length] in H; lia.
      + intros ND c. inversion ND as [|? ? Ni ND']; subst. destruct (channel_eqb_spec (snd e) c) as [<-|].
        * cbn [length]. destruct (filter _ m) as [|x l] eqn:E; [cbn; lia|]. exfalso. apply Ni.
          assert (Hx : In x (filter (fun y => channel_eqb (snd y) (snd e)) m)) by (rewrite E; now left).
          apply filter_In in Hx as [Hx Ex]. destruct (channel_eqb_spec (snd x) (snd e)) as [Eq|]; [|discriminate].
          rewrite <- Eq. now apply in_map.
        * apply IH. exact ND'.
  Qed.
End Tables.

(** *** The audio integrity check *)
Section Check.
  Variable o : objects.

  Lemma expand_in c e : In e (expand c) ->
    fst (fst e) = c_sender c /\ fst (snd e) = c_receiver c /\ In (snd (fst e)) (c_send c) /\ In (snd (snd e)) (c_receive c).
  Proof.
    unfold expand. rewrite in_map_iff. intros ((i, k) & <- & H). cbn [fst snd].
    split; [reflexivity|]. split; [reflexivity|]. split; [eapply in_combine_l|eapply in_combine_r]; exact H.
  Qed.
  Lemma expand_known sends receives conns : Forall (conn_ok o sends receives) conns ->
    Forall (fun e => channel_in o sends (fst e) = true /\ channel_in o receives (snd e) = true) (flat_map expand conns).
  Proof.
    intros HF. apply Forall_forall. intros e He. apply in_flat_map in He as (c & Hc & He).
    rewrite Forall_forall in HF. destruct (HF c Hc) as (K1 & K2 & _ & K3 & K4).
    destruct (expand_in c e He) as (E1 & E2 & E3 & E4). rewrite Forall_forall in K3, K4.
    unfold channel_in. rewrite E1, E2, !andb_true_iff, !mem_spec, !Nat.ltb_lt. auto.
  Qed.

  Lemma sent_pos m c : 0 < sent m c <-> exists e, In e m /\ fst e = c.
  Proof.
    unfold sent. split.
    - intros H. destruct (filter _ m) as [|e l] eqn:E; [cbn in H; lia|].
      assert (He : In e (filter (fun x => channel_eqb (fst x) c) m)) by (rewrite E; now left).
      apply filter_In in He as [He Ee]. exists e. split; [exact He|].
      now destruct (channel_eqb_spec (fst e) c).
    - intros (e & He & <-). assert (H : In e (filter (fun x => channel_eqb (fst x) (fst e)) m)).
      { apply filter_In. split; [exact He|apply channel_eqb_refl]. }
      destruct (filter _ m); [contradiction|cbn; lia].
  Qed.
  Lemma received_pos m c : 0 < received m c <-> In c (map snd m).
  Proof.
    unfold received. rewrite in_map_iff. split.
    - intros H. destruct (filter _ m) as [|e l] eqn:E; [cbn in H; lia|].
      assert (He : In e (filter (fun x => channel_eqb (snd x) c) m)) by (rewrite E; now left).
      apply filter_In in He as [He Ee]. exists e. split; [|exact He].
      now destruct (channel_eqb_spec (snd e) c).
    - intros (e & <- & He). assert (H : In e (filter (fun x => channel_eqb (snd x) (snd e)) m)).
      { apply filter_In. split; [exact He|apply channel_eqb_refl]. }
      destruct (filter _ m); [contradiction|cbn; lia].
  Qed.

  Lemma check_audio_local_ok audio children conns :
    check_audio_local o audio children conns = true
    <-> Forall (conn_ok o (send_ports o audio children) (receive_ports o audio children)) conns
        /\ (forall c, channel_in o (receive_ports o audio children) c = true -> received (flat_map expand conns) c = 1)
        /\ (forall c, channel_in o (send_ports o audio children) c = true -> 0 < sent (flat_map expand conns) c).
  Proof.
    unfold check_audio_local. set (sp := send_ports o audio children). set (rp := receive_ports o audio children).
    destruct (fill_fold_ok o sp rp conns (true, [])) as [F1 F2]. cbv zeta in F1, F2.
    change (fold_left (fill_one o sp rp) conns (true, [])) with (fill_local o audio children conns []) in F1, F2.
    destruct (fill_local o audio children conns []) as [ok m] eqn:Ef. cbn [fst snd] in F1, F2.
    destruct ok; cbn [negb fst snd].
    2:{ split; [intros X; discriminate X|]. intros (HF & _). assert (false = true) by (apply F1; auto). discriminate. }
    assert (HF : Forall (conn_ok o sp rp) conns) by (apply F1; reflexivity).
    specialize (F2 eq_refl). rewrite app_nil_r in F2. pose proof (expand_known _ _ _ HF) as HK.
    rewrite <- F2 in HK.
    destruct (fillTable_ok o sp) as [N1 T1]. destruct (fillTable_ok o rp) as [N2 T2].
    destruct (count_fold m true (fillTable o sp) (fillTable o rp)) as (r' & s' & t' & E & K1 & K2 & G1 & G2 & R).
    { eapply Forall_impl; [|exact HK]. intros e [A B]. rewrite T1, T2, A, B. split; discriminate. }
    rewrite E. rewrite !andb_true_iff, !forallb_forall.
    rewrite <- K1 in N1. rewrite <- K2 in N2.
    assert (RR : forall c n, In (c, n) t' <-> channel_in o rp c = true /\ n = received (flat_map expand conns) c).
    { intros c n. rewrite <- (table_find_in t' c n N2), G2, T2, (received_perm m _ c F2).
      destruct (channel_in o rp c); [|split; [discriminate|intros [? _]; discriminate]].
      rewrite Nat.add_0_l. split; [intros [= <-]; auto|intros [_ ->]; reflexivity]. }
    assert (SS : forall c n, In (c, n) s' <-> channel_in o sp c = true /\ n = sent (flat_map expand conns) c).
    { intros c n. rewrite <- (table_find_in s' c n N1), G1, T1, (sent_perm m _ c F2).
      destruct (channel_in o sp c); [|split; [discriminate|intros [? _]; discriminate]].
      rewrite Nat.add_0_l. split; [intros [= <-]; auto|intros [_ ->]; reflexivity]. }
    split.
    - intros [[Hr H1] H2]. split; [exact HF|]. split; intros c Hc.
      + specialize (H1 (c, received (flat_map expand conns) c)). cbn [fst snd] in H1.
        assert (Hi : In (c, received (flat_map expand conns) c) t') by (apply RR; auto).
        specialize (H1 Hi). destruct (Nat.eqb_spec (received (flat_map expand conns) c) 0); [discriminate|].
        destruct (Nat.ltb_spec 1 (received (flat_map expand conns) c)); [discriminate|]. lia.
      + specialize (H2 (c, sent (flat_map expand conns) c)). cbn [fst snd] in H2.
        assert (Hi : In (c, sent (flat_map expand conns) c) s') by (apply SS; auto).
        specialize (H2 Hi). destruct (Nat.eqb_spec (sent (flat_map expand conns) c) 0); [discriminate|]. lia.
    - intros (_ & H1 & H2). split; [split|].
      + apply R. split; [reflexivity|]. split.
        * apply received_nodup. intros c. rewrite (received_perm m _ c F2).
          destruct (channel_in o rp c) eqn:Ec; [rewrite (H1 c Ec); lia|].
          destruct (received (flat_map expand conns) c) eqn:Er; [lia|]. exfalso.
          assert (Hp : 0 < received m c) by (rewrite (received_perm m _ c F2); lia).
          apply received_pos in Hp. apply in_map_iff in Hp as (e & <- & He).
          rewrite Forall_forall in HK. destruct (HK e He). congruence.
        * intros c Hc. rewrite T2. apply in_map_iff in Hc as (e & <- & He).
          rewrite Forall_forall in HK. destruct (HK e He) as [_ ->]. reflexivity.
      + intros [c n] Hi. apply RR in Hi as [Hc ->]. cbn [fst snd]. rewrite (H1 c Hc). cbn. apply Nat.eqb_refl.
      + intros [c n] Hi. apply SS in Hi as [Hc ->]. cbn [fst snd]. specialize (H2 c Hc).
        destruct (Nat.eqb_spec (sent (flat_map expand conns) c) 0); [lia|reflexivity].
  Qed.

  (** *** composites of a hierarchy *)
  Inductive inside : comp -> comp -> Prop :=
  | inside_self c : inside c c
  | inside_child x ch c a p children conns pconns :
      In ch children -> inside x ch -> inside x (Composite c a p children conns pconns).
  Lemma inside_composite x c a p children conns pconns : inside x (Composite c a p children conns pconns)
    <-> x = Composite c a p children conns pconns \/ exists ch, In ch children /\ inside x ch.
  Proof.
    split.
    - intros H. remember (Composite c a p children conns pconns) as t eqn:E. destruct H as [|x ch c' a' p' l cs ps Hi H]; [now left|].
      inversion E; subst. right. now exists ch.
    - intros [->|(ch & Hi & H)]; [constructor|]. now apply inside_child with ch.
  Qed.
  Lemma check_audio_inside c :
    check_audio o c = true
    <-> forall i a p children conns pconns, inside (Composite i a p children conns pconns) c ->
        check_audio_local o a children conns = true.
  Proof.
    induction c as [c a p|c a p children conns pconns IH] using comp_induction.
    - split; [|reflexivity]. intros _ i a' p' ch cs ps H. inversion H.
    - cbn [check_audio]. rewrite andb_true_iff, forallb_forall. split.
      + intros [H1 H2] i a' p' ch cs ps H. apply inside_composite in H as [E|(x & Hx & H)]; [inversion E; subst; exact H1|].
        rewrite Forall_forall in IH. eapply (IH _ Hx); [now apply H2|exact H].
      + intros H. split; [eapply H; constructor|]. intros x Hx.
        rewrite Forall_forall in IH. apply (IH x Hx). intros i a' p' ch cs ps Hi. eapply H.
        econstructor; [exact Hx|exact Hi].
  Qed.
  Lemma check_params_inside c :
    check_params o c = true
    <-> forall i a p children conns pconns, inside (Composite i a p children conns pconns) c ->
        check_params_local o p children pconns = true.
  Proof.
    induction c as [c a p|c a p children conns pconns IH] using comp_induction.
    - split; [|reflexivity]. intros _ i a' p' ch cs ps H. inversion H.
    - cbn [check_params]. rewrite andb_true_iff, forallb_forall. split.
      + intros [H1 H2] i a' p' ch cs ps H. apply inside_composite in H as [E|(x & Hx & H)]; [inversion E; subst; exact H1|].
        rewrite Forall_forall in IH. eapply (IH _ Hx); [now apply H2|exact H].
      + intros H. split; [eapply H; constructor|]. intros x Hx.
        rewrite Forall_forall in IH. apply (IH x Hx). intros i a' p' ch cs ps Hi. eapply H.
        econstructor; [exact Hx|exact Hi].
  Qed.
  Lemma all_ok_inside c :
    all_ok o c
    <-> forall i a p children conns pconns, inside (Composite i a p children conns pconns) c ->
        Forall (conn_ok o (send_ports o a children) (receive_ports o a children)) conns.
  Proof.
    induction c as [c a p|c a p children conns pconns IH] using comp_induction.
    - split; [|reflexivity]. intros _ i a' p' ch cs ps H. inversion H.
    - cbn [all_ok].
      assert (G : forall l, fold_right (fun ch P => all_ok o ch /\ P) True l <-> forall x, In x l -> all_ok o x).
      { clear. induction l as [|x l IHl]; cbn [fold_right In]; [tauto|]. rewrite IHl.
        split; [intros [A B] y [<-|H]; auto|intros H; split; auto]. }
      rewrite G. rewrite Forall_forall in IH. split.
      + intros [H1 H2] i a' p' ch cs ps H. apply inside_composite in H as [E|(x & Hx & H)]; [inversion E; subst; exact H1|].
        eapply (IH _ Hx); [now apply H2|exact H].
      + intros H. split; [eapply H; constructor|]. intros x Hx.
        apply (IH x Hx). intros i a' p' ch cs ps Hi. eapply H.
        econstructor; [exact Hx|exact Hi].
  Qed.
  Lemma all_links_inside c e :
    In e (all_links c) <-> exists i a p children conns pconns,
      inside (Composite i a p children conns pconns) c /\ In e (flat_map expand conns).
  Proof.
    induction c as [c a p|c a p children conns pconns IH] using comp_induction; cbn [all_links].
    - split; [contradiction|]. intros (i & a' & p' & ch & cs & ps & H & _). inversion H.
    - rewrite in_app_iff, (in_flat_map all_links). rewrite Forall_forall in IH. split.
      + intros [H|(x & Hx & H)].
        * exists c, a, p, children, conns, pconns. split; [constructor|exact H].
        * apply (IH x Hx) in H as (i & a' & p' & ch & cs & ps & Hi & H).
          exists i, a', p', ch, cs, ps. split; [econstructor; [exact Hx|exact Hi]|exact H].
      + intros (i & a' & p' & ch & cs & ps & Hi & H). apply inside_composite in Hi as [E|(x & Hx & Hi)]; [inversion E; subst; now left|].
        right. exists x. split; [assumption|]. apply (IH x Hx). now exists i, a', p', ch, cs, ps.
  Qed.

  Lemma same_set_ok a b : same_set a b = true <-> forall x, In x a <-> In x b.
  Proof.
    unfold same_set. rewrite andb_true_iff, !forallb_forall. setoid_rewrite mem_spec. firstorder.
  Qed.

  Lemma check_params_local_ok params children pconns :
    check_params_local o params children pconns = true
    <-> Forall (fun c => In (fst c) (send_params o params children) /\ In (snd c) (receive_params o params children)
                         /\ compatible o (fst c) (snd c) = true) pconns
        /\ (forall p, In p (send_params o params children) -> In p (map fst pconns))
        /\ (forall p, In p (receive_params o params children) -> In p (map snd pconns)).
  Proof.
    unfold check_params_local. set (sp := send_params o params children). set (rp := receive_params o params children).
    assert (G : forall l result us ur,
              exists result' us' ur', fold_left (check_param o sp rp) l (result, us, ur) = (result', us', ur')
              /\ (result' = true <-> result = true /\ Forall (fun c => In (fst c) sp /\ In (snd c) rp /\ compatible o (fst c) (snd c) = true) l)
              /\ (result' = true -> (forall p, In p us' <-> In p us \/ In p (map fst l)) /\ (forall p, In p ur' <-> In p ur \/ In p (map snd l)))).
    { induction l as [|[s r] l IH]; intros result us ur; cbn [fold_left].
      - exists result, us, ur. split; [reflexivity|]. cbn. split; [intuition constructor|]. intuition.
      - unfold check_param at 2. destruct (mem s sp) eqn:E1; cbn [negb].
        2:{ apply mem_false in E1. destruct (IH false us ur) as (r' & us' & ur' & E & I1 & I2).
            exists r', us', ur'. split; [exact E|]. rewrite Forall_cons_iff. cbn [fst snd].
            assert (r' = true -> False) by (intros H; apply I1 in H as [? _]; discriminate). tauto. }
        apply mem_spec in E1. destruct (mem r rp) eqn:E2; cbn [negb].
        2:{ apply mem_false in E2. destruct (IH false (s :: us) ur) as (r' & us' & ur' & E & I1 & I2).
            exists r', us', ur'. split; [exact E|]. rewrite Forall_cons_iff. cbn [fst snd].
            assert (r' = true -> False) by (intros H; apply I1 in H as [? _]; discriminate). tauto. }
        apply mem_spec in E2.
        destruct (IH (result && compatible o s r) (s :: us) (r :: ur)) as (r' & us' & ur' & E & I1 & I2).
        exists r', us', ur'. split; [exact E|]. split.
        + rewrite I1, Forall_cons_iff, andb_true_iff. cbn [fst snd]. tauto.
        + intros H. destruct (I2 H) as [J1 J2]. cbn [map fst snd In] in *.
          split; intros p; [rewrite J1|rewrite J2]; tauto. }
    destruct (G pconns true [] []) as (r' & us' & ur' & E & I1 & I2). rewrite E, !andb_true_iff, !same_set_ok.
    cbn [In] in I2. split.
    - intros [[H A] B]. destruct (I2 H) as [J1 J2]. apply I1 in H as [_ H]. split; [exact H|].
      split; intros p Hp; [apply A in Hp; apply J1 in Hp; tauto|apply B in Hp; apply J2 in Hp; tauto].
    - intros (H & A & B). assert (Hr : r' = true) by (apply I1; auto). destruct (I2 Hr) as [J1 J2].
      split; [split; [exact Hr|]|]; intros p; [rewrite J1|rewrite J2]; (split; [intros [[]|Hp]|auto]).
      + apply in_map_iff in Hp as (x & <- & Hx). rewrite Forall_forall in H. now apply H.
      + apply in_map_iff in Hp as (x & <- & Hx). rewrite Forall_forall in H. now apply (H x Hx).
  Qed.
End Check.
