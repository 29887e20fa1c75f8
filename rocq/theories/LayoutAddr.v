(** From channel offsets to byte addresses: lemmas about the second run. *)
From Verif Require Import Base FlowModel FlowProofs FlowTree SchedModel SchedProofs LayoutModel LayoutTables LayoutProofs.
From Coq Require Import Permutation.
Local Open Scope res_scope.

Lemma aligned_divides size alignment : alignment <> 0 -> Nat.divide alignment (nextAlignedSize size alignment).
Proof.
  intros H. unfold nextAlignedSize. destruct alignment as [|a]; [congruence|].
  destruct (Nat.eqb_spec (size mod S a) 0) as [E|E]; [now apply Nat.mod_divide|]. now exists (size / S a + 1).
Qed.
Lemma aligned_ge size alignment : size <= nextAlignedSize size alignment.
Proof.
  unfold nextAlignedSize. destruct alignment as [|a]; [lia|]. destruct (Nat.eqb_spec (size mod S a) 0) as [E|E]; [lia|].
  pose proof (Nat.div_mod size (S a)). pose proof (Nat.mod_upper_bound size (S a)). nia.
Qed.
Lemma aligned_samples block size alignment : alignment = 0 \/ Nat.divide size alignment ->
  Nat.divide size (nextAlignedSize (block * size) alignment).
Proof.
  intros H. unfold nextAlignedSize. destruct alignment as [|a]; [now exists block|].
  destruct ((block * size) mod S a =? 0); [now exists block|]. destruct H as [H|[c H]]; [discriminate|].
  exists ((block * size / S a + 1) * c). rewrite H. lia.
Qed.

Section Addr.
  Variable o : objects.
  Variable type_size : nat -> nat.
  Variables block alignment : nat.
  Let cb := channelSizeBytes type_size block alignment.

  Fixpoint bases (tables : list typed) (off : nat) : list (typed * nat) :=
    match tables with [] => [] | t :: ts => (t, off) :: bases ts (off + t_count t * cb (t_type t)) end.
  Fixpoint pool (tables : list typed) : nat := match tables with [] => 0 | t :: ts => t_count t * cb (t_type t) + pool ts end.

  Lemma pool_fold tables n :
    fold_left (fun n t => n + t_count t * channelSizeBytes type_size block alignment (t_type t)) tables n = n + pool tables.
  Proof. revert n. induction tables as [|t ts IH]; intros n; cbn [fold_left pool]; [lia|]. rewrite IH. unfold cb. lia. Qed.

  Lemma bases_bounds tables off tb b : In (tb, b) (bases tables off) ->
    In tb tables /\ off <= b /\ b + t_count tb * cb (t_type tb) <= off + pool tables.
  Proof.
    revert off. induction tables as [|t ts IH]; intros off H; [destruct H|]. cbn [bases pool] in *. destruct H as [E|H].
    - injection E as <- <-. split; [now left|]. lia.
    - destruct (IH _ H) as (A & B & C). split; [now right|]. lia.
  Qed.
  Lemma bases_some tables off tb : In tb tables -> exists b, In (tb, b) (bases tables off).
  Proof.
    revert off. induction tables as [|t ts IH]; intros off H; [destruct H|]. cbn [bases]. destruct H as [<-|H]; [eexists; now left|].
    destruct (IH (off + t_count t * cb (t_type t)) H) as (b & Hb). exists b. now right.
  Qed.
  Lemma bases_disjoint tables off tb b tb' b' : In (tb, b) (bases tables off) -> In (tb', b') (bases tables off) ->
    (tb, b) = (tb', b') \/ b + t_count tb * cb (t_type tb) <= b' \/ b' + t_count tb' * cb (t_type tb') <= b.
  Proof.
    revert off. induction tables as [|t ts IH]; intros off H H'; [destruct H|]. cbn [bases] in *. destruct H as [E|H], H' as [E'|H'].
    - left. congruence.
    - injection E as <- <-. apply bases_bounds in H' as (_ & B & _). auto.
    - injection E' as <- <-. apply bases_bounds in H as (_ & B & _). auto.
    - now apply IH with (off := off + t_count t * cb (t_type t)).
  Qed.
  Lemma bases_unique tables off tb b tb' b' : NoDup (map t_type tables) ->
    In (tb, b) (bases tables off) -> In (tb', b') (bases tables off) -> t_type tb = t_type tb' -> (tb, b) = (tb', b').
  Proof.
    revert off. induction tables as [|t ts IH]; intros off ND H H' E; [destruct H|]. cbn [bases map] in *.
    apply NoDup_cons_iff in ND as [Ni ND]. destruct H as [X|H], H' as [X'|H'].
    - congruence.
    - exfalso. apply Ni. injection X as <- <-. apply bases_bounds in H' as (H' & _). rewrite E. now apply in_map.
    - exfalso. apply Ni. injection X' as <- <-. apply bases_bounds in H as (H & _). rewrite <- E. now apply in_map.
    - now apply IH with (off := off + t_count t * cb (t_type t)).
  Qed.

  Definition one (tb : typed) (b : nat) (e : entry) : config :=
    (e_port e, (b + cb (t_type tb) * e_offset e, cb (t_type tb) / type_size (t_type tb))).
  Definition configs_of (bs : list (typed * nat)) : list config :=
    flat_map (fun x => map (one (fst x) (snd x)) (t_send (fst x)) ++ map (one (fst x) (snd x)) (t_receive (fst x))) bs.

  Lemma assign_all tables : (forall tb, In tb tables -> cb (t_type tb) mod type_size (t_type tb) = 0
                                   /\ fold_left (fun n e => n + e_width e) (t_send tb) 0 = t_count tb) ->
    forall off configs, fold_left (assign_type type_size block alignment) tables (Ok (off, configs))
      = Ok (off + pool tables, configs ++ configs_of (bases tables off)).
  Proof.
    induction tables as [|t ts IH]; intros H off configs; cbn [fold_left bases pool configs_of flat_map].
    - now rewrite app_nil_r, Nat.add_0_r.
    - unfold assign_type at 2. cbn [bind]. fold cb. destruct (H t (or_introl eq_refl)) as [H1 H2].
      change (channelSizeBytes type_size block alignment (t_type t)) with (cb (t_type t)).
      rewrite H1, H2. cbn [Nat.eqb negb]. rewrite IH by (intros tb Htb; apply H; now right).
      f_equal. f_equal; [lia|]. rewrite <- !app_assoc. reflexivity.
  Qed.

  Lemma configs_in bs p cfg : In (p, cfg) (configs_of bs) <->
    exists tb b e, In (tb, b) bs /\ (In e (t_send tb) \/ In e (t_receive tb)) /\ (p, cfg) = one tb b e.
  Proof.
    unfold configs_of. rewrite in_flat_map. split.
    - intros ([tb b] & H & K). cbn [fst snd] in K. apply in_app_iff in K as [K|K]; apply in_map_iff in K as (e & E & He); exists tb, b, e; auto.
    - intros (tb & b & e & H & He & E). exists (tb, b). split; [exact H|]. cbn [fst snd]. rewrite E. apply in_app_iff.
      destruct He; [left|right]; now apply in_map.
  Qed.
  Lemma config_of_unique configs p cfg : In (p, cfg) configs -> (forall c, In (p, c) configs -> c = cfg) -> config_of configs p = Some cfg.
  Proof.
    intros H U. unfold config_of. match goal with |- context [find ?f ?l] => destruct (find f l) as [[q c]|] eqn:F end.
    - apply find_some in F as [F E]. apply Nat.eqb_eq in E. cbn [fst snd] in *. subst q. f_equal. apply U. now apply in_rev.
    - exfalso. apply find_none with (x := (p, cfg)) in F; [|now apply in_rev in H]. cbn [fst] in F. now rewrite Nat.eqb_refl in F.
  Qed.

  Variable alloc : nat -> nat * nat * nat.
  Variable conns : amap.
  Variables (D : list nat) (C : amap) (RS : list routing) (tables : list typed).
  Hypothesis directed : forall p, sender conns p -> ~ receiver conns p.
  Hypothesis alloc_in_inj : forall n m, alloc_in alloc n = alloc_in alloc m -> n = m.
  Hypothesis alloc_out_inj : forall n m, alloc_out alloc n = alloc_out alloc m -> n = m.
  Hypothesis alloc_in_out : forall n m, alloc_in alloc n <> alloc_out alloc m.
  Hypothesis alloc_fresh : forall n, ~ sender conns (alloc_in alloc n) /\ ~ receiver conns (alloc_in alloc n)
                                  /\ ~ sender conns (alloc_out alloc n) /\ ~ receiver conns (alloc_out alloc n).
  Hypothesis G : global_inv o alloc conns D C RS.
  Hypothesis TI : forall tb, In tb tables -> table_inv o conns (t_type tb) D RS (t_send tb) (t_receive tb) (t_count tb).
  Hypothesis TN : NoDup (map t_type tables).
  Hypothesis sizes : forall tb, In tb tables -> type_size (t_type tb) <> 0 /\ Nat.divide (type_size (t_type tb)) (cb (t_type tb)).

  Lemma routing_nth r : In r RS -> exists n, alloc_in alloc n = r_in r /\ alloc_out alloc n = r_out r /\ nth_error RS n = Some r.
  Proof using G.
    clear - G. intros H. apply In_nth_error in H as (n & E). exists n. pose proof (g_alloc _ _ _ _ _ _ G n r E) as A.
    unfold alloc_in, alloc_out. rewrite A. auto.
  Qed.
  Lemma routing_unique r r' : In r RS -> In r' RS -> (r_in r = r_in r' \/ r_out r = r_out r') -> r = r'.
  Proof using G alloc_in_inj alloc_out_inj.
    clear - G alloc_in_inj alloc_out_inj. intros H H' E. destruct (routing_nth r H) as (n & A1 & A2 & A3). destruct (routing_nth r' H') as (n' & B1 & B2 & B3).
    assert (n = n') by (destruct E; [apply alloc_in_inj|apply alloc_out_inj]; congruence). congruence.
  Qed.
  Lemma routing_in_out r r' : In r RS -> In r' RS -> r_in r <> r_out r'.
  Proof using G alloc_in_out.
    clear - G alloc_in_out. intros H H' E. destruct (routing_nth r H) as (n & A1 & _). destruct (routing_nth r' H') as (n' & _ & B2 & _).
    apply (alloc_in_out n n'). congruence.
  Qed.
  Lemma routing_fresh r : In r RS -> ~ sender conns (r_in r) /\ ~ receiver conns (r_in r) /\ ~ sender conns (r_out r) /\ ~ receiver conns (r_out r).
  Proof using G alloc_fresh.
    clear - G alloc_fresh. intros H. destruct (routing_nth r H) as (n & A1 & A2 & _). rewrite <- A1, <- A2. apply alloc_fresh.
  Qed.

  Lemma port_type_plain p : (sender conns p \/ receiver conns p) -> port_type o RS p = a_type o p.
  Proof using G alloc_fresh.
    clear - G alloc_fresh. intros H. unfold port_type.
    destruct (find (fun r => (r_in r =? p) || (r_out r =? p)) RS) as [r|] eqn:F; [|reflexivity]. exfalso.
    apply find_some in F as [F E]. apply orb_true_iff in E. rewrite !Nat.eqb_eq in E.
    destruct (routing_fresh r F) as (A1 & A2 & A3 & A4). destruct E as [<-|<-], H; contradiction.
  Qed.
  Lemma port_type_routing r : In r RS -> port_type o RS (r_in r) = r_type r /\ port_type o RS (r_out r) = r_type r.
  Proof using G alloc_in_inj alloc_out_inj alloc_in_out.
    clear - G alloc_in_inj alloc_out_inj alloc_in_out. intros H. unfold port_type. split.
    - destruct (find (fun q => (r_in q =? r_in r) || (r_out q =? r_in r)) RS) as [q|] eqn:F.
      + apply find_some in F as [F E]. apply orb_true_iff in E. rewrite !Nat.eqb_eq in E. destruct E as [E|E].
        * now rewrite (routing_unique q r F H (or_introl E)).
        * exfalso. now apply (routing_in_out r q H F).
      + exfalso. apply find_none with (x := r) in F; [|exact H]. now rewrite Nat.eqb_refl in F.
    - destruct (find (fun q => (r_in q =? r_out r) || (r_out q =? r_out r)) RS) as [q|] eqn:F.
      + apply find_some in F as [F E]. apply orb_true_iff in E. rewrite !Nat.eqb_eq in E. destruct E as [E|E].
        * exfalso. now apply (routing_in_out q r F H).
        * now rewrite (routing_unique q r F H (or_intror E)).
      + exfalso. apply find_none with (x := r) in F; [|exact H]. rewrite Nat.eqb_refl, orb_true_r in F. discriminate.
  Qed.
  Lemma table_type tb e : In tb tables -> (In e (t_send tb) \/ In e (t_receive tb)) -> port_type o RS (e_port e) = t_type tb.
  Proof using G TI alloc_fresh alloc_in_inj alloc_out_inj alloc_in_out.
    clear - G TI alloc_fresh alloc_in_inj alloc_out_inj alloc_in_out. intros H [He|He].
    - assert (I : In (e_port e) (map e_port (t_send tb))) by now apply in_map.
      apply (t_sports _ _ _ _ _ _ _ _ (TI tb H)) in I as [[I1 I2]|(r & I1 & I2 & I3)].
      + rewrite port_type_plain; auto.
      + rewrite <- I3. destruct (port_type_routing r I1). congruence.
    - assert (I : In (e_port e) (map e_port (t_receive tb))) by now apply in_map.
      apply (t_rports _ _ _ _ _ _ _ _ (TI tb H)) in I as [[I1 I2]|(r & I1 & I2 & I3)].
      + rewrite port_type_plain; [exact I2|right]. now apply (g_done _ _ _ _ _ _ G).
      + rewrite <- I3. destruct (port_type_routing r I1). congruence.
  Qed.
  Lemma entry_unique tb e f : In tb tables -> (In e (t_send tb) \/ In e (t_receive tb)) -> (In f (t_send tb) \/ In f (t_receive tb)) ->
    e_port e = e_port f -> e = f.
  Proof using G TI directed alloc_fresh alloc_in_inj alloc_out_inj alloc_in_out.
    clear - G TI directed alloc_fresh alloc_in_inj alloc_out_inj alloc_in_out. intros H He Hf E. pose proof (TI tb H) as T.
    assert (X : forall e f, In e (t_send tb) -> In f (t_receive tb) -> e_port e <> e_port f).
    { clear - G T directed alloc_fresh alloc_in_inj alloc_out_inj alloc_in_out. intros e f He Hf E.
      assert (I : In (e_port e) (map e_port (t_send tb))) by now apply in_map.
      assert (J : In (e_port f) (map e_port (t_receive tb))) by now apply in_map.
      apply (t_sports _ _ _ _ _ _ _ _ T) in I. apply (t_rports _ _ _ _ _ _ _ _ T) in J. rewrite <- E in J.
      destruct I as [[I1 I2]|(r & I1 & I2 & I3)], J as [[J1 J2]|(q & J1 & J2 & J3)].
      - apply (g_done _ _ _ _ _ _ G) in J1. now apply (directed (e_port e)).
      - destruct (routing_fresh q J1) as (K & _). apply K. now rewrite J3.
      - apply (g_done _ _ _ _ _ _ G) in J1. destruct (routing_fresh r I1) as (_ & _ & _ & K). apply K. now rewrite I3.
      - apply (routing_in_out q r J1 I1). congruence. }
    destruct He as [He|He], Hf as [Hf|Hf].
    - now apply (nodup_port (t_send tb)); [apply (t_ok _ _ _ _ _ _ _ _ T)| | |].
    - exfalso. now apply (X e f).
    - exfalso. now apply (X f e).
    - now apply (nodup_port (t_receive tb)); [apply (t_rnodup _ _ _ _ _ _ _ _ T)| | |].
  Qed.

  Lemma address_ok tb b e k : In (tb, b) (bases tables 0) -> (In e (t_send tb) \/ In e (t_receive tb)) ->
    address o type_size (configs_of (bases tables 0)) RS (e_port e, k) = Ok (b + cb (t_type tb) * (e_offset e + k)).
  Proof using G TI TN sizes directed alloc_fresh alloc_in_inj alloc_out_inj alloc_in_out.
    intros H He. pose proof (proj1 (bases_bounds _ _ _ _ H)) as Ht. unfold address. cbn [fst snd].
    rewrite (config_of_unique _ _ (b + cb (t_type tb) * e_offset e, cb (t_type tb) / type_size (t_type tb))).
    - rewrite (table_type tb e Ht He). destruct (sizes tb Ht) as [S1 [c S2]]. rewrite S2. rewrite Nat.div_mul by exact S1. f_equal. lia.
    - apply configs_in. exists tb, b, e. auto.
    - intros cfg K. apply configs_in in K as (tb' & b' & f & K1 & K2 & K3). unfold one in K3. injection K3 as E ->.
      assert (Et : t_type tb' = t_type tb).
      { rewrite <- (table_type tb e Ht He), <- (table_type tb' f (proj1 (bases_bounds _ _ _ _ K1)) K2). now rewrite E. }
      pose proof (bases_unique _ _ _ _ _ _ TN K1 H Et) as X. injection X as -> ->.
      now rewrite (entry_unique tb e f Ht He K2 E).
  Qed.
  Lemma channels_ok (ports : list nat) : (forall p, In p ports -> a_width o p <> 0 -> exists tb e, In tb tables /\ (In e (t_send tb) \/ In e (t_receive tb)) /\ e_port e = p) ->
    exists l, external_channels o type_size (configs_of (bases tables 0)) RS ports = Ok l
      /\ Forall2 (fun c a => address o type_size (configs_of (bases tables 0)) RS c = Ok a)
                 (flat_map (fun p => map (fun k => (p, k)) (seq 0 (a_width o p))) ports) l.
  Proof using G TI TN sizes directed alloc_fresh alloc_in_inj alloc_out_inj alloc_in_out.
    intros H. unfold external_channels. set (cs := flat_map _ ports).
    assert (X : forall c, In c cs -> exists a, address o type_size (configs_of (bases tables 0)) RS c = Ok a).
    { intros [q k] Hc. unfold cs in Hc. apply in_flat_map in Hc as (p & Hp & Hk). apply in_map_iff in Hk as (j & E & Hj).
      injection E as <- <-. apply in_seq in Hj. destruct (H p Hp) as (tb & e & Ht & He & <-); [lia|].
      destruct (bases_some tables 0 tb Ht) as (b & Hb). eexists. now apply address_ok with (tb := tb) (b := b). }
    clearbody cs. clear - X.
    assert (Gn : forall cs pre, (forall c, In c cs -> exists a, address o type_size (configs_of (bases tables 0)) RS c = Ok a) ->
      exists l, fold_left (fun r c => l <- r ;; a <- address o type_size (configs_of (bases tables 0)) RS c ;; Ok (l ++ [a])) cs (Ok pre) = Ok (pre ++ l)
        /\ Forall2 (fun c a => address o type_size (configs_of (bases tables 0)) RS c = Ok a) cs l).
    { clear. induction cs as [|c cs IH]; intros pre X; cbn [fold_left]; [exists []; rewrite app_nil_r; split; constructor|].
      destruct (X c (or_introl eq_refl)) as (a & Ea). cbn [bind]. rewrite Ea. cbn [bind].
      destruct (IH (pre ++ [a])) as (l & E & F); [intros d Hd; apply X; now right|]. exists (a :: l). split; [|now constructor].
      rewrite E. now rewrite <- app_assoc. }
    destruct (Gn cs [] X) as (l & E & F). exists l. auto.
  Qed.
  Lemma finish_ok audio : (forall p, In p audio -> a_width o p <> 0 -> exists tb e, In tb tables /\ (In e (t_send tb) \/ In e (t_receive tb)) /\ e_port e = p) ->
    exists y, finish o type_size block alignment audio tables C RS = Ok y
      /\ y_pool y = pool tables /\ y_configs y = configs_of (bases tables 0) /\ y_conns y = C /\ y_routings y = RS
      /\ Forall2 (fun c a => address o type_size (y_configs y) (y_routings y) c = Ok a)
           (flat_map (fun p => map (fun k => (p, k)) (seq 0 (a_width o p))) (filter (fun p => is_input (a_dir o p)) audio)) (y_capture y)
      /\ Forall2 (fun c a => address o type_size (y_configs y) (y_routings y) c = Ok a)
           (flat_map (fun p => map (fun k => (p, k)) (seq 0 (a_width o p))) (filter (fun p => negb (is_input (a_dir o p))) audio)) (y_playback y).
  Proof using G TI TN sizes directed alloc_fresh alloc_in_inj alloc_out_inj alloc_in_out.
    intros H. unfold finish. rewrite pool_fold. rewrite assign_all.
    2:{ intros tb Ht. split; [|apply table_sum, (t_ok _ _ _ _ _ _ _ _ (TI tb Ht))]. destruct (sizes tb Ht) as [S1 S2]. now apply Nat.mod_divide. }
    cbn [bind app]. rewrite Nat.eqb_refl. cbn [negb]. fold cb.
    destruct (channels_ok (filter (fun p => is_input (a_dir o p)) audio)) as (l1 & E1 & F1).
    { intros p Hp. apply filter_In in Hp as [Hp _]. now apply H. }
    destruct (channels_ok (filter (fun p => negb (is_input (a_dir o p))) audio)) as (l2 & E2 & F2).
    { intros p Hp. apply filter_In in Hp as [Hp _]. now apply H. }
    rewrite E1. cbn [bind]. rewrite E2. cbn [bind]. eexists. split; [reflexivity|].
    do 4 (split; [reflexivity|]). split; [exact F1|exact F2].
  Qed.
End Addr.
