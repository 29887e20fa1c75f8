(** MultichannelConvolverUniform: histories of calls, refinement of the specification. *)
From Verif Require Import Base Memory CircularBufferModel CircularBufferProofs RingSum
  ConvolverModel ConvolverProofs RoutingProofs.
From Coq Require Import Ring Permutation.
Local Open Scope res_scope.

Section Multi.
  Context {T : Type} (rO rI : T) (radd rmul rsub : T -> T -> T) (ropp : T -> T).
  Variable RT : ring_theory rO rI radd rmul rsub ropp (@eq T).
  Add Ring TRing3 : RT.
  Local Notation "0" := rO. Local Notation "1" := rI.
  Local Infix "+" := radd. Local Infix "*" := rmul.
  Local Notation sum := (sum rO radd).
  Local Notation at_ l i := (nth i l 0).
  Local Notation conv := (conv rO radd rmul).
  Local Notation conv_block := (conv_block rO radd rmul).

  Context {K : Type} (kzero : K) (kadd kmul : K -> K -> K) (inj : T -> K)
          (fwd : list T -> list K) (inv : list K -> list T) (dsize : nat -> nat).
  Local Notation multi := (multi T K).
  Local Notation core := (core T K).
  Local Notation routing := (routing T).
  Local Notation fmap := (@fmap T).

  (** *** Calls *)
  Inductive mop :=
  | MSetRouting (x : routing)
  | MRemoveRouting (i o : nat)
  | MInitRoutings (l : list routing)
  | MSetIr (ir : list T) (idx : nat)
  | MInitFilters (rows : list (list T)) (cols : nat)
  | MClearFilters
  | MProcess (input : list (list T)).
  (** What the caller sees: normal return or exception, or the output block. *)
  Inductive mevent := EReturn (r : res unit) | EAudio (y : res (list (list T))).

  Definition with_table (m : multi) (t : list routing) : multi :=
    MkMulti (m_core m) (m_outputs m) (m_max m) t.
  Definition with_core (m : multi) (c : core) : multi :=
    MkMulti c (m_outputs m) (m_max m) (m_table m).

  Definition multi_step (m : multi) (o : mop) : multi * mevent :=
    let c := m_core m in
    match o with
    | MSetRouting x =>
        let '(r, t) := set_routing (c_inputs c) (m_outputs m) (length (c_filters c)) (m_max m) (m_table m) x in
        (with_table m t, EReturn r)
    | MRemoveRouting i o =>
        (* the return value is the subject of C25 *)
        (with_table m (snd (remove_routing 0 (m_table m) i o)), EReturn (Ok tt))
    | MInitRoutings l =>
        let '(r, t) := init_routings (c_inputs c) (m_outputs m) (length (c_filters c)) (m_max m) l in
        (with_table m t, EReturn r)
    | MSetIr ir idx =>
        match set_ir 0 rmul fwd c ir idx with
        | Ok c' => (with_core m c', EReturn (Ok tt))
        | Throw e => (m, EReturn (Throw e))
        | UB => (m, EReturn UB)
        end
    | MInitFilters rows cols =>
        let '(r, c') := init_filters 0 rmul kzero fwd dsize c rows cols in (with_core m c', EReturn r)
    | MClearFilters => (with_core m (clear_filters kzero dsize c), EReturn (Ok tt))
    | MProcess input =>
        match multi_process kzero kadd kmul inj fwd inv dsize m input with
        | Ok (m', y) => (m', EAudio (Ok y))
        | Throw e => (m, EAudio (Throw e))
        | UB => (m, EAudio UB)
        end
    end.

  (** *** Specification: a finite map of routings, the filters, the signals received *)
  Record spec := MkSpec { s_map : fmap; s_filter : nat -> list T; s_signal : nat -> list T }.

  (** *** Sums over the entries of a table *)
  Definition table_sum (v : nat -> nat -> T -> T) (t : list routing) (o : nat) : T :=
    fold_right (fun r acc => (if r_out r =? o then v (r_in r) (r_filter r) (r_gain r) else 0) + acc) 0 t.
  Lemma table_sum_map ni no v t o : valid ni no t ->
    table_sum v t o
    = sum ni (fun i => match table_map t i o with Some (f, g) => v i f g | None => 0 end).
  Proof.
    intros [S V]. induction t as [|r t IH].
    - simpl. symmetry. now apply (sum_zero rO rI radd rmul rsub ropp RT).
    - assert (S' : sorted t) by (now inversion S).
      destruct (V r (or_introl eq_refl)) as [A B].
      cbn [table_sum fold_right]. fold (table_sum v t o). rewrite IH by (auto; intros; apply V; now right).
      set (term := v (r_in r) (r_filter r) (r_gain r)).
      transitivity (sum ni (fun i => (if ((i =? r_in r) && (r_out r =? o))%nat then term else 0)
          + match table_map t i o with Some (f, g) => v i f g | None => 0 end)).
      + rewrite (sum_add rO rI radd rmul rsub ropp RT). f_equal.
        rewrite (sum_single rO rI radd rmul rsub ropp RT ni (r_in r)); [|exact A|].
        * now rewrite Nat.eqb_refl.
        * intros i _ N. destruct (Nat.eqb_spec i (r_in r)); [contradiction|reflexivity].
      + apply (sum_ext rO radd). intros i Hi. unfold table_map. cbn [find]. rewrite key_is_eqb.
        rewrite (Nat.eqb_sym o). destruct (Nat.eqb_spec i (r_in r)) as [->|]; cbn [andb].
        * destruct (Nat.eqb_spec (r_out r) o) as [Eo|No].
          -- cbn [option_map]. unfold term.
             assert (find (key_is (r_in r) o) t = None) as ->.
             { apply find_none_key. intros y Hy. assert (Q := sorted_tail_key r t S y Hy).
               unfold key_is, same_key in *. destruct (Nat.eqb_spec (r_in y) (r_in r)), (Nat.eqb_spec (r_out y) o); try reflexivity.
               exfalso. apply Q. split; congruence. }
             simpl. ring.
          -- ring.
        * ring.
  Qed.

  Section Sizes.
  Variables (ni no max nf maxlen b : nat).

  Fixpoint spec_sets (m : fmap) (l : list routing) : fmap * res unit :=
    match l with
    | [] => (m, Ok tt)
    | x :: r => match fset_entry ni no nf max m x with
                | Some m' => spec_sets m' r
                | None => (m, Throw InvalidArgument)
                end
    end.

  (** output [o], sample [k] of the newest block *)
  Definition spec_sample (s : spec) (o k : nat) : T :=
    sum ni (fun i => match s_map s i o with
                     | Some (f, g) => g * conv (s_filter s f) (s_signal s i) (length (s_signal s i) - b + k)%nat
                     | None => 0
                     end).
  Definition spec_block (s : spec) : list (list T) :=
    map (fun o => map (spec_sample s o) (seq 0 b)) (seq 0 no).

  Definition spec_step (s : spec) (op : mop) : spec * mevent :=
    match op with
    | MSetRouting x =>
        match fset_entry ni no nf max (s_map s) x with
        | Some m => (MkSpec m (s_filter s) (s_signal s), EReturn (Ok tt))
        | None => (s, EReturn (Throw InvalidArgument))
        end
    | MRemoveRouting i o => (MkSpec (fset (s_map s) i o None) (s_filter s) (s_signal s), EReturn (Ok tt))
    | MInitRoutings l =>
        let '(m, r) := if max <? length l then (fempty, Throw InvalidArgument) else spec_sets fempty l in
        (MkSpec m (s_filter s) (s_signal s), EReturn r)
    | MSetIr ir idx =>
        if (idx <? nf) && (length ir <=? maxlen)
        then (MkSpec (s_map s) (fun f => if f =? idx then ir else s_filter s f) (s_signal s), EReturn (Ok tt))
        else (s, EReturn (Throw InvalidArgument))
    | MInitFilters rows cols =>
        if (length rows <=? nf) && (cols <=? maxlen)
        then (MkSpec (s_map s) (fun f => nth f rows []) (s_signal s), EReturn (Ok tt))
        else (MkSpec (s_map s) (fun _ => []) (s_signal s), EReturn (Throw InvalidArgument))
    | MClearFilters => (MkSpec (s_map s) (fun _ => []) (s_signal s), EReturn (Ok tt))
    | MProcess input =>
        let s' := MkSpec (s_map s) (s_filter s) (fun i => s_signal s i ++ nth i input []) in
        (s', EAudio (Ok (spec_block s')))
    end.

  (** Blocks have the configured size; matrices are rectangular. *)
  Definition mop_ok (op : mop) : Prop :=
    match op with
    | MProcess input => length input = ni /\ Forall (fun x => length x = b) input
    | MInitFilters rows cols => Forall (fun r => length r = cols) rows
    | _ => True
    end.

  (** *** Refinement *)
  Variable cst : T.
  Hypothesis TO : transform_ok rO radd rmul kzero kadd kmul inj fwd inv dsize b cst.

  Definition bounded (t : list routing) : Prop := forall r, In r t -> r_filter r < nf.

  Record rel (m : multi) (s : spec) : Prop := {
    q_core : core_inv rO radd rmul kmul fwd inv dsize (m_core m) nf (s_signal s) (s_filter s);
    q_block : c_block (m_core m) = b;
    q_inputs : c_inputs (m_core m) = ni;
    q_maxlen : c_maxlen (m_core m) = maxlen;
    q_scale : c_scale (m_core m) * cst = 1;
    q_outputs : m_outputs m = no;
    q_max : m_max m = max;
    q_table : valid ni no (m_table m);
    q_length : length (m_table m) <= max;
    q_bounded : bounded (m_table m);
    q_map : forall i o, table_map (m_table m) i o = s_map s i o }.

  Lemma fset_entry_ext (m m' : fmap) (x : routing) : (forall i o, m i o = m' i o) ->
    match fset_entry ni no nf max m x, fset_entry ni no nf max m' x with
    | Some r, Some r' => forall i o, r i o = r' i o
    | None, None => True
    | _, _ => False
    end.
  Proof.
    intros E. unfold fset_entry. rewrite E, (fcount_ext ni no m m') by auto.
    destruct (_ && _); [|exact I]. intros i o. unfold fset. now rewrite E.
  Qed.
  Lemma ms_erase_one_In (x : routing) t r : In r (ms_erase_one x t) -> In r t.
  Proof.
    induction t as [|y t IH]; simpl; [auto|]. destruct (r_equiv x y); [now right|].
    intros [->|H]; [now left|right; auto].
  Qed.
  Lemma set_routing_bounded (t : list routing) x e t' : bounded t ->
    set_routing ni no nf max t x = (e, t') -> bounded t'.
  Proof.
    intros B E. unfold set_routing in E.
    destruct (ni <=? r_in x); [now injection E as <- <-|].
    destruct (no <=? r_out x); [now injection E as <- <-|].
    destruct (Nat.leb_spec nf (r_filter x)); [now injection E as <- <-|].
    destruct (max <=? _); injection E as <- <-; intros r Hr.
    - apply B, (ms_erase_one_In _ _ _ Hr).
    - apply ms_insert_In in Hr as [->|Hr]; [assumption|]. apply B, (ms_erase_one_In _ _ _ Hr).
  Qed.

  Definition table_ok (t : list routing) (m : fmap) : Prop :=
    valid ni no t /\ length t <= max /\ bounded t /\ forall i o, table_map t i o = m i o.

  Lemma set_entry_rel t m x : table_ok t m ->
    match fset_entry ni no nf max m x with
    | Some m' => exists t', set_routing ni no nf max t x = (Ok tt, t') /\ table_ok t' m'
    | None => set_routing ni no nf max t x = (Throw InvalidArgument, t)
    end.
  Proof.
    intros (V & L & B & E). assert (S := set_routing_ok ni no nf max t x V L).
    assert (X := fset_entry_ext _ _ x E).
    destruct (fset_entry ni no nf max (table_map t) x) as [m1|], (fset_entry ni no nf max m x) as [m2|];
      try contradiction.
    - destruct S as (t' & E' & V' & L' & M'). exists t'. split; [exact E'|].
      repeat split; try apply V'; auto.
      + eapply set_routing_bounded; eauto.
      + intros i o. now rewrite M', X.
    - exact S.
  Qed.
  Lemma sets_rel l : forall t m, table_ok t m ->
    exists t', set_routings ni no nf max t l = (snd (spec_sets m l), t') /\ table_ok t' (fst (spec_sets m l)).
  Proof.
    induction l as [|x l IH]; intros t m H; simpl; [exists t; auto|].
    assert (S := set_entry_rel t m x H). destruct (fset_entry ni no nf max m x) as [m'|].
    - destruct S as (t' & E & H'). rewrite E. now apply IH.
    - rewrite S. exists t. auto.
  Qed.
  Lemma empty_ok : table_ok [] fempty.
  Proof.
    split; [split; [constructor|]; intros r []|]. split; [simpl; lia|]. split; [intros r []|]. reflexivity.
  Qed.

  (** processOutputs over a table *)
  Definition entry_sum (s : spec) (t : list routing) (o k : nat) : T :=
    fold_right (fun r acc => (if r_out r =? o then
        r_gain r * conv (s_filter s (r_filter r)) (s_signal s (r_in r)) (length (s_signal s (r_in r)) - b + k)%nat
        else 0) + acc) 0 t.

  Lemma transform_output_length c X : c_block c = b -> length X = dsize b ->
    length (transform_output inv c X) = b.
  Proof.
    intros Eb L. unfold transform_output. rewrite Eb, skipn_length, (t_inv_length _ _ _ _ _ _ _ _ _ _ _ _ TO) by exact L. lia.
  Qed.

  Lemma route_all_ok c s : core_inv rO radd rmul kmul fwd inv dsize c nf (s_signal s) (s_filter s) -> c_block c = b ->
    (forall i, i < c_inputs c -> b <= length (s_signal s i)) ->
    forall t fd, (forall r, In r t -> r_in r < c_inputs c /\ r_out r < no /\ r_filter r < nf) ->
    length fd = no -> (forall o X, nth_error fd o = Some X -> length X = dsize b) ->
    exists fd', route_all kadd kmul inj c t fd = Ok fd' /\ length fd' = no
      /\ (forall o X, nth_error fd' o = Some X -> length X = dsize b)
      /\ forall o X X', nth_error fd o = Some X -> nth_error fd' o = Some X' ->
         forall k, k < b -> at_ (transform_output inv c X') k = at_ (transform_output inv c X) k + entry_sum s t o k.
  Proof.
    intros V Eb Hs. induction t as [|r t IH]; intros fd Ht Lf Wf.
    - exists fd. split; [reflexivity|]. split; [exact Lf|]. split; [exact Wf|].
      intros o X X' E1 E2 k Hk. assert (X = X') by congruence. subst. simpl. ring.
    - destruct (Ht r (or_introl eq_refl)) as (R1 & R2 & R3). cbn [route_all].
      destruct (nth_error_lt fd (r_out r)) as [acc Ea]; [lia|]. rewrite (get_ok _ _ _ Ea). cbn [bind].
      destruct (process_filter_ok rO rI radd rmul rsub ropp RT kzero kadd kmul inj fwd inv dsize b cst TO
                  c nf (s_signal s) (s_filter s) (r_in r) (r_filter r) (r_gain r) acc true V Eb R1 R3
                  (Hs _ R1) (fun _ => Wf _ _ Ea)) as (acc' & Ep & Lp & Tp).
      rewrite Ep. cbn [bind].
      destruct (IH (set_nth fd (r_out r) acc')) as (fd' & E & L & W & N).
      { intros r' Hr'. apply Ht. now right. }
      { now rewrite set_nth_length. }
      { intros o X HX. rewrite set_nth_error in HX.
        destruct ((o =? r_out r) && (r_out r <? length fd)); [injection HX as <-; exact Lp|now apply (Wf o)]. }
      exists fd'. split; [exact E|]. split; [exact L|]. split; [exact W|].
      intros o X X' E1 E2 k Hk. cbn [entry_sum fold_right].
      fold (entry_sum s t o k).
      assert (S := set_nth_error fd (r_out r) acc' o).
      destruct (Nat.ltb_spec (r_out r) (length fd)); [|lia]. rewrite andb_true_r in S.
      destruct (Nat.eqb_spec o (r_out r)) as [->|No].
      + rewrite (N _ _ _ S E2 k Hk), Tp, Nat.eqb_refl.
        assert (X = acc) by congruence. subst X.
        assert (Lc : length (conv_block b (s_filter s (r_filter r)) (s_signal s (r_in r))) = b)
          by (unfold ConvolverProofs.conv_block; now rewrite map_length, seq_length).
        rewrite (map2_nth radd 0 0) by (rewrite ?map_length, ?Lc, ?(transform_output_length c acc Eb (Wf _ _ Ea)); auto).
        rewrite (map_nth' (rmul (r_gain r)) 0) by (now rewrite Lc).
        unfold ConvolverProofs.conv_block. rewrite map_seq_nth by exact Hk. ring.
      + rewrite E1 in S. rewrite (N _ _ _ S E2 k Hk).
        destruct (Nat.eqb_spec (r_out r) o); [congruence|]. ring.
  Qed.

  (** the sum over the entries is the sum over the map *)
  Lemma entry_sum_map s t o k : valid ni no t ->
    entry_sum s t o k
    = sum ni (fun i => match table_map t i o with
                       | Some (f, g) => g * conv (s_filter s f) (s_signal s i) (length (s_signal s i) - b + k)%nat
                       | None => 0
                       end).
  Proof.
    intros V. apply (table_sum_map ni no (fun i f g => g * conv (s_filter s f) (s_signal s i) (length (s_signal s i) - b + k)%nat) t o V).
  Qed.

  Lemma zero_output c k : c_block c = b ->
    at_ (transform_output inv c (repeat kzero (dsize b))) k = 0.
  Proof.
    intros Eb. unfold transform_output. rewrite (t_inv_zero _ _ _ _ _ _ _ _ _ _ _ _ TO), Eb.
    assert (Z : forall n q j, at_ (skipn n (repeat 0 q)) j = 0); [|apply Z].
    induction n as [|n IH]; intros q j; simpl.
    - destruct (nth_in_or_default j (repeat 0 q) 0) as [H|H]; [now apply repeat_spec in H|exact H].
    - destruct q; simpl; [destruct j; reflexivity|]. apply IH.
  Qed.

  Lemma process_rel m s input : rel m s -> length input = ni -> Forall (fun x => length x = b) input ->
    let s' := MkSpec (s_map s) (s_filter s) (fun i => s_signal s i ++ nth i input []) in
    exists m', multi_process kzero kadd kmul inj fwd inv dsize m input = Ok (m', spec_block s') /\ rel m' s'.
  Proof.
    intros Q Li Fi s'. destruct Q as [Qc Qb Qi Qm Qs Qo Qx Qt Ql Qn Qp].
    destruct (process_inputs_ok rO radd rmul kmul fwd inv dsize b
                (m_core m) nf (s_signal s) (s_filter s) input Qc Qb) as (c' & E & V & Cb & Ci & Cp & Cm & Cf & Cs);
      [congruence|exact Fi|].
    assert (Fb : forall i, firstn b (nth i input []) = nth i input []).
    { intros i. apply firstn_all2. destruct (nth_in_or_default i input []) as [H|H].
      - rewrite Forall_forall in Fi. rewrite (Fi _ H). lia.
      - rewrite H. simpl. lia. }
    assert (V' : core_inv rO radd rmul kmul fwd inv dsize c' nf (s_signal s') (s_filter s')).
    { destruct V. constructor; auto.
      - destruct v_ring as [al [C1 C2 C3 C4 C5 C6]]. exists al. constructor; auto.
        intros ch row Hrow. specialize (C6 ch row Hrow). unfold appended in C6. now rewrite Fb in C6.
      - intros ch r Hr. destruct (v_fdl_row ch r Hr) as [X Y]. split; [exact X|]. intros k Hk.
        rewrite (Y k Hk). simpl. unfold appended. now rewrite Fb. }
    unfold multi_process. rewrite E. cbn [bind]. unfold multi_outputs. cbn [m_core m_table m_outputs].
    unfold zero_block. rewrite Cb.
    destruct (route_all_ok c' s' V' Cb) with (t := m_table m) (fd := repeat (repeat kzero (dsize b)) (m_outputs m))
      as (fd' & Er & Lr & Wr & Nr).
    - intros i Hi. simpl. rewrite app_length.
      assert (length (nth i input []) = b); [|lia]. rewrite Forall_forall in Fi. apply Fi, nth_In. congruence.
    - intros r Hr. rewrite Ci, Qi. destruct (proj2 Qt r Hr). auto.
    - now rewrite repeat_length.
    - intros o X HX. apply nth_error_In, repeat_spec in HX. subst X. apply repeat_length.
    - rewrite Er. cbn [bind].
      eexists. split.
      + f_equal. f_equal. unfold spec_block. apply (list_ext []).
        * now rewrite !map_length, seq_length.
        * intros o Ho. rewrite map_length in Ho. rewrite (map_nth' (transform_output inv c') []) by exact Ho.
          rewrite map_seq_nth by congruence.
          destruct (nth_error_lt fd' o Ho) as [X' EX']. rewrite (nth_error_nth _ _ _ EX').
          assert (LX := transform_output_length c' X' Cb (Wr _ _ EX')).
          apply (list_ext 0); [rewrite map_length, seq_length; exact LX|].
          intros k Hk. rewrite LX in Hk. rewrite map_seq_nth by exact Hk.
          assert (EX : nth_error (repeat (repeat kzero (dsize b)) (m_outputs m)) o = Some (repeat kzero (dsize b)))
            by (apply nth_error_repeat; congruence).
          rewrite (Nr o _ _ EX EX' k Hk), zero_output by exact Cb.
          rewrite entry_sum_map by exact Qt. unfold spec_sample.
          rewrite (sum_ext rO radd ni _ (fun i => match s_map s' i o with
                     | Some (f, g) => g * conv (s_filter s' f) (s_signal s' i) (length (s_signal s' i) - b + k)%nat
                     | None => 0 end)); [ring|].
          intros i Hi. now rewrite Qp.
      + constructor; simpl; auto; congruence.
  Qed.

  Lemma step_rel m s op : rel m s -> mop_ok op ->
    rel (fst (multi_step m op)) (fst (spec_step s op)) /\ snd (multi_step m op) = snd (spec_step s op).
  Proof.
    intros Q W. assert (Q' := Q). destruct Q as [Qc Qb Qi Qm Qs Qo Qx Qt Ql Qn Qp].
    assert (TK : table_ok (m_table m) (s_map s)) by (split; [exact Qt|auto]).
    destruct op as [x|i o|l|ir idx|rows cols| |input]; cbn [multi_step spec_step].
    - rewrite Qi, Qo, Qx, (v_filters _ _ _ _ _ _ _ _ _ _ _ Qc).
      assert (S := set_entry_rel _ _ x TK). destruct (fset_entry ni no nf max (s_map s) x) as [m'|].
      + destruct S as (t' & E & (A & B & C & D)). rewrite E. split; [constructor; auto|reflexivity].
      + rewrite S. split; [constructor; auto|reflexivity].
    - destruct (remove_routing_ok 0 ni no max (m_table m) i o Qt Ql) as (A & B & C).
      split; [|reflexivity]. constructor; auto.
      + cbn [fst with_table m_table]. intros r Hr. unfold remove_routing in Hr. apply erase_not_in in Hr. now apply Qn.
      + intros i' o'. cbn [fst with_table m_table s_map]. rewrite C. unfold fset. now rewrite Qp.
    - rewrite Qi, Qo, Qx, (v_filters _ _ _ _ _ _ _ _ _ _ _ Qc). unfold init_routings.
      destruct (max <? length l).
      + destruct empty_ok as (A & B & C & D). split; [constructor; auto|reflexivity].
      + destruct (sets_rel l [] fempty empty_ok) as (t' & E & (A & B & C & D)). rewrite E.
        destruct (spec_sets fempty l) as [mm r]. split; [constructor; auto|reflexivity].
    - assert (S := set_ir_ok rO rI radd rmul rsub ropp RT kzero kadd kmul inj fwd inv dsize b cst TO
                     (m_core m) nf (s_signal s) (s_filter s) ir idx Qc Qb Qs).
      rewrite Qm in S. destruct (set_ir 0 rmul fwd (m_core m) ir idx) as [c'|e|]; [| |destruct S].
      + destruct S as (A & B & V & E1 & E2 & E3 & E4 & E5).
        destruct (Nat.ltb_spec idx nf); [|lia]. destruct (Nat.leb_spec (length ir) maxlen); [|lia].
        split; [|reflexivity]. constructor; simpl; auto; try congruence.
      + destruct S as [-> S]. assert (((idx <? nf) && (length ir <=? maxlen))%nat = false) as ->.
        { destruct (Nat.ltb_spec idx nf), (Nat.leb_spec (length ir) maxlen); try reflexivity. lia. }
        split; [exact Q'|reflexivity].
    - simpl in W.
      destruct (init_filters_ok rO rI radd rmul rsub ropp RT kzero kadd kmul inj fwd inv dsize b cst TO
                  (m_core m) nf (s_signal s) (s_filter s) rows cols Qc Qb Qs W)
        as (c' & E & V & E1 & E2 & E3 & E4 & E5).
      rewrite E, Qm in *. destruct ((length rows <=? nf) && (cols <=? maxlen))%nat;
        (split; [|reflexivity]); constructor; simpl; auto; congruence.
    - split; [|reflexivity]. constructor; simpl; auto.
      now apply (clear_filters_ok rO rI radd rmul rsub ropp RT kzero kadd kmul inj fwd inv dsize b cst TO _ _ _ (s_filter s)).
    - destruct W as [W1 W2]. destruct (process_rel m s input Q' W1 W2) as (m' & E & R). rewrite E.
      split; [exact R|reflexivity].
  Qed.

  Lemma run_rel ops : forall m s, rel m s -> Forall mop_ok ops ->
    outputs multi_step m ops = outputs spec_step s ops
    /\ rel (final multi_step m ops) (final spec_step s ops).
  Proof.
    induction ops as [|o ops IH]; intros m s R F; [split; [reflexivity|exact R]|].
    inversion F as [|? ? F1 F2]; subst. rewrite !outputs_cons, !final_cons.
    destruct (step_rel m s o R F1) as [R' E]. rewrite E. destruct (IH _ _ R' F2) as [A B]. now rewrite A.
  Qed.

  Definition spec_init : spec := MkSpec fempty (fun _ => []) (fun _ => []).
  Definition multi_new (al : nat) (scale : T) : multi :=
    MkMulti (core_new 0 kzero dsize ni b maxlen nf al scale) no max [].

  Lemma new_rel al scale : 0 < b -> 0 < maxlen -> scale * cst = 1 -> rel (multi_new al scale) spec_init.
  Proof.
    intros B M S. destruct empty_ok as (A1 & A2 & A3 & A4).
    constructor; simpl; auto.
    now apply (core_new_ok rO rI radd rmul rsub ropp RT kzero kadd kmul inj fwd inv dsize b cst TO).
  Qed.
  End Sizes.

End Multi.

Section Order.
  Context {T : Type}.
  Local Notation routing := (routing T).
  (** *** Order of insertions *)
  Lemma ms_erase_absent (x : routing) t : (forall y, In y t -> ~ same_key x y) -> ms_erase_one x t = t.
  Proof.
    induction t as [|y t IH]; intros H; simpl; [reflexivity|].
    assert (r_equiv x y = false) as -> by (apply r_equiv_false, H; now left).
    f_equal. apply IH. intros; apply H; now right.
  Qed.
  Definition insert_all (l t : list routing) : list routing := fold_left (fun t x => ms_insert x t) l t.
  Definition entry_valid (ni no nf : nat) (x : routing) : Prop := r_in x < ni /\ r_out x < no /\ r_filter x < nf.
  Lemma set_routings_insert ni no nf max l : forall t,
    Forall (entry_valid ni no nf) l -> sorted t ->
    (forall x y, In x l -> In y t -> ~ same_key x y) ->
    ForallOrdPairs (fun x y => ~ same_key x y) l ->
    length t + length l <= max ->
    set_routings ni no nf max t l = (Ok tt, insert_all l t) /\ sorted (insert_all l t).
  Proof.
    induction l as [|x l IH]; intros t Fl S D P L; simpl; [auto|].
    inversion Fl as [|? ? (V1 & V2 & V3) F2]; subst. inversion P as [|? ? P1 P2]; subst. simpl in L.
    unfold set_routing. destruct (Nat.leb_spec ni (r_in x)); [lia|]. destruct (Nat.leb_spec no (r_out x)); [lia|].
    destruct (Nat.leb_spec nf (r_filter x)); [lia|].
    rewrite ms_erase_absent by (intros y Hy; apply D; [now left|exact Hy]).
    destruct (Nat.leb_spec max (length t)); [lia|]. apply IH; auto.
    - apply ms_insert_sorted; [exact S|]. intros y Hy. apply D; [now left|exact Hy].
    - intros z y Hz Hy. apply ms_insert_In in Hy as [->|Hy].
      + rewrite Forall_forall in P1. specialize (P1 z Hz). unfold same_key in *. intuition.
      + apply D; [now right|exact Hy].
    - rewrite ms_insert_length. lia.
  Qed.

  Definition key (x : routing) : nat * nat := (r_in x, r_out x).
  Lemma key_same x y : key x = key y <-> same_key x y.
  Proof. unfold key, same_key. split; [intros E; injection E; auto|intros [-> ->]; reflexivity]. Qed.
  Lemma distinct_pairs l : NoDup (map key l) -> ForallOrdPairs (fun x y => ~ same_key x y) l.
  Proof.
    induction l as [|x l IH]; simpl; intros N; [constructor|]. inversion N as [|? ? A B]; subst.
    constructor; [|auto]. apply Forall_forall. intros y Hy E. apply A. apply key_same in E. rewrite E.
    now apply in_map.
  Qed.
  Lemma insert_all_perm l l' : Permutation l l' -> NoDup (map key l) ->
    forall t, insert_all l t = insert_all l' t.
  Proof.
    induction 1 as [|x l l' P IH|x y l|l1 l2 l3 P1 IH1 P2 IH2]; intros N t; simpl in *.
    - reflexivity.
    - inversion N; subst. now apply IH.
    - f_equal. inversion N as [|? ? A B]; subst. apply ms_insert_comm. intros E. apply A.
      apply key_same in E. rewrite E. now left.
    - rewrite IH1 by exact N. apply IH2. eapply Permutation_NoDup; [|exact N]. now apply Permutation_map.
  Qed.
End Order.
