(** C41: SignalRoutingParameter is a map from outputs to inputs; C40: SignalRouting;
    C42: ChannelObjectRoutingCalculator. *)
From Verif Require Import Base OrdSet SignalRoutingModel SignalRoutingProofs SignalMixProofs.
From Coq Require Import String.
From Coq Require Import Sorted List ListDec Lia.
Import ListNotations.
Local Open Scope res_scope.
Local Open Scope nat_scope.

(** ** C41 *)
Section C41.
  Variable invalid : nat.
  Inductive pop :=
  | PAssign (es : list (nat * nat))      (* construction from a list of (input, output) *)
  | PAdd (i o : nat) | PRemoveEntry (i o : nat) | PRemove (o : nat) | PClear
  | PEntry (o : nat) | PInput (o : nat).
  Inductive pevent := PDone | PRejected | PUndefined | PRemoved (b : bool) | PPair (i o : nat) | PIndex (n : nat).

  Definition p_step (l : routings) (op : pop) : routings * pevent :=
    match op with
    | PAssign es => match p_construct (map (fun e => MkEntry (fst e) (snd e)) es) with
                    | Ok l' => (l', PDone) | Throw _ => (l, PRejected) | UB => (l, PUndefined) end
    | PAdd i o => (p_add l (MkEntry i o), PDone)
    | PRemoveEntry i o => let '(l', b) := p_remove_entry l (MkEntry i o) in (l', PRemoved b)
    | PRemove o => let '(l', b) := p_remove invalid l o in (l', PRemoved b)
    | PClear => ([], PDone)
    | PEntry o => let e := p_get_entry invalid l o in (l, PPair (e_in e) (e_out e))
    | PInput o => (l, PIndex (p_get_input invalid l o))
    end.

  (** Specification: a partial function from outputs to inputs *)
  Definition p_spec_step (m : nat -> option nat) (op : pop) : (nat -> option nat) * pevent :=
    match op with
    | PAssign es => if ListDec.NoDup_dec Nat.eq_dec (map snd es)
                    then (fold_left (fun m e => mset Nat.eqb m (snd e) (Some (fst e))) es mempty, PDone)
                    else (m, PRejected)
    | PAdd i o => (mset Nat.eqb m o (Some i), PDone)
    | PRemoveEntry i o => match m o with
                          | Some j => if j =? i then (mset Nat.eqb m o None, PRemoved true) else (m, PRemoved false)
                          | None => (m, PRemoved false)
                          end
    | PRemove o => (mset Nat.eqb m o None, PRemoved (match m o with Some _ => true | None => false end))
    | PClear => (mempty, PDone)
    | PEntry o => (m, match m o with Some i => PPair i o | None => PPair invalid invalid end)
    | PInput o => (m, PIndex (match m o with Some i => i | None => invalid end))
    end.

  Lemma p_step_ok l m op : prel l m ->
    prel (fst (p_step l op)) (fst (p_spec_step m op)) /\ snd (p_step l op) = snd (p_spec_step m op).
  Proof.
    intros P. destruct op as [es|i o|i o|o| |o|o]; cbn [p_step p_spec_step].
    - destruct (p_construct_ok es [] mempty prel_empty (fun _ _ => eq_refl)) as [A B]. unfold p_construct.
      destruct (ListDec.NoDup_dec _ _) as [D|D].
      + destruct (A D) as (l' & E & P'). rewrite E. auto.
      + rewrite (B D). auto.
    - split; [|reflexivity]. now apply prel_add.
    - unfold p_remove_entry. rewrite (prel_find l m i o P). destruct (m o) as [j|] eqn:E; cbn [option_map].
      + cbn [e_in]. destruct (j =? i); [|auto]. split; [|reflexivity]. now apply (prel_erase l m (MkEntry j o)).
      + auto.
    - unfold p_remove. rewrite (prel_find l m invalid o P). destruct (m o) as [j|] eqn:E; cbn [option_map].
      + split; [|reflexivity]. now apply (prel_erase l m (MkEntry j o)).
      + split; [|reflexivity]. refine (repr_ext _ _ _ _ _ _ P). intros k. unfold mset. cbn.
        destruct (Nat.eqb_spec k o); [subst; now rewrite E|reflexivity].
    - split; [exact prel_empty|reflexivity].
    - unfold p_get_entry. rewrite (prel_find l m invalid o P). destruct (m o); auto.
    - unfold p_get_input. rewrite (prel_find l m invalid o P). destruct (m o); auto.
  Qed.
End C41.

Theorem C41_routing_map :
  forall invalid (ops : list pop),
  let l := final (p_step invalid) [] ops in
  let m := final (p_spec_step invalid) mempty ops in
  outputs (p_step invalid) [] ops = outputs (p_spec_step invalid) mempty ops
  (* the entries are exactly the pairs of the map, ordered by output, one per output *)
  /\ (forall i o, In (MkEntry i o) l <-> m o = Some i)
  /\ StronglySorted (fun a b => e_out a < e_out b) l
  (* getOutput( input ) is the smallest output fed by the input *)
  /\ (forall i, (exists o, p_get_output invalid l i = o /\ m o = Some i /\ forall o', m o' = Some i -> o <= o')
                \/ (p_get_output invalid l i = invalid /\ forall o, m o <> Some i)).
Proof.
  intros invalid ops l m.
  assert (H : forall ops l0 m0, prel l0 m0 ->
    outputs (p_step invalid) l0 ops = outputs (p_spec_step invalid) m0 ops
    /\ prel (final (p_step invalid) l0 ops) (final (p_spec_step invalid) m0 ops)).
  { clear. induction ops as [|op ops IH]; intros l0 m0 P; [auto|]. rewrite !outputs_cons, !final_cons.
    destruct (p_step_ok invalid l0 m0 op P) as [P' E]. rewrite E. destruct (IH _ _ P') as [A B]. now rewrite A. }
  destruct (H ops [] mempty prel_empty) as [A P]. fold l m in P. split; [exact A|].
  split; [intros i o; now apply prel_in|]. split; [apply P|].
  intros i. assert (G := p_get_output_ok invalid l m i P). destruct (find _ l) as [e|].
  - left. exists (e_out e). exact G.
  - right. exact G.
Qed.
Print Assumptions C41_routing_map.

Example C41_example :
  let ops := [PAssign [(7, 1); (8, 0)]; PAdd 5 1; PAssign [(1, 2); (3, 2)]; PInput 1; PRemoveEntry 7 1; PRemoveEntry 5 1;
              PEntry 1; PAdd 8 4; PRemove 3; PEntry 4] in
  outputs (p_step 99) [] ops
  = [PDone; PDone; PRejected; PIndex 5; PRemoved false; PRemoved true; PPair 99 99; PDone; PRemoved false; PPair 8 4]
  /\ p_get_output 99 (final (p_step 99) [] ops) 8 = 0.
Proof. split; reflexivity. Qed.

(** parse() accepts exactly the comma separated lists of pairs "input=output" of unsigned
    32 bit numbers with arbitrary white space, of which later pairs override earlier ones;
    otherwise it returns false and leaves the table unchanged. *)
Theorem C41_parse :
  forall l t,
  (forall es, reads t es -> exists l', p_parse l t = Ok (l', true)
     /\ forall i o, In (MkEntry i o) l' <-> fold_left (fun m e => mset Nat.eqb m (snd e) (Some (fst e))) es mempty o = Some i)
  /\ ((forall es, ~ reads t es) -> p_parse l t = Ok (l, false)).
Proof.
  intros l t. split.
  - intros es Rd. exists (adds [] es). split; [now apply p_parse_complete|].
    intros i o. apply prel_in. apply prel_adds. exact prel_empty.
  - intros N. destruct (p_parse_sound l t) as (l' & b & E & A & B). rewrite E. destruct b.
    + destruct (A eq_refl) as (es & Rd & _). destruct (N es Rd).
    + now rewrite (B eq_refl).
Qed.
Print Assumptions C41_parse.

Definition txt (s : string) : text := list_ascii_of_string s.
Example C41_parse_example :
  p_parse [MkEntry 3 3] (txt " 1= 2,10=0 , 4 =2 ") = Ok ([MkEntry 10 0; MkEntry 4 2], true)
  /\ p_parse [MkEntry 3 3] (txt "1=2,3") = Ok ([MkEntry 3 3], false).
Proof. split; reflexivity. Qed.
Example C41_reads_example : reads (txt "1= 2,10=0") [(1, 2); (10, 0)].
Proof.
  apply (Reads_cons (txt "1= 2") (1, 2) [] (txt "10=0") [(10, 0)]).
  - apply (Reads_pair [] (txt "1") [] (txt " ") (txt "2")); try (repeat constructor); discriminate.
  - constructor.
  - apply (Reads_one (txt "10=0") (10, 0) []); [|constructor].
    apply (Reads_pair [] (txt "10") [] [] (txt "0")); try (repeat constructor); discriminate.
Qed.

(** The source comment promises pairs "separated by whitespace or a comma": the skipper
    consumes the white space before the separator can match, so that such a list is
    rejected. *)
Theorem C41_whitespace_separator_refuted : forall l, p_parse l (txt "1=2 3=4") = Ok (l, false).
Proof. intros l. reflexivity. Qed.
Print Assumptions C41_whitespace_separator_refuted.

(** ** C40 *)
Section C40.
  Context {R : Type} (zero : R) (add : R -> R -> R).
  Variables (invalid wi wo period : nat).
  Hypothesis wi_valid : wi <= invalid.
  Hypothesis wo_valid : wo <= invalid.

  (** (input, output) pairs are written as in pml::SignalRoutingParameter *)
  Inductive rop :=
  | RSet (i o : nat) | RSetAll (es : list entry) | RRemove (i o : nat)
  | RProcess (control : option (list entry)) (x : list (list R)).
  Inductive revent := RDone | RRejected | RRemoved (b : bool) | RUndefined | ROutput (y : list (list R)).

  Definition r_step (s : routing) (op : rop) : routing * revent :=
    match op with
    | RSet i o => match r_set invalid s i o with Ok s' => (s', RDone) | Throw _ => (s, RRejected) | UB => (s, RUndefined) end
    | RSetAll es => let '(s', b) := r_set_all invalid s es in (s', if b then RDone else RRejected)
    | RRemove i o => match r_remove invalid s i o with
                     | Ok (s', b) => (s', RRemoved b) | Throw _ => (s, RRejected) | UB => (s, RUndefined) end
    | RProcess c x => let '(s', r) := r_process zero add invalid period s c x in
                      (s', match r with Ok y => ROutput y | _ => RUndefined end)
    end.

  (** Specification: the set of connections, and whether there is a control input *)
  Definition valid (e : entry) : bool := (e_in e <? wi) && (e_out e <? wo).
  Definition connect (rel : nat * nat -> bool) (es : list entry) : nat * nat -> bool :=
    fun '(o, i) => rel (o, i) || existsb (fun e => (e_in e =? i) && (e_out e =? o)) es.
  Fixpoint valid_prefix (es : list entry) : list entry :=
    match es with e :: r => if valid e then e :: valid_prefix r else [] | [] => [] end.
  Definition r_spec_step (st : (nat * nat -> bool) * bool) (op : rop) : ((nat * nat -> bool) * bool) * revent :=
    let '(rel, c) := st in
    match op with
    | RSet i o => if valid (MkEntry i o) then ((connect rel [MkEntry i o], c), RDone) else ((rel, c), RRejected)
    | RSetAll es => ((connect rempty (valid_prefix es), c), if forallb valid es then RDone else RRejected)
    | RRemove i o => if valid (MkEntry i o) then ((rset rel (o, i) false, c), RRemoved (rel (o, i)))
                     else ((rel, c), RRejected)
    | RProcess ctrl x =>
        let rel' := match ctrl with
                    | Some es => if c && forallb valid es then connect rempty es else rel
                    | None => rel
                    end in
        ((rel', c), ROutput (map (fun o => map (fun t => mixed zero add rel' wi (samples zero x) o t) (seq 0 period)) (seq 0 wo)))
    end.
  (** Callers do not use the marker for unconnected inputs, and the input has the shape of
      the port *)
  Definition rop_ok (op : rop) : Prop :=
    match op with
    | RSet i o | RRemove i o => i <> invalid
    | RSetAll es => Forall (fun e => e_in e <> invalid) es
    | RProcess c x => shaped wi period x /\ forall es, c = Some es -> Forall (fun e => e_in e <> invalid) es
    end.

  Definition rrel (s : routing) (st : (nat * nat -> bool) * bool) : Prop :=
    r_in s = wi /\ r_out s = wo /\ r_control s = snd st /\ trepr (r_table s) (fst st)
    /\ forall o i, fst st (o, i) = true -> o < wo /\ i < wi.

  Lemma check_ok s i o : r_in s = wi -> r_out s = wo -> i <> invalid ->
    check invalid s i o = if valid (MkEntry i o) then Ok tt else Throw InvalidArgument.
  Proof using wi_valid wo_valid.
    intros Hi Ho N. unfold check, valid. rewrite Hi, Ho. cbn [e_in e_out]. destruct (Nat.eqb_spec i invalid); [congruence|]. cbn [negb andb].
    destruct (Nat.ltb_spec i wi), (Nat.leb_spec wi i); try lia; cbn [andb]; [|reflexivity].
    destruct (Nat.ltb_spec o wo), (Nat.leb_spec wo o); try lia; cbn [orb]; [|reflexivity].
    destruct (Nat.eqb_spec o invalid); [lia|reflexivity].
  Qed.
  Lemma connect_one rel e k : connect rel [e] k = rset rel (e_out e, e_in e) true k.
  Proof using.
    destruct k as [o i]. unfold connect, rset, pair_eqb. cbn. rewrite orb_false_r.
    rewrite (Nat.eqb_sym (e_in e)), (Nat.eqb_sym (e_out e)). destruct (Nat.eqb o (e_out e)), (Nat.eqb i (e_in e)); cbn; auto using orb_true_r, orb_false_r.
  Qed.
  Lemma connect_cons rel e es k : connect (rset rel (e_out e, e_in e) true) es k = connect rel (e :: es) k.
  Proof using.
    destruct k as [o i]. unfold connect, rset, pair_eqb. cbn.
    rewrite (Nat.eqb_sym (e_in e)), (Nat.eqb_sym (e_out e)). destruct (Nat.eqb o (e_out e)), (Nat.eqb i (e_in e)), (rel (o, i)); reflexivity.
  Qed.
  Lemma valid_range e : valid e = true -> e_in e < wi /\ e_out e < wo.
  Proof using. unfold valid. intros H. apply andb_prop in H as [A B]. apply Nat.ltb_lt in A, B. auto. Qed.
  Lemma connect_range rel es : (forall o i, rel (o, i) = true -> o < wo /\ i < wi) -> Forall (fun e => valid e = true) es ->
    forall o i, connect rel es (o, i) = true -> o < wo /\ i < wi.
  Proof using.
    intros H F o i C. unfold connect in C. apply orb_prop in C as [C|C]; [auto|].
    apply existsb_exists in C as (e & He & E). rewrite Forall_forall in F. specialize (F e He).
    apply valid_range in F. apply andb_prop in E as [E1 E2]. apply Nat.eqb_eq in E1, E2. subst i o. destruct F. now split.
  Qed.
  Lemma rempty_range o i : rempty (o, i) = true -> o < wo /\ i < wi.
  Proof using. discriminate. Qed.
  Lemma connect_nil rel k : connect rel [] k = rel k.
  Proof using. destruct k. unfold connect. cbn. apply orb_false_r. Qed.
  Lemma valid_prefix_valid es : Forall (fun e => valid e = true) (valid_prefix es).
  Proof using. induction es as [|e es IH]; simpl; [constructor|]. destruct (valid e) eqn:E; [now constructor|constructor]. Qed.

  Lemma set_each_ok es : forall s rel, r_in s = wi -> r_out s = wo -> trepr (r_table s) rel ->
    Forall (fun e => e_in e <> invalid) es ->
    snd (r_set_each invalid s es) = forallb valid es
    /\ r_in (fst (r_set_each invalid s es)) = wi /\ r_out (fst (r_set_each invalid s es)) = wo
    /\ r_control (fst (r_set_each invalid s es)) = r_control s
    /\ trepr (r_table (fst (r_set_each invalid s es))) (connect rel (valid_prefix es)).
  Proof using wi_valid wo_valid.
    induction es as [|e es IH]; intros s rel Hi Ho T F; cbn [r_set_each valid_prefix forallb].
    - cbn [fst snd]. do 4 (split; [auto|]). refine (trepr_ext _ _ _ _ T). intros k. now rewrite connect_nil.
    - unfold r_set. rewrite (check_ok s (e_in e) (e_out e) Hi Ho (Forall_inv F)).
      replace (MkEntry (e_in e) (e_out e)) with e by (now destruct e).
      destruct (valid e) eqn:V; cbn [bind andb].
      + destruct (IH (with_table s (fst (set_insert t_less (e_out e, e_in e) (r_table s)))) (rset rel (e_out e, e_in e) true) Hi Ho
                    (trepr_insert _ _ _ T) (Forall_inv_tail F)) as (A & B & C & D & E).
        repeat (split; [assumption|]). refine (trepr_ext _ _ _ _ E). intros k. apply connect_cons.
      + cbn [fst snd]. do 4 (split; [auto|]). refine (trepr_ext _ _ _ _ T). intros k. now rewrite connect_nil.
  Qed.
  Lemma update_loop es : forall s t rel, r_in s = wi -> r_out s = wo -> trepr t rel ->
    Forall (fun e => e_in e <> invalid) es ->
    match loop (fun t e => _ <- check invalid s (e_in e) (e_out e) ;;
                           Ok (fst (set_insert t_less (e_out e, e_in e) t))) es t with
    | Ok t' => forallb valid es = true /\ trepr t' (connect rel es)
    | _ => forallb valid es = false
    end.
  Proof using wi_valid wo_valid.
    induction es as [|e es IH]; intros s t rel Hi Ho T F; cbn [loop forallb].
    - split; [reflexivity|]. refine (trepr_ext _ _ _ _ T). intros k. now rewrite connect_nil.
    - rewrite (check_ok s (e_in e) (e_out e) Hi Ho (Forall_inv F)).
      replace (MkEntry (e_in e) (e_out e)) with e by (now destruct e).
      destruct (valid e) eqn:V; cbn [bind andb]; [|reflexivity].
      specialize (IH s _ _ Hi Ho (trepr_insert t rel (e_out e, e_in e) T) (Forall_inv_tail F)).
      destruct (loop _ _ _) as [t'| |]; auto. destruct IH as [A B]. split; [exact A|].
      refine (trepr_ext _ _ _ _ B). intros k. apply connect_cons.
  Qed.
  Lemma forallb_Forall es : forallb valid es = true -> Forall (fun e => valid e = true) es.
  Proof. intros H. apply Forall_forall. intros e He. rewrite forallb_forall in H. auto. Qed.

  Lemma r_step_ok s st op : rop_ok op -> rrel s st ->
    rrel (fst (r_step s op)) (fst (r_spec_step st op)) /\ snd (r_step s op) = snd (r_spec_step st op).
  Proof using wi_valid wo_valid.
    intros O (Hi & Ho & Hc & T & W). destruct st as [rel c]. cbn [fst snd] in *.
    destruct op as [i o|es|i o|ctrl x]; cbn [r_step r_spec_step rop_ok] in *.
    - unfold r_set. rewrite (check_ok s i o Hi Ho O). destruct (valid (MkEntry i o)) eqn:V; cbn [bind fst snd].
      + split; [|reflexivity]. repeat (split; [assumption|]). cbn [fst r_table with_table]. split.
        * refine (trepr_ext _ _ _ _ (trepr_insert _ _ (o, i) T)). intros k. symmetry. apply (connect_one rel (MkEntry i o)).
        * apply connect_range; auto.
      + split; [|reflexivity]. repeat (split; [assumption|]). exact W.
    - destruct (set_each_ok es (with_table s []) rempty Hi Ho trepr_empty O) as (A & B & C & D & E).
      unfold r_set_all. destruct (r_set_each invalid (with_table s []) es) as [s' b]. cbn [fst snd] in *. subst b.
      split; [|reflexivity]. cbn in D. split; [exact B|]. split; [exact C|]. split; [cbn; congruence|]. split; [exact E|].
      apply connect_range; [exact rempty_range|]. apply valid_prefix_valid.
    - unfold r_remove. rewrite (check_ok s i o Hi Ho O). destruct (valid (MkEntry i o)) eqn:V; cbn [bind].
      + rewrite (trepr_find _ _ (o, i) T). destruct (rel (o, i)) eqn:Q; cbn [fst snd].
        * split; [|reflexivity]. repeat (split; [assumption|]). cbn [fst r_table with_table]. split; [now apply trepr_erase|].
          intros o' i'. unfold rset. destruct (pair_eqb _ _); [discriminate|apply W].
        * split; [|reflexivity]. repeat (split; [assumption|]). cbn [fst]. split.
          -- refine (trepr_ext _ _ _ _ T). intros k. unfold rset. destruct (pair_eqb_spec k (o, i)); [now subst|reflexivity].
          -- intros o' i'. unfold rset. destruct (pair_eqb _ _); [discriminate|apply W].
      + cbn [fst snd]. split; [|reflexivity]. repeat (split; [assumption|]). exact W.
    - destruct O as [Sx Oc]. unfold r_process.
      set (s1 := match ctrl with Some es => if r_control s then r_update invalid s es else s | None => s end).
      set (rel1 := match ctrl with Some es => if c && forallb valid es then connect rempty es else rel | None => rel end).
      assert (H : rrel s1 (rel1, c)).
      { unfold s1, rel1. destruct ctrl as [es|]; [|unfold rrel; cbn [fst snd]; auto].
        rewrite Hc. destruct c; cbn [andb]; [|unfold rrel; cbn [fst snd]; auto].
        unfold r_update. assert (U := update_loop es s [] rempty Hi Ho trepr_empty (Oc es eq_refl)).
        destruct (loop _ es []) as [t'|e|]; [destruct U as [U1 U2]; rewrite U1|rewrite U|rewrite U];
          unfold rrel; cbn [fst snd r_in r_out r_control r_table with_table]; auto.
        do 4 (split; [assumption|]). apply connect_range; [exact rempty_range|].
        now apply forallb_Forall. }
      cbn [fst snd]. split; [exact H|]. destruct H as (Hi1 & Ho1 & Hc1 & T1 & W1). cbn [fst snd] in T1, W1.
      rewrite Ho1. now rewrite (mix_ok zero add period wi wo x (r_table s1) rel1 Sx T1 W1).
  Qed.
  Lemma r_history ops : Forall rop_ok ops -> forall s st, rrel s st ->
    outputs r_step s ops = outputs r_spec_step st ops.
  Proof using wi_valid wo_valid.
    induction 1 as [|op ops O _ IH]; intros s st H; [reflexivity|]. rewrite !outputs_cons.
    destruct (r_step_ok s st op O H) as [H' E]. rewrite E. f_equal. now apply IH.
  Qed.
End C40.

(** For every history of routing calls, control updates and audio blocks, starting from
    either setup() function: each output sample is the sum of the connected inputs, and an
    update with an invalid index changes nothing. [invalid] is SIZE_MAX. No law of
    addition is needed: the order of the additions is that of the inputs. *)
Theorem C40_signal_routing :
  forall {R : Type} (zero : R) (add : R -> R -> R) invalid wi wo period (control : bool) (ops : list (@rop R)),
  wi <= invalid -> wo <= invalid ->
  Forall (rop_ok invalid wi period) ops ->
  outputs (r_step zero add invalid period) (r_setup wi wo control) ops
  = outputs (r_spec_step zero add wi wo period) (rempty, control) ops.
Proof.
  intros R zero add invalid wi wo period control ops Hi Ho O.
  apply (r_history zero add invalid wi wo period Hi Ho ops O).
  repeat (split; [reflexivity|]). split; [exact trepr_empty|]. discriminate.
Qed.
Print Assumptions C40_signal_routing.

Theorem C40_initial_routing :
  forall {R : Type} (zero : R) (add : R -> R -> R) invalid wi wo period control (es : list entry) (ops : list (@rop R)),
  wi <= invalid -> wo <= invalid ->
  Forall (fun e => e_in e < wi /\ e_out e < wo) es ->
  Forall (rop_ok invalid wi period) ops ->
  exists s, r_setup_initial invalid wi wo es control = Ok s
  /\ outputs (r_step zero add invalid period) s ops
     = outputs (r_spec_step zero add wi wo period) (connect rempty es, false) ops.
Proof.
  intros R zero add invalid wi wo period control es ops Hi Ho V O.
  assert (L : forall es s rel, r_in s = wi -> r_out s = wo -> r_control s = false -> trepr (r_table s) rel ->
     Forall (fun e => e_in e < wi /\ e_out e < wo) es ->
     exists s', loop (fun s e => r_set invalid s (e_in e) (e_out e)) es s = Ok s'
       /\ r_in s' = wi /\ r_out s' = wo /\ r_control s' = false /\ trepr (r_table s') (connect rel es)).
  { clear -Hi Ho. induction es as [|e es IH]; intros s rel A B C T F; cbn [loop].
    - exists s. do 4 (split; [auto|]). refine (trepr_ext _ _ _ _ T). intros k. now rewrite connect_nil.
    - destruct (Forall_inv F) as [V1 V2]. unfold r_set.
      rewrite (check_ok invalid wi wo Hi Ho s (e_in e) (e_out e) A B) by lia.
      assert (valid wi wo (MkEntry (e_in e) (e_out e)) = true) as ->.
      { unfold valid. apply andb_true_intro. split; now apply Nat.ltb_lt. }
      cbn [bind].
      destruct (IH (with_table s (fst (set_insert t_less (e_out e, e_in e) (r_table s)))) _ A B C (trepr_insert _ rel _ T) (Forall_inv_tail F))
        as (s' & E & A' & B' & C' & T').
      exists s'. split; [exact E|]. repeat (split; [assumption|]). refine (trepr_ext _ _ _ _ T'). intros k. apply connect_cons. }
  destruct (L es (r_setup wi wo false) rempty eq_refl eq_refl eq_refl trepr_empty V) as (s & E & A & B & C & T).
  exists s. split; [exact E|]. apply (r_history zero add invalid wi wo period Hi Ho ops O).
  do 4 (split; [assumption|]). apply connect_range; [apply rempty_range|].
  refine (Forall_impl _ _ V). intros e [V1 V2]. unfold valid. apply andb_true_intro. split; now apply Nat.ltb_lt.
Qed.
Print Assumptions C40_initial_routing.

Example C40_example :
  let ops := [ RProcess None [[1; 2]; [10; 20]; [100; 200]]; RSet 0 1; RSet 2 1; RSet 3 1;
               RProcess None [[1; 2]; [10; 20]; [100; 200]];
               RProcess (Some [MkEntry 1 0; MkEntry 1 2]) [[1; 2]; [10; 20]; [100; 200]];
               RProcess (Some [MkEntry 1 0]) [[1; 2]; [10; 20]; [100; 200]]; RRemove 0 0; RRemove 1 0;
               RProcess None [[1; 2]; [10; 20]; [100; 200]] ] in
  Forall (rop_ok 1000 3 2) ops
  /\ outputs (r_step 0 Nat.add 1000 2) (r_setup 3 2 true) ops
     = [ ROutput [[0; 0]; [0; 0]]; RDone; RDone; RRejected; ROutput [[0; 0]; [101; 202]];
         ROutput [[0; 0]; [101; 202]]; ROutput [[10; 20]; [0; 0]]; RRemoved false; RRemoved true;
         ROutput [[0; 0]; [0; 0]] ].
Proof.
  cbv zeta. split; [|reflexivity].
  assert (S : shaped 3 2 [[1; 2]; [10; 20]; [100; 200]]) by (split; [reflexivity|repeat constructor]).
  repeat (apply Forall_cons; [cbn [rop_ok]; try discriminate; try (split; [exact S|]; intros es [= <-]; repeat constructor; discriminate);
    try (split; [exact S|discriminate])|]). constructor.
Qed.

(** The marker cInvalidIndex is accepted as input index ("the same as having no routing"),
    but the next block reads a channel beyond the input port. *)
Theorem C40_invalid_index_refuted :
  exists s, r_set 1000 (r_setup 2 2 false) 1000 0 = Ok s
  /\ snd (r_process 0 Nat.add 1000 1 s None [[1]; [2]]) = UB.
Proof. eexists. split; reflexivity. Qed.
Print Assumptions C40_invalid_index_refuted.

(** setup() with initial routing does not pass on [controlPort]: the component ignores
    control updates although a control input was requested. *)
Theorem C40_initial_control_port_refuted :
  exists s, r_setup_initial 1000 2 1 [MkEntry 0 0] true = Ok s /\ r_control s = false
  /\ snd (r_process 0 Nat.add 1000 1 s (Some [MkEntry 1 0]) [[5]; [7]]) = Ok [[5]].
Proof. eexists. repeat split. Qed.
Print Assumptions C40_initial_control_port_refuted.

(** ** C42 *)
Section C42.
  Context {L : Type} (eql : L -> L -> bool).
  Hypothesis eql_spec : forall a b, reflect (a = b) (eql a b).

  (** Specification: object channel [i] asks for loudspeaker [o] if it is a channel of a
      channel object with the single label [ids[o]] *)
  Definition requests (ids : list L) (objects : list (@object L)) (i o : nat) : Prop :=
    exists chans outs k lbl, In (Some (chans, outs)) objects
      /\ nth_error chans k = Some i /\ nth_error outs k = Some [lbl] /\ nth_error ids o = Some lbl.
  (** class invariant of ChannelObject: one label list per channel *)
  Definition consistent (o : @object L) : Prop := forall chans outs, o = Some (chans, outs) -> length outs = length chans.

  Lemma lookup_app x m m' : lookup eql x (m ++ m') = match lookup eql x m with Some v => Some v | None => lookup eql x m' end.
  Proof. induction m as [|[y v] m IH]; simpl; [reflexivity|]. now destruct (eql x y). Qed.
  Lemma construct_ok channels ids : NoDup ids ->
    exists c, c_construct eql channels ids = Ok c /\ c_channels c = channels
      /\ forall x o, lookup eql x (c_lookup c) = Some o <-> nth_error ids o = Some x.
  Proof using eql_spec.
    intros D. unfold c_construct.
    assert (G : forall ids a m, NoDup ids -> (forall x v, lookup eql x m = Some v -> ~ In x ids) ->
      exists m', loop (fun m '(id, k) => match lookup eql id m with
                                 | Some _ => Throw InvalidArgument
                                 | None => Ok (m ++ [(id, k)]) end) (combine ids (seq a (length ids))) m = Ok (m')
        /\ forall x o, lookup eql x m' = Some o <-> lookup eql x m = Some o \/ (a <= o /\ nth_error ids (o - a) = Some x)).
    { clear D ids channels. induction ids as [|x ids IH]; intros a m D N; cbn [length seq combine loop].
      - exists m. split; [reflexivity|]. intros y o. split; [auto|]. intros [H|[_ H]]; [exact H|]. destruct (o - a); discriminate.
      - destruct (lookup eql x m) as [v|] eqn:E; [destruct (N x v E); now left|]. cbn [bind].
        inversion D as [|? ? Nx D']; subst.
        destruct (IH (S a) (m ++ [(x, a)]) D') as (m' & E' & H').
        { intros y v. rewrite lookup_app. destruct (lookup eql y m) eqn:Ey.
          - intros _ Hy. apply (N y _ Ey). now right.
          - cbn. destruct (eql_spec y x); [|discriminate]. intros _. now subst. }
        exists m'. split; [exact E'|]. intros y o. rewrite H', lookup_app. split.
        + intros [H|[H1 H2]].
          * destruct (lookup eql y m) eqn:Ey; [left; exact H|]. cbn in H. destruct (eql_spec y x); [|discriminate].
            injection H as <-. right. split; [lia|]. rewrite Nat.sub_diag. simpl. now subst.
          * right. split; [lia|]. replace (o - a) with (S (o - S a)) by lia. exact H2.
        + intros [H|[H1 H2]].
          * left. now rewrite H.
          * destruct (Nat.eq_dec o a) as [->|Q].
            -- rewrite Nat.sub_diag in H2. injection H2 as <-. left. rewrite E. cbn. destruct (eql_spec x x); congruence.
            -- right. split; [lia|]. replace (o - a) with (S (o - S a)) in H2 by lia. exact H2. }
    destruct (G ids 0 [] D) as (m & E & H); [discriminate|]. rewrite E. cbn [bind].
    exists (MkCalculator channels m). split; [reflexivity|]. split; [reflexivity|]. intros x o. cbn [c_lookup].
    rewrite H. rewrite Nat.sub_0_r. split; [intros [Q|[_ Q]]; [discriminate|exact Q]|]. intros Q. right. split; [lia|exact Q].
  Qed.

  (** Everything about the table after the objects seen so far *)
  Definition produced (n : nat) (ids : list L) (m0 m : nat -> option nat) (req : nat -> nat -> Prop) : Prop :=
    (forall o i, m o = Some i -> m0 o = Some i \/ (req i o /\ i <= n))
    /\ (forall o i, req i o -> i <= n -> exists j, m o = Some j)
    /\ (forall o i, m0 o = Some i -> exists j, m o = Some j).

  Lemma produced_trans n ids m0 m1 m2 r1 r2 : produced n ids m0 m1 r1 -> produced n ids m1 m2 r2 ->
    produced n ids m0 m2 (fun i o => r1 i o \/ r2 i o).
  Proof.
    intros (A1 & B1 & C1) (A2 & B2 & C2). split; [|split].
    - intros o i H. destruct (A2 o i H) as [H'|[H' Hn]]; [|tauto]. destruct (A1 o i H') as [H''|[H'' Hn]]; tauto.
    - intros o i [H|H] Hn; [destruct (B1 o i H Hn) as [j Hj]; now apply (C2 o j)|now apply (B2 o i)].
    - intros o i H. destruct (C1 o i H) as [j Hj]. now apply (C2 o j).
  Qed.
  Lemma produced_iff n ids m0 m r r' : (forall i o, r i o <-> r' i o) -> produced n ids m0 m r -> produced n ids m0 m r'.
  Proof.
    intros E (A & B & C). split; [|split; [|exact C]].
    - intros o i H. destruct (A o i H) as [|[H' Hn]]; [auto|]. right. split; [now apply E|exact Hn].
    - intros o i H. apply B. now apply E.
  Qed.
  Lemma produced_none n ids m (r : nat -> nat -> Prop) : (forall i o, r i o -> ~ i <= n) -> produced n ids m m r.
  Proof. intros N. split; [auto|]. split; [|eauto]. intros o i H Hn. destruct (N i o H Hn). Qed.

  Lemma channel_ok c ids n outs l m k ch lbls : c_channels c = n ->
    (forall x o, lookup eql x (c_lookup c) = Some o <-> nth_error ids o = Some x) ->
    prel l m -> nth_error outs k = Some lbls ->
    exists l' m', c_channel eql c outs l (k, ch) = Ok l' /\ prel l' m'
      /\ produced n ids m m' (fun i o => i = ch /\ exists lbl, lbls = [lbl] /\ nth_error ids o = Some lbl).
  Proof.
    intros Hn Hl P E. cbn [c_channel]. rewrite Hn, E. destruct (Nat.ltb_spec n ch) as [G|G].
    - exists l, m. split; [reflexivity|]. split; [exact P|]. apply produced_none. intros i o [-> _]. lia.
    - destruct lbls as [|lbl [|? ?]].
      + exists l, m. split; [reflexivity|]. split; [exact P|]. apply produced_none. intros i o (_ & x & Q & _). discriminate.
      + destruct (lookup eql lbl (c_lookup c)) as [o|] eqn:Lo.
        * exists (p_add l (MkEntry ch o)), (mset Nat.eqb m o (Some ch)). split; [reflexivity|]. split; [now apply prel_add|].
          apply Hl in Lo. split; [|split].
          -- intros o' i. unfold mset. destruct (Nat.eqb_spec o' o) as [->|]; [|auto]. intros [= <-]. right.
             split; [|exact G]. split; [reflexivity|]. eauto.
          -- intros o' i (-> & x & [= <-] & Q) _. assert (o' = o).
             { apply Hl in Q, Lo. congruence. }
             subst o'. exists ch. unfold mset. now rewrite Nat.eqb_refl.
          -- intros o' i Q. unfold mset. destruct (o' =? o); eauto.
        * exists l, m. split; [reflexivity|]. split; [exact P|]. apply produced_none.
          intros i o (_ & x & [= <-] & Q) _. apply Hl in Q. congruence.
      + exists l, m. split; [reflexivity|]. split; [exact P|]. apply produced_none. intros i o' (_ & x & Q & _). discriminate.
  Qed.
  Lemma channels_ok c ids n outs : c_channels c = n ->
    (forall x o, lookup eql x (c_lookup c) = Some o <-> nth_error ids o = Some x) ->
    forall chans a l m, prel l m -> a + length chans <= length outs ->
    exists l' m', loop (c_channel eql c outs) (combine (seq a (length chans)) chans) l = Ok l' /\ prel l' m'
      /\ produced n ids m m' (fun i o => exists k lbl, nth_error chans k = Some i /\ nth_error outs (a + k) = Some [lbl]
                                                     /\ nth_error ids o = Some lbl).
  Proof.
    intros Hn Hl. induction chans as [|ch chans IH]; intros a l m P Hlen; cbn [length seq combine loop].
    - exists l, m. split; [reflexivity|]. split; [exact P|]. apply produced_none. intros i o (k & x & Q & _). destruct k; discriminate.
    - simpl in Hlen. destruct (nth_error outs a) as [lbls|] eqn:E; [|apply nth_error_None in E; lia].
      destruct (channel_ok c ids n outs l m a ch lbls Hn Hl P E) as (l1 & m1 & E1 & P1 & D1). rewrite E1. cbn [bind].
      destruct (IH (S a) l1 m1 P1) as (l2 & m2 & E2 & P2 & D2); [lia|].
      exists l2, m2. split; [exact E2|]. split; [exact P2|].
      refine (produced_iff _ _ _ _ _ _ _ (produced_trans _ _ _ _ _ _ _ D1 D2)). intros i o. split.
      + intros [(-> & lbl & -> & Q)|(k & lbl & Q1 & Q2 & Q3)].
        * exists 0, lbl. rewrite Nat.add_0_r. auto.
        * exists (S k), lbl. rewrite Nat.add_succ_r. auto.
      + intros ([|k] & lbl & Q1 & Q2 & Q3); simpl in Q1.
        * left. injection Q1 as <-. rewrite Nat.add_0_r in Q2. split; [reflexivity|]. exists lbl. split; [congruence|exact Q3].
        * right. exists k, lbl. rewrite Nat.add_succ_r in Q2. auto.
  Qed.
  Lemma objects_ok c ids n objects : c_channels c = n ->
    (forall x o, lookup eql x (c_lookup c) = Some o <-> nth_error ids o = Some x) ->
    Forall consistent objects -> forall l m, prel l m ->
    exists l' m', loop (c_object eql c) objects l = Ok l' /\ prel l' m' /\ produced n ids m m' (requests ids objects).
  Proof.
    intros Hn Hl F. induction F as [|ob objects C F IH]; intros l m P; cbn [loop].
    - exists l, m. split; [reflexivity|]. split; [exact P|]. apply produced_none. intros i o (? & ? & ? & ? & [] & _).
    - assert (exists l1 m1, c_object eql c l ob = Ok l1 /\ prel l1 m1 /\ produced n ids m m1 (requests ids [ob]))
        as (l1 & m1 & E1 & P1 & D1).
      { destruct ob as [[chans outs]|]; cbn [c_object].
        - specialize (C chans outs eq_refl).
          destruct (channels_ok c ids n outs Hn Hl chans 0 l m P) as (l1 & m1 & E1 & P1 & D1); [simpl; lia|].
          exists l1, m1. split; [exact E1|]. split; [exact P1|].
          refine (produced_iff _ _ _ _ _ _ _ D1). intros i o. split.
          + intros (k & lbl & Q). exists chans, outs, k, lbl. split; [now left|exact Q].
          + intros (chans' & outs' & k & lbl & [[= <- <-]|[]] & Q). exists k, lbl. exact Q.
        - exists l, m. split; [reflexivity|]. split; [exact P|]. apply produced_none.
          intros i o (? & ? & ? & ? & [Q|[]] & _). discriminate. }
      rewrite E1. cbn [bind]. destruct (IH l1 m1 P1) as (l2 & m2 & E2 & P2 & D2). exists l2, m2. split; [exact E2|]. split; [exact P2|].
      refine (produced_iff _ _ _ _ _ _ _ (produced_trans _ _ _ _ _ _ _ D1 D2)). intros i o. unfold requests. split.
      + intros [(a & b & k & x & [Q|[]] & Q')|(a & b & k & x & Q & Q')]; exists a, b, k, x; (split; [|exact Q']); [left|right]; auto.
      + intros (a & b & k & x & [Q|Q] & Q'); [left|right]; exists a, b, k, x; (split; [|exact Q']); [left|]; auto.
  Qed.
End C42.

(** What the calculator emits for every loudspeaker configuration and object vector:
    only requested routings, at most one per loudspeaker, and one for every loudspeaker
    that is requested by an object channel up to and including [channels]. *)
Theorem C42_routing :
  forall {L : Type} (eql : L -> L -> bool) (channels : nat) (ids : list L) (objects : list object),
  (forall a b, reflect (a = b) (eql a b)) -> NoDup ids -> Forall consistent objects ->
  exists c l, c_construct eql channels ids = Ok c /\ c_process eql c objects = Ok l
  /\ (forall i o, In (MkEntry i o) l -> requests ids objects i o /\ i <= channels /\ o < length ids)
  /\ (forall i o, requests ids objects i o -> i <= channels -> exists j, In (MkEntry j o) l)
  /\ NoDup (map e_out l).
Proof.
  intros L eql channels ids objects S D F.
  destruct (construct_ok eql S channels ids D) as (c & Ec & Hn & Hl).
  destruct (objects_ok eql c ids channels objects Hn Hl F [] mempty prel_empty) as (l & m & El & P & A & B & _).
  exists c, l. split; [exact Ec|]. split; [exact El|]. split; [|split].
  - intros i o H. apply (prel_in l m i o P) in H. destruct (A o i H) as [Q|[Q Hc]]; [discriminate|].
    split; [exact Q|]. split; [exact Hc|]. destruct Q as (? & ? & ? & ? & _ & _ & _ & Q). apply nth_error_Some. congruence.
  - intros i o H Hc. destruct (B o i H Hc) as [j Hj]. exists j. now apply (prel_in l m j o P).
  - apply (repr_nodup e_out lt Nat.lt_irrefl l _ P).
Qed.
Print Assumptions C42_routing.

(** If moreover all object channels are smaller than [channels], a SignalRouting with
    [channels] inputs and as many outputs as loudspeakers accepts the update, and every
    loudspeaker requested by one channel only receives this channel. *)
Theorem C42_accepted_partial :
  forall {L : Type} (eql : L -> L -> bool) (invalid channels : nat) (ids : list L) (objects : list object) (s : routing),
  (forall a b, reflect (a = b) (eql a b)) -> NoDup ids -> Forall consistent objects ->
  (forall chans outs, In (Some (chans, outs)) objects -> Forall (fun i => i < channels) chans) ->
  channels <= invalid -> length ids <= invalid -> r_in s = channels -> r_out s = length ids ->
  exists c l, c_construct eql channels ids = Ok c /\ c_process eql c objects = Ok l
  /\ (forall o i, In (o, i) (r_table (r_update invalid s l)) <-> In (MkEntry i o) l)
  /\ (forall i o, requests ids objects i o -> (forall j, requests ids objects j o -> j = i) ->
        In (o, i) (r_table (r_update invalid s l))
        /\ forall j, In (o, j) (r_table (r_update invalid s l)) -> j = i).
Proof.
  intros L eql invalid channels ids objects s S D F Lt Hc Hid Hi Ho.
  destruct (C42_routing eql channels ids objects S D F) as (c & l & Ec & El & A & B & N).
  exists c, l. split; [exact Ec|]. split; [exact El|].
  assert (Rq : forall i o, requests ids objects i o -> i < channels).
  { intros i o (chans & outs & k & lbl & H & Q & _). specialize (Lt chans outs H). rewrite Forall_forall in Lt.
    apply Lt. now apply nth_error_In in Q. }
  assert (Rg : Forall (fun e => e_in e < channels /\ e_out e < length ids) l).
  { apply Forall_forall. intros [i o] H. destruct (A i o H) as (Q & _ & Q'). split; [now apply (Rq i o)|exact Q']. }
  assert (U := update_loop invalid channels (length ids) Hc Hid l s [] rempty Hi Ho trepr_empty).
  assert (V : forallb (valid channels (length ids)) l = true).
  { apply forallb_forall. intros e He. rewrite Forall_forall in Rg. destruct (Rg e He) as [Q1 Q2]. unfold valid.
    apply andb_true_intro. split; now apply Nat.ltb_lt. }
  assert (T : trepr (r_table (r_update invalid s l)) (connect rempty l)).
  { unfold r_update. assert (W : Forall (fun e => e_in e <> invalid) l).
    { refine (Forall_impl _ _ Rg). intros e [Q _]. lia. }
    specialize (U W). destruct (loop _ l []); [apply U|congruence|congruence]. }
  assert (I : forall o i, In (o, i) (r_table (r_update invalid s l)) <-> In (MkEntry i o) l).
  { intros o i. rewrite (proj2 T (o, i)). cbn. split.
    - intros H. apply existsb_exists in H as ([i' o'] & He & Q). cbn in Q. apply andb_prop in Q as [Q1 Q2].
      apply Nat.eqb_eq in Q1, Q2. now subst.
    - intros H. apply existsb_exists. exists (MkEntry i o). split; [exact H|]. cbn. now rewrite !Nat.eqb_refl. }
  split; [exact I|]. intros i o Q U1.
  assert (Only : forall j, In (MkEntry j o) l -> j = i) by (intros j Hj; apply U1; now apply A).
  split.
  - apply I. destruct (B i o Q) as (j & Hj); [assert (X := Rq i o Q); lia|]. now rewrite <- (Only j Hj).
  - intros j Hj. apply Only. now apply I.
Qed.
Print Assumptions C42_accepted_partial.

Example C42_example :
  let objects := [Some ([1; 0], [["R"%string]; ["L"%string]]); None; Some ([2; 3], [["C"%string]; ["L"%string; "R"%string]])] in
  exists c, c_construct String.eqb 4 ["L"%string; "R"%string; "C"%string] = Ok c
  /\ c_process String.eqb c objects = Ok [MkEntry 0 0; MkEntry 1 1; MkEntry 2 2]
  /\ Forall consistent objects
  /\ requests ["L"%string; "R"%string; "C"%string] objects 2 2.
Proof.
  eexists. split; [reflexivity|]. split; [reflexivity|]. split.
  - repeat constructor; intros ? ? [= <- <-]; reflexivity.
  - exists [2; 3], [["C"%string]; ["L"%string; "R"%string]], 0, "C"%string. repeat split. simpl. auto.
Qed.

(** The range test of the calculator admits the object channel [channels] itself: the
    emitted table is out of range for the routing block behind it, which then rejects the
    whole update and keeps the previous routings, including those of valid objects. *)
Theorem C42_channel_range_refuted :
  exists c l, c_construct String.eqb 2 ["L"%string; "R"%string] = Ok c
  /\ c_process String.eqb c [Some ([0; 2], [["L"%string]; ["R"%string]])] = Ok l
  /\ In (MkEntry 2 1) l
  /\ r_table (r_update 1000 (r_setup 2 2 true) l) = [].
Proof. eexists. eexists. repeat split. simpl. auto. Qed.
Print Assumptions C42_channel_range_refuted.

(** A channel object without labels (its parser only sets the channel count) makes the
    calculator fail with an exception. *)
Theorem C42_missing_labels_refuted :
  exists c, c_construct String.eqb 2 ["L"%string; "R"%string] = Ok c
  /\ c_process String.eqb c [Some ([0], [])] = Throw OutOfRange.
Proof. eexists. repeat split. Qed.
Print Assumptions C42_missing_labels_refuted.
