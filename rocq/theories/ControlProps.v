(** Property C39: a rejected control message. *)
From Verif Require Import Base ConvolverModel ControlModel.

Section C39.
  Context {C F R I X Y : Type}.
  Variable setFilter : C -> F -> res C.
  Variable clearRoutings : C -> C.
  Variable addRouting : C -> R -> res unit * C.
  Variable setInterpolant : C -> I -> res C.
  Variable convolve : C -> X -> res (C * Y).
  Notation step := (m_step setFilter clearRoutings addRouting setInterpolant convolve).
  Notation process := (m_process setFilter clearRoutings addRouting setInterpolant convolve).

  (** [Same] are the convolver states with the same configuration (number of channels,
      filters, filter length): no message changes it. *)
  Definition keeps (Same : C -> Prop) : Prop :=
    (forall c f c', Same c -> setFilter c f = Ok c' -> Same c') /\
    (forall c, Same c -> Same (clearRoutings c)) /\
    (forall c r, Same c -> Same (snd (addRouting c r))).
  (** A message that is rejected with a std::exception in every such state. *)
  Definition rejected_filter (Same : C -> Prop) (f : F) : Prop :=
    forall c, Same c -> exists e, setFilter c f = Throw e /\ e <> CharPointer.
  Definition rejected_routing (Same : C -> Prop) (r : R) : Prop :=
    forall c, Same c -> exists e c', addRouting c r = (Throw e, c') /\ e <> CharPointer.
  Definition failed (o : @mout Y) : Prop :=
    match o with MOut (Ok _) => False | _ => True end.

  Lemma std_true e : e <> CharPointer -> std_exception e = true.
  Proof using. destruct e; cbn; congruence. Qed.

  Section Poison.
  Variable Same : C -> Prop.
  Hypothesis K : keeps Same.

  Lemma filter_loop_same c q : Same c -> Same (fst (fst (filter_loop setFilter c q))).
  Proof using K.
    destruct K as (K1 & _). revert c. induction q as [|m q IH]; intros c H; cbn; [exact H|].
    destruct (setFilter c m) as [c'|e|] eqn:E; cbn; [|destruct (std_exception e); exact H|exact H].
    apply IH. now apply (K1 c m).
  Qed.
  Lemma addRoutings_same c q : Same c -> Same (snd (addRoutings addRouting c q)).
  Proof using K.
    destruct K as (_ & _ & K3). revert c. induction q as [|m q IH]; intros c H; cbn; [exact H|].
    pose proof (K3 c m H) as H'. destruct (addRouting c m) as [[u|e|] c']; cbn in *; auto.
  Qed.
  Lemma all_routings_same c p : Same c -> Same (fst (fst (all_routings clearRoutings addRouting c p))).
  Proof using K.
    intros H. unfold all_routings, setRoutings. destruct (snd p); [|exact H].
    pose proof (addRoutings_same (clearRoutings c) (fst p) (proj1 (proj2 K) c H)) as H'.
    destruct (addRoutings addRouting (clearRoutings c) (fst p)) as [[u|e|] c']; cbn in *; auto.
    destruct (std_exception e); exact H'.
  Qed.

  Lemma filter_loop_poison c q1 f q2 : Same c -> rejected_filter Same f ->
    exists c' q1' r, filter_loop setFilter c (q1 ++ f :: q2) = (c', q1' ++ f :: q2, r)
      /\ Same c' /\ is_ok r = false.
  Proof using K.
    intros Hc Hf. pose proof (filter_loop_same c (q1 ++ f :: q2) Hc) as Hs.
    revert c Hc Hs. induction q1 as [|m q1 IH]; intros c Hc Hs; cbn in *.
    - destruct (Hf c Hc) as (e & E & He). rewrite E, std_true in * by assumption. cbn in *.
      exists c, [], (Throw RuntimeError). auto.
    - destruct (setFilter c m) as [c'|e|] eqn:E.
      + apply IH; [now apply (proj1 K c m)|exact Hs].
      + destruct (std_exception e); eexists _, (m :: q1), _; (split; [reflexivity|auto]).
      + eexists _, (m :: q1), _; (split; [reflexivity|auto]).
  Qed.
  Lemma single_loop_poison c q1 r q2 : Same c -> rejected_routing Same r ->
    exists c' q1' o, single_loop addRouting c (q1 ++ r :: q2) = (c', q1' ++ r :: q2, o)
      /\ Same c' /\ is_ok o = false.
  Proof using K.
    intros Hc Hf. revert c Hc. induction q1 as [|m q1 IH]; intros c Hc; cbn.
    - pose proof (proj2 (proj2 K) c r Hc) as Hs.
      destruct (Hf c Hc) as (e & c' & E & He). rewrite E in *. rewrite std_true by assumption.
      exists c', [], (Throw RuntimeError). auto.
    - pose proof (proj2 (proj2 K) c m Hc) as Hs.
      destruct (addRouting c m) as [[u|e|] c']; cbn in *.
      + now apply IH.
      + destruct (std_exception e); eexists _, (m :: q1), _; (split; [reflexivity|auto]).
      + eexists _, (m :: q1), _; (split; [reflexivity|auto]).
  Qed.

  Definition poisoned (s : @matrix C F R I) : Prop :=
    Same (x_conv s) /\
    ((exists q1 f q2, x_filters s = q1 ++ f :: q2 /\ rejected_filter Same f) \/
     (exists q1 r q2, x_single s = q1 ++ r :: q2 /\ rejected_routing Same r)).

  Lemma poisoned_step s o : poisoned s -> poisoned (fst (step s o)) /\ failed (snd (step s o)).
  Proof using K.
    intros [Hs P]. destruct o as [f|l|r|i|x]; cbn [m_step].
    - split; [|exact Logic.I]. split; [exact Hs|].
      destruct P as [(q1 & g & q2 & E & H)|P]; [left|right; exact P].
      exists q1, g, (q2 ++ [f]). cbn. rewrite E, <- app_assoc. auto.
    - split; [split; [exact Hs|exact P]|exact Logic.I].
    - split; [|exact Logic.I]. split; [exact Hs|].
      destruct P as [P|(q1 & g & q2 & E & H)]; [left; exact P|right].
      exists q1, g, (q2 ++ [r]). cbn. rewrite E, <- app_assoc. auto.
    - split; [split; [exact Hs|exact P]|exact Logic.I].
    - assert (G : poisoned (fst (process s x)) /\ is_ok (snd (process s x)) = false).
      { unfold m_process. destruct P as [(q1 & g & q2 & E & H)|(q1 & g & q2 & E & H)].
        - destruct (filter_loop_poison (x_conv s) q1 g q2 Hs H) as (c' & q1' & o & Eq & Hc & Ho).
          rewrite E, Eq. destruct o as [u|e|]; [discriminate| |];
            (split; [split; [exact Hc|left; exists q1', g, q2; auto]|reflexivity]).
        - assert (P : forall c fq al iq q, Same c -> q = q1 ++ g :: q2 ->
            poisoned (Matrix c fq al q iq)).
          { intros c fq al iq q Hc ->. split; [exact Hc|]. right. exists q1, g, q2. auto. }
          pose proof (filter_loop_same (x_conv s) (x_filters s) Hs) as S1.
          destruct (filter_loop setFilter (x_conv s) (x_filters s)) as [[c1 fq] [u|e|]]; cbn in S1;
            [|split; [now apply P|reflexivity]|split; [now apply P|reflexivity]].
          pose proof (all_routings_same c1 (x_all s) S1) as S2.
          destruct (all_routings clearRoutings addRouting c1 (x_all s)) as [[c2 al] [u2|e|]]; cbn in S2;
            [|split; [now apply P|reflexivity]|split; [now apply P|reflexivity]].
          destruct (single_loop_poison c2 q1 g q2 S2 H) as (c' & q1' & o & Eq & Hc & Ho).
          rewrite E, Eq. destruct o as [u3|e|]; [discriminate| |];
            (split; [split; [exact Hc|right; exists q1', g, q2; auto]|reflexivity]). }
      destruct (process s x) as [s' y]. cbn in *. destruct G as [G1 G2].
      split; [exact G1|]. destruct y; [discriminate|exact Logic.I|exact Logic.I].
  Qed.
  End Poison.

  (** The claim is false of the code: once a filter message or a routing message that the
      convolver rejects is in the queue, it is never consumed and no later block is ever
      processed, whatever messages follow. *)
  Theorem C39_blocked_refuted : forall (Same : C -> Prop) s ops,
    keeps Same -> Same (x_conv s) ->
    (exists q1 f q2, x_filters s = q1 ++ f :: q2 /\ rejected_filter Same f) \/
    (exists q1 r q2, x_single s = q1 ++ r :: q2 /\ rejected_routing Same r) ->
    Forall failed (outputs step s ops).
  Proof using.
    intros Same s ops HK Hs P. assert (Q : poisoned Same s) by (split; assumption).
    clear Hs P. revert s Q. induction ops as [|o ops IH]; intros s P; [constructor|].
    rewrite outputs_cons. destruct (poisoned_step Same HK s o P) as [P' Ho].
    constructor; [exact Ho|apply IH, P'].
  Qed.

  (** *** What holds: accepted messages

      A message accepted by every convolver state; [f'] etc. is its effect. *)
  Definition accepted_filter (f : F) : Prop := forall c, exists c', setFilter c f = Ok c'.
  Definition accepted_interp (i : I) : Prop := forall c, exists c', setInterpolant c i = Ok c'.
  (** A routing message may be rejected for lack of space, so acceptance is relative to
      the state. *)
  Inductive adds : C -> list R -> C -> Prop :=
  | adds_nil c : adds c [] c
  | adds_cons c r l c1 c2 : addRouting c r = (Ok tt, c1) -> adds c1 l c2 -> adds c (r :: l) c2.
  Inductive sets {M} (set : C -> M -> res C) : C -> list M -> C -> Prop :=
  | sets_nil c : sets set c [] c
  | sets_cons c m l c1 c2 : set c m = Ok c1 -> sets set c1 l c2 -> sets set c (m :: l) c2.

  Lemma filter_loop_sets {M} (set : C -> M -> res C) c q c' :
    sets set c q c' -> filter_loop set c q = (c', [], Ok tt).
  Proof using. induction 1; cbn; [reflexivity|]. rewrite H. exact IHsets. Qed.
  Lemma single_loop_adds c q c' : adds c q c' -> single_loop addRouting c q = (c', [], Ok tt).
  Proof using. induction 1; cbn; [reflexivity|]. rewrite H. exact IHadds. Qed.
  Lemma addRoutings_adds c q c' : adds c q c' -> addRoutings addRouting c q = (Ok tt, c').
  Proof using. induction 1; cbn; [reflexivity|]. rewrite H. exact IHadds. Qed.

  (** If all waiting messages are acceptable, one process() call applies the filters in
      order, then replaces the routings if a new list has arrived, then adds the single
      routings in order, then the interpolants, consumes all of them and processes the
      block with the resulting convolver. *)
  Theorem C39_accepted_partial : forall s x c1 c2 c3 c4 c5 y,
    sets setFilter (x_conv s) (x_filters s) c1 ->
    (if snd (x_all s) then adds (clearRoutings c1) (fst (x_all s)) c2 else c2 = c1) ->
    adds c2 (x_single s) c3 ->
    sets setInterpolant c3 (x_interp s) c4 ->
    convolve c4 x = Ok (c5, y) ->
    step s (MProcess x) = (Matrix c5 [] (fst (x_all s), false) [] [], MOut (Ok y)).
  Proof using.
    intros s x c1 c2 c3 c4 c5 y H1 H2 H3 H4 H5. cbn [m_step]. unfold m_process.
    rewrite (filter_loop_sets _ _ _ _ H1).
    assert (A : all_routings clearRoutings addRouting c1 (x_all s) = (c2, (fst (x_all s), false), Ok tt)).
    { unfold all_routings. destruct (x_all s) as [l [|]]; cbn in *.
      - unfold setRoutings. rewrite (addRoutings_adds _ _ _ H2). reflexivity.
      - now subst. }
    rewrite A, (single_loop_adds _ _ _ H3), (filter_loop_sets _ _ _ _ H4), H5. reflexivity.
  Qed.

  (** A rejected complete routing list blocks the component only until the next
      acceptable list: it is a value, not a queue.  The messages before it have been
      applied and the routings before the offending one are in force meanwhile. *)
  Theorem C39_routing_list_recovers_partial : forall s l l' x x' c1 c' c2 c3 c4 c5 y e,
    sets setFilter (x_conv s) (x_filters s) c1 ->
    addRoutings addRouting (clearRoutings c1) l = (Throw e, c') -> e <> CharPointer ->
    adds (clearRoutings c') l' c2 ->
    adds c2 (x_single s) c3 ->
    sets setInterpolant c3 (x_interp s) c4 ->
    convolve c4 x' = Ok (c5, y) ->
    outputs step s [MAll l; MProcess x; MAll l'; MProcess x']
      = [MNone; MOut (Throw RuntimeError); MNone; MOut (Ok y)]
    /\ x_conv (final step s [MAll l; MProcess x]) = c'
    /\ snd (x_all (final step s [MAll l; MProcess x])) = true.
  Proof using.
    intros s l l' x x' c1 c' c2 c3 c4 c5 y e H1 H2 He H3 H4 H5 H6.
    set (s1 := Matrix (x_conv s) (x_filters s) (l, true) (x_single s) (x_interp s)).
    assert (E1 : step s1 (MProcess x) =
      (Matrix c' [] (l, true) (x_single s) (x_interp s), MOut (Throw RuntimeError))).
    { cbn [m_step]. unfold m_process. cbn [s1 x_conv x_filters x_all x_single x_interp].
      rewrite (filter_loop_sets _ _ _ _ H1). unfold all_routings, setRoutings. cbn [fst snd].
      rewrite H2, std_true by assumption. reflexivity. }
    pose proof (C39_accepted_partial (Matrix c' [] (l', true) (x_single s) (x_interp s)) x'
      c' c2 c3 c4 c5 y (sets_nil _ _) H3 H4 H5 H6) as E2.
    assert (E0 : step s (MAll l) = (s1, MNone)) by reflexivity.
    assert (E3 : step (Matrix c' [] (l, true) (x_single s) (x_interp s)) (MAll l')
                 = (Matrix c' [] (l', true) (x_single s) (x_interp s), MNone)) by reflexivity.
    split; [|split].
    - rewrite outputs_cons, E0. cbn [fst snd]. rewrite outputs_cons, E1. cbn [fst snd].
      rewrite outputs_cons, E3. cbn [fst snd]. rewrite outputs_cons, E2. reflexivity.
    - rewrite !final_cons, E0. cbn [fst]. rewrite E1. reflexivity.
    - rewrite !final_cons, E0. cbn [fst]. rewrite E1. reflexivity.
  Qed.
End C39.
Print Assumptions C39_blocked_refuted.
Print Assumptions C39_accepted_partial.
Print Assumptions C39_routing_list_recovers_partial.

(** *** FirFilterMatrix: which messages are rejected *)
Section FirProps.
  Context {T K : Type} (zero : T) (tmul : T -> T -> T) (fwd : list T -> list K).
  (** the configuration of the convolver, not changed by any message *)
  Definition config (m : multi T K) : nat * nat * nat * nat :=
    (length (c_filters (m_core m)), c_maxlen (m_core m), c_inputs (m_core m), m_outputs m).

  (** A filter message is applied exactly if its index and length are admissible (and it
      is not empty); an inadmissible one is rejected with an exception. *)
  Theorem C39_filter_check : forall m idx h,
    h <> [] ->
    let '(entries, maxlen, _, _) := config m in
    (idx < entries /\ length h <= maxlen ->
     exists m', fir_setFilter zero tmul fwd m (idx, h) = Ok m' /\ config m' = config m) /\
    (~ (idx < entries /\ length h <= maxlen) ->
     fir_setFilter zero tmul fwd m (idx, h) = Throw InvalidArgument).
  Proof using.
    intros m idx h Hn. unfold config, fir_setFilter, set_ir, transform_ir. cbn [fst snd].
    destruct h as [|a h]; [congruence|].
    destruct (Nat.leb_spec (length (c_filters (m_core m))) idx) as [L|L].
    - split; [lia|]. intros _. reflexivity.
    - destruct (Nat.ltb_spec (c_maxlen (m_core m)) (length (a :: h))) as [L2|L2].
      + split; [lia|]. intros _. reflexivity.
      + split; [|lia]. intros _. cbn. eexists. split; [reflexivity|]. cbn.
        f_equal. f_equal. f_equal. unfold set_nth.
        destruct (Nat.ltb_spec idx (length (c_filters (m_core m)))); [|lia].
        rewrite app_length, firstn_length. cbn [length]. rewrite skipn_length. lia.
  Qed.
  (** A routing outside the configured range is rejected and changes nothing; one inside
      is accepted unless the table is full. *)
  Theorem C39_routing_check : forall (m : multi T K) r,
    let '(entries, _, inputs, outputs) := config m in
    let in_range := r_in r < inputs /\ r_out r < outputs /\ r_filter r < entries in
    (~ in_range -> fir_addRouting m r = (Throw InvalidArgument, m)) /\
    (in_range -> length (m_table m) < m_max m -> fst (fir_addRouting m r) = Ok tt) /\
    config (snd (fir_addRouting m r)) = config m.
  Proof using.
    intros m r. unfold config, fir_addRouting, set_routing.
    destruct m as [c out mx t]. cbn -[Nat.ltb Nat.leb].
    assert (L : forall x l, @length (routing T) (ms_erase_one x l) <= length l).
    { induction l as [|y l IH]; cbn; [lia|]. destruct (r_equiv x y); cbn; lia. }
    destruct (Nat.leb_spec (c_inputs c) (r_in r)); [repeat split; auto; lia|].
    destruct (Nat.leb_spec out (r_out r)); [repeat split; auto; lia|].
    destruct (Nat.leb_spec (length (c_filters c)) (r_filter r)); [repeat split; auto; lia|].
    specialize (L r t).
    destruct (Nat.leb_spec mx (length (ms_erase_one r t))); cbn; repeat split; auto; lia.
  Qed.
  (** An empty filter message is undefined behaviour. *)
  Theorem C39_empty_filter_refuted : forall (m : multi T K) idx,
    fir_setFilter zero tmul fwd m (idx, []) = UB.
  Proof using. reflexivity. Qed.

  (** FirFilterMatrix: one filter message with an inadmissible index or length, or one
      routing message with an inadmissible index, and the component never processes a
      block again. *)
  Theorem C39_fir_blocked_refuted : forall {I X Y} (interp : multi T K -> I -> res (multi T K))
      (convolve : multi T K -> X -> res (multi T K * Y)) s ops,
    let '(entries, maxlen, inputs, outs) := config (x_conv s) in
    (exists idx h, In (idx, h) (x_filters s) /\ h <> [] /\ (entries <= idx \/ maxlen < length h)) \/
    (exists r, In r (x_single s) /\ (inputs <= r_in r \/ outs <= r_out r \/ entries <= r_filter r)) ->
    Forall failed (outputs (m_step (fir_setFilter zero tmul fwd) fir_clearRoutings fir_addRouting
      interp convolve) s ops).
  Proof using.
    intros I X Y interp convolve s ops.
    destruct (config (x_conv s)) as [[[entries maxlen] inputs] outs] eqn:Ec. intros H.
    apply (C39_blocked_refuted _ _ _ _ _ (fun c => config c = (entries, maxlen, inputs, outs)));
      [|exact Ec|].
    - split; [|split].
      + intros c [idx h] c' Hc E. pose proof (C39_filter_check c idx h) as G.
        destruct h as [|a h]; [discriminate|]. specialize (G ltac:(discriminate)).
        destruct (config c) as [[[e1 m1] i1] o1]. destruct G as [G1 G2].
        destruct (Nat.ltb_spec idx e1) as [L|L].
        * destruct (Nat.leb_spec (length (a :: h)) m1) as [L2|L2].
          -- destruct (G1 (conj L L2)) as (m' & E' & Hm). congruence.
          -- rewrite G2 in E; [discriminate|lia].
        * rewrite G2 in E; [discriminate|lia].
      + intros c Hc. exact Hc.
      + intros c r Hc. pose proof (C39_routing_check c r) as G. rewrite Hc in G.
        destruct G as (_ & _ & G). rewrite G. reflexivity.
    - destruct H as [(idx & h & Hin & Hn & H)|(r & Hin & H)].
      + left. apply in_split in Hin. destruct Hin as (q1 & q2 & E). exists q1, (idx, h), q2.
        split; [exact E|]. intros c Hc. pose proof (C39_filter_check c idx h Hn) as G.
        rewrite Hc in G. exists InvalidArgument. split; [apply G; lia|discriminate].
      + right. apply in_split in Hin. destruct Hin as (q1 & q2 & E). exists q1, r, q2.
        split; [exact E|]. intros c Hc. pose proof (C39_routing_check c r) as G.
        rewrite Hc in G. exists InvalidArgument, c. split; [apply G; lia|discriminate].
  Qed.
End FirProps.
Print Assumptions C39_fir_blocked_refuted.
Print Assumptions C39_filter_check.
Print Assumptions C39_routing_check.
Print Assumptions C39_empty_filter_refuted.

(** A component with 2 inputs, 1 output and 2 filters of length up to 4; the second filter
    message has index 2, then a correct one follows: no block is processed. *)
Definition ex_conv : multi nat nat :=
  MkMulti (core_new 0 0 (fun b => b) 2 2 4 2 0 1) 1 2 [].
Definition ex_step := m_step (fir_setFilter 0 Nat.mul (fun l => l)) fir_clearRoutings
  fir_addRouting (fun c (_ : unit) => Ok c) (fun c (x : nat) => Ok (c, x)).
Definition ex_state : @matrix (multi nat nat) (nat * list nat) (routing nat) unit :=
  Matrix ex_conv [] ([], false) [] [].
Example C39_example :
  outputs ex_step ex_state
    [MFilter (0, [1; 2; 3]); MSingle (MkRouting 1 0 1 5); MProcess 7; MFilter (1, [1]);
     MFilter (2, [1]); MFilter (1, [4]); MProcess 8; MProcess 9]
  = [MNone; MNone; MOut (Ok 7); MNone; MNone; MNone; MOut (Throw RuntimeError);
     MOut (Throw RuntimeError)].
Proof. vm_compute. reflexivity. Qed.
Example C39_example_list :
  outputs ex_step ex_state
    [MAll [MkRouting 0 0 0 1; MkRouting 2 0 0 1]; MProcess 1; MAll [MkRouting 0 0 1 1]; MProcess 2]
  = [MNone; MOut (Throw RuntimeError); MNone; MOut (Ok 2)].
Proof. vm_compute. reflexivity. Qed.
