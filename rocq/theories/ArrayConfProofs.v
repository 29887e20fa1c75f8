(** Lemmas about array configuration files *)
From Coq Require Import String Permutation Sorted.
From Verif Require Import Base MsgModel ArrayConfModel ArrayConfSpec.
From Coq Require Import List.
Local Open Scope res_scope.

(** *** Sorted lists of numbers *)
Lemma sorted_unique (a : list nat) : forall b, StronglySorted lt a -> StronglySorted lt b -> Permutation a b -> a = b.
Proof.
  induction a as [|x a IH]; intros b A B P.
  - symmetry. now apply Permutation_nil.
  - destruct b as [|y b]; [now apply Permutation_sym, Permutation_nil in P|].
    inversion A as [|? ? A1 A2]; inversion B as [|? ? B1 B2]; subst.
    assert (X : In x (y :: b)) by (apply (Permutation_in _ P); now left).
    assert (Y : In y (x :: a)) by (apply (Permutation_in _ (Permutation_sym P)); now left).
    rewrite Forall_forall in A2, B2.
    assert (x = y) as <-.
    { destruct X as [X|X]; [easy|]. destruct Y as [Y|Y]; [easy|]. specialize (A2 _ Y). specialize (B2 _ X). lia. }
    f_equal. apply IH; auto. now apply Permutation_cons_inv in P.
Qed.
Lemma sorted_seq n : forall k, StronglySorted lt (seq k n).
Proof.
  induction n as [|n IH]; intros k; cbn; constructor; auto.
  apply Forall_forall. intros x X. apply in_seq in X. lia.
Qed.
Lemma sorted_nodup (a : list nat) : StronglySorted lt a -> NoDup a.
Proof.
  induction 1 as [|x a S IH F]; constructor; auto.
  intros I. rewrite Forall_forall in F. specialize (F _ I). lia.
Qed.

Lemma nodup_app_l {A} (a b : list A) : NoDup (a ++ b) -> NoDup a.
Proof.
  induction a as [|x a IH]; cbn; intros N; [constructor|]. inversion N as [|? ? N1 N2]; subst. constructor; [|auto].
  intros I. apply N1, in_or_app. now left.
Qed.

Section Proofs.
  Context {V : Type} (read_double : list Ascii.ascii -> option V) (read_size : list Ascii.ascii -> option nat).
  Context (from_db : V -> V) (zero : V).
  Local Notation read_speaker := (read_speaker read_double read_size from_db zero).
  Local Notation read_speakers := (read_speakers read_double read_size from_db zero).
  Local Notation read_subwoofers := (read_subwoofers read_double read_size from_db zero).
  Local Notation loadXml := (loadXml read_double read_size from_db zero).
  Local Notation describes := (describes read_double read_size from_db zero).
  Implicit Types (l : list (speaker V)) (st : state V) (s : speaker V).

  Definition sorted l : Prop := StronglySorted lt (map id l).

  Lemma insert_some s l : forall l', sorted l -> insert s l = Some l' -> Permutation l' (s :: l) /\ sorted l'.
  Proof.
    unfold sorted. induction l as [|x r IH]; intros l' So I.
    - injection I as <-. split; [reflexivity|]. repeat constructor.
    - cbn [insert] in I. cbn [map] in So. inversion So as [|? ? S1 S2]; subst.
      destruct (Nat.ltb_spec (id s) (id x)).
      + injection I as <-. split; [reflexivity|]. cbn [map]. constructor; [exact So|].
        constructor; [assumption|]. eapply Forall_impl; [|exact S2]. cbn. intros; lia.
      + destruct (Nat.ltb_spec (id x) (id s)); [|discriminate].
        destruct (insert s r) as [r'|] eqn:E; [|discriminate]. injection I as <-.
        destruct (IH r' S1 eq_refl) as [P So']. split.
        * rewrite P. apply perm_swap.
        * cbn [map]. constructor; [exact So'|].
          apply Forall_forall. intros k K.
          apply (Permutation_in _ (Permutation_map id P)) in K. cbn [map] in K.
          destruct K as [<-|K]; [assumption|]. rewrite Forall_forall in S2. now apply S2.
  Qed.
  Lemma insert_none s l : sorted l -> (insert s l = None <-> In (id s) (map id l)).
  Proof.
    unfold sorted. induction l as [|x r IH]; intros So.
    - cbn. split; [discriminate|intros []].
    - cbn [insert map]. cbn [map] in So. inversion So as [|? ? S1 S2]; subst. rewrite Forall_forall in S2.
      destruct (Nat.ltb_spec (id s) (id x)).
      + split; [discriminate|]. intros [E|I]; [lia|]. specialize (S2 _ I). lia.
      + destruct (Nat.ltb_spec (id x) (id s)).
        * specialize (IH S1). destruct (insert s r) as [r'|].
          -- split; [discriminate|]. intros [E|I]; [lia|]. now apply IH in I.
          -- split; [|reflexivity]. intros _. right. now apply IH.
        * split; [|reflexivity]. intros _. left. lia.
  Qed.

  (** *** The elements *)
  Lemma attribute_spec t k : match child_opt ["<xmlattr>"%string; k] t with
    | Some n => attribute t k (t_data n) /\ forall w, attribute t k w -> w = t_data n
    | None => forall w, ~ attribute t k w
    end.
  Proof.
    cbn [child_opt]. unfold attribute.
    destruct (kid "<xmlattr>" (t_kids t)) as [a|].
    - destruct (kid k (t_kids a)) as [n|] eqn:N.
      + split; [eauto|]. intros w (a' & n' & A & B & C). injection A as <-. rewrite N in B. injection B as <-. easy.
      + intros w (a' & n' & A & B & C). injection A as <-. congruence.
    - intros w (a' & n' & A & _). discriminate.
  Qed.
  Lemma optional_spec t k : match optional read_double k t with
    | Some v => number read_double t k v /\ forall v', number read_double t k v' -> v' = v
    | None => no_number read_double t k
    end.
  Proof.
    unfold optional, number, no_number. assert (A := attribute_spec t k).
    destruct (child_opt ["<xmlattr>"%string; k] t) as [n|].
    - destruct A as [A U]. destruct (read_double (t_data n)) as [v|] eqn:R.
      + split; [eauto|]. intros v' (w & W & E). rewrite (U w W) in E. congruence.
      + intros v (w & W & E). rewrite (U w W) in E. congruence.
    - intros v (w & W & _). now apply A in W.
  Qed.

  Lemma read_speaker_ok t s : read_speaker t = Ok s <-> describes t s.
  Proof.
    unfold ArrayConfModel.read_speaker, ArrayConfSpec.describes, child.
    assert (I := attribute_spec t "id"). assert (G := optional_spec t "gain").
    assert (D := optional_spec t "gainDB"). assert (L := optional_spec t "delay").
    destruct (child_opt ["<xmlattr>"%string; "id"%string] t) as [n|]; cbn [bind].
    2:{ split; [discriminate|]. intros ((w & W & _) & _). now apply I in W. }
    destruct I as [I U].
    destruct (read_size (t_data n)) as [i|] eqn:R; cbn [bind].
    2:{ split; [discriminate|]. intros ((w & W & E) & _). rewrite (U w W) in E. congruence. }
    destruct (optional read_double "gain" t) as [g|], (optional read_double "gainDB" t) as [d|]; cbn [bind].
    - split; [discriminate|]. intros (_ & [[_ N]|[N _]] & _); exfalso; [apply (N d), D|apply (N g), G].
    - split.
      + intros E. injection E as <-. split; [exists (t_data n); auto|]. split; [left; cbn; intuition|].
        cbn [delayAdjustment]. destruct (optional read_double "delay" t) as [v|]; [left; apply L|right; auto].
      + intros ((w & W & E) & H1 & H2). rewrite (U w W), R in E. injection E as E.
        destruct s as [si sg sd]. cbn [id gainAdjustment delayAdjustment] in *. subst si.
        assert (sg = g) as ->.
        { destruct H1 as [[H1 _]|[_ (d & H1 & _)]]; [now apply G|exfalso; now apply (D d)]. }
        f_equal. f_equal. destruct (optional read_double "delay" t) as [v|].
        * destruct H2 as [H2|[H2 _]]; [symmetry; now apply L|exfalso; now apply (H2 v), L].
        * destruct H2 as [H2|[_ H2]]; [exfalso; now apply (L sd)|easy].
    - split.
      + intros E. injection E as <-. split; [exists (t_data n); auto|]. split; [right; cbn; split; [exact G|]; exists d; intuition|].
        cbn [delayAdjustment]. destruct (optional read_double "delay" t) as [v|]; [left; apply L|right; auto].
      + intros ((w & W & E) & H1 & H2). rewrite (U w W), R in E. injection E as E.
        destruct s as [si sg sd]. cbn [id gainAdjustment delayAdjustment] in *. subst si.
        assert (sg = from_db d) as ->.
        { destruct H1 as [[H1 _]|[_ (d' & H1 & ->)]]; [exfalso; now apply (G sg)|f_equal; now apply D]. }
        f_equal. f_equal. destruct (optional read_double "delay" t) as [v|].
        * destruct H2 as [H2|[H2 _]]; [symmetry; now apply L|exfalso; now apply (H2 v), L].
        * destruct H2 as [H2|[_ H2]]; [exfalso; now apply (L sd)|easy].
    - split; [discriminate|]. intros (_ & [[N _]|[_ (d & N & _)]] & _); exfalso; [now apply G in N|now apply D in N].
  Qed.
  Lemma read_speaker_no_ub t : read_speaker t <> UB.
  Proof.
    unfold ArrayConfModel.read_speaker, child.
    destruct (child_opt _ t) as [n|]; cbn [bind]; [|discriminate].
    destruct (read_size _); cbn [bind]; [|discriminate].
    destruct (optional _ "gain" t), (optional _ "gainDB" t); discriminate.
  Qed.

  (** *** The loops *)
  (** [sp] are the speakers that were added *)
  Definition added (st st' : state V) (sp : list (speaker V)) (subs : list nat) : Prop :=
    Permutation (mArray st') (mArray st ++ sp) /\ sorted (mArray st') /\ mSubwoofers st' = mSubwoofers st ++ subs.

  Lemma added_refl st : sorted (mArray st) -> added st st [] [].
  Proof. intros So. unfold added. rewrite !app_nil_r. auto. Qed.

  Lemma read_speakers_spec ts : forall st, sorted (mArray st) ->
    exists sp st', fst (read_speakers ts st) = st' /\ added st st' sp []
      /\ (snd (read_speakers ts st) = None -> Forall2 describes ts sp)
      /\ (forall sp', Forall2 describes ts sp' -> NoDup (map id (mArray st ++ sp')) -> snd (read_speakers ts st) = None)
      /\ exists ts1 ts2, ts = ts1 ++ ts2 /\ Forall2 describes ts1 sp.
  Proof.
    induction ts as [|t ts IH]; intros st So.
    - exists [], st. cbn. split; [reflexivity|]. split; [now apply added_refl|]. split; [constructor|]. split; [easy|].
      exists [], []. split; [reflexivity|constructor].
    - cbn [ArrayConfModel.read_speakers].
      assert (Stop : forall e, read_speaker t = Throw e \/ (exists s, read_speaker t = Ok s /\ insert s (mArray st) = None) ->
        (forall sp', Forall2 describes (t :: ts) sp' -> NoDup (map id (mArray st ++ sp')) -> @Some exn e = None)).
      { intros e H sp' F N. exfalso. inversion F as [|? s ? sp'' D F']; subst. apply read_speaker_ok in D.
        destruct H as [H|(s' & H & I)]; [congruence|]. rewrite D in H. injection H as <-.
        apply (insert_none s) in I; [|exact So]. rewrite map_app in N. cbn [map] in N.
        apply NoDup_remove_2 in N. apply N, in_or_app. now left. }
      destruct (read_speaker t) as [s|e|] eqn:R; [| |now apply read_speaker_no_ub in R].
      + destruct (insert s (mArray st)) as [a|] eqn:E.
        * destruct (insert_some s _ a So E) as [P Sa].
          destruct (IH (State a (mSubwoofers st)) Sa) as (sp & st' & A & B & C & D & ts1 & ts2 & T1 & T2).
          exists (s :: sp), st'. split; [exact A|]. cbn [mArray mSubwoofers] in *.
          assert (Ds : describes t s) by now apply read_speaker_ok.
          split; [|split; [|split]].
          -- destruct B as (B1 & B2 & B3). unfold added. cbn [mArray mSubwoofers] in *. split; [|auto].
             rewrite B1, P. cbn [app]. now rewrite <- Permutation_middle.
          -- intros H. constructor; auto.
          -- intros sp' F N. inversion F as [|? s' ? sp'' D' F']; subst.
             apply read_speaker_ok in D'. rewrite R in D'. injection D' as <-.
             apply (D sp'' F').
             eapply Permutation_NoDup; [|exact N]. apply Permutation_map. rewrite P. cbn [app]. now rewrite Permutation_middle.
          -- exists (t :: ts1), ts2. split; [now rewrite T1|]. constructor; auto.
        * exists [], st. cbn [fst snd]. split; [reflexivity|]. split; [now apply added_refl|]. split; [discriminate|].
          split; [eapply Stop; eauto|]. exists [], (t :: ts). split; [reflexivity|constructor].
      + exists [], st. cbn [fst snd]. split; [reflexivity|]. split; [now apply added_refl|]. split; [discriminate|].
        split; [eapply Stop; eauto|]. exists [], (t :: ts). split; [reflexivity|constructor].
  Qed.

  Lemma read_subwoofers_spec ts : forall st, sorted (mArray st) ->
    exists sp st', fst (read_subwoofers ts st) = st' /\ added st st' sp (map id sp)
      /\ (snd (read_subwoofers ts st) = None -> Forall2 describes ts sp)
      /\ (forall sp', Forall2 describes ts sp' -> NoDup (map id (mArray st ++ sp')) -> snd (read_subwoofers ts st) = None)
      /\ exists ts1 ts2, ts = ts1 ++ ts2 /\ Forall2 describes ts1 sp.
  Proof.
    induction ts as [|t ts IH]; intros st So.
    - exists [], st. cbn. split; [reflexivity|]. split; [now apply added_refl|]. split; [constructor|]. split; [easy|].
      exists [], []. split; [reflexivity|constructor].
    - cbn [ArrayConfModel.read_subwoofers].
      assert (Stop : forall e, read_speaker t = Throw e \/ (exists s, read_speaker t = Ok s /\ insert s (mArray st) = None) ->
        (forall sp', Forall2 describes (t :: ts) sp' -> NoDup (map id (mArray st ++ sp')) -> @Some exn e = None)).
      { intros e H sp' F N. exfalso. inversion F as [|? s ? sp'' D F']; subst. apply read_speaker_ok in D.
        destruct H as [H|(s' & H & I)]; [congruence|]. rewrite D in H. injection H as <-.
        apply (insert_none s) in I; [|exact So]. rewrite map_app in N. cbn [map] in N.
        apply NoDup_remove_2 in N. apply N, in_or_app. now left. }
      destruct (read_speaker t) as [s|e|] eqn:R; [| |now apply read_speaker_no_ub in R].
      + destruct (insert s (mArray st)) as [a|] eqn:E.
        * destruct (insert_some s _ a So E) as [P Sa].
          destruct (IH (State a (mSubwoofers st ++ [id s])) Sa) as (sp & st' & A & B & C & D & ts1 & ts2 & T1 & T2).
          exists (s :: sp), st'. split; [exact A|]. cbn [mArray mSubwoofers] in *.
          assert (Ds : describes t s) by now apply read_speaker_ok.
          split; [|split; [|split]].
          -- destruct B as (B1 & B2 & B3). unfold added. cbn [mArray mSubwoofers] in *. split; [|split; [auto|]].
             ++ rewrite B1, P. cbn [app]. now rewrite <- Permutation_middle.
             ++ rewrite B3, <- app_assoc. reflexivity.
          -- intros H. constructor; auto.
          -- intros sp' F N. inversion F as [|? s' ? sp'' D' F']; subst.
             apply read_speaker_ok in D'. rewrite R in D'. injection D' as <-.
             apply (D sp'' F').
             eapply Permutation_NoDup; [|exact N]. apply Permutation_map. rewrite P. cbn [app]. now rewrite Permutation_middle.
          -- exists (t :: ts1), ts2. split; [now rewrite T1|]. constructor; auto.
        * exists [], st. cbn [fst snd]. split; [reflexivity|]. split; [now apply added_refl|]. split; [discriminate|].
          split; [eapply Stop; eauto|]. exists [], (t :: ts). split; [reflexivity|constructor].
      + exists [], st. cbn [fst snd]. split; [reflexivity|]. split; [now apply added_refl|]. split; [discriminate|].
        split; [eapply Stop; eauto|]. exists [], (t :: ts). split; [reflexivity|constructor].
  Qed.

  (** *** The final check *)
  Lemma gap_spec l : forall k, map id (firstn 1 l) = seq k (length (firstn 1 l)) ->
    (gap l = false <-> map id l = seq k (length l)).
  Proof.
    induction l as [|x l IH]; intros k H.
    - cbn. split; auto.
    - cbn in H. injection H as H. destruct l as [|y l]; [cbn; rewrite H; split; auto|].
      cbn [gap]. rewrite orb_false_iff, negb_false_iff, Nat.eqb_eq.
      change (map id (x :: y :: l)) with (id x :: map id (y :: l)).
      change (seq k (length (x :: y :: l))) with (k :: seq (S k) (length (y :: l))).
      split.
      + intros [E G]. f_equal; [exact H|]. apply IH; [cbn; f_equal; lia|exact G].
      + intros E. assert (G : map id (y :: l) = seq (S k) (length (y :: l))) by (now injection E as E1 E2 E3; cbn; rewrite E2, E3).
        injection E as E1 E2 E3. split; [lia|]. apply (IH (S k)); [cbn; f_equal; lia|exact G].
  Qed.
  Lemma check_spec st : fst (check st) = st /\ (snd (check st) = None <-> map id (mArray st) = seq 1 (length (mArray st))).
  Proof.
    unfold check. destruct (mArray st) as [|x l] eqn:E; [cbn; tauto|].
    destruct (Nat.eqb_spec (id x) 1) as [I|I]; cbn [negb].
    - assert (G := gap_spec (x :: l) 1). specialize (G ltac:(cbn; now rewrite I)).
      destruct (gap (x :: l)); cbn [fst snd]; split; auto.
      + split; [discriminate|]. intros H. apply G in H. discriminate.
      + tauto.
    - cbn [fst snd]. split; [reflexivity|]. split; [discriminate|]. cbn. intros H. injection H as H _. contradiction.
  Qed.
  Lemma check_invalid st e : snd (check st) = Some e -> e = InvalidArgument.
  Proof.
    unfold check. destruct (mArray st); [discriminate|]. destruct (negb _); [cbn; congruence|]. destruct (gap _); cbn; congruence.
  Qed.

  (** *** The whole *)
  Lemma load_spec f st : sorted (mArray st) ->
    exists sp su st', fst (loadXml f st) = st' /\ added st st' (sp ++ su) (map id su)
      /\ (snd (loadXml f st) = None <-> exists doc, f = Document doc /\ exists sp' su', accepted read_double read_size from_db zero (mArray st) doc sp' su')
      /\ (snd (loadXml f st) = None -> map id (mArray st') = seq 1 (length (mArray st'))
            /\ exists doc, f = Document doc /\ accepted read_double read_size from_db zero (mArray st) doc sp su).
  Proof.
    intros So.
    assert (Stop : forall e, (forall doc, f = Document doc -> exists e, child ["arrayconfiguration"%string] doc = Throw e) ->
       exists sp su st', fst (st, @Some exn e) = st' /\ added st st' (sp ++ su) (map id su)
      /\ (snd (st, @Some exn e) = None <-> exists doc, f = Document doc /\ exists sp' su', accepted read_double read_size from_db zero (mArray st) doc sp' su')
      /\ (snd (st, @Some exn e) = None -> map id (mArray st') = seq 1 (length (mArray st'))
            /\ exists doc, f = Document doc /\ accepted read_double read_size from_db zero (mArray st) doc sp su)).
    { intros e H. exists [], [], st. cbn [fst snd]. split; [reflexivity|]. split; [now apply added_refl|]. split; [|discriminate].
      split; [discriminate|]. intros (doc & -> & sp' & su' & ((l & (root & K & _) & _) & _)).
      destruct (H doc eq_refl) as [e' H']. unfold child in H'. cbn [child_opt] in H'. rewrite K in H'. discriminate. }
    unfold ArrayConfModel.loadXml. destruct f as [| | |doc]; try (apply Stop; intros doc H; discriminate H).
    destruct (child ["arrayconfiguration"%string] doc) as [root|e|] eqn:Ch.
    2:{ apply Stop. intros d H. injection H as <-. eauto. }
    2:{ unfold child in Ch. destruct (child_opt _ doc); discriminate. }
    clear Stop.
    assert (Root : kid "arrayconfiguration" (t_kids doc) = Some root).
    { unfold child in Ch. cbn [child_opt] in Ch. destruct (kid "arrayconfiguration" (t_kids doc)); congruence. }
    assert (El : forall k (l : list tree), elements_of doc k l <-> l = kids_named k root).
    { intros k l. unfold elements_of, kids_named. split.
      - intros (r & Hr & ->). rewrite Root in Hr. now injection Hr as ->.
      - intros ->. eauto. }
    destruct (read_speakers_spec (kids_named "speaker" root) st So) as (sp & st1 & A1 & B1 & C1 & D1 & _).
    unfold andthen. rewrite A1.
    assert (Acc : forall sp' su', accepted read_double read_size from_db zero (mArray st) doc sp' su' ->
      Forall2 describes (kids_named "speaker" root) sp' /\ Forall2 describes (kids_named "subwoofer" root) su'
      /\ Permutation (map id (mArray st ++ sp' ++ su')) (seq 1 (length (mArray st ++ sp' ++ su')))).
    { intros sp' su' ((l1 & E1 & F1) & (l2 & E2 & F2) & P). apply El in E1, E2. subst. auto. }
    assert (Nd : forall sp' su', accepted read_double read_size from_db zero (mArray st) doc sp' su' ->
      NoDup (map id (mArray st ++ sp' ++ su'))).
    { intros sp' su' H. destruct (Acc _ _ H) as (_ & _ & P). eapply Permutation_NoDup; [symmetry; exact P|]. apply seq_NoDup. }
    destruct (snd (read_speakers (kids_named "speaker" root) st)) as [e|] eqn:E1.
    { exists sp, [], st1. rewrite app_nil_r. split; [exact A1|]. split; [exact B1|]. rewrite E1. split; [|discriminate].
      split; [discriminate|]. intros (d & H & sp' & su' & Hc). injection H as <-.
      destruct (Acc _ _ Hc) as (F1 & _ & _). apply (D1 sp' F1).
      specialize (Nd _ _ Hc). rewrite app_assoc, map_app in Nd. now apply nodup_app_l in Nd. }
    specialize (C1 eq_refl).
    assert (Same1 : forall sp', Forall2 describes (kids_named "speaker" root) sp' -> sp' = sp).
    { intros sp' F. revert sp' F. clear -C1. induction C1 as [|t s ts sp D F IH]; intros sp' F'; inversion F' as [|? s' ? sp'' D' F'']; subst; [reflexivity|].
      f_equal; [|now apply IH]. apply read_speaker_ok in D, D'. congruence. }
    destruct (read_subwoofers_spec (kids_named "subwoofer" root) st1 (proj1 (proj2 B1))) as (su & st2 & A2 & B2 & C2 & D2 & _).
    rewrite A2.
    assert (Ad : added st st2 (sp ++ su) (map id su)).
    { destruct B1 as (P1 & S1 & M1), B2 as (P2 & S2 & M2). unfold added. split; [|split; [exact S2|]].
      - rewrite P2, P1. now rewrite app_assoc.
      - rewrite M2, M1, app_nil_r. reflexivity. }
    destruct (snd (read_subwoofers (kids_named "subwoofer" root) st1)) as [e|] eqn:E2.
    { exists sp, su, st2. split; [exact A2|]. split; [exact Ad|]. rewrite E2. split; [|discriminate].
      split; [discriminate|]. intros (d & H & sp' & su' & Hc). injection H as <-.
      destruct (Acc _ _ Hc) as (F1 & F2 & _). apply (D2 su' F2).
      specialize (Nd _ _ Hc). rewrite (Same1 _ F1) in Nd.
      eapply Permutation_NoDup; [|exact Nd]. apply Permutation_map. destruct B1 as (P1 & _ & _). rewrite P1. now rewrite app_assoc. }
    specialize (C2 eq_refl).
    assert (Same2 : forall su', Forall2 describes (kids_named "subwoofer" root) su' -> su' = su).
    { intros sp' F. revert sp' F. clear -C2. induction C2 as [|t s ts sp D F IH]; intros sp' F'; inversion F' as [|? s' ? sp'' D' F'']; subst; [reflexivity|].
      f_equal; [|now apply IH]. apply read_speaker_ok in D, D'. congruence. }
    destruct (check_spec st2) as [Fs Ck].
    assert (Ac : snd (check st2) = None -> accepted read_double read_size from_db zero (mArray st) doc sp su).
    { intros H. apply Ck in H. split; [exists (kids_named "speaker" root); split; [now apply El|exact C1]|].
      split; [exists (kids_named "subwoofer" root); split; [now apply El|exact C2]|].
      destruct Ad as (P & _ & _).
      rewrite <- (Permutation_length P). rewrite <- H. apply Permutation_map. now symmetry. }
    exists sp, su, st2. split; [exact Fs|]. split; [exact Ad|]. split.
    - split.
      + intros H. exists doc. split; [reflexivity|]. exists sp, su. auto.
      + intros (d & H & sp' & su' & Hc). injection H as <-.
        destruct (Acc _ _ Hc) as (F1 & F2 & P). rewrite (Same1 _ F1), (Same2 _ F2) in P.
        apply Ck. destruct Ad as (P' & S' & _). apply sorted_unique; [exact S'|apply sorted_seq|].
        rewrite (Permutation_length P'). rewrite <- P. now apply Permutation_map.
    - intros H. split; [now apply Ck|]. exists doc. auto.
  Qed.
End Proofs.
