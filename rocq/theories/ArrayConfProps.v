(** Property C83: which array configuration files are accepted and what they configure; a failing or
    repeated load. *)
From Coq Require Import String Permutation Sorted.
From Verif Require Import Base MsgModel ArrayConfModel ArrayConfSpec ArrayConfProofs.
From Coq Require Import List ZArith.
Local Open Scope res_scope.
Local Open Scope nat_scope.

Section Theorems.
  Context {V : Type} (read_double : list Ascii.ascii -> option V) (read_size : list Ascii.ascii -> option nat).
  Context (from_db : V -> V) (zero : V).
  Local Notation loadXml := (loadXml read_double read_size from_db zero).
  Local Notation loaded := (loaded read_double read_size from_db zero).
  Local Notation accepted := (accepted read_double read_size from_db zero).
  Local Notation describes := (describes read_double read_size from_db zero).

  (** all objects that may arise, also through failing loads *)
  Definition consistent (st : state V) : Prop :=
    StronglySorted lt (map id (mArray st)) /\ NoDup (mSubwoofers st) /\ incl (mSubwoofers st) (map id (mArray st)).

  Lemma added_consistent st st' sp su :
    consistent st -> added st st' (sp ++ su) (map id su) -> consistent st'.
  Proof.
    intros (S & N & I) (P & S' & M). split; [exact S'|].
    assert (Pi : Permutation (map id (mArray st')) (map id (mArray st) ++ map id sp ++ map id su))
      by (rewrite P, !map_app; reflexivity).
    assert (Nd := sorted_nodup _ S').
    rewrite M. split.
    - assert (Nd' : NoDup (map id (mArray st) ++ map id su)).
      { assert (X := Permutation_NoDup Pi Nd).
        assert (Y : Permutation (map id (mArray st) ++ map id sp ++ map id su) ((map id (mArray st) ++ map id su) ++ map id sp)).
        { rewrite <- app_assoc. apply Permutation_app_head, Permutation_app_comm. }
        exact (nodup_app_l _ _ (Permutation_NoDup Y X)). }
      clear -N I Nd'. induction (mSubwoofers st) as [|x l IH]; cbn [app].
      + now apply nodup_app_l with (b := map id (mArray st)), (Permutation_NoDup (Permutation_app_comm _ _)).
      + inversion N as [|? ? N1 N2]; subst. constructor; [|apply IH; auto; intros y Y; apply I; now right].
        rewrite in_app_iff. intros [H|H]; [contradiction|].
        assert (X : In x (map id (mArray st))) by (apply I; now left).
        apply in_split in X as (l1 & l2 & X). rewrite X in Nd'.
        rewrite <- app_assoc in Nd'. cbn [app] in Nd'. apply NoDup_remove_2 in Nd'. apply Nd'.
        rewrite !in_app_iff. auto.
    - intros x X. apply (Permutation_in _ (Permutation_sym Pi)). rewrite !in_app_iff in *.
      destruct X as [X|X]; [left; now apply I|auto].
  Qed.

  Theorem C83_invariant files : consistent (loaded files).
  Proof.
    unfold ArrayConfModel.loaded.
    assert (G : forall st, consistent st -> consistent (fold_left (fun st f => fst (loadXml f st)) files st)).
    { induction files as [|f files IH]; intros st C; [exact C|]. cbn [fold_left]. apply IH.
      destruct (load_spec read_double read_size from_db zero f st (proj1 C)) as (sp & su & st' & -> & A & _).
      eapply added_consistent; eauto. }
    apply G. repeat split; cbn; try constructor. intros x [].
  Qed.

  (** the numbers add up: the subtraction does not wrap around *)
  Theorem C83_counts files :
    exists n, numberOfLoudspeakers (loaded files) = Some n
              /\ n + numberOfSubwoofers (loaded files) = numberOfOutputs (loaded files).
  Proof.
    destruct (C83_invariant files) as (S & N & I).
    assert (L := NoDup_incl_length N I). rewrite map_length in L.
    unfold numberOfLoudspeakers, numberOfSubwoofers, numberOfOutputs.
    destruct (Nat.ltb_spec (length (mArray (loaded files))) (length (mSubwoofers (loaded files)))); [lia|].
    eexists. split; [reflexivity|]. lia.
  Qed.

  (** a file is accepted exactly if its elements describe loudspeakers and, with those already present,
      the ids are 1, 2, ..., n *)
  Theorem C83_accepted files f :
    snd (loadXml f (loaded files)) = None
    <-> exists doc, f = Document doc /\ exists sp su, accepted (mArray (loaded files)) doc sp su.
  Proof.
    destruct (load_spec read_double read_size from_db zero f (loaded files) (proj1 (C83_invariant files)))
      as (sp & su & st' & _ & _ & H & _). exact H.
  Qed.

  (** then the loudspeakers are those, in the order of their ids, and the subwoofers are listed in
      document order *)
  Theorem C83_contents files doc sp su :
    let st := loaded files in
    accepted (mArray st) doc sp su ->
    let st' := fst (loadXml (Document doc) st) in
    Permutation (mArray st') (mArray st ++ sp ++ su)
    /\ (forall i s, nth_error (mArray st') i = Some s -> id s = i + 1)
    /\ mSubwoofers st' = mSubwoofers st ++ map id su.
  Proof.
    intros st A st'.
    destruct (load_spec read_double read_size from_db zero (Document doc) st (proj1 (C83_invariant files)))
      as (sp' & su' & st2 & E & Ad & H & H').
    assert (N : snd (loadXml (Document doc) st) = None) by (apply H; eauto).
    destruct (H' N) as [I (doc' & D & A')]. injection D as <-.
    assert (U : sp' = sp /\ su' = su).
    { destruct A as ((l1 & (r1 & K1 & ->) & F1) & (l2 & (r2 & K2 & ->) & F2) & _).
      destruct A' as ((l3 & (r3 & K3 & ->) & F3) & (l4 & (r4 & K4 & ->) & F4) & _).
      assert (r1 = r2) as <- by congruence. assert (r1 = r3) as <- by congruence. assert (r1 = r4) as <- by congruence.
      assert (Uq : forall ts a b, Forall2 describes ts a -> Forall2 describes ts b -> a = b).
      { induction ts as [|t ts IH]; intros a b Fa Fb; inversion Fa; inversion Fb; subst; [reflexivity|].
        f_equal; [|now apply IH].
        match goal with D1 : describes t ?x, D2 : describes t ?y |- _ => apply read_speaker_ok in D1, D2; congruence end. }
      split; eapply Uq; eauto. }
    destruct U as [-> ->]. unfold st'. rewrite E. destruct Ad as (P & _ & M).
    split; [exact P|]. split; [|exact M].
    intros i s Hi. apply (map_nth_error id) in Hi. rewrite I in Hi.
    assert (L : i < length (mArray st2)) by (rewrite <- (seq_length (length (mArray st2)) 1); apply nth_error_Some; congruence).
    apply nth_error_nth with (d := 0) in Hi. rewrite seq_nth in Hi by exact L. lia.
  Qed.

  (** the gains and delays come at the positions given by the ids; the size of the vector must match *)
  Theorem C83_gains files doc sp su (v : list V) :
    let st := loaded files in
    let all := mArray st ++ sp ++ su in
    accepted (mArray st) doc sp su ->
    let st' := fst (loadXml (Document doc) st) in
    (length v <> length all -> getGains st' v = Throw InvalidArgument /\ getDelays st' v = Throw InvalidArgument)
    /\ (length v = length all ->
        exists g d, getGains st' v = Ok g /\ getDelays st' v = Ok d /\ length g = length all /\ length d = length all
        /\ forall s, In s all -> nth_error g (id s - 1) = Some (gainAdjustment s)
                                /\ nth_error d (id s - 1) = Some (delayAdjustment s)).
  Proof.
    intros st all A st'. destruct (C83_contents files doc sp su A) as (P & O & _). fold st st' all in P, O.
    unfold getGains, getDelays, numberOfOutputs. rewrite (Permutation_length P).
    destruct (Nat.eqb_spec (length v) (length all)) as [E|E]; cbn [negb]; (split; [intros H; try contradiction; auto|]);
      intros H; [|contradiction].
    do 2 eexists. split; [reflexivity|]. split; [reflexivity|]. rewrite !map_length, (Permutation_length P).
    split; [reflexivity|]. split; [reflexivity|].
    intros s I. apply (Permutation_in _ (Permutation_sym P)) in I. apply In_nth_error in I as [i I].
    assert (J := O _ _ I). replace (id s - 1) with i by lia. split; now apply map_nth_error.
  Qed.

  (** a rejected file is reported with one of two types of exceptions; if it is a document with the
      expected root in which all ids can be read it is invalid_argument *)
  Theorem C83_errors files f e :
    snd (loadXml f (loaded files)) = Some e ->
    (e = InvalidArgument \/ e = RuntimeError)
    /\ forall doc root, f = Document doc -> kid "arrayconfiguration" (t_kids doc) = Some root ->
       (forall k t, In (k, t) (t_kids root) -> exists w n, attribute t "id" w /\ read_size w = Some n) ->
       e = InvalidArgument.
  Proof.
    generalize (loaded files). intros st.
    assert (R : forall t e, read_speaker read_double read_size from_db zero t = Throw e -> (e = InvalidArgument \/ e = RuntimeError)
      /\ ((exists w n, attribute t "id" w /\ read_size w = Some n) -> e = InvalidArgument)).
    { intros t e0. unfold read_speaker, child. assert (A := attribute_spec t "id").
      destruct (child_opt ["<xmlattr>"%string; "id"%string] t) as [n|]; cbn [bind].
      2:{ intros H. injection H as <-. split; [auto|]. intros (w & n & W & _). now apply A in W. }
      destruct A as [A U]. destruct (read_size (t_data n)) as [i|] eqn:E; cbn [bind].
      2:{ intros H. injection H as <-. split; [auto|]. intros (w & m & W & X). rewrite (U w W) in X. congruence. }
      destruct (optional read_double "gain" t), (optional read_double "gainDB" t); cbn [bind]; intros H; try discriminate H;
        injection H as <-; auto. }
    assert (L1 : forall ts st e, snd (read_speakers read_double read_size from_db zero ts st) = Some e ->
      (e = InvalidArgument \/ e = RuntimeError)
      /\ ((forall t, In t ts -> exists w n, attribute t "id" w /\ read_size w = Some n) -> e = InvalidArgument)).
    { induction ts as [|t ts IH]; intros st0 e0 H; [discriminate|]. cbn [read_speakers] in H.
      destruct (read_speaker read_double read_size from_db zero t) as [s|e1|] eqn:E; [| |discriminate].
      - destruct (insert s (mArray st0)) as [a|].
        + destruct (IH _ _ H) as [X Y]. split; [exact X|]. intros Z. apply Y. intros t' T. apply Z. now right.
        + injection H as <-. auto.
      - injection H as <-. destruct (R _ _ E) as [X Y]. split; [exact X|]. intros Z. apply Y, Z. now left. }
    assert (L2 : forall ts st e, snd (read_subwoofers read_double read_size from_db zero ts st) = Some e ->
      (e = InvalidArgument \/ e = RuntimeError)
      /\ ((forall t, In t ts -> exists w n, attribute t "id" w /\ read_size w = Some n) -> e = InvalidArgument)).
    { induction ts as [|t ts IH]; intros st0 e0 H; [discriminate|]. cbn [read_subwoofers] in H.
      destruct (read_speaker read_double read_size from_db zero t) as [s|e1|] eqn:E; [| |discriminate].
      - destruct (insert s (mArray st0)) as [a|].
        + destruct (IH _ _ H) as [X Y]. split; [exact X|]. intros Z. apply Y. intros t' T. apply Z. now right.
        + injection H as <-. auto.
      - injection H as <-. destruct (R _ _ E) as [X Y]. split; [exact X|]. intros Z. apply Y, Z. now left. }
    assert (Kn : forall k root t, In t (kids_named k root) -> exists k', In (k', t) (t_kids root)).
    { intros k root t H. unfold kids_named in H. apply in_map_iff in H as ((k', t') & <- & H). apply filter_In in H as [H _]. eauto. }
    unfold ArrayConfModel.loadXml. destruct f as [| | |doc]; cbn [snd].
    1-3: intros H; injection H as <-; split; [auto|]; intros ? ? D; discriminate D.
    unfold child. cbn [child_opt]. destruct (kid "arrayconfiguration" (t_kids doc)) as [root|] eqn:K.
    2:{ cbn [snd]. intros H. injection H as <-. split; [auto|]. intros doc' root' D K'. injection D as <-. congruence. }
    unfold andthen.
    assert (Goal2 : forall e, (e = InvalidArgument \/ e = RuntimeError) /\
       ((forall k t, In (k, t) (t_kids root) -> exists w n, attribute t "id" w /\ read_size w = Some n) -> e = InvalidArgument) ->
       (e = InvalidArgument \/ e = RuntimeError) /\
       (forall doc' root', Document doc = Document doc' -> kid "arrayconfiguration" (t_kids doc') = Some root' ->
         (forall k t, In (k, t) (t_kids root') -> exists w n, attribute t "id" w /\ read_size w = Some n) -> e = InvalidArgument)).
    { intros e0 [X Y]. split; [exact X|]. intros doc' root' D K'. injection D as <-. rewrite K in K'. injection K' as <-. exact Y. }
    destruct (snd (read_speakers read_double read_size from_db zero (kids_named "speaker" root) st)) as [e1|] eqn:E1.
    { intros H. apply Goal2. rewrite E1 in H. injection H as <-. destruct (L1 _ _ _ E1) as [X Y]. split; [exact X|].
      intros Z. apply Y. intros t T. apply Kn in T as [k' T]. eauto. }
    match goal with |- context [snd (read_subwoofers ?a ?b ?c ?d ?ts ?s0)] => destruct (snd (read_subwoofers a b c d ts s0)) as [e2|] eqn:E2 end.
    { intros H. apply Goal2. rewrite E2 in H. injection H as <-. destruct (L2 _ _ _ E2) as [X Y]. split; [exact X|].
      intros Z. apply Y. intros t T. apply Kn in T as [k' T]. eauto. }
    intros H. apply Goal2. apply check_invalid in H. auto.
  Qed.

  (** a file with at least one loudspeaker that was loaded cannot be loaded again into the same
      object, which then stays as it was *)
  Theorem C83_reload files doc sp su :
    accepted (mArray (loaded files)) doc sp su -> sp ++ su <> [] ->
    let st' := loaded (files ++ [Document doc]) in
    loadXml (Document doc) st' = (st', Some InvalidArgument).
  Proof.
    intros A Ne st'.
    destruct (C83_contents files doc sp su A) as (P & _ & _).
    assert (So := proj1 (C83_invariant (files ++ [Document doc]))). fold st' in So.
    assert (E : st' = fst (loadXml (Document doc) (loaded files))) by (unfold st', ArrayConfModel.loaded; now rewrite fold_left_app).
    rewrite <- E in P. clear E.
    destruct A as ((l1 & (r1 & K1 & ->) & F1) & (l2 & (r2 & K2 & ->) & F2) & _).
    assert (r1 = r2) as <- by congruence.
    assert (Dup : forall s, In s (sp ++ su) -> insert s (mArray st') = None).
    { intros s I. apply insert_none; [exact So|]. apply in_map. apply (Permutation_in _ (Permutation_sym P)). apply in_or_app. now right. }
    unfold ArrayConfModel.loadXml, child. cbn [child_opt]. rewrite K1. unfold kids_named, andthen.
    destruct F1 as [|t s ts sp D F].
    - cbn [read_speakers snd fst]. destruct F2 as [|t s ts su D F]; [now destruct Ne|].
      cbn [read_subwoofers]. apply read_speaker_ok in D. rewrite D. rewrite (Dup s) by now left. reflexivity.
    - cbn [read_speakers]. apply read_speaker_ok in D. rewrite D. rewrite (Dup s) by now left. reflexivity.
  Qed.
End Theorems.
Print Assumptions C83_invariant.
Print Assumptions C83_counts.
Print Assumptions C83_accepted.
Print Assumptions C83_contents.
Print Assumptions C83_gains.
Print Assumptions C83_errors.
Print Assumptions C83_reload.

(** *** Documents *)
Definition leaf (v : string) : tree := Node (list_ascii_of_string v) [].
Definition element (attrs : list (string * string)) : tree :=
  Node [] [("<xmlattr>"%string, Node [] (map (fun a => (fst a, leaf (snd a))) attrs))].
Definition document (l : list (string * tree)) : tree := Node [] [("arrayconfiguration"%string, Node [] l)].
(** numbers of one digit *)
Definition digit (l : list Ascii.ascii) : option nat :=
  match l with
  | [c] => let n := Ascii.nat_of_ascii c in if (48 <=? n) && (n <=? 57) then Some (n - 48) else None
  | _ => None
  end.
Definition double (l : list Ascii.ascii) : option Z := option_map Z.of_nat (digit l).
Definition db (x : Z) : Z := (100 + x)%Z.
Definition load := loadXml double digit db 0%Z.
Open Scope string_scope.
Definition stereo_sub : tree := document
  [ ("subwoofer", element [("id", "3"); ("gainDB", "6")]);
    ("speaker", element [("gain", "7"); ("id", "2"); ("delay", "5")]);
    ("comment", leaf "x");
    ("speaker", element [("id", "1"); ("gain", "4"); ("gainDB", "low")]) ].

Example C83_ex_load :
  load (Document stereo_sub) empty
  = (State [Speaker 1 4%Z 0%Z; Speaker 2 7%Z 5%Z; Speaker 3 106%Z 0%Z] [3], None)
  /\ getGains (fst (load (Document stereo_sub) empty)) [0; 0; 0]%Z = Ok [4; 7; 106]%Z
  /\ getDelays (fst (load (Document stereo_sub) empty)) [0; 0]%Z = Throw InvalidArgument
  /\ numberOfLoudspeakers (fst (load (Document stereo_sub) empty)) = Some 2.
Proof. repeat split; vm_compute; reflexivity. Qed.
Example C83_ex_accepted :
  exists sp su, accepted double digit db 0%Z [] stereo_sub sp su /\ (sp ++ su)%list <> [].
Proof.
  destruct (proj1 (C83_accepted double digit db 0%Z [] (Document stereo_sub)) ltac:(vm_compute; reflexivity)) as (d & D & sp & su & A).
  injection D as <-. exists sp, su. split; [exact A|].
  intros E. destruct A as ((l & (r & K & L) & F) & _). apply app_eq_nil in E as [-> _].
  injection K as <-. subst l. inversion F.
Qed.
Example C83_ex_errors :
  let bad l := snd (load (Document (document l)) empty) in
  bad [("speaker", element [("id", "2"); ("gain", "1")])] = Some InvalidArgument
  /\ bad [("speaker", element [("id", "1"); ("gain", "1")]); ("speaker", element [("id", "3"); ("gain", "1")])] = Some InvalidArgument
  /\ bad [("speaker", element [("id", "1"); ("gain", "1")]); ("subwoofer", element [("id", "1"); ("gain", "1")])] = Some InvalidArgument
  /\ bad [("speaker", element [("id", "1"); ("gain", "1"); ("gainDB", "1")])] = Some InvalidArgument
  /\ bad [("speaker", element [("id", "1")])] = Some InvalidArgument
  /\ bad [("speaker", element [("gain", "1")])] = Some RuntimeError
  /\ bad [] = None
  /\ snd (load (Document (Node [] [])) empty) = Some RuntimeError.
Proof. repeat split; vm_compute; reflexivity. Qed.

(** a load that fails does not leave the object unchanged: the loudspeakers read before remain, and
    their ids need not be adjacent *)
Theorem C83_failed_load_refuted :
  exists f st', load f empty = (st', Some InvalidArgument) /\ st' <> empty /\ map id (mArray st') = [2; 5].
Proof.
  exists (Document (document [("speaker", element [("id", "5"); ("gain", "1")]); ("speaker", element [("id", "2"); ("gain", "1")])])).
  eexists. split; [vm_compute; reflexivity|]. split; [discriminate|reflexivity].
Qed.
Print Assumptions C83_failed_load_refuted.

(** loading does not replace the previous configuration: it is extended *)
Theorem C83_replaces_refuted :
  exists f1 f2, snd (load f2 empty) = Some InvalidArgument /\ snd (load f1 empty) = None
                /\ snd (load f2 (fst (load f1 empty))) = None
                /\ numberOfOutputs (fst (load f2 (fst (load f1 empty)))) = 2.
Proof.
  exists (Document (document [("speaker", element [("id", "1"); ("gain", "1")])])),
         (Document (document [("speaker", element [("id", "2"); ("gain", "1")])])).
  repeat split; vm_compute; reflexivity.
Qed.
Print Assumptions C83_replaces_refuted.
