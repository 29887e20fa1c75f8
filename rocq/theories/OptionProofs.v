(** Proofs about options. *)
From Coq Require Import Ascii String.
From Verif Require Import Base OptionModel OptionSpec.
Local Open Scope res_scope.
Local Open Scope list_scope.
Local Open Scope nat_scope.

Lemma word_eqb_spec a b : Bool.reflect (a = b) (word_eqb a b).
Proof. unfold word_eqb. destruct (list_eq_dec ascii_dec a b); constructor; assumption. Qed.
Lemma word_eqb_refl a : word_eqb a a = true.
Proof. destruct (word_eqb_spec a a); congruence. Qed.

(** *** Tokens *)
Lemma tokens_plain q t w r : plain w -> tokens q t (w ++ r) = tokens q (t ++ w) r.
Proof.
  revert t. induction w as [|c w IH]; intros t P; [now rewrite app_nil_r|].
  assert (Pc : ~ In c [ascii_of_nat 92; ascii_of_nat 34; " "%char; "="%char; ascii_of_nat 10; ascii_of_nat 13]) by (apply P; now left).
  cbn [app tokens].
  assert (N : is_escape c = false /\ is_separator c = false /\ is_quote c = false).
  { unfold is_escape, is_separator, is_quote, newline.
    repeat match goal with |- context [Ascii.eqb c ?x] => destruct (Ascii.eqb_spec c x) as [->|]; [exfalso; apply Pc; cbn; tauto|] end. auto. }
  destruct N as (-> & -> & ->). rewrite IH by (intros d Hd; apply P; now right). now rewrite <- app_assoc.
Qed.
Lemma tokens_quoted t w r : tokens true t (flat_map quoted_char w ++ r) = tokens true (t ++ w) r.
Proof.
  revert t. induction w as [|c w IH]; intros t; [now rewrite app_nil_r|]. cbn [flat_map]. rewrite <- app_assoc.
  assert (tokens true t (quoted_char c ++ flat_map quoted_char w ++ r) = tokens true (t ++ [c]) (flat_map quoted_char w ++ r)) as ->.
  { unfold quoted_char. destruct (Ascii.eqb_spec c (ascii_of_nat 92)) as [->|N1]; [reflexivity|].
    destruct (Ascii.eqb_spec c (ascii_of_nat 34)) as [->|N2]; [reflexivity|].
    cbn [orb app tokens]. unfold is_escape, is_quote.
    destruct (Ascii.eqb_spec c (ascii_of_nat 92)); [contradiction|]. destruct (Ascii.eqb_spec c (ascii_of_nat 34)); [contradiction|].
    now destruct (is_separator c). }
  rewrite IH, <- app_assoc. reflexivity.
Qed.
Lemma tokens_quote t w r : tokens false t (quote w ++ r) = tokens false (t ++ w) r.
Proof.
  unfold quote. rewrite <- !app_assoc.
  change (tokens false t ([ascii_of_nat 34] ++ flat_map quoted_char w ++ [ascii_of_nat 34] ++ r)) with (tokens true t (flat_map quoted_char w ++ [ascii_of_nat 34] ++ r)).
  rewrite tokens_quoted. reflexivity.
Qed.
Lemma tokens_separator t c r : separator c -> tokens false t (c :: r) = match tokens false [] r with Some ts => Some (t :: ts) | None => None end.
Proof. intros [<-|[<-|[<-|[<-|[]]]]]; reflexivity. Qed.

(** a word as it is written: plain or in quotation marks *)
Lemma tokens_written t w x r : written w x -> tokens false t (x ++ r) = tokens false (t ++ w) r.
Proof. intros [->|[-> P]]; [apply tokens_quote|now apply tokens_plain]. Qed.
Lemma tokens_separated w x l : written w x -> Forall (fun p => separator (fst p) /\ written (fst (snd p)) (snd (snd p))) l ->
  tokens false [] (separated x (map (fun p => (fst p, snd (snd p))) l)) = Some (w :: map (fun p => fst (snd p)) l).
Proof.
  unfold separated. intros W F. revert w x W. induction F as [|[s [w' x']] l [S W'] F IH]; intros w x W; cbn [map flat_map fst snd].
  - rewrite <- (app_nil_r x), <- app_assoc. now rewrite (tokens_written [] w).
  - rewrite (tokens_written [] w) by exact W. cbn [app fst snd]. rewrite tokens_separator by exact S. cbn [fst snd] in W'.
    rewrite (IH w' x' W'). reflexivity.
Qed.

Section Proofs.
  Variable TString : nat.
  Variable extra : list (word * kind).
  Notation options := (registered TString extra).
  Variable valid : nat -> word -> bool.
  Hypothesis ND : NoDup (map fst options).

  Lemma kind_of_iff n k : kind_of TString extra n = Some k <-> In (n, k) options.
  Proof.
    unfold kind_of. revert ND. generalize options. clear. induction l as [|[m j] l IH]; intros ND; cbn [find fst snd In]; [split; [discriminate|tauto]|].
    cbn in ND. inversion ND as [|? ? N1 N2]; subst. destruct (word_eqb_spec n m) as [->|N].
    - split; [intros H; injection H as ->; now left|]. intros [H|H]; [now injection H as ->|]. exfalso. apply N1, in_map_iff. now exists (m, k).
    - rewrite IH by exact N2. split; [now right|]. intros [H|H]; [injection H as -> ->; now contradiction N|exact H].
  Qed.
  Lemma kind_of_none n : kind_of TString extra n = None <-> forall k, ~ In (n, k) options.
  Proof.
    split.
    - intros H k Hk. apply kind_of_iff in Hk. congruence.
    - intros H. destruct (kind_of TString extra n) as [k|] eqn:E; [|reflexivity]. apply kind_of_iff in E. now apply H in E.
  Qed.
  Lemma kind_unique n k k' : In (n, k) options -> In (n, k') options -> k = k'.
  Proof. intros H H'. apply kind_of_iff in H, H'. congruence. Qed.

  Lemma vfind_app m m' n : vfind (m ++ m') n = match vfind m n with Some v => Some v | None => vfind m' n end.
  Proof.
    unfold vfind. induction m as [|[x v] m IH]; [reflexivity|]. cbn [app find fst]. destruct (word_eqb n x); [reflexivity|]. exact IH.
  Qed.
  Lemma vfind_one x v n : vfind [(x, v)] n = if word_eqb n x then Some v else None.
  Proof. unfold vfind. cbn. now destruct (word_eqb n x). Qed.

  Definition value_for (k : kind) (w : word) : value := match k with Switch => Flag true | Value t => Text t w end.
  Definition seen (m : vmap) (n : word) : Prop := vfind m n <> None.
  (** [l] can be stored when [m] holds the options before it *)
  Definition storable (final m : vmap) (l : list entry) : Prop :=
    well_formed options valid (seen final) l /\ (forall n w, n <> [] -> In (n, w) l -> ~ seen final n -> ~ seen m n).

  Lemma gives_cons n w l x v : gives options ((n, w) :: l) x v <->
    (x = n /\ n <> [] /\ exists k, In (n, k) options /\ v = value_for k w) \/ gives options l x v.
  Proof.
    unfold gives, value_for. split.
    - intros (N & w' & k & [H|H] & Hk & E); [injection H as <- <-; left; eauto 6|right; eauto 8].
    - intros [(-> & N & k & Hk & E)|(N & w' & k & H & Hk & E)]; split; auto; [exists w, k|exists w', k]; (split; [|auto]); [now left|now right].
  Qed.
  Lemma well_formed_skip s n w l : n = [] \/ s n -> (well_formed options valid s ((n, w) :: l) <-> well_formed options valid s l).
  Proof.
    intros S. unfold well_formed. cbn [map fst count_occ]. split; intros [H1 H2]; split.
    - intros n' w' N Hi. apply H1; [exact N|now right].
    - intros n' N Hs. specialize (H2 n' N Hs). destruct (list_eq_dec ascii_dec n n'); [lia|exact H2].
    - intros n' w' N [E|Hi] Hs; [injection E as -> ->; destruct S; contradiction|now apply (H1 n' w')].
    - intros n' N Hs. destruct (list_eq_dec ascii_dec n n') as [->|]; [destruct S; contradiction|now apply H2].
  Qed.

  Lemma store_entries_spec final l : forall m,
    match store_entries TString extra valid final m l with
    | Some m' => storable final m l
        /\ (forall n v, vfind m' n = Some v <-> vfind m n = Some v \/ (~ seen m n /\ ~ seen final n /\ gives options l n v))
    | None => ~ storable final m l
    end.
  Proof.
    induction l as [|[n w] l IH]; intros m; cbn [store_entries].
    - split; [split; [split; [intros ? ? _ []|intros; cbn; lia]|intros ? ? _ []]|]. intros n v. split; [now left|]. intros [H|(_ & _ & _ & ? & ? & [] & _)]. exact H.
    - assert (SK : n = [] \/ seen final n -> (storable final m ((n, w) :: l) <-> storable final m l)
        /\ forall x v, (~ seen m x /\ ~ seen final x /\ gives options ((n, w) :: l) x v <-> ~ seen m x /\ ~ seen final x /\ gives options l x v)).
      { intros S. split.
        - unfold storable. rewrite well_formed_skip by exact S. split; intros [H1 H2]; (split; [exact H1|]).
          + intros n' w' N Hi. apply (H2 n' w' N). now right.
          + intros n' w' N [E|Hi] Hs; [injection E as -> ->; destruct S; contradiction|now apply (H2 n' w')].
        - intros x v. rewrite gives_cons. split; [|tauto]. intros (H1 & H2 & [(-> & N & _)|H]); [destruct S; contradiction|auto]. }
      destruct (word_eqb_spec n []) as [En|Nn].
      + destruct (SK (or_introl En)) as [S1 S2]. specialize (IH m). destruct (store_entries _ _ _ _ _ _).
        * destruct IH as [H1 H2]. split; [now apply S1|]. intros x v0. rewrite H2, S2. tauto.
        * now rewrite S1.
      + destruct (vfind final n) as [vf|] eqn:Ef.
        * destruct (SK (or_intror (ltac:(unfold seen; congruence) : seen final n))) as [S1 S2]. specialize (IH m). destruct (store_entries _ _ _ _ _ _).
          -- destruct IH as [H1 H2]. split; [now apply S1|]. intros x v'. rewrite H2, S2. tauto.
          -- now rewrite S1.
        * assert (NS : ~ seen final n) by (unfold seen; congruence).
          destruct (kind_of TString extra n) as [k|] eqn:Ek.
          2:{ intros [[H _] _]. destruct (H n w Nn (or_introl eq_refl) NS) as (k & Hk & _). apply kind_of_iff in Hk. congruence. }
          apply kind_of_iff in Ek. destruct (vfind m n) as [vm|] eqn:Em.
          { intros [_ H]. apply (H n w Nn (or_introl eq_refl) NS). unfold seen. congruence. }
          assert (NM : ~ seen m n) by (unfold seen; congruence).
          assert (ST : (forall t, k = Value t -> valid t w = true) ->
            match store_entries TString extra valid final (m ++ [(n, value_for k w)]) l with
            | Some m' => storable final m ((n, w) :: l)
                /\ (forall x v, vfind m' x = Some v <-> vfind m x = Some v \/ (~ seen m x /\ ~ seen final x /\ gives options ((n, w) :: l) x v))
            | None => ~ storable final m ((n, w) :: l)
            end).
          { intros V. specialize (IH (m ++ [(n, value_for k w)])).
            assert (SE : forall x, seen (m ++ [(n, value_for k w)]) x <-> seen m x \/ x = n).
            { intros x. unfold seen. rewrite vfind_app, vfind_one. destruct (vfind m x); [split; [left; discriminate|discriminate]|].
              destruct (word_eqb_spec x n); split; intros H; try tauto; try discriminate. }
            assert (SO : storable final m ((n, w) :: l) <-> storable final (m ++ [(n, value_for k w)]) l).
            { unfold storable, well_formed. cbn [map fst count_occ]. split.
              - intros [[H1 H2] H3]. split; [split|].
                + intros n' w' N Hi. apply H1; [exact N|now right].
                + intros n' N Hs. specialize (H2 n' N Hs). destruct (list_eq_dec ascii_dec n n'); [lia|exact H2].
                + intros n' w' N Hi Hs. rewrite SE. intros [X|X]; [now apply (H3 n' w' N (or_intror Hi) Hs)|]. subst n'.
                  specialize (H2 n N Hs). destruct (list_eq_dec ascii_dec n n); [|congruence].
                  assert (count_occ (list_eq_dec ascii_dec) (map fst l) n > 0); [|lia]. apply count_occ_In. apply in_map_iff. now exists (n, w').
              - intros [[H1 H2] H3]. split; [split|].
                + intros n' w' N [E|Hi] Hs; [injection E as <- <-; exists k; auto|now apply (H1 n' w')].
                + intros n' N Hs. destruct (list_eq_dec ascii_dec n n') as [<-|]; [|now apply H2].
                  assert (count_occ (list_eq_dec ascii_dec) (map fst l) n = 0); [|lia]. apply count_occ_not_In. intros Hi.
                  apply in_map_iff in Hi as ([x w'] & E & Hi). cbn in E. subst x. apply (H3 n w' N Hi Hs). apply SE. now right.
                + intros n' w' N [E|Hi] Hs; [injection E as <- <-; exact NM|]. intros X. apply (H3 n' w' N Hi Hs). apply SE. now left. }
            destruct (store_entries _ _ _ _ _ _) as [m'|].
            - destruct IH as [H1 H2]. split; [now apply SO|]. intros x v. rewrite H2, gives_cons, SE, vfind_app, vfind_one.
              destruct (word_eqb_spec x n) as [->|N].
              + rewrite Em. split.
                * intros [H|(H & _)]; [injection H as <-; right; split; [exact NM|split; [exact NS|left; eauto 6]]|tauto].
                * intros [H|(_ & _ & [(_ & _ & k' & Hk & ->)|H])]; [discriminate|left; now rewrite (kind_unique n k' k)|].
                  exfalso. destruct H as (_ & w' & k' & Hi & _). destruct H1 as [_ H1]. apply (H1 n w' Nn Hi NS). apply SE. now right.
              + destruct (vfind m x) as [vx|] eqn:Ex.
                * split; [intros [H|(H & _)]; [now left|exfalso; apply H; left; unfold seen; congruence]|].
                  intros [H|(H & _)]; [now left|exfalso; apply H; unfold seen; congruence].
                * split; [intros [H|(_ & H3 & H)]; [discriminate|]|intros [H|(H4 & H3 & [(X & _)|H])]; [discriminate|contradiction|]].
                  -- right. split; [unfold seen; congruence|auto].
                  -- right. split; [tauto|auto].
            - now rewrite SO. }
          destruct k as [|t]; [apply ST; discriminate|]. destruct (valid t w) eqn:Ev.
          -- apply ST. intros t' E. now injection E as <-.
          -- intros [[H _] _]. destruct (H n w Nn (or_introl eq_refl) NS) as (k' & Hk' & V). rewrite (kind_unique n k' (Value t) Hk' Ek) in V.
             rewrite (V t eq_refl) in Ev. discriminate.
  Qed.

  Lemma store_spec given l :
    match store TString extra valid given l with
    | Some m => well_formed options valid (seen given) l
        /\ (forall n v, vfind m n = Some v <-> vfind given n = Some v \/ (~ seen given n /\ gives options l n v))
    | None => ~ well_formed options valid (seen given) l
    end.
  Proof.
    unfold store. pose proof (store_entries_spec given l []) as H. destruct (store_entries _ _ _ _ _ _) as [m|].
    - destruct H as [[H1 _] H2]. split; [exact H1|]. intros n v. rewrite vfind_app. destruct (vfind given n) eqn:E.
      + split; [now left|]. intros [X|(X & _)]; [exact X|]. exfalso. apply X. unfold seen. congruence.
      + rewrite H2. unfold seen. cbn [vfind find]. rewrite E. split.
        * intros [X|(_ & X & Y)]; [discriminate|auto].
        * intros [X|(X & Y)]; [discriminate|]. right. split; [|auto]. intros Z. now apply Z.
    - intros X. apply H. split; [exact X|]. intros n w _ _ _ Y. now apply Y.
  Qed.
  Lemma gives_names l n v : gives options l n v -> names l n.
  Proof. intros (N & w & k & H & _). split; eauto. Qed.
  Lemma names_gives seen' l n : well_formed options valid seen' l -> ~ seen' n -> names l n -> exists v, gives options l n v.
  Proof.
    intros [H _] S (N & w & Hi). destruct (H n w N Hi S) as (k & Hk & _). exists (value_for k w). split; [exact N|]. exists w, k. auto.
  Qed.
End Proofs.
