(** C91: command line options and option files (src/libapputilities/options.cpp, options.hpp).

    Options come from the command line, then from the option file, then from the defaults of the
    switches.  An invalid command line makes parse() return Failure; an invalid option file makes it
    throw.  An option file holds words behind single separators, plain or in quotation marks. *)
From Coq Require Import Ascii String.
From Verif Require Import Base OptionModel OptionSpec OptionProofs.
Local Open Scope res_scope.
Local Open Scope list_scope.
Local Open Scope nat_scope.

(** the options [fl] of the option file that the command line [l] names *)
Definition file_options (parser : (word -> option (word * word)) -> list word -> option (list entry)) (file : word -> option word)
    (l fl : list entry) : Prop :=
  (~ names l (str "option-file") /\ fl = [])
  \/ exists w content toks, In (str "option-file", w) l /\ file w = Some content /\ tokenize content = Some toks
       /\ parser (fun _ => None) toks = Some fl.

Lemma seen_names TString extra valid given l : NoDup (map fst (registered TString extra)) ->
  well_formed (registered TString extra) valid (fun _ => False) l ->
  (forall n v, vfind given n = Some v <-> gives (registered TString extra) l n v) -> forall n, seen given n <-> names l n.
Proof.
  intros ND W H n. unfold seen. split.
  - intros S. destruct (vfind given n) as [v|] eqn:E; [|congruence]. apply H, gives_names in E. exact E.
  - intros N E. destruct (names_gives TString extra valid _ l n W (fun x => x) N) as (v & Hv). apply H in Hv. congruence.
Qed.
Lemma well_formed_ext options valid (s s' : word -> Prop) l : (forall n, s n <-> s' n) -> well_formed options valid s l <-> well_formed options valid s' l.
Proof.
  intros E. unfold well_formed. split; intros [H1 H2]; split; intros.
  - apply (H1 n w); auto. now rewrite E.
  - apply H2; auto. now rewrite E.
  - apply (H1 n w); auto. now rewrite <- E.
  - apply H2; auto. now rewrite <- E.
Qed.

Section Finish.
  Variables (TString : nat) (extra : list (word * kind)).
  Hypothesis ND : NoDup (map fst (registered TString extra)).
  Lemma lookup_in_effect given l fl :
    (forall n v, vfind given n = Some v <-> gives (registered TString extra) l n v \/ (~ names l n /\ gives (registered TString extra) fl n v)) ->
    (forall n, names l n -> vfind given n <> None) -> (forall n, ~ names l n -> names fl n -> vfind given n <> None) ->
    forall n v, lookup TString extra given n = Some v <-> in_effect (registered TString extra) l fl n v.
  Proof.
    intros G C1 C2 n v. unfold lookup, in_effect. destruct (vfind given n) as [x|] eqn:E.
    - pose proof E as E'. apply G in E. split.
      + intros H. injection H as <-. tauto.
      + intros [H|[H|(H1 & H2 & _)]]; [rewrite <- E'; apply G; auto|rewrite <- E'; apply G; auto|].
        exfalso. destruct E as [E|[_ E]]; apply gives_names in E; contradiction.
    - assert (N1 : ~ names l n) by (intros X; now apply (C1 n X)). assert (N2 : ~ names fl n) by (intros X; now apply (C2 n N1 X)). split.
      + intros H. destruct (kind_of TString extra n) as [[|t]|] eqn:K; try discriminate. injection H as <-. apply kind_of_iff in K; [|exact ND]. auto 10.
      + intros [H|[[_ H]|(_ & _ & K & ->)]]; [apply gives_names in H; contradiction|apply gives_names in H; contradiction|].
        apply kind_of_iff in K; [|exact ND]. now rewrite K.
  Qed.
  Lemma switch_value l fl n v : In (n, Switch) (registered TString extra) -> in_effect (registered TString extra) l fl n v ->
    exists b, v = Flag b /\ (b = true <-> switched_on l fl n).
  Proof.
    intros K H. unfold switched_on.
    assert (X : forall l', gives (registered TString extra) l' n v -> v = Flag true).
    { intros l' (_ & w & k & _ & Hk & ->). now rewrite (kind_unique TString extra ND n k Switch Hk K). }
    destruct H as [H|[[H1 H]|(H1 & H2 & _ & ->)]].
    - exists true. pose proof (gives_names _ _ _ _ _ H). split; [now apply X in H|tauto].
    - exists true. pose proof (gives_names _ _ _ _ _ H). split; [now apply X in H|tauto].
    - exists false. split; [reflexivity|]. split; [discriminate|tauto].
  Qed.
  Lemma switch_exists given n : In (n, Switch) (registered TString extra) -> lookup TString extra given n <> None.
  Proof. intros K. unfold lookup. destruct (vfind given n); [discriminate|]. apply kind_of_iff in K; [|exact ND]. now rewrite K. Qed.
  Lemma finish_spec given l fl : (forall n v, lookup TString extra given n = Some v <-> in_effect (registered TString extra) l fl n v) ->
    exists r, finish TString extra given = Ok (r, given)
      /\ r <> Failure /\ (r = Help <-> switched_on l fl (str "help"))
      /\ (r = Version <-> ~ switched_on l fl (str "help") /\ switched_on l fl (str "version")).
  Proof.
    intros G.
    assert (S : forall n, In (n, Switch) (registered TString extra) -> exists b, getSwitch TString extra given n = Ok b /\ (b = true <-> switched_on l fl n)).
    { intros n K. unfold getSwitch. destruct (lookup TString extra given n) as [v|] eqn:E; [|now apply switch_exists in E].
      apply G in E. destruct (switch_value l fl n v K E) as (b & -> & H). eauto. }
    destruct (S (str "help")) as (h & Eh & Hh); [now left|]. destruct (S (str "version")) as (v & Ev & Hv); [right; now left|].
    unfold finish. rewrite Eh. cbn [bind]. destruct h.
    - exists Help. split; [reflexivity|]. split; [discriminate|]. split; [tauto|]. split; [discriminate|]. intros [X _]. tauto.
    - rewrite Ev. cbn [bind]. assert (NH : ~ switched_on l fl (str "help")) by (intros X; apply Hh in X; discriminate).
      destruct v; [exists Version|exists Success]; (split; [reflexivity|]); (split; [discriminate|]); (split; [split; [discriminate|tauto]|]).
      + tauto.
      + split; [discriminate|]. intros [_ X]. apply Hv in X. discriminate.
  Qed.
End Finish.

(** The outcome of parse(), for all sets of options, parsers, files and arguments. *)
Theorem C91_outcome : forall TString extra valid parser file args,
  NoDup (map fst (registered TString extra)) ->
  let options := registered TString extra in
  let command_line l := parser at_option_parser args = Some l /\ well_formed options valid (fun _ => False) l in
  match parse TString extra valid parser file args with
  | Ok (r, given) =>
      (r = Failure /\ ((forall l, ~ command_line l) \/ exists l w, command_line l /\ In (str "option-file", w) l /\ file w = None))
      \/ (r <> Failure /\ exists l fl, command_line l /\ file_options parser file l fl /\ well_formed options valid (names l) fl
           /\ (forall n v, lookup TString extra given n = Some v <-> in_effect options l fl n v)
           /\ (r = Help <-> switched_on l fl (str "help"))
           /\ (r = Version <-> ~ switched_on l fl (str "help") /\ switched_on l fl (str "version")))
  | Throw e => exists l w content, command_line l /\ In (str "option-file", w) l /\ file w = Some content
      /\ ((e = RuntimeError /\ tokenize content = None)
          \/ (e = LogicError /\ exists toks, tokenize content = Some toks
                /\ forall fl, parser (fun _ => None) toks = Some fl -> ~ well_formed options valid (names l) fl))
  | UB => False
  end.
Proof.
  intros TString extra valid parser file args ND options command_line. unfold parse.
  destruct (parser at_option_parser args) as [l|] eqn:EP.
  2:{ left. split; [reflexivity|]. left. intros l [H _]. congruence. }
  pose proof (store_spec TString extra valid ND [] l) as ST. destruct (store TString extra valid [] l) as [given|].
  2:{ left. split; [reflexivity|]. left. intros l' [H W]. injection H as <-. apply ST.
      revert W. apply well_formed_ext. intros n. unfold seen. cbn. tauto. }
  destruct ST as [W G]. assert (W' : well_formed options valid (fun _ => False) l).
  { revert W. apply well_formed_ext. intros n. unfold seen. cbn. tauto. }
  assert (G' : forall n v, vfind given n = Some v <-> gives options l n v).
  { intros n v. rewrite G. unfold seen. cbn. split; [intros [H|[_ H]]; [discriminate|exact H]|]. intros H. right. split; [|exact H]. tauto. }
  pose proof (seen_names TString extra valid given l ND W' G') as SN.
  assert (CL : command_line l) by (split; [reflexivity|assumption]).
  assert (KF : In (str "option-file", Value TString) options) by (right; right; now left).
  assert (HO : hasOption TString extra given (str "option-file") = true <-> names l (str "option-file")).
  { unfold hasOption, lookup. rewrite <- SN. unfold seen. destruct (vfind given (str "option-file")) as [v|]; [split; [discriminate|reflexivity]|].
    apply kind_of_iff in KF; [|exact ND]. rewrite KF. split; [discriminate|tauto]. }
  destruct (hasOption TString extra given (str "option-file")) eqn:EH.
  - assert (N : names l (str "option-file")) by now apply HO.
    destruct (names_gives TString extra valid _ l _ W' (fun x => x) N) as (v & Hv). pose proof Hv as Hv'. apply G' in Hv'.
    destruct Hv as (_ & w & k & Hi & Hk & Ev). rewrite (kind_unique TString extra ND _ k (Value TString) Hk KF) in Ev. subst v.
    unfold getOption at 1. unfold lookup. rewrite Hv', Nat.eqb_refl. cbn [bind].
    destruct (file w) as [content|] eqn:EF.
    2:{ left. split; [reflexivity|]. right. exists l, w. auto. }
    destruct (tokenize content) as [toks|] eqn:ET.
    2:{ exists l, w, content. auto 8. }
    destruct (parser (fun _ => None) toks) as [fl|] eqn:EL.
    2:{ exists l, w, content. split; [exact CL|]. split; [exact Hi|]. split; [exact EF|]. right. split; [reflexivity|]. exists toks. split; [exact ET|]. intros fl H. rewrite EL in H. discriminate. }
    pose proof (store_spec TString extra valid ND given fl) as ST. destruct (store TString extra valid given fl) as [given'|].
    2:{ exists l, w, content. split; [exact CL|]. split; [exact Hi|]. split; [exact EF|]. right. split; [reflexivity|]. exists toks. split; [exact ET|].
        intros fl' H. rewrite EL in H. injection H as <-. intros X. apply ST. revert X. apply well_formed_ext. exact SN. }
    destruct ST as [WF GF]. assert (WF' : well_formed options valid (names l) fl) by (revert WF; apply well_formed_ext; intros n; symmetry; apply SN).
    assert (IE : forall n v, lookup TString extra given' n = Some v <-> in_effect options l fl n v).
    { apply lookup_in_effect; [exact ND| | |].
      - intros n v. rewrite GF, G', SN. tauto.
      - intros n X. destruct (names_gives TString extra valid _ l n W' (fun x => x) X) as (v & Hv). apply G' in Hv.
        rewrite (proj2 (GF n v) (or_introl Hv)). discriminate.
      - intros n X Y. destruct (names_gives TString extra valid _ fl n WF' X Y) as (v & Hv).
        rewrite (proj2 (GF n v)); [discriminate|]. right. split; [now rewrite SN|exact Hv]. }
    destruct (finish_spec TString extra ND given' l fl IE) as (r & -> & R1 & R2 & R3). right. split; [exact R1|]. exists l, fl.
    split; [exact CL|]. split; [right; exists w, content, toks; auto|]. auto.
  - assert (N : ~ names l (str "option-file")) by (intros X; apply HO in X; discriminate).
    assert (IE : forall n v, lookup TString extra given n = Some v <-> in_effect options l [] n v).
    { apply lookup_in_effect; [exact ND| | |].
      - intros n v. rewrite G'. split; [now left|]. intros [H|[_ (_ & w & k & [] & _)]]. exact H.
      - intros n X. now apply SN.
      - intros n _ (_ & w & []). }
    destruct (finish_spec TString extra ND given l [] IE) as (r & -> & R1 & R2 & R3). right. split; [exact R1|]. exists l, [].
    split; [exact CL|]. split; [now left|]. split; [|auto]. split; [intros n w _ []|]. intros n _ _. cbn. lia.
Qed.

(** Reading options after parse(): the value in effect if it has the requested type, an exception
    otherwise; the default value if there is none. *)
Theorem C91_get : forall TString extra valid parser file args r given, NoDup (map fst (registered TString extra)) ->
  parse TString extra valid parser file args = Ok (r, given) -> r <> Failure ->
  exists l fl, parser at_option_parser args = Some l /\ file_options parser file l fl
  /\ forall n t,
    match getOption TString extra given t n with
    | Ok w => in_effect (registered TString extra) l fl n (Text t w)
    | Throw e => e = LogicError /\ forall w, ~ in_effect (registered TString extra) l fl n (Text t w)
    | UB => False
    end
    /\ forall default, match getDefaultedOption TString extra given t n default with
       | Ok w => in_effect (registered TString extra) l fl n (Text t w) \/ (w = default /\ forall v, ~ in_effect (registered TString extra) l fl n v)
       | Throw e => e = LogicError /\ (forall w, ~ in_effect (registered TString extra) l fl n (Text t w)) /\ exists v, in_effect (registered TString extra) l fl n v
       | UB => False
       end.
Proof.
  intros TString extra valid parser file args r given ND E NF. pose proof (C91_outcome TString extra valid parser file args ND) as H. cbv zeta in H.
  rewrite E in H. destruct H as [[H _]|(_ & l & fl & (H1 & _) & H2 & _ & IE & _)]; [contradiction|]. exists l, fl. split; [exact H1|]. split; [exact H2|].
  intros n t.
  assert (GO : match getOption TString extra given t n with
    | Ok w => in_effect (registered TString extra) l fl n (Text t w)
    | Throw e => e = LogicError /\ forall w, ~ in_effect (registered TString extra) l fl n (Text t w)
    | UB => False
    end).
  { unfold getOption. destruct (lookup TString extra given n) as [[b|t' w]|] eqn:EL.
    - split; [reflexivity|]. intros w X. apply IE in X. congruence.
    - destruct (Nat.eqb_spec t' t) as [->|N]; [now apply IE|]. split; [reflexivity|]. intros w' X. apply IE in X. congruence.
    - split; [reflexivity|]. intros w X. apply IE in X. congruence. }
  split; [exact GO|]. intros default. unfold getDefaultedOption, hasOption. destruct (lookup TString extra given n) as [v|] eqn:EL.
  - destruct (getOption TString extra given t n); [now left| |exact GO]. destruct GO as [G1 G2]. split; [exact G1|]. split; [exact G2|]. exists v. now apply IE.
  - right. split; [reflexivity|]. intros v X. apply IE in X. congruence.
Qed.

(** Words without name, i.e. positional arguments, have no effect, also if positional options are
    registered (registerPositionalOption). *)
Definition named (l : list entry) : list entry := filter (fun e => negb (word_eqb (fst e) [])) l.
Theorem C91_positional : forall TString extra valid parser file args,
  parse TString extra valid parser file args
  = parse TString extra valid (fun e a => option_map named (parser e a)) file args.
Proof.
  intros TString extra valid parser file args.
  assert (SE : forall final l m, store_entries TString extra valid final m (named l) = store_entries TString extra valid final m l).
  { intros final. induction l as [|[n w] l IH]; intros m; [reflexivity|]. cbn [named filter fst store_entries].
    destruct (word_eqb n []) eqn:E; cbn [negb]; [apply IH|]. cbn [store_entries]. rewrite E. fold (named l).
    destruct (vfind final n); [apply IH|]. destruct (kind_of TString extra n) as [[|t]|]; [| |reflexivity]; destruct (vfind m n); try reflexivity.
    - apply IH.
    - destruct (valid t w); [apply IH|reflexivity]. }
  assert (S : forall given l, store TString extra valid given (named l) = store TString extra valid given l) by (intros; unfold store; now rewrite SE).
  unfold parse. destruct (parser at_option_parser args) as [l|]; [|reflexivity]. cbn [option_map]. rewrite S.
  destruct (store TString extra valid [] l); [|reflexivity]. destruct (hasOption _ _ _ _); [|reflexivity].
  destruct (getOption _ _ _ _ _) as [w| |]; [|reflexivity|reflexivity]. cbn [bind].
  destruct (file w); [|reflexivity]. destruct (tokenize _) as [toks|]; [|reflexivity].
  destruct (parser (fun _ => None) toks) as [fl|]; [|reflexivity]. cbn [option_map]. now rewrite S.
Qed.

(** *** Option files *)
(** Words that are written plain or in quotation marks, each behind one separator, are read back. *)
Theorem C91_tokens : forall w x l, written w x -> Forall (fun p => separator (fst p) /\ written (fst (snd p)) (snd (snd p))) l ->
  x <> [] \/ l <> [] ->
  tokenize (separated x (map (fun p => (fst p, snd (snd p))) l)) = Some (w :: map (fun p => fst (snd p)) l).
Proof.
  intros w x l W F N. rewrite <- (tokens_separated w x l W F). unfold tokenize.
  destruct (separated x (map (fun p => (fst p, snd (snd p))) l)) eqn:E; [|reflexivity]. exfalso. unfold separated in E.
  apply app_eq_nil in E as [-> E]. destruct N as [N|N]; [now apply N|]. destruct l; [now apply N|]. discriminate E.
Qed.
(** every word can be written *)
Theorem C91_quote : forall w, written w (quote w) /\ tokenize (quote w) = Some [w].
Proof.
  intros w. split; [now left|]. pose proof (C91_tokens w (quote w) [] (or_introl eq_refl) (Forall_nil _) ltac:(left; discriminate)) as H.
  unfold separated in H. cbn [map flat_map] in H. now rewrite app_nil_r in H.
Qed.

(** Two separators in a row, such as carriage return and newline, have an empty word between them;
    a separator at the end is followed by one. *)
Theorem C91_separators_refuted : forall s s' a b, separator s -> separator s' -> plain a -> plain b -> b <> [] ->
  tokenize (a ++ [s; s'] ++ b) = Some [a; []; b] /\ tokenize (b ++ [s]) = Some [b; []].
Proof.
  intros s s' a b S S' A B N. split.
  - pose proof (C91_tokens a a [(s, ([], [])); (s', (b, b))] (or_intror (conj eq_refl A))) as H. unfold separated in H. cbn [map flat_map fst snd app] in H.
    rewrite app_nil_r in H. apply H; [|right; discriminate]. apply Forall_cons; [|apply Forall_cons; [|apply Forall_nil]]; (split; [assumption|]); right; (split; [reflexivity|]); [intros c []|exact B].
  - pose proof (C91_tokens b b [(s, ([], []))] (or_intror (conj eq_refl B))) as H. unfold separated in H. cbn [map flat_map fst snd app] in H.
    apply H; [|now left]. apply Forall_cons; [|apply Forall_nil]. split; [assumption|]. right. split; [reflexivity|]. intros c [].
Qed.

(** An escape character in front of n denotes a newline, in front of
    a separator, quotation mark or escape character that character; otherwise the file is not read.
    A quotation mark that is not closed extends to the end. *)
Theorem C91_escape : forall a c r, plain a ->
  (c = "n"%char -> tokenize (a ++ ascii_of_nat 92 :: c :: r) = tokenize (a ++ quote [newline] ++ r))
  /\ (c = ascii_of_nat 92 \/ c = ascii_of_nat 34 \/ separator c -> tokenize (a ++ ascii_of_nat 92 :: c :: r) = tokenize (a ++ quote [c] ++ r))
  /\ (c <> "n"%char -> ~ (c = ascii_of_nat 92 \/ c = ascii_of_nat 34 \/ separator c) -> tokenize (a ++ ascii_of_nat 92 :: c :: r) = None)
  /\ tokenize (a ++ [ascii_of_nat 92]) = None
  /\ forall b, (forall x, In x b -> x <> ascii_of_nat 92 /\ x <> ascii_of_nat 34) -> tokenize (a ++ ascii_of_nat 34 :: b) = Some [a ++ b].
Proof.
  intros a c r A.
  assert (T : forall x y, tokenize (a ++ x :: y) = tokens false a (x :: y)).
  { intros x y. unfold tokenize. rewrite <- (app_nil_l a) at 2. rewrite <- tokens_plain by exact A. destruct a; reflexivity. }
  assert (Q : forall x, tokenize (a ++ quote [x] ++ r) = tokens false (a ++ [x]) r).
  { intros x. rewrite <- tokens_quote. rewrite <- (app_nil_l a) at 2. rewrite <- tokens_plain by exact A. unfold tokenize. destruct a; reflexivity. }
  assert (E : forall y, tokens false a (ascii_of_nat 92 :: y) = match y with [] => None | d :: y' => match do_escape d with Some x => tokens false (a ++ [x]) y' | None => None end end) by reflexivity.
  repeat split.
  - intros ->. rewrite T, Q, E. reflexivity.
  - intros H. rewrite T, Q, E. assert (do_escape c = Some c) as ->; [|reflexivity].
    destruct H as [->|[->|[<-|[<-|[<-|[<-|[]]]]]]]; reflexivity.
  - intros N1 N2. rewrite T, E. assert (do_escape c = None) as ->; [|reflexivity]. unfold do_escape, is_quote, is_separator, is_escape.
    destruct (Ascii.eqb_spec c "n"); [contradiction|].
    repeat match goal with |- context [Ascii.eqb c ?k] => let H := fresh in destruct (Ascii.eqb_spec c k) as [H|H]; [exfalso; apply N2; rewrite H; unfold separator, newline; cbn [In]; auto 10|] end. reflexivity.
  - rewrite T, E. reflexivity.
  - intros b B. rewrite T. change (tokens false a (ascii_of_nat 34 :: b)) with (tokens true a b). clear - B.
    revert a. induction b as [|x b IH]; intros a; [cbn; now rewrite app_nil_r|].
    destruct (B x (or_introl eq_refl)) as [B1 B2]. cbn [tokens]. unfold is_escape, is_quote.
    destruct (Ascii.eqb_spec x (ascii_of_nat 92)); [contradiction|]. destruct (Ascii.eqb_spec x (ascii_of_nat 34)); [contradiction|].
    rewrite IH by (intros y Hy; apply B; now right). rewrite <- app_assoc. now destruct (is_separator x).
Qed.

(** *** Examples *)
(** a parser for long options with separate values *)
Fixpoint ex_parser (at_option : word -> option (word * word)) (args : list word) {struct args} : option (list entry) :=
  match args with
  | [] => Some []
  | w :: r =>
      match at_option w with
      | Some e => option_map (cons e) (ex_parser at_option r)
      | None =>
          match w with
          | a :: b :: n =>
              if Ascii.eqb a "-" && Ascii.eqb b "-" then
                if word_eqb n (str "help") || word_eqb n (str "version") then option_map (cons (n, [])) (ex_parser at_option r)
                else match r with
                     | v :: r' => option_map (cons (n, v)) (ex_parser at_option r')
                     | [] => None
                     end
              else option_map (cons ([], w)) (ex_parser at_option r)
          | _ => option_map (cons ([], w)) (ex_parser at_option r)
          end
      end
  end.
Definition ex_extra : list (word * kind) := [(str "inputs", Value 1); (str "array", Value 0)].
Definition ex_valid (t : nat) (w : word) : bool := if t =? 1 then negb (word_eqb w []) && forallb (fun c => (48 <=? nat_of_ascii c) && (nat_of_ascii c <=? 57)) w else true.
Definition ex_content : word := str "--inputs=8" ++ [newline] ++ str "--array " ++ quote (str "my array") ++ str " --option-file other".
Definition ex_files (w : word) : option word :=
  if word_eqb w (str "f") then Some ex_content
  else if word_eqb w (str "bad") then Some (str "--inputs  8")
  else None.
Definition ex_parse (args : list string) : res (result * vmap) := parse 0 ex_extra ex_valid ex_parser ex_files (map str args).
Example C91_example_nodup : NoDup (map fst (registered 0 ex_extra)).
Proof. repeat constructor; cbn; intros H; decompose [or] H; discriminate || contradiction. Qed.
Example C91_example_tokens : tokenize ex_content = Some [str "--inputs"; str "8"; str "--array"; str "my array"; str "--option-file"; str "other"].
Proof. reflexivity. Qed.
(** the command line precedes the file *)
Example C91_example : ex_parse ["rest"; "@f"; "--inputs"; "4"]%string
  = Ok (Success, [(str "option-file", Text 0 (str "f")); (str "inputs", Text 1 (str "4")); (str "array", Text 0 (str "my array"))]).
Proof. reflexivity. Qed.
Example C91_example_help : exists given, ex_parse ["--version"; "--help"; "@f"]%string = Ok (Help, given).
Proof. eexists. reflexivity. Qed.
Example C91_example_failure : ex_parse ["--inputs"; "4"; "--inputs"; "5"]%string = Ok (Failure, []) /\ ex_parse ["@none"]%string = Ok (Failure, []).
Proof. split; reflexivity. Qed.

(** The claim that parse() reports invalid options by its result is false: for an option file it throws. *)
Theorem C91_file_refuted : exists TString extra valid parser file args e,
  NoDup (map fst (registered TString extra)) /\ parse TString extra valid parser file args = Throw e.
Proof.
  exists 0, ex_extra, ex_valid, ex_parser, ex_files, [str "@bad"], LogicError. split; [exact C91_example_nodup|reflexivity].
Qed.

Print Assumptions C91_outcome.
Print Assumptions C91_get.
Print Assumptions C91_positional.
Print Assumptions C91_tokens.
Print Assumptions C91_quote.
Print Assumptions C91_escape.
Print Assumptions C91_separators_refuted.
Print Assumptions C91_file_refuted.
