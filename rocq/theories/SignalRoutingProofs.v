(** Proofs about pml::SignalRoutingParameter: set semantics and parser. *)
From Verif Require Import Base OrdSet SignalRoutingModel.
From Coq Require Import Sorted List Lia.
Import ListNotations.
Local Open Scope res_scope.
Local Open Scope nat_scope.

Lemma e_less_spec a b : e_less a b = true <-> e_out a < e_out b.
Proof. unfold e_less. apply Nat.ltb_lt. Qed.
Lemma nat_total (a b : nat) : a < b \/ a = b \/ b < a.
Proof. lia. Qed.

(** the table as a map from outputs to inputs *)
Definition imap := nat -> option nat.
Definition prel (l : routings) (m : imap) : Prop :=
  repr e_out lt l (fun o => option_map (fun i => MkEntry i o) (m o)).
Definition put (m : imap) (e : nat * nat) : imap := mset Nat.eqb m (snd e) (Some (fst e)).

Lemma prel_empty : prel [] mempty.
Proof. exact (repr_empty e_out lt). Qed.
Lemma prel_find l m i o : prel l m -> set_find e_less (MkEntry i o) l = option_map (fun i => MkEntry i o) (m o).
Proof. intros P. now rewrite (find_repr e_less e_out Nat.eqb lt Nat.eqb_spec e_less_spec Nat.lt_irrefl nat_total l _ _ P). Qed.
Lemma prel_add l m i o : prel l m -> prel (p_add l (MkEntry i o)) (mset Nat.eqb m o (Some i)).
Proof.
  intros P. unfold p_add.
  destruct (replace_repr e_less e_out Nat.eqb lt Nat.eqb_spec e_less_spec Nat.lt_irrefl Nat.lt_trans nat_total l _ (MkEntry i o) P)
    as (l' & E & Q). rewrite E. cbn [fst]. refine (repr_ext _ _ _ _ _ _ Q). intros k. cbn [e_out]. unfold mset.
  destruct (Nat.eqb_spec k o); [subst; reflexivity|reflexivity].
Qed.
Lemma prel_erase l m e : prel l m -> prel (set_erase e_less e l) (mset Nat.eqb m (e_out e) None).
Proof.
  intros P. assert (Q := erase_repr e_less e_out Nat.eqb lt Nat.eqb_spec e_less_spec Nat.lt_irrefl nat_total l _ e P).
  refine (repr_ext _ _ _ _ _ _ Q). intros k. unfold mset. now destruct (Nat.eqb k (e_out e)).
Qed.
Lemma prel_in l m i o : prel l m -> (In (MkEntry i o) l <-> m o = Some i).
Proof.
  intros [S M]. specialize (M o (MkEntry i o)). cbn [e_out] in M. split.
  - intros H. destruct (m o) as [j|]; cbn in M; [assert (E := proj2 M (conj H eq_refl)); now injection E as ->|].
    discriminate (proj2 M (conj H eq_refl)).
  - intros E. rewrite E in M. cbn in M. now apply M.
Qed.
Lemma prel_insert_new l m i o : prel l m -> m o = None ->
  exists l', set_insert e_less (MkEntry i o) l = (l', true) /\ prel l' (mset Nat.eqb m o (Some i)).
Proof.
  intros P N.
  destruct (insert_new e_less e_out Nat.eqb lt Nat.eqb_spec e_less_spec Nat.lt_trans nat_total l _ (MkEntry i o) P) as (l' & E & Q).
  { cbn [e_out]. now rewrite N. }
  exists l'. split; [exact E|]. refine (repr_ext _ _ _ _ _ _ Q). intros k. cbn [e_out]. unfold mset.
  destruct (Nat.eqb_spec k o); [subst; reflexivity|reflexivity].
Qed.
Lemma prel_insert_old l m i o j : prel l m -> m o = Some j -> set_insert e_less (MkEntry i o) l = (l, false).
Proof.
  intros P E. apply (insert_old e_less e_out lt e_less_spec Nat.lt_irrefl Nat.lt_trans l _ (MkEntry i o) (MkEntry j o) P).
  cbn [e_out]. now rewrite E.
Qed.
Lemma prel_adds es : forall l m, prel l m ->
  prel (fold_left (fun l e => p_add l (MkEntry (fst e) (snd e))) es l) (fold_left put es m).
Proof. induction es as [|[i o] es IH]; intros l m P; [exact P|]. simpl. apply IH. now apply prel_add. Qed.

Lemma p_construct_ok es : forall l m, prel l m ->
  (forall e, In e es -> m (snd e) = None) ->
  let r := loop p_insert_unique (map (fun e => MkEntry (fst e) (snd e)) es) l in
  (NoDup (map snd es) -> exists l', r = Ok l' /\ prel l' (fold_left put es m))
  /\ (~ NoDup (map snd es) -> r = Throw InvalidArgument).
Proof.
  induction es as [|[i o] es IH]; intros l m P N; cbn [map loop fst snd].
  - split; [intros _; exists l; auto|]. intros []. constructor.
  - unfold p_insert_unique at 1 3.
    destruct (prel_insert_new l m i o P (N _ (or_introl eq_refl))) as (l1 & E & P1). rewrite E. cbn [bind].
    assert (Dup : forall es l m j, prel l m -> In o (map snd es) -> m o = Some j ->
               loop p_insert_unique (map (fun e => MkEntry (fst e) (snd e)) es) l = Throw InvalidArgument).
    { clear. induction es as [|[i' o'] es IH]; intros l m j P Hi Hm; [destruct Hi|]. cbn [map loop fst snd].
      unfold p_insert_unique at 1. destruct (m o') as [k|] eqn:Eo.
      - now rewrite (prel_insert_old l m i' o' k P Eo).
      - destruct (prel_insert_new l m i' o' P Eo) as (l1 & E & P1). rewrite E. cbn [bind].
        apply (IH l1 _ j P1); [destruct Hi as [Q|Hi]; [cbn in Q; congruence|exact Hi]|].
        unfold mset. destruct (Nat.eqb_spec o o'); [congruence|exact Hm]. }
    destruct (in_dec Nat.eq_dec o (map snd es)) as [Hi|Hi].
    + split.
      * intros D. inversion D. contradiction.
      * intros _. apply (Dup es l1 _ i P1 Hi). unfold mset. now rewrite Nat.eqb_refl.
    + specialize (IH l1 _ P1). destruct IH as [A B].
      { intros e He. unfold mset. destruct (Nat.eqb_spec (snd e) o) as [<-|]; [|apply N; now right].
        destruct Hi. now apply in_map. }
      split; [intros D; apply A; now inversion D|]. intros D. apply B. intros D'. apply D. now constructor.
Qed.

(** getOutput(): the smallest output fed by the input *)
Lemma p_get_output_ok invalid l m i : prel l m ->
  match find (fun e => e_in e =? i) l with
  | Some e => p_get_output invalid l i = e_out e /\ m (e_out e) = Some i /\ forall o, m o = Some i -> e_out e <= o
  | None => p_get_output invalid l i = invalid /\ forall o, m o <> Some i
  end.
Proof.
  intros P. unfold p_get_output. destruct (find _ l) as [[j o]|] eqn:F.
  - split; [reflexivity|]. assert (F' := F). apply find_some in F' as [H E]. cbn in E. apply Nat.eqb_eq in E. subst j. cbn [e_out].
    split; [now apply (prel_in l m i o P)|]. intros o' Ho. apply (prel_in l m i o' P) in Ho.
    destruct P as [S _]. clear m. revert Ho H F. induction S as [|x l S IH Fl]; intros Ho H F; [destruct H|].
    cbn [find] in F. rewrite Forall_forall in Fl. destruct (e_in x =? i) eqn:X.
    + injection F as F. subst x. destruct Ho as [E|Ho]; [injection E as <-; lia|]. specialize (Fl _ Ho). cbn in Fl. lia.
    + destruct Ho as [->|Ho]; [cbn in X; now rewrite Nat.eqb_refl in X|].
      destruct H as [->|H]; [cbn in X; now rewrite Nat.eqb_refl in X|]. now apply IH.
  - split; [reflexivity|]. intros o Ho. apply (prel_in l m i o P) in Ho.
    assert (N := find_none _ _ F _ Ho). cbn in N. now rewrite Nat.eqb_refl in N.
Qed.

(** ** Parser *)
Definition spaces (t : text) : Prop := Forall (fun c => is_space c = true) t.
Definition digits (t : text) : Prop := t <> [] /\ Forall (fun c => is_digit c = true) t.

(** one pair [i = o] with optional white space before each token *)
Inductive reads_pair : text -> nat * nat -> Prop :=
| Reads_pair ws1 ds1 ws2 ws3 ds2 :
    spaces ws1 -> spaces ws2 -> spaces ws3 -> digits ds1 -> digits ds2 ->
    (digits_value ds1 <= UINT_MAXZ)%Z -> (digits_value ds2 <= UINT_MAXZ)%Z ->
    reads_pair (ws1 ++ ds1 ++ ws2 ++ "="%char :: ws3 ++ ds2) (Z.to_nat (digits_value ds1), Z.to_nat (digits_value ds2)).
(** pairs separated by commas *)
Inductive reads : text -> list (nat * nat) -> Prop :=
| Reads_one t e ws : reads_pair t e -> spaces ws -> reads (t ++ ws) [e]
| Reads_cons t e ws r es : reads_pair t e -> spaces ws -> reads r es -> reads (t ++ ws ++ ","%char :: r) (e :: es).

Lemma skip_spaces ws t : spaces ws -> skip (ws ++ t) = skip t.
Proof. induction 1 as [|c ws H _ IH]; [reflexivity|]. simpl. now rewrite H. Qed.
Lemma skip_split t : exists ws, t = ws ++ skip t /\ spaces ws.
Proof.
  induction t as [|c t (ws & E & S)]; [exists []; split; [reflexivity|constructor]|].
  simpl. destruct (is_space c) eqn:C.
  - exists (c :: ws). split; [simpl; now f_equal|now constructor].
  - exists []. split; [reflexivity|constructor].
Qed.
Lemma skip_head t : match skip t with c :: _ => is_space c = false | [] => True end.
Proof. induction t as [|c t IH]; simpl; [exact I|]. destruct (is_space c) eqn:E; [exact IH|exact E]. Qed.
Lemma digit_not_space c : is_digit c = true -> is_space c = false.
Proof.
  unfold is_digit, is_space. set (n := nat_of_ascii c). intros H. apply andb_prop in H as [H1 H2].
  apply Nat.leb_le in H1, H2. destruct (Nat.eqb_spec n 32); [lia|]. destruct (Nat.leb_spec n 13); [lia|].
  now rewrite andb_false_r.
Qed.
Lemma span_digits_split t ds rest : span_digits t = (ds, rest) ->
  t = ds ++ rest /\ Forall (fun c => is_digit c = true) ds /\ match rest with c :: _ => is_digit c = false | [] => True end.
Proof.
  revert ds rest. induction t as [|c t IH]; simpl; intros ds rest; [intros [= <- <-]; auto|].
  destruct (is_digit c) eqn:E.
  - destruct (span_digits t) as [a b]. intros [= <- <-]. destruct (IH a b eq_refl) as (-> & F & H).
    split; [reflexivity|]. split; [now constructor|exact H].
  - intros [= <- <-]. auto.
Qed.
Lemma span_digits_app ds rest : Forall (fun c => is_digit c = true) ds ->
  match rest with c :: _ => is_digit c = false | [] => True end -> span_digits (ds ++ rest) = (ds, rest).
Proof.
  induction 1 as [|c ds H _ IH]; intros R; simpl.
  - destruct rest as [|c r]; simpl; [reflexivity|]. now rewrite R.
  - rewrite H. now rewrite (IH R).
Qed.
Lemma parse_uint_sound t n rest : parse_uint t = Some (n, rest) ->
  exists ws ds, t = ws ++ ds ++ rest /\ spaces ws /\ digits ds /\ (digits_value ds <= UINT_MAXZ)%Z
    /\ n = Z.to_nat (digits_value ds) /\ match rest with c :: _ => is_digit c = false | [] => True end.
Proof.
  unfold parse_uint. destruct (skip_split t) as (ws & E & S). destruct (span_digits (skip t)) as [ds r] eqn:D.
  apply span_digits_split in D as (D & F & H). destruct ds as [|d ds]; [discriminate|].
  destruct (Z.leb_spec (digits_value (d :: ds)) UINT_MAXZ); [|discriminate]. intros [= <- <-].
  exists ws, (d :: ds). rewrite <- D. split; [exact E|]. repeat (split; auto). discriminate.
Qed.
Lemma parse_uint_complete ws ds rest : spaces ws -> digits ds -> (digits_value ds <= UINT_MAXZ)%Z ->
  match rest with c :: _ => is_digit c = false | [] => True end ->
  parse_uint (ws ++ ds ++ rest) = Some (Z.to_nat (digits_value ds), rest).
Proof.
  intros S [N F] L H. unfold parse_uint. rewrite skip_spaces by exact S.
  destruct ds as [|d ds]; [congruence|]. assert (Fd := Forall_inv F).
  assert (K : skip ((d :: ds) ++ rest) = (d :: ds) ++ rest) by (simpl; now rewrite (digit_not_space d Fd)).
  rewrite K, (span_digits_app (d :: ds) rest F H). destruct (Z.leb_spec (digits_value (d :: ds)) UINT_MAXZ); [reflexivity|lia].
Qed.
Lemma parse_char_sound c t rest : parse_char c t = Some rest -> exists ws, t = ws ++ c :: rest /\ spaces ws.
Proof.
  unfold parse_char. destruct (skip_split t) as (ws & E & S). destruct (skip t) as [|d r]; [discriminate|].
  destruct (Ascii.eqb_spec d c); [|discriminate]. intros [= <-]. subst. eauto.
Qed.
Lemma parse_char_complete c ws rest : spaces ws -> is_space c = false -> parse_char c (ws ++ c :: rest) = Some rest.
Proof. intros S C. unfold parse_char. rewrite skip_spaces by exact S. simpl. rewrite C. now rewrite Ascii.eqb_refl. Qed.

Definition ends_number (t : text) : Prop := match t with c :: _ => is_digit c = false | [] => True end.
Lemma spaces_end ws t : spaces ws -> ends_number t -> ends_number (ws ++ t).
Proof.
  intros [|c ws' H _] T; [exact T|]. simpl. destruct (is_digit c) eqn:D; [|reflexivity].
  apply digit_not_space in D. congruence.
Qed.
Lemma parse_pair_sound t e rest : parse_pair t = Some (e, rest) ->
  exists a, t = a ++ rest /\ reads_pair a (e_in e, e_out e) /\ ends_number rest.
Proof.
  unfold parse_pair. destruct (parse_uint t) as [[i t1]|] eqn:P1; [|discriminate].
  destruct (parse_char _ t1) as [t2|] eqn:P2; [|discriminate].
  destruct (parse_uint t2) as [[o t3]|] eqn:P3; [|discriminate]. intros [= <- <-]. cbn [e_in e_out].
  apply parse_uint_sound in P1 as (ws1 & ds1 & -> & S1 & D1 & L1 & -> & _).
  apply parse_char_sound in P2 as (ws2 & -> & S2).
  apply parse_uint_sound in P3 as (ws3 & ds2 & -> & S3 & D2 & L2 & -> & H3).
  exists (ws1 ++ ds1 ++ ws2 ++ "="%char :: ws3 ++ ds2). split; [|split; [now constructor|exact H3]].
  rewrite <- !app_assoc. simpl. now rewrite <- !app_assoc.
Qed.
Lemma parse_pair_complete t e rest : reads_pair t e -> ends_number rest ->
  parse_pair (t ++ rest) = Some (MkEntry (fst e) (snd e), rest).
Proof.
  intros [ws1 ds1 ws2 ws3 ds2 S1 S2 S3 D1 D2 L1 L2] H. unfold parse_pair.
  replace ((ws1 ++ ds1 ++ ws2 ++ "="%char :: ws3 ++ ds2) ++ rest)
    with (ws1 ++ ds1 ++ (ws2 ++ "="%char :: (ws3 ++ ds2 ++ rest))) by (rewrite <- !app_assoc; simpl; now rewrite <- !app_assoc).
  rewrite parse_uint_complete; [|exact S1|exact D1|exact L1|apply (spaces_end ws2 _ S2); reflexivity].
  rewrite parse_char_complete by (auto; reflexivity).
  now rewrite parse_uint_complete.
Qed.
Lemma parse_blank_none t : parse_blank t = None.
Proof.
  unfold parse_blank. assert (H := skip_head t). destruct (skip t) as [|c r]; [reflexivity|].
  unfold is_space in H. unfold is_blank. destruct (Nat.eqb_spec (nat_of_ascii c) 32); [discriminate|].
  destruct (Nat.eqb_spec (nat_of_ascii c) 9) as [E|]; [|reflexivity]. rewrite E in H. discriminate.
Qed.

Definition adds (l : routings) (es : list (nat * nat)) : routings :=
  fold_left (fun l e => p_add l (MkEntry (fst e) (snd e))) es l.

(** continuation of a list of pairs *)
Inductive more : text -> list (nat * nat) -> text -> Prop :=
| More_nil t : more t [] t
| More_cons ws p e t es rest : spaces ws -> reads_pair p e -> ends_number t -> more t es rest ->
    more (ws ++ ","%char :: p ++ t) (e :: es) rest.
Lemma parse_more_sound fuel : forall l t, length t < fuel ->
  exists es rest, parse_more fuel l t = Ok (adds l es, rest) /\ more t es rest.
Proof.
  induction fuel as [|fuel IH]; intros l t Hl; [lia|]. cbn [parse_more]. unfold parse_separator.
  destruct (parse_char "," t) as [t1|] eqn:P.
  - destruct (parse_pair t1) as [[e t2]|] eqn:Q.
    + apply parse_char_sound in P as (ws & -> & S). apply parse_pair_sound in Q as (a & -> & Rp & H).
      destruct (IH (p_add l e) t2) as (es & rest & E & M).
      { rewrite app_length in Hl. simpl in Hl. rewrite app_length in Hl. lia. }
      exists ((e_in e, e_out e) :: es), rest. split.
      * rewrite E. destruct e; reflexivity.
      * now constructor.
    + exists [], t. split; [reflexivity|constructor].
  - rewrite parse_blank_none. exists [], t. split; [reflexivity|constructor].
Qed.
Lemma more_reads t es rest : more t es rest -> spaces rest ->
  forall p e, reads_pair p e -> reads (p ++ t) (e :: es).
Proof.
  induction 1 as [t|ws p' e' t es rest S Rp H M IH]; intros W p e Re.
  - now constructor.
  - replace (p ++ ws ++ ","%char :: p' ++ t) with (p ++ ws ++ ","%char :: (p' ++ t)) by reflexivity.
    apply Reads_cons; auto.
Qed.
Lemma spaces_skip ws : spaces ws -> skip ws = [].
Proof. intros S. rewrite <- (app_nil_r ws). now rewrite skip_spaces. Qed.
Lemma skip_nil_spaces t : skip t = [] -> spaces t.
Proof. intros E. destruct (skip_split t) as (ws & Q & S). rewrite E, app_nil_r in Q. now subst. Qed.
Lemma p_parse_complete l t es : reads t es -> p_parse l t = Ok (adds [] es, true).
Proof.
  assert (Tail : forall t es l0 fuel, reads t es -> forall ws, spaces ws -> length (ws ++ ","%char :: t) < fuel ->
     exists rest, parse_more fuel l0 (ws ++ ","%char :: t) = Ok (adds l0 es, rest) /\ spaces rest).
  { clear. intros t es l0 fuel Rd. revert l0 fuel.
    induction Rd as [t e w Rp W|t e w r es Rp W Rd IH]; intros l0 [|fuel] ws S Hf; try lia; cbn [parse_more];
      unfold parse_separator; rewrite parse_char_complete by (auto; reflexivity).
    - rewrite (parse_pair_complete t e w Rp).
      2:{ rewrite <- (app_nil_r w). now apply spaces_end. }
      exists w. split; [|exact W]. destruct fuel as [|fuel]; [rewrite app_length in Hf; simpl in Hf; lia|].
      cbn [parse_more]. unfold parse_separator, parse_char. rewrite (spaces_skip w W), parse_blank_none. reflexivity.
    - rewrite (parse_pair_complete t e (w ++ ","%char :: r) Rp) by (apply spaces_end; [exact W|reflexivity]).
      destruct (IH (p_add l0 (MkEntry (fst e) (snd e))) fuel w W) as (rest & E & Sr).
      { rewrite app_length in Hf. simpl in Hf. rewrite app_length in Hf. lia. }
      exists rest. split; [exact E|exact Sr]. }
  intros Rd. unfold p_parse. destruct Rd as [t e w Rp W|t e w r es Rp W Rd].
  - rewrite (parse_pair_complete t e w Rp) by (rewrite <- (app_nil_r w); now apply spaces_end).
    cbn [parse_more]. unfold parse_separator, parse_char. rewrite (spaces_skip w W), parse_blank_none. cbn [bind snd fst].
    now rewrite (spaces_skip w W).
  - rewrite (parse_pair_complete t e (w ++ ","%char :: r) Rp) by (apply spaces_end; [exact W|reflexivity]).
    destruct (Tail r es (p_add [] (MkEntry (fst e) (snd e))) _ Rd w W (Nat.lt_succ_diag_r _)) as (rest & E & Sr).
    rewrite E. cbn [bind snd fst]. now rewrite (spaces_skip rest Sr).
Qed.
Lemma p_parse_sound l t : exists l' b, p_parse l t = Ok (l', b)
  /\ (b = true -> exists es, reads t es /\ l' = adds [] es) /\ (b = false -> l' = l).
Proof.
  unfold p_parse. destruct (parse_pair t) as [[e t1]|] eqn:P.
  - apply parse_pair_sound in P as (a & -> & Rp & H).
    destruct (parse_more_sound (S (length t1)) (p_add [] e) t1 (Nat.lt_succ_diag_r _)) as (es & rest & E & M).
    rewrite E. cbn [bind fst snd]. destruct (skip rest) as [|c r] eqn:K.
    + exists (adds (p_add [] e) es), true. split; [reflexivity|]. split; [|discriminate]. intros _.
      exists ((e_in e, e_out e) :: es). split; [|now destruct e].
      apply (more_reads t1 es rest M (skip_nil_spaces rest K)). exact Rp.
    + exists l, false. split; [reflexivity|]. split; [discriminate|reflexivity].
  - exists l, false. split; [reflexivity|]. split; [discriminate|reflexivity].
Qed.
