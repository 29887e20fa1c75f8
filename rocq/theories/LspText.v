(** Names, lists of names, maps and sorted channel lists. *)

From Coq Require Import Ascii String NArith Sorted Permutation.
From Verif Require Import Base LspModel LspSpec.

(** ** Trimming *)

Lemma blank_iff c : blank c = true <-> c = " "%char \/ c = "009"%char.
Proof. unfold blank. rewrite orb_true_iff, !Ascii.eqb_eq. tauto. Qed.
Lemma app_nil_s s : (s ++ EmptyString)%string = s.
Proof. induction s as [|c s IH]; [reflexivity|]. cbn [String.append]. now rewrite IH. Qed.
Lemma app_assoc_s a b c : ((a ++ b) ++ c)%string = (a ++ b ++ c)%string.
Proof. induction a as [|x a IH]; [reflexivity|]. cbn [String.append]. now rewrite IH. Qed.

Lemma trim_left_app l s : blanks l -> trim_left (l ++ s) = trim_left s.
Proof.
  induction l as [|c l IH]; intros H; [reflexivity|]. cbn [String.append trim_left].
  rewrite (proj2 (blank_iff c)) by (apply H; now left). apply IH. intros d Hd. apply H. now right.
Qed.
Lemma trim_left_id s : ~ starts_blank s -> trim_left s = s.
Proof.
  destruct s as [|c s]; [reflexivity|]. intros H. cbn [trim_left]. destruct (blank c) eqn:E; [|reflexivity].
  elim H. exists c, s. split; [reflexivity|]. now apply blank_iff.
Qed.
Lemma trim_left_spec s : exists l, s = (l ++ trim_left s)%string /\ blanks l /\ ~ starts_blank (trim_left s).
Proof.
  induction s as [|c s (l & E & H & N)].
  - exists EmptyString. split; [reflexivity|]. split; [intros c []|]. intros (c & r & A & _). discriminate.
  - cbn [trim_left]. destruct (blank c) eqn:EB.
    + exists (String c l). split; [cbn [String.append]; now rewrite <- E|]. split; [|exact N].
      intros d [<-|Hd]; [now apply blank_iff|now apply H].
    + exists EmptyString. split; [reflexivity|]. split; [intros d []|]. intros (d & r & A & D). injection A as <- <-.
      apply blank_iff in D. congruence.
Qed.
Lemma trim_right_blanks r : blanks r -> trim_right r = EmptyString.
Proof.
  induction r as [|c r IH]; intros H; [reflexivity|]. cbn [trim_right]. rewrite IH by (intros d Hd; apply H; now right).
  now rewrite (proj2 (blank_iff c)) by (apply H; now left).
Qed.
Lemma trim_right_app n r : blanks r -> trim_right (n ++ r) = trim_right n.
Proof.
  intros H. induction n as [|c n IH]; [now apply trim_right_blanks|]. cbn [String.append trim_right]. now rewrite IH.
Qed.
Lemma trim_right_id n : ~ ends_blank n -> trim_right n = n.
Proof.
  induction n as [|c n IH]; intros H; [reflexivity|]. cbn [trim_right]. destruct n as [|d n].
  - cbn [trim_right]. destruct (blank c) eqn:E; [|reflexivity]. elim H. exists c, EmptyString. split; [reflexivity|now apply blank_iff].
  - rewrite IH; [reflexivity|]. intros (e & r & E & X). apply H. exists e, (String c r). split; [cbn [String.append]; now rewrite E|exact X].
Qed.
Lemma trim_right_spec s : exists r, s = (trim_right s ++ r)%string /\ blanks r /\ ~ ends_blank (trim_right s).
Proof.
  induction s as [|c s (r & E & H & N)].
  - exists EmptyString. split; [reflexivity|]. split; [intros c []|]. intros (c & [|] & A & _); discriminate.
  - cbn [trim_right]. destruct (trim_right s) as [|d t] eqn:ET.
    + destruct (blank c) eqn:EB.
      * exists (String c s). split; [reflexivity|]. split; [|exact N]. intros d [<-|Hd]; [now apply blank_iff|]. apply H. rewrite E in Hd. exact Hd.
      * exists s. split; [reflexivity|]. split; [rewrite E; exact H|]. intros (d & [|x q] & A & D); [|destruct q; discriminate].
        injection A as <-. apply blank_iff in D. congruence.
    + exists r. split; [cbn [String.append] in *; now rewrite <- E|]. split; [exact H|].
      intros (e & [|x q] & A & D); [discriminate|]. cbn [String.append] in A. injection A as <- A. apply N. exists e, q. split; assumption.
Qed.
Lemma trim_stripped s : stripped s (trim s).
Proof.
  destruct (trim_left_spec s) as (l & E & Bl & N). destruct (trim_right_spec (trim_left s)) as (r & E2 & Br & N2).
  exists l, r. fold (trim s) in *. split; [rewrite <- E2; exact E|]. split; [exact Bl|]. split; [exact Br|]. split; [|exact N2].
  intros (c & q & A & D). apply N. rewrite E2. exists c, (q ++ r)%string. rewrite A. split; [reflexivity|exact D].
Qed.
Lemma stripped_trim raw n : stripped raw n -> n = trim raw.
Proof.
  intros (l & r & -> & Bl & Br & N1 & N2). unfold trim. rewrite (trim_left_app l _ Bl). destruct n as [|c n].
  - cbn [String.append]. destruct (trim_left_spec r) as (l' & E & Bl' & N). destruct (trim_left r) as [|d t] eqn:ET; [reflexivity|].
    exfalso. apply N. exists d, t. split; [reflexivity|]. apply Br. rewrite E. clear. induction l' as [|x l' IH]; [now left|now right].
  - rewrite trim_left_id; [now rewrite (trim_right_app _ _ Br), (trim_right_id _ N2)|].
    intros (d & q & A & D). cbn [String.append] in A. injection A as <- A. apply N1. exists c, n. split; [reflexivity|exact D].
Qed.
Lemma denotes_iff o n : denotes o n <-> exists raw, o = Some raw /\ n = trim raw.
Proof.
  split; intros (raw & E & H); exists raw; (split; [exact E|]); [now apply stripped_trim|]. subst n. apply trim_stripped.
Qed.
Lemma denotes_unique o n n' : denotes o n -> denotes o n' -> n = n'.
Proof. rewrite !denotes_iff. intros (r & -> & ->) (r' & E & ->). now injection E as ->. Qed.

(** ** Names *)

Lemma id_char_eq c : id_char c = existsb (Ascii.eqb c) id_letters.
Proof.
  destruct c as [[] [] [] [] [] [] [] []]; reflexivity.
Qed.
Lemma all_chars_iff n : all_chars id_char n = true <-> forall c, In c (list_ascii_of_string n) -> In c id_letters.
Proof.
  induction n as [|c n IH]; cbn [all_chars list_ascii_of_string].
  - split; [intros _ c []|reflexivity].
  - rewrite andb_true_iff, IH, id_char_eq, existsb_exists. split.
    + intros [(x & Hx & E) H] d [<-|Hd]; [|now apply H]. apply Ascii.eqb_eq in E. now subst x.
    + intros H. split; [|intros d Hd; apply H; now right]. exists c. split; [apply H; now left|apply Ascii.eqb_refl].
Qed.
Lemma regex_match_iff n : regex_match n = true <-> acceptable n.
Proof.
  unfold regex_match, acceptable. rewrite andb_true_iff, all_chars_iff. destruct n as [|c n]; cbn [is_empty negb].
  - split; [intros [A _]; discriminate|intros [A _]; now elim A].
  - split; intros [_ H]; (split; [congruence|exact H]).
Qed.
Lemma acceptable_trim n : acceptable n -> trim n = n.
Proof.
  intros [_ H]. symmetry. apply stripped_trim. exists EmptyString, EmptyString. rewrite app_nil_s. split; [reflexivity|].
  split; [intros c []|]. split; [intros c []|]. assert (X : forall c, c = " "%char \/ c = "009"%char -> ~ In c id_letters).
  { intros c [-> | ->] I; apply (existsb_exists (Ascii.eqb _)) in I || idtac; revert I; cbn; intuition discriminate. }
  split.
  - intros (c & r & -> & D). apply (X c D), H. now left.
  - intros (c & r & -> & D). apply (X c D), H. clear. induction r as [|x r IH]; [now left|now right].
Qed.

(** ** Lists of names *)

Lemma isspace_eq c : isspace c = if in_dec ascii_dec c [" "; "009"; "010"; "011"; "012"; "013"]%char then true else false.
Proof. destruct c as [[] [] [] [] [] [] [] []]; reflexivity. Qed.
Lemma remove_spaces_compressed s : compressed s (remove_spaces s).
Proof.
  unfold compressed. induction s as [|c s IH]; [reflexivity|]. cbn [remove_spaces list_ascii_of_string filter]. rewrite isspace_eq.
  destruct (in_dec ascii_dec c _); [exact IH|]. cbn [list_ascii_of_string]. now rewrite IH.
Qed.
Lemma compressed_eq s t : compressed s t -> t = remove_spaces s.
Proof.
  intros H. rewrite <- (string_of_list_ascii_of_string t), <- (string_of_list_ascii_of_string (remove_spaces s)). f_equal.
  pose proof (remove_spaces_compressed s) as H'. unfold compressed in *. congruence.
Qed.

Definition comma_first (s : string) : Prop := exists r, s = String ","%char r.
Lemma split_skip s : exists k s', s = (commas k ++ s')%string /\ split_at true s = split_at false s' /\ ~ comma_first s' /\ String.length s' <= String.length s.
Proof.
  induction s as [|c s (k & s' & E & HS & N & L)].
  - exists 0, EmptyString. split; [reflexivity|]. split; [reflexivity|]. split; [intros (r & A); discriminate|constructor].
  - cbn [split_at]. destruct (Ascii.eqb c ",") eqn:EC.
    + apply Ascii.eqb_eq in EC. subst c. exists (S k), s'. split; [cbn [commas String.append]; now rewrite <- E|]. split; [exact HS|].
      split; [exact N|]. cbn [String.length]. lia.
    + exists 0, (String c s). split; [reflexivity|]. split; [cbn [split_at]; now rewrite EC|]. split; [|constructor].
      intros (r & A). injection A as -> _. discriminate.
Qed.
Lemma split_first s : exists w ws, split_at false s = w :: ws /\ no_comma w
  /\ ((ws = [] /\ s = w) \/ exists k s', s = (w ++ commas (S k) ++ s')%string /\ ws = split_at false s' /\ String.length s' < String.length s).
Proof.
  induction s as [|c s (w & ws & E & N & H)].
  - exists EmptyString, []. split; [reflexivity|]. split; [intros []|]. left. split; reflexivity.
  - cbn [split_at]. destruct (Ascii.eqb c ",") eqn:EC.
    + apply Ascii.eqb_eq in EC. subst c. destruct (split_skip s) as (k & s' & A & S & _ & L). exists EmptyString, (split_at true s).
      split; [reflexivity|]. split; [intros []|]. right. exists k, s'. split; [cbn [commas String.append]; now rewrite <- A|].
      split; [exact S|]. cbn [String.length]. lia.
    + rewrite E. exists (String c w), ws. split; [reflexivity|]. split.
      { intros [A|A]; [subst c; discriminate|exact (N A)]. }
      destruct H as [[-> ->]|(k & s' & A & B & L)]; [left; split; reflexivity|]. right. exists k, s'.
      split; [cbn [String.append] in *; now rewrite A at 1|]. split; [exact B|]. cbn [String.length]. lia.
Qed.
Lemma split_separated : forall s, (forall n, In n (split s) -> n <> EmptyString) -> separated (split s) s.
Proof.
  assert (X : forall m s, String.length s < m -> (forall n, In n (split_at false s) -> n <> EmptyString) -> separated (split_at false s) s).
  { induction m as [|m IH]; intros s L H; [lia|]. destruct (split_first s) as (w & ws & E & N & [[-> ->]|(k & s' & A & B & L')]); rewrite E in *.
    - constructor; [apply H; now left|exact N].
    - rewrite A at 1. rewrite B. constructor; [apply H; now left|exact N|]. apply IH; [lia|]. intros n Hn. apply H. right. now rewrite B. }
  intros s H. exact (X (S (String.length s)) s (le_n _) H).
Qed.
Lemma split_word w s : no_comma w -> split_at false (w ++ String ","%char s) = w :: split_at true s.
Proof.
  induction w as [|c w IH]; intros N; [reflexivity|]. cbn [String.append split_at]. destruct (Ascii.eqb c ",") eqn:EC.
  - apply Ascii.eqb_eq in EC. subst c. elim N. now left.
  - rewrite IH; [reflexivity|]. intros H. apply N. now right.
Qed.
Lemma split_one w : no_comma w -> split_at false w = [w].
Proof.
  induction w as [|c w IH]; intros N; [reflexivity|]. cbn [split_at]. destruct (Ascii.eqb c ",") eqn:EC.
  - apply Ascii.eqb_eq in EC. subst c. elim N. now left.
  - rewrite IH; [reflexivity|]. intros H. apply N. now right.
Qed.
Lemma separated_split ns s : separated ns s -> split s = ns /\ (forall n, In n ns -> n <> EmptyString).
Proof.
  unfold split. induction 1 as [n E N|n k ns s E N H [IH1 IH2]].
  - split; [now apply split_one|]. intros m [<-|[]]. exact E.
  - split; [|intros m [<-|Hm]; [exact E|now apply IH2]]. cbn [commas String.append]. rewrite (split_word n _ N). f_equal. rewrite <- IH1.
    assert (X : ~ comma_first s).
    { assert (P : forall n t, n <> EmptyString -> no_comma n -> ~ comma_first (n ++ t)).
      { intros [|c m] t E1 N1 (r & A); [now elim E1|]. cbn [String.append] in A. injection A as -> _. apply N1. now left. }
      inversion H; subst; [rewrite <- (app_nil_s s)|]; now apply P. }
    clear - X. induction k as [|k IH]; [|exact IH]. cbn [commas String.append]. destruct s as [|c s]; [reflexivity|].
    cbn [split_at]. destruct (Ascii.eqb c ",") eqn:EC; [|reflexivity]. apply Ascii.eqb_eq in EC. subst c. elim X. exists s. reflexivity.
Qed.
Lemma lists_iff o names : lists o names <-> exists raw, o = Some raw /\ split (remove_spaces raw) = names /\ forall n, In n names -> n <> EmptyString.
Proof.
  split.
  - intros (raw & text & E & C & S). exists raw. split; [exact E|]. apply compressed_eq in C. subst text. now apply separated_split.
  - intros (raw & E & <- & H). exists raw, (remove_spaces raw). split; [exact E|]. split; [apply remove_spaces_compressed|now apply split_separated].
Qed.

(** ** Maps *)

Lemma mget_mset m k v n : mget (mset m k v) n = if String.eqb k n then Some v else mget m n.
Proof.
  induction m as [|[k' v'] m IH]; [reflexivity|]. cbn [mset]. destruct (String.compare k k') eqn:EC; cbn [mget].
  - apply String.compare_eq_iff in EC. subst k'. now destruct (String.eqb k n).
  - reflexivity.
  - rewrite IH. destruct (String.eqb_spec k n) as [->|NE]; [|reflexivity]. destruct (String.eqb_spec k' n) as [->|]; [|reflexivity].
    exfalso. assert (X : forall s, String.compare s s = Eq); [|rewrite X in EC; discriminate].
    clear. induction s as [|c s IH]; [reflexivity|]. cbn [String.compare]. unfold Ascii.compare. now rewrite N.compare_refl.
Qed.
Lemma mget_same m k v : mget (mset m k v) k = Some v.
Proof. now rewrite mget_mset, String.eqb_refl. Qed.
Lemma mget_other m k v n : n <> k -> mget (mset m k v) n = mget m n.
Proof. intros N. rewrite mget_mset. destruct (String.eqb_spec k n); [congruence|reflexivity]. Qed.

Definition below (a b : string * nat) : Prop := String.compare (fst a) (fst b) = Lt.
Definition ordered (m : idmap) : Prop := StronglySorted below m.
Lemma compare_refl s : String.compare s s = Eq.
Proof. induction s as [|c s IH]; [reflexivity|]. cbn [String.compare]. unfold Ascii.compare. now rewrite N.compare_refl. Qed.
Lemma compare_trans a : forall b c, String.compare a b = Lt -> String.compare b c = Lt -> String.compare a c = Lt.
Proof.
  induction a as [|x a IH]; intros [|y b] [|z c]; cbn [String.compare]; try discriminate; try reflexivity.
  unfold Ascii.compare. destruct (N.compare_spec (N_of_ascii x) (N_of_ascii y)) as [E1|L1|]; destruct (N.compare_spec (N_of_ascii y) (N_of_ascii z)) as [E2|L2|]; try discriminate; intros H1 H2.
  - rewrite (proj2 (N.compare_eq_iff _ _)) by congruence. exact (IH _ _ H1 H2).
  - rewrite (proj2 (N.compare_lt_iff _ _)) by lia. reflexivity.
  - rewrite (proj2 (N.compare_lt_iff _ _)) by lia. reflexivity.
  - rewrite (proj2 (N.compare_lt_iff _ _)) by lia. reflexivity.
Qed.
Lemma mset_in m k v e : In e (mset m k v) -> e = (k, v) \/ In e m.
Proof.
  induction m as [|[k' v'] m IH]; cbn [mset]; [intros [<-|[]]; now left|]. destruct (String.compare k k').
  - intros [<-|H]; [now left|right; now right].
  - intros [<-|H]; [now left|now right].
  - intros [<-|H]; [right; now left|]. destruct (IH H); [now left|right; now right].
Qed.
Lemma mset_ordered m k v : ordered m -> ordered (mset m k v).
Proof.
  unfold ordered. induction 1 as [|[k' v'] m O IH F]; cbn [mset]; [repeat constructor|].
  destruct (String.compare k k') eqn:EC.
  - apply String.compare_eq_iff in EC. subst k'. constructor; assumption.
  - constructor; [constructor; assumption|]. constructor; [exact EC|]. eapply Forall_impl; [|exact F]. intros e He. exact (compare_trans _ _ _ EC He).
  - constructor; [exact IH|]. apply Forall_forall. intros e He. apply mset_in in He. destruct He as [->|He]; [|rewrite Forall_forall in F; now apply F].
    unfold below. cbn [fst]. rewrite String.compare_antisym, EC. reflexivity.
Qed.
Lemma ordered_in m n k : ordered m -> In (n, k) m <-> mget m n = Some k.
Proof.
  induction 1 as [|[k' v'] m O IH F]; cbn [mget]; [split; [intros []|discriminate]|]. rewrite Forall_forall in F.
  destruct (String.eqb_spec k' n) as [->|NE].
  - split; [|intros E; injection E as ->; now left]. intros [E|H]; [now injection E as ->|]. apply F in H. unfold below in H. cbn [fst] in H. rewrite compare_refl in H. discriminate.
  - rewrite <- IH. split; [intros [E|H]; [injection E as -> ->; congruence|exact H]|intros H; now right].
Qed.

(** ** Sorting *)

Lemma insert_perm c l : Permutation (c :: l) (insert c l).
Proof.
  induction l as [|d l IH]; [reflexivity|]. cbn [insert]. destruct (N.leb c d); [reflexivity|]. rewrite perm_swap. now apply perm_skip.
Qed.
Lemma sort_perm l : Permutation l (sort l).
Proof. induction l as [|c l IH]; [reflexivity|]. unfold sort in *. cbn [fold_right]. rewrite <- insert_perm. now apply perm_skip. Qed.
Lemma insert_sorted c l : StronglySorted N.le l -> StronglySorted N.le (insert c l).
Proof.
  induction 1 as [|d l S IH F]; cbn [insert]; [repeat constructor|]. destruct (N.leb_spec c d) as [L|L].
  - constructor; [constructor; assumption|]. constructor; [exact L|]. eapply Forall_impl; [|exact F]. cbn. intros e He. lia.
  - constructor; [exact IH|]. apply Forall_forall. intros e He. apply (Permutation_in _ (Permutation_sym (insert_perm c l))) in He.
    destruct He as [<-|He]; [lia|]. rewrite Forall_forall in F. now apply F.
Qed.
Lemma sort_sorted l : StronglySorted N.le (sort l).
Proof. induction l as [|c l IH]; [constructor|]. unfold sort in *. cbn [fold_right]. now apply insert_sorted. Qed.
Lemma sort_length l : length (sort l) = length l.
Proof. symmetry. apply Permutation_length, sort_perm. Qed.
Lemma sort_in l c : In c (sort l) <-> In c l.
Proof. split; apply Permutation_in; [apply Permutation_sym|]; apply sort_perm. Qed.

Lemma rank_perm c l l' : Permutation l l' -> rank c l = rank c l'.
Proof.
  unfold rank. induction 1 as [|d l l' P IH|d e l|l1 l2 l3 P1 IH1 P2 IH2]; cbn [filter]; [reflexivity| | |congruence].
  - destruct (N.ltb d c); cbn [length]; congruence.
  - destruct (N.ltb d c), (N.ltb e c); reflexivity.
Qed.
Lemma find_sorted c l : StronglySorted N.le l -> In c l -> find_index l c = rank c l.
Proof.
  induction 1 as [|d l S IH F]; [intros []|]. rewrite Forall_forall in F. intros H. unfold rank. cbn [find_index filter].
  destruct (N.eqb_spec d c) as [->|NE].
  - rewrite N.ltb_irrefl. enough (filter (fun d => N.ltb d c) l = []) as -> by reflexivity.
    destruct (filter _ l) as [|e r] eqn:E; [reflexivity|]. assert (I : In e (filter (fun d => N.ltb d c) l)) by (rewrite E; now left).
    apply filter_In in I. destruct I as [I L]. apply N.ltb_lt in L. apply F in I. lia.
  - destruct H as [H|H]; [congruence|]. pose proof (F c H). rewrite (proj2 (N.ltb_lt d c)) by lia. cbn [length]. f_equal. now apply IH.
Qed.
Lemma find_rank c l : In c l -> find_index (sort l) c = rank c l.
Proof.
  intros H. rewrite find_sorted; [|apply sort_sorted|now apply sort_in]. apply rank_perm, Permutation_sym, sort_perm.
Qed.
Lemma find_index_nth c l : In c l -> nth_error l (find_index l c) = Some c.
Proof.
  induction l as [|d l IH]; [intros []|]. intros H. cbn [find_index]. destruct (N.eqb_spec d c) as [->|NE]; [reflexivity|].
  destruct H as [H|H]; [congruence|]. cbn [nth_error]. now apply IH.
Qed.
Lemma find_index_lt c l : In c l -> find_index l c < length l.
Proof. intros H. apply nth_error_Some. rewrite (find_index_nth c l H). discriminate. Qed.

Lemma adjacent_sorted l : StronglySorted N.le l -> adjacent_equal l = false <-> NoDup l.
Proof.
  induction 1 as [|c l S IH F]; [split; [constructor|reflexivity]|]. destruct l as [|d l].
  - split; [intros _; constructor; [intros []|constructor]|reflexivity].
  - cbn [adjacent_equal] in *. destruct (N.eqb_spec c d) as [->|NE].
    + split; [discriminate|]. intros H. inversion H as [|? ? A _]. elim A. now left.
    + rewrite IH. split; [|intros H; now inversion H]. intros H. constructor; [|exact H]. intros I. rewrite Forall_forall in F.
      assert (c <= d)%N by (apply F; now left). destruct I as [I|I]; [congruence|].
      inversion S as [|? ? _ F2]. subst. rewrite Forall_forall in F2. apply F2 in I. lia.
Qed.
Lemma NoDup_perm (l l' : list N) : Permutation l l' -> NoDup l <-> NoDup l'.
Proof. intros P. split; apply Permutation_NoDup; [|apply Permutation_sym]; exact P. Qed.
Lemma NoDup_app_iff {A} (l r : list A) : NoDup (l ++ r) <-> NoDup l /\ NoDup r /\ forall x, In x l -> ~ In x r.
Proof.
  induction l as [|x l IH]; cbn [app]; [split; [intros H; split; [constructor|]; split; [exact H|intros ? []]|tauto]|].
  rewrite !NoDup_cons_iff, in_app_iff, IH. split.
  - intros (N & H1 & H2 & H3). split; [tauto|]. split; [exact H2|]. intros y [<-|Hy]; [tauto|now apply H3].
  - intros ((N & H1) & H2 & H3). split; [intros [Y|Y]; [tauto|exact (H3 x (or_introl eq_refl) Y)]|]. split; [exact H1|]. split; [exact H2|].
    intros y Hy. apply H3. now right.
Qed.
Lemma collide_iff l r : collide l r = false <-> forall c, In c l -> ~ In c r.
Proof.
  unfold collide. split.
  - intros H c Hl Hr. apply Bool.not_true_iff_false in H. apply H. apply existsb_exists. exists c. split; [exact Hl|].
    apply existsb_exists. exists c. split; [exact Hr|apply N.eqb_refl].
  - intros H. apply Bool.not_true_iff_false. intros E. apply existsb_exists in E. destruct E as (c & Hl & E).
    apply existsb_exists in E. destruct E as (d & Hr & E). apply N.eqb_eq in E. subst d. exact (H c Hl Hr).
Qed.
Lemma channels_distinct_iff cs us : channels_distinct cs us = true <-> NoDup (cs ++ us).
Proof.
  unfold channels_distinct. rewrite negb_true_iff, !orb_false_iff, !adjacent_sorted by apply sort_sorted.
  rewrite collide_iff, NoDup_app_iff, (NoDup_perm _ _ (Permutation_sym (sort_perm cs))), (NoDup_perm _ _ (Permutation_sym (sort_perm us))).
  split; intros (A & C & D); (split; [exact A|]; split; [exact C|]); intros c Hc; [rewrite <- (sort_in us); apply D; now apply sort_in|].
  rewrite sort_in. apply D. now apply (proj1 (sort_in cs c)).
Qed.
