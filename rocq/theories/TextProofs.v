From Coq Require Import Ascii Lia.
From Verif Require Import Base IndexSequenceModel TextModel TextSpec.
Local Open Scope nat_scope.

Lemma is_space_space c : is_space c = true <-> space c.
Proof.
  unfold is_space, space. cbn [In].
  rewrite orb_true_iff, andb_true_iff, Nat.eqb_eq, !Nat.leb_le. lia.
Qed.
Lemma space_false c : ~ space c -> is_space c = false.
Proof. rewrite <- is_space_space. now destruct is_space. Qed.

Lemma skip_blank_app s t : blank s -> skip (s ++ t) = skip t.
Proof.
  induction 1 as [|c s Hc _ IH]; [easy|]. cbn. apply is_space_space in Hc. now rewrite Hc.
Qed.
Lemma skip_blank s : blank s -> skip s = [].
Proof. intros H. rewrite <- (app_nil_r s), (skip_blank_app s []) by exact H. reflexivity. Qed.
Lemma skip_split l : exists s, blank s /\ l = s ++ skip l.
Proof.
  induction l as [|c l (s & Hs & E)]; [exists []; split; [constructor|easy]|]. cbn. destruct (is_space c) eqn:Hc.
  - exists (c :: s). split; [constructor; [now apply is_space_space|easy]|]. cbn. now rewrite <- E.
  - exists []. split; [constructor|easy].
Qed.
Lemma skip_solid c l : ~ space c -> skip (c :: l) = c :: l.
Proof. intros H. cbn. now rewrite space_false. Qed.
Lemma comma_solid : ~ space ",".
Proof. rewrite <- is_space_space. easy. Qed.
Lemma percent_solid : ~ space "%".
Proof. rewrite <- is_space_space. easy. Qed.

Lemma parse_char_some c l r : parse_char c l = Some r -> exists s, blank s /\ l = s ++ c :: r.
Proof.
  unfold parse_char. destruct (skip_split l) as (s & Hs & E). destruct (skip l) as [|d l']; [easy|].
  destruct (Ascii.eqb_spec d c) as [->|]; [|easy]. intros [= ->]. now exists s.
Qed.
Lemma parse_char_blank c s r : blank s -> ~ space c -> parse_char c (s ++ c :: r) = Some r.
Proof.
  intros Hs Hc. unfold parse_char. now rewrite skip_blank_app, skip_solid, Ascii.eqb_refl.
Qed.

Section Rows.
  Context {num : Type}.
  Variable written : num -> chars -> Prop.
  Variable lex : chars -> option (num * chars).
  Hypothesis P : number_parser written lex.

  Lemma lex_nil : lex [] = None.
  Proof.
    destruct (lex []) as [(x, r)|] eqn:E; [|easy]. apply (reads_only _ _ P) in E as (t & W & E).
    apply (starts _ _ P) in W. now destruct t.
  Qed.
  Lemma lex_char c l : c = ","%char \/ c = "%"%char -> lex (c :: l) = None.
  Proof.
    intros Hc. destruct (lex (c :: l)) as [(x, r)|] eqn:E; [|easy]. apply (reads_only _ _ P) in E as (t & W & E).
    apply (starts _ _ P) in W. destruct t as [|d t]; [easy|]. injection E as -> _. now destruct Hc, W as (_ & ? & ?).
  Qed.
  Lemma no_numbers_real t : no_numbers t -> real lex t = None /\ parse_char "," t = None /\ skip (comment t) = [].
  Proof.
    intros [s Hs|s c Hs]; unfold real, comment, parse_char.
    - rewrite (skip_blank s Hs). split; [apply lex_nil|]. split; [easy|]. now apply skip_blank.
    - rewrite skip_blank_app, skip_solid; [|apply percent_solid|easy].
      split; [apply lex_char; now right|]. now split.
  Qed.
  Lemma written_solid x t r : written x t -> skip (t ++ r) = t ++ r.
  Proof.
    intros W. apply (starts _ _ P) in W. destruct t as [|c t]; [easy|]. now apply skip_solid.
  Qed.
  Lemma written_length x t : written x t -> 0 < length t.
  Proof. intros W. apply (starts _ _ P) in W. destruct t; [easy|]. cbn; lia. Qed.
  Lemma written_no_comma x t r : written x t -> parse_char "," (t ++ r) = None.
  Proof.
    intros W. unfold parse_char. rewrite (written_solid x) by easy.
    apply (starts _ _ P) in W. destruct t as [|c t]; [easy|]. cbn.
    destruct (Ascii.eqb_spec c ","); [now subst|easy].
  Qed.

  Lemma tail_terminated xs t : tail_text written nonempty_separator xs t -> terminated t.
  Proof.
    intros H. destruct H as [r [s Hs|s c Hs]|s x u ys r [Hs Hn] _ _].
    - destruct Hs; [easy|]. now left.
    - destruct Hs as [|d s Hd]; [|now left]. right. now right.
    - destruct Hs as [Hs|(a & b & Ha & _ & ->)].
      + destruct Hs; [easy|]. now left.
      + destruct Ha; [right; now left|now left].
  Qed.

  Lemma real_written s x t r : blank s -> written x t -> terminated r -> real lex (s ++ t ++ r) = Some (x, r).
  Proof.
    intros Hs W T. unfold real. rewrite skip_blank_app, (written_solid x) by easy. now apply (reads _ _ P).
  Qed.

  Lemma list_rest_reads xs t : tail_text written nonempty_separator xs t ->
    forall fuel, length t <= fuel -> exists u, list_rest lex fuel t = (xs, u) /\ no_numbers u.
  Proof.
    induction 1 as [t H|s x t xs r (Hs & Hn) W T IH]; intros fuel Hf.
    - exists t. split; [|easy]. destruct fuel as [|f]; [easy|]. cbn [list_rest].
      destruct (no_numbers_real _ H) as (Er & Ec & _). cbn zeta. now rewrite Ec, Er.
    - rewrite !app_length in Hf. pose proof (written_length _ _ W) as Hl.
      destruct fuel as [|f]; [lia|]. cbn [list_rest].
      destruct (IH f ltac:(lia)) as (u & E & Hu). exists u. split; [|easy].
      assert (R : real lex (match parse_char "," (s ++ t ++ r) with Some q => q | None => s ++ t ++ r end) = Some (x, r)).
      { destruct Hs as [Hs|(a & b & Ha & Hb & ->)].
        - assert (Ec : parse_char "," (s ++ t ++ r) = None).
          { pose proof (written_no_comma x t r W) as Ec. unfold parse_char in *. now rewrite skip_blank_app. }
          rewrite Ec. apply real_written; try easy. now apply tail_terminated with xs.
        - rewrite <- app_assoc. cbn [app]. rewrite parse_char_blank by (easy || apply comma_solid).
          apply real_written; try easy. now apply tail_terminated with xs. }
      cbn zeta. now rewrite R, E.
  Qed.

  Lemma lists_none fuel t : no_numbers t -> lists lex fuel t = ([], t).
  Proof.
    intros H. destruct fuel as [|f]; [easy|]. cbn. unfold one_list.
    now destruct (no_numbers_real _ H) as (-> & _).
  Qed.
  Lemma parse_row_reads xs t : row_text written nonempty_separator xs t -> parse_row lex t = Some xs.
  Proof.
    unfold parse_row. intros [u H|s x u ys r Hs W T].
    - rewrite lists_none by easy. now destruct (no_numbers_real _ H) as (_ & _ & ->).
    - assert (Hl : 0 < length (s ++ u ++ r)).
      { rewrite !app_length. pose proof (written_length _ _ W). lia. }
      destruct (length (s ++ u ++ r)) as [|f]; [lia|]. cbn [lists]. unfold one_list.
      rewrite (real_written s x u r) by (easy || now apply tail_terminated with ys).
      destruct (list_rest_reads _ _ T (length r) ltac:(lia)) as (v & -> & Hv).
      rewrite lists_none by easy. rewrite app_nil_r. now destruct (no_numbers_real _ Hv) as (_ & _ & ->).
  Qed.

  (** *** What is accepted *)
  Lemma real_some l x r : real lex l = Some (x, r) -> exists s t, blank s /\ written x t /\ l = s ++ t ++ r.
  Proof.
    intros E. apply (reads_only _ _ P) in E as (t & W & E). destruct (skip_split l) as (s & Hs & El).
    exists s, t. now rewrite <- E.
  Qed.
  Lemma list_rest_accepts fuel : forall l xs u ys, list_rest lex fuel l = (xs, u) ->
    tail_text written separator ys u -> tail_text written separator (xs ++ ys) l.
  Proof.
    induction fuel as [|f IH]; intros l xs u ys; cbn [list_rest].
    - now intros [= <- <-].
    - cbn zeta. destruct (real lex _) as [(x, r)|] eqn:R; [|now intros [= <- <-]].
      destruct (list_rest lex f r) as (xs', u') eqn:E. intros [= <- <-] T.
      pose proof (IH _ _ _ _ E T) as T'. cbn [app].
      apply real_some in R as (s & t & Hs & W & E1).
      destruct (parse_char "," l) as [l1|] eqn:C.
      + apply parse_char_some in C as (a & Ha & ->). subst l1.
        replace (a ++ ","%char :: s ++ t ++ r) with ((a ++ ","%char :: s) ++ t ++ r) by now rewrite <- app_assoc.
        apply tail_more; try easy. right. now exists a, s.
      + subst l. apply tail_more; try easy. now left.
  Qed.
  Lemma lists_accepts fuel : forall l v u, lists lex fuel l = (v, u) -> no_numbers u ->
    row_text written separator v l /\ tail_text written separator v l.
  Proof.
    induction fuel as [|f IH]; intros l v u; cbn [lists].
    - intros [= <- <-] N. split; now constructor.
    - destruct (one_list lex l) as [(xs, r)|] eqn:O.
      2:{ intros [= <- <-] N. split; now constructor. }
      destruct (lists lex f r) as (ys, u') eqn:E. intros [= <- <-] N.
      destruct (IH _ _ _ E N) as (_ & T). unfold one_list in O.
      destruct (real lex l) as [(x, q)|] eqn:R; [|easy].
      destruct (list_rest lex (length q) q) as (zs, w) eqn:L. injection O as <- <-.
      pose proof (list_rest_accepts _ _ _ _ _ L T) as T'.
      apply real_some in R as (s & t & Hs & W & ->).
      split; [now apply row_more|apply tail_more; try easy; now left].
  Qed.
  Lemma comment_no_numbers u : skip (comment u) = [] -> no_numbers u.
  Proof.
    unfold comment. destruct (parse_char "%" u) as [r|] eqn:C.
    - intros _. apply parse_char_some in C as (s & Hs & ->). now apply with_comment.
    - intros E. destruct (skip_split u) as (s & Hs & El). rewrite E, app_nil_r in El. subst. now apply only_spaces.
  Qed.
  Lemma parse_row_accepts t v : parse_row lex t = Some v -> row_text written separator v t.
  Proof.
    unfold parse_row. destruct (lists lex (length t) t) as (w, u) eqn:E.
    destruct (skip (comment u)) eqn:S; [|easy]. intros [= <-]. apply comment_no_numbers in S.
    now apply (lists_accepts _ _ _ _ E).
  Qed.

  (** *** Rows *)
  Definition breaks (c : ascii) : bool := is_newline c || is_semicolon c.
  Lemma breaks_spec c : breaks c = true <-> row_separator c.
  Proof.
    unfold breaks, row_separator, is_newline, is_semicolon.
    rewrite orb_true_iff, !Ascii.eqb_eq. apply or_iff_compat_r. split.
    - now intros ->.
    - intros H. rewrite <- (ascii_nat_embedding c), H. easy.
  Qed.
  Lemma pieces_ne sep l : pieces sep l <> [].
  Proof. destruct l as [|c l]; [easy|]. cbn. destruct (sep c); [easy|]. now destruct (pieces sep l). Qed.
  Lemma pieces_flat l : concat (map (pieces is_semicolon) (pieces is_newline l)) = pieces breaks l.
  Proof.
    induction l as [|c l IH]; [easy|]. cbn [pieces]. unfold breaks at 1.
    destruct (is_newline c) eqn:N; cbn [orb].
    - cbn. now rewrite IH.
    - destruct (pieces is_newline l) as [|p ps] eqn:Q; [now apply pieces_ne in Q|].
      cbn [map concat pieces] in *. destruct (is_semicolon c); cbn [app]; [now rewrite IH|].
      destruct (pieces is_semicolon p) as [|a b] eqn:S; [now apply pieces_ne in S|].
      cbn [app] in *. now rewrite <- IH.
  Qed.
  Lemma pieces_plain sep t : Forall (fun c => sep c = false) t -> forall r,
    (r = [] \/ exists c r', r = c :: r' /\ sep c = true) ->
    pieces sep (t ++ r) = match r with [] => [t] | _ :: r' => t :: pieces sep r' end.
  Proof.
    induction 1 as [|c t Hc _ IH]; intros r Hr.
    - destruct Hr as [->|(c & r' & -> & Hc)]; [easy|]. cbn. now rewrite Hc.
    - cbn. rewrite Hc, (IH _ Hr). now destruct r.
  Qed.
  Lemma pieces_cut sep t : exists p, Forall (fun c => sep c = false) p /\
    ((t = p /\ pieces sep t = [p]) \/ exists c r, t = p ++ c :: r /\ sep c = true /\ pieces sep t = p :: pieces sep r).
  Proof.
    induction t as [|c t (p & Hp & IH)].
    - exists []. split; [easy|]. now left.
    - cbn. destruct (sep c) eqn:Hc.
      + exists []. split; [easy|]. right. now exists c, t.
      + exists (c :: p). split; [now constructor|]. destruct IH as [(-> & ->)|(d & r & -> & Hd & ->)].
        * now left.
        * right. now exists d, r.
  Qed.
  Lemma plain_spec t : Forall (fun c => ~ row_separator c) t <-> Forall (fun c => breaks c = false) t.
  Proof.
    split; apply Forall_impl; intros c; rewrite <- breaks_spec; now destruct (breaks c).
  Qed.

  Lemma add_rows_app s a b : add_rows lex s (a ++ b) = bind (add_rows lex s a) (fun s' => add_rows lex s' b).
  Proof.
    revert s. induction a as [|l a IH]; intros s; [easy|]. cbn. destruct (add_row lex s l); cbn; [apply IH|easy|easy].
  Qed.
  Lemma add_lines_flat ls : forall s, add_lines lex s ls = add_rows lex s (concat (map (pieces is_semicolon) ls)).
  Proof.
    induction ls as [|l ls IH]; intros s; [easy|]. cbn. rewrite add_rows_app.
    destruct (add_rows lex s (pieces is_semicolon l)); cbn; [apply IH|easy|easy].
  Qed.

  (** the sizes *)
  Definition fits (s : storage (num := num)) : Prop :=
    (minSize s = None /\ tmpStorage s = [] /\ maxSize s = 0) \/
    exists k, minSize s = Some k /\ (exists v, In v (tmpStorage s) /\ length v = k) /\
      (exists v, In v (tmpStorage s) /\ length v = maxSize s) /\
      forall v, In v (tmpStorage s) -> 0 < length v /\ k <= length v <= maxSize s.
  Lemma add_row_ok s l s' : fits s -> add_row lex s l = Ok s' ->
    exists v, parse_row lex l = Some v /\ fits s' /\ tmpStorage s' = tmpStorage s ++ proper [v].
  Proof.
    unfold add_row. intros F. destruct (parse_row lex l) as [v|]; [|easy]. intros E. exists v. split; [easy|].
    destruct v as [|x v].
    - cbn in E. injection E as <-. split; [easy|]. now rewrite app_nil_r.
    - cbn [length Nat.eqb] in E. apply Ok_inj in E. subst s'. split; [|easy].
      remember (x :: v) as w eqn:Hw. replace (S (length v)) with (length w) by now subst.
      assert (0 < length w) by (subst; cbn; lia).
      right. cbn [minSize tmpStorage maxSize]. destruct F as [(-> & -> & ->)|(k & -> & (a & Ia & La) & (b & Ib & Lb) & All)].
      + exists (length w). split; [easy|]. cbn [app].
        split; [exists w; split; [now left|easy]|]. split; [exists w; split; [now left|now rewrite Nat.max_0_l]|].
        intros u [<-|[]]. lia.
      + exists (Nat.min k (length w)). split; [easy|]. split; [|split].
        * destruct (Nat.min_spec k (length w)) as [(_ & ->)|(_ & ->)].
          -- exists a. split; [apply in_or_app; now left|easy].
          -- exists w. split; [apply in_or_app; right; now left|easy].
        * destruct (Nat.max_spec (maxSize s) (length w)) as [(_ & ->)|(_ & ->)].
          -- exists w. split; [apply in_or_app; right; now left|easy].
          -- exists b. split; [apply in_or_app; now left|easy].
        * intros u Hu. apply in_app_or in Hu as [Hu|[<-|[]]]; [apply All in Hu|]; lia.
  Qed.
  Lemma add_rows_ok ls : forall s s', fits s -> add_rows lex s ls = Ok s' ->
    exists vs, Forall2 (fun l v => parse_row lex l = Some v) ls vs /\ fits s' /\ tmpStorage s' = tmpStorage s ++ proper vs.
  Proof.
    induction ls as [|l ls IH]; intros s s' F.
    - intros E. cbn in E. apply Ok_inj in E. subst. exists []. split; [constructor|]. split; [easy|]. cbn. now rewrite app_nil_r.
    - cbn [add_rows]. destruct (add_row lex s l) as [s1| |] eqn:E1; cbn [bind]; [|easy|easy]. intros E.
      destruct (add_row_ok _ _ _ F E1) as (v & Pv & F1 & T1).
      destruct (IH _ _ F1 E) as (vs & Ps & F2 & T2).
      exists (v :: vs). split; [now constructor|]. split; [easy|].
      rewrite T2, T1, <- app_assoc. f_equal. now destruct v.
  Qed.
  Lemma add_rows_total ls vs : Forall2 (fun l v => parse_row lex l = Some v) ls vs ->
    forall s, exists s', add_rows lex s ls = Ok s'.
  Proof.
    induction 1 as [|l v ls vs E _ IH]; intros s; [now exists s|]. cbn. unfold add_row. rewrite E.
    destruct (length v =? 0); cbn; apply IH.
  Qed.
  Lemma add_rows_throws ls : forall s, (exists s', add_rows lex s ls = Ok s') \/ add_rows lex s ls = Throw InvalidArgument.
  Proof.
    induction ls as [|l ls IH]; intros s; [left; now exists s|]. cbn. unfold add_row at 1 2.
    destruct (parse_row lex l) as [v|]; [|now right]. destruct (length v =? 0); cbn; apply IH.
  Qed.

  Lemma row_texts_pieces sep rows t : row_texts written sep rows t ->
    Forall2 (row_text written sep) rows (pieces breaks t).
  Proof.
    induction 1 as [xs t H N|xs t c rows r H N Hc _ IH].
    - rewrite <- (app_nil_r t). rewrite pieces_plain; [|now apply plain_spec|now left]. now constructor.
    - rewrite pieces_plain; [|now apply plain_spec|right; exists c, r; split; [easy|now apply breaks_spec]].
      now constructor.
  Qed.
  Lemma pieces_row_texts sep rows : forall t, Forall2 (row_text written sep) rows (pieces breaks t) ->
    row_texts written sep rows t.
  Proof.
    induction rows as [|xs rows IH]; intros t H.
    - exfalso. apply (pieces_ne breaks t). now inversion H.
    - destruct (pieces_cut breaks t) as (p & Hp & [(-> & E)|(c & r & -> & Hc & E)]); rewrite E in H.
      + inversion H as [|? ? ? ? H1 H2]; subst. inversion H2; subst. apply last_row; [easy|now apply plain_spec].
      + inversion H; subst. apply more_rows; [easy|now apply plain_spec|now apply breaks_spec|now apply IH].
  Qed.

  Definition start : storage (num := num) := Storage [] None 0.
  Lemma matrix_unfold t : matrix_fromString lex t =
    bind (add_rows lex start (pieces breaks t)) (fun s =>
    match minSize s with
    | None => Ok (Matrix 0 0 [])
    | Some k => if negb (k =? maxSize s) then Throw InvalidArgument
                else Ok (Matrix (length (tmpStorage s)) k (tmpStorage s))
    end).
  Proof. unfold matrix_fromString. now rewrite add_lines_flat, pieces_flat. Qed.
  Lemma fits_start : fits start.
  Proof. now left. Qed.

  Lemma matrix_of_rows rows t : Forall2 (fun l v => parse_row lex l = Some v) (pieces breaks t) rows ->
    (forall n, proper rows <> [] -> (forall v, In v (proper rows) -> length v = n) ->
       matrix_fromString lex t = Ok (Matrix (length (proper rows)) n (proper rows))) /\
    (proper rows = [] -> matrix_fromString lex t = Ok (Matrix 0 0 [])) /\
    (forall v w, In v (proper rows) -> In w (proper rows) -> length v <> length w ->
       matrix_fromString lex t = Throw InvalidArgument).
  Proof.
    intros H. rewrite matrix_unfold. destruct (add_rows_total _ _ H start) as (s & E). rewrite E. cbn [bind].
    destruct (add_rows_ok _ _ _ fits_start E) as (vs & Hv & F & T). cbn [start tmpStorage app] in T.
    assert (vs = rows) as ->.
    { clear -H Hv. revert vs Hv. induction H as [|l v ls rs E _ IH]; intros vs Hv; inversion Hv; subst; [easy|].
      f_equal; [congruence|now apply IH]. }
    rewrite <- T. destruct F as [(-> & E0 & _)|(k & -> & (a & Ia & La) & (b & Ib & Lb) & All)].
    - rewrite E0. repeat split; easy.
    - split; [|split].
      + intros n _ Hn. rewrite <- La, <- Lb, !Hn, Nat.eqb_refl by easy. easy.
      + intros E0. now rewrite E0 in Ia.
      + intros v w Iv Iw N. destruct (Nat.eqb_spec k (maxSize s)); [|easy].
        apply All in Iv, Iw. lia.
  Qed.
End Rows.
