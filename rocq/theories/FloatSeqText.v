(** The grammar of rbbl::FloatSequence and the meaning of its items. *)
From Coq Require Import ZArith Reals Lra Lia.
From Flocq Require Import Core.Core IEEE754.BinarySingleNaN.
From Verif Require Import Base IndexSequenceModel IndexSequenceProofs FloatSeqModel FloatSeqProofs FloatSeqReal.
Local Open Scope Z_scope.
Local Open Scope list_scope.
Local Open Scope res_scope.

Section Text.
  Context {prec emax : Z} {Hp : Prec_gt_0 prec} {Hm : Prec_lt_emax prec emax}.
  Local Notation num := (binary_float prec emax).
  Context (lex : text -> option (num * text)) (number : num -> text -> Prop).

  (** what may follow a number *)
  Definition ends (r : text) : Prop :=
    match r with [] => True | c :: _ => is_space c = true \/ c = ":"%char \/ c = ","%char end.
  (** [lex] takes the texts [number] from the beginning of a text *)
  Record lexes : Prop := {
    lex_complete : forall x u r, number x u -> ends r -> lex (u ++ r) = Some (x, r);
    lex_sound : forall t x r, lex t = Some (x, r) -> exists u, t = u ++ r /\ number x u;
    lex_start : forall x u, number x u -> exists c u', u = c :: u' /\ is_space c = false
  }.
  Context (L : lexes).

  (** ** Specification *)
  Definition spaced (x : num) (t : text) : Prop := exists w n, t = w ++ n /\ ws w /\ number x n.
  Definition item_txt : list num -> text -> Prop := list_text ":" spaced.
  (** the items of a text; there is at least one *)
  Definition sequence_txt (items : list (list num)) (t : text) : Prop :=
    exists u w, t = u ++ w /\ list_text "," item_txt items u /\ ws w.

  (** an increment that counts as zero *)
  Definition tiny (inc : num) : Prop :=
    is_finite inc = true /\ (Rabs (B2R inc) < bpow radix2 (1 - prec))%R.
  Definition denotes (item l : list num) : Prop :=
    match item with
    | [v] => l = [v]
    | [v; e] => ranges true v Bone e l
    | [v; inc; e] => ~ tiny inc /\ ranges (Bltb (B754_zero false) inc) v inc e l
    | _ => False
    end.
  (** items whose loop does not come to an end *)
  Definition endless (item : list num) : Prop :=
    match item with
    | [v; e] => stuck true v Bone e
    | [v; inc; e] => ~ tiny inc /\ stuck (Bltb (B754_zero false) inc) v inc e
    | _ => False
    end.

  (** ** Items *)
  Lemma epsilon_value : is_finite (epsilon prec emax) = true /\ B2R (epsilon prec emax) = bpow radix2 (1 - prec).
  Proof.
    unfold Prec_gt_0, Prec_lt_emax in *.
    pose proof (binary_normalize_correct prec emax Hp Hm mode_NE 1 (1 - prec) false) as C. cbv zeta in C.
    assert (V : F2R (Float radix2 1 (1 - prec)) = bpow radix2 (1 - prec)).
    { unfold F2R. simpl Fnum. simpl Fexp. now rewrite Rmult_1_l. }
    rewrite V in C. rewrite round_generic in C.
    - rewrite Rabs_pos_eq in C by apply bpow_ge_0. rewrite Rlt_bool_true in C by (apply bpow_lt; lia).
      destruct C as (E & F & _). split; assumption.
    - apply valid_rnd_N.
    - apply generic_format_bpow. unfold SpecFloat.fexp, SpecFloat.emin. lia.
  Qed.

  Lemma tiny_iff inc : Bltb (Babs inc) (epsilon prec emax) = true <-> tiny inc.
  Proof.
    destruct epsilon_value as [Fe Ee]. unfold tiny. destruct (is_finite inc) eqn:F.
    - rewrite Bltb_correct by (assumption || now rewrite is_finite_Babs).
      rewrite Ee, B2R_Babs. case Rlt_bool_spec; intros H; split; intros G; try discriminate; auto; lra.
    - split; [|intros [G _]; discriminate]. intros G. exfalso. revert G.
      destruct (epsilon prec emax) as [s|s| |s m x B]; try discriminate Fe;
      destruct inc as [s'|s'| |s' m' x' B']; try discriminate F; destruct s; cbn; discriminate.
  Qed.

  Lemma toward_one : toward true (Bone : num).
  Proof.
    cbn [toward]. rewrite Bltb_correct by (reflexivity || apply is_finite_Bone).
    rewrite Bone_correct. simpl B2R. apply Rlt_bool_true. lra.
  Qed.

  Lemma finish_sound n i l : finish prec emax n i = Ok l -> denotes i l.
  Proof.
    unfold finish, denotes. destruct i as [|v [|e [|c [|d i]]]]; try discriminate.
    - intros H. injection H as <-. reflexivity.
    - intros H. apply (loop_iff true n v Bone e l) in H. apply H.
    - destruct (Bltb (Babs e) _) eqn:T; [discriminate|].
      assert (N : ~ tiny e) by (intros G; apply tiny_iff in G; congruence).
      change (zero prec emax) with (B754_zero false : num).
      destruct (Bltb (B754_zero false) e); intros H; (split; [exact N|]).
      + apply (loop_iff true n v e c l) in H. apply H.
      + apply (loop_iff false n v e c l) in H. apply H.
  Qed.

  Lemma finish_complete i l : denotes i l -> exists n0, forall n, (n0 <= n)%nat -> finish prec emax n i = Ok l.
  Proof.
    unfold finish, denotes. destruct i as [|v [|e [|c [|d i]]]]; try contradiction.
    - intros ->. exists 0%nat. reflexivity.
    - intros R. exists (S (length l)). intros n Hn. apply (loop_iff true n v Bone e l). split; [exact R|lia].
    - intros [N R]. exists (S (length l)). intros n Hn.
      destruct (Bltb (Babs e) _) eqn:T; [apply tiny_iff in T; contradiction|].
      change (zero prec emax) with (B754_zero false : num).
      destruct (Bltb (B754_zero false) e).
      + apply (loop_iff true n v e c l). split; [exact R|lia].
      + apply (loop_iff false n v e c l). split; [exact R|lia].
  Qed.

  Lemma finish_endless i : endless i -> forall n, finish prec emax n i = UB.
  Proof.
    unfold finish, endless. destruct i as [|v [|e [|c [|d i]]]]; try contradiction.
    - intros (k & A & B) n. exact (stuck_forever true v Bone e k A B n).
    - intros [N (k & A & B)] n.
      destruct (Bltb (Babs e) _) eqn:T; [apply tiny_iff in T; contradiction|].
      change (zero prec emax) with (B754_zero false : num).
      destruct (Bltb (B754_zero false) e).
      + exact (stuck_forever true v e c k A B n).
      + exact (stuck_forever false v e c k A B n).
  Qed.

  (** ** The texts *)
  Lemma ws_ends w r : ws w -> ends r -> ends (w ++ r).
  Proof. intros W E. destruct W as [|c w H W]; [exact E|]. left. exact H. Qed.
  Lemma tail_ends {X} sep (P : X -> text -> Prop) xs u r :
    (sep = ":"%char \/ sep = ","%char) -> tail_text sep P xs u -> ends r -> ends (u ++ r).
  Proof.
    intros Hs T E. destruct T; [exact E|]. rewrite <- app_assoc. apply ws_ends; [assumption|].
    right. exact Hs.
  Qed.

  Lemma parse_real_complete x t r : spaced x t -> ends r -> parse_real prec emax lex (t ++ r) = Some (x, r).
  Proof using L.
    intros (w & n & -> & W & N) E. unfold parse_real. rewrite <- app_assoc, skip_ws by exact W.
    destruct (lex_start L _ _ N) as (c & u' & -> & Hc). simpl app. rewrite skip_nonspace by exact Hc.
    exact (lex_complete L x (c :: u') r N E).
  Qed.
  Lemma parse_real_sound t x r : parse_real prec emax lex t = Some (x, r) -> exists u, t = u ++ r /\ spaced x u.
  Proof using L.
    unfold parse_real. intros H. destruct (lex_sound L _ _ _ H) as (u & E & N).
    destruct (skip_split t) as (w & W & Ew). exists (w ++ u). split.
    - rewrite Ew, E. now rewrite app_assoc.
    - exists w, u. auto.
  Qed.

  Lemma more_reals_complete xs u : tail_text ":" spaced xs u ->
    forall fuel r, (length u <= fuel)%nat -> ends r -> parse_char ":" r = None ->
    more_reals prec emax lex fuel (u ++ r) = (xs, r).
  Proof using L.
    induction 1 as [|w x t xs u W N T IH]; intros fuel r Hf E Hr.
    - destruct fuel; [reflexivity|]. simpl. now rewrite Hr.
    - rewrite app_length in Hf. simpl in Hf. rewrite app_length in Hf.
      destruct fuel as [|fuel]; [lia|]. cbn [more_reals]. rewrite <- app_assoc. simpl app.
      rewrite parse_char_complete by (auto || reflexivity).
      rewrite <- app_assoc, (parse_real_complete x t) by
        (first [exact N|eapply tail_ends; [left; reflexivity|exact T|exact E]]).
      rewrite IH by (auto; lia). reflexivity.
  Qed.
  Lemma more_reals_sound fuel : forall t xs r, more_reals prec emax lex fuel t = (xs, r) ->
    exists u, t = u ++ r /\ tail_text ":" spaced xs u.
  Proof using L.
    induction fuel as [|fuel IH]; intros t xs r H; cbn [more_reals] in H.
    - injection H as <- <-. exists []. split; constructor.
    - destruct (parse_char ":" t) as [r1|] eqn:Ec.
      2:{ injection H as <- <-. exists []. split; constructor. }
      destruct (parse_real prec emax lex r1) as [[v r2]|] eqn:Ei.
      2:{ injection H as <- <-. exists []. split; constructor. }
      destruct (more_reals prec emax lex fuel r2) as [vs r3] eqn:Em. injection H as <- <-.
      destruct (parse_char_sound _ _ _ Ec) as (w & W & ->).
      destruct (parse_real_sound _ _ _ Ei) as (t1 & -> & N).
      destruct (IH _ _ _ Em) as (u & -> & T).
      exists (w ++ ":"%char :: t1 ++ u). split.
      + rewrite <- !app_assoc. simpl. rewrite <- app_assoc. reflexivity.
      + constructor; auto.
  Qed.

  Lemma parse_item_complete xs t r : item_txt xs t -> ends r -> parse_char ":" r = None ->
    parse_item prec emax lex (t ++ r) = Some (xs, r).
  Proof using L.
    intros [x t0 xs' u N T] E Hr. unfold parse_item. rewrite <- app_assoc.
    rewrite (parse_real_complete x t0) by
      (first [exact N|eapply tail_ends; [left; reflexivity|exact T|exact E]]).
    rewrite (more_reals_complete xs' u T) by (auto; rewrite app_length; lia). reflexivity.
  Qed.
  Lemma parse_item_sound t xs r : parse_item prec emax lex t = Some (xs, r) ->
    exists u, t = u ++ r /\ item_txt xs u.
  Proof using L.
    unfold parse_item. destruct (parse_real prec emax lex t) as [[v r1]|] eqn:Ei; [|discriminate].
    destruct (more_reals prec emax lex (length r1) r1) as [vs r2] eqn:Em. intros H. injection H as <- <-.
    destruct (parse_real_sound _ _ _ Ei) as (t1 & -> & N).
    destruct (more_reals_sound _ _ _ _ Em) as (u & -> & T).
    exists (t1 ++ u). rewrite <- app_assoc. split; [reflexivity|now constructor].
  Qed.

  Lemma tail_not_colon (P : list num -> text -> Prop) xs u w :
    tail_text "," P xs u -> ws w -> parse_char ":" (u ++ w) = None.
  Proof.
    intros T W. destruct T; [now apply ws_no_char|].
    rewrite <- app_assoc. now apply comma_not_colon.
  Qed.
  Lemma ws_ends_nil w : ws w -> ends w.
  Proof. intros W. rewrite <- (app_nil_r w). apply ws_ends; [exact W|exact I]. Qed.

  (** the items are expanded from left to right *)
  Fixpoint expand (n : nat) (items : list (list num)) : res (list num) :=
    match items with
    | [] => Ok []
    | i :: r => c <- finish prec emax n i ;; q <- expand n r ;; Ok (c ++ q)
    end.

  Lemma more_items_text items u : tail_text "," item_txt items u ->
    forall fuel n w, (length u <= fuel)%nat -> ws w ->
    more_items prec emax lex fuel n (u ++ w) = (q <- expand n items ;; Ok (q, w)).
  Proof using L.
    induction 1 as [|w0 i t items u W N T IH]; intros fuel n w Hf Ww.
    - destruct fuel; [reflexivity|]. cbn [more_items app]. rewrite ws_no_char by exact Ww. reflexivity.
    - rewrite app_length in Hf. simpl in Hf. rewrite app_length in Hf.
      destruct fuel as [|fuel]; [lia|]. cbn [more_items]. rewrite <- app_assoc. simpl app.
      rewrite parse_char_complete by (auto || reflexivity). rewrite <- app_assoc.
      rewrite (parse_item_complete i t) by
        (first [assumption|eapply tail_not_colon; eassumption
               |eapply tail_ends; [right; reflexivity|exact T|now apply ws_ends_nil]]).
      cbn [expand]. destruct (finish prec emax n i) as [c| |]; [|reflexivity|reflexivity]. cbn [bind].
      rewrite IH by (auto; lia). destruct (expand n items) as [q| |]; reflexivity.
  Qed.

  Lemma sequence_text_expand items t n : sequence_txt items t ->
    float_sequence prec emax lex n t = expand n items.
  Proof using L.
    intros (u & w & -> & LT & W). destruct LT as [i t is u N T]. unfold float_sequence.
    rewrite <- app_assoc.
    rewrite (parse_item_complete i t) by
      (first [assumption|eapply tail_not_colon; eassumption
             |eapply tail_ends; [right; reflexivity|exact T|now apply ws_ends_nil]]).
    cbn [expand]. destruct (finish prec emax n i) as [c| |]; [|reflexivity|reflexivity]. cbn [bind].
    rewrite (more_items_text is u T) by (auto; rewrite app_length; lia).
    destruct (expand n is) as [q| |]; [|reflexivity|reflexivity]. cbn [bind fst snd].
    now rewrite skip_ws_nil.
  Qed.

  Lemma more_items_sound fuel n : forall t c r, more_items prec emax lex fuel n t = Ok (c, r) ->
    exists u items ls, t = u ++ r /\ tail_text "," item_txt items u
      /\ Forall2 denotes items ls /\ c = concat ls.
  Proof using L.
    assert (Stop : forall t (c : list num) r, Ok ([], t) = Ok (c, r) -> exists u items ls, t = u ++ r
      /\ tail_text "," item_txt items u /\ Forall2 denotes items ls /\ c = concat ls).
    { intros t c r H0. injection H0 as <- <-. exists [], [], []. repeat split; constructor. }
    induction fuel as [|fuel IH]; intros t c r H; cbn [more_items] in H; [now apply Stop|].
    destruct (parse_char "," t) as [r1|] eqn:Ec; [|now apply Stop].
    destruct (parse_item prec emax lex r1) as [[i r2]|] eqn:Ei; [|now apply Stop].
    destruct (finish prec emax n i) as [l| |] eqn:Ef; try discriminate. cbn [bind] in H.
    destruct (more_items prec emax lex fuel n r2) as [[c' r']| |] eqn:Em; try discriminate.
    cbn [bind fst snd] in H. injection H as <- <-.
    destruct (IH _ _ _ Em) as (u & items & ls & -> & T & HD & ->).
    destruct (parse_char_sound _ _ _ Ec) as (w & W & ->).
    destruct (parse_item_sound _ _ _ Ei) as (u1 & -> & N).
    exists (w ++ ","%char :: u1 ++ u), (i :: items), (l :: ls).
    split; [rewrite <- !app_assoc; simpl; now rewrite <- app_assoc|].
    split; [constructor; auto|]. split; [|reflexivity].
    constructor; auto. eapply finish_sound; eauto.
  Qed.

  Lemma sequence_sound n t l : float_sequence prec emax lex n t = Ok l ->
    exists items ls, sequence_txt items t /\ Forall2 denotes items ls /\ l = concat ls.
  Proof using L.
    unfold float_sequence. destruct (parse_item prec emax lex t) as [[i r]|] eqn:Ei; [|discriminate].
    destruct (finish prec emax n i) as [li| |] eqn:Ef; try discriminate. cbn [bind].
    destruct (more_items prec emax lex (length r) n r) as [[c r']| |] eqn:Em; try discriminate. cbn [bind fst snd].
    destruct (skip r') eqn:Es; [|discriminate]. intros H. injection H as <-.
    destruct (parse_item_sound _ _ _ Ei) as (u & -> & N).
    destruct (more_items_sound _ _ _ _ _ Em) as (u' & items & ls & -> & T & HD & ->).
    exists (i :: items), (li :: ls). split; [|split; [|reflexivity]].
    - exists (u ++ u'), r'. split; [now rewrite app_assoc|].
      split; [now constructor|now apply skip_nil_ws].
    - constructor; auto. eapply finish_sound; eauto.
  Qed.

  Lemma expand_complete items ls : Forall2 denotes items ls ->
    exists n0, forall n, (n0 <= n)%nat -> expand n items = Ok (concat ls).
  Proof.
    induction 1 as [|i l items ls D _ (n0 & IH)]; [exists 0%nat; reflexivity|].
    destruct (finish_complete i l D) as (n1 & F). exists (Nat.max n0 n1). intros n Hn. cbn [expand].
    rewrite F by lia. cbn [bind]. rewrite IH by lia. reflexivity.
  Qed.

  (** the first item that does not denote a list decides *)
  Lemma expand_fails (pre : list (list num)) ls bad post : Forall2 denotes pre ls ->
    exists n0, forall n, (n0 <= n)%nat -> (forall l, finish prec emax n bad <> Ok l) ->
      expand n (pre ++ bad :: post) = (c <- finish prec emax n bad ;; Ok []).
  Proof.
    induction 1 as [|i l items ls D _ (n0 & IH)].
    - exists 0%nat. intros n _ H. cbn [app expand]. destruct (finish prec emax n bad) as [l| |]; try reflexivity.
      now destruct (H l).
    - destruct (finish_complete i l D) as (n1 & F). exists (Nat.max n0 n1). intros n Hn H. cbn [app expand].
      rewrite F by lia. cbn [bind]. rewrite IH by (lia || exact H).
      destruct (finish prec emax n bad) as [l'| |]; try reflexivity. now destruct (H l').
  Qed.

  (** ** Printing *)
  Context (show : num -> text).
  Lemma to_string_tail (l : list num) w1 w2 : ws w1 -> ws w2 -> Forall (fun x => number x (show x)) l ->
    forall x, number x (show x) ->
    let sep := w1 ++ ","%char :: w2 in
    exists u, firstn (length (concat (map (fun x => show x ++ sep) (x :: l))) - length sep)
                (concat (map (fun x => show x ++ sep) (x :: l))) = show x ++ u
      /\ forall P : list num -> text -> Prop, (forall y, number y (show y) -> P [y] (w2 ++ show y)) ->
         tail_text "," P (map (fun y => [y]) l) u.
  Proof.
    intros W1 W2 F. induction F as [|y l Hy F IH]; intros x Hx sep.
    - exists []. split; [|intros; constructor]. simpl concat. rewrite !app_nil_r, app_length.
      replace (length (show x) + length sep - length sep)%nat with (length (show x) + 0)%nat by lia.
      rewrite firstn_app_2. simpl. now rewrite app_nil_r.
    - destruct (IH y Hy) as (u & E & T). fold sep in E.
      change (concat (map (fun x => show x ++ sep) (x :: y :: l)))
        with ((show x ++ sep) ++ concat (map (fun x => show x ++ sep) (y :: l))).
      set (z := concat (map (fun x => show x ++ sep) (y :: l))) in *.
      exists (sep ++ show y ++ u). split.
      + rewrite app_length.
        assert (Hz : (length sep <= length z)%nat).
        { unfold z. simpl. rewrite !app_length. lia. }
        replace (length (show x ++ sep) + length z - length sep)%nat
          with (length (show x ++ sep) + (length z - length sep))%nat by lia.
        rewrite firstn_app_2, E, <- app_assoc. reflexivity.
      + intros P HP. cbn [map].
        replace (sep ++ show y ++ u) with (w1 ++ ","%char :: (w2 ++ show y) ++ u)
          by (unfold sep; rewrite <- !app_assoc; reflexivity).
        constructor; [exact W1|now apply HP|now apply T].
  Qed.

  Lemma to_string_text w1 w2 l : ws w1 -> ws w2 -> l <> [] -> Forall (fun x => number x (show x)) l ->
    sequence_txt (map (fun y => [y]) l) (to_string prec emax show (w1 ++ ","%char :: w2) l).
  Proof.
    intros W1 W2 N F. destruct l as [|x l]; [congruence|]. inversion F as [|? ? Hx Fl]; subst.
    assert (Sp : forall w y, ws w -> number y (show y) -> item_txt [y] (w ++ show y)).
    { intros w y W Hy. rewrite <- (app_nil_r (w ++ show y)). constructor; [|constructor].
      exists w, (show y). auto. }
    destruct (to_string_tail l w1 w2 W1 W2 Fl x Hx) as (u & E & T).
    unfold to_string. cbv zeta in *. rewrite E. exists (show x ++ u), [].
    split; [now rewrite app_nil_r|]. split; [|constructor]. cbn [map]. constructor.
    - apply (Sp [] x); [constructor|exact Hx].
    - apply T. intros y Hy. now apply Sp.
  Qed.

  Lemma expand_single n l : expand n (map (fun y => [y]) l) = Ok l.
  Proof. induction l as [|x l IH]; [reflexivity|]. cbn [map expand finish bind]. now rewrite IH. Qed.
End Text.
