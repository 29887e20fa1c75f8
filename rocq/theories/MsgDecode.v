(** What decoding a message can lead to, for all messages. *)
From Coq Require Import String Ascii ZArith Sorted.
From Verif Require Import Base IndexSequenceModel ChannelListModel OrdSet ObjectVectorModel ObjectVectorProps MsgModel MsgSpec MsgProofs MsgRound.
Local Open Scope Z_scope.
Local Open Scope res_scope.

(** ** Texts *)
Lemma label_chars_len l : (length (snd (label_chars l)) + length (fst (label_chars l)) <= length l)%nat
  /\ Forall label_letter (fst (label_chars l)).
Proof.
  induction l as [|c r IH]; [split; [cbn; lia|constructor]|]. cbn [label_chars]. destruct (is_space c).
  - destruct IH. split; [cbn [length]; lia|assumption].
  - destruct (label_char c) eqn:Q; [|split; [cbn; lia|constructor]].
    destruct (label_chars r) as [a b]. cbn [fst snd length] in *. destruct IH. split; [lia|].
    constructor; [now apply letter_cases|assumption].
Qed.
Lemma parse_label_len l a r : parse_label l = Some (a, r) -> (length r < length l)%nat /\ label a.
Proof.
  unfold parse_label. assert (H := label_chars_len l). destruct (label_chars l) as [[|c x] y]; [discriminate|].
  intros Q. injection Q as <- <-. cbn [fst snd length] in H. destruct H as [H1 H2]. split; [lia|]. now split.
Qed.
Lemma parse_char_len c l r : parse_char c l = Some r -> (length r < length l)%nat.
Proof.
  unfold parse_char. assert (H := skip_length l). destruct (skip l) as [|d x]; [discriminate|].
  destruct (Ascii.eqb d c); [|discriminate]. intros Q. injection Q as <-. cbn [length] in H. lia.
Qed.
Lemma more_labels_total fuel : forall l, (length l < fuel)%nat ->
  exists a r, more_labels fuel l = Ok (a, r) /\ (length r <= length l)%nat /\ Forall label a.
Proof.
  induction fuel as [|f IH]; intros l H; [lia|]. cbn [more_labels].
  destruct (parse_char "," l) as [r|] eqn:P; [|exists [], l; repeat split; auto].
  apply parse_char_len in P. destruct (parse_label r) as [[a r']|] eqn:Q; [|exists [], l; repeat split; auto].
  apply parse_label_len in Q as [Q1 Q2]. destruct (IH r' ltac:(lia)) as (x & y & -> & A & B).
  cbn [bind fst snd]. exists (a :: x), y. repeat split; [lia|]. now constructor.
Qed.
Lemma parse_output_total l : exists o, parse_output l = Ok o
  /\ forall a r, o = Some (a, r) -> (length r < length l)%nat /\ Forall label a.
Proof.
  unfold parse_output. destruct (parse_label l) as [[a r]|] eqn:P.
  - apply parse_label_len in P as [P1 P2]. eexists. split; [reflexivity|]. intros a' r' Q. injection Q as <- <-. auto.
  - destruct (parse_char "[" l) as [r|] eqn:Q; [|eexists; split; [reflexivity|discriminate]].
    apply parse_char_len in Q.
    assert (G : exists a r', match parse_label r with
               | None => Ok ([], r)
               | Some (a, r') => p <- more_labels (S (length r')) r' ;; Ok (a :: fst p, snd p)
               end = Ok (a, r') /\ (length r' <= length r)%nat /\ Forall label a).
    { destruct (parse_label r) as [[a r']|] eqn:R; [|exists [], r; repeat split; auto].
      apply parse_label_len in R as [R1 R2].
      destruct (more_labels_total (S (length r')) r' ltac:(lia)) as (x & y & -> & A & B). cbn [bind fst snd].
      exists (a :: x), y. repeat split; [lia|]. now constructor. }
    destruct G as (a & r' & -> & A & B). cbn [bind fst snd].
    destruct (parse_char "]" r') as [r2|] eqn:S'; [|eexists; split; [reflexivity|discriminate]].
    apply parse_char_len in S'. eexists. split; [reflexivity|]. intros a' r3 Q'. injection Q' as <- <-. split; [lia|exact B].
Qed.
Lemma more_outputs_total fuel : forall l, (length l < fuel)%nat ->
  exists a r, more_outputs fuel l = Ok (a, r) /\ Forall (Forall label) a.
Proof.
  induction fuel as [|f IH]; intros l H; [lia|]. cbn [more_outputs].
  destruct (parse_char "," l) as [r|] eqn:P; [|exists [], l; auto].
  apply parse_char_len in P. destruct (parse_output_total r) as (o & -> & Ho). cbn [bind].
  destruct o as [[a r']|]; [|exists [], l; auto].
  destruct (Ho a r' eq_refl) as [Q1 Q2]. destruct (IH r' ltac:(lia)) as (x & y & -> & B).
  cbn [bind fst snd]. exists (a :: x), y. split; [reflexivity|]. now constructor.
Qed.
Lemma parse_outputs_total l : (exists a, parse_outputs l = Ok a /\ Forall (Forall label) a) \/ parse_outputs l = Throw InvalidArgument.
Proof.
  unfold parse_outputs. destruct (parse_output_total l) as (o & -> & Ho). cbn [bind].
  assert (G : exists a r, match o with
       | None => Ok ([], l)
       | Some (a, r) => p <- more_outputs (S (length r)) r ;; Ok (a :: fst p, snd p)
       end = Ok (a, r) /\ Forall (Forall label) a).
  { destruct o as [[a r]|]; [|exists [], l; auto]. destruct (Ho a r eq_refl) as [_ Q].
    destruct (more_outputs_total (S (length r)) r ltac:(lia)) as (x & y & -> & B). cbn [bind fst snd].
    exists (a :: x), y. split; [reflexivity|]. now constructor. }
  destruct G as (a & r & -> & B). cbn [bind fst snd]. destruct (skip r); [|now right]. left. eauto.
Qed.
Lemma read_unsigned_range s v : read_unsigned s = Some v -> 0 <= v <= UINT_MAX.
Proof.
  unfold read_unsigned. destruct (parse_sign (skip s)) as [neg l2].
  assert (D : Forall (fun c => is_digit c = true) (fst (span_digits l2))).
  { induction l2 as [|c r IH]; [constructor|]. cbn. destruct (is_digit c) eqn:Q; [|constructor].
    destruct (span_digits r). cbn [fst] in *. now constructor. }
  destruct (span_digits l2) as [ds rest]. cbn [fst] in D.
  destruct ds as [|d ds]; [discriminate|]. destruct (skip rest); [|discriminate].
  destruct (Z.leb_spec (digits_value (d :: ds)) UINT_MAX) as [Le|]; [|discriminate]. intros H. injection H as <-.
  destruct neg; cbn iota.
  - assert (M := Z.mod_pos_bound (- digits_value (d :: ds)) 4294967296 eq_refl). change UINT_MAX with 4294967295. change (UINT_MAX + 1) with 4294967296. lia.
  - split; [|exact Le]. unfold digits_value.
    assert (G : forall l a, 0 <= a -> Forall (fun c => is_digit c = true) l -> 0 <= fold_left (fun a d => 10 * a + digit_value d) l a).
    { induction l as [|c l IH]; intros a Ha Hl; [exact Ha|]. inversion Hl as [|? ? Hc Hl']; subst. cbn [fold_left]. apply IH; [|exact Hl'].
      unfold is_digit in Hc. apply andb_prop in Hc as [Hc _]. apply Nat.leb_le in Hc. unfold digit_value. lia. }
    apply G; [lia|exact D].
Qed.

Section Decode.
  Context (E : floats).

  Lemma bind_ok {A B} (m : res A) (k : A -> res B) y : bind m k = Ok y -> exists x, m = Ok x /\ k x = Ok y.
  Proof. destruct m; try discriminate. cbn. eauto. Qed.
  Lemma try_ok {A} (m : res A) y : try_ m = Ok y -> m = Ok y.
  Proof. destruct m; auto; discriminate. Qed.
  Ltac step H := match type of H with
    | bind _ _ = Ok _ => let x := fresh "x" in let Hx := fresh "Hx" in apply bind_ok in H as (x & Hx & H)
    | try_ _ = Ok _ => apply try_ok in H
    end.
  Lemma get_unsigned_range p t v : get_unsigned p t = Ok v -> 0 <= v <= UINT_MAX.
  Proof.
    unfold get_unsigned. intros H. step H. destruct (read_unsigned x) eqn:Q; [|discriminate]. apply Ok_inj in H. subst.
    now apply read_unsigned_range in Q.
  Qed.
  Lemma common_consistent t b b' : parse_common E t b = Ok b' ->
    0 <= o_group b' <= UINT_MAX /\ 0 <= o_priority b' <= 255.
  Proof.
    unfold parse_common. intros H. repeat step H. apply Ok_inj in H. subst b'. cbn [o_group o_priority].
    split; [now apply get_unsigned_range in Hx0|]. unfold get_byte in Hx2. step Hx2. apply get_unsigned_range in Hx4.
    destruct (Z.leb_spec x4 255); [|discriminate]. apply Ok_inj in Hx2. subst. lia.
  Qed.
  Lemma point_consistent t b b' p : parse_point E t b = Ok (b', p) -> 0 <= o_group b' <= UINT_MAX /\ 0 <= o_priority b' <= 255.
  Proof.
    unfold parse_point. intros H. step H. apply common_consistent in Hx. step H. step H. step H. destruct x1 as [[X Y] Z0].
    apply Ok_inj in H. injection H as <- _. exact Hx.
  Qed.
  Lemma nine_length k t l : get_nine E k t = Ok l -> length l = 9%nat.
  Proof.
    unfold get_nine. intros H. repeat step H. destruct (Nat.eqb_spec (length x0) nine); [|discriminate].
    apply Ok_inj in H. now subst.
  Qed.
  Lemma reflections_ten l : forall rs, parse_reflections E l = Ok rs -> Forall (fun r => length (r_filters r) = 10%nat) rs.
  Proof.
    induction l as [|t l IH]; intros rs H; [apply Ok_inj in H; subst; constructor|]. cbn [parse_reflections] in H.
    repeat step H. apply Ok_inj in H. subst rs. constructor; [|now apply IH].
    clear - Hx. unfold parse_reflection in Hx. step Hx. step Hx. destruct x1 as [[X Y] Z0]. repeat step Hx. apply Ok_inj in Hx. subst x. cbn [r_filters].
    unfold pad_filters in Hx6. destruct (Nat.ltb_spec ten (length x4)); [discriminate|]. apply Ok_inj in Hx6. subst.
    rewrite app_length, repeat_length. unfold ten in *. lia.
  Qed.
  Lemma parse_consistent ty p t b b' : parse_as E ty = Ok p -> p t b = Ok b' ->
    load_type (o_load b') = ty /\ body_consistent E b'.
  Proof.
    intros P H. destruct ty; try discriminate; apply Ok_inj in P; subst p; cbn beta in H.
    - step H. destruct x as [b1 p]. apply Ok_inj in H. subst b'. apply point_consistent in Hx. split; [reflexivity|]. unfold body_consistent. cbn. tauto.
    - unfold parse_extent in H. step H. step H. destruct x as [[b1 p] d]. repeat step H. apply Ok_inj in H. subst b'.
      unfold parse_point_diffuse in Hx. step Hx. step Hx. destruct x1 as [b2 p2]. step Hx. apply Ok_inj in Hx. injection Hx as -> -> ->.
      apply point_consistent in Hx2. split; [reflexivity|]. unfold body_consistent. cbn. tauto.
    - unfold parse_plane in H. repeat step H. apply Ok_inj in H. subst b'. apply common_consistent in Hx. split; [reflexivity|].
      unfold body_consistent. cbn. tauto.
    - unfold parse_diffuse in H. repeat step H. apply Ok_inj in H. subst b'. apply common_consistent in Hx. split; [reflexivity|].
      unfold body_consistent. cbn. tauto.
    - step H. destruct x as [[b1 p] d]. apply Ok_inj in H. subst b'.
      unfold parse_point_diffuse in Hx. step Hx. step Hx. destruct x as [b2 p2]. step Hx. apply Ok_inj in Hx. injection Hx as -> -> ->.
      apply point_consistent in Hx0. split; [reflexivity|]. unfold body_consistent. cbn. tauto.
    - unfold parse_hoa in H. repeat step H. apply common_consistent in Hx. cbv zeta in H.
      destruct (Z.eqb_spec ((((x0 + 1) mod (UINT_MAX + 1)) * ((x0 + 1) mod (UINT_MAX + 1))) mod (UINT_MAX + 1)) (Z.of_nat (length (o_channels x)))) as [Q|]; [|discriminate].
      apply Ok_inj in H. subst b'. split; [reflexivity|]. unfold body_consistent. cbn [o_group o_priority o_load o_channels with_load load_consistent].
      split; [tauto|]. split; [tauto|]. apply get_unsigned_range in Hx0. split; [exact Hx0|].
      rewrite <- Q, <- Z.mul_mod by (unfold UINT_MAX; lia). change (2 ^ 32) with (UINT_MAX + 1).
      exists ((x0 + 1) * (x0 + 1) / (UINT_MAX + 1)).
      assert (D := Z.div_mod ((x0 + 1) * (x0 + 1)) (UINT_MAX + 1) ltac:(unfold UINT_MAX; lia)). lia.
    - unfold parse_channel in H. repeat step H. destruct (Nat.eqb_spec (length x1) (length (o_channels x))); [|discriminate].
      apply Ok_inj in H. subst b'. apply common_consistent in Hx. split; [reflexivity|].
      unfold body_consistent. cbn [o_group o_priority o_load o_channels with_load load_consistent].
      split; [tauto|]. split; [tauto|]. split; [assumption|].
      destruct (parse_outputs_total x0) as [(a & Q & F)|Q]; rewrite Q in Hx1; [|discriminate]. apply Ok_inj in Hx1. now subst.
    - unfold parse_reverb in H. step H. step H. destruct x as [b1 p].
      destruct (negb (Nat.eqb (t_count "room" t) 1)); [discriminate|]. step H. step H.
      destruct (negb (Nat.eqb (t_count "lreverb" x) 1)); [discriminate|]. repeat step H. apply Ok_inj in H. subst b'.
      apply point_consistent in Hx. split; [reflexivity|].
      unfold body_consistent. cbn [o_group o_priority o_load o_channels with_load load_consistent l_levels l_attack l_decay].
      split; [tauto|]. split; [tauto|]. split; [|now repeat split; eapply nine_length; eauto].
      destruct (Nat.eqb (t_count "ereflect" x) 0); [apply Ok_inj in Hx1; subst; constructor|]. step Hx1. now apply reflections_ten in Hx1.
  Qed.
  Lemma insert_all (P : obj E -> Prop) (v : list (obj E)) o : Forall P v -> P o -> Forall P (v_insert v o).
  Proof.
    intros H Ho. rewrite Forall_forall in *. intros x Hx. unfold v_insert in Hx.
    apply insert_in in Hx as [->|Hx]; [exact Ho|]. apply H. destruct (v_find (o_id o) v) as [o'|]; [|exact Hx].
    clear - Hx. induction v as [|a v IH]; [exact Hx|]. cbn in Hx. destruct (equiv o_less o' a); [right; exact Hx|].
    destruct Hx as [->|Hx]; [now left|right; auto].
  Qed.
  Lemma each_consistent ns : forall v : list (obj E), Forall (object_consistent E) v ->
    Forall (object_consistent E) (fst (update_each type_eqb type_of_name (create E) (parse_as E) v ns)).
  Proof.
    induction ns as [|n ns IH]; intros v H; [exact H|]. cbn [update_each].
    destruct (parse_object type_eqb type_of_name (create E) (parse_as E) v n) as [v'|e|] eqn:Q; [|exact H|exact H].
    apply IH. unfold parse_object in Q. repeat step Q. apply Ok_inj in Q. subst v'.
    apply insert_all; [exact H|]. destruct (parse_consistent _ _ _ _ _ Hx2 Hx4). now split.
  Qed.
  Lemma update_consistent v s : Forall (object_consistent E) v -> Forall (object_consistent E) (fst (update E v s)).
  Proof.
    intros H. unfold update, v_update. destruct (message_of E s) as [[ns|]|e|]; cbn [fst]; auto. now apply each_consistent.
  Qed.
  Lemma fill_consistent v s : Forall (object_consistent E) v -> Forall (object_consistent E) (fst (fill E v s)).
  Proof.
    intros H. unfold fill, v_fill. assert (U := update_consistent [] s ltac:(constructor)). unfold update, obj, vec in *.
    destruct (v_update type_eqb type_of_name (create E) (parse_as E) [] (message_of E s)) as [v' [u|e|]]; cbn [fst] in *; auto.
  Qed.

  (** ** The previous content of the object *)
  Lemma common_forgets t a b : o_channels a = o_channels b \/ (exists l, (s <- get_text ["channels"%string] t ;; index_sequence s) = Ok l) ->
    forall p, bind (parse_common E t a) (fun x => Ok (with_load x p)) = bind (parse_common E t b) (fun x => Ok (with_load x p)).
  Proof.
    intros H p. unfold parse_common.
    assert (Q : parse_channels t (o_channels a) = parse_channels t (o_channels b)).
    { unfold parse_channels. destruct H as [->|(l & ->)]; reflexivity. }
    rewrite Q. destruct (parse_channels t (o_channels b)); try reflexivity. cbn [bind].
    destruct (get_unsigned ["group"%string] t); try reflexivity. cbn [bind].
    destruct (get_float E ["level"%string] t); try reflexivity. cbn [bind].
    destruct (get_byte ["priority"%string] t); try reflexivity. cbn [bind].
    destruct (match kid "eq" (t_kids t) with Some c => load_eqs E (t_kids c) | None => Ok [] end); reflexivity.
  Qed.
  Definition same_but_load (m n : res (body E)) : Prop :=
    match m, n with
    | Ok a, Ok b => forall p, with_load a p = with_load b p
    | Throw e, Throw e' => e = e'
    | UB, UB => True
    | _, _ => False
    end.
  Lemma common_same t a b : o_channels a = o_channels b \/ (exists l, (s <- get_text ["channels"%string] t ;; index_sequence s) = Ok l) ->
    same_but_load (parse_common E t a) (parse_common E t b).
  Proof.
    intros H. assert (F := common_forgets t a b H). unfold same_but_load.
    destruct (parse_common E t a) as [x|e|], (parse_common E t b) as [y|e'|]; cbn [bind] in F;
      try (specialize (F Diffuse); discriminate); auto.
    - intros p. specialize (F p). now apply Ok_inj in F.
    - specialize (F Diffuse). congruence.
  Qed.
  Lemma point_same t a b : o_channels a = o_channels b \/ (exists l, (s <- get_text ["channels"%string] t ;; index_sequence s) = Ok l) ->
    match parse_point E t a, parse_point E t b with
    | Ok (x, p), Ok (y, q) => (forall l, with_load x l = with_load y l) /\ p = q
    | Throw e, Throw e' => e = e'
    | UB, UB => True
    | _, _ => False
    end.
  Proof.
    intros H. assert (F := common_same t a b H). unfold parse_point, same_but_load in *.
    destruct (parse_common E t a) as [x|e|], (parse_common E t b) as [y|e'|]; try contradiction; cbn [bind]; auto.
    destruct (child ["position"%string] t); cbn [bind try_]; auto.
    destruct (parse_position E a0) as [[[X Y] Z0]|e|]; cbn [bind try_]; auto.
  Qed.
  Lemma load_channels (x y : body E) : (forall l, with_load x l = with_load y l) -> o_channels x = o_channels y.
  Proof. intros H. exact (f_equal o_channels (H Diffuse)). Qed.
  Lemma parse_forgets ty p t a b : parse_as E ty = Ok p ->
    o_channels a = o_channels b \/ (exists l, (s <- get_text ["channels"%string] t ;; index_sequence s) = Ok l) ->
    p t a = p t b.
  Proof.
    intros P H. assert (F := common_same t a b H). assert (G := point_same t a b H). unfold same_but_load in F.
    destruct ty; try discriminate; apply Ok_inj in P; subst p; cbn beta;
      unfold parse_extent, parse_point_diffuse, parse_plane, parse_diffuse, parse_hoa, parse_channel, parse_reverb.
    - destruct (parse_point E t a) as [[x p]|e|], (parse_point E t b) as [[y q]|e'|]; try contradiction; cbn [bind]; auto; [|congruence].
      destruct G as [G ->]. now rewrite G.
    - destruct (parse_point E t a) as [[x p]|e|], (parse_point E t b) as [[y q]|e'|]; try contradiction; cbn [bind]; auto; [|congruence].
      destruct G as [G ->]. destruct (get_float E ["diffuseness"%string] t); cbn [bind try_]; auto.
      destruct (get_float E ["width"%string] t); cbn [bind try_]; auto.
      destruct (get_float E ["height"%string] t); cbn [bind try_]; auto. now rewrite G.
    - destruct (parse_common E t a) as [x|e|], (parse_common E t b) as [y|e'|]; try contradiction; cbn [bind]; auto; [|congruence].
      destruct (get_float E ["direction"; "az"]%string t); cbn [bind try_]; auto.
      destruct (get_float E ["direction"; "el"]%string t); cbn [bind try_]; auto.
      destruct (get_float E ["direction"; "refdist"]%string t); cbn [bind try_]; auto. now rewrite F.
    - destruct (parse_common E t a) as [x|e|], (parse_common E t b) as [y|e'|]; try contradiction; cbn [bind]; auto; [|congruence].
      cbn [try_]. now rewrite F.
    - destruct (parse_point E t a) as [[x p]|e|], (parse_point E t b) as [[y q]|e'|]; try contradiction; cbn [bind]; auto; [|congruence].
      destruct G as [G ->]. destruct (get_float E ["diffuseness"%string] t); cbn [bind try_]; auto. now rewrite G.
    - destruct (parse_common E t a) as [x|e|], (parse_common E t b) as [y|e'|]; try contradiction; cbn [bind]; auto; [|congruence].
      destruct (get_unsigned ["order"%string] t); cbn [bind try_]; auto. rewrite (load_channels x y F).
      destruct (_ =? _); [|reflexivity]. now rewrite F.
    - destruct (parse_common E t a) as [x|e|], (parse_common E t b) as [y|e'|]; try contradiction; cbn [bind]; auto; [|congruence].
      destruct (get_text ["outputChannels"%string] t); cbn [bind try_]; auto.
      destruct (parse_outputs a0); cbn [bind try_]; auto. rewrite (load_channels x y F).
      destruct (Nat.eqb _ _); [|reflexivity]. now rewrite F.
    - destruct (parse_point E t a) as [[x p]|e|], (parse_point E t b) as [[y q]|e'|]; try contradiction; cbn [bind]; auto; [|congruence].
      destruct G as [G ->]. destruct (negb _); [reflexivity|]. f_equal.
      destruct (child ["room"%string] t) as [room|e|]; cbn [bind]; auto.
      destruct (if Nat.eqb (t_count "ereflect" room) 0 then Ok [] else er <- child ["ereflect"%string] room;; parse_reflections E (kids_named "" er)); cbn [bind]; auto.
      destruct (negb _); [reflexivity|].
      destruct (child ["lreverb"%string] room); cbn [bind]; auto.
      destruct (get_float E ["delay"%string] a1); cbn [bind]; auto.
      destruct (get_nine E "level" a1); cbn [bind]; auto.
      destruct (get_nine E "attacktime" a1); cbn [bind]; auto.
      destruct (get_nine E "decayconst" a1); cbn [bind]; auto. now rewrite G.
  Qed.

  (** ** Errors *)
  Definition tame (t : tree) {A} (m : res A) : Prop :=
    match m with
    | Ok _ => True
    | Throw CharPointer => sequence_fails E t (fun A => Throw CharPointer)
    | Throw _ => True
    | UB => sequence_fails E t (fun A => UB)
    end.
  Lemma tame_bind {A B} t (m : res A) (k : A -> res B) : tame t m -> (forall x, m = Ok x -> tame t (k x)) -> tame t (bind m k).
  Proof. destruct m as [x|[]|]; cbn; auto. Qed.
  Lemma tame_try {A} t (m : res A) : tame t m -> tame t (try_ m).
  Proof. destruct m as [x|[]|]; cbn; auto. Qed.
  Lemma datum_kids t k c d : In (k, c) (t_kids t) -> datum c d -> datum t d.
  Proof. destruct t. cbn. intros. econstructor; eauto. Qed.
  Lemma tame_kid {A} t k c (m : res A) : In (k, c) (t_kids t) -> tame c m -> tame t m.
  Proof.
    intros H. destruct m as [x|[]|]; cbn; auto; intros (d & D & R); exists d; split; auto; eapply datum_kids; eauto.
  Qed.
  Lemma kid_in k l c : kid k l = Some c -> exists k', In (k', c) l.
  Proof.
    induction l as [|[a x] l IH]; [discriminate|]. cbn. destruct (String.eqb k a).
    - intros H. injection H as ->. eauto.
    - intros H. destruct (IH H) as (k' & Hk). eauto.
  Qed.
  Lemma child_kid t k c : child [k] t = Ok c -> exists k', In (k', c) (t_kids t).
  Proof.
    unfold child, child_opt. destruct (kid k (t_kids t)) eqn:Q; [|discriminate]. intros H. apply Ok_inj in H. subst. eapply kid_in; eauto.
  Qed.
  Lemma text_datum t k s : get_text [k] t = Ok s -> datum t s.
  Proof.
    unfold get_text. intros H. step H. apply Ok_inj in H. subst s. apply child_kid in Hx as (k' & Hk).
    eapply datum_kids; [exact Hk|]. destruct x. constructor.
  Qed.
  Lemma tame_child t p : tame t (child p t). Proof. unfold child. destruct (child_opt p t); exact I. Qed.
  Lemma tame_child' {u} t p : tame u (child p t). Proof. unfold child. destruct (child_opt p t); exact I. Qed.
  Lemma tame_text u t p : tame u (get_text p t).
  Proof. apply tame_bind; [apply tame_child'|intros; exact I]. Qed.
  Lemma tame_float u t p : tame u (get_float E p t).
  Proof. unfold get_float. destruct (opt_float E p t); exact I. Qed.
  Lemma tame_unsigned u t p : tame u (get_unsigned p t).
  Proof. apply tame_bind; [apply tame_text|]. intros s _. destruct (read_unsigned s); exact I. Qed.
  Lemma tame_eqs u l : tame u (load_eqs E l).
  Proof.
    induction l as [|[k t] l IH]; [exact I|]. cbn [load_eqs]. apply tame_bind.
    - unfold load_eq. apply tame_bind; [apply tame_text|intros]. apply tame_bind; [apply tame_float|intros].
      apply tame_bind; [apply tame_float|intros]. apply tame_bind; [|intros; exact I].
      unfold eq_of_name. destruct (find _ _); exact I.
    - intros. apply tame_bind; [exact IH|intros; exact I].
  Qed.
  Lemma tame_biquads u l : tame u (load_biquads E l).
  Proof.
    induction l as [|t l IH]; [exact I|]. cbn [load_biquads]. apply tame_bind.
    - unfold load_biquad. cbv zeta. do 5 (apply tame_bind; [apply tame_float|intros]). exact I.
    - intros. apply tame_bind; [exact IH|intros; exact I].
  Qed.
  Lemma tame_position u t : tame u (parse_position E t).
  Proof.
    unfold parse_position. cbv zeta. destruct (negb _); [exact I|]. destruct (_ && _); [exact I|].
    destruct (_ || _ || _).
    - destruct (opt_float E ["x"%string] t), (opt_float E ["y"%string] t); exact I.
    - destruct (opt_float E ["az"%string] t), (opt_float E ["el"%string] t); exact I.
  Qed.
  Lemma tame_common t b : tame t (parse_common E t b).
  Proof.
    unfold parse_common. apply tame_bind.
    - unfold parse_channels. destruct (get_text ["channels"%string] t) as [s|e|] eqn:Q; cbn [bind].
      + apply text_datum in Q. destruct (index_sequence s) as [l|[]|] eqn:R; try exact I; exists s; split; auto.
      + unfold get_text, child in Q. destruct (child_opt ["channels"%string] t); [discriminate|]. cbn [bind] in Q. injection Q as <-. exact I.
      + unfold get_text, child in Q. destruct (child_opt ["channels"%string] t); discriminate.
    - intros. apply tame_bind; [apply tame_unsigned|intros]. apply tame_bind; [apply tame_float|intros].
      apply tame_bind; [|intros].
      + unfold get_byte. apply tame_bind; [apply tame_unsigned|]. intros v _. destruct (v <=? 255); exact I.
      + apply tame_bind; [|intros; exact I]. destruct (kid "eq" (t_kids t)); [apply tame_eqs|exact I].
  Qed.
  Lemma tame_point t b : tame t (parse_point E t b).
  Proof.
    unfold parse_point. apply tame_bind; [apply tame_common|intros]. apply tame_try.
    apply tame_bind; [apply tame_child|intros]. apply tame_bind; [apply tame_position|]. intros [[X Y] Z0] _. exact I.
  Qed.
  Lemma tame_reflections u l : tame u (parse_reflections E l).
  Proof.
    induction l as [|t l IH]; [exact I|]. cbn [parse_reflections]. apply tame_bind.
    - unfold parse_reflection. apply tame_bind; [apply tame_child'|intros]. apply tame_bind; [apply tame_position|].
      intros [[X Y] Z0] _. do 2 (apply tame_bind; [apply tame_float|intros]). apply tame_bind; [apply tame_child'|intros].
      apply tame_bind; [apply tame_biquads|intros]. apply tame_bind; [|intros; exact I].
      unfold pad_filters. destruct (Nat.ltb _ _); exact I.
    - intros. apply tame_bind; [exact IH|intros; exact I].
  Qed.
  Lemma tame_nine t k : tame t (get_nine E k t).
  Proof.
    unfold get_nine. apply tame_bind; [apply tame_text|]. intros s Q. apply text_datum in Q. apply tame_bind.
    - destruct (fseq E s) as [l|[]|] eqn:R; try exact I; exists s; split; auto.
    - intros. destruct (Nat.eqb _ _); exact I.
  Qed.
  Lemma tame_point_diffuse t b : tame t (parse_point_diffuse E t b).
  Proof.
    apply tame_try, tame_bind; [apply tame_point|]. intros [x p] _. apply tame_bind; [apply tame_float|intros]. exact I.
  Qed.
  Lemma tame_parse ty p t b : parse_as E ty = Ok p -> tame t (p t b).
  Proof.
    intros P. destruct ty; try discriminate; apply Ok_inj in P; subst p; cbn beta;
      unfold parse_extent, parse_plane, parse_diffuse, parse_hoa, parse_channel, parse_reverb.
    - apply tame_bind; [apply tame_point|]. intros [x p] _. exact I.
    - apply tame_try, tame_bind; [apply tame_point_diffuse|]. intros [[x p] d] _.
      do 2 (apply tame_bind; [apply tame_float|intros]). exact I.
    - apply tame_bind; [apply tame_common|intros]. apply tame_try. do 3 (apply tame_bind; [apply tame_float|intros]). exact I.
    - apply tame_try, tame_bind; [apply tame_common|intros]. exact I.
    - apply tame_bind; [apply tame_point_diffuse|]. intros [[x p] d] _. exact I.
    - apply tame_bind; [apply tame_common|intros]. apply tame_try. apply tame_bind; [apply tame_unsigned|intros]. destruct (_ =? _); exact I.
    - apply tame_try, tame_bind; [apply tame_common|intros]. apply tame_bind; [apply tame_text|]. intros s _.
      apply tame_bind; [destruct (parse_outputs_total s) as [(a & -> & _)| ->]; exact I|intros]. destruct (Nat.eqb _ _); exact I.
    - apply tame_try, tame_bind; [apply tame_point|]. intros [x p] _. destruct (negb _); [exact I|].
      apply tame_bind; [apply tame_child|]. intros room R. apply tame_bind.
      + destruct (Nat.eqb _ _); [exact I|]. apply tame_bind; [apply tame_child'|intros]. apply tame_reflections.
      + intros. destruct (negb _); [exact I|]. apply tame_bind; [apply tame_child'|]. intros lt Hl.
        apply child_kid in R as (k1 & R). apply child_kid in Hl as (k2 & Hl).
        eapply tame_kid; [exact R|]. eapply tame_kid; [exact Hl|].
        apply tame_bind; [apply tame_float|intros]. do 3 (apply tame_bind; [apply tame_nine|intros]). exact I.
  Qed.
  Lemma tame_object v t : tame t (parse_object type_eqb type_of_name (create E) (parse_as E) v (node_of t)).
  Proof.
    assert (C : forall ty, tame t (create E ty)) by (intros []; exact I).
    unfold parse_object. apply tame_bind.
    { unfold node_of. cbn [n_type]. destruct (get_text ["type"%string] t); exact I. }
    intros. apply tame_bind.
    { unfold node_of. cbn [n_id]. destruct (get_unsigned ["id"%string] t); exact I. }
    intros id _. apply tame_bind.
    { unfold type_of_name. destruct (find _ _); exact I. }
    intros ty _. apply tame_bind; [destruct ty; exact I|]. intros p P. apply tame_bind.
    { destruct (v_find id v) as [o|]; [|apply C]. destruct (type_eqb (o_type o) ty); [exact I|apply C]. }
    intros. apply tame_bind; [|intros; exact I]. cbn [n_tree node_of]. eapply tame_parse; eauto.
  Qed.
  (** the result of updating, in terms of the tree of the message *)
  Lemma tame_each u (ks : list (string * tree)) : (forall k t, In (k, t) ks -> exists k', In (k', t) (t_kids u)) -> forall v : list (obj E),
    let r := snd (update_each type_eqb type_of_name (create E) (parse_as E) v (map (fun p => node_of (snd p)) ks)) in
    tame u r /\ forall e, r = Throw e -> e = InvalidArgument \/ e = CharPointer.
  Proof.
    induction ks as [|[k t] ks IH]; intros H v; [split; [exact I|discriminate]|]. cbn [map update_each snd].
    assert (T := tame_object v t). destruct (H k t (or_introl eq_refl)) as (k' & Hk).
    destruct (parse_object type_eqb type_of_name (create E) (parse_as E) v (node_of t)) as [v'|e|].
    - apply IH. intros k0 t0 H0. apply (H k0 t0). now right.
    - cbn [snd]. split.
      + eapply tame_kid; [exact Hk|]. destruct e; exact T.
      + intros e0 Q. injection Q as <-. destruct e; auto.
    - cbn [snd]. split; [eapply tame_kid; [exact Hk|]; exact T|discriminate].
  Qed.
End Decode.
