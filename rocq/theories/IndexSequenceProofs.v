From Verif Require Import Base IndexSequenceModel.
Local Open Scope Z_scope.

(** ** Specification *)

(** Grammar, independent of the parser. *)
Definition ws (w : text) : Prop := Forall (fun c => is_space c = true) w.

Definition sign_text (neg : bool) (t : text) : Prop :=
  if neg then t = ["-"%char] else t = [] \/ t = ["+"%char].

(** A number: sign and decimal digits, representable as int. *)
Definition num_text (z : Z) (t : text) : Prop :=
  exists neg s ds, t = s ++ ds /\ sign_text neg s
    /\ ds <> [] /\ Forall (fun c => is_digit c = true) ds
    /\ z = (if neg then - digits_value ds else digits_value ds)
    /\ INT_MIN <= z <= INT_MAX.

Definition spaced_num (z : Z) (t : text) : Prop :=
  exists w n, t = w ++ n /\ ws w /\ num_text z n.

(** Elements separated by [sep], whitespace allowed before the separator. *)
Inductive tail_text {X} (sep : ascii) (P : X -> text -> Prop) : list X -> text -> Prop :=
| tail_nil : tail_text sep P [] []
| tail_cons w x t xs u : ws w -> P x t -> tail_text sep P xs u ->
    tail_text sep P (x :: xs) (w ++ sep :: t ++ u).

Inductive list_text {X} (sep : ascii) (P : X -> text -> Prop) : list X -> text -> Prop :=
| list_text_intro x t xs u : P x t -> tail_text sep P xs u ->
    list_text sep P (x :: xs) (t ++ u).

Definition item_text : list Z -> text -> Prop := list_text ":" spaced_num.

(** The whole string: items separated by commas, or nothing. *)
Definition sequence_text (items : list (list Z)) (t : text) : Prop :=
  (items = [] /\ ws t)
  \/ exists u w, t = u ++ w /\ list_text "," item_text items u /\ ws w.

(** Meaning of an item. *)
Definition progression (a s b : Z) (l : list Z) : Prop :=
  exists n, l = map (fun k => a + Z.of_nat k * s) (seq 0 n)
    /\ forall k, (k < n)%nat <-> (if 0 <? s then a + Z.of_nat k * s <= b
                                  else b <= a + Z.of_nat k * s).

Definition denotes (item l : list Z) : Prop :=
  match item with
  | [v] => 0 <= v /\ l = [v]
  | [a; b] => 0 <= a /\ 0 <= b /\ progression a 1 b l
  | [a; s; b] => 0 <= a /\ 0 <= b /\ s <> 0 /\ progression a s b l
  | _ => False
  end.

(** The step past the end of a three-part item stays representable. *)
Definition no_overflow (item : list Z) : Prop :=
  match item with [a; s; b] => b + s <= INT_MAX | _ => True end.

(** ** Lexical lemmas *)
Lemma skip_ws w t : ws w -> skip (w ++ t) = skip t.
Proof. induction 1 as [|c w H W IH]; [reflexivity|]. simpl. rewrite H. exact IH. Qed.

Lemma skip_split t : exists w, ws w /\ t = w ++ skip t.
Proof.
  induction t as [|c t (w & W & E)]; [exists []; split; [constructor|reflexivity]|].
  simpl. destruct (is_space c) eqn:Hc.
  - exists (c :: w). split; [constructor; auto|]. simpl. congruence.
  - exists []. split; [constructor|reflexivity].
Qed.

Lemma skip_nonspace c t : is_space c = false -> skip (c :: t) = c :: t.
Proof. intros H. simpl. now rewrite H. Qed.

Lemma skip_nil_ws t : skip t = [] -> ws t.
Proof.
  induction t as [|c t IH]; intros H; [constructor|]. simpl in H.
  destruct (is_space c) eqn:Hc; [|discriminate]. constructor; [exact Hc|now apply IH].
Qed.

Lemma skip_ws_nil w : ws w -> skip w = [].
Proof. intros W. rewrite <- (app_nil_r w), skip_ws by exact W. reflexivity. Qed.

Lemma skip_idem t : skip (skip t) = skip t.
Proof. destruct (skip_split t) as (w & W & E). rewrite E at 2. now rewrite skip_ws. Qed.

Lemma digit_not_space c : is_digit c = true -> is_space c = false.
Proof.
  unfold is_digit, is_space. intros H. apply andb_true_iff in H as [H1 H2].
  apply Nat.leb_le in H1, H2. cbv zeta.
  destruct (Nat.eqb_spec (nat_of_ascii c) 32); [lia|].
  destruct (Nat.leb_spec (nat_of_ascii c) 13); [lia|]. rewrite andb_false_r. reflexivity.
Qed.

Lemma digit_not_sign c : is_digit c = true ->
  Ascii.eqb c "-" = false /\ Ascii.eqb c "+" = false.
Proof.
  intros H. split; apply Ascii.eqb_neq; intros ->; vm_compute in H; discriminate.
Qed.

(** Not starting with a digit *)
Definition delim (t : text) : Prop := match t with c :: _ => is_digit c = false | [] => True end.

Lemma span_digits_app ds : forall r, Forall (fun c => is_digit c = true) ds -> delim r ->
  span_digits (ds ++ r) = (ds, r).
Proof.
  induction ds as [|c ds IH]; intros r F D.
  - simpl. destruct r as [|c r]; [reflexivity|]. simpl in *. now rewrite D.
  - inversion F as [|? ? H1 H2]; subst. simpl. rewrite H1, IH by auto. reflexivity.
Qed.

Lemma span_digits_spec t : forall a b, span_digits t = (a, b) ->
  t = a ++ b /\ Forall (fun c => is_digit c = true) a /\ delim b.
Proof.
  induction t as [|c t IH]; intros a b H; simpl in H.
  - injection H as <- <-. repeat split; constructor.
  - destruct (is_digit c) eqn:Hc.
    + destruct (span_digits t) as [a' b'] eqn:E. injection H as <- <-.
      destruct (IH _ _ eq_refl) as (-> & F & D). repeat split; auto.
    + injection H as <- <-. repeat split; [constructor|exact Hc].
Qed.

Lemma in_int_spec v : in_int v = true <-> INT_MIN <= v <= INT_MAX.
Proof. unfold in_int. rewrite andb_true_iff, Z.leb_le, Z.leb_le. reflexivity. Qed.

Lemma parse_int_complete z t r : spaced_num z t -> delim r -> parse_int (t ++ r) = Some (z, r).
Proof.
  intros (w & n & -> & W & neg & s & ds & -> & S & Dn & F & -> & R) D.
  unfold parse_int. rewrite <- !app_assoc, skip_ws by exact W.
  destruct ds as [|d ds]; [congruence|]. inversion F as [|? ? H1 H2]; subst.
  assert (E : skip (s ++ (d :: ds) ++ r) = s ++ (d :: ds) ++ r).
  { destruct neg; simpl in S.
    - subst s. reflexivity.
    - destruct S as [-> | ->]; [|reflexivity]. simpl app. apply skip_nonspace.
      now apply digit_not_space. }
  rewrite E. destruct (digit_not_sign d H1) as [N1 N2].
  assert (G : parse_sign (s ++ (d :: ds) ++ r) = (neg, (d :: ds) ++ r)).
  { destruct neg; simpl in S; [subst s; reflexivity|]. destruct S as [-> | ->]; [|reflexivity].
    simpl. now rewrite N1, N2. }
  rewrite G, (span_digits_app (d :: ds)) by auto.
  apply in_int_spec in R. rewrite R. reflexivity.
Qed.

Lemma parse_int_sound t z r : parse_int t = Some (z, r) ->
  exists u, t = u ++ r /\ spaced_num z u /\ delim r.
Proof.
  unfold parse_int. destruct (skip_split t) as (w & W & E).
  set (l1 := skip t) in *.
  destruct (parse_sign l1) as [neg l2] eqn:G.
  destruct (span_digits l2) as [ds rest] eqn:Sp.
  destruct (span_digits_spec _ _ _ Sp) as (E2 & F & D).
  destruct ds as [|d ds]; [discriminate|].
  destruct (in_int _) eqn:In; [|discriminate]. intros H. injection H as <- <-.
  assert (Hs : exists s, l1 = s ++ l2 /\ sign_text neg s).
  { unfold parse_sign in G. destruct l1 as [|c l1']; [injection G as <- <-; exists []; split; [reflexivity|now left]|].
    destruct (Ascii.eqb_spec c "-").
    - injection G as <- <-. exists ["-"%char]. subst c. split; reflexivity.
    - destruct (Ascii.eqb_spec c "+").
      + injection G as <- <-. exists ["+"%char]. subst c. split; [reflexivity|now right].
      + injection G as <- <-. exists []. split; [reflexivity|now left]. }
  destruct Hs as (s & Es & St).
  exists (w ++ s ++ d :: ds). split; [|split; [|exact D]].
  - rewrite E, Es, E2. rewrite <- !app_assoc. reflexivity.
  - exists w, (s ++ d :: ds). split; [reflexivity|]. split; [exact W|].
    exists neg, s, (d :: ds). repeat split; auto; try discriminate;
      apply in_int_spec in In; tauto.
Qed.

Lemma parse_char_complete c w r : is_space c = false -> ws w -> parse_char c (w ++ c :: r) = Some r.
Proof.
  intros Hc W. unfold parse_char. rewrite skip_ws by exact W. rewrite skip_nonspace by exact Hc.
  now rewrite Ascii.eqb_refl.
Qed.

Lemma parse_char_sound c t r : parse_char c t = Some r -> exists w, ws w /\ t = w ++ c :: r.
Proof.
  unfold parse_char. destruct (skip_split t) as (w & W & E).
  destruct (skip t) as [|d r']; [discriminate|].
  destruct (Ascii.eqb_spec d c); [|discriminate]. intros H. injection H as ->. subst d.
  exists w. auto.
Qed.

Lemma ws_delim w r : ws w -> delim r -> delim (w ++ r).
Proof.
  intros W D. destruct W as [|c w H W]; [exact D|]. simpl.
  destruct (is_digit c) eqn:Hd; [|reflexivity]. apply digit_not_space in Hd. congruence.
Qed.

Lemma tail_delim {X} sep (P : X -> text -> Prop) xs u r :
  is_digit sep = false -> tail_text sep P xs u -> delim r -> delim (u ++ r).
Proof.
  intros Hs T D. destruct T; [exact D|]. rewrite <- app_assoc. apply ws_delim; [assumption|exact Hs].
Qed.

(** ** Numbers separated by colons *)
Lemma more_ints_complete xs u : tail_text ":" spaced_num xs u ->
  forall fuel r, (length u < fuel)%nat -> delim r -> parse_char ":" r = None ->
  more_ints fuel (u ++ r) = Ok (xs, r).
Proof.
  induction 1 as [|w z t xs u W N T IH]; intros fuel r Hf D Hr; destruct fuel as [|fuel]; try (simpl in Hf; lia).
  - simpl. rewrite Hr. reflexivity.
  - cbn [more_ints]. rewrite <- app_assoc. simpl app.
    rewrite parse_char_complete by (auto || reflexivity).
    rewrite <- app_assoc, (parse_int_complete z t) by (auto; eapply tail_delim; eauto; reflexivity).
    rewrite app_length in Hf. simpl in Hf. rewrite app_length in Hf.
    rewrite IH by (auto; lia). reflexivity.
Qed.

Lemma more_ints_sound fuel : forall t xs r, delim t -> more_ints fuel t = Ok (xs, r) ->
  exists u, t = u ++ r /\ tail_text ":" spaced_num xs u /\ delim r.
Proof.
  induction fuel as [|fuel IH]; intros t xs r D H; [discriminate|]. cbn [more_ints] in H.
  destruct (parse_char ":" t) as [r1|] eqn:Ec.
  2:{ injection H as <- <-. exists []. repeat split; [constructor|exact D]. }
  destruct (parse_int r1) as [[v r2]|] eqn:Ei.
  2:{ injection H as <- <-. exists []. repeat split; [constructor|exact D]. }
  destruct (more_ints fuel r2) as [[vs r3]| |] eqn:Em; try discriminate.
  cbn [bind fst snd] in H. injection H as <- <-.
  destruct (parse_char_sound _ _ _ Ec) as (w & W & ->).
  destruct (parse_int_sound _ _ _ Ei) as (t1 & -> & N & D2).
  destruct (IH _ _ _ D2 Em) as (u & -> & T & D3).
  exists (w ++ ":"%char :: t1 ++ u). split; [|split; [|exact D3]].
  - rewrite <- !app_assoc. simpl. rewrite <- app_assoc. reflexivity.
  - constructor; auto.
Qed.

Lemma parse_char_shorter c t r : parse_char c t = Some r -> (length r < length t)%nat.
Proof.
  intros H. destruct (parse_char_sound _ _ _ H) as (w & _ & ->). rewrite app_length. simpl. lia.
Qed.

Lemma parse_int_shorter t z r : parse_int t = Some (z, r) -> (length r < length t)%nat.
Proof.
  intros H. destruct (parse_int_sound _ _ _ H) as (u & -> & (w & n & -> & _ & neg & s & ds & -> & _ & Hd & _) & _).
  rewrite !app_length. destruct ds; [congruence|]. simpl. lia.
Qed.

Lemma more_ints_total fuel : forall t, (length t < fuel)%nat -> exists p, more_ints fuel t = Ok p.
Proof.
  induction fuel as [|fuel IH]; intros t H; [lia|]. cbn [more_ints].
  destruct (parse_char ":" t) as [r1|] eqn:Ec; [|eauto].
  destruct (parse_int r1) as [[v r2]|] eqn:Ei; [|eauto].
  apply parse_char_shorter in Ec. apply parse_int_shorter in Ei.
  destruct (IH r2) as [p E]; [lia|]. rewrite E. cbn [bind]. eauto.
Qed.

Lemma parse_item_complete xs t r : item_text xs t -> delim r -> parse_char ":" r = None ->
  parse_item (t ++ r) = Some (Ok (xs, r)).
Proof.
  intros [z t0 xs' u N T] D Hr. unfold parse_item. rewrite <- app_assoc.
  rewrite (parse_int_complete z t0) by (auto; eapply tail_delim; eauto; reflexivity).
  rewrite (more_ints_complete xs' u T) by (auto; rewrite app_length; lia). reflexivity.
Qed.

Lemma parse_item_sound t m : parse_item t = Some m ->
  exists xs r, m = Ok (xs, r) /\ (length r < length t)%nat
    /\ exists u, t = u ++ r /\ item_text xs u /\ delim r.
Proof.
  unfold parse_item. destruct (parse_int t) as [[v r]|] eqn:Ei; [|discriminate].
  remember (S (length r)) as fuel eqn:Hfu. intros H. injection H as <-.
  destruct (parse_int_sound _ _ _ Ei) as (t1 & -> & N & D).
  destruct (more_ints_total fuel r ltac:(lia)) as ([vs r2] & E). rewrite E. cbn [bind fst snd].
  destruct (more_ints_sound _ _ _ _ D E) as (u & -> & T & D2).
  exists (v :: vs), r2. split; [reflexivity|].
  apply parse_int_shorter in Ei. rewrite !app_length in *. split; [lia|].
  exists (t1 ++ u). rewrite <- app_assoc. split; [reflexivity|]. split; [now constructor|exact D2].
Qed.

(** ** Items *)
Lemma loop_range_spec n : forall fuel v e, 
  n = Z.to_nat (e + 1 - v) -> (n < fuel)%nat ->
  loop_range fuel v e = Ok (map (fun k => v + Z.of_nat k) (seq 0 n)).
Proof.
  induction n as [|n IH]; intros [|fuel] v e Hn Hf; try lia; cbn [loop_range].
  - destruct (Z.leb_spec v e); [lia|reflexivity].
  - destruct (Z.leb_spec v e); [|lia].
    rewrite (IH fuel (v + 1) e) by lia. cbn [bind seq map]. rewrite <- seq_shift, map_map.
    f_equal. f_equal; [lia|]. apply map_ext. intros k. lia.
Qed.

Lemma loop_step_ok fuel : forall v inc e, inc <> 0 ->
  (Z.to_nat (if (0 <? inc)%Z then e + 1 - v else v + 1 - e) < fuel)%nat ->
  0 <= v -> 0 <= e <= INT_MAX -> INT_MIN <= inc -> v <= INT_MAX -> e + inc <= INT_MAX ->
  exists l, loop_step fuel v inc e = Ok l /\ progression v inc e l.
Proof.
  induction fuel as [|fuel IH]; intros v inc e Hi Hf Hv He Hm HvM Hov; [lia|]. cbn [loop_step].
  destruct (Z.ltb_spec 0 inc) as [Hp|Hp].
  - destruct (Z.leb_spec v e) as [L|L].
    + assert (R : in_int (v + inc) = true) by (apply in_int_spec; unfold INT_MIN in *; lia).
      rewrite R.
      destruct (IH (v + inc) inc e) as (l & E & n & -> & Hn); auto; try lia.
      { destruct (Z.ltb_spec 0 inc); lia. }
      rewrite E. cbn [bind]. eexists. split; [reflexivity|].
      exists (S n). split.
      * cbn [seq map]. rewrite <- seq_shift, map_map. f_equal; [lia|].
        apply map_ext. intros k. lia.
      * destruct (Z.ltb_spec 0 inc); [|lia]. intros [|k]; [split; lia|].
        specialize (Hn k). rewrite <- Nat.succ_lt_mono, Hn. lia.
    + exists []. split; [reflexivity|]. exists 0%nat. split; [reflexivity|].
      destruct (Z.ltb_spec 0 inc); [|lia]. intros k. split; [lia|]. nia.
  - destruct (Z.leb_spec e v) as [L|L].
    + assert (R : in_int (v + inc) = true) by (apply in_int_spec; unfold INT_MIN, INT_MAX in *; lia).
      rewrite R.
      assert (G : e <= v + inc \/ v + inc < e) by lia. destruct G as [G|G].
      * destruct (IH (v + inc) inc e) as (l & E & n & -> & Hn); auto; try lia.
        { destruct (Z.ltb_spec 0 inc); lia. }
        rewrite E. cbn [bind]. eexists. split; [reflexivity|].
        exists (S n). split.
        -- cbn [seq map]. rewrite <- seq_shift, map_map. f_equal; [lia|].
           apply map_ext. intros k. lia.
        -- destruct (Z.ltb_spec 0 inc); [lia|]. intros [|k]; [split; lia|].
           specialize (Hn k). rewrite <- Nat.succ_lt_mono, Hn. lia.
      * destruct fuel as [|fuel]; [lia|]. cbn [loop_step].
        destruct (Z.ltb_spec 0 inc); [lia|]. destruct (Z.leb_spec e (v + inc)); [lia|].
        cbn [bind]. eexists. split; [reflexivity|]. exists 1%nat. split.
        -- cbn. f_equal. lia.
        -- destruct (Z.ltb_spec 0 inc); [lia|]. intros k. split.
           ++ intros Hk. assert (k = 0%nat) by lia. subst. lia.
           ++ intros Hk. destruct k; [lia|]. nia.
    + exists []. split; [reflexivity|]. exists 0%nat. split; [reflexivity|].
      destruct (Z.ltb_spec 0 inc); [lia|]. intros k. split; [lia|]. nia.
Qed.

Lemma loop_step_sound fuel : forall v inc e l, inc <> 0 -> loop_step fuel v inc e = Ok l ->
  progression v inc e l.
Proof.
  induction fuel as [|fuel IH]; intros v inc e l Hi H; [discriminate|]. cbn [loop_step] in H.
  destruct (if 0 <? inc then v <=? e else e <=? v) eqn:C.
  - destruct (in_int (v + inc)) eqn:R; [|discriminate].
    destruct (loop_step fuel (v + inc) inc e) as [l'| |] eqn:E; try discriminate.
    injection H as <-. destruct (IH _ _ _ _ Hi E) as (n & -> & Hn).
    exists (S n). split.
    + cbn [seq map]. rewrite <- seq_shift, map_map. f_equal; [lia|]. apply map_ext. intros k. lia.
    + intros [|k].
      * destruct (Z.ltb_spec 0 inc); [apply Z.leb_le in C|apply Z.leb_le in C]; split; lia.
      * specialize (Hn k). rewrite <- Nat.succ_lt_mono, Hn.
        destruct (Z.ltb_spec 0 inc); lia.
  - injection H as <-. exists 0%nat. split; [reflexivity|]. intros k. split; [lia|].
    destruct (Z.ltb_spec 0 inc); apply Z.leb_gt in C; nia.
Qed.

Lemma range_progression s e : progression s 1 e (map (fun k => s + Z.of_nat k) (seq 0 (Z.to_nat (e + 1 - s)))).
Proof.
  exists (Z.to_nat (e + 1 - s)). split.
  - apply map_ext. intros k. lia.
  - intros k. simpl. lia.
Qed.

Lemma progression_fun a s b l l' : progression a s b l -> progression a s b l' -> l = l'.
Proof.
  intros (n & -> & H) (m & -> & H'). assert (E : n = m).
  { destruct (Nat.lt_trichotomy n m) as [L|[L|L]]; [|exact L|].
    - assert ((n < n)%nat) by (apply H, H', L). lia.
    - assert ((m < m)%nat) by (apply H', H, L). lia. }
  now subst.
Qed.

Lemma denotes_fun i l l' : denotes i l -> denotes i l' -> l = l'.
Proof.
  unfold denotes. destruct i as [|a [|b [|c [|d i]]]]; try tauto.
  - intros [_ ->] [_ ->]. reflexivity.
  - intros (_ & _ & H) (_ & _ & H'). eapply progression_fun; eauto.
  - intros (_ & _ & _ & H) (_ & _ & _ & H'). eapply progression_fun; eauto.
Qed.

Definition ints (item : list Z) : Prop := Forall (fun z => INT_MIN <= z <= INT_MAX) item.

Lemma finish_sound i l : finish i = Ok l -> denotes i l.
Proof.
  unfold finish, denotes. destruct i as [|a [|b [|c [|d i]]]]; try discriminate.
  - destruct (Z.ltb_spec a 0); [discriminate|]. intros H0. injection H0 as <-. auto.
  - destruct (Z.ltb_spec a 0); [discriminate|]. destruct (Z.ltb_spec b 0); [discriminate|].
    cbn [orb]. rewrite (loop_range_spec (Z.to_nat (b + 1 - a))) by lia.
    intros H1. injection H1 as <-. repeat split; auto. apply range_progression.
  - destruct (Z.ltb_spec a 0); [discriminate|]. destruct (Z.ltb_spec c 0); [discriminate|].
    cbn [orb]. destruct (Z.eqb_spec b 0); [discriminate|].
    intros H1. repeat split; auto. eapply loop_step_sound; eauto.
Qed.

Lemma finish_complete i l : ints i -> denotes i l -> no_overflow i -> finish i = Ok l.
Proof.
  intros HI HD HN.
  assert (G : exists l', finish i = Ok l').
  { unfold finish, denotes in *. destruct i as [|a [|b [|c [|d i]]]]; try contradiction.
    - destruct (Z.ltb_spec a 0); [lia|]. eauto.
    - destruct HD as (? & ? & _). destruct (Z.ltb_spec a 0); [lia|]. destruct (Z.ltb_spec b 0); [lia|].
      cbn [orb]. rewrite (loop_range_spec (Z.to_nat (b + 1 - a))) by lia. eauto.
    - destruct HD as (? & ? & ? & _). destruct (Z.ltb_spec a 0); [lia|].
      destruct (Z.ltb_spec c 0); [lia|]. cbn [orb]. destruct (Z.eqb_spec b 0); [lia|].
      unfold ints in HI. rewrite !Forall_cons_iff in HI. destruct HI as (Ia & Ib & Ic & _).
      simpl in HN.
      destruct (loop_step_ok (S (S (Z.to_nat (Z.abs (c - a))))) a b c) as (l' & E & _); eauto; try lia.
      destruct (Z.ltb_spec 0 b); lia. }
  destruct G as (l' & E). rewrite E. f_equal. apply finish_sound in E. eapply denotes_fun; eauto.
Qed.

(** Undefined behaviour only by signed overflow past the end of a range. *)
Lemma loop_step_UB fuel : forall v inc e,
  (Z.to_nat (Z.max 0 (if (0 <? inc)%Z then e + 1 - v else v + 1 - e)) < fuel)%nat -> inc <> 0 ->
  INT_MIN <= inc -> 0 <= v <= INT_MAX -> 0 <= e <= INT_MAX ->
  loop_step fuel v inc e = UB -> 0 < inc /\ INT_MAX < e + inc.
Proof.
  intros v inc e Hf Hi Hm Hv He H.
  destruct (Z_le_gt_dec (e + inc) INT_MAX) as [L|L].
  - destruct (loop_step_ok fuel v inc e) as (l & E & _); try lia; congruence.
  - split; [|lia]. lia.
Qed.

Lemma finish_UB i : ints i -> finish i = UB -> exists a s b, i = [a; s; b] /\ 0 < s /\ INT_MAX < b + s.
Proof.
  intros HI. unfold finish. destruct i as [|a [|b [|c [|d i]]]]; try discriminate.
  - destruct (Z.ltb_spec a 0); discriminate.
  - destruct (Z.ltb_spec a 0); [discriminate|]. destruct (Z.ltb_spec b 0); [discriminate|].
    cbn [orb]. rewrite (loop_range_spec (Z.to_nat (b + 1 - a))) by lia. discriminate.
  - destruct (Z.ltb_spec a 0); [discriminate|]. destruct (Z.ltb_spec c 0); [discriminate|].
    cbn [orb]. destruct (Z.eqb_spec b 0); [discriminate|]. intros H1.
    unfold ints in HI. rewrite !Forall_cons_iff in HI. destruct HI as (Ia & Ib & Ic & _).
    exists a, b, c. split; [reflexivity|].
    refine (loop_step_UB _ a b c _ _ _ _ _ H1); try lia.
    destruct (Z.ltb_spec 0 b); lia.
Qed.

Lemma num_text_range z t : spaced_num z t -> INT_MIN <= z <= INT_MAX.
Proof. intros (w & n & _ & _ & neg & s & ds & _ & _ & _ & _ & _ & R). exact R. Qed.

Lemma item_ints xs t : item_text xs t -> ints xs.
Proof.
  intros [z t0 ys u N T]. constructor; [eapply num_text_range; eauto|].
  induction T; constructor; auto. eapply num_text_range; eauto.
Qed.

(** ** The whole string *)
Lemma comma_not_colon w r : ws w -> parse_char ":" (w ++ ","%char :: r) = None.
Proof. intros W. unfold parse_char. rewrite skip_ws by exact W. reflexivity. Qed.

Lemma ws_no_char c w : ws w -> parse_char c w = None.
Proof. intros W. unfold parse_char. now rewrite skip_ws_nil. Qed.

Lemma tail_no_colon (P : list Z -> text -> Prop) xs u w :
  tail_text "," P xs u -> ws w -> parse_char ":" (u ++ w) = None.
Proof.
  intros T W. destruct T; [now apply ws_no_char|].
  rewrite <- app_assoc. now apply comma_not_colon.
Qed.

Lemma ws_is_delim w : ws w -> delim w.
Proof. intros W. rewrite <- (app_nil_r w). apply ws_delim; [exact W|exact I]. Qed.

Lemma more_items_complete items u : tail_text "," item_text items u ->
  forall fuel w ls, (length u < fuel)%nat -> ws w -> Forall no_overflow items ->
  Forall2 denotes items ls ->
  more_items fuel (u ++ w) = Ok (concat ls, w).
Proof.
  induction 1 as [|w0 i t items u W N T IH]; intros fuel w ls Hf Ww Ho HD;
    destruct fuel as [|fuel]; try (simpl in Hf; lia).
  - inversion HD; subst. cbn [more_items app]. rewrite ws_no_char by exact Ww. reflexivity.
  - inversion HD as [|? l ? ls' D1 D2]; subst. inversion Ho as [|? ? O1 O2]; subst.
    cbn [more_items]. rewrite <- app_assoc. simpl app.
    rewrite parse_char_complete by (auto || reflexivity).
    rewrite <- app_assoc.
    rewrite (parse_item_complete i t) by
      (first [assumption|eapply tail_no_colon; eassumption
             |eapply tail_delim; cycle 1; [exact T|now apply ws_is_delim|reflexivity]]).
    cbn [bind fst snd].
    rewrite (finish_complete i l) by (auto; eapply item_ints; eauto). cbn [bind].
    rewrite app_length in Hf. simpl in Hf. rewrite app_length in Hf.
    rewrite (IH fuel w ls') by (auto; lia). reflexivity.
Qed.

Lemma sequence_complete items t ls :
  sequence_text items t -> Forall2 denotes items ls -> Forall no_overflow items ->
  index_sequence t = Ok (concat ls).
Proof.
  intros [[-> W]|(u & w & -> & L & W)] HD Ho; unfold index_sequence.
  - inversion HD; subst.
    assert (E : parse_item t = None).
    { unfold parse_item, parse_int. now rewrite skip_ws_nil. }
    rewrite E. cbn [bind fst snd]. now rewrite skip_ws_nil.
  - destruct L as [i t is u N T].
    inversion HD as [|? l ? ls' D1 D2]; subst. inversion Ho as [|? ? O1 O2]; subst.
    rewrite <- app_assoc.
    rewrite (parse_item_complete i t) by
      (first [assumption|eapply tail_no_colon; eassumption
             |eapply tail_delim; cycle 1; [exact T|now apply ws_is_delim|reflexivity]]).
    cbn [bind fst snd]. rewrite (finish_complete i l) by (auto; eapply item_ints; eauto). cbn [bind].
    rewrite (more_items_complete is u T _ w ls') by (auto; rewrite app_length; lia).
    cbn [bind fst snd]. now rewrite skip_ws_nil.
Qed.

Lemma more_items_sound fuel : forall t c r, delim t -> more_items fuel t = Ok (c, r) ->
  exists u items ls, t = u ++ r /\ tail_text "," item_text items u
    /\ Forall2 denotes items ls /\ c = concat ls.
Proof.
  induction fuel as [|fuel IH]; intros t c r D H; [discriminate|]. cbn [more_items] in H.
  assert (Stop : Ok ([] : list Z, t) = Ok (c, r) -> exists u items ls, t = u ++ r
    /\ tail_text "," item_text items u /\ Forall2 denotes items ls /\ c = concat ls).
  { intros H0. injection H0 as <- <-. exists [], [], []. repeat split; constructor. }
  destruct (parse_char "," t) as [r1|] eqn:Ec; [|auto].
  destruct (parse_item r1) as [m|] eqn:Ei; [|auto].
  destruct (parse_item_sound _ _ Ei) as (i & r2 & -> & _ & u1 & -> & N & D2).
  cbn [bind fst snd] in H. destruct (finish i) as [l| |] eqn:Ef; try discriminate. cbn [bind] in H.
  destruct (more_items fuel r2) as [[c' r']| |] eqn:Em; try discriminate.
  cbn [bind fst snd] in H. injection H as <- <-.
  destruct (IH _ _ _ D2 Em) as (u & items & ls & -> & T & HD & ->).
  destruct (parse_char_sound _ _ _ Ec) as (w & W & ->).
  exists (w ++ ","%char :: u1 ++ u), (i :: items), (l :: ls).
  split; [rewrite <- !app_assoc; simpl; now rewrite <- app_assoc|].
  split; [constructor; auto|]. split; [|reflexivity].
  constructor; auto. now apply finish_sound.
Qed.

Lemma sequence_sound t l : index_sequence t = Ok l ->
  exists items ls, sequence_text items t /\ Forall2 denotes items ls /\ l = concat ls.
Proof.
  unfold index_sequence. destruct (parse_item t) as [m|] eqn:Ei.
  - destruct (parse_item_sound _ _ Ei) as (i & r & -> & _ & u & -> & N & D). cbn [bind fst snd].
    destruct (finish i) as [li| |] eqn:Ef; try discriminate. cbn [bind].
    destruct (more_items _ r) as [[c r']| |] eqn:Em; try discriminate. cbn [bind fst snd].
    destruct (skip r') eqn:Es; [|discriminate]. intros H. injection H as <-.
    destruct (more_items_sound _ _ _ _ D Em) as (u' & items & ls & -> & T & HD & ->).
    exists (i :: items), (li :: ls). split; [|split; [|reflexivity]].
    + right. exists (u ++ u'), r'. split; [now rewrite app_assoc|].
      split; [now constructor|now apply skip_nil_ws].
    + constructor; auto. now apply finish_sound.
  - cbn [bind fst snd]. destruct (skip t) eqn:Es; [|discriminate].
    intros H. injection H as <-. exists [], []. split; [|split; [constructor|reflexivity]].
    left. split; [reflexivity|now apply skip_nil_ws].
Qed.

(** Everything else throws; undefined behaviour only by overflow. *)
Lemma more_items_UB fuel : forall t, (length t < fuel)%nat -> more_items fuel t = UB ->
  exists a s b u v, t = u ++ v /\ item_text [a; s; b] v /\ 0 < s /\ INT_MAX < b + s
    \/ exists x, t = u ++ v ++ x /\ item_text [a; s; b] v /\ 0 < s /\ INT_MAX < b + s.
Proof.
  induction fuel as [|fuel IH]; intros t Hl H; [lia|]. cbn [more_items] in H.
  destruct (parse_char "," t) as [r1|] eqn:Ec; [|discriminate].
  destruct (parse_item r1) as [m|] eqn:Ei; [|discriminate].
  destruct (parse_item_sound _ _ Ei) as (i & r2 & -> & L2 & u1 & -> & N & D2).
  cbn [bind fst snd] in H. apply parse_char_shorter in Ec as L1.
  destruct (parse_char_sound _ _ _ Ec) as (w & W & ->).
  destruct (finish i) as [l| |] eqn:Ef; try discriminate; cbn [bind] in H.
  - destruct (more_items fuel r2) as [[c' r']| |] eqn:Em; try discriminate.
    destruct (IH r2) as (a & s & b & u & v & G); [lia|exact Em|].
    exists a, s, b, (w ++ ","%char :: u1 ++ u), v.
    destruct G as [(-> & G)|(x & -> & G)].
    + left. split; [|exact G]. rewrite <- !app_assoc. simpl. now rewrite <- app_assoc.
    + right. exists x. split; [|exact G]. rewrite <- !app_assoc. simpl. now rewrite <- app_assoc.
  - destruct (finish_UB i (item_ints _ _ N) Ef) as (a & s & b & -> & P & Q).
    exists a, s, b, (w ++ [","%char]), u1. right. exists r2. split; [|auto].
    rewrite <- app_assoc. reflexivity.
Qed.

Lemma sequence_UB t : index_sequence t = UB ->
  exists u v x a s b, t = u ++ v ++ x /\ item_text [a; s; b] v /\ 0 < s /\ INT_MAX < b + s.
Proof.
  unfold index_sequence. destruct (parse_item t) as [m|] eqn:Ei.
  - destruct (parse_item_sound _ _ Ei) as (i & r & -> & _ & u & -> & N & D). cbn [bind fst snd].
    destruct (finish i) as [li| |] eqn:Ef; try discriminate; cbn [bind].
    + destruct (more_items _ r) as [[c r']| |] eqn:Em; try discriminate; cbn [bind fst snd].
      * destruct (skip r'); discriminate.
      * intros _. destruct (more_items_UB (S (length r)) r ltac:(lia) Em) as (a & s & b & u1 & v & G).
        destruct G as [(-> & G)|(x & -> & G)].
        -- exists (u ++ u1), v, [], a, s, b. split; [|exact G]. now rewrite app_nil_r, <- app_assoc.
        -- exists (u ++ u1), v, x, a, s, b. split; [|exact G]. now rewrite <- !app_assoc.
    + intros _. destruct (finish_UB i (item_ints _ _ N) Ef) as (a & s & b & -> & P & Q).
      exists [], u, r, a, s, b. auto.
  - cbn [bind fst snd]. destruct (skip t); discriminate.
Qed.
