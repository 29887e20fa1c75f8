(** Proofs about object messages: texts and property trees. *)
From Coq Require Import String Ascii ZArith.
From Verif Require Import Base IndexSequenceModel IndexSequenceProofs ChannelListModel ChannelListProofs
  ObjectVectorModel MsgModel MsgSpec.
Local Open Scope Z_scope.
Local Open Scope res_scope.

(** ** Integers *)
Lemma digits_print n : 0 <= n -> exists d ds, print_size n = d :: ds /\ is_digit d = true
  /\ Forall (fun c => is_digit c = true) (print_size n) /\ digits_value (print_size n) = n.
Proof.
  intros H. destruct (print_size_ok n H) as (N & F & V). destruct (print_size n) as [|d ds]; [congruence|].
  exists d, ds. repeat split; auto. now inversion F.
Qed.
Lemma read_print n : 0 <= n <= UINT_MAX -> read_unsigned (print_size n) = Some n.
Proof.
  intros H. destruct (digits_print n ltac:(lia)) as (d & ds & P & D & F & V). unfold read_unsigned.
  rewrite P in *. rewrite (skip_nonspace d ds (digit_not_space d D)).
  destruct (digit_not_sign d D) as [N1 N2]. cbn [parse_sign]. rewrite N1, N2.
  assert (S := span_digits_app (d :: ds) [] F I). rewrite app_nil_r in S. rewrite S. cbn [skip]. rewrite V.
  now rewrite (proj2 (Z.leb_le n UINT_MAX)) by lia.
Qed.

(** ** Channel lists *)
Lemma item_spaced z : 0 <= z <= INT_MAX -> item_text [z] (" "%char :: print_size z).
Proof.
  intros H. rewrite <- (app_nil_r (" "%char :: print_size z)). constructor; [|constructor].
  destruct (print_size_num z H) as (w & n & E & W & N). exists (" "%char :: w), n. rewrite E.
  split; [reflexivity|]. split; [|exact N]. constructor; [reflexivity|exact W].
Qed.
Lemma join_cons sep a b l : join sep (a :: b :: l) = a ++ sep ++ join sep (b :: l).
Proof. reflexivity. Qed.
Lemma tail_join l : forall x, Forall (fun c => 0 <= c <= INT_MAX) l ->
  exists u, join (txt ", ") (map print_size (x :: l)) = print_size x ++ u
    /\ tail_text "," item_text (map (fun z => [z]) l) u.
Proof.
  induction l as [|y l IH]; intros x H.
  - exists []. cbn. rewrite app_nil_r. split; [reflexivity|constructor].
  - inversion H as [|? ? Hy Hl]; subst. destruct (IH y Hl) as (u & E & T).
    exists (","%char :: (" "%char :: print_size y) ++ u). cbn [map] in *. rewrite join_cons, E.
    split; [reflexivity|].
    apply (tail_cons "," item_text [] [y] (" "%char :: print_size y)); [constructor|now apply item_spaced|exact T].
Qed.
Lemma channels_read l : Forall (fun c => 0 <= c <= INT_MAX) l ->
  index_sequence (join (txt ", ") (map print_size l)) = Ok l.
Proof.
  intros H. rewrite (sequence_complete (map (fun z => [z]) l) _ (map (fun z => [z]) l)).
  - f_equal. clear H. induction l as [|x l IH]; [reflexivity|]. cbn. now rewrite IH.
  - destruct l as [|x l].
    + left. split; [reflexivity|constructor].
    + right. inversion H as [|? ? Hx Hl]; subst. destruct (tail_join l x Hl) as (u & E & T).
      exists (print_size x ++ u), []. rewrite E, app_nil_r. split; [reflexivity|]. split; [|constructor].
      apply (list_text_intro "," item_text [x] (print_size x)); [now apply item_one|exact T].
  - clear -H. induction H as [|x l Hx _ IH]; constructor; [|exact IH]. cbn. split; [lia|reflexivity].
  - clear. apply Forall_forall. intros i Hi. apply in_map_iff in Hi as (z & <- & _). exact I.
Qed.

(** ** Output channels *)
Lemma letter_cases c : label_letter c <-> label_char c = true.
Proof.
  split.
  - unfold label_letter. cbn [list_ascii_of_string In]. intros H.
    repeat (destruct H as [<-|H]; [reflexivity|]). destruct H.
  - unfold label_letter. intros H.
    destruct c as [[] [] [] [] [] [] [] []]; try (vm_compute in H; discriminate H); cbn [list_ascii_of_string In];
      repeat (first [left; reflexivity|right]).
Qed.
Lemma letter_char c : label_letter c -> label_char c = true.
Proof. apply letter_cases. Qed.
Lemma char_not_space c : label_char c = true -> is_space c = false.
Proof. destruct c as [[] [] [] [] [] [] [] []]; intros H; try reflexivity; vm_compute in H; discriminate H. Qed.
Lemma char_seven c : label_char c = true -> (nat_of_ascii c < 128)%nat.
Proof.
  intros H. destruct (le_lt_dec 128 (nat_of_ascii c)) as [L|L]; [|exact L]. exfalso.
  destruct c as [[] [] [] [] [] [] [] []]; vm_compute in H; try discriminate H;
    apply Nat.leb_le in L; vm_compute in L; discriminate L.
Qed.

(** a text which does not go on with a label *)
Definition stops (r : text) : Prop := label_chars r = ([], skip r).
Lemma stops_nil : stops [].
Proof. reflexivity. Qed.
Lemma stops_char c r : is_space c = false -> label_char c = false -> stops (c :: r).
Proof. intros A B. unfold stops. cbn. now rewrite A, B. Qed.
Lemma stops_space r : stops r -> stops (" "%char :: r).
Proof. intros H. unfold stops in *. cbn. exact H. Qed.

Lemma label_chars_app a r : Forall label_letter a -> stops r -> label_chars (a ++ r) = (a, skip r).
Proof.
  intros H S. induction H as [|c a Hc _ IH]; [exact S|]. cbn [app label_chars].
  apply letter_char in Hc. rewrite (char_not_space c Hc), Hc, IH. reflexivity.
Qed.
Lemma parse_label_app w a r : ws w -> label a -> stops r -> parse_label (w ++ a ++ r) = Some (a, skip r).
Proof.
  intros W [N H] S. unfold parse_label.
  assert (Q : label_chars (w ++ a ++ r) = (a, skip r)).
  { induction W as [|c w Hc _ IH]; [exact (label_chars_app a r H S)|]. cbn [app label_chars]. now rewrite Hc. }
  rewrite Q. destruct a; [congruence|reflexivity].
Qed.
Lemma parse_label_stop r : stops r -> parse_label r = None.
Proof. intros H. unfold parse_label. rewrite H. reflexivity. Qed.
Lemma parse_char_skip c r : parse_char c (skip r) = parse_char c r.
Proof. unfold parse_char. now rewrite skip_idem. Qed.
Lemma parse_char_here c w r : ws w -> is_space c = false -> parse_char c (w ++ c :: r) = Some r.
Proof.
  intros W H. unfold parse_char. rewrite skip_ws by exact W. rewrite skip_nonspace by exact H.
  now rewrite Ascii.eqb_refl.
Qed.
Lemma parse_char_other c d w r : ws w -> is_space d = false -> Ascii.eqb d c = false -> parse_char c (w ++ d :: r) = None.
Proof.
  intros W H N. unfold parse_char. rewrite skip_ws by exact W. rewrite skip_nonspace by exact H.
  now rewrite N.
Qed.
Lemma space_ws : ws [" "%char].
Proof. constructor; [reflexivity|constructor]. Qed.

Lemma parse_char_eq c t u : skip t = skip u -> parse_char c t = parse_char c u.
Proof. intros H. unfold parse_char. now rewrite H. Qed.
Lemma join_concat sep a l : join sep (a :: l) = a ++ concat (map (app sep) l).
Proof.
  revert a. induction l as [|b l IH]; intros a; [cbn; now rewrite app_nil_r|].
  rewrite join_cons, IH. cbn [map concat]. now rewrite <- app_assoc.
Qed.
(** what follows a label in a printed list *)
Lemma stops_more l r : stops r -> stops (concat (map (app (txt ", ")) l) ++ r).
Proof. intros H. destruct l as [|a l]; [exact H|]. apply stops_char; reflexivity. Qed.

Lemma more_labels_join l : forall fuel r t, Forall label l -> (length l < fuel)%nat ->
  skip t = skip (concat (map (app (txt ", ")) l) ++ txt " ]" ++ r) ->
  exists rest, more_labels fuel t = Ok (l, rest) /\ skip rest = "]"%char :: r.
Proof.
  induction l as [|a l IH]; intros fuel r t H F Q; (destruct fuel as [|fuel]; [cbn in F; lia|]).
  - cbn [more_labels]. rewrite (parse_char_eq _ _ _ Q). cbn [map concat app].
    change (txt " ]" ++ r) with ([" "%char] ++ "]"%char :: r) in *.
    rewrite (parse_char_other "," "]" [" "%char] r space_ws eq_refl eq_refl). exists t. split; [reflexivity|exact Q].
  - inversion H as [|? ? Ha Hl]; subst. cbn [more_labels]. rewrite (parse_char_eq _ _ _ Q). cbn [map concat].
    rewrite <- !app_assoc. change (txt ", " ++ ?x) with ([] ++ ","%char :: [" "%char] ++ x).
    rewrite (parse_char_here "," []) by (constructor || reflexivity).
    rewrite (parse_label_app _ a _ space_ws Ha)
      by (apply stops_more, stops_space, stops_char; reflexivity).
    destruct (IH fuel r (skip (concat (map (app (txt ", ")) l) ++ txt " ]" ++ r)) Hl ltac:(cbn in F; lia) (skip_idem _))
      as (rest & R & SR).
    rewrite R. exists rest. split; [reflexivity|exact SR].
Qed.

Lemma concat_length (l : list text) : (length l <= length (concat (map (app (txt ", ")) l)))%nat.
Proof. induction l as [|a l IH]; [cbn; lia|]. cbn [map concat]. rewrite !app_length. change (length (txt ", ")) with 2%nat. cbn [length]. lia. Qed.
Lemma skip_length t : (length (skip t) <= length t)%nat.
Proof. destruct (skip_split t) as (w & _ & E). rewrite E at 2. rewrite app_length. lia. Qed.

Lemma label_nonspace a r : label a -> skip (a ++ r) = a ++ r.
Proof.
  intros [N H]. destruct a as [|c a]; [congruence|]. inversion H; subst. apply skip_nonspace.
  now apply char_not_space, letter_char.
Qed.
Lemma stops_bracket r : stops ("["%char :: r).
Proof. apply stops_char; reflexivity. Qed.

Lemma bracket_no_label w u : ws w -> parse_label (w ++ "["%char :: u) = None.
Proof.
  intros W. unfold parse_label.
  assert (G : label_chars (w ++ "["%char :: u) = ([], "["%char :: u)).
  { induction W as [|c w Hc _ IH]; [reflexivity|]. cbn [app label_chars]. now rewrite Hc. }
  now rewrite G.
Qed.

(** an output channel, [r] being what follows *)
Lemma parse_output_ok w o r t : ws w -> Forall label o -> stops r -> skip t = skip (w ++ print_output o ++ r) ->
  exists rest, parse_output t = Ok (Some (o, rest)) /\ skip rest = skip r.
Proof.
  intros W H S Q.
  assert (PL : parse_label t = parse_label (w ++ print_output o ++ r)).
  { unfold parse_label. assert (G : forall u, label_chars u = label_chars (skip u)).
    { intros u. destruct (skip_split u) as (v & V & Eu). rewrite Eu at 1. clear Eu.
      induction V as [|c v Hc _ IH]; [reflexivity|]. cbn [app label_chars]. now rewrite Hc. }
    now rewrite (G t), (G (w ++ _)), Q. }
  unfold parse_output. rewrite PL.
  destruct o as [|a [|b l]]; cbn [print_output].
  - change (w ++ txt "[]" ++ r) with (w ++ "["%char :: "]"%char :: r).
    change (skip t = skip (w ++ "["%char :: "]"%char :: r)) in Q.
    rewrite (bracket_no_label w _ W).
    rewrite (parse_char_eq _ _ _ Q), (parse_char_here "[" w) by (auto || reflexivity).
    rewrite (parse_label_stop ("]"%char :: r)) by (apply stops_char; reflexivity). cbn [bind fst snd].
    change (parse_char "]" ("]"%char :: r)) with (Some r). exists r. auto.
  - inversion H as [|? ? Ha _]; subst. rewrite (parse_label_app w a r W Ha S). exists (skip r).
    split; [reflexivity|apply skip_idem].
  - inversion H as [|? ? Ha Hl]; subst. remember (b :: l) as m eqn:Em.
    change (print_output (a :: m)) with (match m with [] => a | _ => txt "[ " ++ join (txt ", ") (a :: m) ++ txt " ]" end) in Q.
    rewrite Em in Q at 1. cbn match in Q. rewrite join_concat in Q |- *.
    replace (w ++ (txt "[ " ++ (a ++ concat (map (app (txt ", ")) m)) ++ txt " ]") ++ r)
      with (w ++ "["%char :: [" "%char] ++ a ++ concat (map (app (txt ", ")) m) ++ txt " ]" ++ r) in *
      by (cbn [list_ascii_of_string app]; rewrite <- !app_assoc; reflexivity).
    set (u := [" "%char] ++ a ++ concat (map (app (txt ", ")) m) ++ txt " ]" ++ r) in *.
    rewrite (bracket_no_label w _ W).
    rewrite (parse_char_eq _ _ _ Q), (parse_char_here "[" w) by (auto || reflexivity).
    subst u. rewrite (parse_label_app _ a _ space_ws Ha)
      by (apply stops_more, stops_space, stops_char; reflexivity).
    set (v := concat (map (app (txt ", ")) m) ++ txt " ]" ++ r).
    destruct (more_labels_join m (Datatypes.S (length (skip v))) r (skip v) Hl) as (rest & R & SR);
      [|apply skip_idem|].
    { subst v m. cbn [map concat]. rewrite <- !app_assoc. change (skip (txt ", " ++ ?x)) with (txt ", " ++ x).
      rewrite !app_length. pose proof (concat_length l). cbn [length]. change (length (txt ", ")) with 2%nat. lia. }
    rewrite R. cbn [bind fst snd]. rewrite <- (parse_char_skip "]" rest), SR.
    change (parse_char "]" ("]"%char :: r)) with (Some r). exists r. auto.
Qed.

Lemma more_outputs_join l : forall fuel t, Forall (Forall label) l -> (length l < fuel)%nat ->
  skip t = skip (concat (map (app (txt ", ")) (map print_output l))) ->
  exists rest, more_outputs fuel t = Ok (l, rest) /\ skip rest = [].
Proof.
  induction l as [|o l IH]; intros fuel t H F Q; (destruct fuel as [|fuel]; [cbn in F; lia|]).
  - cbn in Q. cbn [more_outputs]. unfold parse_char. rewrite Q. eauto.
  - inversion H as [|? ? Ho Hl]; subst. cbn [more_outputs]. rewrite (parse_char_eq _ _ _ Q). cbn [map concat].
    rewrite <- !app_assoc. change (txt ", " ++ ?x) with ([] ++ ","%char :: [" "%char] ++ x).
    rewrite (parse_char_here "," []) by (constructor || reflexivity).
    set (u := concat (map (app (txt ", ")) (map print_output l))) in *.
    destruct (parse_output_ok [" "%char] o u ([" "%char] ++ print_output o ++ u) space_ws Ho) as (rest & R & SR);
      [|reflexivity|].
    { rewrite <- (app_nil_r u). apply stops_more, stops_nil. }
    rewrite R. cbn [bind]. destruct (IH fuel rest Hl ltac:(cbn in F; lia) SR) as (rest' & R' & SR').
    rewrite R'. exists rest'. split; [reflexivity|exact SR'].
Qed.
Lemma outputs_read l : l <> [] -> Forall (Forall label) l ->
  exists t, print_outputs l = Ok t /\ parse_outputs t = Ok l.
Proof.
  intros N H. destruct l as [|o l]; [congruence|]. eexists. split; [reflexivity|]. cbn [map].
  rewrite join_concat. inversion H as [|? ? Ho Hl]; subst. unfold parse_outputs.
  set (u := concat (map (app (txt ", ")) (map print_output l))).
  destruct (parse_output_ok [] o u (print_output o ++ u) (Forall_nil _) Ho) as (rest & R & SR); [|reflexivity|].
  { subst u. rewrite <- (app_nil_r (concat _)). apply stops_more, stops_nil. }
  rewrite R. cbn [bind].
  destruct (more_outputs_join l (S (length rest)) rest Hl) as (rest' & R' & SR'); [|exact SR|].
  { pose proof (concat_length (map print_output l)) as C. rewrite map_length in C. fold u in C.
    assert (length u <= length rest)%nat; [|lia].
    destruct l as [|b l]; [cbn; lia|]. assert (skip u = u) as U by reflexivity.
    rewrite U in SR. rewrite <- SR. apply skip_length. }
  rewrite R'. cbn [bind fst snd]. now rewrite SR'.
Qed.
