(** Properties C13, C14, C15: index sequences, channel lists, channel ranges. *)
From Coq Require Import String.
From Verif Require Import Base IndexSequenceModel IndexSequenceProofs ChannelListModel ChannelListProofs.
Local Open Scope Z_scope.
Local Open Scope list_scope.

(** C13: every text of the grammar (with any whitespace, signs and leading zeros) is
    accepted and expands to the progressions its items denote, in order.  Partial: the
    code steps a signed int past the end of a range, which must not overflow. *)
Theorem C13_texts_expand_partial :
  forall items t ls,
    sequence_text items t -> Forall2 denotes items ls -> Forall no_overflow items ->
    index_sequence t = Ok (concat ls).
Proof. exact sequence_complete. Qed.
Print Assumptions C13_texts_expand_partial.

(** C13: nothing else is accepted. *)
Theorem C13_only_such_texts_accepted :
  forall t l, index_sequence t = Ok l ->
  exists items ls, sequence_text items t /\ Forall2 denotes items ls /\ l = concat ls.
Proof. exact sequence_sound. Qed.
Print Assumptions C13_only_such_texts_accepted.

Theorem C13_no_negative_index :
  forall t l, index_sequence t = Ok l -> Forall (fun x => 0 <= x) l.
Proof.
  intros t l H. destruct (sequence_sound t l H) as (items & ls & _ & D & ->).
  clear H t. induction D as [|i x items ls D1 _ IH]; simpl; [constructor|].
  apply Forall_app. split; [|exact IH].
  unfold denotes in D1. destruct i as [|a [|b [|c [|d i]]]]; try contradiction.
  - destruct D1 as [P ->]. constructor; [exact P|constructor].
  - destruct D1 as (Pa & Pb & n & -> & _). apply Forall_forall. intros y Hy.
    apply in_map_iff in Hy as (k & <- & _). lia.
  - destruct D1 as (Pa & Pb & _ & n & -> & H). apply Forall_forall. intros y Hy.
    apply in_map_iff in Hy as (k & <- & Hk). apply in_seq in Hk.
    assert (G := proj1 (H k) ltac:(lia)). destruct (Z.ltb_spec 0 b); nia.
Qed.
Print Assumptions C13_no_negative_index.

(** C13: whatever the text, the result is a list, an exception, or undefined because
    of an overflowing increment in an item contained in the text. *)
Theorem C13_undefined_only_by_overflow :
  forall t, index_sequence t = UB ->
  exists u v x a s b, t = u ++ v ++ x /\ item_text [a; s; b] v /\ 0 < s /\ INT_MAX < b + s.
Proof. exact sequence_UB. Qed.
Print Assumptions C13_undefined_only_by_overflow.

(** C13 is false in three ways: negative indices and zero steps do not raise
    invalid_argument but throw a char const pointer, and stepping past the end of a
    range may overflow. *)
Theorem C13_refuted :
  index_sequence (list_ascii_of_string "3,-1") = Throw CharPointer
  /\ index_sequence (list_ascii_of_string "1:0:5") = Throw CharPointer
  /\ index_sequence (list_ascii_of_string "-1:3") = Throw CharPointer
  /\ exists items ls t, sequence_text items t /\ Forall2 denotes items ls /\ index_sequence t = UB.
Proof.
  split; [vm_compute; reflexivity|]. split; [vm_compute; reflexivity|].
  split; [vm_compute; reflexivity|].
  exists [[5; 2147483647; 2147483647]], [[5]], (list_ascii_of_string "5:2147483647:2147483647").
  assert (T : item_text [5; 2147483647; 2147483647] (list_ascii_of_string "5:2147483647:2147483647")).
  { apply (item_run 5 2147483647 2147483647); unfold INT_MAX; lia. }
  split; [|split].
  - right. exists (list_ascii_of_string "5:2147483647:2147483647"), [].
    split; [now rewrite app_nil_r|]. split; [|constructor].
    rewrite <- (app_nil_r (list_ascii_of_string _)). constructor; [exact T|constructor].
  - constructor; [|constructor]. cbn [denotes]. repeat split; try lia.
    exists 1%nat. split; [reflexivity|]. intros k. cbn [Z.ltb Z.compare]. nia.
  - unfold index_sequence.
    destruct (parse_item (list_ascii_of_string "5:2147483647:2147483647")) as [m|] eqn:E;
      [|vm_compute in E; discriminate].
    destruct (parse_item_sound _ _ E) as (xs & r & -> & _).
    assert (Ex : xs = [5; 2147483647; 2147483647]).
    { pose proof (parse_item_complete _ _ [] T I eq_refl) as P. rewrite app_nil_r in P. congruence. }
    rewrite Ex. cbn [bind fst snd finish].
    destruct (Z.to_nat (Z.abs (2147483647 - 5))) eqn:En; [lia|]. reflexivity.
Qed.
Print Assumptions C13_refuted.

Example C13_example :
  index_sequence (list_ascii_of_string " 0:2 , 7 ,9 : -2: 4,+01") = Ok [0; 1; 2; 7; 9; 7; 5; 1]
  /\ index_sequence (list_ascii_of_string "  ") = Ok []
  /\ index_sequence (list_ascii_of_string "1,,2") = Throw InvalidArgument
  /\ index_sequence (list_ascii_of_string "1:2:3:4") = Throw InvalidArgument
  /\ index_sequence (list_ascii_of_string "1 2") = Throw InvalidArgument
  /\ index_sequence (list_ascii_of_string "99999999999") = Throw InvalidArgument.
Proof. vm_compute. repeat split. Qed.

(** C14 (partial: no index three times in a row, indices below 2^30). *)
Theorem C14_print_parse_round_trip_partial :
  forall l, l <> [] -> Forall (fun x => 0 <= x < 2 ^ 30) l -> no_triple l ->
  exists t, print_list l = Ok t /\ index_sequence t = Ok l.
Proof. exact print_roundtrip. Qed.
Print Assumptions C14_print_parse_round_trip_partial.

(** C14 is false for three equal indices, for indices beyond the range of int, and
    printing the empty list is undefined. *)
Theorem C14_refuted :
  (exists t, print_list [5; 5; 5] = Ok t /\ t = list_ascii_of_string "5:0:5"
             /\ index_sequence t = Throw CharPointer)
  /\ (exists t, print_list [2147483648] = Ok t /\ index_sequence t = Throw InvalidArgument)
  /\ print_list [] = UB.
Proof.
  split; [|split; [|reflexivity]]; eexists; (split; [vm_compute; reflexivity|]);
    try split; vm_compute; reflexivity.
Qed.
Print Assumptions C14_refuted.

Example C14_example :
  print_list [0; 1; 2; 3; 7; 9; 11; 8; 8; 5; 4] = Ok (list_ascii_of_string "0:3,7:2:11,8,8,5,4")
  /\ print_list [9; 8; 7; 3] = Ok (list_ascii_of_string "9:-1:7,3").
Proof. vm_compute. auto. Qed.

(** C15: construction accepts exactly the ranges with non-zero step pointing from start
    towards end. *)
Theorem C15_valid_ranges :
  forall s e step,
    (exists r, range_new s e step = Ok r /\ r = MkRange s e step) /\ ((0 < step /\ s <= e) \/ (step < 0 /\ e <= s))
    \/ range_new s e step = Throw InvalidArgument /\ ~ ((0 < step /\ s <= e) \/ (step < 0 /\ e <= s)).
Proof.
  intros s e step. unfold range_new. destruct (is_valid s e step) eqn:V.
  - left. split; [eauto|]. now apply valid_cases.
  - right. split; [reflexivity|]. unfold is_valid in V.
    destruct (Z.eqb_spec step 0); [lia|].
    destruct (Z.ltb_spec 0 step); apply Z.leb_gt in V; lia.
Qed.
Print Assumptions C15_valid_ranges.

(** C15: size() counts the elements before the end; at() yields them.  Indices are below
    2^63 (they are converted to ptrdiff_t). *)
Theorem C15_size_counts :
  forall r, range_ok r ->
  exists n, range_size r = Ok n
    /\ 0 <= n /\ forall k, 0 <= k ->
       (k < n <-> if 0 <? r_step r then r_start r + k * r_step r < r_end r
                  else r_end r < r_start r + k * r_step r).
Proof.
  intros r R. destruct (range_size_ok r R) as (n & E & C & _). exists n. split; [exact E|exact C].
Qed.
Print Assumptions C15_size_counts.

Theorem C15_at :
  forall r k, range_ok r -> 0 <= k ->
  range_at r k = if (if 0 <? r_step r then r_start r + k * r_step r <? r_end r
                     else r_end r <? r_start r + k * r_step r)
                 then Ok (r_start r + k * r_step r) else Throw OutOfRange.
Proof. exact range_at_ok. Qed.
Print Assumptions C15_at.

Theorem C15_list_of_ranges :
  forall rs, Forall range_ok rs ->
  exists xs, list_of_ranges rs = Ok (List.concat xs)
    /\ Forall2 (fun r x => range_indices (r_start r) (r_end r) (r_step r) x) rs xs.
Proof. exact list_of_ranges_ok. Qed.
Print Assumptions C15_list_of_ranges.

Example C15_example :
  list_of_ranges [MkRange 3 10 3; MkRange 5 1 (-2); MkRange 4 4 1] = Ok [3; 6; 9; 5; 3]
  /\ range_size (MkRange 3 10 3) = Ok 3 /\ range_at (MkRange 3 10 3) 3 = Throw OutOfRange
  /\ Forall range_ok [MkRange 3 10 3; MkRange 5 1 (-2); MkRange 4 4 1].
Proof.
  split; [vm_compute; reflexivity|]. split; [vm_compute; reflexivity|].
  split; [vm_compute; reflexivity|]. repeat constructor; cbn; lia.
Qed.
