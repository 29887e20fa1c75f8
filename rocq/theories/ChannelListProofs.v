From Coq Require Import ZArith.
From Verif Require Import Base Memory IndexSequenceModel IndexSequenceProofs ChannelListModel.
Local Open Scope Z_scope.

Lemma to_ptrdiff_id z : - 2 ^ 63 <= z < 2 ^ 63 -> to_ptrdiff z = z.
Proof. intros H. unfold to_ptrdiff. rewrite Z.mod_small by lia. lia. Qed.
Lemma to_size_id z : 0 <= z < 2 ^ 64 -> to_size z = z.
Proof. intros H. unfold to_size. apply Z.mod_small. lia. Qed.

(** ** Ranges *)

(** Number of elements start, start+step, ... strictly before end. *)
Definition counts (s e step n : Z) : Prop :=
  0 <= n /\ forall k, 0 <= k -> (k < n <-> (if 0 <? step then s + k * step < e else e < s + k * step)).

Definition range_ok (r : range) : Prop :=
  0 <= r_start r < 2 ^ 63 /\ 0 <= r_end r < 2 ^ 63 /\ - 2 ^ 63 <= r_step r < 2 ^ 63
  /\ is_valid (r_start r) (r_end r) (r_step r) = true.

Lemma valid_cases s e step : is_valid s e step = true ->
  (0 < step /\ s <= e) \/ (step < 0 /\ e <= s).
Proof.
  unfold is_valid. destruct (Z.eqb_spec step 0); [discriminate|].
  destruct (Z.ltb_spec 0 step); intros G; apply Z.leb_le in G; lia.
Qed.

Lemma range_size_ok r : range_ok r ->
  exists n, range_size r = Ok n /\ counts (r_start r) (r_end r) (r_step r) n /\ n < 2 ^ 63.
Proof.
  intros (Hs & He & Ht & V). unfold range_size. rewrite V. cbn [negb].
  set (s := r_start r) in *. set (e := r_end r) in *. set (t := r_step r) in *.
  rewrite to_ptrdiff_id by lia.
  destruct (Z.eqb_spec (e - s) (- 2 ^ 63)); [lia|]. cbn [andb].
  destruct (valid_cases _ _ _ V) as [[P L]|[P L]].
  - pose proof (Z.quot_rem' (e - s) t) as Q. pose proof (Z.rem_bound_pos (e - s) t ltac:(lia) P) as R.
    set (q := Z.quot (e - s) t) in *. set (m := Z.rem (e - s) t) in *.
    assert (Hq : 0 <= q) by (unfold q; apply Z.quot_pos; lia).
    assert (Hq2 : q <= e - s) by nia.
    eexists. split; [reflexivity|].
    destruct (Z.eqb_spec m 0) as [Z0|Z0].
    + rewrite to_size_id by lia. split; [|lia]. split; [lia|].
      destruct (Z.ltb_spec 0 t); [|lia]. intros k Hk. split; nia.
    + assert (q < e - s) by nia.
      rewrite to_size_id by lia. split; [|lia]. split; [lia|].
      destruct (Z.ltb_spec 0 t); [|lia]. intros k Hk. split; nia.
  - pose proof (Z.quot_rem' (e - s) t) as Q.
    assert (R : t < Z.rem (e - s) t <= 0).
    { pose proof (Z.rem_bound_pos (- (e - s)) (- t) ltac:(lia) ltac:(lia)).
      rewrite Z.rem_opp_opp in H by lia. lia. }
    set (m := Z.rem (e - s) t) in *.
    assert (Hq : 0 <= Z.quot (e - s) t).
    { rewrite <- Z.quot_opp_opp by lia. apply Z.quot_pos; lia. }
    set (q := Z.quot (e - s) t) in *.
    assert (Hq2 : q <= s - e) by nia.
    eexists. split; [reflexivity|].
    destruct (Z.eqb_spec m 0) as [Z0|Z0].
    + rewrite to_size_id by lia. split; [|lia]. split; [lia|].
      destruct (Z.ltb_spec 0 t); [lia|]. intros k Hk. split; nia.
    + assert (q < s - e) by nia.
      rewrite to_size_id by lia. split; [|lia]. split; [lia|].
      destruct (Z.ltb_spec 0 t); [lia|]. intros k Hk. split; nia.
Qed.

Lemma counts_fun s e t n m : counts s e t n -> counts s e t m -> n = m.
Proof.
  intros [N1 N2] [M1 M2].
  destruct (Z.lt_trichotomy n m) as [L|[L|L]]; [|exact L|].
  - assert (n < n) by (apply N2; [lia|]; apply M2; lia). lia.
  - assert (m < m) by (apply M2; [lia|]; apply N2; lia). lia.
Qed.

Lemma counts_range r n k : range_ok r -> counts (r_start r) (r_end r) (r_step r) n -> 0 <= k < n ->
  0 <= r_start r + k * r_step r < 2 ^ 63.
Proof.
  intros (Hs & He & Ht & V) [N1 N2] Hk. assert (H := proj1 (N2 k ltac:(lia)) ltac:(lia)).
  destruct (valid_cases _ _ _ V) as [[P L]|[P L]]; destruct (Z.ltb_spec 0 (r_step r)); nia.
Qed.

Lemma range_at_ok r k : range_ok r -> 0 <= k ->
  range_at r k = if (if 0 <? r_step r then r_start r + k * r_step r <? r_end r
                     else r_end r <? r_start r + k * r_step r)
                 then Ok (r_start r + k * r_step r) else Throw OutOfRange.
Proof.
  intros R Hk. destruct (range_size_ok r R) as (n & E & C & B). unfold range_at. rewrite E. cbn [bind].
  pose proof (counts_range r n k R C) as Rg. destruct C as [N1 N2]. specialize (N2 k Hk).
  destruct (Z.leb_spec n k) as [L|L].
  - destruct (0 <? r_step r).
    + destruct (Z.ltb_spec (r_start r + k * r_step r) (r_end r)); [lia|reflexivity].
    + destruct (Z.ltb_spec (r_end r) (r_start r + k * r_step r)); [lia|reflexivity].
  - unfold range_index.
    replace (r_step r * k + r_start r) with (r_start r + k * r_step r) by ring.
    rewrite to_size_id by (specialize (Rg ltac:(lia)); lia).
    destruct (0 <? r_step r).
    + destruct (Z.ltb_spec (r_start r + k * r_step r) (r_end r)); [reflexivity|lia].
    + destruct (Z.ltb_spec (r_end r) (r_start r + k * r_step r)); [reflexivity|lia].
Qed.

(** The indices of a range. *)
Definition range_indices (s e step : Z) (l : list Z) : Prop :=
  exists n, counts s e step (Z.of_nat n) /\ l = map (fun k => s + Z.of_nat k * step) (seq 0 n).

Lemma append_loop_spec n : forall run step l,
  (forall k, (k < n)%nat -> 0 <= run + Z.of_nat k * step < 2 ^ 63) ->
  append_loop n run step l = l ++ map (fun k => run + Z.of_nat k * step) (seq 0 n).
Proof.
  induction n as [|n IH]; intros run step l H; cbn [append_loop].
  - cbn. now rewrite app_nil_r.
  - destruct n as [|n'].
    + cbn. f_equal. f_equal. lia.
    + rewrite to_size_id by (specialize (H 1%nat ltac:(lia)); lia).
      rewrite IH.
      * rewrite <- app_assoc. f_equal. change (seq 0 (S (S n'))) with (0%nat :: seq 1 (S n')).
        cbn [map app]. f_equal; [lia|]. rewrite <- seq_shift, map_map. apply map_ext. intros k. lia.
      * intros k Hk. specialize (H (S k) ltac:(lia)). lia.
Qed.

Lemma append_range_ok l r : range_ok r ->
  exists x, append_range l r = Ok (l ++ x) /\ range_indices (r_start r) (r_end r) (r_step r) x.
Proof.
  intros R. destruct (range_size_ok r R) as (n & E & C & B). unfold append_range. rewrite E. cbn [bind].
  rewrite append_loop_spec.
  - eexists. split; [reflexivity|]. exists (Z.to_nat n). split; [|reflexivity].
    rewrite Z2Nat.id by apply C. exact C.
  - intros k Hk. apply (counts_range r n); auto. lia.
Qed.

Lemma list_of_ranges_ok rs : Forall range_ok rs ->
  exists xs, list_of_ranges rs = Ok (concat xs)
    /\ Forall2 (fun r x => range_indices (r_start r) (r_end r) (r_step r) x) rs xs.
Proof.
  intros F. unfold list_of_ranges.
  assert (G : forall l, exists xs, append_ranges l rs = Ok (l ++ concat xs)
    /\ Forall2 (fun r x => range_indices (r_start r) (r_end r) (r_step r) x) rs xs).
  { induction F as [|r rs R F IH]; intros l.
    - exists []. split; [simpl; now rewrite app_nil_r|constructor].
    - destruct (append_range_ok l r R) as (x & E & I). cbn [append_ranges]. rewrite E. cbn [bind].
      destruct (IH (l ++ x)) as (xs & E2 & I2). exists (x :: xs). rewrite E2. split.
      + cbn [concat]. now rewrite app_assoc.
      + constructor; auto. }
  destruct (G []) as (xs & E & I). exists xs. auto.
Qed.

(** ** Printing *)
Lemma digit_char_ok d : 0 <= d < 10 -> is_digit (digit_char d) = true /\ digit_value (digit_char d) = d.
Proof.
  intros H. assert (E : exists n, (n < 10)%nat /\ d = Z.of_nat n) by (exists (Z.to_nat d); lia).
  destruct E as (n & Hn & ->).
  do 10 (destruct n as [|n]; [split; reflexivity|]). lia.
Qed.

Lemma digits_value_app a d : digits_value (a ++ [d]) = 10 * digits_value a + digit_value d.
Proof. unfold digits_value. rewrite fold_left_app. reflexivity. Qed.

Lemma digits_of_ok fuel : forall n, 0 <= n -> n < 2 ^ (Z.of_nat fuel) -> (1 <= fuel)%nat ->
  digits_of fuel n <> [] /\ Forall (fun c => is_digit c = true) (digits_of fuel n)
  /\ digits_value (digits_of fuel n) = n.
Proof.
  induction fuel as [|fuel IH]; intros n Hn Hb H1; [lia|]. cbn [digits_of].
  destruct (Z.ltb_spec n 10) as [L|L].
  - destruct (digit_char_ok n ltac:(lia)) as [D1 D2].
    split; [discriminate|]. split; [constructor; auto|]. unfold digits_value. cbn [fold_left]. lia.
  - assert (Hd : n / 10 < 2 ^ Z.of_nat fuel).
    { rewrite Nat2Z.inj_succ, Z.pow_succ_r in Hb by lia.
      apply Z.div_lt_upper_bound; lia. }
    assert (Hf : (1 <= fuel)%nat).
    { destruct fuel; [|lia]. simpl in Hb. lia. }
    destruct (IH (n / 10)) as (N & F & V); auto; [apply Z.div_pos; lia|].
    destruct (digit_char_ok (n mod 10) (Z.mod_pos_bound n 10 ltac:(lia))) as [D1 D2].
    split; [destruct (digits_of fuel (n / 10)); discriminate|].
    split; [apply Forall_app; split; auto|].
    rewrite digits_value_app, V, D2. pose proof (Z.div_mod n 10 ltac:(lia)). lia.
Qed.

Lemma print_size_ok n : 0 <= n ->
  print_size n <> [] /\ Forall (fun c => is_digit c = true) (print_size n)
  /\ digits_value (print_size n) = n.
Proof.
  intros H. unfold print_size. apply digits_of_ok; [exact H| |lia].
  rewrite Nat2Z.inj_succ. destruct (Z.eq_dec n 0) as [->|Hn]; [reflexivity|].
  rewrite Z2Nat.id by apply Z.log2_nonneg. apply Z.log2_spec. lia.
Qed.

Lemma print_size_num n : 0 <= n <= INT_MAX -> spaced_num n (print_size n).
Proof.
  intros H. destruct (print_size_ok n ltac:(lia)) as (N & F & V).
  exists [], (print_size n). split; [reflexivity|]. split; [constructor|].
  exists false, [], (print_size n). repeat split; auto; try (now left); try congruence;
    unfold INT_MIN; lia.
Qed.

Lemma print_ptrdiff_num z : - INT_MAX <= z <= INT_MAX -> spaced_num z (print_ptrdiff z).
Proof.
  intros H. unfold print_ptrdiff. destruct (Z.ltb_spec z 0); [|apply print_size_num; lia].
  destruct (print_size_ok (- z) ltac:(lia)) as (N & F & V).
  exists [], ("-"%char :: print_size (- z)). split; [reflexivity|]. split; [constructor|].
  exists true, ["-"%char], (print_size (- z)). repeat split; auto; try lia; unfold INT_MIN in *; unfold INT_MAX in *; lia.
Qed.

Lemma extend_run_spec diff : forall l curr n last rest,
  0 <= curr < 2 ^ 30 -> Forall (fun x => 0 <= x < 2 ^ 30) l ->
  extend_run diff curr l = (n, last, rest) ->
  last = curr + Z.of_nat n * diff
  /\ l = map (fun k => curr + Z.of_nat k * diff) (seq 1 n) ++ rest
  /\ 0 <= last < 2 ^ 30 /\ (length rest <= length l)%nat.
Proof.
  induction l as [|x l IH]; intros curr n last rest Hc Hl H; cbn [extend_run] in H.
  - injection H as <- <- <-. repeat split; simpl; lia.
  - inversion Hl as [|? ? Hx Hl']; subst.
    rewrite to_ptrdiff_id in H by lia.
    destruct (Z.eqb_spec (x - curr) diff) as [E|E].
    + destruct (extend_run diff x l) as [[n' last'] rest'] eqn:R. injection H as <- <- <-.
      destruct (IH _ _ _ _ Hx Hl' R) as (E1 & E2 & E3 & E4).
      split; [lia|]. split; [|split; [exact E3|simpl; lia]].
      cbn [seq map app]. f_equal; [lia|]. rewrite E2 at 1. f_equal.
      rewrite <- (seq_shift n' 1), map_map. apply map_ext. intros k. lia.
    + injection H as <- <- <-. repeat split; simpl; try lia.
Qed.

(** No index three times in a row. *)
Definition no_triple (l : list Z) : Prop :=
  forall i x, nth_error l i = Some x -> nth_error l (S i) = Some x -> nth_error l (S (S i)) <> Some x.

Lemma no_triple_skip l k : no_triple l -> no_triple (skipn k l).
Proof.
  intros H i x. rewrite !nth_error_skipn.
  replace (k + S i)%nat with (S (k + i)) by lia. replace (k + S (S i))%nat with (S (S (k + i))) by lia.
  apply H.
Qed.

Lemma no_triple_tl x l : no_triple (x :: l) -> no_triple l.
Proof. intros H. exact (no_triple_skip _ 1 H). Qed.

(** list_text and tail_text prepending *)
Lemma list_text_cons i t items u : item_text i t -> list_text "," item_text items u ->
  list_text "," item_text (i :: items) (t ++ ","%char :: u).
Proof.
  intros Hi [j tj js uj Hj Tj].
  apply (list_text_intro "," item_text i t (j :: js) (","%char :: tj ++ uj)); [exact Hi|].
  apply (tail_cons "," item_text [] j tj js uj); [constructor|exact Hj|exact Tj].
Qed.

Lemma item_one z : 0 <= z <= INT_MAX -> item_text [z] (print_size z).
Proof.
  intros H. rewrite <- (app_nil_r (print_size z)).
  constructor; [now apply print_size_num|constructor].
Qed.

Lemma item_run x d e : 0 <= x <= INT_MAX -> 0 <= e <= INT_MAX -> - INT_MAX <= d <= INT_MAX ->
  item_text (if d =? 1 then [x; e] else [x; d; e])
    (print_size x ++ (if d =? 1 then [] else ":"%char :: print_ptrdiff d) ++ ":"%char :: print_size e).
Proof.
  intros Hx He Hd.
  assert (Te : tail_text ":" spaced_num [e] (":"%char :: print_size e)).
  { rewrite <- (app_nil_r (print_size e)).
    apply (tail_cons ":" spaced_num [] e (print_size e) [] []); [constructor|now apply print_size_num|constructor]. }
  destruct (Z.eqb_spec d 1) as [E|E].
  - constructor; [now apply print_size_num|exact Te].
  - constructor; [now apply print_size_num|].
    apply (tail_cons ":" spaced_num [] d (print_ptrdiff d) [e] (":"%char :: print_size e));
      [constructor|now apply print_ptrdiff_num|exact Te].
Qed.

Lemma run_progression x d n : d <> 0 ->
  progression x d (x + Z.of_nat n * d) (map (fun k => x + Z.of_nat k * d) (seq 0 (S n))).
Proof.
  intros Hd. exists (S n). split; [reflexivity|]. intros k.
  destruct (Z.ltb_spec 0 d); split; nia.
Qed.

Lemma print_correct fuel : forall l, (length l < fuel)%nat -> l <> [] ->
  Forall (fun x => 0 <= x < 2 ^ 30) l -> no_triple l ->
  exists t items ls, print_channels fuel l = Ok t
    /\ list_text "," item_text items t /\ Forall2 denotes items ls
    /\ Forall no_overflow items /\ concat ls = l.
Proof.
  induction fuel as [|fuel IH]; intros l Hf Hne Hl NT; [lia|]. cbn [print_channels].
  assert (HM : INT_MAX = 2 ^ 31 - 1) by reflexivity.
  destruct l as [|x [|y r]]; [congruence| |].
  - inversion Hl as [|? ? Hx _]; subst.
    exists (print_size x), [[x]], [[x]]. split; [reflexivity|].
    split; [|split; [|split; [|reflexivity]]].
    + rewrite <- (app_nil_r (print_size x)). constructor; [apply item_one; lia|constructor].
    + constructor; [split; [lia|reflexivity]|constructor].
    + constructor; [exact I|constructor].
  - inversion Hl as [|? ? Hx Hl']; subst. inversion Hl' as [|? ? Hy Hr]; subst.
    rewrite to_ptrdiff_id by lia. set (d := y - x).
    destruct (extend_run d y r) as [[n last] rest] eqn:R.
    destruct (extend_run_spec d r y n last rest Hy Hr R) as (E1 & E2 & E3 & E4).
    destruct (Nat.leb_spec 2 (1 + n)) as [L|L].
    + (* a run of n + 2 elements *)
      assert (El : x :: y :: r = map (fun k => x + Z.of_nat k * d) (seq 0 (S (S n))) ++ rest).
      { rewrite E2. cbn [seq map app]. f_equal; [lia|]. f_equal; [unfold d; lia|]. f_equal.
        rewrite <- (seq_shift n 1), map_map. apply map_ext. intros k. unfold d. lia. }
      assert (Elast : last = x + Z.of_nat (S n) * d) by (rewrite E1; unfold d; lia).
      assert (Hd : d <> 0).
      { intros D0. destruct n as [|n']; [lia|].
        assert (N0 := NT 0%nat x). simpl in N0. rewrite E2 in N0. cbn [seq map app nth_error] in N0.
        apply N0; f_equal; unfold d in *; lia. }
      assert (Hit := item_run x d last ltac:(lia) ltac:(lia) ltac:(unfold d; lia)).
      set (item := if d =? 1 then [x; last] else [x; d; last]) in *.
      set (vals := map (fun k => x + Z.of_nat k * d) (seq 0 (S (S n)))).
      assert (Hden : denotes item vals).
      { unfold item, vals. rewrite Elast. pose proof (run_progression x d (S n) Hd) as P.
        destruct (Z.eqb_spec d 1) as [D1|D1].
        - cbn [denotes]. rewrite D1 in *. repeat split; try lia. exact P.
        - cbn [denotes]. repeat split; try lia. exact P. }
      assert (Hov : no_overflow item).
      { unfold item. destruct (Z.eqb_spec d 1); [exact I|]. cbn [no_overflow]. unfold d. lia. }
      destruct rest as [|z rest].
      * eexists _, [item], [vals]. split; [reflexivity|].
        split; [|split; [|split]].
        -- rewrite <- (app_nil_r (print_size x ++ _)). constructor; [exact Hit|constructor].
        -- constructor; [exact Hden|constructor].
        -- constructor; [exact Hov|constructor].
        -- cbn [concat]. rewrite El. reflexivity.
      * destruct (IH (z :: rest)) as (t & items & ls & P1 & P2 & P3 & P4 & P5).
        { simpl in *. lia. } { discriminate. }
        { assert (Fr : Forall (fun x => 0 <= x < 2 ^ 30) r) by exact Hr.
          rewrite E2 in Fr. apply Forall_app in Fr. apply Fr. }
        { replace (z :: rest) with (skipn (S (S n)) (x :: y :: r)); [now apply no_triple_skip|].
          rewrite El, skipn_app, skipn_all2 by (rewrite map_length, seq_length; lia).
          rewrite map_length, seq_length, Nat.sub_diag. reflexivity. }
        rewrite P1. cbn [bind]. eexists _, (item :: items), (vals :: ls). split; [reflexivity|].
        split; [now apply list_text_cons|]. split; [constructor; auto|]. split; [constructor; auto|].
        cbn [concat]. rewrite P5, El. reflexivity.
    + (* a single element *)
      destruct (IH (y :: r)) as (t & items & ls & P1 & P2 & P3 & P4 & P5); auto.
      { simpl in *. lia. } { discriminate. } { now apply no_triple_tl in NT. }
      rewrite P1. cbn [bind]. eexists _, ([x] :: items), ([x] :: ls). split; [reflexivity|].
      split; [apply list_text_cons; [apply item_one; lia|exact P2]|].
      split; [constructor; auto; split; [lia|reflexivity]|]. split; [constructor; auto; exact I|].
      cbn [concat app]. now rewrite P5.
Qed.

Lemma print_roundtrip l : l <> [] -> Forall (fun x => 0 <= x < 2 ^ 30) l -> no_triple l ->
  exists t, print_list l = Ok t /\ index_sequence t = Ok l.
Proof.
  intros Hne Hl NT.
  destruct (print_correct (S (length l)) l ltac:(lia) Hne Hl NT) as (t & items & ls & P1 & P2 & P3 & P4 & P5).
  exists t. split; [exact P1|]. rewrite <- P5.
  apply (sequence_complete items t ls); auto. right. exists t, [].
  split; [now rewrite app_nil_r|]. split; [exact P2|constructor].
Qed.
