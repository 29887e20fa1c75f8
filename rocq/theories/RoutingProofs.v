(** The routing table of the convolvers as a finite map. *)
From Verif Require Import Base Memory ConvolverModel RingSum.
From Coq Require Import Sorted Permutation.

Section Table.
  Context {T : Type}.
  Local Notation routing := (routing T).

  Lemma r_less_spec (a b : routing) :
    r_less a b = true <-> (r_out a < r_out b \/ (r_out a = r_out b /\ r_in a < r_in b)).
  Proof.
    unfold r_less. destruct (Nat.eqb_spec (r_out a) (r_out b)).
    - rewrite Nat.ltb_lt. lia.
    - rewrite Nat.ltb_lt. lia.
  Qed.
  Lemma r_less_false (a b : routing) :
    r_less a b = false <-> (r_out b < r_out a \/ (r_out a = r_out b /\ r_in b <= r_in a)).
  Proof.
    unfold r_less. destruct (Nat.eqb_spec (r_out a) (r_out b)).
    - rewrite Nat.ltb_ge. lia.
    - rewrite Nat.ltb_ge. lia.
  Qed.
  Definition same_key (a b : routing) : Prop := r_in a = r_in b /\ r_out a = r_out b.
  Lemma r_equiv_spec (a b : routing) : r_equiv a b = true <-> same_key a b.
  Proof.
    unfold r_equiv, same_key. rewrite andb_true_iff, !negb_true_iff, !r_less_false. lia.
  Qed.
  Lemma r_equiv_false (a b : routing) : r_equiv a b = false <-> ~ same_key a b.
  Proof. rewrite <- r_equiv_spec. destruct (r_equiv a b); split; congruence. Qed.

  Definition less (a b : routing) : Prop := r_less a b = true.
  Definition sorted (t : list routing) : Prop := StronglySorted less t.

  Lemma ms_insert_In (x : routing) t y : In y (ms_insert x t) <-> y = x \/ In y t.
  Proof.
    induction t as [|z t IH]; simpl; [intuition|].
    destruct (r_less x z); simpl; [intuition|]. rewrite IH. intuition.
  Qed.
  Lemma ms_insert_sorted (x : routing) t : sorted t -> (forall y, In y t -> ~ same_key x y) -> sorted (ms_insert x t).
  Proof.
    intros S. induction S as [|z t St IH Hz]; intros N; simpl.
    - constructor; constructor.
    - destruct (r_less x z) eqn:E.
      + constructor; [constructor; assumption|]. constructor; [exact E|].
        rewrite Forall_forall in *. intros y Hy. specialize (Hz y Hy). unfold less in *.
        rewrite r_less_spec in *. lia.
      + constructor; [apply IH; intros; apply N; now right|].
        apply Forall_forall. intros y Hy. apply ms_insert_In in Hy as [->|Hy].
        * specialize (N z (or_introl eq_refl)). unfold same_key in N. apply r_less_false in E.
          apply r_less_spec. lia.
        * rewrite Forall_forall in Hz. auto.
  Qed.
  Lemma ms_insert_length (x : routing) t : length (ms_insert x t) = S (length t).
  Proof. induction t as [|y t IH]; simpl; [reflexivity|]. destruct (r_less x y); simpl; lia. Qed.

  Lemma sorted_tail_key (x : routing) t : sorted (x :: t) -> forall y, In y t -> ~ same_key x y.
  Proof.
    intros S y Hy. inversion S as [|? ? _ F]; subst. rewrite Forall_forall in F. specialize (F y Hy).
    apply r_less_spec in F. unfold same_key. lia.
  Qed.

  Lemma ms_erase_one_range (x : routing) (t : list routing) : sorted t -> ms_erase_one x t = ms_erase_range x t.
  Proof.
    intros S. induction S as [|y t St IH Hy]; simpl; [reflexivity|]. unfold ms_erase_range in *. simpl.
    destruct (r_equiv x y) eqn:E; simpl; [|now rewrite IH].
    symmetry. rewrite <- (filter_ext_in (fun _ => true)).
    - clear. induction t; simpl; [reflexivity|]. now f_equal.
    - intros z Hz. symmetry. apply negb_true_iff, r_equiv_false. intros K. apply r_equiv_spec in E.
      rewrite Forall_forall in Hy. specialize (Hy z Hz). apply r_less_spec in Hy.
      unfold same_key in *. lia.
  Qed.
  Lemma filter_sorted (f : routing -> bool) t : sorted t -> sorted (filter f t).
  Proof.
    intros S. induction S as [|y t St IH Hy]; simpl; [constructor|].
    destruct (f y); [|exact IH]. constructor; [exact IH|].
    rewrite Forall_forall in *. intros z Hz. apply filter_In in Hz. now apply Hy.
  Qed.

  (** *** Specification: finite maps from (input, output) to (filter, gain) *)
  Definition fmap := nat -> nat -> option (nat * T).
  Definition fempty : fmap := fun _ _ => None.
  Definition fset (m : fmap) (i o : nat) (v : option (nat * T)) : fmap :=
    fun i' o' => if (i' =? i) && (o' =? o) then v else m i' o'.
  (** number of entries with input < [ni], output < [no] *)
  Definition fcount (ni no : nat) (m : fmap) : nat :=
    list_sum (map (fun o => list_sum (map (fun i => match m i o with Some _ => 1 | None => 0 end)
                                          (seq 0 ni))) (seq 0 no)).

  (** the map represented by a table *)
  Definition key_is (i o : nat) (r : routing) : bool := (r_in r =? i) && (r_out r =? o).
  Definition table_map (t : list routing) : fmap := fun i o =>
    option_map (fun r => (r_filter r, r_gain r)) (find (key_is i o) t).

  Definition valid (ni no : nat) (t : list routing) : Prop :=
    sorted t /\ forall r, In r t -> r_in r < ni /\ r_out r < no.

  Lemma find_insert (x : routing) (t : list routing) i o : sorted t -> (forall y, In y t -> ~ same_key x y) ->
    find (key_is i o) (ms_insert x t) = if key_is i o x then Some x else find (key_is i o) t.
  Proof.
    intros S N. induction t as [|y t IH]; simpl; [reflexivity|].
    assert (S' : sorted t) by (now inversion S).
    destruct (r_less x y); simpl; [reflexivity|]. rewrite IH by (auto; intros; apply N; now right).
    destruct (key_is i o y) eqn:Ey; [|reflexivity]. destruct (key_is i o x) eqn:Ex; [|reflexivity].
    exfalso. apply (N y (or_introl eq_refl)). unfold key_is in *.
    apply andb_true_iff in Ex as [A B], Ey as [C D].
    rewrite Nat.eqb_eq in *. unfold same_key. lia.
  Qed.
  Lemma find_erase (x : routing) (t : list routing) i o :
    find (key_is i o) (ms_erase_range x t) = if key_is i o x then None else find (key_is i o) t.
  Proof.
    unfold ms_erase_range. induction t as [|y t IH]; simpl; [destruct (key_is i o x); reflexivity|].
    destruct (r_equiv x y) eqn:E; simpl.
    - rewrite IH. apply r_equiv_spec in E as [A B]. unfold key_is in *. rewrite A, B.
      destruct ((r_in y =? i) && (r_out y =? o)); reflexivity.
    - rewrite IH. destruct (key_is i o y) eqn:Ey; [|reflexivity]. destruct (key_is i o x) eqn:Ex; [|reflexivity].
      exfalso. apply r_equiv_false in E. apply E. unfold key_is in *.
      apply andb_true_iff in Ex as [A B], Ey as [C D]. rewrite Nat.eqb_eq in *. unfold same_key. lia.
  Qed.
  Lemma key_is_eqb x i o : key_is i o x = (i =? r_in x) && (o =? r_out x).
  Proof. unfold key_is. now rewrite (Nat.eqb_sym i), (Nat.eqb_sym o). Qed.

  Lemma erase_not_in (x : routing) (t : list routing) y : In y (ms_erase_range x t) -> In y t /\ ~ same_key x y.
  Proof.
    unfold ms_erase_range. rewrite filter_In, negb_true_iff, r_equiv_false. auto.
  Qed.

  (** *** Counting *)
  Lemma list_sum_app' l m : list_sum (l ++ m) = list_sum l + list_sum m.
  Proof. apply list_sum_app. Qed.
  Lemma list_sum_map_add {A} (f g : A -> nat) l :
    list_sum (map (fun x => f x + g x) l) = list_sum (map f l) + list_sum (map g l).
  Proof. induction l; simpl; [reflexivity|]. rewrite IHl. lia. Qed.
  Lemma list_sum_indicator k n : k < n -> list_sum (map (fun i => if i =? k then 1 else 0) (seq 0 n)) = 1.
  Proof.
    intros H. replace n with (k + S (n - S k)) by lia. rewrite seq_app, map_app, list_sum_app. simpl.
    rewrite Nat.eqb_refl.
    assert (Z : forall l, (forall i, In i l -> i <> k) -> list_sum (map (fun i => if i =? k then 1 else 0) l) = 0).
    { induction l as [|a l IH]; intros Q; simpl; [reflexivity|].
      destruct (Nat.eqb_spec a k); [exfalso; apply (Q a); [now left|assumption]|]. apply IH. intros; apply Q; now right. }
    rewrite !Z; [lia| |]; intros i Hi; apply in_seq in Hi; lia.
  Qed.
  Lemma list_sum_zero {A} (f : A -> nat) l : (forall x, In x l -> f x = 0) -> list_sum (map f l) = 0.
  Proof.
    intros H. induction l as [|a l IH]; simpl; [reflexivity|]. rewrite H by now left. rewrite IH; [reflexivity|].
    intros; apply H; now right.
  Qed.
  Lemma fcount_ext ni no m m' : (forall i o, i < ni -> o < no -> m i o = m' i o) -> fcount ni no m = fcount ni no m'.
  Proof.
    intros H. unfold fcount. f_equal. apply map_ext_in. intros o Ho. apply in_seq in Ho.
    f_equal. apply map_ext_in. intros i Hi. apply in_seq in Hi. now rewrite H by lia.
  Qed.
  Lemma fcount_add ni no m i o v : i < ni -> o < no -> m i o = None ->
    fcount ni no (fset m i o (Some v)) = S (fcount ni no m).
  Proof.
    intros Hi Ho N. unfold fcount.
    rewrite (map_ext_in _ (fun o' => list_sum (map (fun i' => match m i' o' with Some _ => 1 | None => 0 end) (seq 0 ni))
                                   + (if o' =? o then 1 else 0)) (seq 0 no)).
    - rewrite list_sum_map_add, list_sum_indicator by exact Ho. lia.
    - intros o' Ho'. destruct (Nat.eqb_spec o' o) as [->|No].
      + transitivity (list_sum (map (fun i' => match m i' o with Some _ => 1 | None => 0 end
                                              + (if i' =? i then 1 else 0)) (seq 0 ni))).
        2:{ now rewrite list_sum_map_add, list_sum_indicator. }
        f_equal. apply map_ext_in.
        intros i' _. unfold fset. rewrite Nat.eqb_refl, andb_true_r.
        destruct (Nat.eqb_spec i' i) as [->|]; [now rewrite N|lia].
      + rewrite Nat.add_0_r. f_equal. apply map_ext_in. intros i' _. unfold fset.
        destruct (Nat.eqb_spec o' o); [contradiction|]. now rewrite andb_false_r.
  Qed.
  Lemma find_none_key (t : list routing) i o : (forall r, In r t -> key_is i o r = false) -> find (key_is i o) t = None.
  Proof.
    induction t as [|r t IH]; intros H; simpl; [reflexivity|]. rewrite H by now left.
    apply IH. intros; apply H; now right.
  Qed.
  Lemma table_length ni no (t : list routing) : valid ni no t -> length t = fcount ni no (table_map t).
  Proof.
    intros [S V]. induction t as [|r t IH].
    - symmetry. unfold fcount. apply list_sum_zero. intros o _. now apply list_sum_zero.
    - assert (S' : sorted t) by (now inversion S).
      destruct (V r (or_introl eq_refl)) as [A B].
      rewrite (fcount_ext ni no _ (fset (table_map t) (r_in r) (r_out r) (Some (r_filter r, r_gain r)))).
      + rewrite fcount_add; auto.
        * simpl. f_equal. apply IH; auto. intros; apply V; now right.
        * unfold table_map. rewrite find_none_key; [reflexivity|]. intros y Hy.
          assert (K := sorted_tail_key r t S y Hy). unfold key_is, same_key in *.
          destruct (Nat.eqb_spec (r_in y) (r_in r)), (Nat.eqb_spec (r_out y) (r_out r)); try reflexivity. lia.
      + intros i o _ _. unfold fset, table_map. simpl. rewrite key_is_eqb.
        destruct ((i =? r_in r) && (o =? r_out r)); reflexivity.
  Qed.

  (** *** setRoutingEntry / removeRoutingEntry refine the finite map *)
  (** the specified outcome of setRoutingEntry: the new map, or rejection *)
  Definition fset_entry (ni no nf max : nat) (m : fmap) (x : routing) : option fmap :=
    if (r_in x <? ni) && (r_out x <? no) && (r_filter x <? nf)
       && (match m (r_in x) (r_out x) with Some _ => true | None => fcount ni no m <? max end)
    then Some (fset m (r_in x) (r_out x) (Some (r_filter x, r_gain x))) else None.

  Lemma find_existing (x : routing) (t : list routing) : find (key_is (r_in x) (r_out x)) t = None -> forall y, In y t -> ~ same_key x y.
  Proof.
    intros E y Hy [A B]. apply (find_none _ _ E y) in Hy. unfold key_is in Hy.
    rewrite A, B, !Nat.eqb_refl in Hy. discriminate.
  Qed.

  Lemma set_routing_ok ni no nf max (t : list routing) x : valid ni no t -> length t <= max ->
    match fset_entry ni no nf max (table_map t) x with
    | Some m => exists t', set_routing ni no nf max t x = (Ok tt, t') /\ valid ni no t' /\ length t' <= max
                  /\ forall i o, table_map t' i o = m i o
    | None => set_routing ni no nf max t x = (Throw InvalidArgument, t)
    end.
  Proof.
    intros [S V] L. unfold fset_entry, set_routing.
    destruct (Nat.leb_spec ni (r_in x)), (Nat.ltb_spec (r_in x) ni); try lia; cbn [andb]; [reflexivity|].
    destruct (Nat.leb_spec no (r_out x)), (Nat.ltb_spec (r_out x) no); try lia; cbn [andb]; [reflexivity|].
    destruct (Nat.leb_spec nf (r_filter x)), (Nat.ltb_spec (r_filter x) nf); try lia; cbn [andb]; [reflexivity|].
    rewrite ms_erase_one_range by exact S.
    assert (Se : sorted (ms_erase_range x t)) by (now apply filter_sorted).
    assert (Ne : forall y, In y (ms_erase_range x t) -> ~ same_key x y)
      by (intros y Hy; now apply erase_not_in in Hy).
    assert (Fin : length (ms_erase_range x t) < max ->
      exists t', (if max <=? length (ms_erase_range x t) then (Throw InvalidArgument, ms_erase_range x t)
                  else (Ok tt, ms_insert x (ms_erase_range x t))) = (Ok tt, t')
        /\ valid ni no t' /\ length t' <= max
        /\ (forall i o, table_map t' i o = fset (table_map t) (r_in x) (r_out x) (Some (r_filter x, r_gain x)) i o)).
    { intros Lm. destruct (Nat.leb_spec max (length (ms_erase_range x t))); [lia|].
      eexists; split; [reflexivity|]. split; [|split].
      - split; [now apply ms_insert_sorted|]. intros r Hr. apply ms_insert_In in Hr as [->|Hr]; [auto|].
        apply erase_not_in in Hr as [Hr _]. auto.
      - rewrite ms_insert_length. lia.
      - intros i o. unfold table_map, fset. rewrite find_insert, find_erase by assumption.
        rewrite key_is_eqb. destruct ((i =? r_in x) && (o =? r_out x)); reflexivity. }
    destruct (table_map t (r_in x) (r_out x)) as [v|] eqn:M.
    - apply Fin. unfold table_map in M.
      destruct (find (key_is (r_in x) (r_out x)) t) as [y|] eqn:Ey; [|discriminate].
      apply find_some in Ey as [Hy Ky]. unfold key_is in Ky. apply andb_true_iff in Ky as [K1 K2].
      apply Nat.eqb_eq in K1, K2.
      assert (Q : r_equiv x y = true) by (apply r_equiv_spec; split; congruence).
      assert (R : length (ms_erase_range x t) < length t); [|lia].
      clear - Hy Q. unfold ms_erase_range. induction t as [|z t IH]; [destruct Hy|].
      simpl. assert (B : forall l : list routing, length (filter (fun y => negb (r_equiv x y)) l) <= length l).
      { induction l as [|a l IHl]; simpl; [lia|]. destruct (negb (r_equiv x a)); simpl; lia. }
      specialize (B t). destruct Hy as [->|Hy].
      + rewrite Q. simpl. lia.
      + specialize (IH Hy). destruct (negb (r_equiv x z)); simpl; lia.
    - unfold table_map in M. destruct (find (key_is (r_in x) (r_out x)) t) eqn:Ef; [discriminate|].
      assert (E : ms_erase_range x t = t).
      { assert (Q := find_existing x t Ef). clear - Q. unfold ms_erase_range.
        induction t as [|y t IH]; [reflexivity|]. simpl.
        assert (r_equiv x y = false) as -> by (apply r_equiv_false, Q; now left). simpl. f_equal. apply IH.
        intros; apply Q; now right. }
      rewrite E in *. rewrite (table_length ni no t) in * by (split; auto).
      destruct (Nat.ltb_spec (fcount ni no (table_map t)) max) as [A|A].
      + now apply Fin.
      + destruct (Nat.leb_spec max (fcount ni no (table_map t))); [reflexivity|lia].
  Qed.

  Lemma remove_routing_ok zero ni no max (t : list routing) i o : valid ni no t -> length t <= max ->
    let t' := snd (remove_routing zero t i o) in
    valid ni no t' /\ length t' <= max
    /\ forall i' o', table_map t' i' o' = fset (table_map t) i o None i' o'.
  Proof.
    intros [S V] L t'. unfold remove_routing in t'. cbn [snd] in t'. split; [|split].
    - split; [now apply filter_sorted|]. intros r Hr. apply erase_not_in in Hr as [Hr _]. auto.
    - assert (B : forall l : list routing, length (filter (fun y => negb (r_equiv (MkRouting i o 0 zero) y)) l) <= length l).
      { induction l as [|a l IHl]; simpl; [lia|]. destruct (negb (r_equiv _ a)); simpl; lia. }
      specialize (B t). unfold t', ms_erase_range. lia.
    - intros i' o'. unfold t', table_map, fset. rewrite find_erase, key_is_eqb. simpl.
      destruct ((i' =? i) && (o' =? o)); reflexivity.
  Qed.

  (** *** The order of insertions is irrelevant *)
  Lemma ms_insert_comm (x y : routing) (t : list routing) : ~ same_key x y ->
    ms_insert x (ms_insert y t) = ms_insert y (ms_insert x t).
  Proof.
    intros N. induction t as [|z t IH]; simpl.
    - destruct (r_less x y) eqn:A, (r_less y x) eqn:B; try reflexivity.
      + apply r_less_spec in A, B. lia.
      + apply r_less_false in A, B. unfold same_key in N. lia.
    - destruct (r_less y z) eqn:A, (r_less x z) eqn:B; simpl; rewrite ?A, ?B; simpl.
      + destruct (r_less x y) eqn:C, (r_less y x) eqn:D; try reflexivity.
        * apply r_less_spec in C, D. lia.
        * apply r_less_false in C, D. unfold same_key in N. lia.
      + destruct (r_less x y) eqn:C; [|now rewrite ?A, ?B].
        exfalso. apply r_less_spec in A, C. apply r_less_false in B. lia.
      + destruct (r_less y x) eqn:C; [|now rewrite ?A, ?B].
        exfalso. apply r_less_spec in B, C. apply r_less_false in A. lia.
      + now rewrite IH.
  Qed.
End Table.
