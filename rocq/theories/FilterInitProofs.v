(** Proofs about the initial filter matrix. *)
From Coq Require Import Ascii Permutation.
From Verif Require Import Base Memory FilterInitModel FilterInitSpec.
Local Open Scope res_scope.

(** *** Names *)
Lemma split_nonempty l : split l <> [].
Proof. destruct l as [|c l]; cbn; [discriminate|]. destruct (Ascii.eqb c comma); [discriminate|]. destruct (split l); discriminate. Qed.
Lemma split_separated l : separated l (split l).
Proof.
  split; [apply split_nonempty|]. induction l as [|c l [IH1 IH2]].
  - split; [reflexivity|]. intros p [<-|[]] [].
  - cbn [split]. pose proof (split_nonempty l) as N. destruct (Ascii.eqb_spec c comma) as [->|E].
    + split.
      * destruct (split l) as [|f fs]; [contradiction|]. cbn [joined app]. now rewrite <- IH1.
      * intros p [<-|H]; [intros []|now apply IH2].
    + destruct (split l) as [|f fs]; [contradiction|]. split.
      * rewrite <- IH1. destruct fs; reflexivity.
      * intros p [<-|H]; [|apply IH2; now right]. intros [H|H]; [now apply E|]. revert H. apply IH2. now left.
Qed.
Lemma split_join p ps : (forall q, In q (p :: ps) -> ~ In ","%char q) -> split (joined (p :: ps)) = p :: ps.
Proof.
  revert p. induction ps as [|p' ps IH]; intros p H.
  - cbn [joined]. assert (N : ~ In ","%char p) by (apply H; now left). clear H. induction p as [|c p IH]; [reflexivity|]. cbn [split].
    destruct (Ascii.eqb_spec c comma) as [->|E]; [exfalso; apply N; now left|]. rewrite IH; [reflexivity|]. intros X. apply N. now right.
  - assert (Np : ~ In ","%char p) by (apply H; now left).
    change (joined (p :: p' :: ps)) with (p ++ ","%char :: joined (p' :: ps)).
    assert (E' : split (joined (p' :: ps)) = p' :: ps) by (apply IH; intros q Hq; apply H; now right).
    clear H IH. induction p as [|c p IH].
    + cbn [app split]. now rewrite E'.
    + cbn [app split]. destruct (Ascii.eqb_spec c comma) as [->|E]; [exfalso; apply Np; now left|]. rewrite IH; [reflexivity|]. intros X. apply Np. now right.
Qed.

Lemma is_blank c : is_quote_or_space c = true <-> blank c.
Proof.
  unfold is_quote_or_space, blank. rewrite orb_true_iff, !Ascii.eqb_eq. tauto.
Qed.
Lemma trim_left_spec l : exists a, l = a ++ trim_left l /\ Forall blank a /\ forall c q, trim_left l = c :: q -> ~ blank c.
Proof.
  induction l as [|c l (a & E & F & H)]; cbn [trim_left].
  - exists []. repeat split; [constructor|discriminate].
  - destruct (is_quote_or_space c) eqn:B.
    + exists (c :: a). split; [cbn; now rewrite <- E|]. split; [|exact H]. constructor; [now apply is_blank|exact F].
    + exists []. split; [reflexivity|]. split; [constructor|]. intros c' q X. injection X as <- <-. rewrite <- is_blank. congruence.
Qed.
Lemma trim_stripped l : stripped l (trim l).
Proof.
  unfold trim. destruct (trim_left_spec l) as (a & E & F & H). set (m := trim_left l) in *.
  destruct (trim_left_spec (rev m)) as (b & Eb & Fb & Hb). set (n := trim_left (rev m)) in *.
  assert (Em : m = rev n ++ rev b) by (rewrite <- rev_app_distr, <- Eb, rev_involutive; reflexivity).
  exists a, (rev b). split; [now rewrite <- Em|]. split; [exact F|]. split; [now apply Forall_rev|]. split.
  - intros c q X. apply (H c (q ++ rev b)). rewrite Em, X. reflexivity.
  - intros c q X. apply (Hb c (rev q)). rewrite <- (rev_involutive n), X, rev_app_distr. reflexivity.
Qed.
Lemma app_blank_unique a a' q q' :
  a ++ q = a' ++ q' -> Forall blank a -> Forall blank a' -> (forall c r, q = c :: r -> ~ blank c) -> (forall c r, q' = c :: r -> ~ blank c) ->
  q = q'.
Proof.
  revert a'. induction a as [|x a IH]; intros [|x' a'] E F F' H H'; cbn in E.
  - exact E.
  - exfalso. apply (H x' (a' ++ q')); [exact E|]. now inversion F'.
  - exfalso. apply (H' x (a ++ q)); [now rewrite E|]. now inversion F.
  - injection E as -> E. apply (IH a'); [exact E|now inversion F|now inversion F'|exact H|exact H'].
Qed.
Lemma stripped_all p q : Forall blank p -> stripped p q -> q = [].
Proof.
  intros F (a & b & -> & _ & _ & H & _). destruct q as [|c q]; [reflexivity|]. exfalso. apply (H c q eq_refl).
  rewrite !Forall_app in F. destruct F as (_ & F & _). now inversion F.
Qed.
Lemma stripped_unique p q q' : stripped p q -> stripped p q' -> q = q'.
Proof.
  intros S1 S2. destruct S1 as (a & b & E & Fa & Fb & H1 & H2) eqn:X1. clear X1. destruct S2 as (a' & b' & E' & Fa' & Fb' & H1' & H2').
  destruct q as [|c q].
  - cbn in E. symmetry. apply (stripped_all p); [rewrite E; now apply Forall_app|]. exists a', b'. auto.
  - destruct q' as [|c' q'].
    + apply (stripped_all p); [rewrite E'; now apply Forall_app|]. exists a, b. auto.
    + assert (E1 : (c :: q) ++ b = (c' :: q') ++ b').
      { apply (app_blank_unique a a'); [congruence|exact Fa|exact Fa'| |].
        - intros x r X. cbn in X. injection X as <- _. now apply (H1 c q).
        - intros x r X. cbn in X. injection X as <- _. now apply (H1' c' q'). }
      rewrite <- (rev_involutive (c :: q)), <- (rev_involutive (c' :: q')). f_equal.
      apply (app_blank_unique (rev b) (rev b')).
      * rewrite <- !rev_app_distr. now rewrite E1.
      * now apply Forall_rev.
      * now apply Forall_rev.
      * intros x r X. apply (H2 x (rev r)). rewrite <- (rev_involutive (c :: q)), X. reflexivity.
      * intros x r X. apply (H2' x (rev r)). rewrite <- (rev_involutive (c' :: q')), X. reflexivity.
Qed.

Section Files.
  Context {D : Type} (zero : D) (lookup : text -> option (@file D)).
  Notation holds := (holds zero lookup).

  Definition well_formed (f : @filters D) : Prop := snd f <> [] /\ forall row, In row (snd f) -> length row = fst f.
  Lemma holds_well_formed name f : holds name f -> well_formed f.
  Proof.
    intros (ch & fr & smp & _ & P & _ & ->). split; cbn [fst snd].
    - intros E. apply map_eq_nil in E. destruct ch; [lia|discriminate].
    - intros row H. apply in_map_iff in H as (k & <- & _). now rewrite map_length, seq_length.
  Qed.
  Lemma map_res_pure {A B} (f : A -> res B) (g : A -> B) l : (forall x, In x l -> f x = Ok (g x)) -> map_res f l = Ok (map g l).
  Proof.
    induction l as [|x l IH]; intros H; [reflexivity|]. cbn [map_res map]. rewrite H by now left. cbn [bind]. rewrite IH by (intros; apply H; now right). reflexivity.
  Qed.
  Lemma load_ok name f : holds name f -> from_audio_file lookup name = Ok f.
  Proof.
    intros (ch & fr & smp & E & P & L & ->). unfold from_audio_file. rewrite E.
    rewrite (map_res_pure _ (fun row => map (fun t => nth (t * ch + row) smp zero) (seq 0 fr))); [reflexivity|].
    intros row Hr. apply in_seq in Hr. apply map_res_pure. intros t Ht. apply in_seq in Ht.
    assert (t * ch + row < length smp) by nia. rewrite (nth_error_nth' smp zero) by assumption. reflexivity.
  Qed.

  Definition info_of (p : nat * @filters D) : info := Info (p_length p) (p_start p) (p_end p).
  Lemma first_run_none : forall names fs n, Forall2 holds names fs ->
    first_run lookup None n names = Ok (map info_of (consecutive n fs)).
  Proof.
    intros names fs n H. revert n. induction H as [|name f names fs H F IH]; intros n; [reflexivity|]. cbn [first_run].
    rewrite (load_ok name f H). destruct H as (ch & fr & smp & -> & _). cbn [bind option_map]. rewrite IH. reflexivity.
  Qed.
  Lemma first_run_some : forall names fs os n, Forall2 holds names fs -> length os = length fs ->
    first_run lookup (Some os) n names = Ok (map info_of (combine os fs)).
  Proof.
    intros names fs os n H. revert os n. induction H as [|name f names fs H F IH]; intros [|o os] n L; try discriminate; [reflexivity|].
    cbn [first_run]. rewrite (load_ok name f H). destruct H as (ch & fr & smp & -> & _). cbn [bind option_map tl].
    rewrite IH by (cbn in L; lia). reflexivity.
  Qed.
  Lemma consecutive_files n (fs : list (@filters D)) : map snd (consecutive n fs) = fs.
  Proof. revert n. induction fs as [|f fs IH]; intros n; cbn; [reflexivity|]. now rewrite IH. Qed.
  Lemma consecutive_length n (fs : list (@filters D)) : length (consecutive n fs) = length fs.
  Proof. rewrite <- (consecutive_files n fs) at 2. now rewrite map_length. Qed.

  (** *** The matrix *)
  Definition shape (m : @matrix D) : Prop := length (m_data m) = m_stride m * m_rows m /\ m_cols m <= m_stride m.
  Lemma next_aligned_le n a : n <= next_aligned n a.
  Proof.
    unfold next_aligned. destruct a as [|a]; [lia|]. destruct (n mod S a =? 0) eqn:E; [lia|].
    pose proof (Nat.div_mod n (S a)). pose proof (Nat.mod_upper_bound n (S a)). nia.
  Qed.
  Lemma resize_shape alignment r c : shape (m_resize zero alignment r c).
  Proof. split; cbn [m_resize m_data m_stride m_rows m_cols]; [apply repeat_length|apply next_aligned_le]. Qed.
  Lemma resize_element alignment r c i j : i < r -> j < c -> element (m_resize zero alignment r c) i j = Some zero.
  Proof.
    intros Hi Hj. unfold element. cbn [m_resize m_data m_stride]. pose proof (next_aligned_le c alignment).
    apply nth_error_repeat. nia.
  Qed.

  Lemma write_row_ok m r row : shape m -> r < m_rows m -> length row <= m_cols m ->
    exists m', m_write_row m r row = Ok m' /\ shape m' /\ m_rows m' = m_rows m /\ m_cols m' = m_cols m
      /\ forall i j, j < m_cols m -> element m' i j = if (i =? r) && (j <? length row) then nth_error row j else element m i j.
  Proof.
    intros [S1 S2] Hr Hl. unfold m_write_row.
    destruct (mem_write_ok (m_data m) (r * m_stride m) row) as (d & E & L & N); [nia|]. rewrite E. cbn [bind].
    eexists. split; [reflexivity|]. split; [split; cbn [m_data m_stride m_rows m_cols]; [lia|exact S2]|]. split; [reflexivity|]. split; [reflexivity|].
    intros i j Hj. unfold element. cbn [m_data m_stride]. rewrite N.
    assert (Hs : j < m_stride m) by lia.
    destruct (Nat.eqb_spec i r) as [->|Ni].
    - destruct (Nat.leb_spec (r * m_stride m) (r * m_stride m + j)); [|lia]. cbn [andb].
      destruct (Nat.ltb_spec (r * m_stride m + j) (r * m_stride m + length row)); destruct (Nat.ltb_spec j (length row)); try lia; [|reflexivity].
      f_equal. lia.
    - cbn [andb]. destruct (Nat.leb_spec (r * m_stride m) (i * m_stride m + j)); cbn [andb]; [|reflexivity].
      destruct (Nat.ltb_spec (i * m_stride m + j) (r * m_stride m + length row)); [|reflexivity]. exfalso. nia.
  Qed.
  Lemma write_row_bad m r row : shape m -> m_rows m <= r -> 0 < length row -> m_write_row m r row = UB.
  Proof.
    intros [S1 S2] Hr Hl. unfold m_write_row, mem_write. destruct (Nat.leb_spec (r * m_stride m + length row) (length (m_data m))); [nia|reflexivity].
  Qed.

  Lemma copy_rows_ok rows : forall m start n, shape m -> start + length rows <= m_rows m -> n <= m_cols m -> (forall row, In row rows -> length row = n) ->
    exists m', copy_rows m start rows = Ok m' /\ shape m' /\ m_rows m' = m_rows m /\ m_cols m' = m_cols m
      /\ forall i j, j < m_cols m -> element m' i j =
           match coefficient (start, (n, rows)) i j with Some x => Some x | None => element m i j end.
  Proof.
    induction rows as [|row rows IH]; intros m start n S Hl Hn Hr; cbn [copy_rows].
    - exists m. split; [reflexivity|]. split; [exact S|]. split; [reflexivity|]. split; [reflexivity|]. intros i j Hj.
      unfold coefficient, p_end, p_start. cbn [fst snd length]. destruct ((start <=? i) && (i <? start + 0)); [|reflexivity]. now destruct (i - start).
    - cbn [length] in Hl. assert (Lr : length row = n) by (apply Hr; now left).
      destruct (write_row_ok m start row S) as (m1 & E1 & S1 & R1 & C1 & X1); [lia|lia|]. rewrite E1. cbn [bind].
      destruct (IH m1 (Datatypes.S start) n S1) as (m2 & E2 & S2 & R2 & C2 & X2); [lia|lia|intros; apply Hr; now right|].
      exists m2. split; [exact E2|]. split; [exact S2|]. split; [congruence|]. split; [congruence|]. intros i j Hj.
      rewrite X2, X1 by lia. unfold coefficient, p_end, p_start. cbn [fst snd length].
      replace (start + Datatypes.S (length rows)) with (Datatypes.S start + length rows) by lia.
      destruct (Nat.ltb_spec i (Datatypes.S start + length rows)) as [Lt|Ge].
      + destruct (Nat.leb_spec (Datatypes.S start) i) as [A|A]; cbn [andb].
        * destruct (Nat.leb_spec start i); [|lia]. cbn [andb]. replace (i - start) with (Datatypes.S (i - Datatypes.S start)) by lia. cbn [nth_error].
          destruct (Nat.eqb_spec i start); [lia|]. cbn [andb]. reflexivity.
        * destruct (Nat.leb_spec start i) as [B|B]; cbn [andb].
          -- assert (i = start) by lia. subst i. rewrite Nat.eqb_refl, Nat.sub_diag. cbn [nth_error andb].
             destruct (Nat.ltb_spec j (length row)) as [J|J].
             ++ destruct (nth_error row j) eqn:E; [reflexivity|]. apply nth_error_None in E. lia.
             ++ apply nth_error_None in J. now rewrite J.
          -- destruct (Nat.eqb_spec i start); [lia|]. reflexivity.
      + rewrite !andb_false_r. destruct (Nat.eqb_spec i start); [lia|]. reflexivity.
  Qed.
  Lemma copy_rows_bad rows : forall m start n, shape m -> m_rows m < start + length rows -> rows <> [] -> 0 < n -> n <= m_cols m ->
    (forall row, In row rows -> length row = n) -> copy_rows m start rows = UB.
  Proof.
    induction rows as [|row rows IH]; intros m start n S Hl NE Hn Hc Hr; [contradiction|]. cbn [copy_rows length] in *.
    assert (Lr : length row = n) by (apply Hr; now left).
    destruct (Nat.lt_ge_cases start (m_rows m)) as [H|H].
    - destruct (write_row_ok m start row S) as (m1 & E1 & S1 & R1 & C1 & X1); [lia|lia|]. rewrite E1. cbn [bind].
      apply (IH m1 _ n); try assumption; [lia|destruct rows; [cbn in Hl; lia|discriminate]|lia|intros; apply Hr; now right].
    - rewrite write_row_bad; [reflexivity|assumption|lia|lia].
  Qed.

  Lemma second_run_ok : forall pl names m, Forall2 holds names (map snd pl) -> shape m ->
    (forall p, In p pl -> p_end p <= m_rows m /\ p_length p <= m_cols m) ->
    exists m', second_run lookup m names (map info_of pl) = Ok m' /\ shape m' /\ m_rows m' = m_rows m /\ m_cols m' = m_cols m
      /\ forall i j, j < m_cols m -> element m' i j = match last_coefficient pl i j with Some x => Some x | None => element m i j end.
  Proof.
    induction pl as [|[start [n rows]] pl IH]; intros names m F S B; inversion F as [|name f names' fs H F']; subst; cbn [second_run map].
    - exists m. auto.
    - rewrite (load_ok _ _ H). cbn [bind snd]. destruct (B (start, (n, rows))) as [B1 B2]; [now left|].
      unfold p_end in B1. unfold p_length in B2. cbn [fst snd] in B1, B2. apply holds_well_formed in H as [W1 W2]. cbn [fst snd] in W1, W2.
      destruct (copy_rows_ok rows m start n S) as (m1 & E1 & S1 & R1 & C1 & X1); [lia|lia|exact W2|].
      change (i_start (info_of (start, (n, rows)))) with start. rewrite E1. cbn [bind].
      destruct (IH names' m1 F' S1) as (m2 & E2 & S2 & R2 & C2 & X2).
      { intros p Hp. rewrite R1, C1. apply B. now right. }
      exists m2. split; [exact E2|]. split; [exact S2|]. split; [congruence|]. split; [congruence|]. intros i j Hj.
      rewrite X2, X1 by lia. cbn [last_coefficient]. destruct (last_coefficient pl i j); [reflexivity|]. reflexivity.
  Qed.
  Lemma second_run_bad : forall pl names m, Forall2 holds names (map snd pl) -> shape m ->
    (forall p, In p pl -> p_length p <= m_cols m /\ 0 < p_length p) -> (exists p, In p pl /\ m_rows m < p_end p) ->
    second_run lookup m names (map info_of pl) = UB.
  Proof.
    induction pl as [|[start [n rows]] pl IH]; intros names m F S B (q & Hq & Lq); [contradiction|].
    inversion F as [|name f names' fs H F']; subst; cbn [second_run map].
    rewrite (load_ok _ _ H). cbn [bind snd]. destruct (B (start, (n, rows))) as [B1 B2]; [now left|].
    unfold p_length in B1, B2. cbn [fst snd] in B1, B2. apply holds_well_formed in H as [W1 W2]. cbn [fst snd] in W1, W2.
    change (i_start (info_of (start, (n, rows)))) with start.
    destruct (Nat.lt_ge_cases (m_rows m) (start + length rows)) as [G|G].
    - rewrite (copy_rows_bad rows m start n); [reflexivity|..]; assumption.
    - destruct (copy_rows_ok rows m start n S) as (m1 & E1 & S1 & R1 & C1 & X1); [lia|lia|exact W2|]. rewrite E1. cbn [bind].
      apply IH; [exact F'|exact S1|intros p Hp; rewrite C1; apply B; now right|].
      destruct Hq as [<-|Hq]; [unfold p_end in Lq; cbn [fst snd] in Lq; lia|]. exists q. rewrite R1. auto.
  Qed.

  Lemma copy_rows_no_throw (rows : list (list D)) : forall m start e, copy_rows m start rows <> Throw e.
  Proof.
    induction rows as [|row rows IH]; intros m start e; cbn [copy_rows]; [discriminate|]. unfold m_write_row, mem_write.
    destruct (_ <=? _); cbn [bind]; [apply IH|discriminate].
  Qed.
  Lemma copy_rows_shape (rows : list (list D)) : forall start m0 m, copy_rows m0 start rows = Ok m -> m_cols m = m_cols m0 /\ m_rows m = m_rows m0.
  Proof.
    induction rows as [|row rows IH]; intros start m0 m E; cbn [copy_rows] in E; [injection E as ->; auto|].
    unfold m_write_row in E. destruct (mem_write (m_data m0) (start * m_stride m0) row) as [d| |]; cbn [bind] in E; try discriminate.
    apply IH in E. exact E.
  Qed.
  Lemma second_run_shape names : forall infos m0 m, second_run lookup m0 names infos = Ok m -> m_cols m = m_cols m0 /\ m_rows m = m_rows m0.
  Proof.
    induction names as [|name names IH]; intros [|i infos] m0 m E; cbn [second_run] in E; try discriminate; try (injection E as ->; auto).
    destruct (from_audio_file lookup name) as [f| |]; cbn [bind] in E; try discriminate.
    destruct (copy_rows m0 (i_start i) (snd f)) as [m1| |] eqn:E1; cbn [bind] in E; try discriminate.
    apply copy_rows_shape in E1 as [A B]. apply IH in E as [A' B']. split; congruence.
  Qed.
  Lemma second_run_no_throw : forall names fs infos m e, Forall2 holds names fs -> second_run lookup m names infos <> Throw e.
  Proof.
    intros names fs infos m e H. revert infos m. induction H as [|name f names fs H F IH]; intros [|i infos] m; cbn [second_run]; try discriminate.
    rewrite (load_ok _ _ H). cbn [bind]. destruct (copy_rows m (i_start i) (snd f)) as [m'|e'|] eqn:E; cbn [bind]; [apply IH| |discriminate].
    now apply copy_rows_no_throw in E.
  Qed.

  (** *** The test for overlaps *)
  Lemma overlap_loop_spec infos order : (forall o, In o order -> 0 < o < length infos) ->
    match overlap_loop infos order with
    | Ok _ => forall k a b, In (S k) order -> nth_error infos k = Some a -> nth_error infos (S k) = Some b -> i_start a <= i_end b
    | Throw e => e = InvalidArgument /\ exists k a b, nth_error infos k = Some a /\ nth_error infos (S k) = Some b /\ i_end b < i_start a
    | UB => False
    end.
  Proof.
    induction order as [|o order IH]; intros H; cbn [overlap_loop]; [intros k a b []|].
    destruct (H o) as [Ho1 Ho2]; [now left|]. destruct o as [|o]; [lia|].
    destruct (nth_error_lt infos o) as [a Ea]; [lia|]. destruct (nth_error_lt infos (S o)) as [b Eb]; [lia|]. rewrite Ea, Eb.
    destruct (Nat.ltb_spec (i_end b) (i_start a)) as [L|L].
    - split; [reflexivity|]. exists o, a, b. auto.
    - assert (IH' := IH (fun x Hx => H x (or_intror Hx))). destruct (overlap_loop infos order) as [u|e|]; [|exact IH'|exact IH'].
      intros k x y [E|Hk] Ex Ey; [injection E as ->; assert (x = a) by congruence; assert (y = b) by congruence; subst; exact L|].
      now apply (IH' k x y).
  Qed.
  Lemma overlap_loop_zero infos order : In 0 order -> (forall o, In o order -> o < length infos) ->
    overlap_loop infos order = UB
    \/ (overlap_loop infos order = Throw InvalidArgument
        /\ exists k a b, nth_error infos k = Some a /\ nth_error infos (S k) = Some b /\ i_end b < i_start a).
  Proof.
    induction order as [|o order IH]; intros I H; [contradiction|]. cbn [overlap_loop]. destruct o as [|o]; [now left|].
    assert (Ho : S o < length infos) by (apply H; now left).
    destruct (nth_error_lt infos o) as [a Ea]; [lia|]. destruct (nth_error_lt infos (S o) Ho) as [b Eb]. rewrite Ea, Eb.
    destruct (Nat.ltb_spec (i_end b) (i_start a)) as [L|L]; [right; split; [reflexivity|]; exists o, a, b; auto|].
    destruct I as [I|I]; [discriminate|]. apply IH; [exact I|]. intros x Hx. apply H. now right.
  Qed.
  Variable order_by_start : list nat -> list nat.
  Hypothesis SORTS : sorts order_by_start.
  Lemma order_first starts : starts <> [] -> (forall k, 0 < k < length starts -> nth 0 starts 0 < nth k starts 0) ->
    exists order, order_by_start starts = 0 :: order /\ Permutation order (seq 1 (length starts - 1)).
  Proof.
    intros NE H. destruct (SORTS starts) as [P S]. destruct (order_by_start starts) as [|o order] eqn:E.
    - apply Permutation_nil in P. destruct starts; [contradiction|discriminate].
    - assert (o = 0) as ->.
      { destruct (Nat.eq_dec o 0) as [|N]; [assumption|exfalso].
        assert (Io : In o (seq 0 (length starts))) by (apply (Permutation_in _ P); now left). apply in_seq in Io.
        assert (I0 : In 0 (o :: order)).
        { apply (Permutation_in _ (Permutation_sym P)). apply in_seq. lia. }
        destruct I0 as [I0|I0]; [congruence|]. apply In_nth_error in I0 as [j Hj].
        specialize (S 0 (Datatypes.S j) o 0 (Nat.lt_0_succ j) eq_refl Hj). specialize (H o). lia. }
      exists order. split; [reflexivity|]. apply (Permutation_cons_inv (a := 0)). destruct starts as [|x starts]; [contradiction|].
      cbn [length seq] in *. replace (Datatypes.S (length starts) - 1) with (length starts) by lia. exact P.
  Qed.

  Lemma max_list_spec l : l <> [] -> is_max (max_list l) l.
  Proof.
    induction l as [|x l IH]; [congruence|]. intros _. cbn [max_list fold_right]. fold (max_list l). destruct l as [|y l].
    - cbn [max_list fold_right]. rewrite Nat.max_0_r. split; [now left|]. intros z [<-|[]]. lia.
    - destruct (IH ltac:(discriminate)) as [I M]. split.
      + destruct (Nat.max_spec x (max_list (y :: l))) as [[_ ->]|[_ ->]]; [now right|now left].
      + intros z [<-|Hz]; [lia|]. specialize (M z Hz). lia.
  Qed.
  Lemma exceeds_within n limit : exceeds n limit = false <-> within n limit.
  Proof.
    unfold within. destruct limit as [l|]; cbn [exceeds]; [|split; [discriminate|reflexivity]]. rewrite Nat.ltb_ge. split; [|auto].
    intros H l' E. now injection E as <-.
  Qed.

  (** *** The whole function, for files that are complete *)
  Lemma init_placed alignment l maxLength maxEntries offsets fs :
    string_list_to_vec l <> [] -> Forall2 holds (string_list_to_vec l) fs -> (offsets = [] \/ length offsets = length fs) ->
    let pl := placed offsets fs in
    (forall p q k, nth_error pl 0 = Some p -> nth_error pl (S k) = Some q -> p_start p < p_start q) ->
    exists L, is_max L (map p_length pl) /\
    let N := last (map p_end pl) 0 in
    match init_filter_matrix zero lookup order_by_start alignment l maxLength maxEntries offsets with
    | Ok m => within L maxLength /\ within N maxEntries
        /\ (forall k a b, nth_error pl k = Some a -> nth_error pl (S k) = Some b -> p_start a <= p_end b)
        /\ m_cols m = given maxLength L /\ m_rows m = given maxEntries N
        /\ ((forall p, In p pl -> 0 < p_length p) -> forall p, In p pl -> p_end p <= given maxEntries N)
        /\ ((forall p, In p pl -> p_end p <= given maxEntries N) ->
            forall i j, i < m_rows m -> j < m_cols m -> element m i j = Some (or_zero zero (last_coefficient pl i j)))
    | Throw e => e = InvalidArgument
        /\ (~ within L maxLength \/ ~ within N maxEntries
            \/ exists k a b, nth_error pl k = Some a /\ nth_error pl (S k) = Some b /\ p_end b < p_start a)
    | UB => within L maxLength /\ within N maxEntries
        /\ (forall k a b, nth_error pl k = Some a -> nth_error pl (S k) = Some b -> p_start a <= p_end b)
        /\ exists p, In p pl /\ given maxEntries N < p_end p
    end.
  Proof.
    intros NE F LO pl H1. set (names := string_list_to_vec l) in *.
    assert (Lf : length fs = length names) by (clear -F; induction F; cbn; congruence).
    assert (Epl : map snd pl = fs).
    { unfold pl, placed. destruct LO as [->|LO]; [apply consecutive_files|]. destruct offsets as [|o os]; [apply consecutive_files|].
      clear -LO. revert LO. generalize (o :: os). intros os'. revert fs. induction os' as [|x os' IH]; intros [|f fs] E; try discriminate; [reflexivity|].
      cbn [combine map snd]. f_equal. apply IH. now injection E. }
    assert (Lp : length pl = length names) by (rewrite <- Lf, <- Epl; symmetry; apply map_length).
    assert (NP : pl <> []) by (intros X; rewrite X in Lp; destruct names; [contradiction|discriminate]).
    assert (FR : first_run lookup (if 0 <? length offsets then Some offsets else None) 0 names = Ok (map info_of pl)).
    { destruct offsets as [|o os].
      - cbn [length Nat.ltb Nat.leb]. now apply first_run_none.
      - cbn [length Nat.ltb Nat.leb]. apply first_run_some; [exact F|]. destruct LO as [LO|LO]; [discriminate|exact LO]. }
    exists (max_list (map p_length pl)). split; [apply max_list_spec; destruct pl; [contradiction|discriminate]|]. cbv zeta.
    set (L := max_list (map p_length pl)). set (N := last (map p_end pl) 0).
    unfold init_filter_matrix. fold names.
    assert (G : ((0 <? length offsets) && negb (length offsets =? length names)) = false).
    { destruct LO as [->|LO]; [reflexivity|]. rewrite LO, Lf, Nat.eqb_refl. apply andb_false_r. }
    rewrite G. destruct names as [|name names'] eqn:En; [contradiction|]. rewrite <- En in *. clear En. rewrite FR. cbn [bind].
    rewrite map_map. change (map (fun x => i_length (info_of x)) pl) with (map p_length pl). fold L.
    destruct (exceeds L maxLength) eqn:E1.
    { split; [reflexivity|]. left. rewrite <- exceeds_within. congruence. }
    rewrite exceeds_within in E1. rewrite !map_map. change (map (fun x => i_start (info_of x)) pl) with (map p_start pl).
    change (map (fun x => i_end (info_of x)) pl) with (map p_end pl). fold N.
    destruct (order_first (map p_start pl)) as (order & Eo & Po).
    { destruct pl; [contradiction|discriminate]. }
    { intros k Hk. rewrite map_length in Hk. destruct pl as [|p pl']; [contradiction|]. destruct k as [|k]; [lia|].
      destruct (nth_error_lt pl' k) as [q Hq]; [cbn in Hk; lia|]. cbn [map nth].
      rewrite (nth_error_nth (map p_start pl') k 0 (x := p_start q)) by (now apply map_nth_error). now apply (H1 p q k). }
    rewrite Eo. cbn [tl]. rewrite map_length in Po.
    assert (Ho : forall o, In o order -> 0 < o < length (map info_of pl)).
    { intros o Hi. apply (Permutation_in _ Po) in Hi. apply in_seq in Hi. rewrite map_length. lia. }
    assert (Ho' : forall k, S k < length pl -> In (S k) order).
    { intros k Hk. apply (Permutation_in _ (Permutation_sym Po)). apply in_seq. lia. }
    pose proof (overlap_loop_spec (map info_of pl) order Ho) as OL.
    destruct (overlap_loop (map info_of pl) order) as [u|e|]; cbn [bind]; [| |contradiction].
    2:{ destruct OL as (-> & k & a & b & Ha & Hb & Hab). split; [reflexivity|]. right. right.
        rewrite nth_error_map in Ha, Hb. destruct (nth_error pl k) as [p|] eqn:Ep; [|discriminate]. destruct (nth_error pl (S k)) as [q|] eqn:Eq; [|discriminate].
        injection Ha as <-. injection Hb as <-. exists k, p, q. auto. }
    destruct (exceeds N maxEntries) eqn:E2.
    { split; [reflexivity|]. right. left. rewrite <- exceeds_within. congruence. }
    rewrite exceeds_within in E2.
    assert (GAP : forall k a b, nth_error pl k = Some a -> nth_error pl (S k) = Some b -> p_start a <= p_end b).
    { intros k a b Ha Hb. apply (OL k (info_of a) (info_of b)).
      - apply Ho'. apply nth_error_Some. congruence.
      - now apply map_nth_error.
      - now apply map_nth_error. }
    set (m0 := m_resize zero alignment (or_default maxEntries N) (or_default maxLength L)).
    assert (S0 : shape m0) by apply resize_shape.
    assert (R0 : m_rows m0 = given maxEntries N) by reflexivity. assert (C0 : m_cols m0 = given maxLength L) by reflexivity.
    assert (LL : forall p, In p pl -> p_length p <= m_cols m0).
    { intros p Hp. rewrite C0. destruct (max_list_spec (map p_length pl)) as [_ M]; [destruct pl; [contradiction|discriminate]|]. fold L in M.
      specialize (M (p_length p) (in_map _ _ _ Hp)). unfold given. destruct maxLength as [n|]; [|exact M]. specialize (E1 n eq_refl). lia. }
    destruct (existsb (fun p => given maxEntries N <? p_end p) pl) eqn:EX.
    - apply existsb_exists in EX as (q & Hq & Lq). apply Nat.ltb_lt in Lq.
      destruct (second_run lookup m0 names (map info_of pl)) as [m|e|] eqn:SR.
      + split; [exact E1|]. split; [exact E2|]. split; [exact GAP|].
        assert (SH : m_cols m = m_cols m0 /\ m_rows m = m_rows m0).
        { now apply second_run_shape in SR. }
        destruct SH as [-> ->]. split; [exact C0|]. split; [exact R0|]. split.
        * intros PL p Hp. exfalso. rewrite second_run_bad in SR; [discriminate|now rewrite Epl|exact S0| |].
          -- intros r Hr. split; [now apply LL|now apply PL].
          -- exists q. rewrite R0. auto.
        * intros B. specialize (B q Hq). lia.
      + exfalso. apply (second_run_no_throw names fs (map info_of pl) m0 e F SR).
      + split; [exact E1|]. split; [exact E2|]. split; [exact GAP|]. exists q. auto.
    - assert (B : forall p, In p pl -> p_end p <= given maxEntries N).
      { intros p Hp. apply Nat.nlt_ge. intros X. apply Nat.ltb_lt in X. assert (existsb (fun p => given maxEntries N <? p_end p) pl = true).
        { apply existsb_exists. exists p. auto. } congruence. }
      destruct (second_run_ok pl names m0) as (m & E & S & R & C & X).
      { now rewrite Epl. } { exact S0. } { intros p Hp. split; [rewrite R0; now apply B|now apply LL]. }
      rewrite E. split; [exact E1|]. split; [exact E2|]. split; [exact GAP|]. split; [congruence|]. split; [congruence|].
      split; [intros _; exact B|]. intros _ i j Hi Hj. rewrite R in Hi. rewrite C in Hj. rewrite X by exact Hj.
      destruct (last_coefficient pl i j) as [x|]; [reflexivity|]. cbn [or_zero]. now apply resize_element.
  Qed.
End Files.
