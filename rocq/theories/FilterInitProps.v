(** C74: the initial filters of the matrix convolver (src/apps/matrix_convolver/
    init_filter_matrix.cpp).

    The lists of file names are split as documented.  Without index offsets, and with offsets for
    which each file starts behind its predecessor, the matrix has the documented size and
    content, and the documented errors are reported.  For other offsets the test for overlaps and
    the size of the matrix are wrong. *)
From Coq Require Import Ascii String Permutation.
From Verif Require Import Base Memory FilterInitModel FilterInitSpec FilterInitProofs.
Local Open Scope res_scope.

(** *** File names *)
(** an empty list has no names; otherwise the names are the fields between the commas, without
    the surrounding spaces and quotation marks *)
Theorem C74_names : forall l,
  (l = [] -> string_list_to_vec l = [])
  /\ (l <> [] -> exists ps, separated l ps /\ Forall2 stripped ps (string_list_to_vec l)
        /\ forall ps' qs, separated l ps' -> Forall2 stripped ps' qs -> qs = string_list_to_vec l).
Proof.
  intros l. split; [now intros ->|]. intros N. exists (split l). pose proof (split_separated l) as S.
  assert (E : string_list_to_vec l = map trim (split l)) by (destruct l; [contradiction|reflexivity]).
  split; [exact S|]. rewrite E. split.
  - clear. induction (split l) as [|p ps IH]; constructor; [apply trim_stripped|exact IH].
  - intros ps qs (NE & J & NC) F. assert (split l = ps) as ->.
    { destruct ps as [|p ps]; [contradiction|]. rewrite <- J. now apply split_join. }
    clear -F. induction F as [|p q ps qs H F IH]; [reflexivity|]. cbn [map]. rewrite IH. f_equal.
    apply (stripped_unique p); [exact H|apply trim_stripped].
Qed.

Section Filters.
  Context {D : Type} (zero : D) (lookup : text -> option (@file D)) (order_by_start : list nat -> list nat).
  Hypothesis SORTS : sorts order_by_start.
  Notation init := (init_filter_matrix zero lookup order_by_start).

  (** the number of offsets must match the number of files *)
  Theorem C74_offset_count : forall alignment l maxLength maxEntries offsets,
    offsets <> [] -> length offsets <> length (string_list_to_vec l) -> init alignment l maxLength maxEntries offsets = Throw InvalidArgument.
  Proof.
    intros alignment l maxLength maxEntries offsets NE N. unfold init_filter_matrix. destruct offsets as [|o os]; [contradiction|].
    cbn [length Nat.ltb Nat.leb andb]. destruct (Nat.eqb_spec (length (o :: os)) (length (string_list_to_vec l))) as [E|_]; [contradiction|].
    cbn [length] in *. destruct (Nat.eqb_spec (S (length os)) (length (string_list_to_vec l))) as [E|_]; [contradiction|]. reflexivity.
  Qed.

  (** without files, the size must be given, and all filters are zero *)
  Theorem C74_no_files : forall alignment maxLength maxEntries,
    match init alignment [] maxLength maxEntries [] with
    | Ok m => maxLength = Some (m_cols m) /\ maxEntries = Some (m_rows m)
        /\ forall i j, i < m_rows m -> j < m_cols m -> element m i j = Some zero
    | Throw e => e = InvalidArgument /\ (maxLength = None \/ maxEntries = None)
    | UB => False
    end.
  Proof.
    intros alignment [n|] [k|]; cbn; auto. split; [reflexivity|]. split; [reflexivity|]. intros i j Hi Hj. now apply resize_element.
  Qed.

  (** a file that is missing or cannot be opened is reported *)
  Theorem C74_unreadable : forall alignment l maxLength maxEntries offsets pre name post fs,
    string_list_to_vec l = pre ++ name :: post -> (offsets = [] \/ length offsets = length (string_list_to_vec l)) ->
    Forall2 (holds zero lookup) pre fs -> (lookup name = None \/ lookup name = Some Unreadable) ->
    init alignment l maxLength maxEntries offsets = Throw InvalidArgument.
  Proof.
    intros alignment l maxLength maxEntries offsets pre name post fs E LO F B. unfold init_filter_matrix. 
    assert (G : ((0 <? length offsets) && negb (length offsets =? length (string_list_to_vec l))) = false).
    { destruct LO as [->|E1]; [reflexivity|]. rewrite E1, Nat.eqb_refl. apply andb_false_r. }
    rewrite G. assert (X : forall os n, (os = None \/ exists o, os = Some o /\ length o = length (pre ++ name :: post)) ->
      first_run lookup os n (pre ++ name :: post) = Throw InvalidArgument).
    { clear -F B. induction F as [|p f pre fs H F IH]; intros os n O; cbn [app first_run].
      - unfold from_audio_file. destruct B as [Bad|Bad]; rewrite Bad; reflexivity.
      - rewrite (load_ok zero lookup p f H). destruct H as (ch & fr & smp & -> & _). cbn [bind].
        destruct O as [->|(o & -> & L)].
        + cbn [bind option_map]. rewrite IH by now left. reflexivity.
        + destruct o as [|x o]; [discriminate|]. cbn [bind option_map tl]. rewrite IH; [reflexivity|]. right. exists o. split; [reflexivity|].
          cbn in L. lia. }
    rewrite E. rewrite X.
    - destruct (pre ++ name :: post) eqn:Y; [destruct pre; discriminate|reflexivity].
    - destruct offsets as [|o os]; [now left|]. right. exists (o :: os). split; [reflexivity|]. rewrite <- E. destruct LO as [LO|LO]; [discriminate|exact LO].
  Qed.

  Lemma holds_nonempty names fs f : Forall2 (holds zero lookup) names fs -> In f fs -> 0 < length (snd f).
  Proof.
    intros F. induction F as [|n g names fs H F IH]; intros I; [contradiction|]. destruct I as [<-|I]; [|auto].
    apply holds_well_formed in H as [W _]. destruct (snd g); [contradiction|cbn; lia].
  Qed.
  Lemma placed_files offsets (fs : list (@filters D)) : (offsets = [] \/ length offsets = length fs) -> map snd (placed offsets fs) = fs.
  Proof.
    intros LO. unfold placed. destruct LO as [->|LO]; [apply consecutive_files|]. destruct offsets as [|o os]; [apply consecutive_files|].
    revert LO. generalize (o :: os). intros os'. revert fs. induction os' as [|x os' IH]; intros [|f fs] E; try discriminate; [reflexivity|].
    cbn [combine map snd]. f_equal. apply IH. now injection E.
  Qed.
  Lemma in_order_cons (p : nat * @filters D) pl : in_order (p :: pl) -> in_order pl.
  Proof. intros H k a b Ha Hb. apply (H (S k)); assumption. Qed.
  Lemma in_order_after (p : nat * @filters D) pl q : in_order (p :: pl) -> In q pl -> p_end p <= p_start q.
  Proof.
    revert p. induction pl as [|r pl IH]; intros p H I; [contradiction|]. assert (p_end p <= p_start r) by (apply (H 0); reflexivity).
    destruct I as [<-|I]; [assumption|]. apply in_order_cons in H. specialize (IH r H I). unfold p_end, p_start in *. lia.
  Qed.
  Lemma in_order_last (pl : @placement D) p : in_order pl -> In p pl -> p_end p <= last (map p_end pl) 0.
  Proof.
    revert p. induction pl as [|q pl IH]; intros p H I; [contradiction|]. destruct pl as [|r pl].
    - destruct I as [<-|[]]. cbn. lia.
    - change (last (map p_end (q :: r :: pl)) 0) with (last (map p_end (r :: pl)) 0).
      destruct I as [<-|I]; [|apply IH; [now apply in_order_cons in H|exact I]].
      specialize (IH r (in_order_cons _ _ H) (or_introl eq_refl)). pose proof (in_order_after q (r :: pl) r H (or_introl eq_refl)).
      unfold p_end, p_start in *. lia.
  Qed.
  Lemma consecutive_order n (fs : list (@filters D)) : in_order (consecutive n fs).
  Proof.
    revert n. induction fs as [|f fs IH]; intros n k a b Ha Hb; [destruct k; discriminate|]. destruct k as [|k].
    - cbn in Ha, Hb. destruct fs as [|g fs]; [discriminate|]. injection Ha as <-. injection Hb as <-. unfold p_end, p_start. cbn. lia.
    - apply (IH (n + length (snd f)) k); assumption.
  Qed.
  Lemma coefficient_range (p : nat * @filters D) i j x : coefficient p i j = Some x -> p_start p <= i < p_end p.
  Proof.
    unfold coefficient. destruct (Nat.leb_spec (p_start p) i), (Nat.ltb_spec i (p_end p)); try discriminate. lia.
  Qed.
  Lemma last_coefficient_in (pl : @placement D) i j x : last_coefficient pl i j = Some x -> exists p, In p pl /\ coefficient p i j = Some x.
  Proof.
    induction pl as [|p pl IH]; [discriminate|]. cbn [last_coefficient]. destruct (last_coefficient pl i j) as [y|].
    - intros E. destruct IH as (q & Hq & Eq); [exact E|]. exists q. split; [now right|exact Eq].
    - intros E. exists p. split; [now left|exact E].
  Qed.
  Lemma last_coefficient_order (pl : @placement D) i j p : in_order pl -> In p pl -> p_start p <= i < p_end p ->
    last_coefficient pl i j = coefficient p i j.
  Proof.
    induction pl as [|q pl IH]; intros H I R; [contradiction|]. cbn [last_coefficient]. destruct I as [<-|I].
    - destruct (last_coefficient pl i j) as [x|] eqn:E; [|reflexivity]. exfalso. apply last_coefficient_in in E as (r & Hr & E).
      apply coefficient_range in E. pose proof (in_order_after q pl r H Hr). lia.
    - rewrite (IH (in_order_cons _ _ H) I R). destruct (coefficient p i j) eqn:E; [reflexivity|].
      destruct (coefficient q i j) as [x|] eqn:E2; [|reflexivity]. exfalso. apply coefficient_range in E2. pose proof (in_order_after q pl p H I). lia.
  Qed.

  (** Documented behaviour.  The files are complete, and each starts at or behind the end of its
      predecessor, as it does if no offsets are given.  The filters are as long as the longest
      impulse response and as many as needed, unless larger values are given; smaller values are
      rejected.  Each row contains the channel of the file that is placed there, followed by
      zeros; the other rows are zero. *)
  Theorem C74_documented : forall alignment l maxLength maxEntries offsets fs,
    l <> [] -> Forall2 (holds zero lookup) (string_list_to_vec l) fs -> (offsets = [] \/ length offsets = length fs) ->
    in_order (placed offsets fs) ->
    exists L N, is_max L (map p_length (placed offsets fs)) /\ is_max N (map p_end (placed offsets fs)) /\
    match init alignment l maxLength maxEntries offsets with
    | Ok m => within L maxLength /\ within N maxEntries /\ m_cols m = given maxLength L /\ m_rows m = given maxEntries N
        /\ (forall p i j, In p (placed offsets fs) -> p_start p <= i < p_end p -> j < m_cols m ->
              element m i j = Some (nth j (nth (i - p_start p) (snd (snd p)) []) zero))
        /\ (forall i j, (forall p, In p (placed offsets fs) -> i < p_start p \/ p_end p <= i) -> i < m_rows m -> j < m_cols m ->
              element m i j = Some zero)
    | Throw e => e = InvalidArgument /\ (~ within L maxLength \/ ~ within N maxEntries)
    | UB => False
    end.
  Proof.
    intros alignment l maxLength maxEntries offsets fs NE F LO IO.
    assert (NN : string_list_to_vec l <> []).
    { destruct l as [|c l']; [contradiction|]. unfold string_list_to_vec. intros X. apply map_eq_nil in X. now apply split_nonempty in X. }
    pose proof (placed_files offsets fs LO) as PF. set (pl := placed offsets fs) in *.
    assert (PE : forall p, In p pl -> p_start p < p_end p).
    { intros p Hp. assert (0 < length (snd (snd p))). { apply (holds_nonempty _ fs _ F). rewrite <- PF. now apply in_map. } unfold p_end, p_start. lia. }
    destruct (init_placed zero lookup order_by_start SORTS alignment l maxLength maxEntries offsets fs NN F LO) as (L & ML & X).
    { intros p q k Hp Hq. fold pl in Hp, Hq. destruct pl as [|p' pl']; [discriminate|]. injection Hp as ->.
      cbn [nth_error] in Hq. apply nth_error_In in Hq. pose proof (in_order_after p pl' q IO Hq). specialize (PE p (or_introl eq_refl)). lia. }
    fold pl in ML, X. cbv zeta in X. set (N := last (map p_end pl) 0) in *. exists L, N. split; [exact ML|].
    assert (NP : pl <> []) by (intros Y; destruct ML as [ML _]; rewrite Y in ML; contradiction).
    split.
    { split; [|intros x Hx; apply in_map_iff in Hx as (p & <- & Hp); now apply in_order_last].
      unfold N. destruct (exists_last NP) as (a & p & ->). rewrite map_app. cbn [map]. rewrite last_last. apply in_or_app. right. now left. }
    assert (LE : within N maxEntries -> forall p, In p pl -> p_end p <= given maxEntries N).
    { intros W p Hp. pose proof (in_order_last pl p IO Hp) as H. fold N in H. unfold given. destruct maxEntries as [n|]; [|exact H]. specialize (W n eq_refl). lia. }
    destruct (init alignment l maxLength maxEntries offsets) as [m|e|].
    - destruct X as (W1 & W2 & _ & C & R & _ & V). specialize (V (LE W2)).
      split; [exact W1|]. split; [exact W2|]. split; [exact C|]. split; [exact R|]. split.
      + intros p i j Hp Hi Hj. rewrite V; [|rewrite R; specialize (LE W2 p Hp); lia|exact Hj].
        rewrite (last_coefficient_order pl i j p IO Hp Hi). f_equal. unfold coefficient.
        destruct (Nat.leb_spec (p_start p) i); [|lia]. destruct (Nat.ltb_spec i (p_end p)); [|lia]. cbn [andb].
        destruct (nth_error_lt (snd (snd p)) (i - p_start p)) as [row Er]; [unfold p_end, p_start in *; lia|]. rewrite Er.
        rewrite (nth_error_nth _ _ [] Er). destruct (Nat.lt_ge_cases j (length row)) as [J|J].
        * rewrite (nth_error_nth' row zero J). reflexivity.
        * rewrite (nth_overflow row zero J). apply nth_error_None in J. now rewrite J.
      + intros i j Hi Hr Hj. rewrite V by assumption. destruct (last_coefficient pl i j) as [x|] eqn:E; [|reflexivity].
        exfalso. apply last_coefficient_in in E as (p & Hp & E). apply coefficient_range in E. specialize (Hi p Hp). lia.
    - destruct X as (-> & [X|[X|(k & a & b & Ha & Hb & X)]]); (split; [reflexivity|]); auto. exfalso.
      pose proof (IO k a b Ha Hb) as Y. unfold p_end, p_start in *. lia.
    - destruct X as (_ & W & _ & p & Hp & X). specialize (LE W p Hp). lia.
  Qed.

  Lemma consecutive_at (fs : list (@filters D)) : forall n i, i < length (concat (map snd fs)) ->
    exists p, In p (consecutive n fs) /\ p_start p <= n + i < p_end p
      /\ nth (n + i - p_start p) (snd (snd p)) [] = nth i (concat (map snd fs)) [].
  Proof.
    induction fs as [|f fs IH]; intros n i Hi; cbn [map concat length] in Hi; [cbn in Hi; lia|]. cbn [consecutive map concat].
    destruct (Nat.lt_ge_cases i (length (snd f))) as [H|H].
    - exists (n, f). split; [now left|]. unfold p_start, p_end. cbn [fst snd]. split; [lia|]. rewrite app_nth1 by exact H. f_equal. lia.
    - rewrite app_length in Hi. destruct (IH (n + length (snd f)) (i - length (snd f))) as (p & Hp & Hr & E); [lia|].
      exists p. split; [now right|]. replace (n + length (snd f) + (i - length (snd f))) with (n + i) in * by lia. split; [exact Hr|].
      rewrite E. now rewrite app_nth2.
  Qed.
  Lemma consecutive_ends (fs : list (@filters D)) : forall n p, In p (consecutive n fs) -> p_end p <= n + length (concat (map snd fs)).
  Proof.
    induction fs as [|f fs IH]; intros n p Hp; [contradiction|]. cbn [consecutive map concat] in *. rewrite app_length. destruct Hp as [<-|Hp].
    - unfold p_end. cbn. lia.
    - specialize (IH _ p Hp). lia.
  Qed.
  Lemma init_shape alignment l maxLength maxEntries offsets fs m : l <> [] -> Forall2 (holds zero lookup) (string_list_to_vec l) fs ->
    (offsets = [] \/ length offsets = length fs) -> init alignment l maxLength maxEntries offsets = Ok m -> shape m.
  Proof.
    intros NE F LO E. unfold init_filter_matrix in E.
    destruct (_ && _); [discriminate|]. destruct (string_list_to_vec l) as [|name names] eqn:EN.
    - destruct maxLength, maxEntries; try discriminate. injection E as <-. apply resize_shape.
    - destruct (first_run _ _ _ _) as [infos| |]; try discriminate. cbn [bind] in E. destruct (exceeds _ maxLength); [discriminate|].
      destruct (overlap_loop _ _) as [u| |]; try discriminate. cbn [bind] in E. destruct (exceeds _ maxEntries); [discriminate|].
      revert E. generalize (resize_shape zero alignment (or_default maxEntries (last (map i_end infos) 0)) (or_default maxLength (max_list (map i_length infos)))).
      generalize (m_resize zero alignment (or_default maxEntries (last (map i_end infos) 0)) (or_default maxLength (max_list (map i_length infos)))).
      clear. generalize (name :: names). intros ns. revert infos. 
      assert (CR : forall rows start (m0 m1 : @matrix D), shape m0 -> copy_rows m0 start rows = Ok m1 -> shape m1).
      { induction rows as [|row rows IH]; intros start m0 m1 S X; cbn [copy_rows] in X; [injection X as <-; exact S|].
        unfold m_write_row in X. destruct (mem_write (m_data m0) (start * m_stride m0) row) as [d| |] eqn:Ew; cbn [bind] in X; try discriminate.
        apply IH in X; [exact X|]. apply mem_write_inv in Ew as (_ & Lw & _). destruct S as [A B]. split; cbn [m_data m_stride m_rows m_cols]; [congruence|exact B]. }
      induction ns as [|n ns IH]; intros [|i infos] m0 S X; cbn [second_run] in X; try discriminate; try (injection X as <-; exact S).
      destruct (from_audio_file lookup n) as [f| |]; cbn [bind] in X; try discriminate.
      destruct (copy_rows m0 (i_start i) (snd f)) as [m1| |] eqn:E1; cbn [bind] in X; try discriminate.
      apply CR in E1; [|exact S]. now apply IH in X.
  Qed.

  (** Without offsets, the matrix is the list of all channels of the files, padded with zeros. *)
  Definition row_of (m : @matrix D) (i : nat) : list D := firstn (m_cols m) (skipn (i * m_stride m) (m_data m)).
  Theorem C74_consecutive : forall alignment l maxLength maxEntries fs m,
    l <> [] -> Forall2 (holds zero lookup) (string_list_to_vec l) fs -> init alignment l maxLength maxEntries [] = Ok m ->
    let channels := concat (map snd fs) in
    length channels <= m_rows m
    /\ map (row_of m) (seq 0 (m_rows m))
       = map (fun ch => ch ++ repeat zero (m_cols m - length ch)) channels ++ repeat (repeat zero (m_cols m)) (m_rows m - length channels).
  Proof.
    intros alignment l maxLength maxEntries fs m NE F E channels.
    destruct (C74_documented alignment l maxLength maxEntries [] fs NE F (or_introl eq_refl) (consecutive_order 0 fs)) as (L & N & ML & MN & X).
    cbn [placed] in *. rewrite E in X. destruct X as (W1 & W2 & C & R & V & Z).
    assert (TE : forall p, In p (consecutive 0 fs) -> p_end p <= length channels) by (intros p Hp; exact (consecutive_ends fs 0 p Hp)).
    assert (NR : length channels <= m_rows m).
    { assert (NC : length channels <= N).
      { destruct (Nat.eq_dec (length channels) 0) as [|NZ]; [lia|]. destruct (consecutive_at fs 0 (length channels - 1)) as (p & Hp & Hr & _); [fold channels; lia|].
        assert (p_end p <= N) by (apply MN, in_map, Hp). lia. }
      rewrite R. unfold given. destruct maxEntries as [n|]; [|exact NC]. specialize (W2 n eq_refl). lia. }
    split; [exact NR|]. apply (init_shape _ _ _ _ _ _ _ NE F (or_introl eq_refl)) in E as [S1 S2].
    apply (nth_ext _ _ [] []).
    { rewrite app_length, !map_length, seq_length, repeat_length. lia. }
    intros i Hi. rewrite map_length, seq_length in Hi.
    rewrite (nth_indep _ [] (row_of m 0)) by (rewrite map_length, seq_length; exact Hi). rewrite map_nth, seq_nth by exact Hi. cbn [plus].
    assert (LR : length (row_of m i) = m_cols m).
    { unfold row_of. rewrite firstn_length, skipn_length, S1. nia. }
    assert (EL : forall j x, j < m_cols m -> element m i j = Some x -> nth j (row_of m i) zero = x).
    { intros j x Hj Hx. apply nth_error_nth. unfold row_of. rewrite nth_error_firstn, nth_error_skipn.
      destruct (Nat.ltb_spec j (m_cols m)); [|lia]. exact Hx. }
    destruct (Nat.lt_ge_cases i (length channels)) as [Hc|Hc].
    - rewrite app_nth1 by (rewrite map_length; exact Hc).
      destruct (consecutive_at fs 0 i Hc) as (p & Hp & Hr & Ep). cbn [plus] in Hr, Ep. fold channels in Ep.
      rewrite (nth_indep _ [] ((fun ch => ch ++ repeat zero (m_cols m - length ch)) [])) by (rewrite map_length; exact Hc).
      rewrite (map_nth (fun ch => ch ++ repeat zero (m_cols m - length ch))). rewrite <- Ep.
      assert (LE : length (nth (i - p_start p) (snd (snd p)) []) <= m_cols m).
      { assert (In (snd p) fs) as Hf. { rewrite <- (consecutive_files 0 fs). now apply in_map. }
        assert (WF : well_formed (snd p)). { clear -F Hf. induction F as [|a f names fs H F IH]; [contradiction|]. destruct Hf as [<-|Hf]; [|auto]. now apply holds_well_formed in H. }
        destruct WF as [_ WF]. rewrite WF by (apply nth_In; unfold p_end, p_start in *; lia).
        change (fst (snd p)) with (p_length p). assert (p_length p <= L) by (apply ML, in_map, Hp).
        rewrite C. unfold given. destruct maxLength as [n|]; [|assumption]. specialize (W1 n eq_refl). lia. }
      apply (nth_ext _ _ zero zero).
      { rewrite app_length, repeat_length. lia. }
      intros j Hj. rewrite LR in Hj. rewrite (EL j _ Hj (V p i j Hp Hr Hj)).
      destruct (Nat.lt_ge_cases j (length (nth (i - p_start p) (snd (snd p)) []))) as [J|J]; [now rewrite app_nth1|].
      rewrite app_nth2 by exact J. rewrite (nth_overflow _ _ J). now rewrite nth_repeat.
    - rewrite app_nth2 by (rewrite map_length; exact Hc). rewrite map_length.
      rewrite (nth_indep _ [] (repeat zero (m_cols m))) by (rewrite repeat_length; lia). rewrite nth_repeat.
      apply (nth_ext _ _ zero zero); [now rewrite repeat_length|]. intros j Hj. rewrite LR in Hj. rewrite nth_repeat.
      apply EL; [exact Hj|]. apply Z; [|exact Hi|exact Hj]. intros p Hp. right. specialize (TE p Hp). lia.
  Qed.


  (** What happens for other offsets, if the first file has the smallest one: files that lie
      before the start of their predecessor are rejected; the matrix ends with the last file of
      the list, and filters beyond that are written outside the memory of the matrix; the
      coefficients of later files replace those of earlier ones. *)
  Theorem C74_actual : forall alignment l maxLength maxEntries offsets fs,
    l <> [] -> Forall2 (holds zero lookup) (string_list_to_vec l) fs -> length offsets = length fs ->
    (forall k, 0 < k < length offsets -> nth 0 offsets 0 < nth k offsets 0) ->
    (forall f, In f fs -> 0 < fst f) ->
    exists L, is_max L (map p_length (combine offsets fs)) /\
    let pl := combine offsets fs in
    let N := last (map p_end pl) 0 in
    let backwards := exists k a b, nth_error pl k = Some a /\ nth_error pl (S k) = Some b /\ p_end b < p_start a in
    match init alignment l maxLength maxEntries offsets with
    | Ok m => within L maxLength /\ within N maxEntries /\ ~ backwards
        /\ m_cols m = given maxLength L /\ m_rows m = given maxEntries N
        /\ (forall p, In p pl -> p_end p <= m_rows m)
        /\ (forall i j, i < m_rows m -> j < m_cols m -> element m i j = Some (or_zero zero (last_coefficient pl i j)))
    | Throw e => e = InvalidArgument /\ (~ within L maxLength \/ ~ within N maxEntries \/ backwards)
    | UB => within L maxLength /\ within N maxEntries /\ ~ backwards /\ exists p, In p pl /\ given maxEntries N < p_end p
    end.
  Proof.
    intros alignment l maxLength maxEntries offsets fs NE F LO H1 HL.
    assert (NN : string_list_to_vec l <> []).
    { destruct l as [|c l']; [contradiction|]. unfold string_list_to_vec. intros X. apply map_eq_nil in X. now apply split_nonempty in X. }
    assert (EP : placed offsets fs = combine offsets fs).
    { destruct offsets as [|o os]; [|reflexivity]. destruct fs; [reflexivity|discriminate]. }
    destruct (init_placed zero lookup order_by_start SORTS alignment l maxLength maxEntries offsets fs NN F (or_intror LO)) as (L & ML & X).
    { rewrite EP. intros p q k Hp Hq. assert (E : forall i r, nth_error (combine offsets fs) i = Some r -> nth i offsets 0 = p_start r).
      { clear. revert fs. induction offsets as [|o os IH]; intros [|f fs] i r E; try (destruct i; discriminate).
        destruct i as [|i]; [injection E as <-; reflexivity|]. now apply (IH fs i r). }
      rewrite <- (E 0 p Hp), <- (E (S k) q Hq). apply H1. split; [lia|].
      assert (S k < length (combine offsets fs)) by (apply nth_error_Some; congruence). rewrite combine_length in H. lia. }
    rewrite EP in ML, X. exists L. split; [exact ML|]. cbv zeta in X |- *.
    set (pl := combine offsets fs) in *. set (N := last (map p_end pl) 0) in *.
    assert (PL : forall p, In p pl -> 0 < p_length p).
    { intros [o f] Hp. apply in_combine_r in Hp. apply (HL f Hp). }
    assert (NB : (forall k a b, nth_error pl k = Some a -> nth_error pl (S k) = Some b -> p_start a <= p_end b) ->
      ~ exists k a b, nth_error pl k = Some a /\ nth_error pl (S k) = Some b /\ p_end b < p_start a).
    { intros G (k & a & b & Ha & Hb & Hab). specialize (G k a b Ha Hb). lia. }
    destruct (init alignment l maxLength maxEntries offsets) as [m|e|].
    - destruct X as (W1 & W2 & G & C & R & B & V). specialize (B PL). split; [exact W1|]. split; [exact W2|]. split; [now apply NB|].
      split; [exact C|]. split; [exact R|]. split; [now rewrite R|]. now apply V.
    - exact X.
    - destruct X as (W1 & W2 & G & P). auto.
  Qed.
  (** If a later file has a smaller offset than the first one, the function never succeeds: unless
      an impulse response is too long or a file lies before the start of its predecessor, it
      reads outside of an array. *)
  Theorem C74_not_first : forall alignment l maxLength maxEntries offsets fs k,
    l <> [] -> Forall2 (holds zero lookup) (string_list_to_vec l) fs -> length offsets = length fs ->
    k < length offsets -> nth k offsets 0 < nth 0 offsets 0 ->
    init alignment l maxLength maxEntries offsets = UB
    \/ (init alignment l maxLength maxEntries offsets = Throw InvalidArgument
        /\ ((exists p, In p (combine offsets fs) /\ ~ within (p_length p) maxLength)
            \/ exists k a b, nth_error (combine offsets fs) k = Some a /\ nth_error (combine offsets fs) (S k) = Some b /\ p_end b < p_start a)).
  Proof.
    intros alignment l maxLength maxEntries offsets fs k NE F LO Lk Hk.
    assert (Lf : length (string_list_to_vec l) = length fs) by (clear -F; induction F; cbn; congruence).
    unfold init_filter_matrix. rewrite Lf, LO, Nat.eqb_refl, andb_false_r.
    destruct offsets as [|o os]; [cbn in Lk; lia|]. cbn [length] in LO. rewrite <- LO. change (0 <? S (length os)) with true. cbv iota.
    rewrite (first_run_some zero lookup _ fs (o :: os) 0 F LO). cbn [bind].
    set (pl := combine (o :: os) fs). assert (LP : length pl = S (length os)) by (unfold pl; rewrite combine_length; cbn [length]; lia).
    destruct (string_list_to_vec l) as [|name names] eqn:EN; [cbn in Lf; lia|]. rewrite <- EN in *. clear EN name names.
    rewrite !map_map. change (map (fun x => i_length (info_of x)) pl) with (map p_length pl).
    change (map (fun x => i_start (info_of x)) pl) with (map p_start pl).
    assert (ES : map p_start pl = o :: os).
    { unfold pl, p_start. clear -LO. assert (G : forall (a : list nat) (b : list (@filters D)), length a = length b -> map fst (combine a b) = a).
      { induction a as [|x a IH]; intros [|y b] E; try discriminate; [reflexivity|]. cbn. f_equal. apply IH. now injection E. }
      apply G. exact LO. }
    rewrite ES. destruct (exceeds (max_list (map p_length pl)) maxLength) eqn:E1.
    - right. split; [reflexivity|]. left. destruct (max_list_spec (map p_length pl)) as [M _]; [destruct pl; [discriminate|discriminate]|].
      apply in_map_iff in M as (p & Ep & Hp). exists p. split; [exact Hp|]. rewrite Ep, <- exceeds_within. congruence.
    - destruct (SORTS (o :: os)) as [P S].
      assert (I0 : In 0 (tl (order_by_start (o :: os)))).
      { assert (I0 : In 0 (order_by_start (o :: os))) by (apply (Permutation_in _ (Permutation_sym P)); apply in_seq; cbn; lia).
        assert (Ik : In k (order_by_start (o :: os))) by (apply (Permutation_in _ (Permutation_sym P)); apply in_seq; lia).
        destruct (order_by_start (o :: os)) as [|x l']; [contradiction|]. cbn [tl]. destruct I0 as [->|I0]; [|exact I0]. exfalso.
        destruct Ik as [<-|Ik]; [lia|]. apply In_nth_error in Ik as [j Hj]. specialize (S 0 (Datatypes.S j) 0 k (Nat.lt_0_succ j) eq_refl Hj). lia. }
      destruct (overlap_loop_zero (map info_of pl) (tl (order_by_start (o :: os))) I0) as [X|(X & i & a & b & Ha & Hb & Hab)].
      + intros x Hx. rewrite map_length, LP. assert (In x (order_by_start (o :: os))) as Hx' by (destruct (order_by_start (o :: os)); [contradiction|now right]).
        apply (Permutation_in _ P) in Hx'. apply in_seq in Hx'. cbn [length] in Hx'. lia.
      + left. rewrite X. reflexivity.
      + right. rewrite X. split; [reflexivity|]. right. rewrite nth_error_map in Ha, Hb.
        destruct (nth_error pl i) as [p|] eqn:Ep; [|discriminate]. destruct (nth_error pl (Datatypes.S i)) as [q|] eqn:Eq; [|discriminate].
        injection Ha as <-. injection Hb as <-. exists i, p, q. auto.
  Qed.
End Filters.

(** *** Examples *)
(** sorting by insertion *)
Fixpoint place (starts : list nat) (x : nat) (l : list nat) : list nat :=
  match l with
  | [] => [x]
  | y :: l' => if nth x starts 0 <=? nth y starts 0 then x :: l else y :: place starts x l'
  end.
Definition ex_order (starts : list nat) : list nat := fold_right (place starts) [] (seq 0 (length starts)).
Lemma place_perm starts x l : Permutation (place starts x l) (x :: l).
Proof.
  induction l as [|y l IH]; cbn [place]; [reflexivity|]. destruct (_ <=? _); [reflexivity|]. rewrite IH. apply perm_swap.
Qed.
Definition ascending (starts l : list nat) : Prop :=
  forall i j a b, i < j -> nth_error l i = Some a -> nth_error l j = Some b -> nth a starts 0 <= nth b starts 0.
Lemma ascending_cons starts x l : ascending starts l -> (forall y, In y l -> nth x starts 0 <= nth y starts 0) -> ascending starts (x :: l).
Proof.
  intros A H [|i] [|j] a b L Ha Hb; try lia.
  - injection Ha as <-. cbn in Hb. apply H. now apply nth_error_In in Hb.
  - apply (A i j); [lia|exact Ha|exact Hb].
Qed.
Lemma ascending_inv starts x l : ascending starts (x :: l) -> ascending starts l /\ forall y, In y l -> nth x starts 0 <= nth y starts 0.
Proof.
  intros A. split; [intros i j a b L Ha Hb; apply (A (S i) (S j)); [lia|exact Ha|exact Hb]|].
  intros y Hy. apply In_nth_error in Hy as [j Hj]. apply (A 0 (S j)); [lia|reflexivity|exact Hj].
Qed.
Lemma place_ascending starts x l : ascending starts l -> ascending starts (place starts x l).
Proof.
  induction l as [|y l IH]; intros A; cbn [place]; [apply ascending_cons; [exact A|intros z []]|].
  destruct (Nat.leb_spec (nth x starts 0) (nth y starts 0)) as [H|H]; apply ascending_inv in A as [A B].
  - apply ascending_cons; [now apply ascending_cons|]. intros z [<-|Hz]; [exact H|]. specialize (B z Hz). lia.
  - apply ascending_cons; [now apply IH|]. intros z Hz. apply (Permutation_in _ (place_perm starts x l)) in Hz as [<-|Hz]; [lia|now apply B].
Qed.
Lemma ex_order_sorts : sorts ex_order.
Proof.
  intros starts. unfold ex_order. split.
  - induction (seq 0 (length starts)) as [|x l IH]; [reflexivity|]. cbn [fold_right]. rewrite place_perm. now constructor.
  - change (ascending starts (fold_right (place starts) [] (seq 0 (length starts)))).
    induction (seq 0 (length starts)) as [|x l IH]; [intros i j a b _ H; destruct i; discriminate|]. cbn [fold_right]. now apply place_ascending.
Qed.

Local Open Scope string_scope.
Definition chars (s : string) : text := list_ascii_of_string s.
(** stereo file a with three frames, mono file b with two, file c with less data than announced *)
Definition ex_lookup (name : text) : option (@file nat) :=
  match string_of_list_ascii name with
  | "a" => Some (Sound 2 3 [11; 21; 12; 22; 13; 23])
  | "b" => Some (Sound 1 2 [31; 32])
  | "c" => Some (Sound 2 3 [11; 21; 12; 22; 13])
  | "" => Some Unreadable
  | _ => None
  end.
Definition file_a : @filters nat := (3, [[11; 12; 13]; [21; 22; 23]]).
Definition file_b : @filters nat := (2, [[31; 32]]).
Lemma holds_a : holds 0 ex_lookup (chars "a") file_a.
Proof. exists 2, 3, [11; 21; 12; 22; 13; 23]. repeat split; cbn; lia. Qed.
Lemma holds_b : holds 0 ex_lookup (chars "b") file_b.
Proof. exists 1, 2, [31; 32]. repeat split; cbn; lia. Qed.
Definition rows (m : @matrix nat) : list (list nat) := map (row_of m) (seq 0 (m_rows m)).
Definition view (r : res (@matrix nat)) : res (nat * nat * list (list nat)) :=
  m <- r ;; Ok (m_rows m, m_cols m, rows m).
Definition ex_init (l : string) := init_filter_matrix 0 ex_lookup ex_order 4 (chars l).

Example C74_example_names :
  string_list_to_vec (chars " ""a b.wav"" ,c,, ") = [chars "a b.wav"; chars "c"; []; []].
Proof. reflexivity. Qed.
Example C74_example_holds : Forall2 (holds 0 ex_lookup) (string_list_to_vec (chars "a, b")) [file_a; file_b].
Proof. constructor; [apply holds_a|constructor; [apply holds_b|constructor]]. Qed.
Example C74_example_consecutive :
  view (ex_init "a, b" (Some 4) None []) = Ok (3, 4, [[11; 12; 13; 0]; [21; 22; 23; 0]; [31; 32; 0; 0]])
  /\ ex_init "a, b" (Some 2) None [] = Throw InvalidArgument
  /\ ex_init "a, b" None (Some 2) [] = Throw InvalidArgument
  /\ ex_init "a, d" None None [] = Throw InvalidArgument
  /\ ex_init "a, b" None None [1] = Throw InvalidArgument.
Proof. repeat split; vm_compute; reflexivity. Qed.
Example C74_example_offsets :
  in_order (placed [1; 4] [file_a; file_b])
  /\ view (ex_init "a,b" None (Some 6) [1; 4])
     = Ok (6, 3, [[0; 0; 0]; [11; 12; 13]; [21; 22; 23]; [0; 0; 0]; [31; 32; 0]; [0; 0; 0]]).
Proof.
  split; [|vm_compute; reflexivity]. intros [|[|k]] a b Ha Hb; try discriminate; try (destruct k; discriminate).
  injection Ha as <-. injection Hb as <-. unfold p_end, p_start. cbn. lia.
Qed.
(** the hypotheses of C74_actual hold for files that are not in order *)
Example C74_example_actual :
  (forall k, 0 < k < 3 -> nth 0 [0; 4; 3] 0 < nth k [0; 4; 3] 0)
  /\ view (ex_init "a,b,b" None (Some 5) [0; 4; 3])
     = Ok (5, 3, [[11; 12; 13]; [21; 22; 23]; [0; 0; 0]; [31; 32; 0]; [31; 32; 0]])
  /\ ex_init "a,b,b" None (Some 6) [0; 5; 3] = Throw InvalidArgument.
Proof. split; [intros [|[|[|k]]]; cbn; lia|]. split; vm_compute; reflexivity. Qed.

(** *** What is wrong *)
(** overlapping files are accepted, contrary to the error message of line 139; the rows contain
    parts of both *)
Theorem C74_overlap_refuted : exists l offsets fs m,
  Forall2 (holds 0 ex_lookup) (string_list_to_vec l) fs /\ length offsets = length fs /\ ~ disjoint (placed offsets fs)
  /\ init_filter_matrix 0 ex_lookup ex_order 4 l None None offsets = Ok m
  /\ rows m = [[11; 12; 13]; [31; 32; 23]].
Proof.
  exists (chars "a,b"), [0; 1], [file_a; file_b]. eexists. split; [apply C74_example_holds|]. split; [reflexivity|]. split; [|split; vm_compute; reflexivity].
  intros X. specialize (X 0 1 (0, file_a) (1, file_b) ltac:(discriminate) eq_refl eq_refl). unfold p_end, p_start in X. cbn in X. lia.
Qed.
(** files in descending order: the test for overlaps reads before the start of an array *)
Theorem C74_descending_refuted : exists l offsets fs,
  Forall2 (holds 0 ex_lookup) (string_list_to_vec l) fs /\ length offsets = length fs /\ disjoint (placed offsets fs)
  /\ init_filter_matrix 0 ex_lookup ex_order 4 l None None offsets = UB.
Proof.
  exists (chars "a,b"), [5; 0], [file_a; file_b]. split; [apply C74_example_holds|]. split; [reflexivity|]. split; [|vm_compute; reflexivity].
  intros i j a b N Ha Hb. cbn in Ha, Hb. unfold p_end, p_start.
  destruct i as [|[|[|i]]], j as [|[|[|j]]]; cbn in Ha, Hb; try discriminate; try lia; injection Ha as <-; injection Hb as <-; cbn; lia.
Qed.
(** files that do not overlap are rejected as overlapping *)
Theorem C74_disjoint_refuted : exists l offsets fs,
  Forall2 (holds 0 ex_lookup) (string_list_to_vec l) fs /\ length offsets = length fs /\ disjoint (placed offsets fs)
  /\ init_filter_matrix 0 ex_lookup ex_order 4 l None None offsets = Throw InvalidArgument.
Proof.
  exists (chars "a,b,b"), [0; 5; 3], [file_a; file_b; file_b]. split; [|split; [reflexivity|split; [|vm_compute; reflexivity]]].
  - constructor; [apply holds_a|]. constructor; [apply holds_b|]. constructor; [apply holds_b|constructor].
  - intros i j a b N Ha Hb. cbn in Ha, Hb. unfold p_end, p_start.
    destruct i as [|[|[|[|i]]]], j as [|[|[|[|j]]]]; cbn in Ha, Hb; try discriminate; try lia; injection Ha as <-; injection Hb as <-; cbn; lia.
Qed.
(** the file with the largest index is not the last one: it is written outside the matrix, also
    if it exceeds the given number of filters *)
Theorem C74_size_refuted : exists l offsets fs,
  Forall2 (holds 0 ex_lookup) (string_list_to_vec l) fs /\ length offsets = length fs /\ disjoint (placed offsets fs)
  /\ init_filter_matrix 0 ex_lookup ex_order 4 l None None offsets = UB
  /\ init_filter_matrix 0 ex_lookup ex_order 4 l None (Some 4) offsets = UB.
Proof.
  exists (chars "a,b,b"), [0; 4; 3], [file_a; file_b; file_b]. split; [|split; [reflexivity|split; [|split; vm_compute; reflexivity]]].
  - constructor; [apply holds_a|]. constructor; [apply holds_b|]. constructor; [apply holds_b|constructor].
  - intros i j a b N Ha Hb. cbn in Ha, Hb. unfold p_end, p_start.
    destruct i as [|[|[|[|i]]]], j as [|[|[|[|j]]]]; cbn in Ha, Hb; try discriminate; try lia; injection Ha as <-; injection Hb as <-; cbn; lia.
Qed.
(** a blank list does not mean that there are no files, contrary to init_filter_matrix.hpp 29 *)
Theorem C74_blank_refuted : exists l, Forall blank l
  /\ init_filter_matrix 0 ex_lookup ex_order 4 l (Some 2) (Some 3) [] = Throw InvalidArgument.
Proof. exists (chars " "). split; [constructor; [now left|constructor]|reflexivity]. Qed.
(** a file with fewer samples than its header announces is not reported; the matrix is filled
    with uninitialised memory *)
Theorem C74_truncated_refuted : exists l name channels frames samples,
  string_list_to_vec l = [name] /\ ex_lookup name = Some (Sound channels frames samples)
  /\ length samples < channels * frames
  /\ init_filter_matrix 0 ex_lookup ex_order 4 l None None [] = UB.
Proof. exists (chars "c"), (chars "c"), 2, 3, [11; 21; 12; 22; 13]. repeat split; cbn; lia. Qed.

Print Assumptions C74_names.
Print Assumptions C74_offset_count.
Print Assumptions C74_no_files.
Print Assumptions C74_unreadable.
Print Assumptions C74_documented.
Print Assumptions C74_consecutive.
Print Assumptions C74_actual.
Print Assumptions C74_not_first.
Print Assumptions C74_overlap_refuted.
Print Assumptions C74_descending_refuted.
Print Assumptions C74_disjoint_refuted.
Print Assumptions C74_size_refuted.
Print Assumptions C74_blank_refuted.
Print Assumptions C74_truncated_refuted.
