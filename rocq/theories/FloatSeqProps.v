(** Property C66: sequences of floating point numbers. *)
From Coq Require Import String ZArith Reals Lra Lia.
From Flocq Require Import Core.Core IEEE754.BinarySingleNaN.
From Verif Require Import Base IndexSequenceModel IndexSequenceProofs FloatSeqModel FloatSeqProofs FloatSeqReal FloatSeqText.
Local Open Scope Z_scope.
Local Open Scope list_scope.

Section Props.
  Context {prec emax : Z} {Hp : Prec_gt_0 prec} {Hm : Prec_lt_emax prec emax}.
  Local Notation num := (binary_float prec emax).
  Context (lex : text -> option (num * text)) (number : num -> text -> Prop) (L : lexes lex number).

  (** C66: a text of the grammar yields the concatenation of what its items denote. *)
  Theorem C66_texts_expand :
    forall items t ls, sequence_txt number items t -> Forall2 denotes items ls ->
    exists n0, forall n, (n0 <= n)%nat -> float_sequence prec emax lex n t = Ok (concat ls).
  Proof using L.
    intros items t ls T D. destruct (expand_complete items ls D) as (n0 & E). exists n0. intros n Hn.
    rewrite (sequence_text_expand lex number L items t n T). now apply E.
  Qed.

  (** C66: nothing else is accepted; in particular not the empty text. *)
  Theorem C66_only_such_texts_accepted :
    forall n t l, float_sequence prec emax lex n t = Ok l ->
    exists items ls, sequence_txt number items t /\ Forall2 denotes items ls /\ l = concat ls /\ items <> [].
  Proof using L.
    intros n t l H. destruct (sequence_sound lex number L n t l H) as (items & ls & T & D & E).
    exists items, ls. repeat split; auto. destruct T as (u & w & _ & [] & _). discriminate.
  Qed.

  (** C66: the first item without a meaning decides how the text is refused: an increment
      below the machine precision by a char const pointer, more than three values by
      invalid_argument, and a range that gets stuck is never finished. *)
  Theorem C66_refused :
    forall pre ls bad post t, sequence_txt number (pre ++ bad :: post) t -> Forall2 denotes pre ls ->
    exists n0, forall n, (n0 <= n)%nat ->
      (forall v inc e, bad = [v; inc; e] -> tiny inc -> float_sequence prec emax lex n t = Throw CharPointer)
      /\ ((3 < length bad)%nat -> float_sequence prec emax lex n t = Throw InvalidArgument)
      /\ (endless bad -> float_sequence prec emax lex n t = UB).
  Proof using L.
    intros pre ls bad post t T D. destruct (expand_fails pre ls bad post D) as (n0 & E).
    exists n0. intros n Hn. rewrite (sequence_text_expand lex number L _ t n T). specialize (E n Hn).
    repeat split.
    - intros v inc e -> Ti. assert (F : finish prec emax n [v; inc; e] = Throw CharPointer).
      { cbn [finish]. apply tiny_iff in Ti. now rewrite Ti. }
      rewrite E; rewrite F; [reflexivity|discriminate].
    - intros Hl. assert (F : finish prec emax n bad = Throw InvalidArgument).
      { destruct bad as [|a [|b [|c [|d bad]]]]; simpl in Hl; try lia. reflexivity. }
      rewrite E; rewrite F; [reflexivity|discriminate].
    - intros En. pose proof (finish_endless bad En n) as F. rewrite E; rewrite F; [reflexivity|discriminate].
  Qed.

  (** C66: there are no other items. *)
  Theorem C66_items :
    forall item : list num, item <> [] ->
    (exists l, denotes item l)
    \/ (exists v inc e, item = [v; inc; e] /\ tiny inc) \/ (3 < length item)%nat \/ endless item.
  Proof.
    assert (G : forall up (v inc e : num), toward up inc ->
              (exists l, ranges up v inc e l) \/ stuck up v inc e).
    { intros up v inc e T. destruct (stuck_or_ends up v inc e T) as [S|(n & l & E)]; [now right|left].
      exists l. apply (loop_iff up n v inc e l) in E. apply E. }
    intros [|v [|e [|c [|d item]]]] N; [congruence| | | |].
    - left. exists [v]. reflexivity.
    - destruct (G true v Bone e toward_one) as [H|H]; [now left|]. right. right. now right.
    - destruct (Bltb (Babs e) (epsilon prec emax)) eqn:Ti.
      { right. left. exists v, e, c. split; [reflexivity|now apply tiny_iff]. }
      assert (Nt : ~ tiny e) by (intros H; apply tiny_iff in H; congruence).
      assert (H : (exists l, ranges (Bltb (B754_zero false) e) v e c l) \/ stuck (Bltb (B754_zero false) e) v e c).
      { destruct (Bltb (B754_zero false) e) eqn:P; [now apply G|].
        destruct (is_nan e) eqn:Na.
        - left. destruct e; try discriminate Na.
          assert (E : forall x : num, Bplus mode_NE x B754_nan = B754_nan) by (intros []; reflexivity).
          destruct (keep false c v) eqn:K.
          + exists [v]. exists 1%nat. split; [reflexivity|]. split.
            * intros i Hi. replace i with 0%nat by lia. now apply keep_within.
            * rewrite term_S, E. destruct c as [[]|[]| |[] m x B]; intros [|]; discriminate.
          + exists []. exists 0%nat. split; [reflexivity|]. split; [lia|]. now apply keep_false.
        - apply G. cbn [toward]. destruct e as [s|s| |s m x B]; try discriminate Na.
          + destruct Nt. split; [reflexivity|]. simpl. rewrite Rabs_R0. apply bpow_gt_0.
          + destruct s; [reflexivity|discriminate P].
          + destruct s; [reflexivity|discriminate P]. }
      destruct H as [(l & H)|H]; [left; exists l; now split|]. right. right. right. now split.
    - right. right. left. simpl. lia.
  Qed.

  (** C66: a range has an end if and only if no number within it absorbs the increment. *)
  Theorem C66_ends_iff :
    forall up (v inc e : num), toward up inc ->
    ((exists l, ranges up v inc e l) <->
     ~ exists k, (forall i, (i <= k)%nat -> within up e (term v inc i)) /\ term v inc (S k) = term v inc k).
  Proof.
    intros up v inc e T. apply iff_trans with (exists n l, loop up n v inc e = Ok l);
      [|exact (ends_iff up v inc e T)]. split.
    - intros (l & R). exists (S (length l)), l. apply (loop_iff up). split; [exact R|lia].
    - intros (n & l & E). exists l. apply (loop_iff up n v inc e l) in E. apply E.
  Qed.

  (** C66: it has, if the increment is at least a unit in the last place of numbers of the
      magnitude of start and end, ... *)
  Theorem C66_ends :
    forall up (v inc e : num) k, toward up inc -> is_finite v = true -> is_finite e = true ->
    3 - emax <= k -> (Rabs (B2R v) < bpow radix2 k)%R -> (Rabs (B2R e) < bpow radix2 k)%R ->
    (is_finite inc = true -> bpow radix2 (k - prec) <= Rabs (B2R inc))%R ->
    exists l, ranges up v inc e l.
  Proof.
    intros up v inc e k T Fv Fe Hk Lv Le Li.
    destruct (always_ends up v inc e k T Fv Fe ltac:(lia) Lv Le) as (n & l & E).
    - intros Fi. specialize (Li Fi). destruct (toward_cases up inc T) as [->|[_ P]]; [discriminate Fi|].
      destruct up; cbn [dirR] in *; unfold Rabs in Li; destruct Rcase_abs; lra.
    - exists l. apply (loop_iff up n v inc e l) in E. apply E.
  Qed.

  (** ... and it has none if the increment is less than that of the end. *)
  Theorem C66_never_ends :
    forall up (v inc e : num) k, toward up inc -> is_finite e = true -> is_finite inc = true ->
    within up e v -> (bpow radix2 k <= if up then B2R e else - B2R e)%R ->
    (Rabs (B2R inc) < bpow radix2 (k - prec))%R ->
    forall l, ~ ranges up v inc e l.
  Proof.
    intros up v inc e k T Fe Fi W Le Li l R.
    assert (E : loop up (S (length l)) v inc e = Ok l) by (apply (loop_iff up); split; [exact R|lia]).
    rewrite (never_ends up v inc e T Fi Fe) in E; [discriminate| |exact W].
    apply (absorbed up inc e k T Fe); [destruct up; exact Le|exact Fi|].
    destruct up; cbn [dirR]; unfold Rabs in Li; destruct Rcase_abs; lra.
  Qed.

  (** C66: a range of small multiples of a power of two is the exact arithmetic progression. *)
  Theorem C66_exact :
    forall (up : bool) q (v inc e : num) (a i b : Z), 3 - emax - prec <= q -> prec + q < emax ->
    on_grid q v a -> on_grid q inc i -> on_grid q e b ->
    (if up then 0 < i else i < 0) -> Z.abs a <= 2 ^ prec -> Z.abs b + Z.abs i <= 2 ^ prec ->
    exists n l, ranges up v inc e l /\ length l = n
      /\ map B2R l = map (fun k => (IZR (a + Z.of_nat k * i) * bpow radix2 q)%R) (seq 0 n)
      /\ forall k, (k < n)%nat <-> if up then a + Z.of_nat k * i <= b else b <= a + Z.of_nat k * i.
  Proof.
    intros up q v inc e a i b Hq Ho Gv Gi Ge Hi Ha Hb.
    destruct (exact_range up q v inc e a i b Hq Ho Gv Gi Ge Hi Ha Hb) as (n & Hn & Hk & R).
    exists n, (map (term v inc) (seq 0 n)). split; [exact R|].
    split; [now rewrite map_length, seq_length|]. split; [|exact Hn].
    rewrite map_map. apply map_ext_in. intros k Hin. apply in_seq in Hin. apply Hk. lia.
  Qed.

  (** C66: a printed list is read back, if its numbers are. *)
  Theorem C66_print :
    forall show w1 w2 n l, ws w1 -> ws w2 -> l <> [] -> Forall (fun x => number x (show x)) l ->
    float_sequence prec emax lex n (to_string prec emax show (w1 ++ ","%char :: w2) l) = Ok l.
  Proof using L.
    intros show w1 w2 n l W1 W2 N F.
    rewrite (sequence_text_expand lex number L _ _ n (to_string_text number show w1 w2 l W1 W2 N F)).
    apply expand_single.
  Qed.

  (** C66: the empty list is printed as the empty text, which is not read. *)
  Theorem C66_print_refuted :
    forall show sep n, to_string prec emax show sep [] = []
      /\ float_sequence prec emax lex n (to_string prec emax show sep []) = Throw InvalidArgument.
  Proof using L.
    intros show sep n. split; [reflexivity|]. cbn [to_string concat map firstn length].
    unfold float_sequence. destruct (parse_item prec emax lex []) as [[vs u]|] eqn:P; [|reflexivity].
    exfalso. destruct (parse_item_sound lex number L _ _ _ P) as (u1 & Eu & I).
    destruct I as [x t xs r (w & m & -> & _ & N) _].
    destruct (lex_start _ _ L _ _ N) as (c & u' & -> & _). destruct w; discriminate Eu.
  Qed.
End Props.

Print Assumptions C66_texts_expand.
Print Assumptions C66_only_such_texts_accepted.
Print Assumptions C66_refused.
Print Assumptions C66_items.
Print Assumptions C66_ends_iff.
Print Assumptions C66_ends.
Print Assumptions C66_never_ends.
Print Assumptions C66_exact.
Print Assumptions C66_print.
Print Assumptions C66_print_refuted.

(** ** Single precision, and a reader of integers *)
Local Instance prec24 : Prec_gt_0 24. Proof. reflexivity. Qed.
Local Instance max128 : Prec_lt_emax 24 128. Proof. reflexivity. Qed.
Definition of_int (z : Z) : binary_float 24 128 := binary_normalize 24 128 prec24 max128 mode_NE z 0 false.
Definition int_lex (t : text) : option (binary_float 24 128 * text) :=
  match t with
  | [] => None
  | c :: _ => if is_space c then None
              else match parse_int t with Some (z, r) => Some (of_int z, r) | None => None end
  end.
Definition int_number (x : binary_float 24 128) (u : text) : Prop := exists z, x = of_int z /\ num_text z u.

Lemma num_text_start z u : num_text z u -> exists c u', u = c :: u' /\ is_space c = false.
Proof.
  intros (neg & s & ds & -> & S & N & F & _). destruct ds as [|d ds]; [congruence|].
  inversion F as [|? ? Hd _]; subst. destruct neg; simpl in S.
  - subst s. exists "-"%char, (d :: ds). split; reflexivity.
  - destruct S as [-> | ->].
    + exists d, ds. split; [reflexivity|now apply digit_not_space].
    + exists "+"%char, (d :: ds). split; reflexivity.
Qed.

Lemma int_lexes : lexes int_lex int_number.
Proof.
  split.
  - intros x u r (z & -> & N) E. destruct (num_text_start z u N) as (c & u' & -> & Hc).
    change (int_lex ((c :: u') ++ r)) with
      (if is_space c then None
       else match parse_int ((c :: u') ++ r) with Some (z, q) => Some (of_int z, q) | None => None end).
    rewrite Hc. rewrite (parse_int_complete z (c :: u') r); [reflexivity| |].
    + exists [], (c :: u'). repeat split; [constructor|exact N].
    + destruct r as [|d r]; [exact I|]. simpl in *. destruct E as [E|[-> | ->]]; [|reflexivity|reflexivity].
      destruct (is_digit d) eqn:D; [|reflexivity]. apply digit_not_space in D. congruence.
  - intros t x r H. unfold int_lex in H. destruct t as [|c t]; [discriminate|].
    destruct (is_space c) eqn:Hc; [discriminate|].
    destruct (parse_int (c :: t)) as [[z r']|] eqn:P; [|discriminate]. injection H as <- <-.
    destruct (parse_int_sound _ _ _ P) as (u & E & (w & m & -> & W & N) & _).
    destruct w as [|d w].
    + exists m. split; [exact E|]. exists z. auto.
    + exfalso. injection E as <- _. inversion W as [|? ? H1 _]; subst. congruence.
  - intros x u (z & _ & N). exact (num_text_start z u N).
Qed.

(** C66: two valid numbers of single precision whose range never ends (a range of whole
    numbers with unit increment). *)
Theorem C66_endless_refuted :
  exists t v e, sequence_txt int_number [[v; e]] t
    /\ B2R v = 16777216%R /\ B2R e = 16777218%R
    /\ (forall n, float_sequence 24 128 int_lex n t = UB).
Proof.
  assert (V : forall z, Z.abs z <= 2 ^ 24 \/ z = 16777218 -> B2R (of_int z) = IZR z).
  { intros z Hz. unfold of_int.
    pose proof (binary_normalize_correct 24 128 prec24 max128 mode_NE z 0 false) as C. cbv zeta in C.
    assert (E : F2R (Float radix2 z 0) = IZR z) by (unfold F2R; simpl; ring). rewrite E in C.
    assert (G : generic_format radix2 (SpecFloat.fexp 24 128) (IZR z)).
    { destruct Hz as [Hz| ->].
      - replace (IZR z) with (IZR z * bpow radix2 0)%R by (simpl; ring).
        apply (@grid_format 24 128 prec24 0 z); lia.
      - replace 16777218%R with (IZR 8388609 * bpow radix2 1)%R by (simpl; lra).
        apply (@grid_format 24 128 prec24 1 8388609); lia. }
    rewrite round_generic in C by (apply valid_rnd_N || exact G).
    rewrite Rlt_bool_true in C; [apply C|].
    rewrite <- abs_IZR. change (bpow radix2 128) with (IZR (2 ^ 128)). apply IZR_lt.
    destruct Hz as [Hz| ->]; lia. }
  exists (list_ascii_of_string "16777216:16777218"), (of_int 16777216), (of_int 16777218).
  assert (T : sequence_txt int_number [[of_int 16777216; of_int 16777218]]
                (list_ascii_of_string "16777216:16777218")).
  { exists (list_ascii_of_string "16777216:16777218"), []. split; [now rewrite app_nil_r|].
    split; [|constructor]. rewrite <- (app_nil_r (list_ascii_of_string _)). constructor; [|constructor].
    apply (list_text_intro ":"%char (spaced int_number) (of_int 16777216) (list_ascii_of_string "16777216")
             [of_int 16777218] ([] ++ ":"%char :: list_ascii_of_string "16777218" ++ [])).
    - exists [], (list_ascii_of_string "16777216"). repeat split; [constructor|].
      exists 16777216. split; [reflexivity|]. exists false, [], (list_ascii_of_string "16777216").
      repeat split; [now left|discriminate|repeat constructor|unfold INT_MIN; lia|unfold INT_MAX; lia].
    - constructor; [constructor| |constructor].
      exists [], (list_ascii_of_string "16777218"). repeat split; [constructor|].
      exists 16777218. split; [reflexivity|]. exists false, [], (list_ascii_of_string "16777218").
      repeat split; [now left|discriminate|repeat constructor|unfold INT_MIN; lia|unfold INT_MAX; lia]. }
  split; [exact T|]. split; [apply V; lia|]. split; [apply V; lia|].
  intros n. rewrite (sequence_text_expand int_lex int_number int_lexes _ _ n T). cbn [expand].
  rewrite finish_endless; [reflexivity|]. exists 0%nat. split.
  - intros i Hi. replace i with 0%nat by lia. left. vm_compute. reflexivity.
  - apply B2SF_inj. vm_compute. reflexivity.
Qed.
Print Assumptions C66_endless_refuted.

Definition shown (r : res (list (binary_float 24 128))) : res (list SpecFloat.spec_float) :=
  match r with Ok l => Ok (map B2SF l) | Throw e => Throw e | UB => UB end.
(** number m * 2^e *)
Definition fl (m e : Z) : binary_float 24 128 := binary_normalize 24 128 prec24 max128 mode_NE m e false.
Definition txt (s : string) : text := list_ascii_of_string s.

Example C66_example :
  shown (float_sequence 24 128 int_lex 9 (txt " 1:3 , 7,9 : -4: 0"))
    = Ok (map (fun z => B2SF (of_int z)) [1; 2; 3; 7; 9; 5; 1])
  /\ shown (float_sequence 24 128 int_lex 9 (txt "1:0:3")) = Throw CharPointer
  /\ shown (float_sequence 24 128 int_lex 9 (txt "3,1:2:3:4")) = Throw InvalidArgument
  /\ shown (float_sequence 24 128 int_lex 9 (txt "1 2")) = Throw InvalidArgument
  /\ shown (float_sequence 24 128 int_lex 9 (txt "3:1")) = Ok [].
Proof. vm_compute. repeat split. Qed.

(** C66: a decimal range may lack its last element: "0:0.3:0.9" has three elements. *)
Theorem C66_decimal_refuted :
  exists inc e l, finish 24 128 9 [fl 0 0; inc; e] = Ok l /\ length l = 3%nat
    /\ (Rabs (B2R inc - 3 / 10) <= bpow radix2 (-26))%R     (* the number next to 0.3 *)
    /\ (Rabs (B2R e - 9 / 10) <= bpow radix2 (-25))%R.      (* the number next to 0.9 *)
Proof.
  assert (G : shown (finish 24 128 9 [fl 0 0; fl 10066330 (-25); fl 15099494 (-24)])
            = Ok (map B2SF [fl 0 0; fl 10066330 (-25); fl 10066330 (-24)])) by (vm_compute; reflexivity).
  destruct (finish 24 128 9 [fl 0 0; fl 10066330 (-25); fl 15099494 (-24)]) as [l| |] eqn:E;
    [|discriminate G|discriminate G].
  exists (fl 10066330 (-25)), (fl 15099494 (-24)), l. split; [exact E|]. split.
  - cbn [shown] in G. apply Ok_inj, (f_equal (@length _)) in G. rewrite !map_length in G. exact G.
  - assert (E1 : B2SF (fl 10066330 (-25)) = SpecFloat.S754_finite false 10066330 (-25)) by (vm_compute; reflexivity).
    assert (E2 : B2SF (fl 15099494 (-24)) = SpecFloat.S754_finite false 15099494 (-24)) by (vm_compute; reflexivity).
    rewrite <- !SF2R_B2SF, E1, E2. unfold SF2R, F2R. simpl. split; apply Rabs_le; lra.
Qed.
Print Assumptions C66_decimal_refuted.

(** 0 : 0.25 : 1 is exact (C66_exact with q = -2) *)
Example C66_fractions :
  shown (finish 24 128 9 [fl 0 0; fl 1 (-2); fl 1 0]) = Ok (map B2SF [fl 0 0; fl 1 (-2); fl 1 (-1); fl 3 (-2); fl 1 0])
  /\ on_grid (-2) (fl 1 (-2)) 1 /\ on_grid (-2) (fl 1 0) 4.
Proof.
  split; [vm_compute; reflexivity|]. split.
  - split; [vm_compute; reflexivity|].
    assert (E : B2SF (fl 1 (-2)) = SpecFloat.S754_finite false 8388608 (-25)) by (vm_compute; reflexivity).
    rewrite <- SF2R_B2SF, E. unfold SF2R, F2R. simpl. lra.
  - split; [vm_compute; reflexivity|].
    assert (E : B2SF (fl 1 0) = SpecFloat.S754_finite false 8388608 (-23)) by (vm_compute; reflexivity).
    rewrite <- SF2R_B2SF, E. unfold SF2R, F2R. simpl. lra.
Qed.
