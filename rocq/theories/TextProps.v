(** C88: vectors and matrices from texts and audio files. *)
From Coq Require Import Ascii ZArith Lia String List.
From Verif Require Import Base IndexSequenceModel TextModel TextSpec TextProofs.
Import ListNotations.
Local Open Scope nat_scope.
Local Open Scope list_scope.

Section C88.
  Context {num : Type}.
  Variable written : num -> chars -> Prop.
  Variable lex : chars -> option (num * chars).
  Hypothesis P : number_parser written lex.

  (** numbers separated by spaces or single commas, with a final comment, are read as they are written *)
  Theorem C88_vector xs t : row_text written nonempty_separator xs t -> vector_fromString lex t = Ok xs.
  Proof. intros H. unfold vector_fromString. now rewrite (parse_row_reads written lex P xs t H). Qed.

  (** nothing else is accepted, except that a separator can be missing where the numbers are
      recognised without it *)
  Theorem C88_vector_only t :
    match vector_fromString lex t with
    | Ok xs => row_text written separator xs t
    | Throw e => e = InvalidArgument /\ forall xs, ~ row_text written nonempty_separator xs t
    | UB => False
    end.
  Proof.
    unfold vector_fromString. destruct (parse_row lex t) as [v|] eqn:E.
    - now apply (parse_row_accepts written lex P).
    - split; [easy|]. intros xs H. now rewrite (parse_row_reads written lex P xs t H) in E.
  Qed.

  Lemma rows_parsed rows t : row_texts written nonempty_separator rows t ->
    Forall2 (fun l v => parse_row lex l = Some v) (pieces breaks t) rows.
  Proof.
    intros H. apply row_texts_pieces in H. induction H; constructor; [|easy].
    now apply (parse_row_reads written lex P).
  Qed.

  (** lines and parts of lines between semicolons are rows; those without numbers do not count; all
      rows must have the same number of elements *)
  Theorem C88_matrix rows t : row_texts written nonempty_separator rows t ->
    (forall n, proper rows <> [] -> (forall r, In r (proper rows) -> length r = n) ->
       matrix_fromString lex t = Ok (Matrix (length (proper rows)) n (proper rows))) /\
    (proper rows = [] -> matrix_fromString lex t = Ok (Matrix 0 0 [])) /\
    (forall r r', In r (proper rows) -> In r' (proper rows) -> length r <> length r' ->
       matrix_fromString lex t = Throw InvalidArgument).
  Proof. intros H. now apply matrix_of_rows, rows_parsed. Qed.

  Theorem C88_matrix_only t :
    match matrix_fromString lex t with
    | Ok m => exists rows, row_texts written separator rows t /\ m_data m = proper rows /\
        m_rows m = length (m_data m) /\ (forall r, In r (m_data m) -> length r = m_columns m) /\
        (m_rows m = 0 <-> m_columns m = 0)
    | Throw e => e = InvalidArgument /\ forall rows, row_texts written nonempty_separator rows t ->
        exists r r', In r (proper rows) /\ In r' (proper rows) /\ length r <> length r'
    | UB => False
    end.
  Proof.
    assert (Throws : matrix_fromString lex t = Throw InvalidArgument -> forall rows,
      row_texts written nonempty_separator rows t ->
      exists r r', In r (proper rows) /\ In r' (proper rows) /\ length r <> length r').
    { intros E rows H. destruct (C88_matrix rows t H) as (A & B & _).
      destruct (proper rows) as [|r0 rs] eqn:Q; [now rewrite B in E|].
      destruct (List.Forall_dec (fun r : list num => length r = length r0) (fun r => Nat.eq_dec _ _) rs) as [D|D].
      - rewrite (A (length r0)) in E; [easy|easy|]. rewrite Forall_forall in D. intros r [<-|I]; [easy|now apply D].
      - rewrite <- Exists_Forall_neg in D.
        + apply Exists_exists in D as (r & I & N). exists r, r0. split; [now right|]. split; [now left|easy].
        + intros r. destruct (Nat.eq_dec (length r) (length r0)); [now left|now right]. }
    destruct (add_rows_throws lex (pieces breaks t) start) as [(s & E)|E].
    - destruct (add_rows_ok lex _ _ _ fits_start E) as (vs & Hv & F & T). cbn [start tmpStorage app] in T.
      assert (R : row_texts written separator vs t).
      { apply pieces_row_texts. clear -P Hv. induction Hv; constructor; [|easy]. now apply (parse_row_accepts written lex P). }
      assert (U := matrix_unfold lex t). rewrite E in U. cbn [bind] in U.
      destruct F as [(Em & E0 & _)|(k & Em & (a & Ia & La) & (b & Ib & Lb) & All)]; rewrite Em in U.
      + rewrite U. exists vs. cbn [m_data m_rows m_columns]. rewrite <- T, E0. repeat split; easy.
      + destruct (Nat.eqb_spec k (maxSize s)) as [Ek|Nk]; cbn [negb] in U; [|rewrite U; split; [easy|now apply Throws]].
        rewrite U. exists vs. cbn [m_data m_rows m_columns]. split; [easy|]. split; [easy|]. split; [easy|].
        split; [intros r I; apply All in I; lia|]. apply All in Ia as J. destruct (tmpStorage s); [easy|]. cbn; lia.
    - assert (U := matrix_unfold lex t). rewrite E in U. cbn [bind] in U. rewrite U. split; [easy|]. now apply Throws.
  Qed.

  (** there are fewer commas than numbers: a comma at the beginning or the end, and two in sequence,
      are errors *)
  Theorem C88_commas t xs : (forall x n, written x n -> ~ In ","%char n) -> ~ In "%"%char t ->
    vector_fromString lex t = Ok xs -> count_occ ascii_dec t ","%char = 0 \/ count_occ ascii_dec t ","%char < length xs.
  Proof.
    intros NC NP E. pose proof (C88_vector_only t) as O. rewrite E in O. clear E.
    assert (B : forall s, blank s -> count_occ ascii_dec s ","%char = 0).
    { intros s Hs. apply count_occ_not_In. intros I. apply (proj1 (Forall_forall _ _) Hs) in I. revert I. apply comma_solid. }
    assert (Z : forall u, no_numbers u -> ~ In "%"%char u -> count_occ ascii_dec u ","%char = 0).
    { intros u [s Hs|s c Hs] N; [now apply B|]. destruct N. apply in_or_app. right. now left. }
    assert (Hw : forall x n, written x n -> count_occ ascii_dec n ","%char = 0).
    { intros x n W. apply count_occ_not_In. now apply (NC x). }
    assert (T : forall ys u, tail_text written separator ys u -> ~ In "%"%char u -> count_occ ascii_dec u ","%char <= length ys).
    { induction 1 as [u Hu|s x u ys r Hs W T IH]; intros N; [rewrite Z by easy; lia|].
      rewrite !count_occ_app, (Hw x u W). cbn [length].
      assert (IH' : count_occ ascii_dec r ","%char <= length ys).
      { apply IH. intros I. apply N. apply in_or_app. right. apply in_or_app. now right. }
      destruct Hs as [Hs|(a & b & Ha & Hb & ->)]; [rewrite (B s Hs); lia|].
      rewrite count_occ_app, count_occ_cons_eq, (B a Ha), (B b Hb) by easy. lia. }
    destruct O as [u Hu|s x u ys r Hs W T']; [left; now apply Z|].
    right. rewrite !count_occ_app, (B s Hs), (Hw x u W). cbn [length Nat.add]. apply Nat.lt_succ_r, T; [easy|].
    intros I. apply NP. apply in_or_app. right. apply in_or_app. now right.
  Qed.

  (** a comment does not end at the end of the line: in a matrix, it ends at the next semicolon *)
  Theorem C88_comment_refuted x n : written x n -> Forall (fun c => ~ row_separator c) n ->
    exists t c, Forall (fun c => nat_of_ascii c <> 10) c /\
      matrix_fromString lex t = Ok (Matrix 0 0 []) /\
      matrix_fromString lex (t ++ "%"%char :: c) = Ok (Matrix 1 1 [[x]]).
  Proof.
    intros W N. exists [], (";"%char :: n). split; [|split].
    - constructor; [easy|]. revert N. apply Forall_impl. intros c Hc E. apply Hc. now left.
    - refine (proj1 (proj2 (C88_matrix [[]] [] _)) eq_refl).
      apply last_row; [|constructor]. apply row_end, only_spaces. constructor.
    - refine (proj1 (C88_matrix [[]; [x]] _ _) 1 ltac:(easy) _); [|intros r [<-|[]]; easy].
      change ([] ++ "%"%char :: ";"%char :: n) with (["%"%char] ++ ";"%char :: n). apply more_rows.
      + apply row_end. apply (with_comment [] []). constructor.
      + constructor; [|constructor]. intros [H|H]; easy.
      + now right.
      + apply last_row; [|easy]. rewrite <- (app_nil_r n). apply (row_more _ _ []); [constructor|easy|].
        apply tail_end, only_spaces. constructor.
  Qed.
  (** in a vector, it ends at the end of the text: all following lines are ignored *)
  Theorem C88_vector_comment xs t s c : row_text written nonempty_separator xs t -> ~ In "%"%char t ->
    blank s -> vector_fromString lex (t ++ s ++ "%"%char :: c) = Ok xs.
  Proof.
    intros H N Hs. apply C88_vector.
    assert (App : forall u, no_numbers u -> ~ In "%"%char u -> no_numbers (u ++ s ++ "%"%char :: c)).
    { intros u [v Hv|v d Hv] Nu; [|destruct Nu; apply in_or_app; right; now left].
      rewrite app_assoc. apply with_comment. now apply Forall_app. }
    assert (Tail : forall ys u, tail_text written nonempty_separator ys u -> ~ In "%"%char u ->
      tail_text written nonempty_separator ys (u ++ s ++ "%"%char :: c)).
    { induction 1 as [u Hu|a x u ys r Ha W T IH]; intros Nu; [now apply tail_end, App|].
      rewrite <- !app_assoc. apply tail_more; [easy|easy|]. apply IH. intros I. apply Nu.
      apply in_or_app. right. apply in_or_app. now right. }
    destruct H as [u Hu|a x u ys r Ha W T]; [now apply row_end, App|].
    rewrite <- !app_assoc. apply row_more; [easy|easy|]. apply Tail; [easy|]. intros I. apply N.
    apply in_or_app. right. apply in_or_app. now right.
  Qed.
End C88.

Section Audio.
  Context {num : Type}.
  (** a sound file is a matrix with one row per channel, if it holds as many samples as its header tells *)
  Theorem C88_audio (old : nat -> num) s d : length (samples s) = channels s * frames s ->
    exists m, matrix_fromAudioFile old (SoundFile s) = Ok m /\ m_rows m = channels s /\ m_columns m = frames s /\
      length (m_data m) = channels s /\
      forall c, c < channels s -> length (nth c (m_data m) []) = frames s /\
        forall k, k < frames s -> nth k (nth c (m_data m) []) d = nth (k * channels s + c) (samples s) d.
  Proof.
    intros L. unfold matrix_fromAudioFile. eexists. split; [reflexivity|].
    cbn [m_rows m_columns m_data]. split; [easy|]. split; [easy|]. split; [now rewrite map_length, seq_length|].
    intros c Hc.
    erewrite (nth_indep _ [] _), map_nth with (d := 0) by (rewrite map_length, seq_length; exact Hc).
    rewrite seq_nth by easy. split; [now rewrite map_length, seq_length|].
    intros k Hk.
    erewrite (nth_indep _ d _), map_nth with (d := 0) by (rewrite map_length, seq_length; exact Hk).
    rewrite seq_nth by easy. cbn [Nat.add].
    assert (B : k * channels s + c < channels s * frames s) by nia.
    unfold read_samples.
    erewrite (nth_indep _ (old 0) _), map_nth with (d := 0) by (rewrite map_length, seq_length; exact B).
    rewrite seq_nth by easy. cbn [Nat.add]. apply nth_indep. now rewrite L.
  Qed.
  Theorem C88_audio_vector (old : nat -> num) s : channels s = 1 -> length (samples s) = frames s ->
    vector_fromAudioFile old (SoundFile s) = Ok (samples s).
  Proof.
    intros C L. unfold vector_fromAudioFile. rewrite C. cbn [Nat.eqb negb]. f_equal. unfold read_samples. rewrite <- L.
    apply nth_ext with (d := old 0) (d' := old 0); [now rewrite map_length, seq_length|].
    intros i. rewrite map_length, seq_length. intros Hi.
    erewrite (nth_indep _ (old 0) _), map_nth with (d := 0) by (rewrite map_length, seq_length; exact Hi).
    rewrite seq_nth by easy. cbn [Nat.add]. now apply nth_indep.
  Qed.
  Theorem C88_audio_rejected (old : nat -> num) f :
    (vector_fromAudioFile old f = Throw InvalidArgument <->
       match f with SoundFile s => channels s <> 1 | _ => True end) /\
    (matrix_fromAudioFile old f = Throw InvalidArgument <->
       match f with SoundFile _ => False | _ => True end).
  Proof.
    destruct f as [| |s]; cbn; try easy. split; [|easy]. now destruct (Nat.eqb_spec (channels s) 1).
  Qed.
  (** a file with fewer samples is accepted, and the result contains what the memory held before *)
  Theorem C88_audio_refuted (x y : num) : x <> y -> exists s, length (samples s) < channels s * frames s /\
    vector_fromAudioFile (fun _ => x) (SoundFile s) = Ok [x; x] /\
    vector_fromAudioFile (fun _ => y) (SoundFile s) = Ok [x; y] /\
    matrix_fromAudioFile (fun _ => y) (SoundFile s) = Ok (Matrix 1 2 [[x; y]]).
  Proof. intros _. exists (Sound 1 2 [x]). repeat split. cbn. lia. Qed.
End Audio.

(** *** A number parser: unsigned decimal integers *)
Definition digits_written (z : Z) (t : chars) : Prop :=
  t <> [] /\ Forall (fun c => is_digit c = true) t /\ z = digits_value t.
Definition digits_lex (l : chars) : option (Z * chars) :=
  match span_digits l with ([], _) => None | (ds, r) => Some (digits_value ds, r) end.
Lemma span_split l : forall ds r, span_digits l = (ds, r) -> l = ds ++ r /\ Forall (fun c => is_digit c = true) ds.
Proof.
  induction l as [|c l IH]; intros ds r; cbn [span_digits].
  - intros [= <- <-]. split; [easy|constructor].
  - destruct (is_digit c) eqn:D; [|intros [= <- <-]; split; [easy|constructor]].
    destruct (span_digits l) as (a, b). intros [= <- <-]. destruct (IH _ _ eq_refl) as (-> & F). split; [easy|now constructor].
Qed.
Lemma digit_solid c : is_digit c = true -> ~ space c /\ c <> ","%char /\ c <> "%"%char.
Proof.
  unfold is_digit, space. rewrite andb_true_iff, !Nat.leb_le. intros H.
  split; [cbn [In]; lia|]. split; intros ->; cbn in H; lia.
Qed.
Lemma not_digit c : space c \/ c = ","%char \/ c = "%"%char -> is_digit c = false.
Proof. intros H. destruct (is_digit c) eqn:D; [|easy]. apply digit_solid in D as (A & B & C). now destruct H as [H|[H|H]]. Qed.
Lemma span_join t r : Forall (fun c => is_digit c = true) t -> terminated r -> span_digits (t ++ r) = (t, r).
Proof.
  intros F T. induction F as [|c t D _ IH]; cbn.
  - destruct r as [|c r]; [easy|]. cbn. now rewrite not_digit.
  - now rewrite D, IH.
Qed.
Lemma digits_parser : number_parser digits_written digits_lex.
Proof.
  split.
  - intros x t r (N & F & ->) T. unfold digits_lex. rewrite span_join by easy. now destruct t.
  - intros l x r. unfold digits_lex. destruct (span_digits l) as (ds, q) eqn:E. apply span_split in E as (-> & F).
    destruct ds as [|d ds]; [easy|]. intros [= <- <-]. now exists (d :: ds).
  - intros x t (N & F & _). destruct F as [|c t D _]; [easy|]. now apply digit_solid.
Qed.

Local Open Scope string_scope.
Definition nl : string := String newline "".
Definition str (s : string) : chars := list_ascii_of_string s.
Example C88_vector_ex :
  row_text digits_written nonempty_separator [12; 3; 4]%Z (str " 12 ,3 4 % x") /\
  vector_fromString digits_lex (str " 12 ,3 4 % x") = Ok [12; 3; 4]%Z.
Proof.
  split; [|reflexivity].
  assert (W : forall t, t <> [] -> forallb is_digit t = true -> digits_written (digits_value t) t).
  { intros t N F. split; [easy|]. split; [|easy]. apply Forall_forall. now apply forallb_forall. }
  assert (Sp : space " ") by now apply is_space_space.
  apply (row_more _ _ [" "%char] 12%Z (str "12") _ (str " ,3 4 % x")); [now constructor|now apply (W (str "12"))|].
  apply (tail_more _ _ (str " ,") 3%Z (str "3") _ (str " 4 % x")).
  { split; [|easy]. right. exists [" "%char], []. split; [now constructor|]. split; [constructor|easy]. }
  { now apply (W (str "3")). }
  apply (tail_more _ _ (str " ") 4%Z (str "4") _ (str " % x")).
  { split; [|easy]. left. now constructor. }
  { now apply (W (str "4")). }
  apply tail_end. apply (with_comment (str " ") (str " x")). now constructor.
Qed.
Example C88_matrix_ex :
  matrix_fromString digits_lex (str ("1, 2; 3 4 % comment" ++ nl ++ nl ++ "5 6" ++ nl)) = Ok (Matrix 3 2 [[1; 2]; [3; 4]; [5; 6]]%Z) /\
  matrix_fromString digits_lex (str ("1 2" ++ nl ++ "3")) = Throw InvalidArgument /\
  matrix_fromString digits_lex (str "1,,2") = Throw InvalidArgument /\
  matrix_fromString digits_lex (str "1 2,") = Throw InvalidArgument /\
  matrix_fromString digits_lex (str "1 % old: 2 3; 4") = Ok (Matrix 2 1 [[1]; [4]]%Z) /\
  vector_fromString digits_lex (str ("1 % first" ++ nl ++ "2 % second")) = Ok [1]%Z.
Proof. repeat split. Qed.
Example C88_audio_ex :
  matrix_fromAudioFile (fun _ => 0%Z) (SoundFile (Sound 2 3 [1; 10; 2; 20; 3; 30]%Z)) = Ok (Matrix 2 3 [[1; 2; 3]; [10; 20; 30]]%Z).
Proof. reflexivity. Qed.

Print Assumptions C88_vector.
Print Assumptions C88_vector_only.
Print Assumptions C88_matrix.
Print Assumptions C88_matrix_only.
Print Assumptions C88_commas.
Print Assumptions C88_comment_refuted.
Print Assumptions C88_vector_comment.
Print Assumptions C88_audio.
Print Assumptions C88_audio_vector.
Print Assumptions C88_audio_rejected.
Print Assumptions C88_audio_refuted.
