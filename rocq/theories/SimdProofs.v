(** Proofs about the vector kernels: every loop of a kernel computes the elementwise
    operation on the elements it covers, whatever the register width. *)
From Verif Require Import Base Memory SimdModel.
Local Open Scope res_scope.

Lemma skipn_skipn {A} : forall a b (l : list A), skipn a (skipn b l) = skipn (a + b) l.
Proof.
  intros a b l. apply nth_error_ext. intros i. rewrite !nth_error_skipn. f_equal. lia.
Qed.

(** *** Specification: elementwise operation on ranges of a memory *)
Section Spec.
  Context {T : Type}.

  Definition words (m : list T) (e p : nat) : list T := firstn e (skipn p m).

  (** After the operation the [k] elements (of [e] words each) starting at [y] hold
      [f] of the corresponding original elements; every other word is unchanged. *)
  Definition elementwise (e : nat) (f : list T -> list T -> list T -> list T)
             (k a b y : nat) (m m' : list T) : Prop :=
    length m' = length m
    /\ (forall j, j < y \/ y + k * e <= j -> nth_error m' j = nth_error m j)
    /\ forall i, i < k ->
         words m' e (y + i * e)
         = f (words m e (a + i * e)) (words m e (b + i * e)) (words m e (y + i * e)).

  (** A source range is the destination range or does not touch it. *)
  Definition compatible (src dst len : nat) : Prop :=
    src = dst \/ src + len <= dst \/ dst + len <= src.

  Lemma words_length m e p : p + e <= length m -> length (words m e p) = e.
  Proof. intros. unfold words. rewrite firstn_length, skipn_length. lia. Qed.

  Lemma words_read m e p : p + e <= length m -> mem_read m p e = Ok (words m e p).
  Proof. intros H. unfold mem_read. apply Nat.leb_le in H. now rewrite H. Qed.

  Lemma words_nth m e p i : nth_error (words m e p) i = if i <? e then nth_error m (p + i) else None.
  Proof. unfold words. rewrite nth_error_firstn, nth_error_skipn. reflexivity. Qed.

  Lemma words_ext m m' e p p' :
    (forall i, i < e -> nth_error m (p + i) = nth_error m' (p' + i)) -> words m e p = words m' e p'.
  Proof.
    intros H. apply nth_error_ext. intros i. rewrite !words_nth.
    destruct (Nat.ltb_spec i e); auto.
  Qed.

  Lemma words_words m n e p i : i + e <= n -> firstn e (skipn i (words m n p)) = words m e (p + i).
  Proof.
    intros H. apply nth_error_ext. intros k.
    rewrite nth_error_firstn, nth_error_skipn, !words_nth.
    destruct (Nat.ltb_spec k e); [|reflexivity].
    destruct (Nat.ltb_spec (i + k) n); [|lia]. f_equal. lia.
  Qed.

  Lemma elementwise_refl e f a b y m : elementwise e f 0 a b y m m.
  Proof. split; [reflexivity|]. split; [intros; reflexivity|intros; lia]. Qed.

  Lemma elementwise_unique e f k a b y m m1 m2 :
    elementwise e f k a b y m m1 -> elementwise e f k a b y m m2 -> m1 = m2.
  Proof.
    intros (L1 & O1 & I1) (L2 & O2 & I2). apply nth_error_ext. intros j.
    destruct (lt_dec j y); [rewrite O1, O2 by lia; reflexivity|].
    destruct (le_dec (y + k * e) j); [rewrite O1, O2 by lia; reflexivity|].
    assert (e <> 0) by (intros ->; lia).
    set (i := (j - y) / e). set (r := (j - y) mod e).
    assert (D : j - y = e * i + r) by (apply Nat.div_mod; assumption).
    assert (r < e) by (apply Nat.mod_upper_bound; assumption).
    assert (i < k) by (apply Nat.div_lt_upper_bound; lia).
    specialize (I1 i H1). specialize (I2 i H1). rewrite <- I2 in I1.
    assert (E : nth_error (words m1 e (y + i * e)) r = nth_error (words m2 e (y + i * e)) r)
      by congruence.
    rewrite !words_nth in E. destruct (Nat.ltb_spec r e); [|lia].
    replace (y + i * e + r) with j in E by lia. exact E.
  Qed.

  Lemma elementwise_trans e f k w a b y m m1 m2 :
    compatible a y ((k + w) * e) -> compatible b y ((k + w) * e) ->
    elementwise e f k a b y m m1 ->
    elementwise e f w (a + k * e) (b + k * e) (y + k * e) m1 m2 ->
    elementwise e f (k + w) a b y m m2.
  Proof.
    intros Ca Cb (L1 & O1 & I1) (L2 & O2 & I2). split; [congruence|]. split.
    - intros j H. rewrite O2, O1; [reflexivity| |]; lia.
    - intros i H. destruct (lt_dec i k).
      + rewrite <- I1 by assumption. apply words_ext. intros r Hr. apply O2. left. nia.
      + replace (y + i * e) with (y + k * e + (i - k) * e) by nia. rewrite I2 by lia.
        assert (G : forall s, compatible s y ((k + w) * e) ->
                   words m1 e (s + k * e + (i - k) * e) = words m e (s + i * e)).
        { intros s C. apply words_ext. intros r Hr.
          replace (s + k * e + (i - k) * e + r) with (s + i * e + r) by nia.
          apply O1. unfold compatible in C. nia. }
        rewrite (G a Ca), (G b Cb), (G y) by (left; reflexivity).
        replace (y + k * e + (i - k) * e) with (y + i * e) by nia. reflexivity.
  Qed.

  (** The same on a block of [k] elements given as lists of words. *)
  Fixpoint chunks (e : nat) (f : list T -> list T -> list T -> list T) (k : nat)
           (a b c : list T) : list T :=
    match k with
    | 0 => []
    | S k => f (firstn e a) (firstn e b) (firstn e c)
               ++ chunks e f k (skipn e a) (skipn e b) (skipn e c)
    end.

  Definition elementary e (f : list T -> list T -> list T -> list T) :=
    forall a b c, length a = e -> length b = e -> length c = e -> length (f a b c) = e.

  Lemma chunks_length e f (Hf : elementary e f) : forall k a b c,
    length a = k * e -> length b = k * e -> length c = k * e -> length (chunks e f k a b c) = k * e.
  Proof.
    induction k as [|k IH]; intros a b c Ha Hb Hc; simpl in *; [reflexivity|].
    rewrite app_length, IH; rewrite ?skipn_length; try lia.
    rewrite Hf; rewrite ?firstn_length; lia.
  Qed.

  Lemma chunks_nth e f (Hf : elementary e f) : forall k a b c i,
    length a = k * e -> length b = k * e -> length c = k * e -> i < k ->
    firstn e (skipn (i * e) (chunks e f k a b c))
    = f (firstn e (skipn (i * e) a)) (firstn e (skipn (i * e) b)) (firstn e (skipn (i * e) c)).
  Proof.
    induction k as [|k IH]; intros a b c i Ha Hb Hc Hi; [lia|]. simpl in *.
    assert (L : length (f (firstn e a) (firstn e b) (firstn e c)) = e)
      by (apply Hf; rewrite firstn_length; lia).
    destruct i as [|i]; simpl.
    - rewrite firstn_app, L, Nat.sub_diag. simpl. rewrite app_nil_r.
      apply firstn_all2. lia.
    - rewrite skipn_app, L. rewrite skipn_all2 by lia. simpl.
      replace (e + i * e - e) with (i * e) by lia.
      rewrite IH by (rewrite ?skipn_length; lia).
      rewrite !skipn_skipn. replace (i * e + e) with (e + i * e) by lia. reflexivity.
  Qed.

  Lemma write_elementwise e f k a b y m :
    elementary e f -> a + k * e <= length m -> b + k * e <= length m -> y + k * e <= length m ->
    exists m', mem_write m y (chunks e f k (words m (k * e) a) (words m (k * e) b) (words m (k * e) y)) = Ok m'
      /\ elementwise e f k a b y m m'.
  Proof.
    intros Hf Ha Hb Hy.
    set (d := chunks _ _ _ _ _ _).
    assert (Ld : length d = k * e) by (apply chunks_length; auto using words_length).
    destruct (mem_write_ok m y d) as (m' & E & L & N); [lia|].
    exists m'. split; [exact E|]. split; [exact L|]. split.
    - intros j Hj. rewrite N, Ld.
      destruct (Nat.leb_spec y j), (Nat.ltb_spec j (y + k * e)); simpl; try reflexivity; lia.
    - intros i Hi.
      transitivity (firstn e (skipn (i * e) d)).
      + apply nth_error_ext. intros r. rewrite words_nth, nth_error_firstn, nth_error_skipn.
        destruct (Nat.ltb_spec r e); [|reflexivity]. rewrite N, Ld.
        destruct (Nat.leb_spec y (y + i * e + r)); [|lia].
        destruct (Nat.ltb_spec (y + i * e + r) (y + k * e)); [|nia]. simpl. f_equal. lia.
      + unfold d. rewrite chunks_nth by auto using words_length.
        rewrite !words_words by nia. reflexivity.
  Qed.
End Spec.

(** *** Loops *)
Section Loops.
  Context {T : Type}.
  Variables (e : nat) (f : list T -> list T -> list T -> list T).

  (** [k] of the [n] elements have been processed *)
  Definition progress (n a b y : nat) (m0 : list T) (s : pos) : Prop :=
    exists k, cnt s + k = n /\ p1 s = a + k * e /\ p2 s = b + k * e /\ py s = y + k * e
      /\ elementwise e f k a b y m0 (mem s).

  Definition body_ok (w : nat) (ok : nat -> nat -> nat -> Prop) (body : @body_t T) : Prop :=
    forall a b y m, a + w * e <= length m -> b + w * e <= length m -> y + w * e <= length m ->
      ok a b y -> exists m', body a b y m = Ok m' /\ elementwise e f w a b y m m'.

  Lemma loop_progress n a b y m0 w ok body :
    0 < w -> a + n * e <= length m0 -> b + n * e <= length m0 -> y + n * e <= length m0 ->
    compatible a y (n * e) -> compatible b y (n * e) ->
    body_ok w ok body ->
    (forall a b y, ok a b y -> ok (a + w * e) (b + w * e) (y + w * e)) ->
    forall s, progress n a b y m0 s -> (w <= cnt s -> ok (p1 s) (p2 s) (py s)) ->
    exists s', loop w (w * e) body s = Ok s' /\ progress n a b y m0 s' /\ cnt s' < w
      /\ exists j, p1 s' = p1 s + j * (w * e) /\ p2 s' = p2 s + j * (w * e)
                   /\ py s' = py s + j * (w * e).
  Proof.
    intros Hw La Lb Ly Ca Cb Hbody Hok s P Ok0. unfold loop.
    assert (Fuel : cnt s <= cnt s) by reflexivity. revert Fuel.
    generalize (cnt s) at 2 3 as fuel. intros fuel. revert s P Ok0.
    induction fuel as [|fuel IH]; intros s P Ok0 Fuel; simpl.
    - destruct (Nat.ltb_spec (cnt s) w); [|lia].
      exists s. split; [reflexivity|]. split; [exact P|]. split; [assumption|].
      exists 0. lia.
    - destruct (Nat.ltb_spec (cnt s) w) as [Hlt|Hge].
      + exists s. split; [reflexivity|]. split; [exact P|]. split; [assumption|]. exists 0. lia.
      + destruct P as (k & Hk & P1 & P2 & Py & E).
        assert (Lm : length (mem s) = length m0) by apply E.
        specialize (Ok0 Hge).
        destruct (Hbody (p1 s) (p2 s) (py s) (mem s)) as (m' & Em & El);
          [nia|nia|nia|exact Ok0|].
        rewrite Em. simpl.
        destruct (IH (MkPos (cnt s - w) (p1 s + w * e) (p2 s + w * e) (py s + w * e) m'))
          as (s' & E' & P' & C' & j & J1 & J2 & J3).
        * exists (k + w). simpl. repeat (split; [nia|]).
          eapply elementwise_trans; [| |exact E|].
          -- unfold compatible in *. nia.
          -- unfold compatible in *. nia.
          -- rewrite <- P1, <- P2, <- Py. exact El.
        * simpl. intros _. now apply Hok.
        * simpl. lia.
        * exists s'. split; [exact E'|]. split; [exact P'|]. split; [exact C'|].
          exists (S j). simpl in *. nia.
  Qed.

  Lemma progress_start n a b y m : progress n a b y m (MkPos n a b y m).
  Proof. exists 0. simpl. repeat (split; [lia|]). apply elementwise_refl. Qed.

  Lemma progress_done n a b y m s :
    progress n a b y m s -> cnt s < 1 -> elementwise e f n a b y m (mem s).
  Proof. intros (k & Hk & _ & _ & _ & E) H. now replace n with k by lia. Qed.

  (** The reference loop. *)
  Lemma ref_loop_ok n a b y m :
    elementary e f ->
    a + n * e <= length m -> b + n * e <= length m -> y + n * e <= length m ->
    compatible a y (n * e) -> compatible b y (n * e) ->
    exists m', ref_loop e f n a b y m = Ok (NoError, m') /\ elementwise e f n a b y m m'.
  Proof.
    intros Hf La Lb Ly Ca Cb. unfold ref_loop.
    destruct (loop_progress n a b y m 1 (fun _ _ _ => True)
       (fun a b c m => x1 <- mem_read m a e ;; x2 <- mem_read m b e ;; x3 <- mem_read m c e ;;
           mem_write m c (f x1 x2 x3))) with (s := MkPos n a b y m)
       as (s' & E & P & C & _); auto.
    - intros a0 b0 y0 m0 Ha Hb Hy _.
      destruct (write_elementwise e f 1 a0 b0 y0 m0) as (m' & E & El); auto.
      rewrite !words_read by lia. simpl. exists m'. split; [|exact El].
      simpl in E. rewrite app_nil_r in E.
      replace (e + 0) with e in E by lia.
      assert (W : forall p, firstn e (words m0 e p) = words m0 e p)
        by (intros; unfold words; rewrite firstn_firstn, Nat.min_id; reflexivity).
      rewrite !W in E. exact E.
    - apply progress_start.
    - replace (1 * e) with e in E by lia. rewrite E. simpl. unfold finish.
      exists (mem s'). split; [reflexivity|]. now apply progress_done.
  Qed.
End Loops.

(** *** Alignment *)
Lemma power_of_two_divides a w k :
  power_of_two a = true -> w = 2 ^ k -> w <= a -> Nat.divide w a.
Proof.
  unfold power_of_two. rewrite andb_true_iff, Nat.eqb_eq. intros [_ E] -> L.
  rewrite E in *. exists (2 ^ (Nat.log2 a - k)). rewrite <- Nat.pow_add_r. f_equal.
  assert (k <= Nat.log2 a) by (apply (Nat.pow_le_mono_r_iff 2); lia). lia.
Qed.

Lemma check_ptr_divides e p alignment w k :
  check_ptr e p alignment = true -> w = 2 ^ k -> w <= alignment -> Nat.divide (w * e) p.
Proof.
  unfold check_ptr. intros C W L.
  destruct (Nat.eqb_spec alignment 0) as [->|N].
  { assert (2 ^ k <> 0) by (apply Nat.pow_nonzero; lia). lia. }
  apply andb_true_iff in C as [P M]. apply Nat.eqb_eq in M.
  destruct (Nat.eq_dec (alignment * e) 0) as [Z|NZ].
  - assert (e = 0) by nia. subst e. rewrite Z in M. simpl in M. subst p. exists 0. reflexivity.
  - apply Nat.mod_divide in M; [|exact NZ].
    eapply Nat.divide_trans; [|exact M]. apply Nat.mul_divide_mono_r.
    eapply power_of_two_divides; eauto.
Qed.

Definition aligned3 (w a b y : nat) : Prop := Nat.divide w a /\ Nat.divide w b /\ Nat.divide w y.

Lemma aligned3_step w a b y : aligned3 w a b y -> aligned3 w (a + w) (b + w) (y + w).
Proof.
  intros (A & B & C). split; [|split]; apply Nat.divide_add_r; auto using Nat.divide_refl.
Qed.

Lemma aligned3_shift w n a b y j :
  Nat.divide w n -> aligned3 w a b y -> aligned3 w (a + j * n) (b + j * n) (y + j * n).
Proof.
  intros D (A & B & C).
  assert (Nat.divide w (j * n)) by (apply Nat.divide_mul_r; exact D).
  split; [|split]; apply Nat.divide_add_r; auto.
Qed.
