(** Specification of the ranges of rbbl::FloatSequence and proofs about the loops. *)
From Coq Require Import String Ascii ZArith Reals Lra Lia.
From Flocq Require Import Core.Core IEEE754.BinarySingleNaN.
From Verif Require Import Base IndexSequenceModel FloatSeqModel.
Local Open Scope Z_scope.

Section Numbers.
  Context {prec emax : Z} {Hp : Prec_gt_0 prec} {Hm : Prec_lt_emax prec emax}.
  Local Notation num := (binary_float prec emax).

  (** ** Specification *)
  (** the i-th partial sum v + inc + inc + ..., each rounded *)
  Definition term (v inc : num) (i : nat) : num := Nat.iter i (fun x => Bplus mode_NE x inc) v.
  (** x has not passed the end e of a range running upwards (downwards) *)
  Definition within (up : bool) (e x : num) : Prop :=
    if up then Bcompare x e = Some Lt \/ Bcompare x e = Some Eq
    else Bcompare e x = Some Lt \/ Bcompare e x = Some Eq.
  (** the range contains the partial sums up to the first one that has passed the end *)
  Definition ranges (up : bool) (v inc e : num) (l : list num) : Prop :=
    exists k, l = map (term v inc) (seq 0 k)
      /\ (forall i, (i < k)%nat -> within up e (term v inc i)) /\ ~ within up e (term v inc k).

  (** ** The loops follow the specification *)
  Definition keep (up : bool) (e x : num) : bool := if up then Bleb x e else Bleb e x.
  Definition loop (up : bool) (n : nat) (v inc e : num) : res (list num) :=
    if up then loop_up prec emax n v inc e else loop_down prec emax n v inc e.

  Lemma loop_S up n v inc e :
    loop up (S n) v inc e =
    if keep up e v then bind (loop up n (Bplus mode_NE v inc) inc e) (fun r => Ok (v :: r)) else Ok [].
  Proof. destruct up; reflexivity. Qed.
  Lemma loop_0 up v inc e : loop up 0 v inc e = UB.
  Proof. destruct up; reflexivity. Qed.

  Lemma leb_compare (x y : num) : Bleb x y = true <-> Bcompare x y = Some Lt \/ Bcompare x y = Some Eq.
  Proof.
    unfold Bleb, SpecFloat.SFleb. change (SpecFloat.SFcompare (B2SF x) (B2SF y)) with (Bcompare x y).
    destruct (Bcompare x y) as [[]|]; split; auto; try (intros [H|H]); congruence.
  Qed.
  Lemma keep_within up e x : keep up e x = true <-> within up e x.
  Proof. destruct up; apply leb_compare. Qed.
  Lemma keep_false up e x : keep up e x = false <-> ~ within up e x.
  Proof. rewrite <- keep_within. destruct (keep up e x); split; congruence. Qed.

  Lemma term_S v inc i : term v inc (S i) = Bplus mode_NE (term v inc i) inc.
  Proof. reflexivity. Qed.
  Lemma term_next v inc i : term (Bplus mode_NE v inc) inc i = term v inc (S i).
  Proof. induction i as [|i IH]; [reflexivity|]. rewrite !(term_S _ _ _), IH. reflexivity. Qed.
  Lemma term_0 v inc : term v inc 0 = v.
  Proof. reflexivity. Qed.

  Lemma loop_sound up n : forall v inc e l, loop up n v inc e = Ok l ->
    ranges up v inc e l /\ (length l < n)%nat.
  Proof.
    induction n as [|n IH]; intros v inc e l H; [rewrite loop_0 in H; discriminate|].
    rewrite loop_S in H. destruct (keep up e v) eqn:K.
    - destruct (loop up n _ inc e) as [r| |] eqn:E; try discriminate. injection H as <-.
      destruct (IH _ _ _ _ E) as [(k & -> & A & B) L]. split; [|simpl; lia].
      exists (S k). split; [|split].
      + cbn [seq map]. rewrite term_0. f_equal. rewrite <- seq_shift, map_map. apply map_ext.
        intros i. apply term_next.
      + intros [|i] Hi; [apply keep_within, K|]. rewrite <- term_next. apply A. lia.
      + rewrite <- term_next. exact B.
    - injection H as <-. split; [|simpl; lia]. exists 0%nat. split; [reflexivity|].
      split; [lia|]. apply keep_false, K.
  Qed.

  Lemma loop_complete up k : forall n v inc e, (k < n)%nat ->
    (forall i, (i < k)%nat -> within up e (term v inc i)) -> ~ within up e (term v inc k) ->
    loop up n v inc e = Ok (map (term v inc) (seq 0 k)).
  Proof.
    induction k as [|k IH]; intros [|n] v inc e L A B; try lia; rewrite loop_S.
    - apply keep_false in B. rewrite term_0 in B. rewrite B. reflexivity.
    - assert (K := A 0%nat ltac:(lia)). apply keep_within in K. rewrite term_0 in K. rewrite K.
      rewrite IH; [|lia| |].
      + cbn [bind seq map]. rewrite term_0. f_equal. f_equal. rewrite <- seq_shift, map_map. apply map_ext.
        intros i. apply term_next.
      + intros i Hi. rewrite term_next. apply A. lia.
      + rewrite term_next. exact B.
  Qed.

  Lemma loop_iff up n v inc e l :
    loop up n v inc e = Ok l <-> ranges up v inc e l /\ (length l < n)%nat.
  Proof.
    split; [apply loop_sound|]. intros [(k & -> & A & B) L].
    rewrite map_length, seq_length in L. now apply loop_complete.
  Qed.

  Lemma ranges_fun up v inc e l l' : ranges up v inc e l -> ranges up v inc e l' -> l = l'.
  Proof.
    intros (k & -> & A & B) (k' & -> & A' & B').
    destruct (Nat.lt_trichotomy k k') as [L|[->|L]]; [|reflexivity|].
    - destruct B. now apply A'.
    - destruct B'. now apply A.
  Qed.

  Lemma loop_cases up n : forall v inc e, loop up n v inc e = UB \/ exists l, loop up n v inc e = Ok l.
  Proof.
    induction n as [|n IH]; intros v inc e; [left; apply loop_0|]. rewrite loop_S.
    destruct (keep up e v); [|eauto]. destruct (IH (Bplus mode_NE v inc) inc e) as [E|(l & E)]; rewrite E.
    - now left.
    - right. cbn [bind]. eauto.
  Qed.

  (** a kept element that is its own successor is never left *)
  Lemma stuck_forever up v inc e k :
    (forall i, (i <= k)%nat -> within up e (term v inc i)) ->
    Bplus mode_NE (term v inc k) inc = term v inc k ->
    forall n, loop up n v inc e = UB.
  Proof.
    intros A F n. destruct (loop_cases up n v inc e) as [E|(l & E)]; [exact E|].
    destruct (loop_sound _ _ _ _ _ _ E) as [(j & -> & B & C) _]. destruct C.
    destruct (Nat.le_gt_cases j k) as [L|L]; [now apply A|].
    assert (G : forall d, term v inc (k + d) = term v inc k).
    { induction d as [|d IH]; [now rewrite Nat.add_0_r|]. rewrite <- plus_n_Sm, term_S, IH. exact F. }
    replace j with (k + (j - k))%nat by lia. rewrite G. apply A. lia.
  Qed.
End Numbers.
