(** C94: the handling of denormalised numbers (src/libefl/denormalised_number_handling.cpp). *)
From Coq Require Import NArith.
From Verif Require Import Base DenormModel.
Local Open Scope N_scope.

(** A control word has 32 bits: bit 15 flushes results to zero, bit 6 takes operands as zero
    (Intel 64 and IA-32 Architectures Software Developer's Manual, volume 1, 10.2.3). *)
Definition control_word (cw : N) : Prop := cw < 2 ^ 32.
Definition flushes (cw : N) : bool := N.testbit cw 15.
Definition zeroes (cw : N) : bool := N.testbit cw 6.

Lemma bits_of_mask cw k : negb (N.land cw (N.shiftl 1 k) =? 0) = N.testbit cw k.
Proof.
  destruct (N.testbit cw k) eqn:E.
  - destruct (N.eqb_spec (N.land cw (N.shiftl 1 k)) 0) as [H|H]; [|reflexivity]. exfalso.
    assert (X : N.testbit (N.land cw (N.shiftl 1 k)) k = true); [|rewrite H, N.bits_0 in X; discriminate].
    rewrite N.land_spec, E, N.shiftl_1_l, N.pow2_bits_true. reflexivity.
  - apply negb_false_iff, N.eqb_eq, N.bits_inj. intros i. rewrite N.land_spec, N.shiftl_1_l, N.pow2_bits_eqb, N.bits_0.
    destruct (N.eqb_spec k i) as [<-|]; [now rewrite E|apply andb_false_r].
Qed.
Lemma set_bit cw s i : N.testbit (fst (setDenormHandling cw s)) i =
  if i =? 15 then flushToZero s else if i =? 6 then denormalsAreZero s else N.testbit cw i && (i <? 32).
Proof.
  assert (M : N.testbit cCwMask i = (i <? 32) && negb (i =? 6) && negb (i =? 15)).
  { unfold cCwMask, complement, cDenormsAreZeroMask, cFlushToZeroMask. rewrite N.ldiff_spec, N.lor_spec, !N.shiftl_1_l, !N.pow2_bits_eqb.
    rewrite (N.eqb_sym 6), (N.eqb_sym 15). rewrite <- andb_assoc, negb_orb. f_equal.
    destruct (N.ltb_spec i 32); [now apply N.ones_spec_low|now apply N.ones_spec_high]. }
  unfold setDenormHandling. cbn [fst]. unfold cDenormsAreZeroMask, cFlushToZeroMask.
  destruct (flushToZero s), (denormalsAreZero s); rewrite ?N.lor_spec, N.land_spec, M, ?N.shiftl_1_l, ?N.pow2_bits_eqb, ?(N.eqb_sym 6), ?(N.eqb_sym 15);
    (destruct (N.eqb_spec i 15) as [E15|E15], (N.eqb_spec i 6) as [E6|E6]); try (exfalso; congruence); cbn [negb andb orb]; rewrite ?andb_false_r, ?andb_true_r, ?orb_false_r, ?orb_true_r; reflexivity.
Qed.

(** The two bits are set as requested, the previous ones are returned, and no other bit changes. *)
Theorem C94_set : forall cw s, control_word cw ->
  let (cw', old) := setDenormHandling cw s in
  control_word cw' /\ flushes cw' = flushToZero s /\ zeroes cw' = denormalsAreZero s
  /\ (forall i, i <> 6 -> i <> 15 -> N.testbit cw' i = N.testbit cw i)
  /\ flushToZero old = flushes cw /\ denormalsAreZero old = zeroes cw.
Proof.
  intros cw s C. pose proof (set_bit cw s) as B.
  assert (O : snd (setDenormHandling cw s) = State (flushes cw) (zeroes cw)).
  { unfold setDenormHandling. cbn [snd]. unfold cDenormsAreZeroMask, cFlushToZeroMask. now rewrite !bits_of_mask. }
  destruct (setDenormHandling cw s) as [cw' old]. cbn [fst snd] in *. subst old. unfold flushes, zeroes. rewrite !B. cbn [flushToZero denormalsAreZero].
  assert (H : forall i, 32 <= i -> N.testbit cw i = false).
  { intros i Hi. destruct (N.eq_dec cw 0) as [->|N]; [apply N.bits_0|]. apply N.bits_above_log2. apply N.log2_lt_pow2 in C; lia. }
  repeat split.
  - unfold control_word. destruct (N.eq_dec cw' 0) as [->|N]; [reflexivity|]. apply N.log2_lt_pow2; [lia|].
    destruct (N.lt_ge_cases (N.log2 cw') 32) as [L|L]; [exact L|]. exfalso. pose proof (N.bit_log2 cw' N) as T. rewrite B in T.
    destruct (N.eqb_spec (N.log2 cw') 15); [lia|]. destruct (N.eqb_spec (N.log2 cw') 6); [lia|]. rewrite (H _ L) in T. discriminate.
  - intros i H6 H15. rewrite B. destruct (N.eqb_spec i 15); [contradiction|]. destruct (N.eqb_spec i 6); [contradiction|].
    destruct (N.ltb_spec i 32) as [L|L]; [apply andb_true_r|]. now rewrite (H i L).
Qed.
(** setDenormHandling() without arguments sets both bits. *)
Theorem C94_default : forall cw, control_word cw ->
  let (cw', old) := setDenormHandling_default cw in flushes cw' = true /\ zeroes cw' = true /\ old = State (flushes cw) (zeroes cw).
Proof.
  intros cw C. pose proof (C94_set cw (State true true) C) as H. unfold setDenormHandling_default.
  destruct (setDenormHandling cw (State true true)) as [cw' [f z]]. cbn in H. destruct H as (_ & H1 & H2 & _ & -> & ->). auto.
Qed.
(** Resetting restores the two bits and keeps what else has changed in the meantime. *)
Theorem C94_reset : forall cw s cw2, control_word cw -> control_word cw2 ->
  let cw3 := resetDenormHandling cw2 (snd (setDenormHandling cw s)) in
  flushes cw3 = flushes cw /\ zeroes cw3 = zeroes cw /\ forall i, i <> 6 -> i <> 15 -> N.testbit cw3 i = N.testbit cw2 i.
Proof.
  intros cw s cw2 C C2. pose proof (C94_set cw s C) as H. destruct (setDenormHandling cw s) as [cw' old]. destruct H as (_ & _ & _ & _ & F & Z).
  cbn [snd]. pose proof (C94_set cw2 old C2) as H. unfold resetDenormHandling. destruct (setDenormHandling cw2 old) as [cw3 old2]. cbn [fst].
  destruct H as (_ & F3 & Z3 & K & _). rewrite F3, Z3. auto.
Qed.
(** Nested changes that are reset in reverse order restore the control word, whatever they set. *)
Fixpoint nested (cw : N) (l : list state) : N :=
  match l with
  | [] => cw
  | s :: l' => let (cw', old) := setDenormHandling cw s in resetDenormHandling (nested cw' l') old
  end.
Theorem C94_nested : forall l cw, control_word cw -> nested cw l = cw.
Proof.
  induction l as [|s l IH]; intros cw C; [reflexivity|]. cbn [nested]. pose proof (C94_set cw s C) as H. pose proof (C94_reset cw s) as R.
  destruct (setDenormHandling cw s) as [cw' old] eqn:E. destruct H as (C' & _ & _ & K & _). rewrite (IH cw' C').
  destruct (R cw' C C') as (F & Z & K3). cbn [snd] in *. apply N.bits_inj. intros i.
  destruct (N.eq_dec i 6) as [->|N6]; [exact Z|]. destruct (N.eq_dec i 15) as [->|N15]; [exact F|]. rewrite K3, K; auto.
Qed.

(** the default control word 0x1F80: all exceptions masked *)
Example C94_example : setDenormHandling_default 8064 = (40896, State false false) /\ nested 8064 [State true true; State false true] = 8064
  /\ setDenormHandling 40896 (State true false) = (40832, State true true).
Proof. repeat split. Qed.
Example C94_example_word : control_word 8064.
Proof. reflexivity. Qed.

Print Assumptions C94_set.
Print Assumptions C94_default.
Print Assumptions C94_reset.
Print Assumptions C94_nested.
