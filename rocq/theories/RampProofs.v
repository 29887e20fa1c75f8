From Verif Require Import Base Num RampModel.
Local Open Scope Qc_scope.

(** Specification: [l] is part of an equidistant grid from [a] to [b] with the
    given end points in or out. *)
Definition equidistant (l : list Qc) (n : nat) (a b : Qc) (si ei : bool) : Prop :=
  length l = n
  /\ exists step, step * nq (n + 1 - b2n si - b2n ei) = b - a
     /\ forall i, (i < n)%nat -> nth_error l i = Some (a + nq (i + b2n (negb si)) * step).

Lemma ramp_length n a b si ei : length (vector_ramp n a b si ei) = n.
Proof.
  unfold vector_ramp. destruct (Nat.eqb_spec n 0); [now subst|].
  destruct (Nat.eqb_spec n 1); [now subst|]. now rewrite map_length, seq_length.
Qed.

Lemma nth_error_map_seq {A} (f : nat -> A) n i :
  (i < n)%nat -> nth_error (map f (seq 0 n)) i = Some (f i).
Proof.
  intros H. rewrite nth_error_map.
  rewrite (nth_error_nth' _ 0%nat) by (rewrite seq_length; lia).
  rewrite seq_nth by lia. reflexivity.
Qed.

Lemma ramp_equidistant n a b si ei :
  (2 <= n)%nat \/ (n = 1%nat /\ si <> ei) ->
  equidistant (vector_ramp n a b si ei) n a b si ei.
Proof.
  intros H. split; [apply ramp_length|]. unfold vector_ramp.
  destruct (Nat.eqb_spec n 0); [lia|].
  destruct (Nat.eqb_spec n 1) as [->|Hn].
  - exists (b - a). split.
    + destruct si, ei; try (destruct H as [H|[_ H]]; [lia|congruence]); simpl;
        rewrite nq_1; ring.
    + intros i Hi. assert (i = 0%nat) as -> by lia. simpl. f_equal.
      destruct si, ei; try (destruct H as [H|[_ H]]; [lia|congruence]); simpl;
        rewrite ?nq_0, ?nq_1; ring.
  - exists ((b - a) / nq (n + 1 - b2n si - b2n ei)). split.
    + field. apply nq_neq_0. destruct si, ei; simpl; lia.
    + intros i Hi. rewrite nth_error_map_seq by lia. f_equal. f_equal. f_equal. f_equal.
      destruct si; simpl; lia.
Qed.

Lemma ramp_ends n a b si ei :
  (1 <= n)%nat ->
  (si = true -> nth_error (vector_ramp n a b si ei) 0 = Some a)
  /\ (ei = true -> (2 <= n)%nat \/ si = false ->
      nth_error (vector_ramp n a b si ei) (n - 1) = Some b).
Proof.
  intros Hn. split.
  - intros ->. destruct (Nat.eq_dec n 1) as [->|H1]; [reflexivity|].
    destruct (ramp_equidistant n a b true ei) as (_ & step & _ & H); [lia|].
    rewrite H by lia. f_equal. simpl. rewrite nq_0. ring.
  - intros -> H. destruct (ramp_equidistant n a b si true) as (_ & step & Hs & He).
    { destruct H as [H| ->]; [lia|]. destruct (Nat.eq_dec n 1); [right|left; lia].
      split; [lia|discriminate]. }
    rewrite He by lia. f_equal.
    replace (n - 1 + b2n (negb si))%nat with (n + 1 - b2n si - b2n true)%nat
      by (destruct si; simpl; lia).
    rewrite <- (Qcplus_0_r b), <- (Qcplus_opp_r a).
    replace (nq (n + 1 - b2n si - b2n true) * step) with (b - a) by (rewrite <- Hs; ring).
    ring.
Qed.

(** Splitting a start-exclusive, end-inclusive ramp (the way all gain and delay
    transitions use it) into consecutive ramps changes nothing. *)
Lemma ramp_concat n m a b :
  (1 <= n)%nat -> (1 <= m)%nat ->
  let mid := a + (b - a) * nq n / nq (n + m) in
  vector_ramp n a mid false true ++ vector_ramp m mid b false true
  = vector_ramp (n + m) a b false true.
Proof.
  intros Hn Hm mid. apply nth_ext with (d := 0) (d' := 0).
  { now rewrite app_length, !ramp_length. }
  intros i Hi. rewrite app_length, !ramp_length in Hi.
  assert (Hnm : nq (n + m) <> 0) by (apply nq_neq_0; lia).
  assert (Hq : forall k x y, (1 <= k)%nat -> forall j, (j < k)%nat ->
     nth j (vector_ramp k x y false true) 0 = x + nq (j + 1) * ((y - x) / nq k)).
  { intros k x y Hk j Hj.
    destruct (ramp_equidistant k x y false true) as (_ & step & Hs & He).
    { destruct (Nat.eq_dec k 1); [right; split; [lia|discriminate]|left; lia]. }
    simpl in Hs, He. specialize (He j Hj).
    rewrite (nth_error_nth _ _ 0 He). f_equal. f_equal.
    replace (k + 1 - 0 - 1)%nat with k in Hs by lia. rewrite <- Hs. field.
    apply nq_neq_0. lia. }
  rewrite (Hq (n + m)%nat) by lia.
  destruct (Nat.lt_ge_cases i n) as [H|H].
  - rewrite app_nth1 by (rewrite ramp_length; lia). rewrite Hq by lia.
    unfold mid. field. split; [exact Hnm|apply nq_neq_0; lia].
  - rewrite app_nth2 by (rewrite ramp_length; lia). rewrite ramp_length, Hq by lia.
    unfold mid. replace (i - n + 1)%nat with (i + 1 - n)%nat by lia.
    rewrite nq_minus by lia. rewrite nq_plus in *. rewrite nq_plus. field.
    split; [exact Hnm|apply nq_neq_0; lia].
Qed.

(** Values stay between the end points. *)
Lemma ramp_range n a b si ei x :
  In x (vector_ramp n a b si ei) ->
  exists t, 0 <= t /\ t <= 1 /\ x = a + t * (b - a).
Proof.
  intros H. unfold vector_ramp in H.
  destruct (Nat.eqb_spec n 0); [destruct H|].
  destruct (Nat.eqb_spec n 1).
  - destruct H as [<-|[]]. destruct si.
    + exists 0. split; [qclra|]. split; [qclra|ring].
    + exists 1. split; [qclra|]. split; [qclra|ring].
  - apply in_map_iff in H as (i & <- & Hi). apply in_seq in Hi.
    set (k := (n + 1 - b2n si - b2n ei)%nat).
    set (j := ((if si then 0 else 1) + i)%nat).
    assert (Hk : (1 <= k)%nat) by (unfold k; destruct si, ei; simpl; lia).
    assert (Hj : (j <= k)%nat) by (unfold j, k; destruct si, ei; simpl; lia).
    assert (Hkq : nq k <> 0) by (apply nq_neq_0; lia).
    assert (Hk0 : 0 < nq k) by (rewrite <- nq_0; apply nq_lt; lia).
    exists (nq j / nq k). repeat split.
    + rewrite <- (Qcmult_0_l (/ nq k)). unfold Qcdiv. apply Qcmult_le_compat_r.
      * apply nq_nonneg.
      * apply Qclt_le_weak. unfold Qclt. rewrite this_inv. apply Qinv_lt_0_compat. exact Hk0.
    + rewrite <- (Qcmult_inv_r (nq k) Hkq). unfold Qcdiv. apply Qcmult_le_compat_r.
      * apply nq_le. exact Hj.
      * apply Qclt_le_weak. unfold Qclt. rewrite this_inv. apply Qinv_lt_0_compat. exact Hk0.
    + field. exact Hkq.
Qed.
