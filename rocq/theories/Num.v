(** Exact rational arithmetic used in place of floating point, and helpers. *)
From Coq Require Export QArith Qround Qcanon ZArith Lia Lqa List.
From Verif Require Import Base.
Export ListNotations.
Local Open Scope Qc_scope.

(** Integers and naturals as rationals. *)
Definition zq (z : Z) : Qc := Q2Qc (inject_Z z).
Definition nq (n : nat) : Qc := zq (Z.of_nat n).

Lemma this_zq z : this (zq z) == inject_Z z.
Proof. unfold zq, Q2Qc; cbn [this]. apply Qred_correct. Qed.
Lemma this_plus a b : this (a + b) == this a + this b.
Proof. unfold Qcplus, Q2Qc; cbn [this]. apply Qred_correct. Qed.
Lemma this_mult a b : this (a * b) == this a * this b.
Proof. unfold Qcmult, Q2Qc; cbn [this]. apply Qred_correct. Qed.
Lemma this_opp a : this (- a) == - this a.
Proof. unfold Qcopp, Q2Qc; cbn [this]. apply Qred_correct. Qed.
Lemma this_minus a b : this (a - b) == this a - this b.
Proof. unfold Qcminus. rewrite this_plus, this_opp. reflexivity. Qed.
Lemma this_inv a : this (/ a) == / this a.
Proof. unfold Qcinv, Q2Qc; cbn [this]. apply Qred_correct. Qed.
Lemma this_div a b : this (a / b) == this a / this b.
Proof. unfold Qcdiv. rewrite this_mult, this_inv. reflexivity. Qed.
Lemma this_Q2Qc q : this (Q2Qc q) == q.
Proof. cbn [this]. apply Qred_correct. Qed.
Lemma this_0 : this 0 == 0%Q. Proof. reflexivity. Qed.
Lemma this_1 : this 1 == 1%Q. Proof. reflexivity. Qed.
Lemma this_eq a b : a = b -> this a == this b.
Proof. now intros ->. Qed.

Lemma zq_0 : zq 0 = 0. Proof. reflexivity. Qed.
Lemma zq_1 : zq 1 = 1. Proof. reflexivity. Qed.
Lemma zq_plus a b : zq (a + b) = zq a + zq b.
Proof. apply Qc_is_canon. rewrite this_plus, !this_zq. rewrite inject_Z_plus; reflexivity. Qed.
Lemma zq_mult a b : zq (a * b) = zq a * zq b.
Proof. apply Qc_is_canon. rewrite this_mult, !this_zq. rewrite inject_Z_mult; reflexivity. Qed.
Lemma zq_opp a : zq (- a) = - zq a.
Proof. apply Qc_is_canon. rewrite this_opp, !this_zq. rewrite inject_Z_opp; reflexivity. Qed.
Lemma zq_minus a b : zq (a - b) = zq a - zq b.
Proof. unfold Z.sub. rewrite zq_plus, zq_opp. reflexivity. Qed.
Lemma zq_le a b : zq a <= zq b <-> (a <= b)%Z.
Proof. unfold Qcle. rewrite !this_zq. now rewrite <- Zle_Qle. Qed.
Lemma zq_lt a b : zq a < zq b <-> (a < b)%Z.
Proof. unfold Qclt. rewrite !this_zq. now rewrite <- Zlt_Qlt. Qed.
Lemma zq_inj a b : zq a = zq b -> a = b.
Proof. intros H. apply inject_Z_injective. rewrite <- !this_zq. now rewrite H. Qed.

Lemma nq_0 : nq 0 = 0. Proof. reflexivity. Qed.
Lemma nq_1 : nq 1 = 1. Proof. reflexivity. Qed.
Lemma nq_plus a b : nq (a + b) = nq a + nq b.
Proof. unfold nq. now rewrite Nat2Z.inj_add, zq_plus. Qed.
Lemma nq_mult a b : nq (a * b) = nq a * nq b.
Proof. unfold nq. now rewrite Nat2Z.inj_mul, zq_mult. Qed.
Lemma nq_S a : nq (S a) = nq a + 1.
Proof. replace (S a) with (a + 1)%nat by lia. apply nq_plus. Qed.
Lemma nq_minus a b : (b <= a)%nat -> nq (a - b) = nq a - nq b.
Proof. intros H. unfold nq. rewrite Nat2Z.inj_sub by exact H. apply zq_minus. Qed.
Lemma nq_le a b : nq a <= nq b <-> (a <= b)%nat.
Proof. unfold nq. rewrite zq_le. lia. Qed.
Lemma nq_lt a b : nq a < nq b <-> (a < b)%nat.
Proof. unfold nq. rewrite zq_lt. lia. Qed.
Lemma nq_inj a b : nq a = nq b -> a = b.
Proof. intros H. apply zq_inj in H. lia. Qed.
Lemma nq_nonneg a : 0 <= nq a.
Proof. rewrite <- nq_0. apply nq_le. lia. Qed.
Lemma nq_neq_0 a : (a <> 0)%nat -> nq a <> 0.
Proof. intros H E. rewrite <- nq_0 in E. apply nq_inj in E. contradiction. Qed.

(** Linear arithmetic over Qc: move everything to Q and call lra. *)
Ltac push_this :=
  repeat first
    [ setoid_rewrite this_plus | setoid_rewrite this_minus | setoid_rewrite this_mult
    | setoid_rewrite this_opp ].

Ltac qc_hyps :=
  repeat match goal with
  | H : @eq Qc ?a ?b |- _ => apply this_eq in H
  | H : ~ (?a <= ?b)%Qc |- _ => apply Qcnot_le_lt in H
  | H : ~ (?a < ?b)%Qc |- _ => apply Qcnot_lt_le in H
  end.

Ltac qc_norm_in H :=
  repeat first [ rewrite this_plus in H | rewrite this_minus in H
               | rewrite this_mult in H | rewrite this_opp in H
               | rewrite this_0 in H | rewrite this_1 in H | rewrite this_zq in H ].
Ltac qc_norm :=
  repeat first [ rewrite this_plus | rewrite this_minus
               | rewrite this_mult | rewrite this_opp
               | rewrite this_0 | rewrite this_1 | rewrite this_zq ].

Ltac qclra :=
  intros; qc_hyps;
  repeat match goal with
  | H : (_ <= _)%Qc |- _ => unfold Qcle in H
  | H : (_ < _)%Qc |- _ => unfold Qclt in H
  end;
  repeat match goal with
  | H : (?a <= ?b)%Q |- _ => progress qc_norm_in H
  | H : (?a < ?b)%Q |- _ => progress qc_norm_in H
  | H : (?a == ?b)%Q |- _ => progress qc_norm_in H
  end;
  match goal with
  | |- @eq Qc _ _ => apply Qc_is_canon; qc_norm; lra
  | |- (_ <= _)%Qc => unfold Qcle; qc_norm; lra
  | |- (_ < _)%Qc => unfold Qclt; qc_norm; lra
  | |- ~ (_ <= _)%Qc => apply Qclt_not_le; unfold Qclt; qc_norm; lra
  | |- ~ (_ < _)%Qc => apply Qcle_not_lt; unfold Qcle; qc_norm; lra
  | |- _ => exfalso; lra
  end.

Example qclra_test a b c : a <= b -> b < c -> a + b = 1 -> a + a < c + c.
Proof. qclra. Qed.

(** Decidable comparisons as booleans. *)
Definition qlt (a b : Qc) : bool := if Qclt_le_dec a b then true else false.
Definition qle (a b : Qc) : bool := negb (qlt b a).
Lemma qlt_spec a b : reflect (a < b) (qlt a b).
Proof.
  unfold qlt. destruct (Qclt_le_dec a b); constructor; [assumption|].
  now apply Qcle_not_lt.
Qed.
Lemma qle_spec a b : reflect (a <= b) (qle a b).
Proof.
  unfold qle. destruct (qlt_spec b a); constructor; [now apply Qclt_not_le|].
  now apply Qcnot_lt_le.
Qed.

(** Finite sums and products. *)
Fixpoint qsum (l : list Qc) : Qc := match l with [] => 0 | x :: r => x + qsum r end.
Fixpoint qprod (l : list Qc) : Qc := match l with [] => 1 | x :: r => x * qprod r end.

Lemma qsum_app a b : qsum (a ++ b) = qsum a + qsum b.
Proof. induction a as [|x a IH]; simpl; [ring|]. rewrite IH. ring. Qed.
Lemma qprod_app a b : qprod (a ++ b) = qprod a * qprod b.
Proof. induction a as [|x a IH]; simpl; [ring|]. rewrite IH. ring. Qed.
Lemma qprod_neq_0 l : (forall x, In x l -> x <> 0) -> qprod l <> 0.
Proof.
  induction l as [|x l IH]; simpl; intros H; [discriminate|].
  intros E. apply Qcmult_integral in E as [E|E].
  - apply (H x); auto.
  - apply IH; auto.
Qed.
Lemma qprod_zero l : In 0 l -> qprod l = 0.
Proof.
  induction l as [|x l IH]; simpl; intros []; [subst; ring|]. rewrite IH by assumption. ring.
Qed.

(** Floor. *)
Definition qfloor (q : Qc) : Z := Qfloor (this q).
Lemma qfloor_spec q : zq (qfloor q) <= q /\ q < zq (qfloor q) + 1.
Proof.
  unfold qfloor, Qcle, Qclt. rewrite this_plus, this_zq, this_1. split.
  - apply Qfloor_le.
  - pose proof (Qlt_floor (this q)) as H. rewrite inject_Z_plus in H. exact H.
Qed.
Lemma qfloor_unique q z : zq z <= q -> q < zq z + 1 -> qfloor q = z.
Proof.
  intros H1 H2. destruct (qfloor_spec q) as [H3 H4].
  assert (zq (qfloor q) < zq (z + 1)) by (rewrite zq_plus, zq_1; qclra).
  assert (zq z < zq (qfloor q + 1)) by (rewrite zq_plus, zq_1; qclra).
  rewrite zq_lt in H, H0. lia.
Qed.
Lemma qfloor_zq z : qfloor (zq z) = z.
Proof. apply qfloor_unique; qclra. Qed.

(** Division by positive numbers. *)
Lemma qinv_pos a : 0 < a -> 0 < / a.
Proof.
  intros H. apply Qcnot_le_lt. intros C.
  assert (E : a * / a = 1) by (apply Qcmult_inv_r; intros Z0; rewrite Z0 in H; discriminate H).
  assert (a * / a <= a * 0).
  { rewrite (Qcmult_comm a (/ a)), (Qcmult_comm a 0).
    apply Qcmult_le_compat_r; [exact C|now apply Qclt_le_weak]. }
  rewrite E, Qcmult_0_r in H0. revert H0. apply Qclt_not_le. reflexivity.
Qed.
Lemma qdiv_lt a b c : 0 < c -> (a < b * c <-> a / c < b).
Proof.
  intros H. pose proof (qinv_pos c H) as I.
  assert (Hn : c <> 0) by (intros Z0; rewrite Z0 in H; discriminate H).
  unfold Qcdiv. split; intros L.
  - replace b with (b * c * / c) by (rewrite <- Qcmult_assoc, Qcmult_inv_r by exact Hn; ring).
    now apply Qcmult_lt_compat_r.
  - replace a with (a * / c * c) by (rewrite <- Qcmult_assoc, Qcmult_inv_l by exact Hn; ring).
    now apply Qcmult_lt_compat_r.
Qed.
Lemma qdiv_le a b c : 0 < c -> (a <= b * c <-> a / c <= b).
Proof.
  intros H. pose proof (Qclt_le_weak _ _ (qinv_pos c H)) as I. pose proof (Qclt_le_weak _ _ H) as W.
  assert (Hn : c <> 0) by (intros Z0; rewrite Z0 in H; discriminate H).
  unfold Qcdiv. split; intros L.
  - replace b with (b * c * / c) by (rewrite <- Qcmult_assoc, Qcmult_inv_r by exact Hn; ring).
    now apply Qcmult_le_compat_r.
  - replace a with (a * / c * c) by (rewrite <- Qcmult_assoc, Qcmult_inv_l by exact Hn; ring).
    now apply Qcmult_le_compat_r.
Qed.
Lemma nq_pos n : (0 < n)%nat -> 0 < nq n.
Proof. intros H. rewrite <- nq_0. now apply nq_lt. Qed.
Lemma qmult_nonneg a b : 0 <= a -> 0 <= b -> 0 <= a * b.
Proof. intros H1 H2. rewrite <- (Qcmult_0_l b). now apply Qcmult_le_compat_r. Qed.
