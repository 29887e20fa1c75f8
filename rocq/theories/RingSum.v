(** Finite sums over a commutative ring, and lists as functions. *)
From Verif Require Import Base.
From Coq Require Import Ring.

Section Sums.
  Context {T : Type} (rO rI : T) (radd rmul rsub : T -> T -> T) (ropp : T -> T).
  Variable RT : ring_theory rO rI radd rmul rsub ropp (@eq T).
  Add Ring TRing : RT.
  Local Notation "0" := rO. Local Notation "1" := rI.
  Local Infix "+" := radd. Local Infix "*" := rmul.

  (** sum of f 0 ... f (n-1) *)
  Fixpoint sum (n : nat) (f : nat -> T) : T :=
    match n with 0%nat => 0 | S m => sum m f + f m end.

  Lemma sum_ext n f g : (forall i, i < n -> f i = g i) -> sum n f = sum n g.
  Proof.
    induction n as [|n IH]; intros H; [reflexivity|]. simpl. rewrite IH by (intros; apply H; lia).
    now rewrite H by lia.
  Qed.
  Lemma sum_zero n f : (forall i, i < n -> f i = 0) -> sum n f = 0.
  Proof.
    intros H. induction n as [|n IH]; [reflexivity|]. simpl. rewrite IH by (intros; apply H; lia).
    rewrite H by lia. ring.
  Qed.
  Lemma sum_add n f g : sum n (fun i => f i + g i) = sum n f + sum n g.
  Proof. induction n as [|n IH]; simpl; [ring|]. rewrite IH. ring. Qed.
  Lemma sum_scale n a f : sum n (fun i => a * f i) = a * sum n f.
  Proof. induction n as [|n IH]; simpl; [ring|]. rewrite IH. ring. Qed.
  Lemma sum_scale_r n a f : sum n (fun i => f i * a) = sum n f * a.
  Proof. induction n as [|n IH]; simpl; [ring|]. rewrite IH. ring. Qed.
  Lemma sum_app n m f : sum (n + m)%nat f = sum n f + sum m (fun i => f (n + i)%nat).
  Proof.
    induction m as [|m IH]; simpl.
    - rewrite Nat.add_0_r. ring.
    - rewrite Nat.add_succ_r. simpl. rewrite IH. ring.
  Qed.
  Lemma sum_swap n m f : sum n (fun i => sum m (fun j => f i j)) = sum m (fun j => sum n (fun i => f i j)).
  Proof.
    induction n as [|n IH]; simpl.
    - symmetry. now apply sum_zero.
    - rewrite IH, sum_add. reflexivity.
  Qed.
  Lemma sum_mul p b f : sum (p * b)%nat f = sum p (fun i => sum b (fun j => f (i * b + j)%nat)).
  Proof.
    induction p as [|p IH]; [reflexivity|].
    replace (S p * b)%nat with (p * b + b)%nat by lia. rewrite sum_app, IH. reflexivity.
  Qed.
  Lemma sum_first n f : sum (S n) f = f 0%nat + sum n (fun i => f (S i)).
  Proof. change (S n) with (1 + n)%nat. rewrite sum_app. simpl. ring. Qed.
  Lemma sum_rev n f : sum n f = sum n (fun i => f (n - 1 - i)%nat).
  Proof.
    induction n as [|n IH]; [reflexivity|].
    rewrite (sum_first n (fun i => f (S n - 1 - i)%nat)). simpl. rewrite IH.
    replace (n - 0 - 0)%nat with n by lia.
    rewrite (sum_ext n (fun i => f (n - 0 - S i)%nat) (fun i => f (n - 1 - i)%nat))
      by (intros; f_equal; lia).
    ring.
  Qed.
  (** terms beyond [m] vanish *)
  Lemma sum_cut n m f : m <= n -> (forall i, m <= i < n -> f i = 0) -> sum n f = sum m f.
  Proof.
    intros L H. replace n with (m + (n - m))%nat by lia. rewrite sum_app.
    rewrite (sum_zero (n - m)) by (intros; apply H; lia). ring.
  Qed.
  (** a single non-zero term *)
  Lemma sum_single n k f : k < n -> (forall i, i < n -> i <> k -> f i = 0) -> sum n f = f k.
  Proof.
    intros L H. replace n with (S k + (n - S k))%nat by lia. rewrite sum_app. simpl.
    rewrite (sum_zero k) by (intros; apply H; lia).
    rewrite (sum_zero (n - S k)) by (intros; apply H; lia). ring.
  Qed.
  (** cyclic shift of the index *)
  Lemma sum_cyclic n s f : s <= n -> sum n f = sum n (fun i => f ((i + s) mod n)).
  Proof.
    intros L. destruct (Nat.eq_dec n 0) as [->|N]; [reflexivity|].
    replace n with ((n - s) + s)%nat at 2 by lia. rewrite sum_app.
    rewrite (sum_ext (n - s) (fun i => f ((i + s) mod n)) (fun i => f (s + i)%nat)).
    2:{ intros i Hi. f_equal. rewrite Nat.mod_small by lia. lia. }
    rewrite (sum_ext s (fun i => f ((n - s + i + s) mod n)) f).
    2:{ intros i Hi. f_equal. replace (n - s + i + s)%nat with (i + 1 * n)%nat by lia.
        rewrite Nat.mod_add by lia. apply Nat.mod_small. lia. }
    replace n with (s + (n - s))%nat at 1 by lia. rewrite sum_app. ring.
  Qed.
End Sums.
