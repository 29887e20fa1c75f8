(** A concrete field: integers modulo 5, where 2 is a primitive 4th root of unity, so that
    b = 2 (transform size 4) is possible with exact evaluation. *)
From Verif Require Import Base RingSum ConvolverModel ConvolverProofs Dft.
From Coq Require Import Ring.

Inductive f5 := f0 | f1 | f2 | f3 | f4.
Definition val (x : f5) : nat := match x with f0 => 0 | f1 => 1 | f2 => 2 | f3 => 3 | f4 => 4 end.
Definition of (n : nat) : f5 := match n mod 5 with 0 => f0 | 1 => f1 | 2 => f2 | 3 => f3 | _ => f4 end.
Definition add x y := of (val x + val y).
Definition mul x y := of (val x * val y).
Definition opp x := of (5 - val x).
Definition sub x y := add x (opp y).
Lemma ring : ring_theory f0 f1 add mul sub opp eq.
Proof. constructor; repeat (let x := fresh in intros x; destruct x); reflexivity. Qed.
Definition w (k : nat) : f5 := match k mod 4 with 0 => f1 | 1 => f2 | 2 => f4 | _ => f3 end.
Lemma w_cases (P : nat -> Prop) : P 0 -> P 1 -> P 2 -> P 3 -> forall k, P (k mod 4).
Proof.
  intros P0 P1 P2 P3 k. assert (H : k mod 4 < 4) by (apply Nat.mod_upper_bound; lia).
  destruct (k mod 4) as [|[|[|[|m]]]]; auto. lia.
Qed.
Lemma w_add a b : w (a + b) = mul (w a) (w b).
Proof.
  unfold w. rewrite Nat.add_mod by lia. generalize a b. intros a' b'.
  apply (w_cases (fun x => match (x + b' mod 4) mod 4 with 0 => f1 | 1 => f2 | 2 => f4 | _ => f3 end
    = mul (match x with 0 => f1 | 1 => f2 | 2 => f4 | _ => f3 end) (match b' mod 4 with 0 => f1 | 1 => f2 | 2 => f4 | _ => f3 end)));
    apply (w_cases (fun y => match (_ + y) mod 4 with 0 => f1 | 1 => f2 | 2 => f4 | _ => f3 end
    = mul _ (match y with 0 => f1 | 1 => f2 | 2 => f4 | _ => f3 end))); reflexivity.
Qed.
Lemma orth q : sum f0 add 4 (fun k => w (k * q)) = if q mod 4 =? 0 then f4 else f0.
Proof.
  rewrite (sum_ext f0 add 4 _ (fun k => w (k * (q mod 4)))).
  - apply (w_cases (fun y => sum f0 add 4 (fun k => w (k * y)) = if y =? 0 then f4 else f0)); reflexivity.
  - intros k _. unfold w. now rewrite Nat.mul_mod_idemp_r by lia.
Qed.
Lemma transform : transform_ok f0 add mul f0 add mul (fun g => g)
                    (dft f0 add mul 4 w) (idft f0 add mul 4 w) (fun _ => 4) 2 f4.
Proof. apply (dft_transform_ok f0 f1 add mul sub opp ring 4 w f4); [lia|exact w_add|exact orth|reflexivity]. Qed.
