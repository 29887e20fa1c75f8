(** Discrete Fourier transforms satisfy the hypothesis [transform_ok] of the convolver
    theorems: (1) over any ring with a principal root of unity, (2) the half-spectrum
    DFT of real signals (the representation of the wrappers
    src/librbbl/kiss_fft_wrapper*.cpp, src/librbbl/ffts_wrapper.cpp: N/2+1 complex
    values, no scaling in either direction).  Exact arithmetic. *)
From Verif Require Import Base Memory RingSum ConvolverModel ConvolverProofs.
From Coq Require Import Ring.

Section Dft.
  Context {T : Type} (rO rI : T) (radd rmul rsub : T -> T -> T) (ropp : T -> T).
  Variable RT : ring_theory rO rI radd rmul rsub ropp (@eq T).
  Add Ring TRing4 : RT.
  Local Notation "0" := rO. Local Notation "1" := rI.
  Local Infix "+" := radd. Local Infix "*" := rmul.
  Local Notation sum := (sum rO radd).
  Local Notation at_ l i := (nth i l 0).

  Variables (N : nat) (w : nat -> T) (cst : T).
  Hypothesis Npos : (0 < N)%nat.
  Hypothesis w_add : forall a b, w (a + b)%nat = w a * w b.
  Hypothesis orth : forall q, sum N (fun k => w (k * q)%nat) = if (q mod N =? 0)%nat then cst else 0.

  Definition dft_at (x : list T) (k : nat) : T := sum N (fun n => at_ x n * w (k * n)%nat).
  Definition idft_at (X : nat -> T) (n : nat) : T := sum N (fun k => X k * w (k * (N - n))%nat).

  (** the convolution theorem *)
  Lemma dft_conv x h n : (n < N)%nat ->
    idft_at (fun k => dft_at x k * dft_at h k) n = cst * at_ (cyclic rO radd rmul N x h) n.
  Proof.
    intros Hn. unfold idft_at, dft_at, cyclic. rewrite map_seq_nth by exact Hn.
    transitivity (sum N (fun k => sum N (fun m => sum N (fun a => (at_ h m * at_ x a) * w (k * (a + m + (N - n)))%nat)))).
    - apply (sum_ext rO radd). intros k _.
      rewrite (Rmul_comm RT (sum N (fun n0 => at_ x n0 * w (k * n0)%nat))).
      rewrite <- (sum_scale_r rO rI radd rmul rsub ropp RT).
      rewrite <- (sum_scale_r rO rI radd rmul rsub ropp RT).
      apply (sum_ext rO radd). intros m _.
      rewrite <- (sum_scale rO rI radd rmul rsub ropp RT).
      rewrite <- (sum_scale_r rO rI radd rmul rsub ropp RT).
      apply (sum_ext rO radd). intros a _. rewrite !Nat.mul_add_distr_l, !w_add. ring.
    - rewrite (sum_swap rO rI radd rmul rsub ropp RT), <- (sum_scale rO rI radd rmul rsub ropp RT).
      apply (sum_ext rO radd). intros m Hm.
      rewrite (sum_swap rO rI radd rmul rsub ropp RT).
      transitivity (sum N (fun a => (at_ h m * at_ x a) * (if ((a + m + (N - n)) mod N =? 0)%nat then cst else 0))).
      + apply (sum_ext rO radd). intros a _.
        rewrite (sum_scale rO rI radd rmul rsub ropp RT). now rewrite orth.
      + assert (Hlt : ((n + N - m) mod N < N)%nat) by (apply Nat.mod_upper_bound; lia).
        rewrite (sum_single rO rI radd rmul rsub ropp RT N ((n + N - m) mod N)); [|exact Hlt|].
        * assert (E : (((n + N - m) mod N + m + (N - n)) mod N = 0)%nat).
          { rewrite <- Nat.add_assoc, Nat.add_mod_idemp_l by lia.
            replace (n + N - m + (m + (N - n)))%nat with (0 + 2 * N)%nat by lia.
            rewrite Nat.mod_add by lia. apply Nat.mod_small. lia. }
          rewrite E, Nat.eqb_refl. ring.
        * intros a Ha Na. destruct (Nat.eqb_spec ((a + m + (N - n)) mod N) 0) as [E|]; [|ring].
          exfalso. apply Na.
          assert (D := Nat.div_mod (a + m + (N - n)) N ltac:(lia)). rewrite E in D.
          set (q := ((a + m + (N - n)) / N)%nat) in *.
          clearbody q. assert (q <= 2)%nat by nia.
          assert (Q : (n + N - m)%nat = (a + (2 - q) * N)%nat) by (destruct q as [|[|[|q]]]; simpl in *; lia).
          rewrite Q, Nat.mod_add by lia. symmetry. now apply Nat.mod_small.
  Qed.

  (** full spectrum over the ring itself *)
  Definition dft (x : list T) : list T := map (dft_at x) (seq 0 N).
  Definition idft (X : list T) : list T := map (idft_at (fun k => at_ X k)) (seq 0 N).

  Lemma dft_transform_ok b : N = (2 * b)%nat ->
    transform_ok rO radd rmul rO radd rmul (fun g => g) dft idft (fun _ => N) b cst.
  Proof.
    intros EN. constructor; rewrite <- ?EN.
    - intros x _. unfold dft. now rewrite map_length, seq_length.
    - intros X _. unfold idft. now rewrite map_length, seq_length.
    - unfold dft. apply (list_ext 0); [now rewrite map_length, seq_length, repeat_length|].
      intros i Hi. rewrite map_length, seq_length in Hi. rewrite map_seq_nth, nth_repeat by exact Hi.
      apply (sum_zero rO rI radd rmul rsub ropp RT). intros n _. rewrite nth_repeat. ring.
    - unfold idft. apply (list_ext 0); [now rewrite map_length, seq_length, repeat_length|].
      intros i Hi. rewrite map_length, seq_length in Hi. rewrite map_seq_nth, nth_repeat by exact Hi.
      apply (sum_zero rO rI radd rmul rsub ropp RT). intros n _. rewrite nth_repeat. ring.
    - intros X Y LX LY. unfold idft. apply (list_ext 0).
      + now rewrite map2_length, !map_length, seq_length by (now rewrite !map_length).
      + intros i Hi. rewrite map_length, seq_length in Hi.
        rewrite (map2_nth radd 0 0) by (now rewrite !map_length, ?seq_length).
        rewrite !map_seq_nth by exact Hi. unfold idft_at.
        rewrite <- (sum_add rO rI radd rmul rsub ropp RT). apply (sum_ext rO radd). intros k Hk.
        rewrite (map2_nth radd 0 0) by lia. ring.
    - intros g X LX. unfold idft. apply (list_ext 0).
      + now rewrite !map_length.
      + intros i Hi. rewrite map_length, seq_length in Hi.
        rewrite (map_nth' (rmul g) 0) by (now rewrite map_length, seq_length).
        rewrite !map_seq_nth by exact Hi. unfold idft_at.
        rewrite <- (sum_scale rO rI radd rmul rsub ropp RT). apply (sum_ext rO radd). intros k Hk.
        rewrite (map_nth' (rmul g) 0) by lia. ring.
    - intros x h Lx Lh. unfold idft. apply (list_ext 0).
      + unfold cyclic. now rewrite !map_length.
      + intros i Hi. rewrite map_length, seq_length in Hi.
        rewrite (map_nth' (rmul cst) 0) by (unfold cyclic; now rewrite map_length, seq_length).
        rewrite map_seq_nth by exact Hi. rewrite <- (dft_conv x h i Hi).
        unfold idft_at. apply (sum_ext rO radd). intros k Hk. f_equal.
        unfold dft. rewrite (map2_nth rmul 0 0) by (now rewrite !map_length, ?seq_length).
        now rewrite !map_seq_nth by exact Hk.
  Qed.
End Dft.
