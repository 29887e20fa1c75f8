(** The DFT of real signals in half-spectrum representation: 2b real samples, b+1 complex
    values, as computed by kiss_fftr/kiss_fftri (src/librbbl/kiss_fft_wrapper_float.cpp
    60-72) and ffts_execute (src/librbbl/ffts_wrapper.cpp 60-73) in exact arithmetic.
    Both directions are unnormalised (forwardScalingFactor() = inverseScalingFactor() = 1,
    src/librbbl/kiss_fft_wrapper.hpp 39-41). *)
From Verif Require Import Base Memory RingSum ConvolverModel ConvolverProofs Dft.
From Coq Require Import Reals Ring Lra.
Local Open Scope R_scope.

(** *** Complex numbers *)
Definition C : Type := (R * R)%type.
Definition C0 : C := (0, 0).
Definition C1 : C := (1, 0).
Definition Cadd (a b : C) : C := (fst a + fst b, snd a + snd b).
Definition Cmul (a b : C) : C := (fst a * fst b - snd a * snd b, fst a * snd b + snd a * fst b).
Definition Copp (a : C) : C := (- fst a, - snd a).
Definition Csub (a b : C) : C := Cadd a (Copp b).
Definition Cinj (r : R) : C := (r, 0).
Definition Cconj (a : C) : C := (fst a, - snd a).

Lemma C_ring : ring_theory C0 C1 Cadd Cmul Csub Copp eq.
Proof.
  constructor; intros; unfold C0, C1, Csub, Cadd, Cmul, Copp;
    try (destruct x); try (destruct y); try (destruct z); cbn [fst snd]; f_equal; ring.
Qed.
Lemma C_integral z s : z <> C0 -> Cmul z s = C0 -> s = C0.
Proof.
  destruct z as [a b], s as [x y]. unfold C0, Cmul. cbn [fst snd]. intros Nz E.
  injection E as E1 E2.
  assert (P : a * a + b * b <> 0).
  { intros H. apply Nz. assert (0 <= a * a) by apply Rle_0_sqr. assert (0 <= b * b) by apply Rle_0_sqr.
    f_equal; apply Rsqr_0_uniq; unfold Rsqr; lra. }
  assert (X : (a * a + b * b) * x = 0).
  { replace ((a * a + b * b) * x) with (a * (a * x - b * y) + b * (a * y + b * x)) by ring. rewrite E1, E2. ring. }
  assert (Y : (a * a + b * b) * y = 0).
  { replace ((a * a + b * b) * y) with (a * (a * y + b * x) - b * (a * x - b * y)) by ring. rewrite E1, E2. ring. }
  apply Rmult_integral in X as [X|X]; [contradiction|]. apply Rmult_integral in Y as [Y|Y]; [contradiction|].
  now subst.
Qed.

Local Notation csum := (sum C0 Cadd).
Local Notation rsum := (sum 0 Rplus).

Lemma csum_fst n f : fst (csum n f) = rsum n (fun i => fst (f i)).
Proof. induction n as [|n IH]; [reflexivity|]. simpl. now rewrite IH. Qed.
Lemma csum_snd n f : snd (csum n f) = rsum n (fun i => snd (f i)).
Proof. induction n as [|n IH]; [reflexivity|]. simpl. now rewrite IH. Qed.
Lemma csum_inj n f : csum n (fun i => Cinj (f i)) = Cinj (rsum n f).
Proof.
  induction n as [|n IH]; [reflexivity|]. simpl. rewrite IH. unfold Cadd, Cinj. cbn [fst snd]. f_equal. ring.
Qed.

Section Root.
  Variable b : nat.
  Hypothesis bpos : (0 < b)%nat.
  Let N := (2 * b)%nat.

  Lemma N_pos : 0 < INR N.
  Proof. apply lt_0_INR. unfold N. lia. Qed.

  (** e^{-2 pi i k / N} *)
  Definition angle (k : nat) : R := 2 * PI * INR k / INR N.
  Definition w (k : nat) : C := (cos (angle k), - sin (angle k)).

  Lemma angle_add j k : angle (j + k) = angle j + angle k.
  Proof. unfold angle. rewrite plus_INR. field. assert (P := N_pos). lra. Qed.
  Lemma w_add j k : w (j + k) = Cmul (w j) (w k).
  Proof.
    unfold w, Cmul. rewrite angle_add, cos_plus, sin_plus. cbn [fst snd]. f_equal; ring.
  Qed.
  Lemma angle_turns k : angle (N * k) = 2 * INR k * PI.
  Proof. unfold angle. rewrite mult_INR. field. assert (P := N_pos). lra. Qed.
  Lemma w_turns k : w (N * k) = C1.
  Proof.
    unfold w. rewrite angle_turns. unfold C1.
    rewrite <- (Rplus_0_l (2 * INR k * PI)), cos_period, sin_period, cos_0, sin_0. f_equal. ring.
  Qed.
  Lemma w_mod q : w q = w (q mod N).
  Proof.
    rewrite (Nat.div_mod q N) at 1 by (unfold N; lia).
    rewrite w_add, w_turns. destruct (w (q mod N)) as [x y]. unfold Cmul, C1. cbn [fst snd]. f_equal; ring.
  Qed.
  Lemma w_not_1 r : (0 < r < N)%nat -> w r <> C1.
  Proof.
    intros Hr E. unfold w, C1 in E. injection E as E _.
    assert (P := N_pos).
    assert (H1 : 0 < INR r) by (apply lt_0_INR; lia).
    assert (H2 : INR r < INR N) by (apply lt_INR; lia).
    set (y := PI * INR r / INR N).
    replace (angle r) with (2 * y) in E by (unfold angle, y; field; lra).
    rewrite cos_2a_sin in E.
    assert (Pi := PI_RGT_0).
    assert (S : 0 < sin y).
    { apply sin_gt_0; unfold y.
      - unfold Rdiv. apply Rmult_lt_0_compat; [now apply Rmult_lt_0_compat|]. now apply Rinv_0_lt_compat.
      - apply Rmult_lt_reg_r with (INR N); [exact P|]. unfold Rdiv.
        rewrite Rmult_assoc, Rinv_l by lra. rewrite Rmult_1_r. now apply Rmult_lt_compat_l. }
    assert (0 < sin y * sin y) by (now apply Rmult_lt_0_compat). lra.
  Qed.

  Add Ring CRing : C_ring.
  Lemma geometric q n : Cmul (Csub (w q) C1) (csum n (fun k => w (k * q))) = Csub (w (n * q)) C1.
  Proof.
    induction n as [|n IH].
    - simpl. assert (w 0 = C1) as -> by (rewrite <- (w_turns 0); f_equal; lia). ring.
    - simpl. rewrite w_add.
      transitivity (Cadd (Cmul (Csub (w q) C1) (csum n (fun k => w (k * q)))) (Cmul (Csub (w q) C1) (w (n * q)))); [ring|].
      rewrite IH. ring.
  Qed.
  Lemma orth q : csum N (fun k => w (k * q)) = if (q mod N =? 0)%nat then Cinj (INR N) else C0.
  Proof.
    destruct (Nat.eqb_spec (q mod N) 0) as [E|E].
    - assert (D : q = (N * (q / N))%nat) by (assert (D := Nat.div_mod q N ltac:(unfold N; lia)); lia).
      rewrite (sum_ext C0 Cadd N _ (fun _ => Cinj 1)).
      + rewrite csum_inj. f_equal. clear. induction N as [|n IH]; [reflexivity|].
        rewrite S_INR. simpl. now rewrite IH.
      + intros k _. rewrite D. replace (k * (N * (q / N)))%nat with (N * (k * (q / N)))%nat by lia. apply w_turns.
    - apply (C_integral (Csub (w q) C1)).
      + rewrite w_mod. intros Z. apply (w_not_1 (q mod N)).
        * assert (q mod N < N)%nat by (apply Nat.mod_upper_bound; unfold N; lia). lia.
        * transitivity (Cadd (Csub (w (q mod N)) C1) C1); [ring|]. rewrite Z. ring.
      + rewrite geometric, w_turns. ring.
  Qed.

  (** conjugate symmetry *)
  Lemma w_conj k n : (k <= N)%nat -> w ((N - k) * n) = Cconj (w (k * n)).
  Proof.
    intros Hk. unfold w, Cconj. cbn [fst snd].
    assert (E : angle ((N - k) * n) = - angle (k * n) + 2 * INR n * PI).
    { assert (A := angle_add ((N - k) * n) (k * n)).
      replace ((N - k) * n + k * n)%nat with (N * n)%nat in A by nia. rewrite angle_turns in A. lra. }
    rewrite E, cos_period, sin_period, cos_neg, sin_neg. f_equal; ring.
  Qed.

  (** *** The transforms *)
  Definition real_at (x : list R) (k : nat) : C := csum N (fun n => Cmul (Cinj (nth n x 0)) (w (k * n))).
  Definition rfft (x : list R) : list C := map (real_at x) (seq 0 (b + 1)).
  Definition irfft_at (X : list C) (n : nat) : R :=
    fst (nth 0 X C0) + fst (nth b X C0) * fst (w (b * (N - n)))
    + 2 * rsum (b - 1) (fun j => fst (Cmul (nth (S j) X C0) (w (S j * (N - n))))).
  Definition irfft (X : list C) : list R := map (irfft_at X) (seq 0 N).

  (** fst (w (b * m)) alternates: the inverse adds (-1)^n Re X_b. *)
  Lemma w_half m : w (b * m) = Cinj ((-1) ^ m).
  Proof.
    unfold w. assert (A : angle (b * m) = INR m * PI).
    { unfold angle, N. rewrite !mult_INR. change (INR 2) with 2. field. apply not_0_INR. lia. }
    rewrite A. unfold Cinj. clear A. induction m as [|m IH].
    - simpl. rewrite Rmult_0_l, cos_0, sin_0. f_equal. ring.
    - rewrite S_INR. replace ((INR m + 1) * PI) with (INR m * PI + PI) by ring.
      rewrite neg_cos, neg_sin. injection IH as I1 I2. rewrite I1. cbn [pow]. f_equal; [ring|]. lra.
  Qed.

  Lemma real_at_dft x k : real_at x k = dft_at C0 Cadd Cmul N w (map Cinj x) k.
  Proof.
    unfold real_at, dft_at. apply (sum_ext C0 Cadd). intros n _. f_equal.
    destruct (lt_dec n (length x)) as [L|L].
    - now rewrite (map_nth' Cinj 0) by exact L.
    - rewrite (nth_overflow x) by lia. rewrite (nth_overflow (map Cinj x)) by (rewrite map_length; lia). reflexivity.
  Qed.
  Lemma real_at_conj x k : (k <= N)%nat -> real_at x (N - k) = Cconj (real_at x k).
  Proof.
    intros Hk. unfold real_at.
    assert (D : forall m f, Cconj (csum m f) = csum m (fun i => Cconj (f i))).
    { induction m as [|m IH]; intros f; simpl.
      - unfold Cconj, C0. cbn [fst snd]. f_equal. ring.
      - rewrite <- IH. unfold Cconj, Cadd. cbn [fst snd]. f_equal. ring. }
    rewrite D. apply (sum_ext C0 Cadd). intros n _. rewrite w_conj by exact Hk.
    unfold Cconj, Cmul, Cinj. cbn [fst snd]. f_equal; ring.
  Qed.

  Lemma symmetric_sum (g : nat -> R) : (forall k, (0 < k < b)%nat -> g (N - k)%nat = g k) ->
    rsum N g = g 0%nat + g b + 2 * rsum (b - 1) (fun j => g (S j)).
  Proof.
    intros Sy. assert (EN : N = (1 + (b - 1) + (1 + (b - 1)))%nat) by (unfold N; lia).
    rewrite EN at 1.
    rewrite (sum_app 0 1 Rplus Rmult Rminus Ropp RTheory), !(sum_app 0 1 Rplus Rmult Rminus Ropp RTheory).
    cbn [sum]. rewrite (sum_rev 0 1 Rplus Rmult Rminus Ropp RTheory (b - 1) (fun i => g (1 + (b - 1) + (1 + i))%nat)).
    rewrite (sum_ext 0 Rplus (b - 1) (fun i => g (1 + (b - 1) + (1 + (b - 1 - 1 - i)))%nat) (fun j => g (S j))).
    - replace (1 + (b - 1) + 0)%nat with b by lia. simpl (1 + _)%nat. cbn [Nat.add]. ring.
    - intros i Hi. rewrite <- (Sy (S i)) by lia. f_equal. unfold N. lia.
  Qed.

  Lemma cyclic_inj x h n : length x = N -> length h = N -> (n < N)%nat ->
    nth n (cyclic C0 Cadd Cmul N (map Cinj x) (map Cinj h)) C0 = Cinj (nth n (cyclic 0 Rplus Rmult N x h) 0).
  Proof.
    intros Lx Lh Hn. unfold cyclic. rewrite !map_seq_nth by exact Hn. rewrite <- csum_inj.
    apply (sum_ext C0 Cadd). intros m Hm.
    rewrite !(map_nth' Cinj 0) by (rewrite ?Lx, ?Lh; try apply Nat.mod_upper_bound; lia).
    unfold Cmul, Cinj. cbn [fst snd]. f_equal; ring.
  Qed.

  Theorem rfft_transform_ok :
    transform_ok 0 Rplus Rmult C0 Cadd Cmul Cinj rfft irfft (fun b => (b + 1)%nat) b (INR N).
  Proof.
    assert (Zn : forall n m, nth n (repeat C0 m) C0 = C0) by (intros; apply nth_repeat).
    constructor; fold N.
    - intros x _. unfold rfft. now rewrite map_length, seq_length.
    - intros X _. unfold irfft. now rewrite map_length, seq_length.
    - unfold rfft. apply (list_ext C0); [now rewrite map_length, seq_length, repeat_length|].
      intros k Hk. rewrite map_length, seq_length in Hk. rewrite map_seq_nth by exact Hk. rewrite Zn.
      apply (sum_zero C0 C1 Cadd Cmul Csub Copp C_ring). intros n _. rewrite nth_repeat.
      change (Cinj 0) with C0. ring.
    - unfold irfft. apply (list_ext 0); [now rewrite map_length, seq_length, repeat_length|].
      intros n Hn. rewrite map_length, seq_length in Hn. rewrite map_seq_nth, nth_repeat by exact Hn.
      unfold irfft_at. rewrite !Zn. cbn [fst C0].
      rewrite (sum_zero 0 1 Rplus Rmult Rminus Ropp RTheory); [unfold C0; cbn [fst]; ring|].
      intros j _. rewrite Zn. unfold Cmul, C0. cbn [fst snd]. ring.
    - intros X Y LX LY. unfold irfft. apply (list_ext 0).
      + now rewrite map2_length, !map_length, seq_length by (now rewrite !map_length).
      + intros n Hn. rewrite map_length, seq_length in Hn.
        rewrite (map2_nth Rplus 0 0) by (now rewrite !map_length, ?seq_length).
        rewrite !map_seq_nth by exact Hn. unfold irfft_at.
        rewrite !(map2_nth Cadd C0 C0) by lia. cbn [Cadd fst].
        rewrite (sum_ext 0 Rplus (b - 1) (fun j => fst (Cmul (nth (S j) (map2 Cadd X Y) C0) (w (S j * (N - n)))))
          (fun j => fst (Cmul (nth (S j) X C0) (w (S j * (N - n)))) + fst (Cmul (nth (S j) Y C0) (w (S j * (N - n)))))).
        * rewrite (sum_add 0 1 Rplus Rmult Rminus Ropp RTheory). ring.
        * intros j Hj. rewrite (map2_nth Cadd C0 C0) by lia. unfold Cmul, Cadd. cbn [fst snd]. ring.
    - intros g X LX. unfold irfft. apply (list_ext 0).
      + now rewrite !map_length.
      + intros n Hn. rewrite map_length, seq_length in Hn.
        rewrite (map_nth' (Rmult g) 0) by (now rewrite map_length, seq_length).
        rewrite !map_seq_nth by exact Hn. unfold irfft_at.
        rewrite !(map_nth' (Cmul (Cinj g)) C0) by lia.
        rewrite (sum_ext 0 Rplus (b - 1) (fun j => fst (Cmul (nth (S j) (map (Cmul (Cinj g)) X) C0) (w (S j * (N - n)))))
          (fun j => g * fst (Cmul (nth (S j) X C0) (w (S j * (N - n)))))).
        * rewrite (sum_scale 0 1 Rplus Rmult Rminus Ropp RTheory). unfold Cmul, Cinj. cbn [fst snd]. ring.
        * intros j Hj. rewrite (map_nth' (Cmul (Cinj g)) C0) by lia. unfold Cmul, Cinj. cbn [fst snd]. ring.
    - intros x h Lx Lh. unfold irfft. apply (list_ext 0).
      + unfold cyclic. now rewrite !map_length.
      + intros n Hn. rewrite map_length, seq_length in Hn.
        rewrite (map_nth' (Rmult (INR N)) 0) by (unfold cyclic; now rewrite map_length, seq_length).
        rewrite map_seq_nth by exact Hn.
        assert (DC := dft_conv C0 C1 Cadd Cmul Csub Copp C_ring N w (Cinj (INR N)) ltac:(unfold N; lia) w_add orth
                        (map Cinj x) (map Cinj h) n Hn).
        rewrite cyclic_inj in DC by assumption.
        apply (f_equal fst) in DC. unfold idft_at in DC. rewrite csum_fst in DC.
        assert (R1 : fst (Cmul (Cinj (INR N)) (Cinj (nth n (cyclic 0 Rplus Rmult N x h) 0)))
                     = INR N * nth n (cyclic 0 Rplus Rmult N x h) 0)
          by (unfold Cmul, Cinj; cbn [fst snd]; ring).
        rewrite R1 in DC. rewrite <- DC.
        rewrite symmetric_sum.
        * unfold irfft_at.
          assert (NX : forall k, (k < b + 1)%nat -> nth k (map2 Cmul (rfft x) (rfft h)) C0 = Cmul (real_at x k) (real_at h k)).
          { intros k Hk. unfold rfft. rewrite (map2_nth Cmul C0 C0) by (now rewrite !map_length, ?seq_length).
            now rewrite !map_seq_nth by exact Hk. }
          rewrite !NX by lia. rewrite !real_at_dft.
          assert (MR : forall a r, fst (Cmul a (r, 0)) = fst a * r)
            by (intros [a1 a2] r; unfold Cmul; cbn [fst snd]; ring).
          f_equal; [f_equal|f_equal].
          -- rewrite Nat.mul_0_l. assert (w 0 = C1) as -> by (rewrite <- (w_turns 0); f_equal; lia).
             unfold C1. rewrite MR. ring.
          -- rewrite w_half. exact (eq_sym (MR _ _)).
          -- apply (sum_ext 0 Rplus). intros j Hj. rewrite NX by lia. now rewrite !real_at_dft.
        * intros k Hk. rewrite <- !real_at_dft, !real_at_conj by lia. rewrite w_conj by lia.
          unfold Cconj, Cmul. cbn [fst snd]. ring.
  Qed.
End Root.
