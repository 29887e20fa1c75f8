(** Property C10: Lagrange interpolation coefficients. *)
From Verif Require Import Base Num LagrangeModel LagrangeProofs.
Local Open Scope Qc_scope.

(** Sum over the taps of coefficient times the value of [f] at the tap's position.
    Tap [i] sits at i - N/2, or N/2 - i for reversed coefficients. *)
Definition tap_position (rev : bool) (N i : nat) : Qc :=
  if rev then nq N / nq 2 - nq i else nq i - nq N / nq 2.
Definition interpolate_with (coeffs : list Qc) (rev : bool) (N : nat) (f : Qc -> Qc) : Qc :=
  qsum (map (fun i => nth i coeffs 0 * f (tap_position rev N i)) (seq 0 (S N))).

Lemma tap_position_offset rev N i : tap_position rev N i = offset rev N i.
Proof. unfold tap_position, offset. destruct rev; field; discriminate. Qed.

Lemma interpolate_dot coeffs rev N p : length coeffs = S N ->
  interpolate_with coeffs rev N (peval p) = dot coeffs (map (peval p) (offsets rev N)).
Proof.
  intros Hl. unfold interpolate_with, offsets. rewrite map_map.
  rewrite <- Hl. clear Hl.
  assert (G : forall cs k, dot cs (map (fun x => peval p (offset rev N x)) (seq k (length cs)))
    = qsum (map (fun i => nth i cs 0 * peval p (tap_position rev N (k + i))) (seq 0 (length cs)))).
  { induction cs as [|c cs IH]; intros k; [reflexivity|].
    cbn [length seq map dot qsum nth]. rewrite IH, <- seq_shift, map_map.
    rewrite tap_position_offset, Nat.add_0_r. cbn [fold_right]. unfold qsum. simpl. f_equal.
    f_equal. apply map_ext. intros i. rewrite Nat.add_succ_r. reflexivity. }
  rewrite G. reflexivity.
Qed.

Theorem C10_polynomials_reproduced :
  forall rev N mu p, (length p <= S N)%nat ->
  interpolate_with (calculate_coefficients rev N mu) rev N (peval p) = peval p mu.
Proof.
  intros. rewrite interpolate_dot by apply coefficients_length. now apply lagrange_exact.
Qed.
Print Assumptions C10_polynomials_reproduced.

Theorem C10_coefficients_sum_to_one :
  forall rev N mu, length (calculate_coefficients rev N mu) = S N
    /\ qsum (calculate_coefficients rev N mu) = 1.
Proof. intros. split; [apply coefficients_length|apply lagrange_sum_one]. Qed.
Print Assumptions C10_coefficients_sum_to_one.

Theorem C10_kronecker_at_taps :
  forall rev N j i, (j <= N)%nat -> (i <= N)%nat ->
  nth_error (calculate_coefficients rev N (tap_position rev N j)) i
  = Some (if Nat.eqb i j then 1 else 0).
Proof.
  intros rev N j i Hj Hi. rewrite tap_position_offset, lagrange_at_tap by exact Hj.
  rewrite nth_error_map. rewrite (nth_error_nth' _ 0%nat) by (rewrite seq_length; lia).
  rewrite seq_nth by lia. reflexivity.
Qed.
Print Assumptions C10_kronecker_at_taps.

(** Third order at 0.3: x^3 + 2 is reproduced. *)
Example C10_example :
  this (interpolate_with (calculate_coefficients true 3 (nq 3 / nq 10)) true 3
          (peval [nq 2; 0; 0; 1])) = (2027 # 1000)%Q
  /\ map this (calculate_coefficients true 2 (nq 1 / nq 2)) = [3 # 8; 3 # 4; (-1) # 8]%Q.
Proof. split; vm_compute; reflexivity. Qed.
