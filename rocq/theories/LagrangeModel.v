(** Model of efl::LagrangeCoefficientCalculator
    (src/libefl/lagrange_coefficient_calculator.{hpp,cpp}) for every order.
    Exact rational arithmetic instead of floating point. *)
From Verif Require Import Base Num.
Local Open Scope Qc_scope.

(** cpp 98-103 offset(), [rev] = reverseCoeffs *)
Definition offset (rev : bool) (N idx : nat) : Qc :=
  if rev then (1 / nq 2) * nq N - nq idx else nq idx - (1 / nq 2) * nq N.

(** cpp 121-129 generateOffsets() *)
Definition offsets (rev : bool) (N : nat) : list Qc := map (offset rev N) (seq 0 (S N)).

(** cpp 106-118 scaleFactor(): accumulating loop over runIdx <> idx *)
Definition scale_factor (rev : bool) (N idx : nat) : Qc :=
  let acc := fold_left (fun acc run =>
               if Nat.eqb run idx then acc else acc * (offset rev N run - offset rev N idx))
               (seq 0 (S N)) 1 in
  1 / acc.

(** cpp 41-48: products of neighbouring pairs, odd element copied *)
Fixpoint pair_products (l : list Qc) : list Qc :=
  match l with
  | x :: y :: r => x * y :: pair_products r
  | [x] => [x]
  | [] => []
  end.

(** cpp 50-59: combine with the products of the other pairs *)
Fixpoint combine_pairs (l p : list Qc) : list Qc :=
  match l, p with
  | x :: y :: r, q :: ps => y * q :: x * q :: combine_pairs r ps
  | [x], q :: _ => [q]
  | _, _ => []
  end.

(** cpp 33-75 multiplyAndShuffle<length>; [fuel] replaces the template recursion
    (running out of it is visible as an empty result). *)
Fixpoint multiply_and_shuffle (fuel : nat) (l : list Qc) : list Qc :=
  match fuel with
  | O => []
  | S fuel' =>
      match l with
      | [] => []                                        (* assert( false ) *)
      | [x] => [1]
      | [x; y] => [y; x]
      | _ => combine_pairs l (multiply_and_shuffle fuel' (pair_products l))
      end
  end.

(** cpp 86-95 calculateCoefficients() *)
Definition calculate_coefficients (rev : bool) (N : nat) (mu : Qc) : list Qc :=
  let internal := map (fun v => v - mu) (offsets rev N) in
  let shuffled := multiply_and_shuffle (S N) internal in
  map (fun ab => fst ab * snd ab)
      (combine (map (scale_factor rev N) (seq 0 (S N))) shuffled).
