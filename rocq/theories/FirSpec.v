(** Specification for the FIR filter (property C77): a filter with coefficients c(k,j) and ratio u computes
    y_k(t) = sum over j of c(k,j) * x(t - j u).  The state is the history of the signal. *)
From Coq Require Import ZArith.
From Verif Require Import Base FirModel.

Section Spec.
  Context {R : Type} (add mul : R -> R -> R) (zero one minus_one : R) (block blocks filters : nat).

  (** the input at a time; nothing has been received before 0 *)
  Definition signal (h : list R) (t : Z) : R := if (t <? 0)%Z then zero else nth (Z.to_nat t) h zero.
  (** the sum over the coefficients, in ascending order; [delayed j] is the sample for coefficient [j] *)
  Definition weighted (c : nat -> R) (delayed : nat -> R) (n : nat) : R :=
    fold_left (fun a j => add a (mul (c j) (delayed j))) (seq 0 n) zero.

  (** the memory holds block * (blocks + 1) samples, including the whole current block: a time before
      that is represented by the latest one that differs by a multiple of this size *)
  Definition represented (last t : Z) : Z := (last - (last - t) mod Z.of_nat (block * (blocks + 1)))%Z.

  Record spec := Spec {
    p_filters : nat; p_length : nat; p_coeff : nat -> nat -> R; p_ratio : Z; p_history : list R
  }.
  Definition spec_new : spec := Spec 0 0 (fun _ _ => zero) 1 [].
  Definition level (d : option bool) : R :=
    match d with Some true => one | Some false => minus_one | None => zero end.
  (** output at the [i]-th sample of the block that ends the history [h] *)
  Definition spec_sample (p : spec) (h : list R) (t : Z) (k : nat) : R :=
    weighted (p_coeff p k)
             (fun j => signal h (represented (Z.of_nat (length h) - 1) (t - Z.of_nat j * p_ratio p))) (p_length p).
  Definition spec_step (p : spec) (o : op (R := R)) : spec * res (output (R := R)) :=
    match o with
    | SetNum n => (Spec n (p_length p) (fun _ _ => zero) (p_ratio p) (p_history p), Ok Nothing)
    | SetSamples n => (Spec (p_filters p) n (fun _ _ => zero) (p_ratio p) (p_history p), Ok Nothing)
    | SetRatio u =>
        if (u * Z.of_nat (p_length p) <=? Z.of_nat (block * blocks))%Z
        then (Spec (p_filters p) (p_length p) (p_coeff p) u (p_history p), Ok (Code 0))
        else (p, Ok (Code (-1)))
    | Load cols rows =>
        if (length rows =? p_filters p) && (cols =? p_length p)
        then (Spec (p_filters p) (p_length p) (fun k j => nth j (nth k rows []) zero) (p_ratio p) (p_history p), Ok Nothing)
        else (p, Throw InvalidArgument)
    | Tristate draw =>
        (Spec (p_filters p) (p_length p) (fun k j => level (draw k j)) (p_ratio p) (p_history p), Ok Nothing)
    | Process x =>
        let h := p_history p ++ x in
        (Spec (p_filters p) (p_length p) (p_coeff p) (p_ratio p) h,
         Ok (Signal (map (fun i => map (spec_sample p h (Z.of_nat (length (p_history p) + i))) (seq 0 (p_filters p)))
                         (seq 0 block))))
    end.
  Fixpoint spec_perform (p : spec) (ops : list op) : spec * list (res output) :=
    match ops with
    | [] => (p, [])
    | o :: ops' =>
        let '(p1, r) := spec_step p o in
        let '(p2, rs) := spec_perform p1 ops' in
        (p2, r :: rs)
    end.

  (** valid arguments: matrices have rows of the stated size, blocks have the right size, the ratio lies
      within the buffer and its product with the length fits into an integer, the sizes fit into the
      index lists *)
  Definition op_ok (p : spec) (o : op (R := R)) : Prop :=
    match o with
    | SetNum _ | SetSamples _ => True
    | SetRatio u => (0 <= u <= Z.of_nat (block * (blocks + 1)) /\ u * Z.of_nat (p_length p) < 2 ^ 31)%Z
    | Load cols rows => Forall (fun r => length r = cols) rows
    | Tristate _ => p_filters p <= filters /\ p_length p <= block * blocks
    | Process x => length x = block
    end.
  Fixpoint admissible (p : spec) (ops : list op) : Prop :=
    match ops with
    | [] => True
    | o :: ops' => op_ok p o /\ admissible (fst (spec_step p o)) ops'
    end.
End Spec.
