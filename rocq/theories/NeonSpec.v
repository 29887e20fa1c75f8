(** Specification of elementwise vector functions, independent of the kernels: which words of the
    memory a function changes, and to what. *)
From Verif Require Import Base SimdModel.

Section Spec.
  Context {T : Type}.

  (** [n] numbers from [y] on are [g] of the corresponding original numbers at the sources, all other
      words are as before *)
  Definition real_elements (g : list T -> option T) (n : nat) (srcs : list nat) (y : nat) (m m' : list T) : Prop :=
    length m' = length m
    /\ (forall j, j < y \/ y + n <= j -> nth_error m' j = nth_error m j)
    /\ forall i xs, i < n -> Forall2 (fun p x => nth_error m (p + i) = Some x) srcs xs ->
         exists v, g xs = Some v /\ nth_error m' (y + i) = Some v.

  (** the same for complex numbers, which occupy two words: real part, imaginary part *)
  Definition stored (m : list T) (p : nat) (z : T * T) : Prop :=
    nth_error m p = Some (fst z) /\ nth_error m (p + 1) = Some (snd z).
  Definition complex_elements (g : list (T * T) -> option (T * T)) (n : nat) (srcs : list nat) (y : nat) (m m' : list T) : Prop :=
    length m' = length m
    /\ (forall j, j < y \/ y + 2 * n <= j -> nth_error m' j = nth_error m j)
    /\ forall i xs, i < n -> Forall2 (fun p x => stored m (p + 2 * i) x) srcs xs ->
         exists v, g xs = Some v /\ stored m' (y + 2 * i) v.

  (** the operands of [len] words lie in the memory, a source is the destination or disjoint from it *)
  Definition operands (len : nat) (srcs : list nat) (y : nat) (m : list T) : Prop :=
    y + len <= length m
    /\ Forall (fun p => p + len <= length m /\ (p = y \/ p + len <= y \/ y + len <= p)) srcs.

  (** all pointers are aligned to [alignment] elements of [e] words *)
  Definition aligned (e : nat) (ps : list nat) (alignment : nat) : bool :=
    forallb (fun p => check_ptr e p alignment) ps.

  (** Outcome of a function that checks its pointers only if [debug] *)
  Definition computes (kernel : @result T) (debug valid : bool) (m : list T) (spec : list T -> Prop) : Prop :=
    if debug && negb valid then kernel = Ok (AlignmentError, m)
    else exists m', kernel = Ok (NoError, m') /\ spec m'.
  (** Outcome of the reference function compared to it *)
  Definition replaces (kernel ref : @result T) (valid : bool) (m : list T) : Prop :=
    ref = if valid then kernel else Ok (AlignmentError, m).
End Spec.
