(** Specification of the initial filter matrix of the matrix convolver. *)
From Coq Require Import Ascii Permutation.
From Verif Require Import Base FilterInitModel.

(** *** Lists of file names *)
(** the fields [ps] separated by commas *)
Fixpoint joined (ps : list text) : text :=
  match ps with
  | [] => []
  | [p] => p
  | p :: ps' => p ++ "," :: joined ps'
  end%char.
Definition separated (l : text) (ps : list text) : Prop :=
  ps <> [] /\ joined ps = l /\ forall p, In p ps -> ~ In ","%char p.
(** [q] is [p] without the spaces and quotation marks at both ends *)
Definition blank (c : ascii) : Prop := c = " "%char \/ c = """"%char.
Definition stripped (p q : text) : Prop :=
  exists a b, p = a ++ q ++ b /\ Forall blank a /\ Forall blank b
    /\ (forall c q', q = c :: q' -> ~ blank c) /\ (forall c q', q = q' ++ [c] -> ~ blank c).

Section Spec.
  Context {D : Type} (zero : D).
  (** a sound file: length of the impulse responses, and one for each channel *)
  Definition filters := (nat * list (list D))%type.

  (** [name] is a complete sound file with the content [f] *)
  Definition holds (lookup : text -> option file) (name : text) (f : filters) : Prop :=
    exists channels frames samples, lookup name = Some (Sound channels frames samples)
      /\ 0 < channels /\ channels * frames <= length samples
      /\ f = (frames, map (fun ch => map (fun t => nth (t * channels + ch) samples zero) (seq 0 frames)) (seq 0 channels)).

  (** std::sort arranges the indices of [starts] in the order of the elements *)
  Definition sorts (order_by_start : list nat -> list nat) : Prop :=
    forall starts, Permutation (order_by_start starts) (seq 0 (length starts))
      /\ forall i j a b, i < j -> nth_error (order_by_start starts) i = Some a -> nth_error (order_by_start starts) j = Some b ->
           nth a starts 0 <= nth b starts 0.

  (** files and the rows where they start *)
  Definition placement := list (nat * filters).
  Definition p_start (p : nat * filters) : nat := fst p.
  Definition p_end (p : nat * filters) : nat := fst p + length (snd (snd p)).
  Definition p_length (p : nat * filters) : nat := fst (snd p).
  (** without offsets, the files follow each other *)
  Fixpoint consecutive (n : nat) (fs : list filters) : placement :=
    match fs with
    | [] => []
    | f :: fs' => (n, f) :: consecutive (n + length (snd f)) fs'
    end.
  Definition placed (offsets : list nat) (fs : list filters) : placement :=
    match offsets with [] => consecutive 0 fs | _ => combine offsets fs end.
  (** every file starts at or behind the end of its predecessor *)
  Definition in_order (pl : placement) : Prop :=
    forall k a b, nth_error pl k = Some a -> nth_error pl (S k) = Some b -> p_end a <= p_start b.
  (** no two files share a row *)
  Definition disjoint (pl : placement) : Prop :=
    forall i j a b, i <> j -> nth_error pl i = Some a -> nth_error pl j = Some b -> p_end a <= p_start b \/ p_end b <= p_start a.

  Definition within (n : nat) (limit : option nat) : Prop := forall l, limit = Some l -> n <= l.
  Definition given (limit : option nat) (n : nat) : nat := match limit with Some l => l | None => n end.
  (** the largest of some numbers *)
  Definition is_max (n : nat) (l : list nat) : Prop := In n l /\ forall x, In x l -> x <= n.

  (** element of the matrix *)
  Definition element (m : matrix) (r c : nat) : option D := nth_error (m_data m) (r * m_stride m + c).
  (** the coefficient that a file has for row [r] and column [c], if any *)
  Definition coefficient (p : nat * filters) (r c : nat) : option D :=
    if (p_start p <=? r) && (r <? p_end p)
    then match nth_error (snd (snd p)) (r - p_start p) with Some row => nth_error row c | None => None end
    else None.
  (** the last file that has a coefficient determines it *)
  Fixpoint last_coefficient (pl : placement) (r c : nat) : option D :=
    match pl with
    | [] => None
    | p :: pl' => match last_coefficient pl' r c with Some x => Some x | None => coefficient p r c end
    end.
  Definition or_zero (x : option D) : D := match x with Some x => x | None => zero end.
End Spec.
