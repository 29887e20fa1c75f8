(** Independent notions for the decoding of higher-order Ambisonics objects (C79) and the diffuse
    gains (C80). *)
From Coq Require Import ZArith.
From Verif Require Import Base HoaModel.

Section HoaSpec.
  Variable F : Type.
  Variables (zero : F) (add mul : F -> F -> F).

  (** the memory of [m] holds the values [f r c] of a matrix of [rows] by [cols] *)
  Record table (m : matrix F) (rows cols : nat) (f : nat -> nat -> F) : Prop := Table {
    t_rows : m_rows F m = rows;
    t_cols : m_cols F m = cols;
    t_stride : cols <= m_stride F m;
    t_length : length (m_data F m) = rows * m_stride F m;
    t_cell : forall r c, r < rows -> c < cols -> nth_error (m_data F m) (r * m_stride F m + c) = Some (f r c)
  }.

  (** sum of n products in the order of the index *)
  Fixpoint mix (n : nat) (f g : nat -> F) : F :=
    match n with 0 => zero | S n' => add (mix n' f g) (mul (f n') (g n')) end.

  (** the gain from harmonic signal [sig] to loudspeaker [spk]: the decoder [D] for the regular array,
      then the panning of every regular loudspeaker, at its position, on the real array *)
  Definition decoder (vbap : pos F -> pos F -> list F) (positions : list (pos F)) (D : nat -> nat -> F) (listener : pos F)
    (sig spk : nat) : F :=
    mix (length positions) (D sig) (fun k => nth spk (vbap listener (nth k positions (zero, zero, zero))) zero).

  (** the signals of the Ambisonics objects with their channels *)
  Definition signals (objects : list object) : list (nat * nat) :=
    concat (map (fun o => match o with
                          | HoaSource channels _ => combine channels (seq 0 (length channels))
                          | OtherObject => []
                          end) objects).
  (** the signal given last for a channel *)
  Definition owner (l : list (nat * nat)) (ch : nat) : option nat :=
    option_map snd (find (fun p => fst p =? ch) (rev l)).
  (** decoder gains for the channels of Ambisonics objects, the given gains for all others *)
  Definition overlay (l : list (nat * nat)) (gain input : nat -> nat -> F) (spk ch : nat) : F :=
    match owner l ch with Some sig => gain sig spk | None => input spk ch end.

  (** an object of an order has (order+1)^2 signals *)
  Definition complete (channels : list nat) (order : Z) : Prop :=
    (0 <= order < 65535)%Z /\ (Z.of_nat (length channels) = (order + 1) * (order + 1))%Z.
  Definition fits (channels harmonics : nat) (o : object) : Prop :=
    match o with
    | HoaSource chs order => complete chs order /\ Forall (fun ch => ch < channels) chs /\ length chs <= harmonics
    | OtherObject => True
    end.
  (** no object has more signals than the decoder *)
  Definition small (harmonics : nat) (o : object) : Prop :=
    match o with HoaSource chs _ => length chs <= harmonics | OtherObject => True end.

  (** the position of the listener after a sequence of changes *)
  Definition latest (l : pos F) (changes : list (option (pos F))) : pos F :=
    fold_left (fun l c => match c with Some p => p | None => l end) changes l.

  (** diffuse gain of an object type *)
  Definition diffuseness (one : F) (t : diffuse_type F) : F :=
    match t with DiffuseSource _ => one | PointSourceWithDiffuseness _ d => d | OtherType _ => zero end.
  (** the last object with exactly the channel [ch] *)
  Definition mono (objects : list (list nat * diffuse_type F)) (ch : nat) : option (diffuse_type F) :=
    option_map snd (find (fun o => match fst o with [c] => c =? ch | _ => false end) (rev objects)).
End HoaSpec.
