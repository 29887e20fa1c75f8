(** Specification of the transitions of PanningGainMatrix: one sample at a time, without blocks
    and segments. *)
From Verif Require Import Base Num PanGainModel.
Local Open Scope Qc_scope.

(** A transition of the gains of an object: it starts at [t_start], takes [t_dur] samples and
    leads from the gains [t_from] to [t_to], which are kept afterwards.  [t_next]: the stored
    transition (start, duration, gains). *)
Record trajectory := Trajectory {
  t_start : nat; t_dur : nat; t_from : list Qc; t_to : list Qc;
  t_next : option (nat * nat * list Qc) }.
Definition t_end (x : trajectory) : nat := (t_start x + t_dur x)%nat.

(** the part of the transition completed at a time *)
Definition progress (x : trajectory) (t : nat) : Qc :=
  if (t_end x <=? t)%nat then 1 else nq (t - t_start x)%nat / nq (t_dur x).
Definition gains_at (x : trajectory) (t : nat) : list Qc :=
  map (fun p => fst p + progress x t * (snd p - fst p)) (combine (t_from x) (t_to x)).

(** the stored transition becomes the current one when its start time is reached; it starts from
    the gains at that time *)
Definition tick (x : trajectory) (t : nat) : trajectory :=
  match t_next x with
  | Some (s, d, g) => if (s =? t)%nat then Trajectory s d (gains_at x s) g None else x
  | None => x
  end.
(** from time [t] to [t + k] *)
Fixpoint pass (x : trajectory) (t k : nat) : trajectory :=
  match k with
  | O => x
  | S k' => tick (pass x t k') (t + S k')
  end.

Definition store (x : trajectory) (m : nat * nat * list Qc) : trajectory :=
  Trajectory (t_start x) (t_dur x) (t_from x) (t_to x) (Some m).

(** *** What is documented (panning_gain_matrix.hpp 60-91): the transition is stored *)
Definition documented (x : trajectory) (now : nat) (m : nat * nat * list Qc) : trajectory := tick (store x m) now.

(** *** What the code does if a transition is received while another one is in progress *)
Definition actual (x : trajectory) (now : nat) (m : nat * nat * list Qc) : trajectory :=
  let '(s, d, g) := m in
  if (s =? now)%nat then
    (* starts over from the gains the interrupted transition started from *)
    Trajectory now d (if (now <? t_end x)%nat then t_from x else t_to x) g None
  else if (s <? t_end x)%nat && (now <? t_end x)%nat then
    (* the transition in progress is replaced by one that leads to the present gains *)
    Trajectory (t_start x) (s - t_start x) (t_from x) (gains_at x now) (Some m)
  else store x m.

(** a transition that does not interrupt one in progress, other than by an immediate jump *)
Definition fits (x : trajectory) (now : nat) (m : nat * nat * list Qc) : Prop :=
  let '(s, d, g) := m in
  (t_end x <= s \/ s = t_start x \/ (s = now /\ d = 0))%nat.

(** the output of a block: sample [i] of each input is multiplied by the gains reached at the end
    of this sample *)
Definition spec_block (period now m : nat) (xs : list trajectory) (ins : list (list Qc)) : list (list Qc) :=
  map (fun l => map (fun i => qsum (map (fun p => nth l (gains_at (pass (fst p) now i) (now + S i)%nat) 0 * nth i (snd p) 0)
                                        (combine xs ins)))
                    (seq 0 period))
      (seq 0 m).

(** *** Messages *)
Local Open Scope nat_scope.
(** what a message says about an object *)
Definition entry (msg : message) (j : nat) : option (nat * nat * list Qc) :=
  match nth_error (m_stamps msg) j, nth_error (m_durs msg) j, nth_error (m_gains msg) j with
  | Some (Some s), Some (Some d), Some g => Some (s, d, g)
  | _, _, _ => None
  end.
(** a message for [n] objects and [m] loudspeakers whose transitions have finite durations *)
Definition well_formed (n m : nat) (msg : message) : Prop :=
  length (m_stamps msg) = n /\ length (m_durs msg) = n /\ length (m_gains msg) = n
  /\ Forall (fun g => length g = m) (m_gains msg)
  /\ (forall j s, nth_error (m_stamps msg) j = Some (Some s) -> nth_error (m_durs msg) j <> Some None).

(** The trajectories and the outputs for a sequence of blocks, and which sequences are considered;
    [receive]: the effect of a transition received at a time, [allowed]: a condition for it. *)
Section Receive.
  Variable receive : trajectory -> nat -> nat * nat * list Qc -> trajectory.
  Variable allowed : trajectory -> nat -> nat * nat * list Qc -> Prop.
  Variable m : nat.
  Definition receive_entry (now : nat) (x : trajectory) (e : option (nat * nat * list Qc)) : trajectory :=
    match e with Some t => receive x now t | None => x end.
  Definition allowed_entry (now : nat) (x : trajectory) (e : option (nat * nat * list Qc)) : Prop :=
    match e with Some t => now <= fst (fst t) /\ allowed x now t | None => True end.

  (** the trajectories after a message and during a block *)
  Definition receive_message (now : nat) (arrived : option message) (xs : list trajectory) : list trajectory :=
    match arrived with
    | None => xs
    | Some msg => map (fun p => receive_entry now (snd p) (entry msg (fst p))) (combine (seq 0 (length xs)) xs)
    end.
  Definition allowed_message (now : nat) (arrived : option message) (xs : list trajectory) : Prop :=
    match arrived with
    | None => True
    | Some msg => well_formed (length xs) m msg
                  /\ forall j x, nth_error xs j = Some x -> allowed_entry now x (entry msg j)
    end.
  Fixpoint allowed_blocks (period now : nat) (xs : list trajectory) (l : list block) : Prop :=
    match l with
    | [] => True
    | (arrived, ins, outs) :: l' =>
        allowed_message now arrived xs
        /\ length ins = length xs /\ Forall (fun i => length i = period) ins
        /\ length outs = m /\ Forall (fun o => length o = period) outs
        /\ allowed_blocks period (now + period)
             (map (fun x => pass x now period) (receive_message now arrived xs)) l'
    end.
  Fixpoint spec_blocks (period now : nat) (xs : list trajectory) (l : list block) : list (list (list Qc)) :=
    match l with
    | [] => []
    | (arrived, ins, _) :: l' =>
        let xs' := receive_message now arrived xs in
        spec_block period now m xs' ins
        :: spec_blocks period (now + period) (map (fun x => pass x now period) xs') l'
    end.

End Receive.

Definition initial_trajectory (g : list Qc) : trajectory := Trajectory 0 0 g g None.

Definition late (now : nat) (msg : message) (j : nat) : Prop :=
  exists s, nth_error (m_stamps msg) j = Some (Some s) /\ s < now.

