(** What rcl::SparseGainMatrix is to compute, in terms of gains as functions of the time. *)
From Verif Require Import Base Num RoutingListModel GainProofs.
Local Open Scope Qc_scope.

Section Spec.
  Variables (inputs outputs entries block steps : nat).

  Definition valid (r : srouting Qc) : Prop :=
    (s_entry r < entries /\ s_row r < outputs /\ s_col r < inputs)%nat.
  (** a routing list: at most one routing per entry index *)
  Definition is_list (l : list (srouting Qc)) : Prop := NoDup (map s_entry l).
  Definition gain_in (l : list (srouting Qc)) (k : nat) : option Qc :=
    option_map s_gain (find (fun r => (s_entry r =? k)%nat) l).

  (** Every entry moves from a starting gain to a target; [t_age] samples have passed. *)
  Record transition := Transition {
    t_routes : list (srouting Qc);
    t_from : nat -> Qc;
    t_to : nat -> Qc;
    t_age : nat }.

  (** gain of an entry at sample [t] of the next block *)
  Definition gain (s : transition) (t k : nat) : Qc :=
    between (t_from s k) (t_to s k) (progress steps (t_age s + t + 1)).
  (** the matrix that belongs to gains of the entries *)
  Definition crosspoint (l : list (srouting Qc)) (g : nat -> Qc) (o i : nat) : Qc :=
    qsum (map (fun r => if (s_row r =? o)%nat && (s_col r =? i)%nat then g (s_entry r) else 0) l).
  Definition product (m : nat -> nat -> Qc) (x : list (list Qc)) (o t : nat) : Qc :=
    qsum (map (fun i => m o i * entry x i t) (seq 0 inputs)).
  Definition output (s : transition) (x : list (list Qc)) (o t : nat) : Qc :=
    product (crosspoint (t_routes s) (gain s t)) x o t.

  (** a new list: transition from the previous targets; entries which it does not mention go
      back to where the previous transition started *)
  Definition to_list (l : list (srouting Qc)) (s : transition) : transition :=
    Transition l (t_to s) (fun k => match gain_in l k with Some g => g | None => t_from s k end) 0.
  Definition to_gains (g : list Qc) (s : transition) : transition :=
    Transition (t_routes s) (t_to s) (fun k => nth k g 0) 0.
  Definition pass (s : transition) : transition :=
    Transition (t_routes s) (t_from s) (t_to s) (t_age s + block).

  (** A history, block by block: the routing list and the gains that have arrived, if any *)
  Record slot := Slot { e_list : option (list (srouting Qc)); e_gains : option (list Qc); e_in : list (list Qc) }.
  Definition slot_ok (e : slot) : Prop :=
    (forall l, e_list e = Some l -> is_list l /\ Forall valid l)
    /\ (forall g, e_gains e = Some g -> length g = entries)
    /\ length (e_in e) = inputs /\ Forall (fun x => length x = block) (e_in e).
  Definition update (e : slot) (s : transition) : transition :=
    let s1 := match e_list e with Some l => to_list l s | None => s end in
    match e_gains e with Some g => to_gains g s1 | None => s1 end.
  Fixpoint expected (s : transition) (es : list slot) : list (nat -> nat -> Qc) :=
    match es with
    | [] => []
    | e :: es' => let s' := update e s in output s' (e_in e) :: expected (pass s') es'
    end.
  (** at first all gains are zero, and the initial list is faded in *)
  Definition start (l : list (srouting Qc)) : transition :=
    to_list l (Transition [] (fun _ => 0) (fun _ => 0) 0).
End Spec.
