(** Model of rcl::SparseGainMatrix (src/librcl/sparse_gain_matrix.cpp/.hpp).

    Samples and gains are exact rationals; the gain fader is the one of GainModel.v, the routing
    lists are those of RoutingListModel.v.  The parameter ports are modelled by what process()
    sees of them: a double-buffered port holds [Some x] if new data x has arrived since the last
    resetChanged() (the flag is cleared at construction, double_buffering_protocol.cpp 128-132),
    a message port its queue.  A port that is not instantiated never receives anything.
    Not modelled: alignment. *)
From Verif Require Import Base Num Memory OrdSet RoutingListModel GainModel.
Local Open Scope Qc_scope.
Local Open Scope res_scope.

Definition routing := srouting Qc.

(** what does not change after construction *)
Record config := Config { c_inputs : nat; c_outputs : nat; c_entries : nat; c_fader : fader }.

(** sparse_gain_matrix.hpp 86-115 *)
Record state := State {
  s_prev : list Qc;                    (* mPreviousGains *)
  s_next : list Qc;                    (* mNextGains *)
  s_routes : list routing;             (* mRoutings *)
  s_ramp : nat;                        (* mRampIndex *)
  s_new_list : option (list routing);  (* mRoutingListInput: changed(), data() *)
  s_points : list routing;             (* mRoutingPointInput *)
  s_new_gains : option (list Qc)       (* mGainInput: changed(), data() *)
}.

(** BasicVector::operator[], write access *)
Fixpoint vec_set (l : list Qc) (k : nat) (x : Qc) : res (list Qc) :=
  match l, k with
  | [], _ => UB
  | _ :: l', O => Ok (x :: l')
  | y :: l', S k' => r <- vec_set l' k' x ;; Ok (y :: r)
  end.
Definition elem {A} (l : list A) (k : nat) : res A :=
  match nth_error l k with Some x => Ok x | None => UB end.
(** a slot of an array of blocks *)
Fixpoint put {A} (l : list A) (k : nat) (x : A) : list A :=
  match l, k with
  | [], _ => []
  | _ :: l', O => x :: l'
  | y :: l', S k' => y :: put l' k' x
  end.

(** BasicVector::swap(), basic_vector.hpp 142-149 *)
Definition vec_swap (a b : list Qc) : res (list Qc * list Qc) :=
  if (length a =? length b)%nat then Ok (b, a) else Throw LogicError.

(** setRoutings(), sparse_gain_matrix.cpp 97-121, the loop: status( Error ) throws
    std::runtime_error (component_implementation.cpp 73-82); the gains written before stay *)
Fixpoint write_gains (c : config) (next : list Qc) (l : list routing) : list Qc * res unit :=
  match l with
  | [] => (next, Ok tt)
  | r :: l' =>
      if (c_entries c <=? s_entry r)%nat then (next, Throw RuntimeError)
      else if (c_outputs c <=? s_row r)%nat then (next, Throw RuntimeError)
      else if (c_inputs c <=? s_col r)%nat then (next, Throw RuntimeError)
      else match vec_set next (s_entry r) (s_gain r) with
           | Ok next' => write_gains c next' l'
           | Throw e => (next, Throw e)
           | UB => (next, UB)
           end
  end.
Definition set_routings (c : config) (s : state) (l : list routing) : state * res unit :=
  let '(next, r) := write_gains c (s_next s) l in
  match r with
  | Ok tt => (State (s_prev s) next l (s_ramp s) (s_new_list s) (s_points s) (s_new_gains s), Ok tt)
  | e => (State (s_prev s) next (s_routes s) (s_ramp s) (s_new_list s) (s_points s) (s_new_gains s), e)
  end.

(** constructor, 16-54 *)
Definition construct (inputs outputs block steps entries : nat) (initial : list routing) : res (config * state) :=
  f <- fader_new block steps ;;
  let c := Config inputs outputs entries f in
  let '(s, r) := set_routings c (State (repeat 0 entries) (repeat 0 entries) [] 0 None [] None) initial in
  _ <- r ;; Ok (c, s).

(** process(), 58-64: a new routing list *)
Definition take_list (c : config) (s : state) : state * res unit :=
  match s_new_list s with
  | None => (s, Ok tt)
  | Some l =>
      match vec_swap (s_prev s) (s_next s) with
      | Ok (p, n) =>
          let '(s', r) := set_routings c (State p n (s_routes s) (s_ramp s) (s_new_list s) (s_points s) (s_new_gains s)) l in
          match r with
          | Ok tt => (State (s_prev s') (s_next s') (s_routes s') 0 None (s_points s') (s_new_gains s'), Ok tt)
          | e => (s', e)
          end
      | Throw e => (s, Throw e)
      | UB => (s, UB)
      end
  end.
(** 65-73: routing points are removed from the queue without effect *)
Definition take_points (s : state) : state :=
  State (s_prev s) (s_next s) (s_routes s) (s_ramp s) (s_new_list s) [] (s_new_gains s).
(** 74-81: a new vector of gains; assign() takes over its size *)
Definition take_gains (s : state) : state * res unit :=
  match s_new_gains s with
  | None => (s, Ok tt)
  | Some g =>
      match vec_swap (s_next s) (s_prev s) with
      | Ok (n, p) => (State p g (s_routes s) 0 (s_new_list s) (s_points s) None, Ok tt)
      | Throw e => (s, Throw e)
      | UB => (s, UB)
      end
  end.

(** 89-93: one routing *)
Definition mix_routing (c : config) (s : state) (inputs : list (list Qc)) (outs : list (list Qc)) (r : routing)
  : res (list (list Qc)) :=
  x <- elem inputs (s_col r) ;;
  o <- elem outs (s_row r) ;;
  p <- elem (s_prev s) (s_entry r) ;;
  n <- elem (s_next s) (s_entry r) ;;
  o' <- fader_scale (c_fader c) x (Some o) p n (s_ramp s) ;;
  Ok (put outs (s_row r) o').
Fixpoint mix (c : config) (s : state) (inputs outs : list (list Qc)) (l : list routing) : res (list (list Qc)) :=
  match l with
  | [] => Ok outs
  | r :: l' => outs' <- mix_routing c s inputs outs r ;; mix c s inputs outs' l'
  end.

(** process(), 56-95 *)
Definition process (c : config) (s : state) (inputs : list (list Qc)) : state * res (list (list Qc)) :=
  match take_list c s with
  | (s1, Ok tt) =>
      match take_gains (take_points s1) with
      | (s2, Ok tt) =>
          let zeros := repeat (repeat 0 (f_block (c_fader c))) (c_outputs c) in
          match mix c s2 inputs zeros (s_routes s2) with
          | Ok outs => (State (s_prev s2) (s_next s2) (s_routes s2) (Nat.min (s_ramp s2 + 1) (f_periods (c_fader c)))
                              (s_new_list s2) (s_points s2) (s_new_gains s2), Ok outs)
          | e => (s2, e)
          end
      | (s2, Throw e) => (s2, Throw e)
      | (s2, UB) => (s2, UB)
      end
  | (s1, Throw e) => (s1, Throw e)
  | (s1, UB) => (s1, UB)
  end.

(** What happens to the component. *)
Inductive op :=
| NewList (l : list routing)
| NewPoint (r : routing)
| NewGains (g : list Qc)
| Process (inputs : list (list Qc)).
Definition step (c : config) (s : state) (o : op) : state * option (res (list (list Qc))) :=
  match o with
  | NewList l => (State (s_prev s) (s_next s) (s_routes s) (s_ramp s) (Some l) (s_points s) (s_new_gains s), None)
  | NewPoint r => (State (s_prev s) (s_next s) (s_routes s) (s_ramp s) (s_new_list s) (s_points s ++ [r]) (s_new_gains s), None)
  | NewGains g => (State (s_prev s) (s_next s) (s_routes s) (s_ramp s) (s_new_list s) (s_points s) (Some g), None)
  | Process x => let '(s', r) := process c s x in (s', Some r)
  end.
(** the state after the calls, and the outcomes of those of process() *)
Fixpoint perform (c : config) (s : state) (ops : list op) : state * list (res (list (list Qc))) :=
  match ops with
  | [] => (s, [])
  | o :: ops' =>
      let '(s1, r) := step c s o in
      let '(s2, rs) := perform c s1 ops' in
      (s2, match r with Some r => r :: rs | None => rs end)
  end.
