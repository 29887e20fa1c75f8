(** Model of pml::SignalRoutingParameter (src/libpml/signal_routing_parameter.hpp/.cpp),
    rcl::SignalRouting (src/librcl/signal_routing.hpp/.cpp) and
    rcl::ChannelObjectRoutingCalculator (src/librcl/channel_object_routing_calculator.cpp).
    std::set and std::map are modelled by sorted lists (OrdSet.v) and first-come
    association lists. *)
From Verif Require Import Base OrdSet.
From Verif Require Export IndexSequenceModel.
From Coq Require Import List.
Import ListNotations.
Local Open Scope res_scope.
Local Open Scope nat_scope.

(** left fold with early exit: a for loop whose body may throw *)
Fixpoint loop {S X} (f : S -> X -> res S) (l : list X) (s : S) : res S :=
  match l with
  | [] => Ok s
  | x :: r => s' <- f s x ;; loop f r s'
  end.

(** ** pml::SignalRoutingParameter *)

(** Entry, signal_routing_parameter.hpp:46-51 *)
Record entry := MkEntry { e_in : nat; e_out : nat }.
(** CompareEntries, signal_routing_parameter.hpp:53-60 *)
Definition e_less (a b : entry) : bool := e_out a <? e_out b.

Section RoutingParameter.
  (** cInvalidIndex = std::numeric_limits<std::size_t>::max(), hpp:40 *)
  Variable invalid : nat.
  Definition routings := list entry.

  (** constructor from an initialiser list, cpp:20-33 *)
  Definition p_insert_unique (l : routings) (e : entry) : res routings :=
    let '(l', b) := set_insert e_less e l in if b then Ok l' else Throw InvalidArgument.
  Definition p_construct (es : list entry) : res routings := loop p_insert_unique es [].
  (** addRouting(), cpp:48-56 *)
  Definition p_add (l : routings) (e : entry) : routings := fst (set_replace e_less e l).
  (** removeEntry( Entry ), cpp:58-70 *)
  Definition p_remove_entry (l : routings) (e : entry) : routings * bool :=
    match set_find e_less e l with
    | Some f => if e_in f =? e_in e then (set_erase e_less f l, true) else (l, false)
    | None => (l, false)
    end.
  (** removeEntry( outputIdx ), cpp:72-82 *)
  Definition p_remove (l : routings) (o : nat) : routings * bool :=
    match set_find e_less (MkEntry invalid o) l with
    | Some f => (set_erase e_less f l, true)
    | None => (l, false)
    end.
  (** getEntry(), hpp:124-130 *)
  Definition p_get_entry (l : routings) (o : nat) : entry :=
    match set_find e_less (MkEntry invalid o) l with Some e => e | None => MkEntry invalid invalid end.
  (** getInput(), hpp:132-136 *)
  Definition p_get_input (l : routings) (o : nat) : nat :=
    match set_find e_less (MkEntry invalid o) l with Some e => e_in e | None => invalid end.
  (** getOutput(), cpp:86-93 *)
  Definition p_get_output (l : routings) (i : nat) : nat :=
    match find (fun e => e_in e =? i) l with Some e => e_out e | None => invalid end.

  (** qi::uint_ : at least one digit, fails beyond the range of unsigned int *)
  Definition UINT_MAXZ : Z := 4294967295.
  Definition parse_uint (t : text) : option (nat * text) :=
    let (ds, rest) := span_digits (skip t) in
    match ds with
    | [] => None
    | _ => if (digits_value ds <=? UINT_MAXZ)%Z then Some (Z.to_nat (digits_value ds), rest) else None
    end.
  (** [uint_ >> '=' >> uint_] *)
  Definition parse_pair (t : text) : option (entry * text) :=
    match parse_uint t with
    | Some (i, t1) =>
        match parse_char "=" t1 with
        | Some t2 => match parse_uint t2 with
                     | Some (o, t3) => Some (MkEntry i o, t3)
                     | None => None
                     end
        | None => None
        end
    | None => None
    end.
  (** qi::blank with its pre-skip: the skipper removes every blank before *)
  Definition is_blank (c : ascii) : bool := Nat.eqb (nat_of_ascii c) 32 || Nat.eqb (nat_of_ascii c) 9.
  Definition parse_blank (t : text) : option text :=
    match skip t with c :: r => if is_blank c then Some r else None | [] => None end.
  Definition parse_separator (t : text) : option text :=
    match parse_char "," t with Some r => Some r | None => parse_blank t end.
  (** [pair % separator]: the semantic action addRouting() runs after each pair; the
      iterator is reset to the end of the last pair if no further pair follows. *)
  Fixpoint parse_more (fuel : nat) (l : routings) (t : text) : res (routings * text) :=
    match fuel with
    | 0 => UB
    | S fuel => match parse_separator t with
                | Some t1 => match parse_pair t1 with
                             | Some (e, t2) => parse_more fuel (p_add l e) t2
                             | None => Ok (l, t)
                             end
                | None => Ok (l, t)
                end
    end.
  (** parse(), cpp:97-137: the result is the new table and the return value *)
  Definition p_parse (l : routings) (t : text) : res (routings * bool) :=
    match parse_pair t with
    | None => Ok (l, false)
    | Some (e, t1) => ' p <- parse_more (S (length t1)) (p_add [] e) t1 ;;
                      match skip (snd p) with
                      | [] => Ok (fst p, true)
                      | _ => Ok (l, false)
                      end
    end.
End RoutingParameter.

(** ** rcl::SignalRouting *)
Section Routing.
  Context {R : Type} (zero : R) (add : R -> R -> R).
  Variable invalid : nat.

  (** RoutingEntry = std::tuple< output, input >, compared lexicographically *)
  Definition t_less (a b : nat * nat) : bool :=
    (fst a <? fst b) || ((fst a =? fst b) && (snd a <? snd b)).
  Record routing := MkRouting { r_in : nat; r_out : nat; r_control : bool; r_table : list (nat * nat) }.
  Definition with_table (s : routing) t := MkRouting (r_in s) (r_out s) (r_control s) t.

  (** checkRoutingIndexRanges(), signal_routing.cpp:129-144 *)
  Definition check (s : routing) (i o : nat) : res unit :=
    if negb (i =? invalid) && (r_in s <=? i) then Throw InvalidArgument
    else if (r_out s <=? o) || (o =? invalid) then Throw InvalidArgument
    else Ok tt.
  (** setRouting( in, out ), signal_routing.cpp:116-120 *)
  Definition r_set (s : routing) (i o : nat) : res routing :=
    _ <- check s i o ;; Ok (with_table s (fst (set_insert t_less (o, i) (r_table s)))).
  (** removeRouting(), signal_routing.cpp:122-127 *)
  Definition r_remove (s : routing) (i o : nat) : res (routing * bool) :=
    _ <- check s i o ;;
    match set_find t_less (o, i) (r_table s) with
    | Some _ => Ok (with_table s (set_erase t_less (o, i) (r_table s)), true)
    | None => Ok (s, false)
    end.
  (** setRouting( SignalRoutingParameter ), signal_routing.cpp:104-114: the table is
      modified while the entries are checked. The second component says whether the
      call returned normally. *)
  Fixpoint r_set_each (s : routing) (es : list entry) : routing * bool :=
    match es with
    | [] => (s, true)
    | e :: r => match r_set s (e_in e) (e_out e) with
                | Ok s' => r_set_each s' r
                | _ => (s, false)
                end
    end.
  Definition r_set_all (s : routing) (es : list entry) : routing * bool := r_set_each (with_table s []) es.
  (** setup( inputWidth, outputWidth, controlPort ), signal_routing.cpp:27-36 *)
  Definition r_setup (i o : nat) (control : bool) : routing := MkRouting i o control [].
  (** setup( inputWidth, outputWidth, initialRouting, controlPort ), signal_routing.cpp:38-50:
      [setup( inputWidth, outputWidth )] uses the default [controlPort = false] *)
  Definition r_setup_initial (i o : nat) (es : list entry) (control : bool) : res routing :=
    loop (fun s e => r_set s (e_in e) (e_out e)) es (r_setup i o false).

  (** The control update in process(), signal_routing.cpp:57-80 *)
  Definition r_update (s : routing) (es : list entry) : routing :=
    match loop (fun t e => _ <- check s (e_in e) (e_out e) ;;
                           Ok (fst (set_insert t_less (e_out e, e_in e) t))) es [] with
    | Ok t => with_table s t
    | _ => s (* reported on std::cerr *)
    end.

  (** efl::vectorAddInplace, elementwise [dest[i] += op[i]] *)
  Fixpoint add_inplace (op dest : list R) : list R :=
    match dest, op with
    | d :: dest', x :: op' => add d x :: add_inplace op' dest'
    | _, _ => dest
    end.
  Fixpoint upd {A} (l : list A) (k : nat) (f : A -> A) : list A :=
    match l, k with
    | [], _ => []
    | x :: r, 0 => f x :: r
    | x :: r, S k => x :: upd r k f
    end.
  (** the loops of process(), signal_routing.cpp:82-101; channel pointers beyond the width
      of a port are undefined behaviour *)
  Definition r_mix (table : list (nat * nat)) (x : list (list R)) (y : list (list R)) : res (list (list R)) :=
    loop (fun y '(o, i) => match nth_error x i, nth_error y o with
                           | Some xi, Some _ => Ok (upd y o (add_inplace xi))
                           | _, _ => UB
                           end) table y.
  (** process(), signal_routing.cpp:52-102. [control] is the content of the control input
      if it has been changed since the last call. *)
  Definition r_process (period : nat) (s : routing) (control : option (list entry)) (x : list (list R))
    : routing * res (list (list R)) :=
    let s := match control with
             | Some es => if r_control s then r_update s es else s
             | None => s
             end in
    (s, r_mix (r_table s) x (repeat (repeat zero period) (r_out s))).
End Routing.

(** ** rcl::ChannelObjectRoutingCalculator *)
Section Calculator.
  Context {L : Type} (eql : L -> L -> bool).

  Fixpoint lookup (x : L) (m : list (L * nat)) : option nat :=
    match m with
    | [] => None
    | (y, v) :: r => if eql x y then Some v else lookup x r
    end.
  Record calculator := MkCalculator { c_channels : nat; c_lookup : list (L * nat) }.
  (** constructor, channel_object_routing_calculator.cpp:24-51; [ids] are the labels
      config.loudspeakerId( 0 ), ... of the regular loudspeakers *)
  Definition c_construct (channels : nat) (ids : list L) : res calculator :=
    m <- loop (fun m '(id, k) => match lookup id m with
                                 | Some _ => Throw InvalidArgument
                                 | None => Ok (m ++ [(id, k)])
                                 end) (combine ids (seq 0 (length ids))) [] ;;
    Ok (MkCalculator channels m).

  (** An object: [None] if its type is not ChannelObject, else the channel indices of the
      base class and the output labels of each channel *)
  Definition object := option (list nat * list (list L)).

  (** loop over the channels, channel_object_routing_calculator.cpp:83-105 *)
  Definition c_channel (c : calculator) (outs : list (list L)) (l : routings) (p : nat * nat) : res routings :=
    let '(k, ch) := p in
    if c_channels c <? ch then Ok l
    else match nth_error outs k with
         | None => Throw OutOfRange   (* ChannelObject::outputChannel() *)
         | Some [lbl] => match lookup lbl (c_lookup c) with
                         | Some o => Ok (p_add l (MkEntry ch o))
                         | None => Ok l
                         end
         | Some _ => Ok l             (* status( Warning ) *)
         end.
  Definition c_object (c : calculator) (l : routings) (o : object) : res routings :=
    match o with
    | None => Ok l
    | Some (chans, outs) => loop (c_channel c outs) (combine (seq 0 (length chans)) chans) l
    end.
  (** process( objects, routings ), channel_object_routing_calculator.cpp:66-107 *)
  Definition c_process (c : calculator) (objects : list object) : res routings :=
    loop (c_object c) objects [].
End Calculator.
