(** Model of rbbl::FilterRoutingList (src/librbbl/filter_routing.{hpp,cpp}) and
    rbbl::SparseGainRoutingList (src/librbbl/sparse_gain_routing.{hpp,cpp}).

    The JSON reader is outside the model: a document is what read_json() delivers, either
    an exception or the list of the array elements, each with its (optional) fields as
    text.  FloatSequence( std::string ) is a parameter; IndexSequence is the model of C13. *)
From Verif Require Import Base OrdSet IndexSequenceModel.
Local Open Scope res_scope.
Local Open Scope nat_scope.

(** static_cast of an IndexSequence element (its values are not negative, C13) *)
Definition to_index (z : Z) : nat := Z.to_nat z.
Definition elt {A} (l : list A) (i : nat) : res A :=
  match nth_error l i with Some x => Ok x | None => UB end.
(** [s.size() == 1 ? s[0] : s[entryIdx]] *)
Definition pick {A} (l : list A) (i : nat) : res A := if length l =? 1 then elt l 0 else elt l i.
(** ptree::get<std::string>( name ): throws ptree_bad_path, a std::runtime_error *)
Definition field (f : option text) : res text := match f with Some t => Ok t | None => Throw RuntimeError end.
(** [for( entryIdx = 0; entryIdx < n; ++entryIdx )] *)
Fixpoint fold_res {S X} (f : S -> X -> res S) (l : list X) (s : S) : res S :=
  match l with [] => Ok s | x :: r => s' <- f s x ;; fold_res f r s' end.

Section FilterRouting.
  Context {G : Type} (gain_one : G) (invalid : nat)    (* cInvalidIndex, hpp 59 *)
          (float_seq : text -> res (list G)) (text_one : text).  (* "1.0" *)

  (** filter_routing.hpp 23-75 *)
  Record frouting := MkF { f_in : nat; f_out : nat; f_filter : nat; f_gain : G }.
  (** CompareEntries, hpp 122-142 *)
  Definition f_less (a b : frouting) : bool :=
    if f_in a <? f_in b then true
    else if f_in b <? f_in a then false
    else f_out a <? f_out b.

  Definition flist := list frouting.

  (** constructor from an initialiser list, cpp 31-42 *)
  Definition f_insert_unique (l : flist) (e : frouting) : res flist :=
    let '(l', ok) := set_insert f_less e l in if ok then Ok l' else Throw InvalidArgument.
  Definition f_construct (es : list frouting) : res flist := fold_res f_insert_unique es [].

  (** addRouting, cpp 125-138 *)
  Definition f_add (l : flist) (e : frouting) : res flist :=
    let '(l', ok) := set_replace f_less e l in
    if ok then Ok l' else Throw LogicError.
  (** removeRouting( entry ), cpp 140-149 *)
  Definition f_remove_entry (l : flist) (e : frouting) : flist * bool :=
    match set_find f_less e l with
    | Some _ => (set_erase f_less e l, true)
    | None => (l, false)
    end.
  (** the value built by FilterRouting( i, o, cInvalidIndex ): with the default gain *)
  Definition f_probe (i o : nat) : frouting := MkF i o invalid gain_one.
  (** removeRouting( i, o ), cpp 151-160 *)
  Definition f_remove (l : flist) (i o : nat) : flist * bool := f_remove_entry l (f_probe i o).
  (** getEntry, hpp 222-227: None stands for the static invalid entry *)
  Definition f_get (l : flist) (i o : nat) : option frouting := set_find f_less (f_probe i o) l.

  (** fromJson, cpp 50-118 *)
  Record fnode := MkFNode { n_input : option text; n_output : option text; n_filter : option text;
                            n_gain : option text }.
  (** 81-92 *)
  Definition f_entries (a c : nat) : res nat :=
    if c =? a then Ok a
    else if a =? 1 then Ok c
    else if c =? 1 then Ok a else Throw InvalidArgument.
  Definition f_node (l : flist) (n : fnode) : res flist :=
    ti <- field (n_input n) ;;
    to <- field (n_output n) ;;
    tf <- field (n_filter n) ;;
    let tg := match n_gain n with Some t => t | None => text_one end in
    ins <- index_sequence ti ;;
    outs <- index_sequence to ;;
    filts <- index_sequence tf ;;
    gains <- float_seq tg ;;
    num <- f_entries (length ins) (length outs) ;;
    (* 95-101 *)
    _ <- (if negb (length filts =? num) && (num =? 1) && negb (length filts =? 1)
          then Throw InvalidArgument else Ok tt) ;;
    (* 104-107 *)
    _ <- (if negb (length gains =? 1) && negb (length gains =? num) then Throw InvalidArgument else Ok tt) ;;
    fold_res (fun l i =>
      a <- pick ins i ;; c <- pick outs i ;; f <- pick filts i ;; g <- pick gains i ;;
      f_add l (MkF (to_index a) (to_index c) (to_index f) g)) (seq 0 num) l.
  Definition f_from_json (doc : res (list fnode)) : res flist :=
    ns <- doc ;; fold_res f_node ns [].
  (** parseJson, cpp 162-172 *)
  Definition f_parse (l : flist) (doc : res (list fnode)) : res unit * flist :=
    match f_from_json doc with
    | Ok l' => (Ok tt, l')
    | Throw e => (Throw e, l)
    | UB => (UB, l)
    end.
End FilterRouting.
Arguments frouting G : clear implicits.

Section SparseGain.
  Context {G : Type} (gain_one : G) (invalid : nat) (float_seq : text -> res (list G)).

  (** sparse_gain_routing.hpp 23-75 *)
  Record srouting := MkS { s_entry : nat; s_row : nat; s_col : nat; s_gain : G }.
  (** CompareEntries, hpp 128-135 *)
  Definition s_less (a b : srouting) : bool := s_entry a <? s_entry b.
  Definition slist := list srouting.

  Definition s_insert_unique (l : slist) (e : srouting) : res slist :=
    let '(l', ok) := set_insert s_less e l in if ok then Ok l' else Throw InvalidArgument.
  Definition s_construct (es : list srouting) : res slist := fold_res s_insert_unique es [].
  (** addRouting, cpp 128-141 *)
  Definition s_add (l : slist) (e : srouting) : res slist :=
    let '(l', ok) := set_replace s_less e l in
    if ok then Ok l' else Throw LogicError.
  (** removeRouting( entry ), cpp 143-152 *)
  Definition s_remove_entry (l : slist) (e : srouting) : slist * bool :=
    match set_find s_less e l with
    | Some _ => (set_erase s_less e l, true)
    | None => (l, false)
    end.
  (** removeRouting( inputIdx, outputIdx ), cpp 154-163: SparseGainRouting( inputIdx, outputIdx,
      cInvalidIndex ) puts the input index into the entry index, which is the key *)
  Definition s_remove (l : slist) (i o : nat) : slist * bool :=
    s_remove_entry l (MkS i o invalid gain_one).
  (** getEntry, hpp 225-230 *)
  Definition s_get (l : slist) (i : nat) : option srouting := set_find s_less (MkS i invalid invalid gain_one) l.

  Record snode := MkSNode { n_index : option text; n_row : option text; n_column : option text;
                            n_sgain : option text }.
  (** fromJson, cpp 48-116: in the branch for a scalar entry index the number of entries is "set" to
      the number of entry indices, i.e. it stays one *)
  Definition s_entries (a c : nat) : res nat :=
    if c =? a then Ok a
    else if a =? 1 then Ok a
    else if c =? 1 then Ok a else Throw InvalidArgument.
  Definition s_node (l : slist) (n : snode) : res slist :=
    te <- field (n_index n) ;;
    tr <- field (n_row n) ;;
    tc <- field (n_column n) ;;
    tg <- field (n_sgain n) ;;
    ents <- index_sequence te ;;
    rows <- index_sequence tr ;;
    cols <- index_sequence tc ;;
    gains <- float_seq tg ;;
    num <- s_entries (length ents) (length rows) ;;
    _ <- (if negb (length cols =? num) && (num =? 1) && negb (length cols =? 1)
          then Throw InvalidArgument else Ok tt) ;;
    _ <- (if negb (length gains =? 1) && negb (length gains =? num) then Throw InvalidArgument else Ok tt) ;;
    fold_res (fun l i =>
      e <- elt ents i ;; r <- pick rows i ;; c <- pick cols i ;; g <- pick gains i ;;
      s_add l (MkS (to_index e) (to_index r) (to_index c) g)) (seq 0 num) l.
  Definition s_from_json (doc : res (list snode)) : res slist :=
    ns <- doc ;; fold_res s_node ns [].
  Definition s_parse (l : slist) (doc : res (list snode)) : res unit * slist :=
    match s_from_json doc with
    | Ok l' => (Ok tt, l')
    | Throw e => (Throw e, l)
    | UB => (UB, l)
    end.
End SparseGain.
Arguments srouting G : clear implicits.
