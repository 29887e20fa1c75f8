(** Model of pml::ArrayConfiguration: src/libpml/array_configuration.cpp, array_configuration.hpp.

    The document is the property tree Boost's XML reader builds (model of ptree: MsgModel.v); the reader
    itself is not modelled.  Gains and delays are elements of a type [V]; their conversion from text and
    from decibels, and the conversion of an id from text, are parameters.  Ids are natural numbers: the
    addition lhs.id + 1 is performed only for an id below another one and cannot wrap. *)
From Coq Require Import String.
From Verif Require Import Base MsgModel.
From Coq Require Import List.
Local Open Scope res_scope.

Section ArrayConf.
  Context {V : Type}.
  (** ptree::get_optional< double >, ptree::get< std::size_t > on the text of a node *)
  Variable read_double : list Ascii.ascii -> option V.
  Variable read_size : list Ascii.ascii -> option nat.
  (** std::pow( 10.0, x / 20.0 ), the constant 0.0 *)
  Variable from_db : V -> V.
  Variable zero : V.

  (** array_configuration.hpp 31-42 *)
  Record speaker := Speaker { id : nat; gainAdjustment : V; delayAdjustment : V }.
  (** 113-115: std::set ordered by the ids, std::vector *)
  Record state := State { mArray : list speaker; mSubwoofers : list nat }.
  (** array_configuration.cpp 20-22 *)
  Definition empty : state := State [] [].

  (** std::set::insert with CompareSpeakers (hpp 44-50); None if an equivalent element exists *)
  Fixpoint insert (s : speaker) (l : list speaker) : option (list speaker) :=
    match l with
    | [] => Some [s]
    | x :: r => if id s <? id x then Some (s :: l)
                else if id x <? id s then option_map (cons x) (insert s r)
                else None
    end.

  (** ptree::get_optional< double > *)
  Definition optional (k : string) (t : tree) : option V :=
    match child_opt ["<xmlattr>"%string; k] t with
    | Some n => read_double (t_data n)
    | None => None
    end.
  (** cpp 52-64, 76-88: the node of a speaker or subwoofer *)
  Definition read_speaker (t : tree) : res speaker :=
    n <- child ["<xmlattr>"%string; "id"%string] t ;;
    i <- match read_size (t_data n) with Some i => Ok i | None => Throw RuntimeError end ;;
    let gainLinear := optional "gain" t in
    let gainDB := optional "gainDB" t in
    g <- match gainLinear, gainDB with
         | Some g, None => Ok g
         | None, Some d => Ok (from_db d)
         | _, _ => Throw InvalidArgument
         end ;;
    Ok (Speaker i g (match optional "delay" t with Some d => d | None => zero end)).

  (** The object may be changed before an exception is thrown: the results are the state and the
      exception, if any *)
  Definition outcome := (state * option exn)%type.

  (** 50-70 *)
  Fixpoint read_speakers (l : list tree) (st : state) : outcome :=
    match l with
    | [] => (st, None)
    | t :: r =>
        match read_speaker t with
        | Ok s => match insert s (mArray st) with
                  | Some a => read_speakers r (State a (mSubwoofers st))
                  | None => (st, Some InvalidArgument)
                  end
        | Throw e => (st, Some e)
        | UB => (st, None)
        end
    end.
  (** 74-95 *)
  Fixpoint read_subwoofers (l : list tree) (st : state) : outcome :=
    match l with
    | [] => (st, None)
    | t :: r =>
        match read_speaker t with
        | Ok s => match insert s (mArray st) with
                  | Some a => read_subwoofers r (State a (mSubwoofers st ++ [id s]))
                  | None => (st, Some InvalidArgument)
                  end
        | Throw e => (st, Some e)
        | UB => (st, None)
        end
    end.
  (** 104-105 std::adjacent_find *)
  Fixpoint gap (l : list speaker) : bool :=
    match l with
    | x :: ((y :: _) as r) => negb (id x + 1 =? id y) || gap r
    | _ => false
    end.
  (** 98-109 *)
  Definition check (st : state) : outcome :=
    match mArray st with
    | [] => (st, None)
    | x :: _ => if negb (id x =? 1) then (st, Some InvalidArgument)
                else if gap (mArray st) then (st, Some InvalidArgument)
                else (st, None)
    end.
  Definition andthen (o : outcome) (k : state -> outcome) : outcome :=
    match snd o with None => k (fst o) | Some _ => o end.

  (** The file of the given path: not existing or a directory, not readable, not XML (an
      exception derived from std::runtime_error), or a document *)
  Inductive file := Missing | Unreadable | Malformed | Document (t : tree).
  (** 29-110 loadXml *)
  Definition loadXml (f : file) (st : state) : outcome :=
    match f with
    | Missing => (st, Some InvalidArgument)
    | Unreadable => (st, Some InvalidArgument)
    | Malformed => (st, Some RuntimeError)
    | Document t =>
        match child ["arrayconfiguration"%string] t with
        | Ok root =>
            andthen (read_speakers (kids_named "speaker" root) st) (fun st =>
            andthen (read_subwoofers (kids_named "subwoofer" root) st) check)
        | Throw e => (st, Some e)
        | UB => (st, None)
        end
    end.

  (** hpp 64, 66, 68; the subtraction is of unsigned numbers *)
  Definition numberOfOutputs (st : state) : nat := length (mArray st).
  Definition numberOfLoudspeakers (st : state) : option nat :=
    if length (mArray st) <? length (mSubwoofers st) then None   (* wraps around *)
    else Some (length (mArray st) - length (mSubwoofers st)).
  Definition numberOfSubwoofers (st : state) : nat := length (mSubwoofers st).
  (** 79-91 getGains, 93-105 getDelays: the new contents of the vector of the given contents *)
  Definition getGains (st : state) (gains : list V) : res (list V) :=
    if negb (length gains =? numberOfOutputs st) then Throw InvalidArgument
    else Ok (map gainAdjustment (mArray st)).
  Definition getDelays (st : state) (delays : list V) : res (list V) :=
    if negb (length delays =? numberOfOutputs st) then Throw InvalidArgument
    else Ok (map delayAdjustment (mArray st)).

  (** an object on which files were loaded, successfully or not *)
  Definition loaded (files : list file) : state := fold_left (fun st f => fst (loadXml f st)) files empty.
End ArrayConf.
Arguments speaker : clear implicits.
Arguments state : clear implicits.
