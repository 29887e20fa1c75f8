(** Model of objectmodel::ObjectVector (src/libobjectmodel/object_vector.hpp/.cpp) and of
    objectmodel::ObjectVectorParser (src/libobjectmodel/object_vector_parser.cpp).

    The concrete object classes are abstract: an object is an id, a type and a body. The
    id is a constant member of Object (object.hpp:241), so that a parser can change the
    body only. Registered types, their parsers and the JSON reader are parameters. *)
From Verif Require Import Base OrdSet.
From Coq Require Import List.
Import ListNotations.
Local Open Scope res_scope.
Local Open Scope nat_scope.

Section ObjectVector.
  Context {T B : Type}.
  Record object := MkObject { o_id : nat; o_type : T; o_body : B }.
  (** Containee::operator<, object_vector.hpp:63-66 *)
  Definition o_less (a b : object) : bool := o_id a <? o_id b.
  Definition vec := list object.
  (** std::set::find( Containee( id ) ): the search key carries no object *)
  Definition v_find (id : nat) (l : vec) : option object := find (fun o => negb (id <? o_id o) && negb (o_id o <? id)) l.

  (** at(), object_vector.cpp:41-59 *)
  Definition v_at (l : vec) (id : nat) : res object :=
    match v_find id l with Some o => Ok o | None => Throw InvalidArgument end.
  (** insert(), object_vector.cpp:61-79 *)
  Definition v_insert (l : vec) (o : object) : vec :=
    fst (set_insert o_less o (match v_find (o_id o) l with Some o' => set_erase o_less o' l | None => l end)).
  (** insert( at( id ) ): the argument refers to the element which is erased before it is
      cloned, object_vector.cpp:63-68 *)
  Definition v_insert_own (l : vec) (id : nat) : res vec :=
    o <- v_at l id ;;
    match v_find (o_id o) l with
    | Some _ => UB
    | None => Ok (v_insert l o)
    end.
  (** remove(), object_vector.cpp:81-89 *)
  Definition v_remove (l : vec) (id : nat) : res vec :=
    match v_find id l with Some o => Ok (set_erase o_less o l) | None => Throw InvalidArgument end.
  (** assign(), object_vector.cpp:26-33: the own content is cleared first *)
  Definition v_assign (rhs : vec) : vec := fold_left (fun l o => fst (set_insert o_less o l)) rhs [].
  (** [v.assign( v )] *)
  Definition v_assign_self (l : vec) : vec := v_assign [].

  (** ** ObjectVectorParser *)
  Context {Name Tree : Type}.
  Context (eqt : T -> T -> bool).
  Context (string_to_type : Name -> res T)      (* stringToObjectType(): may throw *)
          (create : T -> res B)                 (* ObjectFactory::create() *)
          (parser : T -> res (Tree -> B -> res B)). (* ObjectFactory::parser(), ObjectParser::parse() *)
  Record node := MkNode { n_type : option Name; n_id : option nat; n_tree : Tree }.
  (** ptree::get< Type >( path ) *)
  Definition get {X} (f : option X) : res X := match f with Some x => Ok x | None => Throw RuntimeError end.

  (** parseObject(), object_vector_parser.cpp:92-121 *)
  Definition parse_object (l : vec) (n : node) : res vec :=
    name <- get (n_type n) ;;
    id <- get (n_id n) ;;
    t <- string_to_type name ;;
    p <- parser t ;;
    b <- match v_find id l with
         | Some o => if eqt (o_type o) t then Ok (o_body o) else create t
         | None => create t
         end ;;
    b' <- p (n_tree n) b ;;
    Ok (v_insert l (MkObject id t b')).

  (** catch( std::exception ) -> std::invalid_argument; other exceptions pass *)
  Definition rethrow (e : exn) : exn := match e with CharPointer => CharPointer | _ => InvalidArgument end.
  (** updateObjectVector(), object_vector_parser.cpp:57-84: objects are inserted one by
      one. [message] is the result of read_json() and the child "objects", if any. *)
  Fixpoint update_each (l : vec) (ns : list node) : vec * res unit :=
    match ns with
    | [] => (l, Ok tt)
    | n :: r => match parse_object l n with
                | Ok l' => update_each l' r
                | Throw e => (l, Throw (rethrow e))
                | UB => (l, UB)
                end
    end.
  Definition v_update (l : vec) (message : res (option (list node))) : vec * res unit :=
    match message with
    | Ok (Some ns) => update_each l ns
    | Ok None => (l, Throw RuntimeError)
    | Throw e => (l, Throw (rethrow e))
    | UB => (l, UB)
    end.
  (** fillObjectVector(), object_vector_parser.cpp:32-42 *)
  Definition v_fill (l : vec) (message : res (option (list node))) : vec * res unit :=
    match v_update [] message with
    | (new, Ok _) => (new, Ok tt)
    | (_, Throw e) => (l, Throw e)
    | (_, UB) => (l, UB)
    end.
End ObjectVector.
Arguments object : clear implicits.
Arguments node : clear implicits.
