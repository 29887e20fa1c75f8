(** Reading and writing filter parameters: the JSON and XML functions of ParametricIirCoefficient(List)
    and BiquadCoefficient(List) beyond those that object messages use (MsgModel.v).

    Sources: src/librbbl/parametric_iir_coefficient.cpp 143-485, biquad_coefficient.cpp 20-390.

    Simplifications: as in MsgModel.v; XML reader and writer of Boost are a parameter [xmls].  The
    functions BiquadCoefficient(List)::writeXml are not implemented in the code and not modelled, nor is
    the output of loadXml() to std::cout. *)
From Coq Require Import String Ascii ZArith.
From Verif Require Import Base IndexSequenceModel ChannelListModel ObjectVectorModel MsgModel.
Local Open Scope res_scope.
Local Open Scope list_scope.

Record xmls := {
  of_xml : text -> option tree;          (* read_xml() from a stream *)
  to_xml : tree -> text                  (* write_xml() *)
}.
(** the path <xmlattr>.k *)
Definition attr (k : string) : list string := ["<xmlattr>"%string; k].

Section Filters.
  Context (E : floats).
  Local Notation F := (num E).

  (** ** Equaliser parameters *)
  (** ParametricIirCoefficient::loadXml( ptree ), lines 237-252 *)
  Definition load_eq_xml (t : tree) : res (eqc E) :=
    s <- get_text (attr "type") t ;;
    ty <- eq_of_name s ;;
    f <- get_float E (attr "f") t ;;
    q <- get_float E (attr "q") t ;;
    Ok (MkEq ty f q (float_or E (attr "gain") (f0 E) t)).
  (** writeXml( ptree ), lines 312-322, to an empty tree *)
  Definition write_eq_xml (q : eqc E) : tree :=
    let t := put_float E (attr "q") (q_qual q)
             (put_float E (attr "f") (q_freq q) (put (attr "type") (eq_name (q_type q)) empty_tree)) in
    if tiny E (q_gain q) then t else put_float E (attr "gain") (q_gain q) t.
  (** ParametricIirCoefficientList::writeJson( ptree ), lines 414-423 *)
  Definition write_eqs_json (l : list (eqc E)) : tree :=
    fold_left (fun t q => add_child "" (write_eq E q) t) l empty_tree.
  (** ParametricIirCoefficientList::loadXml( ptree ), lines 379-390; writeXml( ptree ) is MsgModel.write_eqs *)
  Fixpoint load_each (l : list tree) : res (list (eqc E)) :=
    match l with
    | [] => Ok []
    | t :: r => q <- load_eq_xml t ;; qs <- load_each r ;; Ok (q :: qs)
    end.
  Definition load_eqs_xml (t : tree) : res (list (eqc E)) := load_each (kids_named "eq" t).

  (** ** Texts *)
  (** ParametricIirCoefficient::writeJson( stream ), writeJson( string ), lines 294-307: the tree is not
      written to the stream *)
  Definition eq_json_text (q : eqc E) : text := let _ := write_eq E q in [].
  (** loadJson( stream ), loadJson( string ), lines 214-234 *)
  Definition eq_of_json_text (s : text) : res (eqc E) :=
    match of_json E s with None => Throw InvalidArgument | Some t => load_eq E t end.
  (** ParametricIirCoefficientList, lines 356-376, 425-446 *)
  Definition eqs_json_text (l : list (eqc E)) : text := to_json E (write_eqs_json l).
  Definition eqs_of_json_text (s : text) : res (list (eqc E)) :=
    match of_json E s with None => Throw InvalidArgument | Some t => load_eqs E (t_kids t) end.
  (** ParametricIirCoefficient::loadXml( stream ), lines 254-266 *)
  Definition eq_of_xml_stream (X : xmls) (s : text) : res (eqc E) :=
    match of_xml X s with None => Throw InvalidArgument | Some t => load_eq_xml t end.
  (** loadXml( string ), lines 268-281: read_xml( std::string ) takes the name of a file *)
  Definition eq_of_xml_string (X : xmls) (file : text -> option text) (s : text) : res (eqc E) :=
    match file s with None => Throw InvalidArgument | Some c => eq_of_xml_stream X c end.

  (** ** Biquad sections *)
  (** BiquadCoefficient::loadJson( ptree ), biquad_coefficient.cpp 76-87, on an object with value [b]:
      its value afterwards, and the outcome *)
  Definition assign_biquad (b : biquad E) (t : tree) : biquad E * res unit :=
    let a0 := float_or E ["a0"%string] (f1 E) t in
    match get_float E ["b0"%string] t with
    | Ok v0 =>
      let b := MkBiquad (fdiv E v0 a0) (b_b1 b) (b_b2 b) (b_a1 b) (b_a2 b) in
      match get_float E ["b1"%string] t with
      | Ok v1 =>
        let b := MkBiquad (b_b0 b) (fdiv E v1 a0) (b_b2 b) (b_a1 b) (b_a2 b) in
        match get_float E ["b2"%string] t with
        | Ok v2 =>
          let b := MkBiquad (b_b0 b) (b_b1 b) (fdiv E v2 a0) (b_a1 b) (b_a2 b) in
          match get_float E ["a1"%string] t with
          | Ok v3 =>
            let b := MkBiquad (b_b0 b) (b_b1 b) (b_b2 b) (fdiv E v3 a0) (b_a2 b) in
            match get_float E ["a2"%string] t with
            | Ok v4 => (MkBiquad (b_b0 b) (b_b1 b) (b_b2 b) (b_a1 b) (fdiv E v4 a0), Ok tt)
            | Throw e => (b, Throw e)
            | UB => (b, UB)
            end
          | Throw e => (b, Throw e)
          | UB => (b, UB)
          end
        | Throw e => (b, Throw e)
        | UB => (b, UB)
        end
      | Throw e => (b, Throw e)
      | UB => (b, UB)
      end
    | Throw e => (b, Throw e)
    | UB => (b, UB)
    end.
  (** loadXml( ptree ), lines 111-131: an element, or a document with an element biquad *)
  Definition load_biquad_xml (t : tree) : res (biquad E) :=
    let t := match kid "biquad" (t_kids t) with None => t | Some c => c end in
    let a0 := float_or E (attr "a0") (f1 E) t in
    a1 <- get_float E (attr "a1") t ;;
    a2 <- get_float E (attr "a2") t ;;
    b0 <- get_float E (attr "b0") t ;;
    b1 <- get_float E (attr "b1") t ;;
    b2 <- get_float E (attr "b2") t ;;
    Ok (MkBiquad (fdiv E b0 a0) (fdiv E b1 a0) (fdiv E b2 a0) (fdiv E a1 a0) (fdiv E a2 a0)).
  (** BiquadCoefficientList::loadXml( ptree ), lines 301-317 *)
  Fixpoint load_each_biquad (l : list tree) : res (list (biquad E)) :=
    match l with
    | [] => Ok []
    | t :: r => b <- load_biquad_xml t ;; bs <- load_each_biquad r ;; Ok (b :: bs)
    end.
  Definition load_biquads_xml (t : tree) : res (list (biquad E)) :=
    let t := match kid "filterSpec" (t_kids t) with None => t | Some c => c end in
    load_each_biquad (kids_named "biquad" t).
  (** BiquadCoefficientList, lines 268-299, 340-370 *)
  Definition biquads_json_text (l : list (biquad E)) : text := to_json E (write_biquads E l).
  Definition biquads_of_json_text (s : text) : res (list (biquad E)) :=
    match of_json E s with None => Throw InvalidArgument | Some t => load_biquads E (kids_named "" t) end.
End Filters.
