(** Model of rbbl::FloatSequence (src/librbbl/float_sequence.cpp).  Numbers are those of
    IEEE 754 (binary32 for float, binary64 for double) as defined by Flocq, with rounding to
    nearest.  The Boost.Spirit grammar [(float_ % ':') % ','] with skipper ascii::space is
    modelled as in IndexSequenceModel.v; the terminal qi::float_ is a parameter [lex], which
    takes a number from the beginning of a text (for double, a binary32 number which is
    converted, lines 123-127). *)
From Coq Require Import String Ascii ZArith.
From Flocq Require Import Core.Core IEEE754.BinarySingleNaN.
From Verif Require Import Base IndexSequenceModel.
Local Open Scope Z_scope.
Local Open Scope res_scope.

Section FloatSequence.
  Context (prec emax : Z) {Hp : Prec_gt_0 prec} {Hm : Prec_lt_emax prec emax}.
  Local Notation num := (binary_float prec emax).
  Context (lex : text -> option (num * text)).
  (** std::ostream << float *)
  Context (show : num -> text).

  Definition zero : num := B754_zero false.
  (** std::numeric_limits< ElementType >::epsilon() *)
  Definition epsilon : num := binary_normalize prec emax Hp Hm mode_NE 1 (1 - prec) false.
  Definition plus (x y : num) : num := Bplus mode_NE x y.
  (** x <= y; false if one of them is not a number *)
  Definition le (x y : num) : bool := Bleb x y.

  (** lines 70-79: while( val <= end ) push_back( val++ ).  The number of iterations is not
      limited by the code; [n] bounds those of the model, and [UB] stands for exceeding it. *)
  Fixpoint loop_up (n : nat) (v inc e : num) : res (list num) :=
    match n with
    | O => UB
    | S n => if le v e then r <- loop_up n (plus v inc) inc e ;; Ok (v :: r) else Ok []
    end.
  (** lines 100-107: while( val >= end ) *)
  Fixpoint loop_down (n : nat) (v inc e : num) : res (list num) :=
    match n with
    | O => UB
    | S n => if le e v then r <- loop_down n (plus v inc) inc e ;; Ok (v :: r) else Ok []
    end.
  (** finish(), lines 57-114 *)
  Definition finish (n : nat) (stack : list num) : res (list num) :=
    match stack with
    | [] => Throw InvalidArgument
    | [v] => Ok [v]
    | [v; e] => loop_up n v Bone e
    | [v; inc; e] =>
        if Bltb (Babs inc) epsilon then Throw CharPointer
        else if Bltb zero inc then loop_up n v inc e
        else loop_down n v inc e
    | _ => Throw InvalidArgument
    end.

  (** qi::float_, after the skipper *)
  Definition parse_real (l : text) : option (num * text) := lex (skip l).
  (** continuation of  float_ % ':'  *)
  Fixpoint more_reals (fuel : nat) (l : text) : list num * text :=
    match fuel with
    | O => ([], l)
    | S f =>
        match parse_char ":" l with
        | None => ([], l)
        | Some r =>
            match parse_real r with
            | None => ([], l)
            | Some (v, r') => let (vs, u) := more_reals f r' in (v :: vs, u)
            end
        end
    end.
  Definition parse_item (l : text) : option (list num * text) :=
    match parse_real l with
    | None => None
    | Some (v, r) => let (vs, u) := more_reals (length r) r in Some (v :: vs, u)
    end.
  (** continuation of  item % ','  *)
  Fixpoint more_items (fuel n : nat) (l : text) : res (list num * text) :=
    match fuel with
    | O => Ok ([], l)
    | S f =>
        match parse_char "," l with
        | None => Ok ([], l)
        | Some r =>
            match parse_item r with
            | None => Ok ([], l)
            | Some (vs, u) => c <- finish n vs ;; q <- more_items f n u ;; Ok (c ++ fst q, snd q)
            end
        end
    end.
  (** FloatSequence( std::string ), lines 44-138: unlike the sequence of indices, the text
      must not be empty *)
  Definition float_sequence (n : nat) (l : text) : res (list num) :=
    match parse_item l with
    | None => Throw InvalidArgument
    | Some (vs, u) =>
        c <- finish n vs ;;
        q <- more_items (length u) n u ;;
        match skip (snd q) with
        | [] => Ok (c ++ fst q)
        | _ => Throw InvalidArgument
        end
    end.
  (** toString(), lines 148-157: each number is followed by the separator, the last one of
      which is removed *)
  Definition to_string (sep : text) (l : list num) : text :=
    let s := concat (map (fun x => show x ++ sep) l) in
    match l with
    | [] => firstn (length s) s          (* size() - separator.size() wraps *)
    | _ => firstn (length s - length sep) s
    end.
End FloatSequence.
