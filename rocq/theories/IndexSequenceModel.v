(** Model of rbbl::IndexSequence( std::string ) (src/librbbl/index_sequence.cpp).
    The Boost.Spirit grammar [(int_ % ':') % ',' | eps] with skipper ascii::space is
    modelled by the documented behaviour of these parsers; semantic actions are run
    during parsing, in particular exceptions leave the parser immediately. *)
From Coq Require Export Ascii ZArith.
From Verif Require Import Base.
Local Open Scope Z_scope.

Definition text := list ascii.
Definition INT_MAX : Z := 2147483647.
Definition INT_MIN : Z := -2147483648.

(** qi::ascii::space *)
Definition is_space (c : ascii) : bool :=
  let n := nat_of_ascii c in Nat.eqb n 32 || (Nat.leb 9 n && Nat.leb n 13).
Definition is_digit (c : ascii) : bool :=
  let n := nat_of_ascii c in Nat.leb 48 n && Nat.leb n 57.
Definition digit_value (c : ascii) : Z := Z.of_nat (nat_of_ascii c) - 48.

(** the skipper, called before each terminal and at the end *)
Fixpoint skip (l : text) : text :=
  match l with
  | c :: r => if is_space c then skip r else l
  | [] => []
  end.

Fixpoint span_digits (l : text) : text * text :=
  match l with
  | c :: r => if is_digit c then let (a, b) := span_digits r in (c :: a, b) else ([], l)
  | [] => ([], [])
  end.

Definition digits_value (ds : text) : Z := fold_left (fun a d => 10 * a + digit_value d) ds 0.

Definition in_int (v : Z) : bool := (INT_MIN <=? v) && (v <=? INT_MAX).

Definition parse_sign (l : text) : bool * text :=
  match l with
  | c :: r => if Ascii.eqb c "-" then (true, r)
              else if Ascii.eqb c "+" then (false, r) else (false, l)
  | [] => (false, l)
  end.

(** qi::int_ : optional sign, at least one digit, fails if not representable *)
Definition parse_int (l : text) : option (Z * text) :=
  let l1 := skip l in
  let (neg, l2) := parse_sign l1 in
  let (ds, rest) := span_digits l2 in
  match ds with
  | [] => None
  | _ => let v := if neg then - digits_value ds else digits_value ds in
         if in_int v then Some (v, rest) else None
  end.

(** qi::char_( c ) *)
Definition parse_char (c : ascii) (l : text) : option text :=
  match skip l with
  | d :: r => if Ascii.eqb d c then Some r else None
  | [] => None
  end.

Local Open Scope res_scope.

(** continuation of  int_ % ':'  (the list parser backtracks before a separator
    that is not followed by an element) *)
Fixpoint more_ints (fuel : nat) (l : text) : res (list Z * text) :=
  match fuel with
  | O => UB
  | S f =>
      match parse_char ":" l with
      | None => Ok ([], l)
      | Some r =>
          match parse_int r with
          | None => Ok ([], l)
          | Some (v, r') => p <- more_ints f r' ;; Ok (v :: fst p, snd p)
          end
      end
  end.

Definition parse_item (l : text) : option (res (list Z * text)) :=
  match parse_int l with
  | None => None
  | Some (v, r) => Some (p <- more_ints (S (length r)) r ;; Ok (v :: fst p, snd p))
  end.

(** lines 66-70: while( val <= end ) push_back( val++ ) *)
Fixpoint loop_range (fuel : nat) (v e : Z) : res (list Z) :=
  match fuel with
  | O => UB
  | S f => if v <=? e then r <- loop_range f (v + 1) e ;; Ok (v :: r) else Ok []
  end.

(** lines 86-103: int val; signed overflow is undefined *)
Fixpoint loop_step (fuel : nat) (v inc e : Z) : res (list Z) :=
  match fuel with
  | O => UB
  | S f =>
      if (if 0 <? inc then v <=? e else e <=? v)
      then if in_int (v + inc) then r <- loop_step f (v + inc) inc e ;; Ok (v :: r) else UB
      else Ok []
  end.

(** lines 43-110 finish() *)
Definition finish (stack : list Z) : res (list Z) :=
  match stack with
  | [] => Throw InvalidArgument
  | [v] => if v <? 0 then Throw CharPointer else Ok [v]
  | [s; e] =>
      if (s <? 0) || (e <? 0) then Throw CharPointer
      else loop_range (S (S (Z.to_nat (e - s)))) s e
  | [s; inc; e] =>
      if (s <? 0) || (e <? 0) then Throw CharPointer
      else if inc =? 0 then Throw CharPointer
      else loop_step (S (S (Z.to_nat (Z.abs (e - s))))) s inc e
  | _ => Throw InvalidArgument
  end.

(** continuation of  item % ',' *)
Fixpoint more_items (fuel : nat) (l : text) : res (list Z * text) :=
  match fuel with
  | O => UB
  | S f =>
      match parse_char "," l with
      | None => Ok ([], l)
      | Some r =>
          match parse_item r with
          | None => Ok ([], l)
          | Some m =>
              p <- m ;;
              c <- finish (fst p) ;;
              q <- more_items f (snd p) ;;
              Ok (c ++ fst q, snd q)
          end
      end
  end.

(** lines 24-128 *)
Definition index_sequence (l : text) : res (list Z) :=
  p <- match parse_item l with
       | None => Ok ([], l)                          (* qi::eps *)
       | Some m =>
           p <- m ;;
           c <- finish (fst p) ;;
           q <- more_items (S (length (snd p))) (snd p) ;;
           Ok (c ++ fst q, snd q)
       end ;;
  match skip (snd p) with
  | [] => Ok (fst p)
  | _ => Throw InvalidArgument
  end.
