(** Model of visr::ChannelRange and visr::ChannelList
    (src/libvisr/channel_list.cpp).  size_t and ptrdiff_t are 64 bit. *)
From Coq Require Import ZArith.
From Verif Require Import Base IndexSequenceModel.
Local Open Scope Z_scope.

Definition to_size (z : Z) : Z := z mod 2 ^ 64.
Definition to_ptrdiff (z : Z) : Z := (z + 2 ^ 63) mod 2 ^ 64 - 2 ^ 63.

Record range := MkRange { r_start : Z; r_end : Z; r_step : Z }.

(** lines 46-54 isValid( start, end, stride ) *)
Definition is_valid (s e step : Z) : bool :=
  if step =? 0 then false else if 0 <? step then s <=? e else e <=? s.

Local Open Scope res_scope.

(** lines 23-32 constructor *)
Definition range_new (s e step : Z) : res range :=
  if is_valid s e step then Ok (MkRange s e step) else Throw InvalidArgument.

(** lines 61-74 size() *)
Definition range_size (r : range) : res Z :=
  if negb (is_valid (r_start r) (r_end r) (r_step r)) then Throw InvalidArgument
  else
    let diff := to_ptrdiff (r_end r - r_start r) in
    if (diff =? - 2 ^ 63) && (r_step r =? -1) then UB       (* overflowing division *)
    else Ok (to_size (Z.quot diff (r_step r) + (if Z.rem diff (r_step r) =? 0 then 0 else 1))).

(** lines 85-89, 101-105 operator[] *)
Definition range_index (r : range) (idx : Z) : Z := to_size (r_step r * idx + r_start r).

(** lines 76-84 at() *)
Definition range_at (r : range) (idx : Z) : res Z :=
  n <- range_size r ;;
  if n <=? idx then Throw OutOfRange else Ok (range_index r idx).

(** lines 165-175 appendRange() *)
Fixpoint append_loop (n : nat) (run step : Z) (l : list Z) : list Z :=
  match n with
  | O => l
  | S n' => append_loop n' (to_size (run + step)) step (l ++ [run])
  end.
Definition append_range (l : list Z) (r : range) : res (list Z) :=
  n <- range_size r ;;
  Ok (append_loop (Z.to_nat n) (r_start r) (r_step r) l).

(** lines 118-128 ChannelList( initializer_list< ChannelRange > ); the sizes are also
    summed up for reserve(), with the same exceptions *)
Fixpoint append_ranges (l : list Z) (rs : list range) : res (list Z) :=
  match rs with
  | [] => Ok l
  | r :: rest => l' <- append_range l r ;; append_ranges l' rest
  end.
Definition list_of_ranges (rs : list range) : res (list Z) := append_ranges [] rs.

(** ostream << size_t, ostream << ptrdiff_t (decimal) *)
Definition digit_char (d : Z) : ascii := ascii_of_nat (48 + Z.to_nat d).
Fixpoint digits_of (fuel : nat) (n : Z) : text :=
  match fuel with
  | O => []
  | S f => if n <? 10 then [digit_char n] else digits_of f (n / 10) ++ [digit_char (n mod 10)]
  end.
Definition print_size (n : Z) : text := digits_of (S (Z.to_nat (Z.log2 n))) n.
Definition print_ptrdiff (z : Z) : text :=
  if z <? 0 then "-"%char :: print_size (- z) else print_size z.

(** lines 198-202: extend the run while the difference stays the same; result: number
    of further elements, last value, remaining elements *)
Fixpoint extend_run (diff curr : Z) (l : list Z) : nat * Z * list Z :=
  match l with
  | x :: r =>
      if to_ptrdiff (x - curr) =? diff
      then let '(n, last, rest) := extend_run diff x r in (S n, last, rest)
      else (O, curr, l)
  | [] => (O, curr, [])
  end.

(** lines 182-228 operator<<; dereferencing the end iterator of an empty list is UB *)
Fixpoint print_channels (fuel : nat) (l : list Z) : res text :=
  match fuel with
  | O => UB
  | S f =>
      match l with
      | [] => UB
      | [x] => Ok (print_size x)
      | x :: y :: r =>
          let diff := to_ptrdiff (y - x) in
          let '(n, last, rest) := extend_run diff y r in
          let '(out, next) :=
            if Nat.leb 2 (1 + n)
            then (print_size x
                  ++ (if diff =? 1 then [] else ":"%char :: print_ptrdiff diff)
                  ++ ":"%char :: print_size last, rest)
            else (print_size x, y :: r) in
          match next with
          | [] => Ok out
          | _ => t <- print_channels f next ;; Ok (out ++ ","%char :: t)
          end
      end
  end.
Definition print_list (l : list Z) : res text := print_channels (S (length l)) l.
