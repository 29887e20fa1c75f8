(** The OSC 1.0 format, independent of the code. *)
From Coq Require Import List Ascii Arith NArith.
Import ListNotations.

(** numbers with the most significant byte first *)
Fixpoint big_endian (k : nat) (v : N) : list ascii :=
  match k with
  | 0 => []
  | S k' => big_endian k' (v / 256) ++ [ascii_of_N (v mod 256)]
  end.
(** zero bytes up to a multiple of four *)
Definition padded (s : list ascii) : list ascii := s ++ repeat zero ((4 - length s mod 4) mod 4).

Inductive osc_arg := ABool (b : bool) | AInt32 (n : N) | AInt64 (n : N) | AFloat (n : N) | ADouble (n : N)
  | AString (s : list ascii) | ABlob (s : list ascii).
Definition arg_tag (a : osc_arg) : ascii :=
  match a with
  | ABool true => "T" | ABool false => "F" | AInt32 _ => "i" | AInt64 _ => "h" | AFloat _ => "f" | ADouble _ => "d"
  | AString _ => "s" | ABlob _ => "b"
  end%char.
Definition arg_body (a : osc_arg) : list ascii :=
  match a with
  | ABool _ => []
  | AInt32 n | AFloat n => big_endian 4 n
  | AInt64 n | ADouble n => big_endian 8 n
  | AString s => s ++ [zero]
  | ABlob s => big_endian 4 (N.of_nat (length s)) ++ s
  end.
Definition valid_arg (a : osc_arg) : Prop :=
  match a with
  | ABool _ => True
  | AInt32 n | AFloat n => (n < 2 ^ 32)%N
  | AInt64 n | ADouble n => (n < 2 ^ 64)%N
  | AString s => ~ In zero s
  | ABlob s => (N.of_nat (length s) + 4 < 2 ^ 32)%N
  end.

Record content := Content { c_address : list ascii; c_args : list osc_arg }.
Definition encode_message (c : content) : list ascii :=
  padded (c_address c ++ [zero]) ++ padded (","%char :: map arg_tag (c_args c) ++ [zero])
  ++ concat (map (fun a => padded (arg_body a)) (c_args c)).
Definition valid_message (c : content) : Prop :=
  (exists s, c_address c = "/"%char :: s) /\ ~ In zero (c_address c) /\ (forall a, In a (c_args c) -> valid_arg a).

Inductive packet := Nothing | Single (c : content) | Bundle (time : N) (first : packet) (others : list packet).
Fixpoint encode (p : packet) : list ascii :=
  match p with
  | Nothing => []
  | Single c => encode_message c
  | Bundle t f l =>
      let element e := big_endian 4 (N.of_nat (length e)) ++ e in
      ["#"; "b"; "u"; "n"; "d"; "l"; "e"; zero]%char ++ big_endian 8 t ++ element (encode f)
      ++ concat (map (fun q => element (encode q)) l)
  end.
(** valid contents, and sizes that can be represented *)
Inductive valid : packet -> Prop :=
| valid_nothing : valid Nothing
| valid_single c : valid_message c -> valid (Single c)
| valid_bundle t f l : (t < 2 ^ 64)%N -> (forall q, In q (f :: l) -> valid q /\ (N.of_nat (length (encode q)) < 2 ^ 32)%N) ->
    valid (Bundle t f l).
(** the messages with the time of the innermost bundle *)
Fixpoint messages (p : packet) (t : N) : list (N * content) :=
  match p with
  | Nothing => []
  | Single c => [(t, c)]
  | Bundle t' f l => messages f t' ++ concat (map (fun q => messages q t') l)
  end.

(** the value of an argument of a type *)
Definition bool_of (a : osc_arg) : option bool := match a with ABool b => Some b | _ => None end.
Definition int32_of (a : osc_arg) : option N := match a with AInt32 n => Some n | _ => None end.
Definition int64_of (a : osc_arg) : option N := match a with AInt64 n => Some n | _ => None end.
Definition float_of (a : osc_arg) : option N := match a with AFloat n => Some n | _ => None end.
Definition double_of (a : osc_arg) : option N := match a with ADouble n => Some n | _ => None end.
Definition string_of (a : osc_arg) : option (list ascii) := match a with AString s => Some s | _ => None end.
Definition blob_of (a : osc_arg) : option (list ascii) := match a with ABlob s => Some s | _ => None end.
(** the first argument, or a default value if it is missing or has another type *)
Definition first {A} (f : osc_arg -> option A) (default : A) (c : content) : A :=
  match c_args c with
  | a :: _ => match f a with Some v => v | None => default end
  | [] => default
  end.
