(** Reading OSC packets, and the component ScalarOscDecoder.

    Sources: 3rd/include/oscpkt/oscpkt.hh (classes PacketReader, Message and Message::ArgReader, the
    part for reading), src/librcl/scalar_osc_decoder.cpp.

    Simplifications: pointers are positions in the memory area that starts at the packet (or at the
    storage of the message, which begins at an address that is a multiple of 4, as memory from
    operator new does); size_t and pointers have 64 bits, so that pointer plus 32 bit size does not
    wrap around; floating-point arguments are represented by their bits; assert() is not modelled
    (the asserted conditions are not needed for the results).  Reading outside of the area is undefined. *)
From Coq Require Import Ascii NArith.
From Verif Require Import Base.
Local Open Scope res_scope.

Definition nul : ascii := zero.
Definition bytes := list ascii.

Definition get (d : bytes) (i : nat) : res ascii := match nth_error d i with Some c => Ok c | None => UB end.
(** ceil4(), oscpkt.hh 108 *)
Definition ceil4 (n : nat) : nat := (n + 3) / 4 * 4.
(** isZeroPaddingCorrect(), 111-116 *)
Fixpoint zeros (d : bytes) (p n : nat) : res bool :=
  match n with
  | 0 => Ok true
  | S n' => c <- get d p ;; if (c =? nul)%char then zeros d (S p) n' else Ok false
  end.
Definition isZeroPaddingCorrect (d : bytes) (p : nat) : res bool := zeros d p (ceil4 p - p).
(** bytes2pod() for a type of [n] bytes, 130-139 *)
Fixpoint bytes2pod (d : bytes) (p n : nat) (acc : N) : res N :=
  match n with
  | 0 => Ok acc
  | S n' => c <- get d p ;; bytes2pod d (S p) n' (acc * 256 + N_of_ascii c)%N
  end.
(** memchr( begin() + p, 0, end() - p ) *)
Fixpoint index0 (l : bytes) : option nat :=
  match l with
  | [] => None
  | c :: l' => if (c =? nul)%char then Some 0 else option_map S (index0 l')
  end.
Definition memchr (d : bytes) (p : nat) : res (option nat) :=
  if length d <? p then UB else Ok (option_map (Nat.add p) (index0 (skipn p d))).

(** ErrorCode, 185-191; None is OK_NO_ERROR *)
Inductive errcode :=
| MALFORMED_ADDRESS_PATTERN | MALFORMED_TYPE_TAGS | MALFORMED_ARGUMENTS | UNHANDLED_TYPE_TAGS
| TYPE_MISMATCH | NOT_ENOUGH_ARG | INVALID_BUNDLE | INVALID_PACKET_SIZE.

Record message := Message {
  m_time : N; m_address : bytes; m_tags : bytes; m_arguments : list (nat * nat); m_storage : bytes; m_err : option errcode }.

(** Message::getArgSize(), 440-470; [inr] is the error *)
Definition check_size (d : bytes) (p : nat) (sz : N) : res (nat + errcode) :=
  if (N.of_nat (length d) <? N.of_nat p + sz)%N then Ok (inr MALFORMED_ARGUMENTS)
  else z <- isZeroPaddingCorrect d (p + N.to_nat sz) ;;
       if z then Ok (inl (N.to_nat sz)) else Ok (inr MALFORMED_ARGUMENTS).
Definition getArgSize (d : bytes) (tag : ascii) (p : nat) : res (nat + errcode) :=
  match tag with
  | "T" | "F" => check_size d p 0
  | "i" | "f" => check_size d p 4
  | "h" | "d" => check_size d p 8
  | "s" => q <- memchr d p ;;
           match q with
           | None => Ok (inr MALFORMED_ARGUMENTS)
           | Some q => check_size d p (N.of_nat (q - p) + 1)%N
           end
  | "b" => if (p =? length d)%nat then Ok (inr MALFORMED_ARGUMENTS)
           else n <- bytes2pod d p 4 0 ;; check_size d p ((4 + n) mod 4294967296)%N   (* uint32_t *)
  | _ => Ok (inr UNHANDLED_TYPE_TAGS)
  end%char.
(** the loop over the type tags in buildFromRawData(), 379-386: the arguments, the position after them, the error *)
Fixpoint arguments (d tags : bytes) (p : nat) : res (list (nat * nat) * nat * option errcode) :=
  match tags with
  | [] => Ok ([], p, None)
  | t :: tags' =>
      len <- getArgSize d t p ;;
      match len with
      | inr e => Ok ([], p, Some e)
      | inl n => ' (l, q, e) <- arguments d tags' (p + ceil4 n) ;; Ok ((p, n) :: l, q, e)
      end
  end.
Definition slice (d : bytes) (p q : nat) : bytes := firstn (q - p) (skipn p d).
(** Message::buildFromRawData(), 364-390, called by the constructor, 323 *)
Definition buildFromRawData (d : bytes) (t : N) : res message :=
  let bad a g l e := Ok (Message t a g l d (Some e)) in
  e <- memchr d 0 ;;
  match e with
  | None => bad [] [] [] MALFORMED_ADDRESS_PATTERN
  | Some address_end =>
      z <- isZeroPaddingCorrect d (address_end + 1) ;;
      if negb z then bad [] [] [] MALFORMED_ADDRESS_PATTERN else
      c <- get d 0 ;;
      if negb (c =? "/")%char then bad [] [] [] MALFORMED_ADDRESS_PATTERN else
      let address := slice d 0 address_end in
      let type_tags_beg := ceil4 (address_end + 1) in
      e <- memchr d type_tags_beg ;;
      match e with
      | None => bad address [] [] MALFORMED_TYPE_TAGS
      | Some type_tags_end =>
          z <- isZeroPaddingCorrect d (type_tags_end + 1) ;;
          if negb z then bad address [] [] MALFORMED_TYPE_TAGS else
          c <- get d type_tags_beg ;;
          if negb (c =? ",")%char then bad address [] [] MALFORMED_TYPE_TAGS else
          let tags := slice d (type_tags_beg + 1) type_tags_end in
          ' (l, q, err) <- arguments d tags (ceil4 (type_tags_end + 1)) ;;
          match err with
          | Some e => bad address tags l e
          | None => if negb (q =? length d) then bad address tags l MALFORMED_ARGUMENTS
                    else Ok (Message t address tags l d None)
          end
      end
  end.

Definition bundle_marker : bytes := ["#"; "b"; "u"; "n"; "d"; "l"; "e"; nul]%char.
Fixpoint starts (a d : bytes) : bool :=
  match a, d with
  | [], _ => true
  | x :: a', y :: d' => (x =? y)%char && starts a' d'
  | _ :: _, [] => false
  end.
(** PacketReader::parse(), 533-561: the messages and the error.  [fuel] bounds the recursion; it is
    shown to suffice.  [elements] is the do loop, 543-551, from the position of the remaining bytes. *)
Fixpoint parse (fuel : nat) (d : bytes) (t : N) : res (list message * option errcode) :=
  match fuel with
  | 0 => UB
  | S fuel' =>
      match d with
      | [] => Ok ([], None)
      | c :: _ =>
          if (c =? "#")%char then
            if (20 <=? length d) && starts bundle_marker d
            then t2 <- bytes2pod d 8 8 0 ;; elements fuel' (skipn 16 d) t2
            else Ok ([], Some INVALID_BUNDLE)
          else m <- buildFromRawData d t ;; Ok ([m], m_err m)
      end
  end
with elements (fuel : nat) (d : bytes) (t : N) : res (list message * option errcode) :=
  match fuel with
  | 0 => UB
  | S fuel' =>
      sz <- bytes2pod d 0 4 0 ;;
      let rest := skipn 4 d in
      if negb (sz mod 4 =? 0)%N || (N.of_nat (length rest) <? sz)%N then Ok ([], Some INVALID_BUNDLE)
      else ' (ms, e) <- parse fuel' (firstn (N.to_nat sz) rest) t ;;
           match e, skipn (N.to_nat sz) rest with
           | Some e, _ => Ok (ms, Some e)
           | None, [] => Ok (ms, None)
           | None, rest' => ' (ms', e') <- elements fuel' rest' t ;; Ok (ms ++ ms', e')
           end
  end.
(** PacketReader::init(), 512-518 *)
Definition init (d : bytes) : res (list message * option errcode) :=
  if length d mod 4 =? 0 then parse (S (length d)) d 1 else Ok ([], Some INVALID_PACKET_SIZE).
(** the messages that popMessage() returns, 521-524 *)
Definition popped (r : list message * option errcode) : list message :=
  match r with (ms, None) => ms | (_, Some _) => [] end.

(** *** Message::ArgReader, 228-320 *)
Record reader := Reader { r_err : option errcode; r_idx : nat }.
Definition set_err (e : errcode) (r : reader) : reader :=
  match r_err r with None => Reader (Some e) (r_idx r) | Some _ => r end.
Definition next (r : reader) : reader := Reader (r_err r) (r_idx r + 1).
(** Message::arg(), 361 *)
Definition arg (m : message) : reader := Reader (m_err m) 0.
(** currentTypeTag(), 301-305; None is -1 *)
Definition currentTypeTag (m : message) (r : reader) : option ascii * reader :=
  match r_err r, nth_error (m_tags m) (r_idx r) with
  | None, Some t => (Some t, r)
  | _, _ => (None, set_err NOT_ENOUGH_ARG r)
  end.
Definition is_tag (o : option ascii) (t : ascii) : bool := match o with Some c => (c =? t)%char | None => false end.
(** precheck(), 314-318 *)
Definition precheck (m : message) (tag : ascii) (r : reader) : reader :=
  if length (m_arguments m) <=? r_idx r then set_err NOT_ENOUGH_ARG r
  else match r_err r with
       | Some _ => r
       | None => let '(o, r') := currentTypeTag m r in if is_tag o tag then r' else set_err TYPE_MISMATCH r'
       end.
Definition argument (m : message) (k : nat) : nat * nat := nth k (m_arguments m) (0, 0).
(** popPod(), 306-312, for a type of [n] bytes *)
Definition popPod (m : message) (tag : ascii) (n : nat) (r : reader) : res (N * reader) :=
  let r' := precheck m tag r in
  match r_err r' with
  | None => v <- bytes2pod (m_storage m) (fst (argument m (r_idx r'))) n 0 ;; Ok (v, next r')
  | Some _ => Ok (0%N, r')
  end.
Definition popInt32 m := popPod m "i"%char 4.
Definition popInt64 m := popPod m "h"%char 8.
Definition popFloat m := popPod m "f"%char 4.
Definition popDouble m := popPod m "d"%char 8.
(** popStr(), 262-267: None if the argument is not assigned *)
Definition popStr (m : message) (r : reader) : res (option bytes * reader) :=
  let r' := precheck m "s" r in
  match r_err r' with
  | None => let p := fst (argument m (r_idx r')) in
            q <- memchr (m_storage m) p ;;
            match q with Some q => Ok (Some (slice (m_storage m) p q), next r') | None => UB end
  | Some _ => Ok (None, r')
  end.
(** popBlob(), 269-275: vector::assign() of a range needs a valid range *)
Definition popBlob (m : message) (r : reader) : res (option bytes * reader) :=
  let r' := precheck m "b" r in
  match r_err r' with
  | None => let '(p, n) := argument m (r_idx r') in
            if (n <? 4) || (length (m_storage m) <? p + n) then UB
            else Ok (Some (slice (m_storage m) (p + 4) (p + n)), next r')
  | Some _ => Ok (None, r')
  end.
(** popBool(), 277-285 *)
Definition popBool (m : message) (r : reader) : bool * reader :=
  if length (m_arguments m) <=? r_idx r then (false, next (set_err NOT_ENOUGH_ARG r))
  else let '(o, r1) := currentTypeTag m r in
       if is_tag o "T" then (true, next r1)
       else let '(o, r2) := currentTypeTag m r1 in
            if is_tag o "F" then (false, next r2) else (false, next (set_err TYPE_MISMATCH r2)).

(** *** ScalarOscDecoder *)
(** the outputs that exist *)
Record outputs := Outputs { o_bool : bool; o_int : bool; o_uint : bool; o_float : bool; o_double : bool }.
Inductive datatype := TBool | TInt | TUInt | TFloat | TDouble | TOther.
(** setup(), scalar_osc_decoder.cpp 33-59 *)
Definition setup (o : outputs) (t : datatype) : outputs :=
  match t with
  | TBool => Outputs true (o_int o) (o_uint o) (o_float o) (o_double o)
  | TInt => Outputs (o_bool o) true (o_uint o) (o_float o) (o_double o)
  | TUInt => Outputs (o_bool o) (o_int o) true (o_float o) (o_double o)
  | TFloat => Outputs (o_bool o) (o_int o) (o_uint o) true (o_double o)
  | TDouble => Outputs (o_bool o) (o_int o) (o_uint o) (o_float o) true
  | TOther => o
  end.
(** a value that is enqueued at one of the outputs; integers as bits *)
Inductive value := VBool (b : bool) | VInt (n : N) | VUInt (n : N) | VFloat (n : N) | VDouble (n : N).
(** the body of the inner loop of process(), 73-109: the values that are enqueued *)
Definition when (c : bool) (r : res (list value)) : res (list value) := if c then r else Ok [].
Definition decode (o : outputs) (m : message) : res (list value) :=
  b <- when (o_bool o) (Ok [VBool (fst (popBool m (arg m)))]) ;;
  i <- when (o_int o) (' (v, _) <- popInt32 m (arg m) ;; Ok [VInt v]) ;;
  u <- (if o_uint o then ' (v, _) <- popInt32 m (arg m) ;; Ok (if (2147483648 <=? v)%N then None else Some [VUInt v])
        else Ok (Some [])) ;;
  match u with
  | None => Ok (b ++ i)     (* continue *)
  | Some u =>
      f <- when (o_float o) (' (v, _) <- popFloat m (arg m) ;; Ok [VFloat v]) ;;
      d <- when (o_double o) (' (v, _) <- popDouble m (arg m) ;; Ok [VDouble v]) ;;
      Ok (b ++ i ++ u ++ f ++ d)
  end.
Fixpoint decode_all (o : outputs) (ms : list message) : res (list value) :=
  match ms with
  | [] => Ok []
  | m :: ms' => v <- decode o m ;; w <- decode_all o ms' ;; Ok (v ++ w)
  end.
(** process(), 61-117, with the datagrams in the input queue *)
Fixpoint process (o : outputs) (queue : list bytes) : res (list value) :=
  match queue with
  | [] => Ok []
  | d :: queue' => r <- init d ;; v <- decode_all o (popped r) ;; w <- process o queue' ;; Ok (v ++ w)
  end.
