(** Model of rbbl::ObjectChannelAllocator
    (src/librbbl/object_channel_allocator.{hpp,cpp}).
    std::map is a list sorted by key; std::sort is modelled by insertion sort. *)
From Coq Require Export ZArith.
From Verif Require Import Base.
Local Open Scope Z_scope.

Definition invalid_id : Z := 4294967295.        (* objectmodel::Object::cInvalidObjectId *)

Record alloc := MkAlloc {
  a_max : nat;                    (* mMaxChannels *)
  a_unused : list nat;            (* mUnusedChannels, top of the stack first *)
  a_lookup : list (Z * nat)       (* mLookup *)
}.

(** cpp 18-27: the stack is filled in descending order, so 0 is on top *)
Definition alloc_new (n : nat) : alloc := MkAlloc n (seq 0 n) [].

Fixpoint insert_sorted (x : Z) (l : list Z) : list Z :=
  match l with
  | [] => [x]
  | y :: r => if x <=? y then x :: l else y :: insert_sorted x r
  end.
Definition sort_ids (l : list Z) : list Z := fold_right insert_sorted [] l.

(** cpp 52-75: first pass, remove entries not in the sorted list *)
Fixpoint pass1 (lookup : list (Z * nat)) : list Z -> list nat -> list (Z * nat) * list nat :=
  fix go (ids : list Z) (unused : list nat) {struct ids} :=
    match lookup with
    | [] => ([], unused)
    | (k, ch) :: rest =>
        match ids with
        | [] => pass1 rest [] (ch :: unused)
        | i :: ids' =>
            if i <? k then go ids' unused
            else if i =? k then let (l, u) := pass1 rest ids' unused in ((k, ch) :: l, u)
            else pass1 rest ids (ch :: unused)
        end
    end.

(** std::map::insert: None if the key exists *)
Fixpoint map_insert (k : Z) (v : nat) (m : list (Z * nat)) : option (list (Z * nat)) :=
  match m with
  | [] => Some [(k, v)]
  | (k', v') :: r =>
      if k <? k' then Some ((k, v) :: m)
      else if k =? k' then None
      else match map_insert k v r with Some r' => Some ((k', v') :: r') | None => None end
  end.

(** cpp 78-95: second pass; [rest] is the part of the map from lookupIt on *)
Fixpoint pass2 (ids : list Z) (rest : list (Z * nat)) (m : list (Z * nat)) (unused : list nat)
  : list (Z * nat) * list nat * res unit :=
  match ids with
  | [] => (m, unused, Ok tt)
  | i :: ids' =>
      if (match rest with [] => true | (k, _) :: _ => i <? k end)
      then match unused with
           | [] => (m, unused, Throw RuntimeError)
           | ch :: unused' =>
               match map_insert i ch m with
               | Some m' => pass2 ids' rest m' unused'
               | None => (m, unused', Throw LogicError)
               end
           end
      else pass2 ids' (tl rest) m unused
  end.

(** cpp 35-98 setObjects(); the state after an exception is kept *)
Definition set_objects (a : alloc) (ids : list Z) : alloc * res unit :=
  if Nat.ltb (a_max a) (length ids) then (a, Throw InvalidArgument)
  else
    let sorted := sort_ids ids in
    let (l1, u1) := pass1 (a_lookup a) sorted (a_unused a) in
    let '(l2, u2, r) := pass2 sorted l1 l1 u1 in
    (MkAlloc (a_max a) u2 l2, r).

(** cpp 102-110 getObjectForChannel() *)
Definition get_object (a : alloc) (ch : nat) : Z :=
  match find (fun kv => Nat.eqb (snd kv) ch) (a_lookup a) with
  | Some kv => fst kv
  | None => invalid_id
  end.
