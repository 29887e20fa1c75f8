(** Tables in which the first entry under a name counts; lists of names in texts. *)
From Coq Require Import Ascii.
From Verif Require Import Base.

Definition word := list ascii.
(** the same character, or the same letter in upper and lower case *)
Definition alike (c d : ascii) : Prop :=
  c = d \/ exists k, k < 26 /\ ((nat_of_ascii c = 65 + k /\ nat_of_ascii d = 97 + k) \/
                                (nat_of_ascii c = 97 + k /\ nat_of_ascii d = 65 + k)).
Definition same_letters (a b : word) : Prop := Forall2 alike a b.

(** after the registrations [h], the first one first, the name [n] stands for [v] *)
Definition stands_for {A} (same : word -> word -> Prop) (h : list (word * A)) (n : word) (v : A) : Prop :=
  exists h1 k h2, h = h1 ++ (k, v) :: h2 /\ same k n /\ forall e, In e h1 -> ~ same (fst e) n.
Definition unknown {A} (same : word -> word -> Prop) (h : list (word * A)) (n : word) : Prop :=
  forall e, In e h -> ~ same (fst e) n.

(** the order of words *)
Inductive precedes : word -> word -> Prop :=
| shorter c b : precedes [] (c :: b)
| smaller c d a b : nat_of_ascii c < nat_of_ascii d -> precedes (c :: a) (d :: b)
| later c a b : precedes a b -> precedes (c :: a) (c :: b).

(** words separated by a comma and a space *)
Inductive comma_list : list word -> word -> Prop :=
| no_words : comma_list [] []
| one_word w : comma_list [w] w
| more_words w ws t : ws <> [] -> comma_list ws t -> comma_list (w :: ws) (w ++ [","%char; " "%char] ++ t).

(** directories separated by commas and spaces *)
Definition separating (c : ascii) : Prop := c = ","%char \/ c = " "%char.
Definition directory (d : word) : Prop := d <> [] /\ Forall (fun c => ~ separating c) d.
Inductive directories : list word -> word -> Prop :=
| dir_end s : Forall separating s -> directories [] s
| dir_last s d : Forall separating s -> directory d -> directories [d] (s ++ d)
| dir_more s d c ds t : Forall separating s -> directory d -> separating c -> directories ds t ->
    directories (d :: ds) (s ++ d ++ c :: t).
