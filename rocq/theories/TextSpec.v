(** The format of the texts that describe vectors and matrices. *)
From Coq Require Import Ascii.
From Verif Require Import Base.

Definition chars := list ascii.
Definition space (c : ascii) : Prop := In (nat_of_ascii c) [9; 10; 11; 12; 13; 32].
Definition blank (t : chars) : Prop := Forall space t.
(** between two numbers: spaces, or a comma, possibly with spaces *)
Definition separator (t : chars) : Prop := blank t \/ exists a b, blank a /\ blank b /\ t = a ++ ","%char :: b.
Definition nonempty_separator (t : chars) : Prop := separator t /\ t <> [].
(** the text after a number that ends it *)
Definition terminated (t : chars) : Prop :=
  match t with [] => True | c :: _ => space c \/ c = ","%char \/ c = "%"%char end.

Section Format.
  Context {num : Type}.
  (** [t] is a notation of the number *)
  Variable written : num -> chars -> Prop.
  Variable sep : chars -> Prop.

  (** a text without numbers: spaces and perhaps a comment *)
  Inductive no_numbers : chars -> Prop :=
  | only_spaces s : blank s -> no_numbers s
  | with_comment s c : blank s -> no_numbers (s ++ "%"%char :: c).
  (** what follows the first number *)
  Inductive tail_text : list num -> chars -> Prop :=
  | tail_end t : no_numbers t -> tail_text [] t
  | tail_more s x t xs r : sep s -> written x t -> tail_text xs r -> tail_text (x :: xs) (s ++ t ++ r).
  Inductive row_text : list num -> chars -> Prop :=
  | row_end t : no_numbers t -> row_text [] t
  | row_more s x t xs r : blank s -> written x t -> tail_text xs r -> row_text (x :: xs) (s ++ t ++ r).

  (** rows separated by newlines or semicolons *)
  Definition row_separator (c : ascii) : Prop := nat_of_ascii c = 10 \/ c = ";"%char.
  Inductive row_texts : list (list num) -> chars -> Prop :=
  | last_row xs t : row_text xs t -> Forall (fun c => ~ row_separator c) t -> row_texts [xs] t
  | more_rows xs t c rows r : row_text xs t -> Forall (fun c => ~ row_separator c) t -> row_separator c ->
      row_texts rows r -> row_texts (xs :: rows) (t ++ c :: r).
End Format.

(** the numbers of the rows that are not empty *)
Definition proper {num} (rows : list (list num)) : list (list num) :=
  filter (fun r => match r with [] => false | _ => true end) rows.

(** how numbers are read *)
Record number_parser {num} (written : num -> chars -> Prop) (lex : chars -> option (num * chars)) : Prop := {
  reads : forall x t r, written x t -> terminated r -> lex (t ++ r) = Some (x, r);
  reads_only : forall l x r, lex l = Some (x, r) -> exists t, written x t /\ l = t ++ r;
  starts : forall x t, written x t ->
    match t with [] => False | c :: _ => ~ space c /\ c <> ","%char /\ c <> "%"%char end }.
