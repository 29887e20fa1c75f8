(** What options a command line and an option file define. *)
From Coq Require Import Ascii String.
From Verif Require Import Base OptionModel.
Local Open Scope list_scope.
Local Open Scope nat_scope.

(** how a word can be written in an option file: in quotation marks, with escaped special characters *)
Definition quoted_char (c : ascii) : word :=
  if Ascii.eqb c (ascii_of_nat 92) || Ascii.eqb c (ascii_of_nat 34) then [ascii_of_nat 92; c] else [c].
Definition quote (w : word) : word := [ascii_of_nat 34] ++ flat_map quoted_char w ++ [ascii_of_nat 34].
Definition plain (w : word) : Prop :=
  forall c, In c w -> ~ In c [ascii_of_nat 92; ascii_of_nat 34; " "%char; "="%char; ascii_of_nat 10; ascii_of_nat 13].
(** [x] is a way to write [w] *)
Definition written (w x : word) : Prop := x = quote w \/ (x = w /\ plain w).
Definition separator (c : ascii) : Prop := In c [" "%char; "="%char; ascii_of_nat 10; ascii_of_nat 13].
(** the words one after another, each but the first behind a separator *)
Definition separated (w : word) (rest : list (ascii * word)) : word := w ++ flat_map (fun p => fst p :: snd p) rest.

Section Spec.
  Variable options : list (word * kind).
  Variable valid : nat -> word -> bool.

  Definition names (l : list entry) (n : word) : Prop := n <> [] /\ exists w, In (n, w) l.
  (** the options that are not in [seen] exist, have valid values, and occur once *)
  Definition well_formed (seen : word -> Prop) (l : list entry) : Prop :=
    (forall n w, n <> [] -> In (n, w) l -> ~ seen n -> exists k, In (n, k) options /\ forall t, k = Value t -> valid t w = true)
    /\ (forall n, n <> [] -> ~ seen n -> count_occ (list_eq_dec ascii_dec) (map fst l) n <= 1).
  Definition gives (l : list entry) (n : word) (v : value) : Prop :=
    n <> [] /\ exists w k, In (n, w) l /\ In (n, k) options /\ v = match k with Switch => Flag true | Value t => Text t w end.

  (** command line before option file before default *)
  Definition in_effect (l fl : list entry) (n : word) (v : value) : Prop :=
    gives l n v
    \/ (~ names l n /\ gives fl n v)
    \/ (~ names l n /\ ~ names fl n /\ In (n, Switch) options /\ v = Flag false).

  Definition switched_on (l fl : list entry) (n : word) : Prop := names l n \/ names fl n.
End Spec.
