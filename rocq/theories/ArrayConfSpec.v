(** Specification of array configuration files, independent of the code that reads them. *)
From Coq Require Import String Permutation.
From Verif Require Import Base MsgModel ArrayConfModel.

Section Spec.
  Context {V : Type} (read_double : list Ascii.ascii -> option V) (read_size : list Ascii.ascii -> option nat).
  Context (from_db : V -> V) (zero : V).

  (** the text of an attribute of an element *)
  Definition attribute (t : tree) (k : string) (w : list Ascii.ascii) : Prop :=
    exists attrs n, kid "<xmlattr>" (t_kids t) = Some attrs /\ kid k (t_kids attrs) = Some n /\ t_data n = w.
  Definition number (t : tree) (k : string) (v : V) : Prop :=
    exists w, attribute t k w /\ read_double w = Some v.
  Definition no_number (t : tree) (k : string) : Prop := forall v, ~ number t k v.

  (** what an element says about a loudspeaker *)
  Definition describes (t : tree) (s : speaker V) : Prop :=
    (exists w, attribute t "id" w /\ read_size w = Some (id s))
    /\ (number t "gain" (gainAdjustment s) /\ no_number t "gainDB"
        \/ no_number t "gain" /\ exists d, number t "gainDB" d /\ gainAdjustment s = from_db d)
    /\ (number t "delay" (delayAdjustment s) \/ no_number t "delay" /\ delayAdjustment s = zero).

  (** the elements of that name below the root, in document order *)
  Definition elements_of (doc : tree) (k : string) (l : list tree) : Prop :=
    exists root, kid "arrayconfiguration" (t_kids doc) = Some root
    /\ l = map snd (filter (fun p => String.eqb k (fst p)) (t_kids root)).

  (** A document with loudspeakers [sp] and subwoofers [su], which together with the loudspeakers
      [old] have the ids 1, 2, ..., n *)
  Definition accepted (old : list (speaker V)) (doc : tree) (sp su : list (speaker V)) : Prop :=
    (exists l, elements_of doc "speaker" l /\ Forall2 describes l sp)
    /\ (exists l, elements_of doc "subwoofer" l /\ Forall2 describes l su)
    /\ Permutation (map id (old ++ sp ++ su)) (seq 1 (length (old ++ sp ++ su))).
End Spec.
