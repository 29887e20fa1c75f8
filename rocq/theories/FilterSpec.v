(** What documents with filter parameters stand for. *)
From Coq Require Import String Ascii ZArith.
From Verif Require Import Base IndexSequenceModel ChannelListModel ObjectVectorModel MsgModel FilterModel.
Local Open Scope list_scope.

(** the element has an attribute with that text *)
Definition has_attr (t : tree) (k : string) (s : text) : Prop :=
  exists a c, kid "<xmlattr>" (t_kids t) = Some a /\ kid k (t_kids a) = Some c /\ t_data c = s.

Section Spec.
  Context (E : floats).
  Definition number (t : tree) (k : string) (x : num E) : Prop := exists s, has_attr t k s /\ readf E s = Some x.
  (** a number that may be missing *)
  Definition number_or (t : tree) (k : string) (d x : num E) : Prop :=
    number t k x \/ ((forall y, ~ number t k y) /\ x = d).
  Definition eq_element (t : tree) (q : eqc E) : Prop :=
    has_attr t "type" (eq_name (q_type q)) /\ number t "f" (q_freq q) /\ number t "q" (q_qual q) /\ number_or t "gain" (f0 E) (q_gain q).
  Definition biquad_element (t : tree) (b : biquad E) : Prop :=
    exists a0 b0 b1 b2 a1 a2, number_or t "a0" (f1 E) a0
      /\ number t "b0" b0 /\ number t "b1" b1 /\ number t "b2" b2 /\ number t "a1" a1 /\ number t "a2" a2
      /\ b = MkBiquad (fdiv E b0 a0) (fdiv E b1 a0) (fdiv E b2 a0) (fdiv E a1 a0) (fdiv E a2 a0).
End Spec.

(** A document has no attributes, only its elements have. *)
Definition documents (X : xmls) : Prop := forall s t, of_xml X s = Some t -> kid "<xmlattr>" (t_kids t) = None.
