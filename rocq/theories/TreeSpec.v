(** What is required of the component tree, in terms of the fields of the objects only. *)

From Coq Require Import Ascii String.
From Verif Require Import Base TreeModel.
Local Open Scope string_scope.
Local Open Scope list_scope.

(** ** The tree *)

(** [c] is an existing component whose parent is [p]. *)
Definition child_of (h : heap) (c p : nat) : Prop := exists x, h_comps h c = Some x /\ c_parent x = Some p.
Definition name_is (h : heap) (c : nat) (name : string) : Prop := exists x, h_comps h c = Some x /\ c_name x = name.
Definition exists_composite (h : heap) (c : nat) : Prop := exists x, h_comps h c = Some x /\ c_composite x = true.
Definition top_level (h : heap) (c : nat) : Prop := exists x, h_comps h c = Some x /\ c_parent x = None.

(** [c] is below [r], by at least one step. *)
Inductive below (h : heap) : nat -> nat -> Prop :=
| below_one c p : child_of h c p -> below h c p
| below_more c p r : child_of h c p -> below h p r -> below h c r.

(** The names from below the top level component [r] down to [c]. *)
Inductive path (h : heap) (r : nat) : nat -> list string -> Prop :=
| path_top : top_level h r -> path h r r []
| path_step c p n l : child_of h c p -> name_is h c n -> path h r p l -> path h r c (l ++ [n]).

Fixpoint join (l : list string) : string :=
  match l with
  | [] => ""
  | [s] => s
  | s :: rest => (s ++ ":" ++ join rest)%string
  end.
Fixpoint has_colon (s : string) : Prop :=
  match s with EmptyString => False | String a s => a = ":"%char \/ has_colon s end.

(** ** Ports *)

Definition port_of (h : heap) (p c : nat) (audio : bool) : Prop :=
  exists y, h_ports h p = Some y /\ p_parent y = Some c /\ p_audio y = audio.
Definition port_name_is (h : heap) (p : nat) (name : string) : Prop := exists y, h_ports h p = Some y /\ p_name y = name.
(** A port that a connection made in [c] may use. *)
Definition reachable_port (h : heap) (c p : nat) (audio : bool) : Prop :=
  exists q, port_of h p q audio /\ (q = c \/ child_of h q c).
Definition exists_port (h : heap) (p : nat) (audio : bool) : Prop := exists y, h_ports h p = Some y /\ p_audio y = audio.
Definition width_is (h : heap) (p w : nat) : Prop := exists y, h_ports h p = Some y /\ p_width y = w.

(** The component that a name stands for in [c]: "" and "this" stand for [c] itself. *)
Definition stands_for (h : heap) (c : nat) (name : string) (d : nat) : Prop :=
  ((name = "" \/ name = "this") /\ d = c) \/ (name <> "" /\ name <> "this" /\ child_of h d c /\ name_is h d name).
Definition names_port (h : heap) (c : nat) (audio : bool) (componentName portName : string) (p : nat) : Prop :=
  exists d, stands_for h c componentName d /\ port_of h p d audio /\ port_name_is h p portName.

(** Whether [c] may connect the channels. *)
Definition connectable (h : heap) (c s : nat) (si : list nat) (r : nat) (ri : list nat) : Prop :=
  reachable_port h c s true /\ reachable_port h c r true /\ length si = length ri /\
  exists ws wr, width_is h s ws /\ width_is h r wr /\ Forall (fun i => i < ws) si /\ Forall (fun i => i < wr) ri.

(** ** Programs *)

(** What a program has to see to: it refers to objects that exist and are of the right type, and
    deletes the ports of a component, which are members of the derived class, before it. *)
Definition legal (h : heap) (o : op) : Prop :=
  match o with
  | NewComponent _ None _ => True
  | NewComponent _ (Some p) _ => exists_composite h p
  | DeleteComponent c => (exists x, h_comps h c = Some x) /\ (forall p audio, ~ port_of h p c audio)
  | NewPort _ c _ _ => exists x, h_comps h c = Some x
  | DeletePort p => exists y, h_ports h p = Some y
  | SetWidth p _ => exists_port h p true
  | Connect c s _ r _ | ConnectAll c s r => exists_composite h c /\ exists_port h s true /\ exists_port h r true
  | ConnectParameter c s r => exists_composite h c /\ exists_port h s false /\ exists_port h r false
  | ConnectNamed c _ _ _ _ _ _ | ConnectParameterNamed c _ _ _ _ => exists_composite h c
  end.

Inductive reachable : heap -> Prop :=
| reachable_start : reachable empty
| reachable_step h o h' : reachable h -> legal h o -> step h o = Ok h' -> reachable h'.

(** The same for whole programs, which catch the exceptions. *)
Fixpoint legal_run (h : heap) (ops : list op) : Prop :=
  match ops with
  | [] => True
  | o :: rest =>
      legal h o /\ match step h o with Ok h => legal_run h rest | Throw _ => legal_run h rest | UB => True end
  end.

(** ** Changes *)

(** Nothing but the components listed in [cs] and the ports listed in [ps] differs. *)
Definition same_except (cs ps : list nat) (h h' : heap) : Prop :=
  (forall c, ~ In c cs -> h_comps h' c = h_comps h c) /\ (forall p, ~ In p ps -> h_ports h' p = h_ports h p).

(** Parts of a component. *)
Definition same_identity (x y : component) : Prop :=
  c_name x = c_name y /\ c_time x = c_time y /\ c_composite x = c_composite y.
Definition same_ports (x y : component) : Prop := c_audio x = c_audio y /\ c_param x = c_param y.
Definition same_connections (x y : component) : Prop := c_aconns x = c_aconns y /\ c_pconns x = c_pconns y.
