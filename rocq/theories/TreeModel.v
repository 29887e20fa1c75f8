(** The component tree: visr::impl::ComponentImplementation, CompositeComponentImplementation and
    the ports.

    src/libvisr/impl/component_implementation.cpp, composite_component_implementation.cpp,
    port_base_implementation.cpp, audio_port_base_implementation.cpp lines 14-46,
    parameter_port_base_implementation.cpp lines 19-60.

    Objects live on a heap and refer to each other by address.  An address that holds no object
    is [None]; following it is undefined behaviour.  Addresses are not used again after an object
    is deleted.  Not modelled: the texts of messages, sample and parameter types, directions and
    buffers of ports; the order of the connection tables, which are multisets ordered by
    address, is that of insertion. *)

From Coq Require Import String.
From Verif Require Import Base.
Local Open Scope res_scope.

(** struct AudioConnection (audio_connection_descriptor.hpp lines 28-58). *)
Record aconn := AConn { ac_send : nat; ac_sendIndices : list nat; ac_receive : nat; ac_receiveIndices : list nat }.

(** Members of ComponentImplementation (component_implementation.hpp lines 287-338) and of
    CompositeComponentImplementation (composite_component_implementation.hpp lines 134-140);
    the last three are empty for atomic components.  [c_time] is the address of the shared
    TimeImplementation. *)
Record component := Comp {
  c_name : string; c_parent : option nat; c_time : nat; c_audio : list nat; c_param : list nat;
  c_composite : bool; c_children : list nat; c_aconns : list aconn; c_pconns : list (nat * nat) }.

(** Members of PortBaseImplementation and AudioPortBaseImplementation::mWidth. *)
Record port := Port { p_name : string; p_parent : option nat; p_audio : bool; p_width : nat }.

Record heap := Heap { h_next : nat; h_comps : nat -> option component; h_ports : nat -> option port }.
Definition empty : heap := Heap 0 (fun _ => None) (fun _ => None).

Definition upd {A} (f : nat -> option A) (k : nat) (v : option A) : nat -> option A :=
  fun x => if Nat.eqb x k then v else f x.
Definition comp_at (h : heap) (c : nat) : res component := match h_comps h c with Some x => Ok x | None => UB end.
Definition port_at (h : heap) (p : nat) : res port := match h_ports h p with Some x => Ok x | None => UB end.
Definition set_comp (h : heap) (c : nat) (x : option component) : heap := Heap (h_next h) (upd (h_comps h) c x) (h_ports h).
Definition set_port (h : heap) (p : nat) (x : option port) : heap := Heap (h_next h) (h_comps h) (upd (h_ports h) p x).

Definition with_parent (x : component) (p : option nat) : component :=
  Comp (c_name x) p (c_time x) (c_audio x) (c_param x) (c_composite x) (c_children x) (c_aconns x) (c_pconns x).
Definition with_children (x : component) (l : list nat) : component :=
  Comp (c_name x) (c_parent x) (c_time x) (c_audio x) (c_param x) (c_composite x) l (c_aconns x) (c_pconns x).
Definition with_audio (x : component) (l : list nat) : component :=
  Comp (c_name x) (c_parent x) (c_time x) l (c_param x) (c_composite x) (c_children x) (c_aconns x) (c_pconns x).
Definition with_param (x : component) (l : list nat) : component :=
  Comp (c_name x) (c_parent x) (c_time x) (c_audio x) l (c_composite x) (c_children x) (c_aconns x) (c_pconns x).
Definition with_aconns (x : component) (l : list aconn) : component :=
  Comp (c_name x) (c_parent x) (c_time x) (c_audio x) (c_param x) (c_composite x) (c_children x) l (c_pconns x).
Definition with_pconns (x : component) (l : list (nat * nat)) : component :=
  Comp (c_name x) (c_parent x) (c_time x) (c_audio x) (c_param x) (c_composite x) (c_children x) (c_aconns x) l.

(** ** Components *)

(** CompositeComponentImplementation::findComponentEntry
    (composite_component_implementation.cpp lines 83-97). *)
Fixpoint findComponentEntry (h : heap) (name : string) (l : list nat) : res (option nat) :=
  match l with
  | [] => Ok None
  | c :: rest => x <- comp_at h c ;; if String.eqb name (c_name x) then Ok (Some c) else findComponentEntry h name rest
  end.

(** registerChildComponent (lines 47-56). *)
Definition registerChildComponent (h : heap) (parent : nat) (name : string) (child : nat) : res heap :=
  x <- comp_at h parent ;;
  found <- findComponentEntry h name (c_children x) ;;
  match found with
  | Some _ => Throw InvalidArgument
  | None => Ok (set_comp h parent (Some (with_children x (c_children x ++ [child]))))
  end.

(** mComponents.erase( findComponentEntry( name ) ). *)
Fixpoint eraseEntry (h : heap) (name : string) (l : list nat) : res (list nat) :=
  match l with
  | [] => Ok []
  | c :: rest =>
      x <- comp_at h c ;;
      if String.eqb name (c_name x) then Ok rest else rest <- eraseEntry h name rest ;; Ok (c :: rest)
  end.
(** unregisterChildComponent (lines 58-69). *)
Definition unregisterChildComponent (h : heap) (parent child : nat) : res heap :=
  x <- comp_at h parent ;;
  y <- comp_at h child ;;
  l <- eraseEntry h (c_name y) (c_children x) ;;
  Ok (set_comp h parent (Some (with_children x l))).

(** ComponentImplementation::ComponentImplementation (component_implementation.cpp lines 27-44)
    and CompositeComponentImplementation::CompositeComponentImplementation.  Nothing is left of
    an object whose constructor throws. *)
Definition newComponent (h : heap) (name : string) (parent : option nat) (composite : bool) : res (heap * nat) :=
  let c := h_next h in
  match parent with
  | None => Ok (Heap (S c) (upd (h_comps h) c (Some (Comp name None c [] [] composite [] [] []))) (h_ports h), c)
  | Some p =>
      x <- comp_at h p ;;
      h' <- registerChildComponent h p name c ;;
      Ok (Heap (S c) (upd (h_comps h') c (Some (Comp name (Some p) (c_time x) [] [] composite [] [] []))) (h_ports h'), c)
  end.

(** ~CompositeComponentImplementation (composite_component_implementation.cpp lines 34-40). *)
Fixpoint orphan (h : heap) (l : list nat) : res heap :=
  match l with
  | [] => Ok h
  | c :: rest => x <- comp_at h c ;; orphan (set_comp h c (Some (with_parent x None))) rest
  end.
(** ... followed by ~ComponentImplementation (component_implementation.cpp lines 46-52). *)
Definition deleteComponent (h : heap) (c : nat) : res heap :=
  x <- comp_at h c ;;
  h <- orphan h (c_children x) ;;
  x <- comp_at h c ;;
  h <- match c_parent x with Some p => unregisterChildComponent h p c | None => Ok h end ;;
  Ok (set_comp h c None).

(** fullName (component_implementation.cpp lines 61-71).  The depth of the recursion is bounded
    by [fuel]; running out of it stands for a recursion that does not end. *)
Fixpoint fullName (fuel : nat) (h : heap) (c : nat) : res string :=
  match fuel with
  | 0 => UB
  | S fuel =>
      x <- comp_at h c ;;
      match c_parent x with
      | None => Ok (c_name x)
      | Some p =>
          y <- comp_at h p ;;
          match c_parent y with
          | None => Ok (c_name x)
          | Some _ => s <- fullName fuel h p ;; Ok (s ++ ":" ++ c_name x)%string
          end
      end
  end.

(** findComponent (composite_component_implementation.cpp lines 100-118). *)
Definition findComponent (h : heap) (c : nat) (name : string) : res (option nat) :=
  if orb (String.eqb name "") (String.eqb name "this") then Ok (Some c)
  else x <- comp_at h c ;; findComponentEntry h name (c_children x).

(** ** Ports *)

(** findAudioPortEntry, findPortEntry (component_implementation.cpp lines 175-187, 308-337). *)
Fixpoint findPortEntry (h : heap) (name : string) (l : list nat) : res (option nat) :=
  match l with
  | [] => Ok None
  | p :: rest => x <- port_at h p ;; if String.eqb (p_name x) name then Ok (Some p) else findPortEntry h name rest
  end.
Definition ports_of (audio : bool) (x : component) : list nat := if audio then c_audio x else c_param x.
Definition with_ports (audio : bool) (x : component) (l : list nat) : component := if audio then with_audio x l else with_param x l.

(** The constructors of ports, with registerAudioPort (component_implementation.cpp lines
    152-161) and registerParameterPort (lines 234-242). *)
Definition newPort (h : heap) (name : string) (c : nat) (audio : bool) (width : nat) : res (heap * nat) :=
  let p := h_next h in
  x <- comp_at h c ;;
  found <- findPortEntry h name (ports_of audio x) ;;
  match found with
  | Some _ => Throw InvalidArgument
  | None =>
      Ok (Heap (S p) (upd (h_comps h) c (Some (with_ports audio x (ports_of audio x ++ [p]))))
            (upd (h_ports h) p (Some (Port name (Some c) audio width))), p)
  end.

(** The destructors of ports, with unregisterAudioPort (lines 137-150) and
    unregisterParameterPort (lines 244-258): erase( std::find( port ) ). *)
Fixpoint erasePort (p : nat) (l : list nat) : list nat :=
  match l with [] => [] | q :: rest => if Nat.eqb q p then rest else q :: erasePort p rest end.
Definition deletePort (h : heap) (p : nat) : res heap :=
  y <- port_at h p ;;
  h <- match p_parent y with
       | Some c => x <- comp_at h c ;; Ok (set_comp h c (Some (with_ports (p_audio y) x (erasePort p (ports_of (p_audio y) x)))))
       | None => Ok h
       end ;;
  Ok (set_port h p None).

(** AudioPortBaseImplementation::setWidth of a port that is not initialised. *)
Definition setWidth (h : heap) (p : nat) (width : nat) : res heap :=
  y <- port_at h p ;; Ok (set_port h p (Some (Port (p_name y) (p_parent y) (p_audio y) width))).

(** ComponentImplementation::findAudioPort, findParameterPort (lines 189-207, 270-288). *)
Definition findPort (h : heap) (c : nat) (audio : bool) (name : string) : res (option nat) :=
  x <- comp_at h c ;; findPortEntry h name (ports_of audio x).
(** CompositeComponentImplementation::findAudioPort, findParameterPort
    (composite_component_implementation.cpp lines 120-139). *)
Definition findPortIn (h : heap) (c : nat) (audio : bool) (componentName portName : string) : res (option nat) :=
  found <- findComponent h c componentName ;;
  match found with None => Ok None | Some d => findPort h d audio portName end.

(** ** Connections *)

(** checkPortParent (lines 151-165); PortBaseImplementation::parent throws logic_error. *)
Definition checkPortParent (h : heap) (p container : nat) : res unit :=
  y <- port_at h p ;;
  match p_parent y with
  | None => Throw LogicError
  | Some q =>
      if Nat.eqb q container then Ok tt
      else
        x <- comp_at h q ;;
        match c_parent x with
        | Some r => if Nat.eqb r container then Ok tt else Throw InvalidArgument
        | None => Throw InvalidArgument
        end
  end.

Definition addAudio (h : heap) (c : nat) (e : aconn) : res heap :=
  x <- comp_at h c ;; Ok (set_comp h c (Some (with_aconns x (c_aconns x ++ [e])))).
Definition addParameter (h : heap) (c : nat) (e : nat * nat) : res heap :=
  x <- comp_at h c ;; Ok (set_comp h c (Some (with_pconns x (c_pconns x ++ [e])))).

(** maxChannelIndex (lines 228-236). *)
Definition maxChannelIndex (l : list nat) : nat := fold_right Nat.max 0 l.

(** audioConnection with ports and indices (lines 258-291). *)
Definition audioConnection (h : heap) (c : nat) (send : nat) (sendIndices : list nat) (receive : nat) (receiveIndices : list nat) : res heap :=
  _ <- checkPortParent h send c ;;
  _ <- checkPortParent h receive c ;;
  if negb (Nat.eqb (length sendIndices) (length receiveIndices)) then Throw InvalidArgument
  else if Nat.eqb (length sendIndices) 0 then Ok h
  else
    s <- port_at h send ;;
    r <- port_at h receive ;;
    if Nat.leb (p_width s) (maxChannelIndex sendIndices) then Throw InvalidArgument
    else if Nat.leb (p_width r) (maxChannelIndex receiveIndices) then Throw InvalidArgument
    else addAudio h c (AConn send sendIndices receive receiveIndices).

(** audioConnection with ports (lines 293-309); the message of the exception names the parents
    of both ports. *)
Definition audioConnectionAll (h : heap) (c send receive : nat) : res heap :=
  s <- port_at h send ;;
  r <- port_at h receive ;;
  if negb (Nat.eqb (p_width s) (p_width r)) then
    match p_parent s, p_parent r with
    | Some a, Some b => _ <- comp_at h a ;; _ <- comp_at h b ;; Throw InvalidArgument
    | _, _ => Throw LogicError
    end
  else audioConnection h c send (seq 0 (p_width s)) receive (seq 0 (p_width s)).

(** audioConnection with names (lines 201-223). *)
Definition audioConnectionNamed (h : heap) (c : nat) (sendComponent sendPort : string) (sendIndices : list nat)
  (receiveComponent receivePort : string) (receiveIndices : list nat) : res heap :=
  s <- findPortIn h c true sendComponent sendPort ;;
  match s with
  | None => Throw InvalidArgument
  | Some s =>
      r <- findPortIn h c true receiveComponent receivePort ;;
      match r with
      | None => Throw InvalidArgument
      | Some r => addAudio h c (AConn s sendIndices r receiveIndices)
      end
  end.

(** registerParameterConnection (lines 169-199). *)
Definition parameterConnection (h : heap) (c send receive : nat) : res heap :=
  _ <- checkPortParent h send c ;;
  _ <- checkPortParent h receive c ;;
  addParameter h c (send, receive).
Definition parameterConnectionNamed (h : heap) (c : nat) (sendComponent sendPort receiveComponent receivePort : string) : res heap :=
  s <- findPortIn h c false sendComponent sendPort ;;
  match s with
  | None => Throw InvalidArgument
  | Some s =>
      r <- findPortIn h c false receiveComponent receivePort ;;
      match r with
      | None => Throw InvalidArgument
      | Some r => addParameter h c (s, r)
      end
  end.

(** ** Programs *)

Inductive op :=
| NewComponent (name : string) (parent : option nat) (composite : bool)
| DeleteComponent (c : nat)
| NewPort (name : string) (c : nat) (audio : bool) (width : nat)
| DeletePort (p : nat)
| SetWidth (p : nat) (width : nat)
| Connect (c send : nat) (sendIndices : list nat) (receive : nat) (receiveIndices : list nat)
| ConnectAll (c send receive : nat)
| ConnectNamed (c : nat) (sendComponent sendPort : string) (sendIndices : list nat) (receiveComponent receivePort : string) (receiveIndices : list nat)
| ConnectParameter (c send receive : nat)
| ConnectParameterNamed (c : nat) (sendComponent sendPort receiveComponent receivePort : string).

Definition step (h : heap) (o : op) : res heap :=
  match o with
  | NewComponent name parent composite => ' (h, _) <- newComponent h name parent composite ;; Ok h
  | DeleteComponent c => deleteComponent h c
  | NewPort name c audio width => ' (h, _) <- newPort h name c audio width ;; Ok h
  | DeletePort p => deletePort h p
  | SetWidth p width => setWidth h p width
  | Connect c s si r ri => audioConnection h c s si r ri
  | ConnectAll c s r => audioConnectionAll h c s r
  | ConnectNamed c sc sp si rc rp ri => audioConnectionNamed h c sc sp si rc rp ri
  | ConnectParameter c s r => parameterConnection h c s r
  | ConnectParameterNamed c sc sp rc rp => parameterConnectionNamed h c sc sp rc rp
  end.

(** A program that catches the exceptions: they leave the objects as they were. *)
Fixpoint run (h : heap) (ops : list op) : res heap :=
  match ops with
  | [] => Ok h
  | o :: rest => match step h o with Ok h => run h rest | Throw _ => run h rest | UB => UB end
  end.
