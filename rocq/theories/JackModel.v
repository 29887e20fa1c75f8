(** Model of rrl::JackInterface (src/libaudiointerfaces/jack_interface.cpp): reading the port
    configuration, the constructor, the life cycle and the process callback.
    The Jack server is modelled by the documented behaviour of the Jack calls used: it keeps
    the ports of this client, their connections and whether the client is active.  The ports
    of other clients, the failures of the server and the audio callback are parameters.
    Simplifications: the JSON text is taken as already split into its entries; console output
    is left out; calls from the control thread and from the Jack thread follow one another
    (no preemption); the server keeps calling a client whose process callback returned 1
    (Jack itself would drop it). *)
From Coq Require Import String.
From Verif Require Import Base Memory IndexSequenceModel ChannelListModel.
Local Open Scope res_scope.

Notation "'txt' s" := (list_ascii_of_string s%string) (at level 0, s at level 0, only parsing).
(** operator== of std::string *)
Definition text_eqb (a b : text) : bool := if list_eq_dec ascii_dec a b then true else false.

(** ** Port configuration *)
(** The subtree "externalport" of an entry, lines 792-797 *)
Record extconf := { x_client : option text; x_name : option text; x_indices : option text }.
(** An entry of "port", lines 756-758 and 791 *)
Record portconf := { p_base : option text; p_indices : option text; p_ext : option extconf }.
(** The subtree "capture" or "playback", lines 731-755 *)
Record dirconf := { d_auto : option bool; d_ports : option (list portconf) }.
(** line 747, 753: put_child( "empty", ... ) *)
Definition empty_entry : portconf := {| p_base := None; p_indices := None; p_ext := None |}.

(** portType is "in_" or "out_" *)
Inductive direction := Capture | Playback.
Definition port_type (d : direction) : text :=
  match d with Capture => txt "in_" | Playback => txt "out_" end.
(** lines 802-805 *)
Definition ext_type (d : direction) : text :=
  match d with Capture => txt "capture_" | Playback => txt "playback_" end.

(** The local variables of loadPortConfig: the two vectors, the two running indices and the
    three optionals that are declared in front of the loop, lines 722-740 *)
Record loading := { l_names : list text; l_exts : list text; l_idx : nat; l_extidx : nat;
                    l_client : option text; l_extbase : option text; l_extind : option text }.

(** std::stringstream << base << index *)
Definition numbered (base : text) (n : Z) : text := base ++ print_size n.

(** lines 759-789: names given by an entry *)
Definition entry_names (num : nat) (d : direction) (e : portconf) : res (list text) :=
  match p_indices e, p_base e with
  | Some ix, Some b =>
      l <- index_sequence ix ;;
      if num <? length l then Throw InvalidArgument else Ok (map (numbered b) l)
  | _, b =>
      let base := match b with Some b => b | None => port_type d end in
      Ok (map (fun k => numbered base (Z.of_nat k)) (seq 0 num))
  end.

(** lines 791-835, body of if( autoConn ).  The writes through portNames[ globalIdx ] and
    extPortNames[ extGlobalIdx ] are unchecked. *)
Definition entry_exts (num : nat) (d : direction) (e : portconf) (s : loading) : res loading :=
  let '(c, b, ix) := match p_ext e with
                     | Some x => (x_client x, x_name x, x_indices x)
                     | None => (l_client s, l_extbase s, l_extind s)
                     end in
  let client := match c with Some c => c | None => txt "system" end in
  let base := match b with Some b => b | None => ext_type d end in
  let full := numbered (client ++ txt ":" ++ base) in
  names <- match ix with
           | Some t => l <- index_sequence t ;; Ok (map full l)
           | None => Ok (map (fun k => full (Z.of_nat (k + 1))) (seq 0 num))
           end ;;
  v <- mem_write (l_exts s) (l_extidx s) names ;;
  Ok {| l_names := l_names s; l_exts := v; l_idx := l_idx s; l_extidx := l_extidx s + length names;
        l_client := Some client; l_extbase := Some base; l_extind := ix |}.

(** one pass of the loop, lines 756-837 *)
Definition load_entry (num : nat) (d : direction) (auto : bool) (s : loading) (e : portconf) : res loading :=
  names <- entry_names num d e ;;
  v <- mem_write (l_names s) (l_idx s) names ;;
  let s1 := {| l_names := v; l_exts := l_exts s; l_idx := l_idx s + length names; l_extidx := l_extidx s;
               l_client := l_client s; l_extbase := l_extbase s; l_extind := l_extind s |} in
  if auto then entry_exts num d e s1 else Ok s1.
Fixpoint load_entries (num : nat) (d : direction) (auto : bool) (s : loading) (l : list portconf) : res loading :=
  match l with
  | [] => Ok s
  | e :: r => s' <- load_entry num d auto s e ;; load_entries num d auto s' r
  end.

(** Config::loadPortConfig, lines 715-853: the port names and the names of the external ports.
    [autoConn] is passed by value. *)
Definition load_ports (num : nat) (d : direction) (auto : bool) (tree : option dirconf)
  : res (list text * list text) :=
  let auto := match tree with
              | Some t => match d_auto t with Some b => b | None => auto end
              | None => auto
              end in
  let entries := match tree with
                 | Some t => match d_ports t with Some l => l | None => [empty_entry] end
                 | None => [empty_entry]
                 end in
  s <- load_entries num d auto
         {| l_names := repeat [] num; l_exts := repeat [] num; l_idx := 0; l_extidx := 0;
            l_client := None; l_extbase := None; l_extind := None |} entries ;;
  if negb (l_idx s =? num) then Throw InvalidArgument
  else if auto && negb (l_extidx s =? num) then Throw InvalidArgument
  else Ok (l_names s, l_exts s).

(** The result of parseSpecificConf, lines 291-334 (the server name only goes to
    jack_client_open and is left out) *)
Record jackconf := { c_client : option text; c_auto : option bool;
                     c_capture : option dirconf; c_playback : option dirconf }.

(** sort and adjacent_find, lines 195-197 *)
Fixpoint has_duplicate (l : list text) : bool :=
  match l with
  | [] => false
  | x :: r => existsb (text_eqb x) r || has_duplicate r
  end.

(** the members of JackInterface::Impl that depend on the configuration *)
Record jack := { k_client : text; k_capture : list text; k_playback : list text;
                 k_capture_ext : list text; k_playback_ext : list text;
                 k_capture_auto : bool; k_playback_auto : bool; k_period : nat }.

(** What the server answers to the constructor, lines 227-278: jack_client_open,
    jack_set_process_callback and the three other registrations (taken together),
    jack_set_buffer_size, and whether its sampling frequency is the requested one *)
Record answers := { w_open : bool; w_callbacks : bool; w_buffer : bool; w_rate : bool }.

(** Impl::Impl, lines 165-279: the object or exception, and whether the server has a client
    opened by the constructor afterwards *)
Definition jack_new (ncap nplay period : nat) (c : jackconf) (w : answers) : res jack * bool :=
  let auto := match c_auto c with Some b => b | None => false end in
  let client := match c_client c with Some (a :: r) => a :: r | _ => txt "VISR" end in
  let parsed :=
    p <- load_ports ncap Capture auto (c_capture c) ;;
    q <- load_ports nplay Playback auto (c_playback c) ;;
    (* line 193 copies the member mCapturePortNames, which is still empty *)
    let member_names := [] in
    if has_duplicate (member_names ++ fst q) then Throw InvalidArgument
    else if negb (length (fst p) =? ncap) then Throw InvalidArgument
    else if negb (length (fst q) =? nplay) then Throw InvalidArgument
    else Ok {| k_client := client; k_capture := fst p; k_playback := fst q;
               k_capture_ext := snd p; k_playback_ext := snd q;
               k_capture_auto := auto; k_playback_auto := auto; k_period := period |} in
  match parsed with
  | Throw e => (Throw e, false)
  | UB => (UB, false)
  | Ok k =>
      if negb (w_open w) then (Throw InvalidArgument, false)
      else if negb (w_callbacks w) then (Throw LogicError, true)
      else if negb (w_buffer w) then (Throw LogicError, true)
      else if negb (w_rate w) then (Throw LogicError, true)
      else (Ok k, true)
  end.

(** ** The server *)
(** A port of this client: identity, direction and short name *)
Record port := { o_id : nat; o_dir : direction; o_name : text }.
Record server := { v_next : nat; v_ports : list port; v_links : list (text * text); v_active : bool }.

(** str.substr( str.find( ":" ) + 1 ), lines 343 and 362 *)
Fixpoint after_colon (l : text) : option text :=
  match l with
  | [] => None
  | c :: r => if Ascii.eqb c ":" then Some r else after_colon r
  end.
Definition short_name (l : text) : text := match after_colon l with Some r => r | None => l end.

Definition dir_eqb (a b : direction) : bool :=
  match a, b with Capture, Capture | Playback, Playback => true | _, _ => false end.
Definition pair_eqb (a b : text * text) : bool := text_eqb (fst a) (fst b) && text_eqb (snd a) (snd b).

Section Jack.
  Context {A F W : Type}.
  Variable feq : F -> F -> bool.
  Variable call : F -> W -> list (list A) -> W * res (list (list A)).
  (** ports of other clients that can be read from (outputs) and written to (inputs) *)
  Variable other_output other_input : text -> bool.
  (** whether the server accepts a new port when it has so many of this client *)
  Variable accepts : nat -> text -> bool.
  Variable k : jack.

  (** full name of a port of this client *)
  Definition full_name (short : text) : text := k_client k ++ txt ":" ++ short.

  (** jack_port_register: null if the name is in use or the server refuses *)
  Definition server_register (d : direction) (name : text) (v : server) : option nat * server :=
    if existsb (fun p => text_eqb (o_name p) name) (v_ports v) || negb (accepts (length (v_ports v)) name)
    then (None, v)
    else (Some (v_next v),
          {| v_next := S (v_next v);
             v_ports := v_ports v ++ [{| o_id := v_next v; o_dir := d; o_name := name |}];
             v_links := v_links v; v_active := v_active v |}).
  Definition find_port (id : nat) (v : server) : option port :=
    find (fun p => o_id p =? id) (v_ports v).
  (** connections that do not end at the port *)
  Definition unlinked (p : port) (l : list (text * text)) : list (text * text) :=
    filter (fun c => negb (text_eqb (match o_dir p with Capture => snd c | Playback => fst c end)
                                    (full_name (o_name p)))) l.
  (** jack_port_disconnect (the interface only reports a failure) *)
  Definition server_disconnect (id : nat) (v : server) : server :=
    match find_port id v with
    | None => v
    | Some p => {| v_next := v_next v; v_ports := v_ports v; v_links := unlinked p (v_links v);
                   v_active := v_active v |}
    end.
  (** jack_port_unregister *)
  Definition server_unregister (id : nat) (v : server) : server :=
    match find_port id v with
    | None => v
    | Some p => {| v_next := v_next v; v_ports := filter (fun q => negb (o_id q =? id)) (v_ports v);
                   v_links := unlinked p (v_links v); v_active := v_active v |}
    end.
  Definition own (d : direction) (name : text) (v : server) : bool :=
    existsb (fun p => dir_eqb (o_dir p) d && text_eqb (full_name (o_name p)) name) (v_ports v).
  (** jack_connect( source, destination ): fails if one is not there or they are connected *)
  Definition server_connect (src dst : text) (v : server) : server :=
    if (own Playback src v || other_output src) && (own Capture dst v || other_input dst)
       && negb (existsb (pair_eqb (src, dst)) (v_links v)) && v_active v
    then {| v_next := v_next v; v_ports := v_ports v; v_links := v_links v ++ [(src, dst)];
            v_active := v_active v |}
    else v.
  Definition set_active (b : bool) (v : server) : server :=
    {| v_next := v_next v; v_ports := v_ports v; v_links := if b then v_links v else [];
       v_active := b |}.

  (** ** Life cycle *)
  (** mCapturePorts, mPlaybackPorts, mInitialised, mCallback; and the server *)
  Record state := { t_capture : list (option nat); t_playback : list (option nat);
                    t_init : bool; t_callback : option F; t_server : server }.
  Definition initial : state :=
    {| t_capture := repeat None (length (k_capture k)); t_playback := repeat None (length (k_playback k));
       t_init := false; t_callback := None;
       t_server := {| v_next := 0; v_ports := []; v_links := []; v_active := false |} |}.

  (** the loops of registerPorts, lines 338-374: the port pointers from [old] replaced until
      one registration fails *)
  Fixpoint register_loop (d : direction) (names : list text) (old : list (option nat)) (v : server)
    : bool * list (option nat) * server :=
    match names, old with
    | n :: r, o :: q =>
        match server_register d (short_name n) v with
        | (None, v') => (false, o :: q, v')
        | (Some id, v') => let '(ok, l, v'') := register_loop d r q v' in (ok, Some id :: l, v'')
        end
    | _, _ => (true, old, v)
    end.
  (** unregisterPorts, lines 380-408 *)
  Definition unregister_loop (l : list (option nat)) (v : server) : server :=
    fold_left (fun v o => match o with Some id => server_unregister id v | None => v end) l v.
  Definition unregister_ports (s : state) : state :=
    {| t_capture := map (fun _ => None) (t_capture s); t_playback := map (fun _ => None) (t_playback s);
       t_init := t_init s; t_callback := t_callback s;
       t_server := unregister_loop (t_playback s) (unregister_loop (t_capture s) (t_server s)) |}.
  (** registerPorts, lines 336-378 *)
  Definition register_ports (s : state) : res unit * state :=
    let '(ok, cap, v) := register_loop Capture (k_capture k) (t_capture s) (t_server s) in
    if ok then
      let '(ok2, play, v2) := register_loop Playback (k_playback k) (t_playback s) v in
      let s2 := {| t_capture := cap; t_playback := play; t_init := t_init s;
                   t_callback := t_callback s; t_server := v2 |} in
      if ok2 then (Ok tt, s2) else (Throw RuntimeError, unregister_ports s2)
    else (Throw RuntimeError,
          unregister_ports {| t_capture := cap; t_playback := t_playback s; t_init := t_init s;
                              t_callback := t_callback s; t_server := v |}).
  (** connectPorts, lines 410-449 *)
  Definition connect_ports (s : state) : state :=
    let v1 := if k_capture_auto k
              then fold_left (fun v p => server_connect (snd p) (full_name (fst p)) v)
                             (combine (k_capture k) (k_capture_ext k)) (t_server s)
              else t_server s in
    let v2 := if k_playback_auto k
              then fold_left (fun v p => server_connect (full_name (fst p)) (snd p) v)
                             (combine (k_playback k) (k_playback_ext k)) v1
              else v1 in
    {| t_capture := t_capture s; t_playback := t_playback s; t_init := t_init s;
       t_callback := t_callback s; t_server := v2 |}.
  (** disconnectPorts, lines 451-490 *)
  Definition disconnect_loop (l : list (option nat)) (v : server) : server :=
    fold_left (fun v o => match o with Some id => server_disconnect id v | None => v end) l v.
  Definition disconnect_ports (s : state) : state :=
    let v1 := if k_capture_auto k then disconnect_loop (t_capture s) (t_server s) else t_server s in
    let v2 := if k_playback_auto k then disconnect_loop (t_playback s) v1 else v1 in
    {| t_capture := t_capture s; t_playback := t_playback s; t_init := t_init s;
       t_callback := t_callback s; t_server := v2 |}.
  Definition with_init (b : bool) (s : state) : state :=
    {| t_capture := t_capture s; t_playback := t_playback s; t_init := b;
       t_callback := t_callback s; t_server := t_server s |}.
  Definition with_server (v : server) (s : state) : state :=
    {| t_capture := t_capture s; t_playback := t_playback s; t_init := t_init s;
       t_callback := t_callback s; t_server := v |}.
  Definition with_callback (f : option F) (s : state) : state :=
    {| t_capture := t_capture s; t_playback := t_playback s; t_init := t_init s;
       t_callback := f; t_server := t_server s |}.

  (** start, lines 492-508; [fails]: jack_activate returns an error *)
  Definition jack_start (fails : bool) (s : state) : res unit * state :=
    let s1 := if t_init s then with_init false (unregister_ports (disconnect_ports s)) else s in
    if fails then (Throw RuntimeError, s1)
    else
      match register_ports (with_server (set_active true (t_server s1)) s1) with
      | (Ok _, s2) => (Ok tt, with_init true (connect_ports s2))
      | r => r
      end.
  (** stop, lines 510-524; [fails]: jack_deactivate returns an error *)
  Definition jack_stop (fails : bool) (s : state) : res unit * state :=
    if t_init s then
      let s1 := unregister_ports (disconnect_ports (with_init false s)) in
      if fails then (Throw RuntimeError, s1)
      else (Ok tt, with_server (set_active false (t_server s1)) s1)
    else (Ok tt, s).
  (** lines 526-545 *)
  Definition jack_register (f : F) (s : state) : state := with_callback (Some f) s.
  Definition jack_unregister (f : F) (s : state) : bool * state :=
    match t_callback s with
    | Some g => if feq g f then (true, with_callback None s) else (false, s)
    | None => (false, s)
    end.

  (** ** Processing *)
  (** jack_port_get_buffer for every port, lines 625-647: the short names of the ports whose
      buffers are taken; a null port is undefined *)
  Definition port_names (d : direction) (l : list (option nat)) (v : server) : res (list text) :=
    map_res (fun o => match o with
                      | None => UB
                      | Some id => match find_port id v with
                                   | Some p => if dir_eqb (o_dir p) d then Ok (o_name p) else UB
                                   | None => UB
                                   end
                      end) l.
  Inductive event :=
  | Returned (r : res unit)
  | Answered (b : bool)
  | Code (n : nat)                         (* value returned by the process callback; no output written *)
  | Played (out : list (text * list A))    (* returned 0 and wrote these buffers *)
  | Escaped (e : exn) | Undefined
  | Quiet.                                 (* the client is not active *)
  (** process and processCallbackFunction, lines 567-581 and 603-623: only std::exception is
      caught.  [input]: the samples at the input port of the given short name *)
  Definition jack_process (n : nat) (input : text -> list A) (s : state) (w : W) : W * event :=
    if negb (n =? k_period k) then (w, Code 1)
    else
      match t_callback s with
      | Some f =>
          if t_init s then
            match (ins <- port_names Capture (t_capture s) (t_server s) ;;
                   outs <- port_names Playback (t_playback s) (t_server s) ;; Ok (ins, outs)) with
            | Ok (ins, outs) =>
                match call f w (map input ins) with
                | (w', Ok ys) => (w', Played (combine outs ys))
                | (w', Throw CharPointer) => (w', Escaped CharPointer)
                | (w', Throw _) => (w', Code 1)
                | (w', UB) => (w', Undefined)
                end
            | Throw e => (w, Escaped e)
            | UB => (w, Undefined)
            end
          else (w, Code 0)
      | None => (w, Code 0)
      end.

  Inductive op := Register (f : F) | Unregister (f : F) | Start (fails : bool) | Stop (fails : bool)
                | Process (n : nat) (input : text -> list A).
  Definition jack_step (sw : state * W) (o : op) : (state * W) * event :=
    let (s, w) := sw in
    match o with
    | Register f => ((jack_register f s, w), Answered true)
    | Unregister f => let (b, s') := jack_unregister f s in ((s', w), Answered b)
    | Start fails => let (r, s') := jack_start fails s in ((s', w), Returned r)
    | Stop fails => let (r, s') := jack_stop fails s in ((s', w), Returned r)
    | Process n input =>
        if v_active (t_server s) then let (w', e) := jack_process n input s w in ((s, w'), e)
        else (sw, Quiet)
    end.
  (** the destructor, lines 281-289: an exception leaving it ends the program *)
  Definition jack_destroy (fails : bool) (s : state) : bool :=
    match jack_stop fails s with (Ok _, _) => true | _ => false end.
End Jack.
Arguments state F : clear implicits.
Arguments op A F : clear implicits.
Arguments event A : clear implicits.
