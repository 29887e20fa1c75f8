(** Model of how threads share the Python interpreter: src/libpythonsupport/initialisation_guard.cpp
    20-68, src/libpythonsupport/gil_ensure_guard.cpp 14-35, and the constructor and destructor of
    Wrapper, src/libpythoncomponents/wrapper.cpp 101-255, as far as they use the interpreter.

    The global interpreter lock (GIL) and the functions of the C interface follow its documentation
    and CPython's pystate.c: each thread has a thread state with a counter; the functions called here
    are atomic, except that they wait while another thread holds the lock.  The switching of threads
    by the interpreter (a thread within a guard gives the lock to another for a while and waits
    until it gets it back) is left out, as is initialise() being called by several threads at
    once (C++ guarantees that the static object is constructed once). *)
From Verif Require Import Base.

(** what a thread does: create a GilEnsureGuard, destroy it, use the interpreter or its objects *)
Inductive action := Enter | Leave | Python.
(** Programs: guards are local variables, so they are destroyed at the end of a scope, also when it
    is left by an exception *)
Inductive code := Done | Use (next : code) | Scope (body next : code).
Fixpoint actions (c : code) : list action :=
  match c with
  | Done => []
  | Use next => Python :: actions next
  | Scope body next => Enter :: actions body ++ Leave :: actions next
  end.

(** PyGILState_STATE: whether the thread held the lock before *)
Inductive gilstate := LOCKED | UNLOCKED.
(** remaining actions; mState of the guards that exist, the last one first; counter of the thread state, 0
    if there is none *)
Record thread := Thread { todo : list action; saved : list gilstate; counter : nat }.
(** who holds the lock; the threads *)
Record state := State { owner : option nat; threads : nat -> thread }.
Definition set_thread (f : nat -> thread) (i : nat) (t : thread) : nat -> thread := fun j => if j =? i then t else f j.

(** what happens when a thread continues: it waits (or has no more to do), breaks the rules, or goes on *)
Inductive outcome := Waits | Fatal | Next (s : state).
(** PyGILState_Ensure, gil_ensure_guard.cpp 20 *)
Definition ensure (s : state) (i : nat) (rest : list action) : outcome :=
  let t := threads s i in
  let enter st := Next (State (Some i) (set_thread (threads s) i (Thread rest (st :: saved t) (S (counter t))))) in
  match owner s with
  | None => enter UNLOCKED
  | Some o => if o =? i then enter LOCKED else Waits
  end.
Definition holds (s : state) (i : nat) : bool := match owner s with Some o => o =? i | None => false end.
(** PyGILState_Release, gil_ensure_guard.cpp 25: it is an error if the thread does not hold the lock.  The
    thread state is deleted, and the lock released, when the counter becomes 0; otherwise the lock is
    released if it was not held before. *)
Definition release (s : state) (i : nat) (rest : list action) : outcome :=
  let t := threads s i in
  match saved t with
  | [] => Fatal
  | st :: sv =>
      if negb (holds s i) || (counter t =? 0) then Fatal
      else
        let c := counter t - 1 in
        let free := match st with UNLOCKED => true | LOCKED => c =? 0 end in
        Next (State (if free then None else Some i) (set_thread (threads s) i (Thread rest sv c)))
  end.
Definition step (s : state) (i : nat) : outcome :=
  match todo (threads s i) with
  | [] => Waits
  | Enter :: rest => ensure s i rest
  | Leave :: rest => release s i rest
  | Python :: rest =>
      if holds s i then Next (State (owner s) (set_thread (threads s) i (Thread rest (saved (threads s i)) (counter (threads s i)))))
      else Fatal
  end.
(** the threads continue in the order of a schedule; None after an error *)
Fixpoint run (s : state) (schedule : list nat) : option state :=
  match schedule with
  | [] => Some s
  | i :: schedule' =>
      match step s i with
      | Next s' => run s' schedule'
      | Waits => run s schedule'
      | Fatal => None
      end
  end.

(** initialize_interpreter() by thread 0, initialisation_guard.cpp 25: that thread has a thread state
    and holds the lock *)
Definition initialize_interpreter (program : nat -> code) : state :=
  State (Some 0) (fun i => Thread (actions (program i)) [] (if i =? 0 then 1 else 0)).
(** PyEval_SaveThread, 34 *)
Definition save_thread (s : state) : state := State None (threads s).
(** initialise(), 64-68 *)
Definition initialise (program : nat -> code) : state := save_thread (initialize_interpreter program).
(** PyEval_RestoreThread in the destructor, 44: None if it waits *)
Definition restore_thread (s : state) : option state :=
  match owner s with None => Some (State (Some 0) (threads s)) | Some _ => None end.

(** *** Wrapper *)
Fixpoint uses (n : nat) (next : code) : code := match n with 0 => next | S n' => Use (uses n' next) end.
(** where the constructor fails: loading the module (117-124), looking up the class (137-151), evaluating
    the arguments (155-169), creating the object (171-181), its conversion (183-191), creating ports
    (195-246) *)
Inductive stage := Load | Lookup | Arguments | Instantiate | Cast | Ports.
(** how many of the members mModule, mComponentClass, mComponentWrapper are set then *)
Definition members (st : stage) : nat :=
  match st with Load => 0 | Lookup => 1 | Arguments => 2 | Instantiate => 2 | Cast => 3 | Ports => 3 end.
(** The constructor of Wrapper::Impl, 101-248: its body has a guard.  After an exception the local
    variables are destroyed first, then the members: each that is set releases its object. *)
Definition constructor (fails : option stage) (next : code) : code :=
  match fails with
  | None => Scope (uses 5 Done) next
  | Some st => Scope (uses (S (members st)) Done) (uses (members st) next)
  end.
(** the destructor, 250-255 *)
Definition destructor (next : code) : code := Scope (uses (members Ports) Done) next.
