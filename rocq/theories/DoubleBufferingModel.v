(** Model of visr::pml::DoubleBufferingProtocol and SharedDataProtocol
    (src/libpml/double_buffering_protocol.{hpp,cpp}, shared_data_protocol.{hpp,cpp})
    and of visr::rcl::SceneDecoder::process (src/librcl/scene_decoder.cpp).

    Simplifications: one protocol instance; parameter values are elements of an
    arbitrary type; a sender modifies the parameter through the reference returned
    by Output::data(), modelled as an arbitrary function applied to the value;
    ports are numbers, [in_ty]/[out_ty] say whether the dynamic_cast succeeds. *)

From Verif Require Import Base.

Section DoubleBuffering.
  Context {A : Type} (in_ty out_ty : nat -> bool).

  (** The two heap-allocated parameters [db_cell false], [db_cell true];
      mFrontData points to [db_front], mBackData to the other one
      (double_buffering_protocol.hpp 113-127). *)
  Record db := MkDb {
    db_cell : bool -> A;
    db_front : bool;
    db_inputs : list nat;            (* mInputs *)
    db_output : option nat;          (* mOutput *)
    db_in_proto : nat -> bool;       (* input port: mProtocol != nullptr *)
    db_out_proto : nat -> bool;      (* output port: mProtocol != nullptr *)
    db_changed : nat -> bool         (* input port: mChanged *)
  }.

  Definition fupd {B} (f : nat -> B) (p : nat) (b : B) : nat -> B :=
    fun q => if Nat.eqb q p then b else f q.
  Definition cell_upd (f : bool -> A) (c : bool) (v : A) : bool -> A :=
    fun d => if Bool.eqb d c then v else f d.

  (** std::find over mInputs *)
  Definition found (p : nat) (l : list nat) : bool := existsb (Nat.eqb p) l.
  (** mInputs.erase( find(p) ): the first occurrence *)
  Fixpoint erase1 (p : nat) (l : list nat) : list nat :=
    match l with
    | [] => []
    | q :: r => if Nat.eqb p q then r else q :: erase1 p r
    end.

  (** cpp 37-40 frontData(), 42-50 backData() *)
  Definition front_value (s : db) : A := db_cell s (db_front s).
  Definition back_value (s : db) : A := db_cell s (negb (db_front s)).

  (** Assignment through a reference to cell [c] (e.g. obtained from data()). *)
  Definition write_cell (s : db) (c : bool) (v : A) : db :=
    MkDb (cell_upd (db_cell s) c v) (db_front s) (db_inputs s) (db_output s)
         (db_in_proto s) (db_out_proto s) (db_changed s).

  (** cpp 52-60 swapBuffers( copyValue ) *)
  Definition swap_buffers (copy : bool) (s : db) : db :=
    let s1 := if copy then write_cell s (negb (db_front s)) (front_value s) else s in
    MkDb (db_cell s1) (negb (db_front s1)) (db_inputs s1) (db_output s1)
         (db_in_proto s1) (db_out_proto s1)
         (fun p => if found p (db_inputs s1) then true else db_changed s1 p).

  Inductive db_op :=
  | Edit (p : nat) (f : A -> A)     (* output port p: data() = f( data() ) *)
  | Swap (p : nat) (copy : bool)    (* output port p: swapBuffers( copy ) *)
  | Peek (p : nat)                  (* output port p: read data() *)
  | Read (p : nat)                  (* input port p: read data() *)
  | Changed (p : nat)               (* input port p: changed() *)
  | Reset (p : nat)                 (* input port p: resetChanged() *)
  | DConnIn (p : nat) | DConnOut (p : nat) | DDiscIn (p : nat) | DDiscOut (p : nat).

  Inductive db_out :=
  | DDone | DValue (v : A) | DBool (b : bool) | DExn (e : exn) | DUB.

  Definition db_step (s : db) (o : db_op) : db * db_out :=
    match o with
    | Edit p f =>                                     (* hpp 227-230 *)
        if db_out_proto s p then (write_cell s (db_front s) (f (front_value s)), DDone)
        else (s, DUB)
    | Swap p c =>                                     (* cpp 184-187 *)
        if db_out_proto s p then (swap_buffers c s, DDone) else (s, DUB)
    | Peek p =>
        if db_out_proto s p then (s, DValue (front_value s)) else (s, DUB)
    | Read p =>                                       (* cpp 141-144 *)
        if db_in_proto s p then (s, DValue (back_value s)) else (s, DUB)
    | Changed p => (s, DBool (db_changed s p))        (* cpp 146-149 *)
    | Reset p =>                                      (* cpp 151-154 *)
        (MkDb (db_cell s) (db_front s) (db_inputs s) (db_output s) (db_in_proto s)
              (db_out_proto s) (fupd (db_changed s) p false), DDone)
    | DConnIn p =>                                    (* cpp 62-74 *)
        if negb (in_ty p) then (s, DExn InvalidArgument)
        else (MkDb (db_cell s) (db_front s)
                   (if found p (db_inputs s) then db_inputs s else db_inputs s ++ [p])
                   (db_output s) (fupd (db_in_proto s) p true) (db_out_proto s)
                   (db_changed s), DDone)
    | DConnOut p =>                                   (* cpp 76-89 *)
        if negb (out_ty p) then (s, DExn InvalidArgument)
        else match db_output s with
             | Some _ => (s, DExn InvalidArgument)
             | None => (MkDb (db_cell s) (db_front s) (db_inputs s) (Some p)
                             (db_in_proto s) (fupd (db_out_proto s) p true)
                             (db_changed s), DDone)
             end
    | DDiscIn p =>                                    (* cpp 91-107 *)
        if negb (in_ty p) then (s, DBool false)
        else if negb (found p (db_inputs s)) then (s, DBool false)
        else (MkDb (db_cell s) (db_front s) (erase1 p (db_inputs s)) (db_output s)
                   (fupd (db_in_proto s) p false) (db_out_proto s) (db_changed s),
              DBool true)
    | DDiscOut p =>                                   (* cpp 109-124 *)
        if negb (out_ty p) then (s, DBool false)
        else match db_output s with
             | Some q =>
                 if Nat.eqb p q then
                   (MkDb (db_cell s) (db_front s) (db_inputs s) None (db_in_proto s)
                         (fupd (db_out_proto s) p false) (db_changed s), DBool true)
                 else (s, DBool false)
             | None => (s, DBool false)
             end
    end.

  (** cpp 18-30: both buffers are created with the same initial value [v0];
      input ports start with mProtocol = nullptr, mChanged = false (cpp 133-137). *)
  Definition db_init (v0 : A) : db :=
    MkDb (fun _ => v0) false [] None (fun _ => false) (fun _ => false) (fun _ => false).
End DoubleBuffering.
Arguments db : clear implicits.
Arguments db_op : clear implicits.
Arguments db_out : clear implicits.

(** ** SharedDataProtocol *)
Section SharedData.
  Context {A : Type} (in_ty out_ty : nat -> bool).

  Record sd := MkSd {
    sd_data : A;                     (* mData *)
    sd_inputs : list nat;
    sd_output : option nat;
    sd_in_proto : nat -> bool;
    sd_out_proto : nat -> bool
  }.

  Inductive sd_op :=
  | SEdit (p : nat) (f : A -> A)    (* output port p: data() = f( data() ) *)
  | SRead (p : nat)                 (* input port p: data() *)
  | SConnIn (p : nat) | SConnOut (p : nat) | SDiscIn (p : nat) | SDiscOut (p : nat).

  Inductive sd_out := SDone | SValue (v : A) | SBool (b : bool) | SExn (e : exn) | SUB.

  Definition sd_step (s : sd) (o : sd_op) : sd * sd_out :=
    match o with
    | SEdit p f =>                                    (* shared_data_protocol.hpp OutputBase::data() *)
        if sd_out_proto s p
        then (MkSd (f (sd_data s)) (sd_inputs s) (sd_output s) (sd_in_proto s)
                   (sd_out_proto s), SDone)
        else (s, SUB)
    | SRead p => (s, if sd_in_proto s p then SValue (sd_data s) else SUB)
    | SConnIn p =>                                    (* cpp 36-48 *)
        if negb (in_ty p) then (s, SExn InvalidArgument)
        else if found p (sd_inputs s) then (s, SDone)
        else (MkSd (sd_data s) (sd_inputs s ++ [p]) (sd_output s)
                   (fupd (sd_in_proto s) p true) (sd_out_proto s), SDone)
    | SConnOut p =>                                   (* cpp 50-63 *)
        if negb (out_ty p) then (s, SExn InvalidArgument)
        else match sd_output s with
             | Some _ => (s, SExn InvalidArgument)
             | None => (MkSd (sd_data s) (sd_inputs s) (Some p) (sd_in_proto s)
                             (fupd (sd_out_proto s) p true), SDone)
             end
    | SDiscIn p =>                                    (* cpp 65-80 *)
        if negb (in_ty p) then (s, SBool false)
        else if negb (found p (sd_inputs s)) then (s, SBool false)
        else (MkSd (sd_data s) (erase1 p (sd_inputs s)) (sd_output s)
                   (fupd (sd_in_proto s) p false) (sd_out_proto s), SBool true)
    | SDiscOut p =>                                   (* cpp 82-97 *)
        if negb (out_ty p) then (s, SBool false)
        else match sd_output s with
             | Some q =>
                 if Nat.eqb p q then
                   (MkSd (sd_data s) (sd_inputs s) None (sd_in_proto s)
                         (fupd (sd_out_proto s) p false), SBool true)
                 else (s, SBool false)
             | None => (s, SBool false)
             end
    end.

  Definition sd_init (v0 : A) : sd :=
    MkSd v0 [] None (fun _ => false) (fun _ => false).
End SharedData.
Arguments sd : clear implicits.
Arguments sd_op : clear implicits.
Arguments sd_out : clear implicits.

(** ** SceneDecoder::process (src/librcl/scene_decoder.cpp 30-47)

    [update m ov] models ObjectVectorParser::updateObjectVector( m, ov ): the
    object vector afterwards (possibly partially updated) and whether it returned
    without exception. *)
Section SceneDecoder.
  Context {OV Msg : Type} (update : Msg -> OV -> OV * bool).

  (** One iteration of the while loop; [ref] is the cell the reference [objects]
      (obtained once, line 32) is bound to. *)
  Definition sd_iter (ref : bool) (s : db OV) (m : Msg) : db OV :=
    let '(v, ok) := update m (db_cell s ref) in
    let s1 := write_cell s ref v in
    if ok then swap_buffers false s1 else s1.

  Definition scene_process (s : db OV) (msgs : list Msg) : db OV :=
    fold_left (sd_iter (db_front s)) msgs s.
End SceneDecoder.
